(** Vocabulary for C85: the mesh before and after create_contact_mesh. *)
From Coq Require Import List Arith ZArith QArith Bool Permutation.
Import ListNotations.
From Verif Require Import Prelude PointCloudModel GhostingModel ContactMeshModel.
Local Open Scope nat_scope.

(** Coordinate [j] of a node and of a vertex of a rank's mesh. *)
Definition coordinate (x : list Q) (g j : nat) : Q := nth (g * 3 + j) x 0%Q.
Definition vertex_coordinate (m : rank_mesh) (v j : nat) : Q := coordinate (rm_x m) (rm_v2g m v) j.

(** Local vertices: owned and ghosts. *)
Definition local_vertex (m : rank_mesh) (v : nat) : Prop := v < rm_vertices m + length (rm_ghosts m).

(** Global number, in the input of create_mesh, of vertex [v] of the new mesh: the node at the
    vertex, looked up in original_input_indices. *)
Definition input_vertex (n : new_mesh) (v : nat) : nat := nth (nm_v2g n v) (nm_input n) 0.
(** Midpoint of facet [f] of a rank's mesh: the average of its vertices. *)
Definition facet_center (m : rank_mesh) (f : nat) : pt :=
  let vs := nth f (rm_facets m) [] in
  let avg j := (fold_right Qplus 0 (map (fun v => vertex_coordinate m v j) vs) / inject_Z (Z.of_nat (length vs)))%Q in
  (avg 0, avg 1, avg 2).

(** DOLFINx' create_mesh on rank [q], given the cells (by global input vertices), the
    coordinates and the destinations from all ranks: the rank holds exactly the cells sent
    to it, and a vertex lies where the input array puts it. *)
Definition created (gdim : nat) (topo : list (list (list nat))) (xs : list (list Q)) (dests : nat -> adj nat) (q : nat) (n : new_mesh) : Prop :=
  (forall cell, In cell (nm_cells n) -> exists r c, r < length topo /\ c < length (nth r topo []) /\ In q (links (dests r) c) /\
      Permutation (map (input_vertex n) cell) (nth c (nth r topo []) [])) /\
  (forall r c, r < length topo -> c < length (nth r topo []) -> In q (links (dests r) c) -> exists cell, In cell (nm_cells n) /\
      Permutation (map (input_vertex n) cell) (nth c (nth r topo []) [])) /\
  (forall cell v j, In cell (nm_cells n) -> In v cell -> j < gdim ->
      coordinate (nm_x n) (nm_v2g n v) j = nth (input_vertex n v * gdim + j) (concat xs) 0%Q).

(** The new mesh on rank [q] as create_contact_mesh asks for it. *)
Definition contact_mesh (gdim : nat) (ms : list rank_mesh) (tags : list Z) (R : Q) (order : list nat) (q : nat) (n : new_mesh) : Prop :=
  created gdim (map (topo_global ms) (seq 0 (length ms))) (map (input_points gdim) ms) (dests_of_cells ms tags R order) q n.

(** A distributed mesh: owned cells exist, their vertices are numbered, and ranks sharing a
    vertex store the same coordinates for it. *)
Definition distributed (gdim : nat) (ms : list rank_mesh) : Prop :=
  (forall r, r < length ms -> rm_ncells (mesh_of ms r) <= length (rm_cells (mesh_of ms r))) /\
  (forall r c u, r < length ms -> c < rm_ncells (mesh_of ms r) -> In u (nth c (rm_cells (mesh_of ms r)) []) -> local_to_global ms r u < list_sum (map rm_vertices ms)) /\
  (forall r u s w j, r < length ms -> s < length ms -> local_vertex (mesh_of ms r) u -> local_vertex (mesh_of ms s) w -> local_to_global ms r u = local_to_global ms s w -> j < gdim ->
      vertex_coordinate (mesh_of ms r) u j = vertex_coordinate (mesh_of ms s) w j).

(** Node [w] of a rank's geometry lies at its owned vertex [w]: true in particular when
    vertices and geometry nodes are numbered alike. *)
Definition nodes_at_vertices (gdim : nat) (ms : list rank_mesh) : Prop :=
  forall s w j, s < length ms -> w < rm_vertices (mesh_of ms s) -> j < gdim ->
    coordinate (rm_x (mesh_of ms s)) w j = vertex_coordinate (mesh_of ms s) w j.
