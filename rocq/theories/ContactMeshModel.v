(** Model of create_contact_mesh (/repo/cpp/parallel_mesh_ghosting.cpp:48-278) as one
    function over all ranks, built from the parts in GhostingModel.  DOLFINx'
    create_mesh is not modelled; its contract is in ContactMeshSpec. *)
From Coq Require Import List Arith ZArith QArith Bool.
Import ListNotations.
From Verif Require Import Prelude PointCloudModel GhostingModel.
Local Open Scope nat_scope.

(** What one rank holds.  Vertices and cells are local indices, owned ones first (read at parallel_mesh_ghosting.cpp:48-278). *)
Record rank_mesh := mkRankMesh {
  rm_vertices : nat;                (* topology()->index_map(0)->size_local() *)
  rm_ghosts : list nat;             (* global indices of the ghost vertices *)
  rm_ncells : nat;                  (* topology()->index_map(tdim)->size_local() *)
  rm_cells : list (list nat);       (* connectivity(tdim, 0) *)
  rm_facets : list (list nat);      (* connectivity(tdim - 1, 0) *)
  rm_fcell : nat -> nat;            (* fc->links(f)[0] *)
  rm_x : list Q;                    (* geometry().x(), three entries per node *)
  rm_v2g : nat -> nat;              (* node of a vertex: entities_to_geometry *)
  rm_fmarker : list (nat * Z); rm_cmarker : list (nat * Z) }.
Definition rank0 : rank_mesh := mkRankMesh 0 [] 0 [] [] (fun _ => 0) [] (fun v => v) [] [].

(** Coordinates of node [g] (parallel_mesh_ghosting.cpp:160-171). *)
Definition node (x : list Q) (g : nat) : pt := (nth (g * 3) x 0, nth (g * 3 + 1) x 0, nth (g * 3 + 2) x 0)%Q.

Section Ranks.
  Context (gdim : nat) (ms : list rank_mesh) (tags : list Z) (R : Q).
  (** A result of the sort inside point_cloud_pairs (C01) (parallel_mesh_ghosting.cpp:352). *)
  Context (order : list nat).
  Definition mesh_of (r : nat) : rank_mesh := nth r ms rank0.

  (** IndexMap::local_to_global of the vertices (parallel_mesh_ghosting.cpp:153-158). *)
  Definition vertex_offset (r : nat) : nat := list_sum (map rm_vertices (firstn r ms)).
  Definition local_to_global (r i : nat) : nat :=
    let m := mesh_of r in
    if i <? rm_vertices m then vertex_offset r + i else nth (i - rm_vertices m) (rm_ghosts m) 0.

  (** parallel_mesh_ghosting.cpp:75-91. *)
  Definition tagged (r : nat) : list nat := marker_subset tags (rm_fmarker (mesh_of r)).
  (** parallel_mesh_ghosting.cpp:302-326. *)
  Definition facet_midpoint (r f : nat) : pt :=
    let m := mesh_of r in midpoint (map (fun v => node (rm_x m) (rm_v2g m v)) (nth f (rm_facets m) [])).
  Definition all_midpoints : list (list pt) := map (fun r => map (facet_midpoint r) (tagged r)) (seq 0 (length ms)).
  (** parallel_mesh_ghosting.cpp:96 and lines 100-110. *)
  Definition dests_of_cells (r : nat) : adj nat :=
    let cell_dests := ghost_destinations all_midpoints (point_cloud_pairs (concat all_midpoints) R order) r in
    partitioner r (rm_ncells (mesh_of r)) (cell_to_dests (rm_fcell (mesh_of r)) (tagged r) cell_dests).

  (** parallel_mesh_ghosting.cpp:153-158: owned cells by global vertices. *)
  Definition topo_global (r : nat) : list (list nat) := map (map (local_to_global r)) (firstn (rm_ncells (mesh_of r)) (rm_cells (mesh_of r))).
  (** parallel_mesh_ghosting.cpp:160-171: coordinates of the first nodes, one per owned vertex. *)
  Definition input_points (m : rank_mesh) : list Q :=
    for_loop (rm_vertices m) (fun i x => for_loop gdim (fun j x => x ++ [nth (i * 3 + j) (rm_x m) 0%Q]) x) [].

  (** parallel_mesh_ghosting.cpp:114-142: marked entities by global vertices, with their values. *)
  Definition facet_markers (r : nat) : list (list Z * Z) :=
    map (fun m => (map (fun v => Z.of_nat (local_to_global r v)) (nth (fst m) (rm_facets (mesh_of r)) []), snd m)) (rm_fmarker (mesh_of r)).
  Definition cell_markers (r : nat) : list (list Z * Z) :=
    map (fun m => (map (fun v => Z.of_nat (local_to_global r v)) (nth (fst m) (rm_cells (mesh_of r)) []), snd m)) (rm_cmarker (mesh_of r)).
End Ranks.

(** What the code reads from the new mesh on one rank (read at parallel_mesh_ghosting.cpp:195-278). *)
Record new_mesh := mkNewMesh {
  nm_cells : list (list nat);       (* connectivity(tdim, 0) *)
  nm_facets : list (list nat);      (* connectivity(tdim - 1, 0) *)
  nm_v2g : nat -> nat;              (* vert_to_geom *)
  nm_input : list nat;              (* geometry().input_global_indices() *)
  nm_x : list Q }.                  (* geometry().x() *)

(** parallel_mesh_ghosting.cpp:211-233: vertex of the new mesh to its index in the input. *)
Definition original (n : new_mesh) (v : nat) : nat := nth (nm_v2g n v) (nm_input n) 0.
Definition original_entities (n : new_mesh) (ents : list (list nat)) : list (list Z) := map (map (fun v => Z.of_nat (original n v))) ents.

(** parallel_mesh_ghosting.cpp:147-151 and 223-278, for entities with [nv] vertices: the markers of all ranks
    are copied to all ranks and matched with the entities [ents] of the new mesh;
    [p_local], [p_in]: the two sorts inside lex_match. *)
Definition new_markers (nv : nat) (markers : list (list (list Z * Z))) (n : new_mesh) (ents : list (list nat)) (p_local p_in : list nat) : list nat * list Z :=
  let '(all_indices, all_values) := copy_to_all nv (map (fun m => entity_keys nv (map fst m)) markers) (map (map snd) markers) in
  lex_match nv (entity_keys nv (original_entities n ents)) all_indices all_values p_local p_in.
