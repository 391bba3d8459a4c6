(** The ContactProblem object with its geometry routines put in: the submesh's nodes are the
    state, moved by displacements, and searched for contact. *)
From Coq Require Import List Arith ZArith Bool Reals.
Import ListNotations.
From Verif Require Import Prelude RSum EntitiesModel SubMeshModel RayModel KernelModel DistanceModel GapModel RaySearchModel CoefficientsModel ContactSystemModel.
Local Open Scope R_scope.

(** The submesh with the nodes [x] (mesh->geometry().x(), written at SubMesh.cpp:200-223). *)
Definition at_geometry (m : mesh_data) (x : list R) : mesh_data :=
  {| m_gdim := m_gdim m; m_tdim := m_tdim m; m_nodes := m_nodes m; m_affine := m_affine m; m_x := x; m_x_dofmap := m_x_dofmap m; m_phi := m_phi m;
     m_dphi := m_dphi m; m_determinant := m_determinant m; m_cmap_pull_back := m_cmap_pull_back m; m_ref_normal := m_ref_normal m; m_f_to_c := m_f_to_c m; m_c_to_f := m_c_to_f m; m_closure := m_closure m |}.

(** What SubMesh.cpp:150-223 reads of the submesh and of the displacement's space on it. *)
Record submesh_tables := mkSubmeshTables {
  sm_cells : nat; sm_dofs : nat;             (* cells, and block dofs of the submesh space *)
  sm_parent_cells : list nat; sm_x_map : list nat;
  sm_dofs_sub : nat -> list nat; sm_dofs_parent : nat -> list nat; sm_x_dofmap : nat -> list nat }.

Section MeshContact.
  (** The submesh, its tables and its parent's geometry and displacement space; reference cell; facet vertices. *)
  Context (pd : pack_data) (m : mesh_data) (sub : submesh_tables) (ct : cell_type) (vertex : nat -> nat -> nat -> R) (facet_jac : nat -> matrix) (vertices : nat -> list nat).
  (** Closest facets (a search tree built from the nodes) and GJK. *)
  Context (closest : list R -> list nat -> list R -> nat) (gjk : list (list R) -> list R -> list R).
  Context (cmap : adj nat) (point : nat -> list R) (offsets : nat -> nat) (raytracing : nat -> bool) (search_radius : R) (num_pairs : nat) (pairs : nat -> contact_pair).
  (** FiniteElement::tabulate without derivatives: point, function. *)
  Context (table : list R -> nat -> R).

  (** Contact.cpp:1622-1628, SubMesh.cpp:200-223: Contact::update_submesh_geometry. *)
  Definition mesh_move (x u : list R) : list R :=
    submesh_update_geometry Rplus 0 (pd_bs pd) (sm_cells sub) (sm_dofs sub) (sm_parent_cells sub) (sm_x_map sub) (sm_dofs_sub sub) (sm_dofs_parent sub) (sm_x_dofmap sub) (pd_x pd) u x.
  (** Contact.cpp:296-339 for pair [i]; there is nothing for other numbers.  The previous quadrature points are overwritten. *)
  Definition mesh_found (x : list R) (i : nat) : option detection :=
    if negb (i <? num_pairs)%nat then None else
    create_distance_map cmap point offsets (fun m Q C => mesh_distance_map (raytracing i) m m ct vertex facet_jac vertices vertices (closest x) gjk point offsets search_radius Q C)
      (at_geometry m x) (pairs i) (mkDetection (mkAdj [] []) [] []).
  (** contact_problem.py:94-97, 268-269 and 330-332: all pairs.  Simplified: where the search throws, the map is empty. *)
  Definition mesh_detect (x : list R) (i : nat) : list Z := match mesh_found x i with Some d => adj_data (det_map d) | None => [] end.
  (** The facet map may have been cropped since the search (Contact.cpp:776-807 keeps its offsets). *)
  Definition mesh_held (x : list R) (d : nat -> list Z) (i : nat) : option detection :=
    match mesh_found x i with Some f => Some (mkDetection (mkAdj (d i) (adj_off (det_map f))) (det_ref f) (det_qp f)) | None => None end.
  (** contact_problem.py:126-160 with Contact.cpp:508-626, 986-1112. *)
  Definition mesh_gap (i : nat) (x : list R) (d : nat -> list Z) : list (list R) :=
    match mesh_held x d i with Some f => rows_of (cp_local (pairs i)) (contact_gap offsets (at_geometry m x) (pairs i) f, (num_q offsets * m_gdim m)%nat) | None => [] end.
  Definition mesh_normals (i : nat) (x : list R) (d : nat -> list Z) : list (list R) :=
    match mesh_held x d i with Some f => rows_of (cp_local (pairs i)) (pack_normals cmap point offsets (raytracing i) (at_geometry m x) (pairs i) f, (num_q offsets * m_gdim m)%nat) | None => [] end.
  (** Contact.cpp:691-694 (and 1575): the basis functions at the reference contact points. *)
  Definition mesh_basis (x : list R) (d : nat -> list Z) (i p f : nat) : R :=
    match mesh_found x i with Some r => table (contact_point m (det_ref r) p) f | None => 0 end.
End MeshContact.
