(** Model of the search in mode Raytracing on meshes: compute_raytracing_map of
    cpp/utils.h with everything it reads computed from the two meshes, and the
    dispatch of compute_distance_map. *)
From Coq Require Import List Arith ZArith Bool Reals.
Import ListNotations.
From Verif Require Import Prelude RSum CropModel EntitiesModel GeomModel RayModel KernelModel DistanceModel GapModel CandidatesModel RayMapModel.
Local Open Scope R_scope.

(** What raytracing_cell reads from a mesh, computed from its geometry
    (RayTracing.h:287-327): push forward and Jacobian at a reference point. *)
Definition mesh_rays (m : mesh_data) (ct : cell_type) (vertex : nat -> nat -> nat -> R) (facet_jac : nat -> matrix) : ray_mesh :=
  {| rm_tdim := m_tdim m; rm_gdim := m_gdim m; rm_type := ct; rm_vertex := vertex; rm_facet_jac := facet_jac;
     rm_push := fun c X => map (push_forward_point m (m_phi m X) (cell_coordinates m c)) (seq 0 (m_gdim m));
     rm_jac := fun c X => cell_jacobian m X (cell_coordinates m c) |}.

(** dolfinx::mesh::compute_midpoints for facets (called at utils.cpp:832-878): the average of the
    vertices, three numbers per facet; [nodes]: geometry nodes of its vertices. *)
Definition facet_midpoint (x : list R) (nodes : list nat) : list R :=
  map (fun k => rsum (length nodes) (fun v => nth (3 * nth v nodes 0 + k)%nat x 0) / INR (length nodes)) (seq 0 3).

Section RaySearch.
  (** The two meshes; cell type, facet vertices and facet Jacobians of the candidate mesh's
      reference cell; geometry nodes of the vertices of facets, by facet index. *)
  Context (mq mc : mesh_data) (ct : cell_type) (vertex : nat -> nat -> nat -> R) (facet_jac : nat -> matrix) (vertices_q vertices_c : nat -> list nat).
  Context (closest_entity : list nat -> list R -> nat) (gjk : list (list R) -> list R -> list R).
  Context (point : nat -> list R) (offsets : nat -> nat) (search_radius : R) (quadrature_facets candidate_facets : list nat).
  Notation gdim := (m_gdim mq).
  Notation tdim := (m_tdim mq).
  Notation nq := (offsets 1 - offsets 0)%nat.
  Notation nf := (length quadrature_facets / 2)%nat.

  (** utils.h:604-608. *)
  Definition rs_q_facets : list nat := facet_indices_from_pair mq quadrature_facets.
  Definition rs_c_facets : list nat := facet_indices_from_pair mc candidate_facets.
  (** utils.h:651-657. *)
  Definition rs_points : list R := compute_physical_points mq point offsets quadrature_facets (repeat 0 (nf * nq * gdim)).
  (** utils.h:724-729: candidates whose midpoints are within twice the radius. *)
  Definition rs_patch (i : nat) : list nat :=
    find_candidate_facets (facet_midpoint (m_x mq) (vertices_q (nth i rs_q_facets 0%nat)))
      (flat_map (fun f => facet_midpoint (m_x mc) (vertices_c f)) rs_c_facets) (length rs_c_facets) (2 * search_radius).
  (** utils.h:731-762: normal of the quadrature facet at the point. *)
  Definition rs_normal (i j : nat) : list R :=
    let facet := nth (2 * i + 1) quadrature_facets 0%nat in
    let J := cell_jacobian mq (point (nq * facet + j)%nat) (cell_coordinates mq (nth (2 * i) quadrature_facets 0%nat)) in
    map (physical_facet_normal tdim gdim (jacobian_inverse gdim tdim J) (m_ref_normal mq facet)) (seq 0 gdim).
  (** utils.h:764-769. *)
  Definition rs_point (i j : nat) : list R := slice rs_points ((i * nq + j) * gdim) gdim.
  (** utils.h:773-819: the ray against candidate [c]: 25 iterations, tolerance 1e-8; the normal from the
      last Jacobian, with the reference normals of the QUADRATURE mesh.  The stored reference point on
      entry plays no role (at least one iteration is made).  A cell type that raytracing_cell rejects
      has been rejected before (utils.h:684-685). *)
  Definition rs_outcome (i j c : nat) : ray_outcome :=
    let cell := nth (2 * c) candidate_facets 0%nat in
    let facet := nth (2 * c + 1) candidate_facets 0%nat in
    match ray_cell tdim gdim 25 (1 / 10 ^ 8) (mesh_rays mc ct vertex facet_jac) (rs_point i j) (rs_normal i j) (repeat 0 tdim) (cell, facet) with
    | RayOk s => mkRay (rs_status s)
        (map (physical_facet_normal tdim gdim (jacobian_inverse gdim tdim (cell_jacobian mc (rs_X s) (cell_coordinates mc cell))) (m_ref_normal mq facet)) (seq 0 gdim))
        (rs_x s) (rs_X s)
    | RayInvalid => mkRay 0 [] [] []
    end.
  (** utils.h:847-882: closest point of the patch.  One point at a time: compute_projection_map treats
      points separately.  The facet is named by its position among the candidates. *)
  Definition rs_closest (i j : nat) (patch : list nat) : nat * list R :=
    let tuples := flat_map (fun c => [nth (2 * c) candidate_facets 0; nth (2 * c + 1) candidate_facets 0]%nat) patch in
    let padded := rs_point i j ++ repeat 0 (3 - gdim) in
    let r := compute_projection_map mc closest_entity gjk tuples padded in
    (find_index (Z.to_nat (nth 0 (fst r) 0%Z)) rs_c_facets, slice (snd r) 0 tdim).

  (** utils.h:579-890 compute_raytracing_map: facet map and reference points, flattened; a point without
      a facet keeps the zeros it starts from. *)
  Definition mesh_raytracing_map : adj Z * list R :=
    let r := compute_raytracing_map gdim nq nf search_radius (map Z.of_nat rs_c_facets) rs_patch rs_normal rs_point rs_outcome rs_closest in
    (mkAdj (fst r) (map (fun i => (i * nq)%nat) (seq 0 (nf + 1))), flat_map (fun X => map (fun k => nth k X 0) (seq 0 tdim)) (snd r)).
End RaySearch.

(** utils.cpp:985-1129 compute_distance_map: the mode chooses the search. *)
Definition mesh_distance_map (raytracing : bool) (mq mc : mesh_data) (ct : cell_type) (vertex : nat -> nat -> nat -> R) (facet_jac : nat -> matrix) (vertices_q vertices_c : nat -> list nat)
    (closest_entity : list nat -> list R -> nat) (gjk : list (list R) -> list R -> list R) (point : nat -> list R) (offsets : nat -> nat) (search_radius : R)
    (quadrature_facets candidate_facets : list nat) : option (adj Z * list R) :=
  match ct with
  | OtherCell => None
  | _ =>
    if raytracing then
      if ((m_tdim mq =? 2) && ((m_gdim mq =? 2) || (m_gdim mq =? 3)) || (m_tdim mq =? 3))%nat
      then Some (mesh_raytracing_map mq mc ct vertex facet_jac vertices_q vertices_c closest_entity gjk point offsets search_radius quadrature_facets candidate_facets)
      else None
    else closest_point_map mq mc closest_entity gjk point offsets quadrature_facets candidate_facets
  end.
