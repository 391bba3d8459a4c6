(** Model of the geometry functions behind contact detection: cpp/utils.cpp
    (pull_back, entities_to_geometry_dofs, facet_indices_from_pair,
    compute_physical_points, compute_distance_map), compute_projection_map of
    cpp/utils.h and cpp/geometric_quantities.cpp. *)
From Coq Require Import List Arith ZArith Bool Reals.
Import ListNotations.
From Verif Require Import Prelude RSum CropModel EntitiesModel RayModel KernelModel.
Local Open Scope R_scope.

(** What these functions read from a mesh: geometry, coordinate element,
    reference cell and connectivities.  Tabulation is a function of the reference
    point (read at utils.cpp:930-1095). *)
Record mesh_data := mkMesh {
  m_gdim : nat; m_tdim : nat;
  m_nodes : nat;                            (* cmap.dim() *)
  m_affine : bool;
  m_x : list R;                             (* geometry.x(), three per node *)
  m_x_dofmap : nat -> list nat;
  m_phi : list R -> nat -> R;               (* reference point, node *)
  m_dphi : list R -> nat -> nat -> R;       (* reference point, direction, node *)
  m_determinant : matrix -> R;              (* compute_jacobian_determinant *)
  m_cmap_pull_back : (nat -> nat -> R) -> list R -> list R; (* cmap.pull_back_nonaffine of DOLFINx *)
  m_ref_normal : nat -> nat -> R;           (* basix facet_outward_normals *)
  m_f_to_c : nat -> list nat; m_c_to_f : nat -> list nat;
  m_closure : nat -> list nat }.            (* entity_closure_dofs(tdim - 1, local facet) *)

(** dolfinx::math::inv for 3 x 3 matrices (DOLFINx, not in /repo) (called at utils.cpp:67-185). *)
Definition det3 (A : matrix) : R :=
  A 0%nat 0%nat * (A 1%nat 1%nat * A 2%nat 2%nat - A 1%nat 2%nat * A 2%nat 1%nat) - A 0%nat 1%nat * (A 1%nat 0%nat * A 2%nat 2%nat - A 1%nat 2%nat * A 2%nat 0%nat) + A 0%nat 2%nat * (A 1%nat 0%nat * A 2%nat 1%nat - A 1%nat 1%nat * A 2%nat 0%nat).
Definition inv3 (A : matrix) : matrix := fun i j =>
  let idet := 1 / det3 A in
  match i, j with
  | 0%nat, 0%nat => (A 1%nat 1%nat * A 2%nat 2%nat - A 1%nat 2%nat * A 2%nat 1%nat) * idet
  | 1%nat, 0%nat => - (A 1%nat 0%nat * A 2%nat 2%nat - A 1%nat 2%nat * A 2%nat 0%nat) * idet
  | 2%nat, 0%nat => (A 1%nat 0%nat * A 2%nat 1%nat - A 1%nat 1%nat * A 2%nat 0%nat) * idet
  | 0%nat, 1%nat => (A 0%nat 2%nat * A 2%nat 1%nat - A 0%nat 1%nat * A 2%nat 2%nat) * idet
  | 1%nat, 1%nat => (A 0%nat 0%nat * A 2%nat 2%nat - A 0%nat 2%nat * A 2%nat 0%nat) * idet
  | 2%nat, 1%nat => (A 0%nat 1%nat * A 2%nat 0%nat - A 0%nat 0%nat * A 2%nat 1%nat) * idet
  | 0%nat, 2%nat => (A 0%nat 1%nat * A 1%nat 2%nat - A 0%nat 2%nat * A 1%nat 1%nat) * idet
  | 1%nat, 2%nat => (A 0%nat 2%nat * A 1%nat 0%nat - A 0%nat 0%nat * A 1%nat 2%nat) * idet
  | 2%nat, 2%nat => (A 0%nat 0%nat * A 1%nat 1%nat - A 0%nat 1%nat * A 1%nat 0%nat) * idet
  | _, _ => 0
  end.
(** dolfinx::math::pinv for 3 x 2 matrices: (A^T A)^-1 A^T (called at utils.cpp:67-185). *)
Definition gram (gdim : nat) (A : matrix) : matrix := fun i j => rsum gdim (fun k => A k i * A k j).
Definition pinv32 (A : matrix) : matrix := fun i j => rsum 2 (fun k => inv 2 (gram 3 A) i k * A j k).
(** CoordinateElement::compute_jacobian_inverse (DOLFINx) (called at utils.cpp:67-185). *)
Definition jacobian_inverse (gdim tdim : nat) (J : matrix) : matrix :=
  if (gdim =? tdim)%nat then (if (tdim =? 3)%nat then inv3 J else inv 2 J) else pinv32 J.

Section Mesh.
  Context (m : mesh_data).
  Notation gdim := (m_gdim m).
  Notation tdim := (m_tdim m).

  (** The copy of the cell's node coordinates into coordinate_dofsb
      (e.g. utils.cpp:962-969). *)
  Definition cell_coordinates (cell : nat) : nat -> nat -> R :=
    fun j k => nth (3 * nth j (m_x_dofmap m cell) 0 + k)%nat (m_x m) 0.
  (** CoordinateElement::push_forward of one point: x = phi * cell_geometry (called at utils.cpp:980-981). *)
  Definition push_forward_point (phi : nat -> R) (coordinates : nat -> nat -> R) (k : nat) : R :=
    for_loop (m_nodes m) (fun j acc => acc + phi j * coordinates j k) 0.
  (** CoordinateElement::compute_jacobian, added to a cleared J (called at utils.cpp:67-185). *)
  Definition cell_jacobian (X : list R) (coordinates : nat -> nat -> R) : matrix :=
    fun i j => for_loop (m_nodes m) (fun a acc => acc + coordinates a i * m_dphi m X j a) 0.

  (** utils.cpp:67-185 pull_back: reference point, Jacobian, inverse and
      determinant for each point. *)
  Record pulled := mkPulled { p_X : list R; p_J : matrix; p_K : matrix; p_det : R }.
  Definition pull_back (coordinates : nat -> nat -> R) (xs : list (list R)) : list pulled :=
    if m_affine m then
      let J := cell_jacobian (repeat 0 tdim) coordinates in
      let K := jacobian_inverse gdim tdim J in
      (* CoordinateElement::pull_back_affine with x0 the first node *)
      map (fun x => mkPulled (map (fun i => for_loop gdim (fun j acc => acc + K i j * (nth j x 0 - coordinates 0%nat j)) 0) (seq 0 tdim))
                             J K (m_determinant m J)) xs
    else
      map (fun x => let X := m_cmap_pull_back m coordinates x in
                    let J := cell_jacobian X coordinates in
                    mkPulled X J (jacobian_inverse gdim tdim J) (m_determinant m J)) xs.

  (** geometric_quantities.cpp:21-98 pull_back_nonaffine; the loop, [n] iterations
      left.  None: std::runtime_error. *)
  Fixpoint nonaffine_newton (tol : R) (coordinates : nat -> nat -> R) (x : list R) (n : nat) (Xk : list R) : option (list R) :=
    match n with
    | O => None
    | S n =>
        let xk k := for_loop (m_nodes m) (fun j acc => acc + coordinates j k * m_phi m Xk j) 0 in
        let K := jacobian_inverse gdim tdim (cell_jacobian Xk coordinates) in
        let dX i := for_loop gdim (fun j acc => acc + K i j * (nth j x 0 - xk j)) 0 in
        let Xk := map (fun i => dX i + nth i Xk 0) (seq 0 tdim) in
        if rlt (sqrt (for_loop tdim (fun i acc => acc + dX i * dX i) 0)) tol then Some Xk
        else nonaffine_newton tol coordinates x n Xk
    end.
  Definition pull_back_nonaffine (tol : R) (max_it : nat) (coordinates : nat -> nat -> R) (x : list R) : option (list R) :=
    nonaffine_newton tol coordinates x max_it (repeat 0 tdim).

  (** geometric_quantities.cpp:100-160 push_forward_facet_normal (default
      tolerance 1e-8 and 10 iterations, geometric_quantities.h:66-70). *)
  Definition push_forward_facet_normal (coordinates : nat -> nat -> R) (x : list R) (facet : nat) : option (nat -> R) :=
    match (if m_affine m then Some (repeat 0 tdim) else pull_back_nonaffine (1 / 10 ^ 8) 10 coordinates x) with
    | None => None
    | Some X => Some (physical_facet_normal tdim gdim (jacobian_inverse gdim tdim (cell_jacobian X coordinates)) (m_ref_normal m facet))
    end.

  (** utils.cpp:805-830 facet_indices_from_pair (also utils.h:417-431). *)
  Definition facet_indices_from_pair (pairs : list nat) : list nat :=
    for_loop (length pairs / 2) (fun i facets =>
      upd facets i (nth (nth (2 * i + 1) pairs 0) (m_c_to_f m (nth (2 * i) pairs 0)) 0))%nat
      (repeat 0%nat (length pairs / 2)).

  (** utils.cpp:742-803 entities_to_geometry_dofs for facets; [n]: closure dofs of
      a facet. *)
  Definition entities_to_geometry_dofs (n : nat) (entities : list Z) : adj Z :=
    mkAdj
      (for_loop (length entities) (fun i data =>
         let idx := nth i entities 0%Z in
         if (idx <? 0)%Z then data
         else
           let cell := hd 0%nat (m_f_to_c m (Z.to_nat idx)) in
           let local_entity := find_index (Z.to_nat idx) (m_c_to_f m cell) in
           for_loop n (fun j data =>
             upd data (i * n + j)%nat (Z.of_nat (nth (nth j (m_closure m local_entity) 0) (m_x_dofmap m cell) 0)%nat)) data)
        (repeat (-1)%Z (n * length entities)))
      (for_loop (length entities) (fun i offsets => upd offsets (i + 1)%nat ((i + 1) * n)%nat) (repeat 0%nat (length entities + 1))).

  (** utils.cpp:930-983 compute_physical_points; [point p]: reference point [p] of
      the rule, [offsets f]: first point of facet [f]. *)
  Definition compute_physical_points (point : nat -> list R) (offsets : nat -> nat) (facets : list nat) (qp_phys : list R) : list R :=
    let nq := (offsets 1 - offsets 0)%nat in
    for_loop (length facets / 2) (fun i qp =>
      let coordinates := cell_coordinates (nth (2 * i) facets 0%nat) in
      let first := offsets (nth (2 * i + 1) facets 0%nat) in
      for_loop nq (fun q qp =>
        for_loop gdim (fun k qp =>
          upd qp ((i * nq + q) * gdim + k)%nat (push_forward_point (m_phi m (point (first + q)%nat)) coordinates k)) qp) qp) qp_phys.

  (** External search: the closest of the given facets (compute_closest_entity),
      and the vector from a point to the convex hull of given points
      (compute_distance_gjk). *)
  Context (closest_entity : list nat -> list R -> nat) (gjk : list (list R) -> list R -> list R).

  (** utils.h:400-546 compute_projection_map: closest facets and reference points
      (flattened). *)
  Definition compute_projection_map (facet_tuples : list nat) (points : list R) : list Z * list R :=
    let num_points := (length points / 3)%nat in
    let candidate_X := repeat 0 (num_points * tdim) in
    match facet_tuples with
    | [] => (repeat (-1)%Z num_points, candidate_X)
    | _ =>
        let facets := facet_indices_from_pair facet_tuples in
        let closest_facets := map (fun i => closest_entity facets (slice points (3 * i) 3)) (seq 0 num_points) in
        let num_facet_dofs := length (m_closure m 0) in
        let facets_geometry := entities_to_geometry_dofs num_facet_dofs (map Z.of_nat closest_facets) in
        let candidate_x := for_loop num_points (fun i cx =>
            let coordinate_dofs := map (fun l => slice (m_x m) (3 * Z.to_nat (nth l (links facets_geometry i) 0%Z)) 3) (seq 0 num_facet_dofs) in
            let dist_vec := gjk coordinate_dofs (slice points (3 * i) 3) in
            for_loop 3 (fun l cx => upd cx (3 * i + l)%nat (nth (3 * i + l)%nat points 0 + nth l dist_vec 0)) cx)
          (repeat 0 (num_points * 3)) in
        (map Z.of_nat closest_facets,
         for_loop num_points (fun i cX =>
           let cell := hd 0%nat (m_f_to_c m (nth i closest_facets 0%nat)) in
           let X := p_X (hd (mkPulled [] (fun _ _ => 0) (fun _ _ => 0) 0) (pull_back (cell_coordinates cell) [slice candidate_x (3 * i) gdim])) in
           for_loop tdim (fun k cX => upd cX (i * tdim + k)%nat (nth k X 0)) cX) candidate_X)
    end.
End Mesh.

(** utils.cpp:985-1095 compute_distance_map, mode ClosestPoint.  None:
    std::runtime_error. *)
Definition closest_point_map (mq mc : mesh_data) (closest_entity : list nat -> list R -> nat) (gjk : list (list R) -> list R -> list R)
    (point : nat -> list R) (offsets : nat -> nat) (quadrature_facets candidate_facets : list nat) : option (adj Z * list R) :=
  let gdim := m_gdim mq in
  let nq := (offsets 1 - offsets 0)%nat in
  let nf := (length quadrature_facets / 2)%nat in
  let quadrature_points := compute_physical_points mq point offsets quadrature_facets (repeat 0 (nf * nq * gdim)) in
  let off := map (fun i => (nq * i)%nat) (seq 0 (nf + 1)) in
  let padded :=
    if (gdim =? 2)%nat then
      Some (for_loop nf (fun i p => for_loop nq (fun j p => for_loop gdim (fun k p =>
              upd p ((i * nq + j) * 3 + k)%nat (nth ((i * nq + j) * gdim + k)%nat quadrature_points 0)) p) p) (repeat 0 (nf * nq * 3)))
    else if (gdim =? 3)%nat then Some quadrature_points
    else None in
  match padded with
  | None => None
  | Some padded =>
      if (m_tdim mq =? 2)%nat || (m_tdim mq =? 3)%nat then
        let r := compute_projection_map mc closest_entity gjk candidate_facets padded in
        Some (mkAdj (fst r) off, snd r)
      else None
  end.
