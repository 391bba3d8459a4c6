(** Model of cpp/coefficients.cpp: packing of function values and gradients at the
    quadrature points of cells or facets. *)
From Coq Require Import List Arith Reals.
Import ListNotations.
From Verif Require Import Prelude RSum RayModel.
Local Open Scope R_scope.

(** dolfinx::fem::IntegralType; the other values are rejected (coefficients.cpp:114-124, 192-204). *)
Inductive integral_type := CellIntegral | ExteriorFacet | OtherIntegral.

(** coefficients.cpp:112-124 (411-423): number of entities; None: throws
    std::invalid_argument. *)
Definition num_active_entities (it : integral_type) (active : list nat) : option nat :=
  match it with
  | CellIntegral => Some (length active)
  | ExteriorFacet => Some (length active / 2)%nat
  | OtherIntegral => None
  end.
(** coefficients.cpp:189-204 (277-292, 447-462): cell and local index of entity [i]. *)
Definition active_entity (it : integral_type) (active : list nat) (i : nat) : nat * nat :=
  match it with
  | CellIntegral => (nth i active 0%nat, 0%nat)
  | _ => (nth (2 * i) active 0%nat, nth (2 * i + 1) active 0%nat)
  end.

(** What the packing functions read from the function space, its mesh and the
    quadrature rule (read at coefficients.cpp:53-323). *)
Record pack_data := mkPackData {
  pd_gdim : nat; pd_tdim : nat;
  pd_bs : nat;                              (* element block size *)
  pd_vs : nat;                              (* value size of the basis functions, tab_shape[3] *)
  pd_dofmap_bs : nat;
  pd_nq : nat;                              (* points per entity *)
  pd_q_offsets : nat -> nat;                (* first point of each local entity *)
  pd_basis : nat -> nat -> nat -> nat -> R; (* reference_basis(derivative, point, function, component) *)
  pd_functions : nat;                       (* basis functions, tab_shape[2] *)
  pd_dofs : nat -> list nat;                (* cell dofs *)
  pd_affine : bool;
  pd_nodes : nat;                           (* geometry dofs per cell *)
  pd_x_dofmap : nat -> list nat;
  pd_x : list R;                            (* geometry, three per node *)
  pd_dphi_c : nat -> nat -> nat -> R;       (* c_basis(1 + direction, point, node) *)
  pd_inverse : matrix -> matrix;            (* compute_jacobian_inverse *)
  pd_determinant : matrix -> R;             (* compute_jacobian_determinant *)
  pd_transforms : bool;                     (* needs_dof_transformations *)
  (* dof transformation of a cell, then basix' map of the element *)
  pd_transform : nat -> (nat -> nat -> R) -> nat -> nat -> R;
  pd_push_forward : matrix -> R -> matrix -> (nat -> nat -> R) -> nat -> nat -> R }.

Section Pack.
  Context (pd : pack_data) (data : list R).
  (** value_size of the space; the code asserts value_size / bs == tab_shape[3] (coefficients.cpp:110). *)
  Definition value_size : nat := (pd_bs pd * pd_vs pd)%nat.

  (** coefficients.cpp:206-215 (464-473): coordinates of the cell's nodes. *)
  Definition coordinate_dofs (cell j k : nat) : R := nth (3 * nth j (pd_x_dofmap pd cell) 0%nat + k)%nat (pd_x pd) 0.
  (** CoordinateElement::compute_jacobian at point [p]: J += x^T dphi (called at coefficients.cpp:224-225, 246-247, 497-498, 530-531). *)
  Definition pack_jacobian (cell p : nat) : matrix :=
    fun i j => for_loop (pd_nodes pd) (fun a acc => acc + coordinate_dofs cell a i * pd_dphi_c pd j p a) 0.

  (** coefficients.cpp:16-52 transformed_push_forward: the basis values
      [basis_values(q, ., .)]. *)
  Definition transformed_push_forward (J K : matrix) (detJ : R) (basis_offset q cell : nat) : nat -> nat -> R :=
    pd_push_forward pd J detJ K (pd_transform pd cell (fun j k => pd_basis pd 0 (basis_offset + q)%nat j k)).

  (** coefficients.cpp:217-257: basis values of the entity at its point [q]. *)
  Definition basis_values (cell entity_index q : nat) : nat -> nat -> R :=
    let p := if pd_affine pd then pd_q_offsets pd entity_index else (pd_q_offsets pd entity_index + q)%nat in
    let J := pack_jacobian cell p in
    transformed_push_forward J (pd_inverse pd J) (pd_determinant pd J) (pd_q_offsets pd entity_index) q cell.

  (** coefficients.cpp:258-269, one entity of a space with dof transformations. *)
  Definition pack_transformed (cstride i cell entity_index : nat) (c : list R) : list R :=
    let dofs := pd_dofs pd cell in
    for_loop (length dofs) (fun d c =>
      let pos_v := (pd_dofmap_bs pd * nth d dofs 0)%nat in
      for_loop (pd_nq pd) (fun q c =>
        for_loop (pd_dofmap_bs pd) (fun k c =>
          for_loop (pd_vs pd) (fun j c =>
            addto c (cstride * i + q * value_size + k + j) (basis_values cell entity_index q d j * nth (pos_v + k)%nat data 0)) c) c) c) c.

  (** coefficients.cpp:294-319, one entity of a space without. *)
  Definition pack_plain (cstride i cell entity_index : nat) (c : list R) : list R :=
    let dofs := pd_dofs pd cell in
    let q_offset := pd_q_offsets pd entity_index in
    for_loop (length dofs) (fun d c =>
      let pos_v := (pd_dofmap_bs pd * nth d dofs 0)%nat in
      for_loop (pd_dofmap_bs pd) (fun b c =>
        let coeff := nth (pos_v + b)%nat data 0 in
        let quot := ((d * pd_dofmap_bs pd + b) / pd_bs pd)%nat in
        let rem := ((d * pd_dofmap_bs pd + b) mod pd_bs pd)%nat in
        for_loop (pd_nq pd) (fun q c =>
          for_loop (pd_vs pd) (fun l c =>
            addto c (cstride * i + q * pd_bs pd * pd_vs pd + l + rem) (pd_basis pd 0 (q_offset + q)%nat quot l * coeff)) c) c) c) c.

  (** coefficients.cpp:53-323 pack_coefficient_quadrature; None:
      std::invalid_argument. *)
  Definition pack_coefficient_quadrature (it : integral_type) (active : list nat) : option (list R * nat) :=
    match num_active_entities it active with
    | None => None
    | Some n =>
        let cstride := (value_size * pd_nq pd)%nat in
        let c := repeat 0 (n * cstride) in
        Some (for_loop n (fun i c =>
          let '(cell, entity_index) := active_entity it active i in
          if pd_transforms pd then pack_transformed cstride i cell entity_index c else pack_plain cstride i cell entity_index c) c, cstride)
    end.

  (** coefficients.cpp:474-551, one entity of pack_gradient_quadrature. *)
  Definition pack_gradient_entity (cstride i cell entity_index : nat) (c : list R) : list R :=
    let dofs := pd_dofs pd cell in
    let q_offset := pd_q_offsets pd entity_index in
    for_loop (length dofs) (fun d c =>
      let pos_v := (pd_dofmap_bs pd * nth d dofs 0)%nat in
      for_loop (pd_dofmap_bs pd) (fun b c =>
        let coeff_val := nth (pos_v + b)%nat data 0 in
        let quot := ((d * pd_dofmap_bs pd + b) / pd_bs pd)%nat in
        let rem := ((d * pd_dofmap_bs pd + b) mod pd_bs pd)%nat in
        if pd_affine pd
        then
          let K := pd_inverse pd (pack_jacobian cell q_offset) in
          for_loop (pd_nq pd) (fun q c =>
            for_loop (pd_vs pd) (fun l c =>
              for_loop (pd_gdim pd) (fun j c =>
                for_loop (pd_tdim pd) (fun k c =>
                  addto c (cstride * i + q * pd_bs pd * pd_vs pd * pd_gdim pd + (l + rem) * pd_gdim pd + j)
                    (K k j * pd_basis pd (k + 1) (q_offset + q)%nat quot l * coeff_val)) c) c) c) c
        else
          for_loop (pd_nq pd) (fun q c =>
            let K := pd_inverse pd (pack_jacobian cell (q_offset + q)%nat) in
            for_loop (pd_vs pd) (fun l c =>
              for_loop (pd_gdim pd) (fun j c =>
                for_loop (pd_tdim pd) (fun k c =>
                  addto c (cstride * i + q * pd_bs pd * pd_vs pd * pd_gdim pd + (l + rem) * pd_gdim pd + j)
                    (K k j * pd_basis pd (k + 1) (q_offset + q)%nat quot l * coeff_val)) c) c) c) c) c) c.

  (** coefficients.cpp:325-555 pack_gradient_quadrature. *)
  Definition pack_gradient_quadrature (it : integral_type) (active : list nat) : option (list R * nat) :=
    match num_active_entities it active with
    | None => None
    | Some n =>
        if pd_transforms pd then None
        else
          let cstride := (value_size * pd_nq pd * pd_gdim pd)%nat in
          let c := repeat 0 (n * cstride) in
          Some (for_loop n (fun i c => let '(cell, entity_index) := active_entity it active i in pack_gradient_entity cstride i cell entity_index c) c, cstride)
    end.
End Pack.
