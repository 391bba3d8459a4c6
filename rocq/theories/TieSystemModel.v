(** The mesh tie object with its packing routines put in: what MeshTie::assemble_vector
    and assemble_matrix add for all pairs, as functions of the discrete solution. *)
From Coq Require Import List Arith ZArith Bool Reals.
Import ListNotations.
From Verif Require Import Prelude EntitiesModel PackingModel AssemblyModel LayoutModel MeshTieModel RayModel KernelModel MeshTieKernelModel CoefficientsModel.
Local Open Scope R_scope.

(** One pair of surfaces: what the assemblers read, the submesh of the other
    surface, the contact facet of each quadrature point (flat) and the basis
    functions, and their derivatives, at the contact points (read at MeshTie.cpp:467-532). *)
Record tie_pair := mkTiePair {
  pr_asm : assembly;
  pr_n_sub : nat; pr_nds : nat;
  pr_f_to_c : nat -> list nat; pr_dofs_sub : nat -> list nat;
  pr_facets : list Z;
  pr_basis : nat -> nat -> R;
  pr_grad : nat -> nat -> nat -> nat -> R }.

Section Space.
  (** A function space, its pairs and the largest number of linked cells. *)
  Context (pd : pack_data) (pair : nat -> tie_pair) (ml : nat).
  Notation asm i := (pr_asm (pair i)).
  Notation nq := (pd_nq pd).
  Notation nd := (pd_functions pd).

  (** std::invalid_argument leaves nothing to copy (MeshTie.cpp:190-192). *)
  Definition packed (o : option (list R * nat)) : list R * nat := match o with Some r => r | None => ([], 0%nat) end.
  (** MeshTie.cpp:330 and 364-365: value and gradient on the integration facets. *)
  Definition tie_q (i : nat) (u : list R) : list R * nat := packed (pack_coefficient_quadrature pd u ExteriorFacet (a_active (asm i))).
  Definition tie_grad_q (i : nat) (u : list R) : list R * nat := packed (pack_gradient_quadrature pd u ExteriorFacet (a_active (asm i))).
  (** MeshTie.cpp:331 and 366-367: the same on the connected surface. *)
  Definition tie_opp (i : nat) (u : list R) : list R * nat :=
    let p := pair i in
    (pack_u_contact (a_local (asm i)) nq nd (pd_bs pd) (pr_n_sub p) (pr_nds p) (a_parent (asm i)) (pr_f_to_c p) (pr_dofs_sub p) (a_dofs (asm i)) u (pr_facets p) (pr_basis p), nq * pd_bs pd)%nat.
  Definition tie_grad_opp (i : nat) (u : list R) : list R * nat :=
    let p := pair i in
    (pack_grad_u_contact (a_local (asm i)) nq nd (pd_bs pd) (pd_gdim pd) (a_facet_map (asm i)) (a_parent (asm i)) (a_dofs (asm i)) u (pr_facets p) (pr_grad p), nq * pd_bs pd * pd_gdim pd)%nat.
  (** MeshTie.cpp:190-192 (440-442): test functions of the connected surface. *)
  Definition tie_test_pack (i : nat) : list R * nat :=
    let p := pair i in
    (match pack_test_functions 0 (a_local (asm i)) nq ml nd (pd_bs pd) (a_facet_map (asm i)) (a_parent (asm i)) (pr_facets p) (pr_basis p) with Some t => t | None => [] end,
     len_test nq nd (pd_bs pd) ml).
  Definition tie_grad_test_pack (i : nat) : list R * nat :=
    let p := pair i in
    (match pack_grad_test_functions 0 (a_local (asm i)) nq ml nd (pd_gdim pd) (a_facet_map (asm i)) (a_parent (asm i)) (pr_facets p) (pr_grad p) with Some t => t | None => [] end,
     len_grad_test nq nd (pd_gdim pd) ml).
End Space.

(** A finite element function: whether it is of the displacement space ([true])
    or of the temperature space, and its coefficients (MeshTie.cpp:309-343). *)
Definition field : Type := bool * list R.

Section System.
  (** The displacement and the temperature space on the same pairs; cell diameters
      and packed material data; sizes as in MeshTieModel. *)
  Context (pd : bool -> pack_data) (num_pairs : nat) (pair : bool -> nat -> tie_pair) (num_facets : nat -> nat) (nq nd gdim ml : nat)
    (pack_h : nat -> list R) (pack_coeff0 : nat -> field -> list R * nat).

  (** The object after a history of calls (MeshTie.cpp:52-532). *)
  Definition tie_after (calls : list (tie_call (F := field))) : tie_state :=
    run_tie pack_h pack_coeff0
      (fun i f => tie_q (pd (fst f)) (pair (fst f)) i (snd f)) (fun i f => tie_grad_q (pd (fst f)) (pair (fst f)) i (snd f))
      (fun i f => tie_opp (pd (fst f)) (pair (fst f)) i (snd f)) (fun i f => tie_grad_opp (pd (fst f)) (pair (fst f)) i (snd f))
      (fun vec i => tie_test_pack (pd vec) (pair vec) ml i) (fun vec i => tie_grad_test_pack (pd vec) (pair vec) ml i)
      num_pairs num_facets nq nd gdim ml calls.
End System.

(** meshtie_kernels.cpp:25 and 468: the kernel is generated for the strides. *)
Definition with_strides (kd : kernel_data) (strides : list nat) : kernel_data :=
  {| kd_gdim := kd_gdim kd; kd_tdim := kd_tdim kd; kd_bs := kd_bs kd; kd_ndofs := kd_ndofs kd; kd_nodes := kd_nodes kd; kd_affine := kd_affine kd; kd_cstrides := strides;
     kd_qp_offsets := kd_qp_offsets kd; kd_phi := kd_phi kd; kd_dphi := kd_dphi kd; kd_dphi_c := kd_dphi_c kd; kd_weights := kd_weights kd;
     kd_ref_jacobian := kd_ref_jacobian kd; kd_ref_normal := kd_ref_normal kd; kd_inverse := kd_inverse kd; kd_determinant := kd_determinant kd |}.

Section Assemble.
  (** MeshTie.cpp:467-532: the loop over pairs with Contact::assemble_vector and
      assemble_matrix.  Each call comes with the kernel for its strides.  None: an
      empty std::function is called. *)
  Context (asm : nat -> assembly).
  Definition run_vector (calls : list ((list nat -> kernel_fn) * assembly_call)) (b : list R) : option (list R) :=
    fold_left (fun o (call : (list nat -> kernel_fn) * assembly_call) =>
      let '(kernel, (i, k, data, stride, w)) := call in
      match o, k with
      | Some b, Some strides => Some (assemble_vector (asm i) (kernel strides) data stride w b)
      | _, _ => None
      end) calls (Some b).
  Definition run_matrix (calls : list ((list nat -> kernel_fn) * assembly_call)) : option (list insertion) :=
    fold_left (fun o (call : (list nat -> kernel_fn) * assembly_call) =>
      let '(kernel, (i, k, data, stride, w)) := call in
      match o, k with
      | Some out, Some strides => Some (out ++ assemble_matrix (asm i) (kernel strides) data stride w)
      | _, _ => None
      end) calls (Some []).
  (** MeshTie.cpp:470-497 and 504-531: which kernel each call uses. *)
  Definition tie_vector (num_pairs : nat) (rhs thermo rhs_poisson : list nat -> kernel_fn) (pt : problem_type) (s : tie_state) (b : list R) : option (list R) :=
    let kernels := match pt with Poisson => [rhs_poisson] | ThermoElasticity => [rhs; thermo] | _ => [rhs] end in
    match assemble_vector_calls num_pairs pt s with
    | (Done, calls) => run_vector (combine (flat_map (fun _ => kernels) (seq 0 num_pairs)) calls) b
    | _ => None
    end.
  Definition tie_matrix (num_pairs : nat) (jac jac_poisson : list nat -> kernel_fn) (pt : problem_type) (s : tie_state) : option (list insertion) :=
    match assemble_matrix_calls num_pairs pt s with
    | (Done, calls) => run_matrix (combine (repeat (match pt with Poisson => jac_poisson | _ => jac end) num_pairs) calls)
    | _ => None
    end.
End Assemble.
