(** A concrete mesh tie object: two triangles of two bodies that share a facet,
    tied in both directions; it meets the hypotheses of C73. *)
From Coq Require Import List Arith ZArith Lia Bool Reals Lra Sorted.
Import ListNotations.
From Verif Require Import Prelude PreludeLemmas RSum EntitiesModel PackingModel SubMeshProps PackUProps AssemblyModel AssemblyProofs LayoutModel
  MeshTieModel MeshTieProps MeshTieHistoryProps RayModel KernelModel KernelSpec MeshTieKernelModel CoefficientsModel CoefficientsProps SystemSpec TieSystemModel TieSystemProofs TieSystemProps.
Local Open Scope R_scope.

Definition tri_cells (cell : nat) : list nat := if (cell =? 0)%nat then [0; 1; 2]%nat else [3; 4; 5]%nat.
Definition tri_phi (p m : nat) : R := nth m (nth p [[0; 1/2; 1/2]; [1/2; 0; 1/2]; [1/2; 1/2; 0]] []) 0.
Definition tri_x : list R := [0; 0; 0; 1; 0; 0; 0; 1; 0; 1; 1; 0; 0; 1; 0; 1; 0; 0].
Definition det2 (J : matrix) : R := J 0%nat 0%nat * J 1%nat 1%nat - J 0%nat 1%nat * J 1%nat 0%nat.
(** Pseudo-determinant of the 2 x 1 Jacobian of a facet. *)
Definition column_length (J : matrix) : R := sqrt (J 0%nat 0%nat * J 0%nat 0%nat + J 1%nat 0%nat * J 1%nat 0%nat).
Definition tri_pd (vec : bool) : pack_data := {|
  pd_gdim := 2; pd_tdim := 2; pd_bs := if vec then 2 else 1; pd_vs := 1; pd_dofmap_bs := if vec then 2 else 1; pd_nq := 1; pd_q_offsets := fun f => f;
  pd_basis := fun d p m l => match d with O => tri_phi p m | S k => P1_dphi k m end;
  pd_functions := 3; pd_dofs := tri_cells; pd_affine := true; pd_nodes := 3; pd_x_dofmap := tri_cells; pd_x := tri_x; pd_dphi_c := fun k p a => P1_dphi k a;
  pd_inverse := inverse2; pd_determinant := det2; pd_transforms := false; pd_transform := fun _ b => b; pd_push_forward := fun _ _ _ b => b |}.
Definition tri_kd (vec : bool) : kernel_data := {|
  kd_gdim := 2; kd_tdim := 2; kd_bs := if vec then 2 else 1; kd_ndofs := 3; kd_nodes := 3; kd_affine := true; kd_cstrides := []; kd_qp_offsets := fun f => f;
  kd_phi := tri_phi; kd_dphi := fun k p m => P1_dphi k m; kd_dphi_c := fun k p a => P1_dphi k a; kd_weights := fun _ => 1;
  kd_ref_jacobian := fun f => nth f [fun i _ => if (i =? 0)%nat then -1 else 1; fun i _ => if (i =? 0)%nat then 0 else 1; fun i _ => if (i =? 0)%nat then 1 else 0] (fun _ _ => 0);
  kd_ref_normal := fun f => nth f [fun _ => sqrt (1/2); fun i => if (i =? 0)%nat then -1 else 0; fun i => if (i =? 0)%nat then 0 else -1] (fun _ => 0);
  kd_inverse := inverse2; kd_determinant := column_length |}.
(** Pair [i] integrates over facet 0 of cell [i]; its point has the facet of the
    other cell. *)
Definition tri_pair (vec : bool) (i : nat) : tie_pair := {|
  pr_asm := {| a_max_links := 1; a_ndofs := 3; a_bs := if vec then 2 else 1; a_gdim := 2; a_num_dofs_g := 3; a_x_dofmap := tri_cells; a_x := tri_x; a_dofs := tri_cells;
     a_active := [i; 0]%nat; a_local := 1; a_map := fun _ => [Z.of_nat (1 - i)]; a_facet_map := mkAdj [0; 0; 1; 0]%nat [0; 2; 4]%nat; a_parent := [0; 1]%nat |};
  pr_n_sub := 2; pr_nds := 6; pr_f_to_c := fun f => [f]; pr_dofs_sub := tri_cells; pr_facets := [Z.of_nat (1 - i)];
  pr_basis := fun _ j => tri_phi 0 j; pr_grad := fun c _ j b => (if (c =? 0)%nat then 1 else -1) * P1_dphi b j |}.

Lemma inverse2_local (J J' : matrix) : (forall i j, (i < 2)%nat -> (j < 2)%nat -> J i j = J' i j) -> forall k b, inverse2 J k b = inverse2 J' k b.
Proof. intros H k b. unfold inverse2. cbv zeta. rewrite !H by lia. reflexivity. Qed.

Lemma tri_pair_setting vec i : (i < 2)%nat -> pair_setting (tri_pd vec) 1 (tri_pair vec i).
Proof.
  intros Hi. constructor; try reflexivity; cbn [tri_pair tri_pd pr_asm a_local a_active pd_functions pd_nodes pd_x_dofmap pd_nq pd_dofs].
  - cbn. lia.
  - intros c. unfold tri_cells. now destruct (c =? 0)%nat.
  - exists [(i, 0%nat)]. split; [reflexivity|cbn; lia].
  - intros e He. assert (e = 0)%nat as -> by lia. reflexivity.
  - intros e He. assert (e = 0)%nat as -> by lia. destruct i as [|[|i]]; [| |lia]; vm_compute; lia.
  - repeat split; try reflexivity.
    + intros c j c' j' Hc Hc' Hj Hj' E. change (c < 2)%nat in Hc. change (c' < 2)%nat in Hc'. destruct c as [|[|c]]; [| |lia]; destruct c' as [|[|c']]; try lia; cbn in *; exact E.
    + intros c j Hc Hj. change (c < 2)%nat in Hc. destruct c as [|[|c]]; [| |lia]; destruct j as [|[|[|j]]]; cbn in *; lia.
    + change (c < 2)%nat in H. destruct c as [|[|c]]; [| |lia]; reflexivity.
    + change (c < 2)%nat in H. destruct c as [|[|c]]; [| |lia]; reflexivity.
    + repeat constructor.
    + destruct H as [<-|[]]. destruct i as [|[|i]]; [| |lia]; reflexivity.
    + destruct H as [<-|[]]. destruct i as [|[|i]]; [| |lia]; vm_compute; lia.
  - intros e He. assert (e = 0)%nat as -> by lia. left. intros f [<-|[]]. lia.
Qed.

Lemma tri_setting vec : tie_setting (tri_pd vec) (tri_kd vec) 2 (tri_pair vec) 1.
Proof.
  constructor; try reflexivity.
  - constructor; cbn; try (now right); destruct vec; try lia; intros c; unfold tri_cells; now destruct (c =? 0)%nat.
  - intros _ j p p' a. reflexivity.
  - constructor; try reflexivity.
    + intros f. unfold num_points. cbn. lia.
    + intros k p j. cbn [tri_kd tri_pd kd_dphi pd_basis]. now rewrite Nat.add_comm.
    + intros J J' H k b _ _. apply inverse2_local. exact H.
  - intros i Hi. now apply tri_pair_setting.
Qed.

Definition tri_after := tie_after tri_pd 2 tri_pair (fun _ => 1%nat) 1 3 2 1 (fun _ => [1]) (fun _ _ => ([1], 1%nat)).
Definition no_field : coefficients (F := field) := {| c_mu := None; c_lambda := None; c_alpha := None; c_kdt := None; c_u := None; c_T := None |}.
Definition tri_u : list R := [0; 1; 2; 3; 5; 7; 1; 1; 0; 4; 6; 2].
Definition tri_material : coefficients (F := field) := {| c_mu := Some (false, [1]); c_lambda := Some (false, [2]); c_alpha := None; c_kdt := Some (false, [3]); c_u := Some (true, [1]); c_T := None |}.
Definition tri_update : coefficients (F := field) := {| c_mu := None; c_lambda := None; c_alpha := None; c_kdt := None; c_u := Some (true, tri_u); c_T := Some (false, tri_u) |}.
(** A history with a rejected call, two generations and updates. *)
Definition tri_history : list tie_call :=
  [TUpdate Elasticity tri_update; TGenerate Elasticity tri_material 1 0; TGenerate Poisson tri_material 3 1; TUpdate Elasticity no_field; TUpdate Poisson tri_update; TGenerate Elasticity tri_material 2 1; TUpdate Elasticity tri_update].

Lemma tri_object vec : object_setting tri_pd 2 tri_pair (fun _ => 1%nat) 1 3 2 1 (fun _ _ => ([1], 1%nat)) vec (tri_kd vec).
Proof. constructor; try reflexivity; [constructor; reflexivity | apply tri_setting]. Qed.
Lemma tri_fields : Forall fields_given tri_history.
Proof. repeat (apply Forall_cons || apply Forall_nil); split; intros f E; cbn in E; first [discriminate | injection E as <-; reflexivity]. Qed.

Definition no_geometry : geometry := mkGeometry (fun _ _ => 0) 0 (fun _ => 0).
Example C73_elastic_nonvacuous : forall b, length b = 12%nat ->
  let rhs st := meshtie_rhs (with_strides (tri_kd true) st) no_geometry in
  let thermo st := meshtie_thermo_elastic (with_strides (tri_kd true) st) no_geometry in
  let jac st := meshtie_jac (with_strides (tri_kd true) st) no_geometry in
  exists v M, tie_vector (fun i => pr_asm (tri_pair true i)) 2 rhs thermo rhs Elasticity (tri_after tri_history) b = Some v /\
    tie_matrix (fun i => pr_asm (tri_pair true i)) 2 jac jac Elasticity (tri_after tri_history) = Some M /\
    forall d, (d < 12)%nat -> nth d v 0 = nth d b 0 + matrix_times 2 M tri_u d.
Proof.
  intros b Lb rhs thermo jac.
  destruct (C73_elastic_residual_is_matrix_times_displacement tri_pd 2 tri_pair (fun _ => 1%nat) 1 3 2 1 (fun _ => [1]) (fun _ _ => ([1], 1%nat))
    (tri_kd true) rhs thermo rhs jac jac tri_history {| e_mu := (false, [1]); e_lambda := (false, [2]); e_gamma := 2; e_theta := 1; e_u := Some (true, tri_u) |} tri_u b (tri_object true)) as (v & M & Ev & EM & Lv & X); try reflexivity.
  - intros st. repeat split; exists no_geometry; reflexivity.
  - exact tri_fields.
  - repeat (apply Forall_cons || apply Forall_nil); discriminate.
  - exists v, M. repeat split; auto. rewrite Lb in X. exact X.
Qed.
Example C73_poisson_nonvacuous : forall b, length b = 6%nat ->
  let rhs st := poisson_rhs (with_strides (tri_kd false) st) no_geometry in
  let jac st := poisson_jac (with_strides (tri_kd false) st) no_geometry in
  exists v M, tie_vector (fun i => pr_asm (tri_pair false i)) 2 rhs rhs rhs Poisson (tri_after tri_history) b = Some v /\
    tie_matrix (fun i => pr_asm (tri_pair false i)) 2 jac jac Poisson (tri_after tri_history) = Some M /\
    forall d, (d < 6)%nat -> nth d v 0 = nth d b 0 + matrix_times 1 M tri_u d.
Proof.
  intros b Lb rhs jac.
  destruct (C73_poisson_residual_is_matrix_times_temperature tri_pd 2 tri_pair (fun _ => 1%nat) 1 3 2 1 (fun _ => [1]) (fun _ _ => ([1], 1%nat))
    (tri_kd false) rhs rhs rhs jac jac tri_history {| p_kdt := (false, [3]); p_gamma := 3; p_theta := 1; p_T := Some (false, tri_u) |} tri_u b (tri_object false)) as (v & M & Ev & EM & Lv & X); try reflexivity.
  - intros st. repeat split; exists no_geometry; reflexivity.
  - exact tri_fields.
  - exists v, M. repeat split; auto. rewrite Lb in X. exact X.
Qed.
