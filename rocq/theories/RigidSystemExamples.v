(** C125: a triangle over a rigid slope, after two earlier calls of pack_coefficients. *)
From Coq Require Import List Arith ZArith Lia Bool Reals Lra.
Import ListNotations.
From Verif Require Import Prelude PreludeLemmas RSum RealLemmas EntitiesModel PackingModel AssemblyModel AssemblyProofs RayModel KernelModel KernelSpec RigidKernelModel RigidKernelProps OneSidedModel OneSidedProps
  CoefficientsModel CoefficientsProps SystemSpec TieSystemModel TieSystemProofs TieSystemExamples ContactSystemSpec SystemWeakProps FixedPointProofs PackUProps OneSidedSystemModel OneSidedSystemProps OneSidedSystemExamples
  RigidDriverModel RigidDriverProps RigidSystemModel RigidSystemProps.
Local Open Scope R_scope.

(** Normal (3/5, 4/5) of the slope, gap vector (0, -1/2) at the only point. *)
Definition slope_normals : list R := [3/5; 4/5].
Definition slope_gaps : list R := [0; -1/2].
Definition slope_rhs : kernel_fn := rigid_rhs plane_kd no_geometry false.
Definition slope_jac : kernel_fn := rigid_jac plane_kd no_geometry false.
Definition slope_history : list (list R) := [plane_down; plane_up].
Notation slope_state := (after_packing (tri_pd true) plane_asm 1 1 [1] slope_gaps slope_normals (repeat 7 12) plane_up).
Notation slope_F := (fun x => compute_residual (tri_pd true) plane_asm 2 1 (-1) slope_rhs plane_bulk x (slope_state (slope_history ++ [x]))).
Notation slope_M := (fun x => compute_jacobian (tri_pd true) plane_asm 2 1 (-1) slope_jac plane_matrix (slope_state (slope_history ++ [x]))).

Lemma slope_h e : (e < a_local plane_asm)%nat -> 0 < nth e [1] 0.
Proof. intros He. change (e < 1)%nat in He. assert (e = 0)%nat as -> by lia. cbn. lra. Qed.

(** Exactly one equilibrium. *)
Example C125_nonvacuous : exists u, length u = 12%nat /\ slope_F u = repeat 0 12 /\ forall u', length u' = 12%nat -> slope_F u' = repeat 0 12 -> u' = u.
Proof.
  apply (C125_exactly_one_solution (tri_pd true) plane_kd plane_asm 1 1 2 1 (-1) [1] slope_gaps slope_normals slope_rhs no_geometry plane_bulk plane_setting eq_refl ltac:(lra) slope_h eq_refl eq_refl
    (repeat 7 12) plane_up slope_history 12 1 1 plane_bulk_length); try lra.
  - intros e q He Hq. rewrite plane_weight by assumption. lra.
  - intros u w Lu Lw. replace ((1 + -1) * (1 + -1) / 4) with 0 by field. rewrite Rmult_0_l, Rplus_0_r, Rmult_1_l. right. unfold applied. rewrite !plane_bulk_length, moved_length, Lu, <- rsum_minus.
    apply rsum_ext. intros d Hd. rewrite !plane_bulk_nth by (rewrite ?moved_length; lia). rewrite nth_moved by congruence. ring.
  - intros u v Lu Lv. right. rewrite Rmult_1_l. apply rsum_ext. intros d Hd. rewrite !plane_bulk_nth by lia. ring.
Qed.

(** Translations by (0, y). *)
Lemma slope_fields v y : (forall j, (j < 3)%nat -> nth (2 * j) v 0 = 0 /\ nth (2 * j + 1) v 0 = y) ->
  body_value (tri_pd true) plane_asm slope_normals 0 0 v = - (4 / 5 * y) /\ body_stress (tri_pd true) plane_kd plane_asm 1 1 slope_normals 0 0 v = 0.
Proof.
  intros H.
  assert (D : forall j n, (j < 3)%nat -> (n < 2)%nat -> dof_value 2 (pd_dofs (tri_pd true) (facet_cell plane_asm 0)) v j n = if (n =? 0)%nat then 0 else y).
  { intros j n Hj Hn. unfold dof_value. replace (nth j (pd_dofs (tri_pd true) (facet_cell plane_asm 0)) 0%nat) with j by (destruct j as [|[|[|j]]]; [reflexivity..|lia]).
    destruct n as [|[|n]]; [rewrite Nat.add_0_r; apply H, Hj|apply H, Hj|lia]. }
  split.
  - unfold body_value, along_body. change (pd_gdim (tri_pd true)) with 2%nat. cbn [rsum].
    assert (X : forall n, (n < 2)%nat -> fe_value (tri_pd true) plane_asm 0 0 v n = if (n =? 0)%nat then 0 else y).
    { intros n Hn. unfold fe_value. change (pd_functions (tri_pd true)) with 3%nat. change (pd_bs (tri_pd true)) with 2%nat. cbn [rsum]. rewrite !D by lia. destruct n as [|[|n]]; [| |lia]; plain; field. }
    rewrite !X by lia. plain. field.
  - unfold body_stress, along_body. change (pd_gdim (tri_pd true)) with 2%nat.
    assert (G : forall b c, (b < 2)%nat -> (c < 2)%nat -> fe_gradient (tri_pd true) plane_asm 0 0 v b c = 0).
    { intros b c Hb Hc. unfold fe_gradient. change (pd_functions (tri_pd true)) with 3%nat. change (pd_bs (tri_pd true)) with 2%nat. cbn [rsum]. rewrite !D by lia.
      destruct b as [|[|b]]; [cbn [Nat.eqb]; ring| |lia]. cbn [Nat.eqb].
      destruct c as [|[|c]]; [| |lia]; plain; field; apply Rgt_not_eq; lra. }
    apply rsum_zero. intros a Ha. rewrite <- (Rmult_0_l (into_body (tri_pd true) slope_normals 0 0 a)). f_equal. apply rsum_zero. intros b Hb. rewrite <- (Rmult_0_l (facet_normal plane_kd plane_asm 0 0 b)). f_equal. unfold ElasticityProps.stress. cbn [rsum]. rewrite !G by lia. destruct (a =? b)%nat; ring.
Qed.
(** A body pushed down by 2 with a normal gap of 2/5 penetrates the slope by 8/5 - 2/5 = 6/5: the
    slope pushes with 2 times that along its normal, 4/5 of it upwards. *)
Example C125_pushes : applied (slope_F plane_down) plane_up = applied (plane_bulk plane_down) plane_up - 2 * (6 / 5) * (4 / 5).
Proof.
  destruct (C125_residual_is_form (tri_pd true) plane_kd plane_asm 1 1 2 1 (-1) [1] slope_gaps slope_normals slope_rhs no_geometry plane_bulk plane_setting eq_refl ltac:(lra) slope_h eq_refl eq_refl
    (repeat 7 12) plane_up slope_history plane_down plane_up eq_refl (plane_bulk_length _)) as [_ X].
  cbv beta in X. rewrite X. unfold Rminus. f_equal. cbn [plane_asm a_local rsum tri_pd pd_nq]. fold plane_asm. rewrite plane_weight by lia.
  destruct (slope_fields plane_down (-2)) as [V S1]; [intros j Hj; destruct j as [|[|[|j]]]; [| | |lia]; split; reflexivity|].
  destruct (slope_fields plane_up 1) as [V' S']; [intros j Hj; destruct j as [|[|[|j]]]; [| | |lia]; split; reflexivity|].
  assert (G : body_gap (tri_pd true) slope_gaps slope_normals 0 0 = 2 / 5) by (plain; field).
  unfold tri_pd in V, S1, V', S', G. unfold tri_pd. rewrite V, S1, V', S', G.
  unfold ufl_contact_residual, gamma_scaled. cbn [nth].
  match goal with |- context[OpsModel.py_R_minus ?x] => replace x with (- (12 / 5)) by field end. unfold OpsModel.py_R_minus. rewrite Rabs_left by lra. lra.
Qed.
(** There the matrix is the derivative: no point is on the edge of contact. *)
Example C125_derivative_nonvacuous : forall d, (d < 12)%nat -> derivable_pt_lim (fun t => nth d (slope_F (moved plane_down plane_up t)) 0) 0 (matrix_times 2 (slope_M plane_down) plane_up d).
Proof.
  intros d Hd.
  apply (C125_matrix_is_derivative (tri_pd true) plane_kd plane_asm 1 1 2 1 (-1) [1] slope_gaps slope_normals slope_rhs slope_jac no_geometry plane_bulk plane_matrix plane_setting eq_refl eq_refl ltac:(lra) slope_h eq_refl eq_refl
    (repeat 7 12) plane_up slope_history plane_down plane_up d eq_refl Hd).
  - intros e q He Hq. change (e < 1)%nat in He. change (q < 1)%nat in Hq. assert (e = 0)%nat as -> by lia. assert (q = 0)%nat as -> by lia.
    destruct (slope_fields plane_down (-2)) as [V S1]; [intros j Hj; destruct j as [|[|[|j]]]; [| | |lia]; split; reflexivity|]. rewrite V, S1.
    assert (G : body_gap (tri_pd true) slope_gaps slope_normals 0 0 = 2 / 5) by (plain; field). rewrite G.
    unfold gamma_scaled. cbn [nth]. lra.
  - assert (Z : matrix_times 2 plane_matrix plane_up d = nth d plane_up 0).
    { do 12 (destruct d as [|d]; [cbn; ring|]). lia. }
    change (pd_bs (tri_pd true)) with 2%nat. rewrite Z. eapply derivable_ext; [intros t; rewrite plane_bulk_nth by (rewrite moved_length; exact Hd); rewrite nth_moved by reflexivity; reflexivity|].
    apply (derivable_ext _ (fun t => (nth d plane_down 0 - 1) + t * nth d plane_up 0)); [intros; ring|]. apply derivable_affine.
Qed.
(** Over the plane of nitsche_custom the residuals of the two drivers are equal. *)
Example C125_agrees_nonvacuous : forall u, length u = 12%nat ->
  compute_residual (tri_pd true) plane_asm 2 1 (-1) slope_rhs plane_bulk u (after_packing (tri_pd true) plane_asm 1 1 [1] (g_vec (tri_pd true) plane_asm (1/2) [1/2; 0]) [0; 1] plane_up plane_down (slope_history ++ [u])) = plane_F u.
Proof.
  intros u Lu. apply (C125_agrees_with_plane (tri_pd true) plane_kd plane_asm 1 1 (1/2) 2 1 (-1) [1] [1/2; 0] [0; 1] plane_rhs slope_rhs no_geometry no_geometry plane_bulk plane_up plane_down slope_history u plane_setting eq_refl eq_refl eq_refl ltac:(lra) slope_h eq_refl); [|apply plane_bulk_length].
  intros e q a He Hq Ha. change (e < 1)%nat in He. change (q < 1)%nat in Hq. change (a < 2)%nat in Ha. assert (e = 0)%nat as -> by lia. assert (q = 0)%nat as -> by lia. destruct a as [|[|a]]; [reflexivity|reflexivity|lia].
Qed.
