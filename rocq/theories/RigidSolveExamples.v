(** C126: the driver of the rigid slope of C125, pulled away from it. *)
From Coq Require Import List Arith ZArith Lia Bool Reals Lra.
Import ListNotations.
From Verif Require Import Prelude PreludeLemmas RSum RealLemmas EntitiesModel PackingModel AssemblyModel AssemblyProofs RayModel KernelModel KernelSpec RigidKernelModel RigidKernelProps OneSidedModel OneSidedProps CropModel
  CoefficientsModel CoefficientsProps SystemSpec TieSystemModel TieSystemProofs TieSystemExamples ContactSystemSpec SystemWeakProps FixedPointProofs PackUProps NewtonModel NewtonProofs NewtonProps NewtonHistoryProps NewtonFirstStep
  OneSidedSystemModel OneSidedSystemProps OneSidedSystemExamples OneSidedSolveModel OneSidedSolveProps OneSidedSolveExamples
  RigidDriverModel RigidDriverProps RigidSystemModel RigidSystemProps RigidSystemExamples RigidSolveModel RigidSolveProps.
Local Open Scope R_scope.

Notation slope_pulled x st := (RigidSystemModel.compute_residual (tri_pd true) plane_asm 2 1 (-1) slope_rhs pulled (repeat 0 (length x)) st).
Notation slope_driver := (nitsche_rigid_surface_custom (tri_pd true) plane_asm 1 1 2 1 (-1) [1] slope_gaps slope_normals slope_rhs slope_jac pulled plane_matrix lifting true (51/100)).
Lemma lifted_slope u0 u1 history : slope_pulled lifted (after_packing (tri_pd true) plane_asm 1 1 [1] slope_gaps slope_normals u0 u1 (history ++ [lifted])) = repeat 0 12.
Proof.
  set (r := slope_pulled lifted _).
  assert (X : forall v, length v = 12%nat -> length r = 12%nat /\ applied r v = 0).
  { intros v Lv. destruct (C125_residual_is_form (tri_pd true) plane_kd plane_asm 1 1 2 1 (-1) [1] slope_gaps slope_normals slope_rhs no_geometry pulled plane_setting eq_refl ltac:(lra) slope_h eq_refl eq_refl
      u0 u1 history lifted v Lv (pulled_length _)) as [L X].
    cbv beta in L, X. split; [unfold r, RigidSystemModel.compute_residual in *; rewrite repeat_length; exact L|]. 
    assert (ER : r = RigidSystemModel.compute_residual (tri_pd true) plane_asm 2 1 (-1) slope_rhs pulled lifted (after_packing (tri_pd true) plane_asm 1 1 [1] slope_gaps slope_normals u0 u1 (history ++ [lifted]))) by (unfold r, RigidSystemModel.compute_residual; rewrite repeat_length; reflexivity).
    rewrite ER, X.
    assert (B : applied (pulled lifted) v = 0).
    { unfold applied. apply rsum_zero. intros d Hd. rewrite pulled_length in Hd. rewrite pulled_nth by exact Hd. cbn [lifted length] in Hd.
      do 12 (destruct d as [|d]; [cbn [lifted nth Nat.odd Nat.even negb]; ring|]). lia. }
    rewrite B, Rplus_0_l. apply rsum_zero. intros e He. apply rsum_zero. intros q Hq. change (e < 1)%nat in He. change (q < 1)%nat in Hq. assert (e = 0)%nat as -> by lia. assert (q = 0)%nat as -> by lia.
    destruct (slope_fields lifted 1) as [V S1]; [intros j Hj; destruct j as [|[|[|j]]]; [| | |lia]; split; reflexivity|]. rewrite V, S1.
    assert (G : body_gap (tri_pd true) slope_gaps slope_normals 0 0 = 2 / 5) by (plain; field). rewrite G.
    unfold ufl_contact_residual, gamma_scaled. cbn [nth].
    match goal with |- context[OpsModel.py_R_minus ?x] => replace x with (12 / 5) by field end. unfold OpsModel.py_R_minus. rewrite Rabs_right by lra. lra. }
  destruct (X r) as [L _]; [apply (X (repeat 0 12)); apply repeat_length|].
  destruct (X r L) as [_ Z]. unfold applied in Z. rewrite L in Z.
  apply (nth_ext' _ _ 0); [rewrite repeat_length; exact L|]. intros d Hd. rewrite nth_repeat_0.
  assert (Q : nth d r 0 * nth d r 0 = 0) by (apply (rsum_nonneg_zero 12 (fun d => nth d r 0 * nth d r 0)); [intros; apply Rle_0_sqr|exact Z|lia]).
  now apply Rmult_integral in Q as [|].
Qed.

Example C126_nonvacuous : slope_driver careful 6%nat = Ret lifted.
Proof.
  unfold nitsche_rigid_surface_custom. cbv zeta. set (st0 := interpolate_initial _ _). set (s0 := init _ _ _ _).
  destruct (C47_options_stored careful s0 ltac:(discriminate)) as (s & ES & Eat & Ert & Emx & Eerr & _ & Ecr & Erx & Ex & EXT). rewrite ES.
  set (pb := surface_problem _ _ _ _ _ _ _ _ _ _ _).
  assert (T0 : 0 < / 10 ^ 7) by (apply Rinv_0_lt_compat, pow_lt; lra).
  assert (G : owned (s_x s) = surface_guess (tri_pd true) (51/100) 6) by (rewrite Ex; reflexivity).
  assert (Co : s_coeffs s = st0) by (transitivity (s_coeffs s0); [intuition|reflexivity]).
  assert (Ei : initial_residual s = 0) by (transitivity (initial_residual s0); [intuition|reflexivity]).
  assert (AX : lifted = axpy pb 1 (fst (fst (lifting [] []))) (owned (s_x s))).
  { rewrite G. cbn [pb surface_problem axpy]. symmetry. apply (nth_ext' _ _ 0); [reflexivity|]. intros d Hd. rewrite vector_axpy_length in Hd. change (d < 12)%nat in Hd.
    unfold vector_axpy. rewrite (nth_map_lt _ _ d 0 0%nat) by (now rewrite seq_length). rewrite seq_nth by exact Hd. cbn [Nat.add].
    do 12 (destruct d as [|d]; [cbn; lra|]). lia. }
  pose (c0 := pack_coefficients (tri_pd true) plane_asm (owned (s_x s)) (s_coeffs s)). pose (c1 := pack_coefficients (tri_pd true) plane_asm lifted c0).
  destruct (first_step_exact pb (fun x st => pack_coefficients (tri_pd true) plane_asm (owned x) st) (fun x st => slope_pulled (owned x) st) (fun _ st _ => RigidSystemModel.compute_jacobian (tri_pd true) plane_asm 2 1 (-1) slope_jac plane_matrix st) eq_refl eq_refl eq_refl s (max_it s + 7)
    {| owned := owned (s_x s); ghosts := tt |} c0 (slope_pulled (owned (s_x s)) c0) (fst (fst (lifting [] []))) 3%nat lifted c1 (slope_pulled lifted c1)) as (s' & E & X & Er).
  - lia.
  - rewrite Emx. cbn. lia.
  - rewrite Ecr; reflexivity.
  - rewrite Erx. discriminate.
  - exact Ei.
  - rewrite Ert. exact T0.
  - rewrite Eat. exact T0.
  - reflexivity.
  - reflexivity.
  - reflexivity.
  - reflexivity.
  - exact AX.
  - reflexivity.
  - reflexivity.
  - change (0 < norm2 (fst (fst (lifting [] [])))). apply sqrt_lt_R0. cbn. lra.
  - apply sqrt_pos.
  - unfold c1, c0. rewrite Co. change (norm2 (slope_pulled lifted (after_packing (tri_pd true) plane_asm 1 1 [1] slope_gaps slope_normals (repeat 0 12) (surface_guess (tri_pd true) (51/100) 6) ([owned (s_x s)] ++ [lifted]))) = 0).
    rewrite lifted_slope. unfold norm2. rewrite rsum_zero; [apply sqrt_0|]. intros d _. rewrite nth_repeat_0. ring.
  - rewrite E. rewrite Er, Eerr. cbn [kept careful o_error andb negb]. f_equal. exact X.
Qed.
(** The theorem applies to this run. *)
Example C126_close_nonvacuous : exists solution, length solution = 12%nat /\ slope_pulled solution (after_packing (tri_pd true) plane_asm 1 1 [1] slope_gaps slope_normals [] [] [solution]) = repeat 0 12 /\ sqrt (distance2 12 lifted solution) < / 10 ^ 7 / 1.
Proof.
  destruct (C126_returned_is_close (tri_pd true) plane_kd plane_asm 1 1 2 1 (-1) [1] slope_gaps slope_normals slope_rhs slope_jac no_geometry pulled plane_matrix lifting true (51/100) plane_setting eq_refl ltac:(lra) slope_h eq_refl eq_refl
    careful 6 lifted 1 1 pulled_length) as (u & L & Z & _ & _ & D); try lra.
  - intros e q He Hq. rewrite plane_weight by assumption. lra.
  - intros u w Lu Lw. replace ((1 + -1) * (1 + -1) / 4) with 0 by field. rewrite Rmult_0_l, Rplus_0_r, Rmult_1_l. right. unfold applied. rewrite !pulled_length, moved_length, Lu, <- rsum_minus.
    apply rsum_ext. intros d Hd. rewrite !pulled_nth by (rewrite ?moved_length; lia). rewrite nth_moved by congruence. ring.
  - intros u v Lu Lv. right. rewrite Rmult_1_l. apply rsum_ext. intros d Hd. rewrite !pulled_nth by lia. ring.
  - reflexivity.
  - now left.
  - exact C126_nonvacuous.
  - exists u. split; [exact L|]. split; [|exact D]. etransitivity; [|exact Z]. cbv beta.
    change [u] with ([] ++ [u]) at 1. rewrite !(state_last (tri_pd true) plane_kd plane_asm 1 1 [1] slope_gaps slope_normals plane_setting eq_refl eq_refl). unfold RigidSystemModel.compute_residual. now rewrite repeat_length.
Qed.
