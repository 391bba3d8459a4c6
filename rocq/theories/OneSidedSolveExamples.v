(** C124: the one-sided driver on the triangle of C122, pulled away from the plane. *)
From Coq Require Import List Arith ZArith Lia Bool Reals Lra.
Import ListNotations.
From Verif Require Import Prelude PreludeLemmas RSum RealLemmas EntitiesModel PackingModel AssemblyModel KernelModel KernelSpec RigidKernelModel RigidKernelProps OneSidedModel OpsModel
  CoefficientsModel SystemSpec TieSystemModel TieSystemProofs TieSystemExamples ContactSystemSpec SystemWeakProps FixedPointProofs NewtonModel NewtonProofs NewtonHistoryProps NewtonExactProps OneSidedSystemModel OneSidedSystemProps OneSidedSystemExamples OneSidedSolveModel OneSidedSolveProps.
Local Open Scope R_scope.

(** Unit stiffness, and a load of one pulling every node up. *)
Definition pulled (v : list R) : list R := map (fun d => nth d v 0 - if Nat.odd d then 1 else 0) (seq 0 (length v)).
Definition lifted : list R := [0; 1; 0; 1; 0; 1; 0; 1; 0; 1; 0; 1].
(** The initial guess is pressed into the plane; this linear solver returns the step from it to [lifted]. *)
Definition lifting (A : list insertion) (b : list R) : list R * nat * bool := (map (fun d => if Nat.odd d then - (1 / 100) - 1 / 2 - 1 else 0) (seq 0 12), 3%nat, true).
Definition careful : options := {| o_atol := None; o_rtol := None; o_crit := None; o_max_it := None; o_error := Some true; o_relax := None |}.
Notation pulled_F := (fun x => assemble_residual (tri_pd true) plane_asm 1 1 (1/2) 2 1 (-1) [1] [1/2; 0] plane_rhs pulled x x).
Notation pulled_driver := (nitsche_custom (tri_pd true) plane_asm 1 1 (1/2) 2 1 (-1) [1] [1/2; 0] plane_rhs plane_jac pulled plane_matrix lifting true).
Lemma pulled_length v : length (pulled v) = length v.
Proof. unfold pulled. now rewrite map_length, seq_length. Qed.
Lemma pulled_nth v d : (d < length v)%nat -> nth d (pulled v) 0 = nth d v 0 - if Nat.odd d then 1 else 0.
Proof. intros H. unfold pulled. rewrite (nth_map_lt _ _ d 0 0%nat) by (now rewrite seq_length). now rewrite seq_nth by exact H. Qed.
Lemma plane_h : forall e, (e < a_local plane_asm)%nat -> 0 < nth e [1] 0.
Proof. intros e He. change (e < 1)%nat in He. assert (e = 0)%nat as -> by lia. cbn. lra. Qed.

Lemma lifted_solves : pulled_F lifted = repeat 0 12.
Proof.
  assert (X : forall v, length v = 12%nat -> length (pulled_F lifted) = 12%nat /\ applied (pulled_F lifted) v = 0).
  { intros v Lv. destruct (C122_residual_is_form (tri_pd true) plane_kd plane_asm 1 1 (1/2) 2 1 (-1) [1] [1/2; 0] plane_rhs no_geometry pulled plane_setting eq_refl eq_refl ltac:(lra) plane_h lifted v Lv (pulled_length _)) as [L X].
    split; [exact L|]. cbv beta in X. rewrite X.
    assert (B : applied (pulled lifted) v = 0).
    { unfold applied. apply rsum_zero. intros d Hd. rewrite pulled_length in Hd. rewrite pulled_nth by exact Hd. cbn [lifted length] in Hd.
      do 12 (destruct d as [|d]; [cbn [lifted nth Nat.odd Nat.even negb]; ring|]). lia. }
    rewrite B, Rplus_0_l. apply rsum_zero. intros e He. apply rsum_zero. intros q Hq. change (e < 1)%nat in He. change (q < 1)%nat in Hq. assert (e = 0)%nat as -> by lia. assert (q = 0)%nat as -> by lia.
    destruct (plane_fields lifted 1) as [V S1]; [intros j Hj; destruct j as [|[|[|j]]]; [| | |lia]; split; reflexivity|]. rewrite V, S1.
    unfold ufl_contact_residual, gamma_scaled, plane_gap. cbn [nth Nat.mul Nat.add Nat.sub pd_gdim pd_nq tri_pd].
    match goal with |- context[py_R_minus ?x] => replace x with 3 by field end. unfold py_R_minus. rewrite Rabs_right by lra. lra. }
  set (r := pulled_F lifted) in *. destruct (X r) as [L _]; [apply (X (repeat 0 12)); apply repeat_length|].
  destruct (X r L) as [_ Z]. unfold applied in Z. rewrite L in Z.
  apply (nth_ext' _ _ 0); [rewrite repeat_length; exact L|]. intros d Hd. rewrite nth_repeat_0.
  assert (Q : nth d r 0 * nth d r 0 = 0) by (apply (rsum_nonneg_zero 12 (fun d => nth d r 0 * nth d r 0)); [intros; apply Rle_0_sqr|exact Z|lia]).
  now apply Rmult_integral in Q as [|].
Qed.

Example C124_nonvacuous : pulled_driver careful 6%nat = Ret lifted.
Proof.
  unfold nitsche_custom. set (s0 := init _ _ _ _).
  destruct (C47_options_stored careful s0 ltac:(discriminate)) as (s & ES & Eat & Ert & Emx & Eerr & _ & Ecr & Erx & Ex & _ & _ & _ & Ei & _). rewrite ES.
  set (pb := driver_problem _ _ _ _ _ _ _ _ _ _ _ _ _ _ _ _).
  assert (T0 : 0 < / 10 ^ 7) by (apply Rinv_0_lt_compat, pow_lt; lra).
  assert (G : owned (s_x s) = initial_guess (tri_pd true) (1/2) 6) by (rewrite Ex; reflexivity).
  assert (AX : axpy pb 1 (fst (fst (lifting [] []))) (owned (s_x s)) = lifted).
  { rewrite G. cbn [pb driver_problem axpy]. apply (nth_ext' _ _ 0); [reflexivity|]. intros d Hd. rewrite vector_axpy_length in Hd. change (d < 12)%nat in Hd.
    unfold vector_axpy. rewrite (nth_map_lt _ _ d 0 0%nat) by (now rewrite seq_length). rewrite seq_nth by exact Hd. cbn [Nat.add].
    do 12 (destruct d as [|d]; [cbn; lra|]). lia. }
  destruct (C123_exact_step_accepted pb _ _ _ eq_refl eq_refl eq_refl s (max_it s + 7)) as (s' & E & X & Er).
  - lia.
  - rewrite Emx. cbn. lia.
  - rewrite Ecr; reflexivity.
  - rewrite Erx. discriminate.
  - rewrite Ei. reflexivity.
  - rewrite Ert. exact T0.
  - rewrite Eat. exact T0.
  - reflexivity.
  - change (0 < norm2 (fst (fst (lifting [] [])))). apply sqrt_lt_R0. cbn. lra.
  - apply sqrt_pos.
  - intros g c. change (norm2 (assemble_residual (tri_pd true) plane_asm 1 1 (1/2) 2 1 (-1) [1] [1/2; 0] plane_rhs pulled (axpy pb 1 (fst (fst (lifting [] []))) (owned (s_x s))) (repeat 0 (length (axpy pb 1 (fst (fst (lifting [] []))) (owned (s_x s)))))) = 0).
    rewrite AX. rewrite buffer_length_only by apply repeat_length. rewrite lifted_solves. unfold norm2. rewrite rsum_zero; [apply sqrt_0|]. intros d _. rewrite nth_repeat_0. ring.
  - rewrite E. rewrite Er, Eerr. cbn [kept careful o_error andb negb]. f_equal. rewrite X. exact AX.
Qed.
(** The theorem applies to this run. *)
Example C124_close_nonvacuous : exists solution, length solution = 12%nat /\ pulled_F solution = repeat 0 12 /\ sqrt (distance2 12 lifted solution) < / 10 ^ 7 / 1.
Proof.
  destruct (C124_returned_is_close (tri_pd true) plane_kd plane_asm 1 1 (1/2) 2 1 (-1) [1] [1/2; 0] plane_rhs plane_jac no_geometry pulled plane_matrix lifting true plane_setting eq_refl eq_refl ltac:(lra) plane_h
    careful 6 lifted 1 1 pulled_length) as (u & L & Z & _ & _ & D); try lra.
  - intros e q He Hq. rewrite plane_weight by assumption. lra.
  - intros u w Lu Lw. replace ((1 + -1) * (1 + -1) / 4) with 0 by field. rewrite Rmult_0_l, Rplus_0_r, Rmult_1_l. right. unfold applied. rewrite !pulled_length, moved_length, Lu, <- rsum_minus.
    apply rsum_ext. intros d Hd. rewrite !pulled_nth by (rewrite ?moved_length; lia). rewrite nth_moved by congruence. ring.
  - intros u v Lu Lv. right. rewrite Rmult_1_l. apply rsum_ext. intros d Hd. rewrite !pulled_nth by lia. ring.
  - reflexivity.
  - now left.
  - exact C124_nonvacuous.
  - exists u. auto.
Qed.
