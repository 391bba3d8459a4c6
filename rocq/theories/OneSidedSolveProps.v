(** C124: the displacement returned by the one-sided driver. *)
From Coq Require Import List Arith ZArith Lia Bool Reals Lra.
Import ListNotations.
From Verif Require Import Prelude PreludeLemmas RSum RealLemmas EntitiesModel PackingModel AssemblyModel KernelModel KernelSpec RigidKernelModel RigidKernelProps OneSidedModel
  CoefficientsModel SystemSpec TieSystemModel ContactSystemSpec SystemWeakProps FixedPointProofs NewtonModel NewtonProofs NewtonProps NewtonHistoryProps OneSidedSystemModel OneSidedSystemProps OneSidedSolveModel.
Local Open Scope R_scope.

Lemma vector_axpy_length r dx x : length (vector_axpy r dx x) = length x.
Proof. unfold vector_axpy. now rewrite map_length, seq_length. Qed.

Lemma solve_function_inv {O G B Mt C} (pb : problem O G B Mt C) fuel s v s' : solve pb fuel false s = (Ret v, s') ->
  exists s1, solve_once pb fuel s = (Ret v, s1) /\ owned (s_x s') = owned (s_x s1) /\ error_on_nonconvergence s' = error_on_nonconvergence s1.
Proof.
  unfold solve, bind. destruct (solve_once pb fuel s) as [[w|e|] s1] eqn:E1.
  - unfold ghost_update, modify, ret. intros H. injection H as <- <-. exists s1. auto.
  - destruct e; try discriminate. destruct (solve_once pb fuel s1) as [[w|e|] s2]; discriminate.
  - discriminate.
Qed.
(** A residual that is strongly monotone bounds the distance to its zero. *)
Lemma residual_bounds_error n (alpha : R) (r w : nat -> R) : 0 < alpha -> alpha * rsum n (fun d => w d * w d) <= rsum n (fun d => r d * w d) -> alpha * sqrt (rsum n (fun d => w d * w d)) <= sqrt (rsum n (fun d => r d * r d)).
Proof.
  intros Ha H. set (W := rsum n (fun d => w d * w d)) in *. set (V := rsum n (fun d => r d * r d)).
  assert (W0 : 0 <= W) by (apply rsum_nonneg; intros; apply Rle_0_sqr). assert (V0 : 0 <= V) by (apply rsum_nonneg; intros; apply Rle_0_sqr).
  pose proof (cauchy_schwarz_sq n r w) as CS. fold W V in CS. set (P := rsum n (fun d => r d * w d)) in *.
  destruct (Rle_lt_or_eq_dec 0 W W0) as [Wp|Wz].
  - assert (B : alpha * alpha * W <= V).
    { assert (Q : alpha * W * (alpha * W) <= V * W) by (apply (Rle_trans _ (P * P)); [apply Rmult_le_compat; [now apply Rmult_le_pos; [lra|]..|exact H|exact H]|exact CS]).
      apply (Rmult_le_reg_r W); [exact Wp|]. lra. }
    rewrite <- (sqrt_square alpha) at 1 by lra. rewrite <- sqrt_mult_alt by nra. now apply sqrt_le_1_alt.
  - rewrite <- Wz, sqrt_0, Rmult_0_r. apply sqrt_pos.
Qed.

Section Solve.
  Context (pd : pack_data) (kd : kernel_data) (asm : assembly) (mu lmbda plane_loc E gamma theta : R) (h qp : list R) (rhs jac : kernel_fn) (junk : geometry) (form_vector : list R -> list R) (form_matrix : list insertion).
  Context (linear_solve : list insertion -> list R -> list R * nat * bool) (rank : bool).
  Hypothesis DS : driver_setting pd kd asm.
  Hypothesis Haff : kd_affine kd = true.
  Hypothesis E_rhs : generate_rigid_surface_kernel Rhs kd junk true = Some rhs.
  Hypothesis Hw : 0 < E * gamma.
  Hypothesis Hh : forall e, (e < a_local asm)%nat -> 0 < nth e h 0.
  Notation F := (fun x => assemble_residual pd asm mu lmbda plane_loc E gamma theta h qp rhs form_vector x x).
  Notation pb := (driver_problem pd asm mu lmbda plane_loc E gamma theta h qp rhs jac form_vector form_matrix linear_solve rank).
  Notation driver := (nitsche_custom pd asm mu lmbda plane_loc E gamma theta h qp rhs jac form_vector form_matrix linear_solve rank).
  Notation rf := (fun (x : iterate (list R) unit) (_ : unit) => assemble_residual pd asm mu lmbda plane_loc E gamma theta h qp rhs form_vector (owned x) (repeat 0 (length (owned x)))).
  Notation jf := (fun (x : iterate (list R) unit) (_ : unit) (_ : list insertion) => assemble_jacobian pd asm mu lmbda plane_loc E gamma theta h qp jac form_matrix (owned x)).

  Lemma buffer_length_only x b : length b = length x -> assemble_residual pd asm mu lmbda plane_loc E gamma theta h qp rhs form_vector x b = F x.
  Proof using. intros L. unfold assemble_residual. now rewrite L. Qed.

  Lemma driver_ends fuel s n c s' : (max_it s + 7 <= fuel)%nat -> solve_once pb fuel s = (Ret (n, c), s') -> length (owned (s_x s')) = length (owned (s_x s)).
  Proof using.
    intros Hf E0. destruct (C44_line_search pb (fun _ c => c) rf jf eq_refl eq_refl eq_refl s fuel _ s' Hf E0 ltac:(discriminate)) as (st & ks & _ & _ & X0 & XL & _ & ST).
    rewrite <- X0, <- XL at 1.
    assert (K : forall i, (i <= iteration s')%nat -> length (owned (s_x (nth i st s'))) = length (owned (s_x (nth 0 st s')))).
    { induction i as [|i IH]; intros Hi; [reflexivity|]. destruct (ST i ltac:(lia)) as (_ & X & _). cbv zeta in X. rewrite X. cbn [axpy driver_problem]. rewrite vector_axpy_length. apply IH. lia. }
    now apply K.
  Qed.

  Lemma solve_once_options fuel s v s' : (max_it s + 7 <= fuel)%nat -> solve_once pb fuel s = (Ret v, s') -> error_on_nonconvergence s' = error_on_nonconvergence s.
  Proof using.
    intros Hf E0. destruct (solve_once_spec pb (fun _ c => c) rf jf eq_refl eq_refl eq_refl fuel s Hf) as (out & l & s1 & E1 & SE). rewrite E0 in E1. injection E1 as <- <-.
    destruct (solve_end_effect pb (fun _ c => c) rf jf s _ l s' SE) as ((_ & _ & _ & _ & X) & _). exact X.
  Qed.

  (** The driver ends, with a function, an error of the linear solver, or an error that says that
      Newton's method failed. *)
  Theorem C124_driver_ends : forall o nodes, driver o nodes <> OutOfFuel.
  Proof using.
    intros o nodes. unfold nitsche_custom. destruct (set_newton_options o _) as [[v|e|] s] eqn:ES; [|discriminate|].
    - destruct (solve pb (max_it s + 7) false s) as [[[k c]|e|] s'] eqn:E0; [destruct (error_on_nonconvergence s' && negb c); discriminate|discriminate|].
      destruct (C42_solve_terminates pb (fun _ c => c) rf jf eq_refl eq_refl eq_refl s _ false _ s' (le_n _) E0) as [X _]. congruence.
    - exfalso. set (s0 := init _ _ _ _) in ES. assert (D : o_crit o = Some None \/ o_crit o <> Some None) by (destruct (o_crit o) as [[c|]|]; [right|left|right]; congruence).
      destruct D as [D|D]; [destruct (C47_unknown_criterion_exact o s0 D) as (s1 & X & _)|destruct (C47_options_stored o s0 D) as (s1 & X & _)]; congruence.
  Qed.

  (** With the residual criterion and errors switched on, what is returned is closer than
      atol / alpha to the one displacement with zero residual, whatever the linear solver did. *)
  Theorem C124_returned_is_close :
    forall (o : options) (nodes : nat) (u : list R) (alpha K : R), let n := length (initial_guess pd plane_loc nodes) in
      (forall v, length (form_vector v) = length v) ->
      (forall e q, (e < a_local asm)%nat -> (q < pd_nq pd)%nat -> 0 <= facet_weight kd asm e q) ->
      0 < alpha -> 0 <= K ->
      (forall u w, length u = n -> length w = n ->
         alpha * rsum n (fun d => nth d w 0 * nth d w 0) + (1 + theta) * (1 + theta) / 4 * contact_stress pd kd asm mu lmbda E gamma h w <= applied (form_vector (moved u w 1)) w - applied (form_vector u) w) ->
      (forall u v, length u = n -> length v = n -> distance2 n (form_vector v) (form_vector u) <= K * distance2 n v u) ->
      o_error o = Some true -> o_crit o = None \/ o_crit o = Some (Some CResidual) ->
      driver o nodes = Ret u ->
      exists solution, length solution = n /\ F solution = repeat 0 n /\ (forall u', length u' = n -> F u' = repeat 0 n -> u' = solution) /\
        length u = n /\ sqrt (distance2 n u solution) < kept (o_atol o) (/ 10 ^ 7) / alpha.
  Proof.
    intros o nodes u alpha K n LB HW Ha K0 ST LIP Oe Oc ED.
    destruct (C122_exactly_one_solution pd kd asm mu lmbda plane_loc E gamma theta h qp rhs junk form_vector DS Haff E_rhs Hw Hh n alpha K LB HW Ha K0 ST LIP) as (us & Ls & Zs & Us).
    exists us. split; [exact Ls|]. split; [exact Zs|]. split; [exact Us|].
    unfold nitsche_custom in ED. set (s0 := init _ _ _ _) in ED.
    destruct (C47_options_stored o s0 ltac:(destruct Oc; congruence)) as (s & ES & Eat & _ & _ & Eerr & Ec1 & Ec2 & _ & Ex). rewrite ES in ED.
    assert (EC : criterion s = CResidual) by (destruct Oc as [O1|O1]; [rewrite (Ec2 O1); reflexivity|exact (Ec1 _ O1)]).
    assert (X0 : owned (s_x s) = initial_guess pd plane_loc nodes) by (destruct Ex as (Ex & _); rewrite Ex; reflexivity).
    destruct (solve pb (max_it s + 7) false s) as [[[k c]|e|] s'] eqn:E0; [|discriminate|discriminate].
    destruct (solve_function_inv _ _ _ _ _ E0) as (s1 & E1 & Xs & _).
    assert (Er : error_on_nonconvergence s' = true).
    { destruct (solve_function_inv _ _ _ _ _ E0) as (s2 & E2 & _ & ->). rewrite Oe in Eerr. cbn [kept] in Eerr. rewrite <- Eerr. apply (solve_once_options _ _ _ _ (le_n _) E2). }
    rewrite Er in ED. destruct c; [|discriminate]. cbn [andb negb] in ED. injection ED as <-.
    destruct (C43_residual_flag_truthful pb (fun _ c => c) rf jf eq_refl eq_refl eq_refl s _ k s1 (le_n _) EC E1) as (_ & Eb & _ & NB & _).
    pose proof (driver_ends _ _ _ _ _ (le_n _) E1) as Ln. rewrite X0 in Ln. fold n in Ln. rewrite Xs. set (v := owned (s_x s1)) in *. split; [exact Ln|].
    cbv beta in Eb. rewrite buffer_length_only in Eb by apply repeat_length. cbn [normB driver_problem] in NB. rewrite Eb, Eat in NB.
    change (atol s0) with (/ 10 ^ 7) in NB. fold v in NB.
    assert (LF : forall x, length (F x) = length x) by (intros x; exact (proj1 (C122_residual_is_form pd kd asm mu lmbda plane_loc E gamma theta h qp rhs junk form_vector DS Haff E_rhs Hw Hh x x eq_refl (LB x)))).
    set (w := moved v us (-1)). assert (Lw : length w = n) by (unfold w; rewrite moved_length; exact Ln).
    assert (Nw : forall d, nth d w 0 = nth d v 0 - nth d us 0) by (intros d; unfold w; rewrite nth_moved by congruence; ring).
    assert (MV : moved us w 1 = v) by (apply (nth_ext _ _ 0 0); [rewrite moved_length; congruence|]; intros d _; rewrite nth_moved, Nw by congruence; ring).
    specialize (ST us w Ls Lw). pose proof (C122_monotone pd kd asm mu lmbda plane_loc E gamma theta h qp rhs junk form_vector DS Haff E_rhs Hw Hh us w ltac:(congruence) LB HW) as FC. cbv beta in FC. rewrite MV in FC, ST. rewrite Zs in FC.
    assert (A0 : applied (repeat 0 n) w = 0) by (unfold applied; apply rsum_zero; intros d _; rewrite nth_repeat_0; ring). rewrite A0 in FC.
    assert (E3 : applied (F v) w = rsum n (fun d => nth d (F v) 0 * nth d w 0)) by (unfold applied; now rewrite LF, Ln).
    cbv beta in E3. rewrite E3 in FC.
    pose proof (residual_bounds_error n alpha (fun d => nth d (F v) 0) (fun d => nth d w 0) Ha ltac:(cbv beta; lra)) as RB. cbv beta in RB.
    assert (E4 : distance2 n v us = rsum n (fun d => nth d w 0 * nth d w 0)) by (apply rsum_ext; intros d _; now rewrite Nw).
    rewrite E4. unfold norm2 in NB. rewrite LF, Ln in NB.
    apply (Rmult_lt_reg_l alpha); [exact Ha|]. apply (Rle_lt_trans _ _ _ RB). replace (alpha * (kept (o_atol o) (/ 10 ^ 7) / alpha)) with (kept (o_atol o) (/ 10 ^ 7)) by (field; lra). exact NB.
  Qed.
End Solve.
Print Assumptions C124_driver_ends.
Print Assumptions C124_returned_is_close.
