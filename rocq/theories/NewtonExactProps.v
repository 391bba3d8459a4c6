(** C123: a solve whose initial guess already solves the problem. *)
From Coq Require Import List Arith Lia Bool Reals Lra.
Import ListNotations.
From Verif Require Import Prelude PreludeLemmas CropModel CandidatesProps NewtonModel NewtonProofs NewtonHistoryProps.
Local Open Scope R_scope.

Section Exact.
  Context {O G B Mt C : Type}.
  Variable pb : problem O G B Mt C.
  Variable cf : iterate O G -> C -> C.
  Variable rf : iterate O G -> C -> B.
  Variable jf : iterate O G -> C -> Mt -> Mt.
  Hypothesis Hcf : compute_coefficients pb = Some cf.
  Hypothesis Hrf : compute_residual pb = Some rf.
  Hypothesis Hjf : compute_jacobian pb = Some jf.
  Notation state := (state O G B Mt C).

  (** The residual vanishes at [o], whatever the coefficient callback computes from there. *)
  Definition solves (o : O) : Prop := forall g c, normB pb (rf {| owned := o; ghosts := ghost_values pb o |} (cf {| owned := o; ghosts := g |} c)) = 0.
  (** A linear solver that answers a zero right hand side with zero, and a zero increment that
      changes nothing. *)
  Record plain_algebra : Prop := {
    pa_ksp : forall x c A b, normB pb b = 0 -> snd (ksp pb x c A b) = true /\ normO pb (fst (fst (ksp pb x c A b))) = 0;
    pa_axpy : forall r dx x, normO pb dx = 0 -> axpy pb r dx x = x }.

  Lemma zero_run s r l s' : plain_algebra -> newton_run pb cf rf jf s r l s' -> solves (owned (s_x s)) -> consistent pb cf rf s -> initial_residual s = 0 \/ iteration s = 0%nat ->
    owned (s_x s') = owned (s_x s) /\ consistent pb cf rf s' /\ (initial_residual s' = 0 \/ iteration s' = 0%nat).
  Proof.
    intros PA H. induction H as [s r|s r k s1 l s' H1 H2 IH]; intros Hs Hc H0; [auto|].
    assert (Z : normO pb (dx_of pb jf s) = 0).
    { unfold dx_of, ksp_of. apply (pa_ksp PA). destruct Hc as (G1 & G2 & g & c0 & G3). rewrite G2, G3, G1. apply Hs. }
    assert (X : owned (s_x s1) = owned (s_x s)) by (rewrite (ns_x _ _ _ _ _ _ _ _ H1); now apply (pa_axpy PA)).
    assert (I1 : initial_residual s1 = 0) by (rewrite (ns_initial _ _ _ _ _ _ _ _ H1); destruct (Nat.eqb_spec (iteration s) 0); [assumption|destruct H0; [assumption|contradiction]]).
    destruct IH as (A1 & A2 & A3); [now rewrite X|exact (ns_consistent _ _ _ _ _ _ _ _ H1)|left; exact I1|]. split; [congruence|auto].
  Qed.

  (** A solver given a solution does not notice: with the incremental criterion always, and with
      the residual criterion while the reference value is the 0 of a fresh solver, it performs
      [max_it] iterations without moving and then raises or reports failure. *)
  Theorem C123_exact_guess_refuted :
    forall (s : state) fuel, plain_algebra -> (max_it s + 7 <= fuel)%nat -> criterion s <> COther -> relaxation s <> None ->
      (criterion s = CResidual -> initial_residual s = 0) -> solves (owned (s_x s)) ->
      exists s', solve pb fuel false s = ((if error_on_nonconvergence s then Exn ERuntime else Ret (max_it s, false)), s') /\
        owned (s_x s') = owned (s_x s) /\ normB pb (s_b s') = 0 /\ iteration s' = max_it s.
  Proof.
    intros s fuel PA Hf Hc Hr H0 Hs.
    destruct (solve_once_spec pb cf rf jf Hcf Hrf Hjf fuel s Hf) as (out & l & s' & E & SE).
    destruct (enter_fields pb cf rf s) as (F1 & F2 & F3 & F4 & F5 & F6 & F7 & F8 & F9 & F10 & F11).
    assert (C0 : consistent pb cf rf (enter_state pb cf rf s)).
    { pose proof (eval_consistent pb cf rf (owned (s_x s)) (set_residual (-1) (set_krylov_iterations 0 (set_iteration 0 s)))) as X. unfold consistent in *. rewrite F8, F9, F10. exact X. }
    assert (X0 : owned (s_x (enter_state pb cf rf s)) = owned (s_x s)) by (rewrite F9; reflexivity).
    assert (I0 : initial_residual (enter_state pb cf rf s) = 0 \/ iteration (enter_state pb cf rf s) = 0%nat) by (right; exact F3).
    assert (S0 : solves (owned (s_x (enter_state pb cf rf s)))) by now rewrite X0.
    assert (NB : forall a, consistent pb cf rf a -> owned (s_x a) = owned (s_x s) -> normB pb (s_b a) = 0).
    { intros a (G1 & G2 & g & c0 & G3) Xa. rewrite G2, G3, G1, Xa. apply Hs. }
    assert (NF : forall nrm rt at_, flag nrm 0 rt at_ = false) by (intros; unfold flag; destruct (Req_EM_T 0 0); [reflexivity|contradiction]).
    assert (CS : conv_at_start pb cf rf s = false) by (unfold conv_at_start; destruct (criterion s) eqn:EC; [rewrite H0 by reflexivity; apply NF|reflexivity..]).
    assert (FIN : forall conv l s', loop_end pb cf rf jf (enter_state pb cf rf s) (normB pb (s_b (start_state pb cf rf s))) (conv_at_start pb cf rf s) (Ret conv) l s' ->
      conv = false /\ owned (s_x s') = owned (s_x s) /\ normB pb (s_b s') = 0 /\ iteration s' = max_it s /\ error_on_nonconvergence s' = error_on_nonconvergence s).
    { intros conv l0 s0 LE. inversion LE as [Hcs|l1 s1 k s2 Hcs Hrun Hn Hi Hst|l1 s1 Hcs Hrun Hi|?|?]; subst.
      - congruence.
      - exfalso. destruct (zero_run _ _ _ _ PA Hrun S0 C0 I0) as (A1 & A2 & A3).
        assert (Z : normO pb (dx_of pb jf s1) = 0) by (unfold dx_of, ksp_of; apply (pa_ksp PA); apply NB; [exact A2|congruence]).
        assert (I2 : initial_residual s0 = 0) by (rewrite (ns_initial _ _ _ _ _ _ _ _ Hn); destruct (Nat.eqb_spec (iteration s1) 0); [assumption|destruct A3; [assumption|contradiction]]).
        unfold step_result in Hst. rewrite I2, !NF in Hst. destruct (criterion s1), (iteration s1 =? 0)%nat; congruence.
      - destruct (zero_run _ _ _ _ PA Hrun S0 C0 I0) as (A1 & A2 & A3). destruct (newton_run_options _ _ _ _ _ _ _ _ Hrun) as [(_ & _ & _ & _ & Oe) _].
        split; [reflexivity|]. split; [congruence|]. split; [apply NB; [exact A2|congruence]|]. split; congruence. }
    unfold solve.
    inversion SE as [conv l0 s0 K1 K2 LE Ef|l0 s0 K1 K2 LE Ef|K1 K2 K3|K1]; subst; try contradiction.
    - destruct (FIN _ _ _ LE) as (-> & X & N & It & Er). unfold final in E. rewrite Er in E. destruct (error_on_nonconvergence s) eqn:EE.
      + unfold bind. rewrite E. exists s'. auto.
      + rewrite (bind_Ret _ _ _ _ _ E). rewrite It. eexists. split; [reflexivity|]. auto.
    - exfalso. inversion LE as [|?|?|?|l1 s1 s2 Hcs Hrun Hi Hk Ho Hi2 Ht]; subst.
      destruct (zero_run _ _ _ _ PA Hrun S0 C0 I0) as (A1 & A2 & A3). destruct (pa_ksp PA (s_x s1) (s_coeffs s1) (jac_of jf s1) (s_b s1) ltac:(apply NB; [exact A2|congruence])) as [K _].
      unfold ksp_of in Hk. congruence.
  Qed.

  (** The remaining case: an earlier solve left a reference value other than zero, and the residual
      criterion accepts the guess at once. *)
  Theorem C123_later_solve_accepts :
    forall (s : state) fuel, (max_it s + 7 <= fuel)%nat -> criterion s = CResidual -> relaxation s <> None ->
      initial_residual s <> 0 -> 0 < rtol s -> 0 < atol s -> solves (owned (s_x s)) ->
      exists s', solve pb fuel false s = (Ret (0%nat, true), s') /\ owned (s_x s') = owned (s_x s).
  Proof.
    intros s fuel Hf Hc Hr H0 Hrt Hat Hs.
    destruct (solve_once_spec pb cf rf jf Hcf Hrf Hjf fuel s Hf) as (out & l & s' & E & SE).
    destruct (enter_fields pb cf rf s) as (F1 & F2 & F3 & F4 & F5 & F6 & F7 & F8 & F9 & F10 & F11).
    assert (CS : conv_at_start pb cf rf s = true).
    { unfold conv_at_start. rewrite Hc. assert (Z : normB pb (s_b (start_state pb cf rf s)) = 0) by apply Hs. rewrite Z. unfold flag. destruct (Req_EM_T (initial_residual s) 0); [contradiction|].
      apply andb_true_intro. unfold Rdiv. rewrite Rmult_0_l. unfold rlt. destruct (Rlt_dec 0 (rtol s)), (Rlt_dec 0 (atol s)); auto; contradiction. }
    unfold solve. inversion SE as [conv l0 s0 K1 K2 LE Ef|l0 s0 K1 K2 LE Ef|K1 K2 K3|K1]; subst; try contradiction; [| |congruence].
    - inversion LE; subst; try congruence. unfold final in E. rewrite (bind_Ret _ _ _ _ _ E). rewrite F3. eexists. split; [reflexivity|].
      change (owned (s_x (enter_state pb cf rf s)) = owned (s_x s)). rewrite F9. reflexivity.
    - inversion LE; subst; congruence.
  Qed.

  (** If the first full step reaches a solution, the solver stops there after one iteration: the
      full step is not shortened, and the residual criterion accepts it because the reference value
      is the norm of that step. *)
  Theorem C123_exact_step_accepted :
    forall (s : state) fuel, (max_it s + 7 <= fuel)%nat -> (1 <= max_it s)%nat -> criterion s = CResidual -> relaxation s <> None ->
      initial_residual s = 0 -> 0 < rtol s -> 0 < atol s ->
      let x0 := {| owned := owned (s_x s); ghosts := ghost_values pb (owned (s_x s)) |} in
      let c0 := cf {| owned := owned (s_x s); ghosts := ghosts (s_x s) |} (s_coeffs s) in
      let sol := ksp pb x0 c0 (jf x0 c0 (s_A s)) (rf x0 c0) in
      let dx := fst (fst sol) in
      snd sol = true -> 0 < normO pb dx -> 0 <= normB pb (rf x0 c0) -> solves (axpy pb 1 dx (owned (s_x s))) ->
      exists s', solve pb fuel false s = (Ret (1%nat, true), s') /\ owned (s_x s') = axpy pb 1 dx (owned (s_x s)) /\
        error_on_nonconvergence s' = error_on_nonconvergence s.
  Proof.
    intros s fuel Hf Hm Hc Hr H0 Hrt Hat x0 c0 sol dx Hk Hdx Hb Hs.
    destruct (enter_fields pb cf rf s) as (F1 & F2 & F3 & F4 & F5 & F6 & F7 & F8 & F9 & F10 & F11).
    assert (NF : forall nrm rt at_, flag nrm 0 rt at_ = false) by (intros; unfold flag; destruct (Req_EM_T 0 0); [reflexivity|contradiction]).
    set (e := enter_state pb cf rf s) in *.
    assert (FA : s_A e = s_A s) by (unfold e, enter_state; rewrite Hc; reflexivity).
    assert (DK : ksp_of pb jf e = sol) by (unfold ksp_of, jac_of, sol; rewrite F8, F9, F10, FA; reflexivity).
    assert (OX : owned (s_x e) = owned (s_x s)) by (rewrite F9; reflexivity).
    assert (Hb' : 0 <= normB pb (s_b (start_state pb cf rf s))) by exact Hb.
    destruct (newton_body_spec pb cf rf jf Hcf Hrf Hjf fuel (normB pb (s_b (start_state pb cf rf s))) e ltac:(lia)) as [Hok _].
    destruct Hok as (k & s1 & E1 & NS); [rewrite DK; exact Hk|].
    assert (Full : owned (s_x s1) = axpy pb 1 dx (owned (s_x s)) /\ normB pb (s_b s1) = 0 /\ initial_residual s1 = normO pb dx /\ iteration s1 = 1%nat /\ error_on_nonconvergence s1 = error_on_nonconvergence s).
    { destruct NS as [_ X (G1 & G2 & g & c & G3) _ (_ & _ & _ & _ & Oe) I2 In2 _ _ _ _ _ RJ]. unfold dx_of in *. rewrite DK in *. fold dx in X, In2, RJ. rewrite OX in *.
      assert (H1 : half 0 = 1) by (unfold half; cbn; lra).
      assert (k = 0%nat) as ->.
      { destruct k as [|k]; [reflexivity|]. exfalso. destruct (RJ 0%nat ltac:(lia)) as (g' & c' & Q). rewrite H1 in Q. unfold ghosted in Q. rewrite (Hs g' c') in Q. lra. }
      rewrite H1 in X. split; [exact X|]. split; [rewrite G2, G3, G1, X; apply Hs|]. rewrite F3 in In2, I2. split; [exact In2|]. split; [exact I2|congruence]. }
    destruct Full as (X1 & X2 & X3 & X4 & X5).
    assert (FL : flag 0 (normO pb dx) (rtol s) (atol s) = true).
    { unfold flag. destruct (Req_EM_T (normO pb dx) 0); [lra|]. unfold Rdiv. rewrite Rmult_0_l. apply andb_true_intro. unfold rlt. destruct (Rlt_dec 0 (rtol s)), (Rlt_dec 0 (atol s)); auto; contradiction. }
    assert (SR : step_result pb jf e s1 = Ret (0, true)) by (unfold step_result; rewrite F1, Hc, F4, F5, X2, X3, FL; reflexivity).
    rewrite SR in E1.
    assert (E2 : solve_once pb fuel s = (Ret (1%nat, true), s1)).
    { unfold solve_once. rewrite !bind_modify. rewrite (eval_calls pb cf rf Hcf Hrf (owned (s_x s))) by reflexivity. rewrite bind_get. fold (start_state pb cf rf s). rewrite bind_get.
      change (criterion (start_state pb cf rf s)) with (criterion s). rewrite Hc.
      destruct (relaxation s) as [r|] eqn:Er; [|contradiction].
      rewrite bind_bind. rewrite (bind_Ret _ _ _ _ _ (check_convergence_set pb _ r (start_state pb cf rf s) Er)). rewrite bind_bind, bind_modify, bind_ret. cbn [fst snd].
      change (initial_residual (start_state pb cf rf s)) with (initial_residual s). rewrite H0, NF.
      assert (EE : set_residual (normB pb (s_b (start_state pb cf rf s))) (start_state pb cf rf s) = e) by (unfold e, enter_state; now rewrite Hc).
      rewrite EE. destruct fuel as [|fuel]; [lia|].
      assert (EL : newton_loop pb (S fuel) (S fuel) (normB pb (s_b (start_state pb cf rf s))) false e = (Ret true, s1)).
      { rewrite newton_loop_step. rewrite F3, F2. destruct (Nat.ltb_spec 0 (max_it s)); [|lia]. cbn [negb andb]. rewrite E1. cbn [fst snd]. destruct fuel as [|fuel]; [lia|]. rewrite newton_loop_step. reflexivity. }
      rewrite (bind_Ret _ _ _ _ _ EL). rewrite bind_get, bind_ret, bind_get, X4. reflexivity. }
    unfold solve. rewrite (bind_Ret _ _ _ _ _ E2). eexists. split; [reflexivity|]. split; [exact X1|exact X5].
  Qed.
End Exact.
Print Assumptions C123_exact_step_accepted.
Print Assumptions C123_exact_guess_refuted.
Print Assumptions C123_later_solve_accepts.

(** The equation x = 0 in one unknown, on one process, with an exact linear solver, started at 0. *)
Definition line_problem : problem R unit R R unit := {| compute_coefficients := Some (fun _ c => c); compute_residual := Some (fun x _ => owned x); compute_jacobian := Some (fun _ _ _ => 1);
  ksp := fun _ _ A b => (b / A, 1%nat, true); normB := Rabs; normO := Rabs; axpy := fun r dx x => x - r * dx; ghost_values := fun _ => tt; rank0 := true |}.
Definition line_start (x : R) : state R unit R R unit := set_relaxation (Some 1) (init 1 0 tt {| owned := x; ghosts := tt |}).
Lemma abs_zero x : Rabs x = 0 -> x = 0.
Proof. intros H. destruct (Req_dec x 0) as [|N]; [assumption|]. now apply Rabs_no_R0 in N. Qed.
Lemma line_algebra : plain_algebra line_problem.
Proof.
  constructor.
  - intros x c A b H. apply abs_zero in H. subst b. split; [reflexivity|]. change (Rabs (0 / A) = 0). unfold Rdiv. rewrite Rmult_0_l. apply Rabs_R0.
  - intros r dx x H. apply abs_zero in H. subst dx. cbn. ring.
Qed.
Example C123_nonvacuous : exists s', solve line_problem 57 false (line_start 0) = (Ret (50%nat, false), s') /\ owned (s_x s') = 0 /\ iteration s' = 50%nat.
Proof.
  destruct (C123_exact_guess_refuted line_problem (fun _ c => c) (fun x _ => owned x) (fun _ _ _ => 1) eq_refl eq_refl eq_refl (line_start 0) 57 line_algebra) as (s' & E & X & _ & I);
    [cbn; lia|discriminate|discriminate|reflexivity|intros g c; apply Rabs_R0|]. exists s'. auto.
Qed.

Example C123_later_nonvacuous : exists s', solve line_problem 57 false (set_initial_residual 1 (line_start 0)) = (Ret (0%nat, true), s') /\ owned (s_x s') = 0.
Proof.
  apply (C123_later_solve_accepts line_problem (fun _ c => c) (fun x _ => owned x) (fun _ _ _ => 1) eq_refl eq_refl eq_refl (set_initial_residual 1 (line_start 0)) 57);
    [cbn; lia|reflexivity|discriminate|cbn; lra|apply Rinv_0_lt_compat, pow_lt; lra|apply Rinv_0_lt_compat, pow_lt; lra|intros g c; apply Rabs_R0].
Qed.
Example C123_step_nonvacuous : forall x, x <> 0 -> exists s', solve line_problem 57 false (line_start x) = (Ret (1%nat, true), s') /\ owned (s_x s') = 0.
Proof.
  intros x N.
  destruct (C123_exact_step_accepted line_problem (fun _ c => c) (fun x _ => owned x) (fun _ _ _ => 1) eq_refl eq_refl eq_refl (line_start x) 57) as (s' & E & X & _);
    [cbn; lia|cbn; lia|reflexivity|discriminate|reflexivity|apply Rinv_0_lt_compat, pow_lt; lra|apply Rinv_0_lt_compat, pow_lt; lra|reflexivity
    |change (0 < Rabs (x / 1)); apply Rabs_pos_lt; unfold Rdiv; rewrite Rinv_1, Rmult_1_r; exact N|apply Rabs_pos| |].
  - intros g c. change (Rabs (x - 1 * (x / 1)) = 0). replace (x - 1 * (x / 1)) with 0 by field. apply Rabs_R0.
  - exists s'. split; [exact E|]. rewrite X. change (x - 1 * (x / 1) = 0). field.
Qed.
