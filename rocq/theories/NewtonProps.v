(** Properties C42-C47, C60: the Newton solver. *)
From Coq Require Import List Arith Lia Bool Reals Lra.
Import ListNotations.
From Verif Require Import Prelude PreludeLemmas CropModel CandidatesProps NewtonModel NewtonProofs.
Local Open Scope R_scope.

(** Numbers of calls recorded in a trace. *)
Definition count_residuals {O G B} (t : list (event O G B)) : nat := length (filter (fun e => match e with EvRes _ => true | _ => false end) t).
Definition count_jacobians {O G B} (t : list (event O G B)) : nat := length (filter (fun e => match e with EvJac _ => true | _ => false end) t).
Definition count_linear_solves {O G B} (t : list (event O G B)) : nat := length (filter (fun e => match e with EvKsp _ => true | _ => false end) t).

Lemma count_residuals_points {O G B} (t : list (event O G B)) : count_residuals t = length (res_points t).
Proof. unfold count_residuals, res_points. induction t as [|[] t IH]; cbn in *; auto. Qed.
Lemma count_residuals_app {O G B} (t u : list (event O G B)) : count_residuals (t ++ u) = (count_residuals t + count_residuals u)%nat.
Proof. unfold count_residuals. now rewrite filter_app, app_length. Qed.
Lemma count_jacobians_app {O G B} (t u : list (event O G B)) : count_jacobians (t ++ u) = (count_jacobians t + count_jacobians u)%nat.
Proof. unfold count_jacobians. now rewrite filter_app, app_length. Qed.
Lemma count_linear_solves_app {O G B} (t u : list (event O G B)) : count_linear_solves (t ++ u) = (count_linear_solves t + count_linear_solves u)%nat.
Proof. unfold count_linear_solves. now rewrite filter_app, app_length. Qed.

Section Props.
  Context {O G B Mt C : Type}.
  Variable pb : problem O G B Mt C.
  Variable cf : iterate O G -> C -> C.
  Variable rf : iterate O G -> C -> B.
  Variable jf : iterate O G -> C -> Mt -> Mt.
  Hypothesis Hcf : compute_coefficients pb = Some cf.
  Hypothesis Hrf : compute_residual pb = Some rf.
  Hypothesis Hjf : compute_jacobian pb = Some jf.
  Notation state := (state O G B Mt C).
  Notation start := (start_state pb cf rf).
  Notation enter := (enter_state pb cf rf).
  Notation end_of := (solve_end pb cf rf jf).

  Lemma start_trace (s : state) : exists tr, trace (start s) = trace s ++ tr /\ count_residuals tr = 1%nat /\ count_jacobians tr = 0%nat /\ count_linear_solves tr = 0%nat.
  Proof. eexists. split; [unfold start_state, eval_state; cbn [trace set_residual set_krylov_iterations set_iteration]; rewrite <- app_assoc; reflexivity|]. repeat split. Qed.

  Lemma loop_end_effect (s : state) r c out l s' : loop_end pb cf rf jf s r c out l s' -> iteration s = 0%nat ->
    same_options s s' /\ iteration s' = length l /\ (length l <= max_it s)%nat /\
    exists tr, trace s' = trace s ++ tr /\ (count_residuals tr <= 7 * max_it s)%nat /\ (count_jacobians tr <= max_it s)%nat /\ (count_linear_solves tr <= max_it s)%nat.
  Proof.
    intros LE H0.
    assert (Run : forall l s', newton_run pb cf rf jf s r l s' -> (length l <= max_it s)%nat ->
      same_options s s' /\ iteration s' = length l /\ exists tr, trace s' = trace s ++ tr /\ (count_residuals tr <= 7 * length l)%nat /\ count_jacobians tr = length l /\ count_linear_solves tr = length l).
    { intros l0 s0 Hr Hl. destruct (newton_run_options _ _ _ _ _ _ _ _ Hr) as [Ho Hi]. split; [auto|]. split; [lia|].
      destruct (newton_run_trace _ _ _ _ _ _ _ _ Hr) as (tr & E & J & K & P). exists tr. rewrite count_residuals_points. auto. }
    assert (Fin : forall l s', newton_run pb cf rf jf s r l s' -> (length l <= max_it s)%nat ->
      same_options s s' /\ iteration s' = length l /\ (length l <= max_it s)%nat /\
      exists tr, trace s' = trace s ++ tr /\ (count_residuals tr <= 7 * max_it s)%nat /\ (count_jacobians tr <= max_it s)%nat /\ (count_linear_solves tr <= max_it s)%nat).
    { intros l0 s0 Hr Hl. destruct (Run l0 s0 Hr Hl) as (A1 & A2 & tr & A3 & A4 & A5 & A6). repeat (split; [auto|]). exists tr. split; [auto|]. lia. }
    destruct LE as [Hc|l s1 k s' Hc Hr Hn Hi Hs|l s' Hc Hr Hi|k s' Hc Hcr Hn Hi|l s1 s' Hc Hr Hi Hk Hso Hit Htr].
    - apply Fin; [constructor|cbn; lia].
    - destruct (newton_run_options _ _ _ _ _ _ _ _ Hr) as [_ Hi1]. apply Fin; [eapply newton_run_app; eauto|rewrite app_length; cbn; lia].
    - destruct (newton_run_options _ _ _ _ _ _ _ _ Hr) as [_ Hi1]. apply Fin; [auto|lia].
    - apply Fin; [econstructor; [exact Hn|constructor]|cbn; lia].
    - destruct (newton_run_options _ _ _ _ _ _ _ _ Hr) as [_ Hi1]. destruct (Run l s1 Hr ltac:(lia)) as (A1 & A2 & tr & A3 & A4 & A5 & A6).
      split; [auto|]. split; [lia|]. split; [lia|]. exists (tr ++ [EvJac (s_x s1); EvKsp (s_b s1)]). split; [rewrite Htr, A3; now rewrite <- app_assoc|].
      rewrite count_residuals_app, count_jacobians_app, count_linear_solves_app. cbn. lia.
  Qed.

  Lemma solve_end_effect (s : state) out l s' : end_of s out l s' ->
    same_options s s' /\ iteration s' = length l /\ (length l <= max_it s)%nat /\
    exists tr, trace s' = trace s ++ tr /\ (count_residuals tr <= 1 + 7 * max_it s)%nat /\ (count_jacobians tr <= max_it s)%nat /\ (count_linear_solves tr <= max_it s)%nat.
  Proof.
    intros H. destruct (start_trace s) as (t0 & T0 & T1 & T2 & T3). destruct (enter_fields pb cf rf s) as (F1 & F2 & F3 & F4 & F5 & F6 & F7 & F8 & F9 & F10 & F11).
    assert (Hstart : same_options s (start s) /\ iteration (start s) = 0%nat) by (split; [repeat split|reflexivity]).
    assert (Henter : same_options s (enter s)) by (unfold same_options; auto 10).
    assert (Loop : forall o c, loop_end pb cf rf jf (enter s) (normB pb (s_b (start s))) c o l s' ->
      same_options s s' /\ iteration s' = length l /\ (length l <= max_it s)%nat /\
      exists tr, trace s' = trace s ++ tr /\ (count_residuals tr <= 1 + 7 * max_it s)%nat /\ (count_jacobians tr <= max_it s)%nat /\ (count_linear_solves tr <= max_it s)%nat).
    { intros o c LE. destruct (loop_end_effect _ _ _ _ _ _ LE F3) as (A1 & A2 & A3 & tr & A4 & A5 & A6 & A7).
      rewrite F2 in *. split; [eapply same_options_trans; eauto|]. split; [auto|]. split; [auto|]. exists (t0 ++ tr). split; [rewrite A4, F11, T0; now rewrite <- app_assoc|].
      rewrite count_residuals_app, count_jacobians_app, count_linear_solves_app. lia. }
    destruct H as [conv l s' Hc Hr LE|l s' Hc Hr LE|Hc Hr Hx|Hc].
    - eapply Loop; eauto.
    - eapply Loop; eauto.
    - destruct Hstart as [H1 H2]. split; [auto|]. split; [auto|]. split; [cbn; lia|]. exists t0. split; [auto|]. lia.
    - destruct Hstart as [H1 H2]. split; [auto|]. split; [auto|]. split; [cbn; lia|]. exists t0. split; [auto|]. lia.
  Qed.

  (** ** C42 *)
  Theorem C42_newton_terminates :
    forall (s : state) fuel out s', (max_it s + 7 <= fuel)%nat -> solve_once pb fuel s = (out, s') ->
      out <> OutOfFuel /\ (iteration s' <= max_it s)%nat /\
      exists calls, trace s' = trace s ++ calls /\
        (count_residuals calls <= 1 + 7 * max_it s)%nat /\ (count_jacobians calls <= max_it s)%nat /\ (count_linear_solves calls <= max_it s)%nat.
  Proof.
    intros s fuel out s' Hf E. destruct (solve_once_spec pb cf rf jf Hcf Hrf Hjf fuel s Hf) as (out0 & l & s0 & E0 & SE).
    rewrite E in E0. injection E0 as -> ->. destruct (solve_end_effect _ _ _ _ SE) as (_ & A2 & A3 & tr & A4 & A5 & A6 & A7).
    split; [|split; [lia|exists tr; auto]].
    destruct SE as [conv l s' Hc Hr LE|l s' Hc Hr LE|Hc Hr Hx|Hc]; try discriminate. unfold final. destruct conv; [discriminate|]. destruct (error_on_nonconvergence s'); discriminate.
  Qed.

  (** The public method: one or (for PETSc vectors) two such runs. *)
  Theorem C42_solve_terminates :
    forall (s : state) fuel is_vec out s', (max_it s + 7 <= fuel)%nat -> solve pb fuel is_vec s = (out, s') ->
      out <> OutOfFuel /\ (iteration s' <= max_it s)%nat /\
      exists calls, trace s' = trace s ++ calls /\
        (count_residuals calls <= 2 * (1 + 7 * max_it s))%nat /\ (count_jacobians calls <= 2 * max_it s)%nat.
  Proof.
    intros s fuel is_vec out s' Hf E.
    assert (One : forall s, (max_it s + 7 <= fuel)%nat -> exists o1 s1, solve_once pb fuel s = (o1, s1) /\ o1 <> OutOfFuel /\ (iteration s1 <= max_it s)%nat /\ max_it s1 = max_it s /\
      exists calls, trace s1 = trace s ++ calls /\ (count_residuals calls <= 1 + 7 * max_it s)%nat /\ (count_jacobians calls <= max_it s)%nat).
    { intros t Ht. destruct (solve_once_spec pb cf rf jf Hcf Hrf Hjf fuel t Ht) as (o1 & l & s1 & E1 & SE). exists o1, s1. split; [auto|].
      destruct (C42_newton_terminates t fuel o1 s1 Ht E1) as (A1 & A2 & c & A3 & A4 & A5 & _).
      destruct (solve_end_effect _ _ _ _ SE) as ((M & _) & _). eauto 10. }
    destruct (One s Hf) as (o1 & s1 & E1 & N1 & I1 & M1 & c1 & T1 & R1 & J1).
    destruct (One s1 ltac:(lia)) as (o2 & s2 & E2 & N2 & I2 & M2 & c2 & T2 & R2 & J2).
    assert (Two : trace s2 = trace s ++ (c1 ++ c2)) by (rewrite T2, T1; now rewrite <- app_assoc).
    assert (Cnt : (count_residuals (c1 ++ c2) <= 2 * (1 + 7 * max_it s))%nat /\ (count_jacobians (c1 ++ c2) <= 2 * max_it s)%nat)
      by (rewrite count_residuals_app, count_jacobians_app; lia).
    assert (Done : forall t : state, trace t = trace s1 -> iteration t = iteration s1 -> (iteration t <= max_it s)%nat /\
      exists calls, trace t = trace s ++ calls /\ (count_residuals calls <= 2 * (1 + 7 * max_it s))%nat /\ (count_jacobians calls <= 2 * max_it s)%nat).
    { intros t Ht Hi. split; [lia|]. exists c1. split; [congruence|]. lia. }
    assert (Done2 : forall t : state, trace t = trace s2 -> iteration t = iteration s2 -> (iteration t <= max_it s)%nat /\
      exists calls, trace t = trace s ++ calls /\ (count_residuals calls <= 2 * (1 + 7 * max_it s))%nat /\ (count_jacobians calls <= 2 * max_it s)%nat).
    { intros t Ht Hi. split; [lia|]. exists (c1 ++ c2). split; [congruence|]. exact Cnt. }
    unfold solve, bind at 1 in E. rewrite E1 in E. destruct o1 as [v|e|]; [| |contradiction].
    - destruct is_vec.
      + cbn [raise] in E. unfold bind at 1 in E. rewrite E2 in E. destruct o2 as [v2|e2|]; [| |contradiction].
        * cbn in E. injection E as <- <-. split; [discriminate|]. now apply Done2.
        * injection E as <- <-. split; [discriminate|]. now apply Done2.
      + cbn in E. injection E as <- <-. split; [discriminate|]. now apply Done.
    - destruct e; try (injection E as <- <-; split; [discriminate|]; now apply Done).
      unfold bind at 1 in E. rewrite E2 in E. destruct o2 as [v2|e2|]; [| |contradiction].
      + destruct is_vec; cbn in E; injection E as <- <-; (split; [discriminate|]); now apply Done2.
      + injection E as <- <-. split; [discriminate|]. now apply Done2.
  Qed.

  (** ** C43 *)
  Lemma run_initial (s : state) r l s' : newton_run pb cf rf jf s r l s' -> iteration s <> 0%nat -> initial_residual s' = initial_residual s.
  Proof.
    induction 1 as [|s r k s1 l s' H1 H2 IH]; auto. intros Hs. destruct H1. rewrite IH by lia. rewrite ns_initial.
    destruct (Nat.eqb_spec (iteration s) 0); [contradiction|reflexivity].
  Qed.
  Lemma run_initial_first (s : state) r l s' : newton_run pb cf rf jf s r l s' -> iteration s = 0%nat -> l <> [] -> initial_residual s' = normO pb (dx_of pb jf s).
  Proof.
    intros H Hs Hl. destruct H as [|s r k s1 l s' H1 H2]; [congruence|]. rewrite (run_initial _ _ _ _ H2).
    - destruct H1. rewrite ns_initial, Hs. reflexivity.
    - destruct H1. lia.
  Qed.

  Lemma start_consistent (s : state) : consistent pb cf rf (start s).
  Proof. apply eval_consistent. Qed.
  Lemma enter_consistent (s : state) : consistent pb cf rf (enter s).
  Proof. unfold enter_state. destruct (criterion s); exact (start_consistent s). Qed.

  (** The linear solver's answer at the first iterate. *)
  Definition first_increment (s : state) : O :=
    let x := {| owned := owned (s_x s); ghosts := ghost_values pb (owned (s_x s)) |} in
    let c := cf (s_x s) (s_coeffs s) in
    fst (fst (ksp pb x c (jf x c (s_A s)) (rf x c))).
  Lemma first_increment_eq (s : state) : dx_of pb jf (enter s) = first_increment s.
  Proof.
    unfold dx_of, ksp_of, jac_of, first_increment. destruct (enter_fields pb cf rf s) as (_ & _ & _ & _ & _ & _ & _ & F8 & F9 & F10 & _).
    rewrite F8, F9, F10. assert (A : s_A (enter s) = s_A s) by (unfold enter_state; destruct (criterion s); reflexivity). rewrite A.
    destruct s as [? ? ? ? ? ? ? ? ? ? ? ? ? ? [o g] ?]. reflexivity.
  Qed.

  Theorem C43_residual_flag_truthful :
    forall (s : state) fuel n s', (max_it s + 7 <= fuel)%nat -> criterion s = CResidual -> solve_once pb fuel s = (Ret (n, true), s') ->
      (** the stored residual is the one at the returned iterate ... *)
      ghosts (s_x s') = ghost_values pb (owned (s_x s')) /\ s_b s' = rf (s_x s') (s_coeffs s') /\
      (exists g c0, s_coeffs s' = cf {| owned := owned (s_x s'); ghosts := g |} c0) /\
      (** ... and it passes both tests *)
      normB pb (s_b s') < atol s /\ initial_residual s' <> 0 /\ normB pb (s_b s') / initial_residual s' < rtol s /\
      initial_residual s' = (if (n =? 0)%nat then initial_residual s else normO pb (first_increment s)) /\ n = iteration s'.
  Proof.
    intros s fuel n s' Hf Hc E. destruct (solve_once_spec pb cf rf jf Hcf Hrf Hjf fuel s Hf) as (out0 & l & s0 & E0 & SE).
    rewrite E in E0. injection E0 as <- <-. pose proof (solve_end_effect _ _ _ _ SE) as (_ & Hlen & _).
    destruct (enter_fields pb cf rf s) as (F1 & F2 & F3 & F4 & F5 & F6 & F7 & F8 & F9 & F10 & F11).
    inversion SE as [conv l0 s0 H1 H2 LE Efin|?|?|?]; subst.
    unfold final in Efin. destruct conv; [|destruct (error_on_nonconvergence s'); discriminate]. injection Efin as En. rewrite <- En.
    inversion LE as [Hcs|l1 s1 k s2 Hcs Hr Hn Hi Hs|?|?|?]; subst.
    - pose proof (enter_consistent s) as (G1 & G2 & G3). split; [rewrite G1 at 1; reflexivity|]. split; [auto|]. split; [auto|].
      unfold conv_at_start in Hcs. rewrite Hc in Hcs. apply flag_true in Hcs. rewrite F7, F8, F3. cbn [Nat.eqb]. tauto.
    - pose proof (newton_run_app _ _ _ _ _ _ _ _ _ _ Hr Hn) as Hrun. destruct (ns_consistent _ _ _ _ _ _ _ _ Hn) as (G1 & G2 & G3).
      split; [rewrite G1 at 1; reflexivity|]. split; [auto|]. split; [auto|].
      destruct (newton_run_options _ _ _ _ _ _ _ _ Hr) as [(O1 & O2 & O3 & O4 & O5) Hi1].
      assert (Hfl : flag (normB pb (s_b s')) (initial_residual s') (rtol s) (atol s) = true).
      { unfold step_result in Hs. replace (criterion s1) with CResidual in Hs by congruence. rewrite O2, O3, F4, F5 in Hs. congruence. }
      apply flag_true in Hfl. destruct Hfl as (A1 & A2 & A3). split; [auto|]. split; [auto|]. split; [auto|]. split; [|reflexivity].
      rewrite Hlen, app_length, Nat.add_1_r. cbn [length Nat.eqb]. rewrite (run_initial_first _ _ _ _ Hrun) by (auto; destruct l1; discriminate).
      now rewrite first_increment_eq.
  Qed.

  Theorem C43_incremental_flag_truthful :
    forall (s : state) fuel n s', (max_it s + 7 <= fuel)%nat -> criterion s = CIncremental -> solve_once pb fuel s = (Ret (n, true), s') ->
      (2 <= n)%nat /\ n = iteration s' /\ s_b s' = rf (s_x s') (s_coeffs s') /\
      exists dx, s_dx s' = Some dx /\ normO pb dx < atol s /\ normO pb (first_increment s) <> 0 /\ normO pb dx / normO pb (first_increment s) < rtol s.
  Proof.
    intros s fuel n s' Hf Hc E. destruct (solve_once_spec pb cf rf jf Hcf Hrf Hjf fuel s Hf) as (out0 & l & s0 & E0 & SE).
    rewrite E in E0. injection E0 as <- <-. pose proof (solve_end_effect _ _ _ _ SE) as (_ & Hlen & _).
    destruct (enter_fields pb cf rf s) as (F1 & F2 & F3 & F4 & F5 & F6 & F7 & F8 & F9 & F10 & F11).
    inversion SE as [conv l0 s0 H1 H2 LE Efin|?|?|?]; subst.
    unfold final in Efin. destruct conv; [|destruct (error_on_nonconvergence s'); discriminate]. injection Efin as En. rewrite <- En.
    inversion LE as [Hcs|l1 s1 k s2 Hcs Hr Hn Hi Hs|?|?|?]; subst.
    - unfold conv_at_start in Hcs. rewrite Hc in Hcs. discriminate.
    - pose proof (newton_run_app _ _ _ _ _ _ _ _ _ _ Hr Hn) as Hrun. destruct (ns_consistent _ _ _ _ _ _ _ _ Hn) as (G1 & G2 & G3).
      destruct (newton_run_options _ _ _ _ _ _ _ _ Hr) as [(O1 & O2 & O3 & O4 & O5) Hi1].
      unfold step_result in Hs. replace (criterion s1) with CIncremental in Hs by congruence. rewrite O2, O3, F4, F5 in Hs.
      destruct (Nat.eqb_spec (iteration s1) 0) as [|Hne]; [discriminate|].
      assert (Hfl : flag (normO pb (dx_of pb jf s1)) (initial_residual s') (rtol s) (atol s) = true) by congruence.
      apply flag_true in Hfl. rewrite (run_initial_first _ _ _ _ Hrun), first_increment_eq in Hfl by (auto; destruct l1; discriminate). destruct Hfl as (A1 & A2 & A3).
      split; [destruct Hn; lia|]. split; [auto|]. split; [auto|]. exists (dx_of pb jf s1). split; [destruct Hn; auto|]. auto.
  Qed.

  Theorem C43_nonconvergence_reported :
    forall (s : state) fuel out s', (max_it s + 7 <= fuel)%nat -> solve_once pb fuel s = (out, s') ->
      (forall n, out = Ret (n, false) -> n = max_it s /\ error_on_nonconvergence s = false) /\
      (out = Exn ERuntime -> error_on_nonconvergence s = true /\ iteration s' = max_it s) /\
      (forall n, out = Ret (n, true) -> (n <= max_it s)%nat) /\
      (criterion s <> COther -> relaxation s <> None -> (forall x c A b, snd (ksp pb x c A b) = true) ->
         (exists n c, out = Ret (n, c)) \/ out = Exn ERuntime).
  Proof.
    intros s fuel out s' Hf E. destruct (solve_once_spec pb cf rf jf Hcf Hrf Hjf fuel s Hf) as (out0 & l & s0 & E0 & SE).
    rewrite E in E0. injection E0 as <- <-. pose proof (solve_end_effect _ _ _ _ SE) as ((_ & _ & _ & _ & Oe) & Hlen & Hle & _).
    destruct (enter_fields pb cf rf s) as (_ & F2 & F3 & _).
    destruct SE as [conv l s' Hc Hr LE|l s' Hc Hr LE|Hc Hr Hx|Hc].
    - unfold final. destruct conv.
      + repeat split; try discriminate; [intros n Hn; injection Hn as <-; lia|]. intros. left. eauto.
      + assert (Hit : iteration s' = max_it s) by (inversion LE; subst; congruence).
        rewrite Oe. destruct (error_on_nonconvergence s) eqn:Ee; repeat split; auto; try discriminate; try congruence; intros; eauto.
    - repeat split; try discriminate. intros _ _ Hk. inversion LE; subst. unfold ksp_of in *. rewrite Hk in *. discriminate.
    - repeat split; try discriminate. intros; contradiction.
    - repeat split; try discriminate. intros; contradiction.
  Qed.

  (** ** C44 *)

  (** The run as a sequence of iterates.  [st] are the states between
      iterations, [ks] the numbers of halvings. *)
  Theorem C44_line_search :
    forall (s : state) fuel out s', (max_it s + 7 <= fuel)%nat -> solve_once pb fuel s = (out, s') -> (forall e, out <> Exn e) ->
      exists (st : list state) (ks : list nat),
        length st = S (iteration s') /\ length ks = iteration s' /\
        owned (s_x (nth 0 st s')) = owned (s_x s) /\ nth (iteration s') st s' = s' /\
        (** every iterate carries the residual evaluated there *)
        (forall i, (i <= iteration s')%nat -> let a := nth i st s' in
           ghosts (s_x a) = ghost_values pb (owned (s_x a)) /\ s_b a = rf (s_x a) (s_coeffs a) /\ exists g c0, s_coeffs a = cf {| owned := owned (s_x a); ghosts := g |} c0) /\
        (** consecutive iterates *)
        (forall i, (i < iteration s')%nat -> let a := nth i st s' in let b := nth (S i) st s' in let k := nth i ks 0%nat in
           let A := jf (s_x a) (s_coeffs a) (s_A a) in
           let dx := fst (fst (ksp pb (s_x a) (s_coeffs a) A (s_b a))) in
           (k <= 6)%nat /\ owned (s_x b) = axpy pb (/ 2 ^ k) dx (owned (s_x a)) /\ s_A b = A /\
           (normB pb (s_b b) <= normB pb (s_b a) \/ k = 6%nat) /\
           (** and longer steps were tried and gave a larger residual *)
           (forall j, (j < k)%nat -> let y := axpy pb (/ 2 ^ j) dx (owned (s_x a)) in
              exists g c, normB pb (s_b a) < normB pb (rf {| owned := y; ghosts := ghost_values pb y |} (cf {| owned := y; ghosts := g |} c)))).
  Proof.
    intros s fuel out s' Hf E Hne. destruct (solve_once_spec pb cf rf jf Hcf Hrf Hjf fuel s Hf) as (out0 & l & s0 & E0 & SE).
    rewrite E in E0. injection E0 as <- <-. pose proof (solve_end_effect _ _ _ _ SE) as (_ & Hlen & _).
    destruct (enter_fields pb cf rf s) as (F1 & F2 & F3 & F4 & F5 & F6 & F7 & F8 & F9 & F10 & F11).
    assert (Run : newton_run pb cf rf jf (enter s) (normB pb (s_b (enter s))) l s').
    { destruct SE as [conv l s' Hc Hr LE|l s' Hc Hr LE|Hc Hr Hx|Hc]; try (exfalso; eapply Hne; reflexivity).
      rewrite F8. inversion LE; subst; [constructor|eapply newton_run_app; eauto|auto]. }
    clear SE E Hne. rewrite Hlen. clear Hlen.
    assert (Seqs : forall (a : state) r l s', newton_run pb cf rf jf a r l s' -> r = normB pb (s_b a) -> consistent pb cf rf a ->
      exists st ks, length st = S (length l) /\ length ks = length l /\ nth 0 st s' = a /\ nth (length l) st s' = s' /\
        (forall i, (i <= length l)%nat -> consistent pb cf rf (nth i st s')) /\
        (forall i, (i < length l)%nat -> newton_step pb cf rf jf (nth i st s') (normB pb (s_b (nth i st s'))) (nth i ks 0%nat) (nth (S i) st s'))).
    { clear. intros a r l s' H. induction H as [a r|a r k a1 l s' H1 H2 IH]; intros Hr Hcons.
      - exists [a], []. split; [auto|]. split; [auto|]. split; [auto|]. split; [auto|]. split; intros i Hi; cbn in Hi; [|lia].
        assert (i = 0%nat) as -> by lia. apply Hcons.
      - destruct IH as (st & ks & L1 & L2 & N0 & NL & Cs & St); auto; [exact (ns_consistent _ _ _ _ _ _ _ _ H1)|].
        exists (a :: st), (k :: ks). cbn [length nth]. split; [lia|]. split; [lia|]. split; [auto|]. split; [auto|]. split.
        + intros [|i] Hi; [auto|]. apply Cs. lia.
        + intros [|i] Hi; [rewrite N0, <- Hr; exact H1|]. apply St. lia. }
    destruct (Seqs _ _ _ _ Run eq_refl (enter_consistent s)) as (st & ks & L1 & L2 & N0 & NL & Cs & St).
    exists st, ks. split; [auto|]. split; [auto|]. split; [rewrite N0, F9; reflexivity|]. split; [auto|]. split.
    - intros i Hi. cbv zeta. destruct (Cs i Hi) as (C1 & C2 & C3). split; [rewrite C1 at 1; reflexivity|]. auto.
    - intros i Hi. cbv zeta. destruct (St i Hi) as [K X _ D _ _ _ A _ _ _ _ RJ]. repeat (split; [assumption|]). exact RJ.
  Qed.

  (** Step lengths tried within one iteration are 1, 1/2, ..., the accepted one. *)
  Theorem C44_points_tried :
    forall (s : state) fuel res_old, (7 <= fuel)%nat ->
      let A := jf (s_x s) (s_coeffs s) (s_A s) in
      let dx := fst (fst (ksp pb (s_x s) (s_coeffs s) A (s_b s))) in
      snd (ksp pb (s_x s) (s_coeffs s) A (s_b s)) = true ->
      exists k out s' calls, newton_body pb fuel res_old s = (out, s') /\ (k <= 6)%nat /\ trace s' = trace s ++ calls /\
        flat_map (fun e => match e with EvRes x => [owned x] | _ => [] end) calls = map (fun j => axpy pb (/ 2 ^ j) dx (owned (s_x s))) (seq 0 (S k)) /\
        owned (s_x s') = axpy pb (/ 2 ^ k) dx (owned (s_x s)).
  Proof.
    intros s fuel res_old Hf A dx Hk. destruct (newton_body_spec pb cf rf jf Hcf Hrf Hjf fuel res_old s Hf) as [Hok _].
    destruct Hok as (k & s' & E & NS); [exact Hk|]. destruct NS as [K X _ _ _ _ _ _ _ _ _ (tr & T & P & _) _].
    exists k, (step_result pb jf s s'), s', ([EvJac (s_x s); EvKsp (s_b s)] ++ tr). split; [exact E|]. split; [auto|]. split; [auto|]. split; [|exact X].
    cbn [app flat_map]. transitivity (map owned (res_points tr)).
    - clear. induction tr as [|[] tr IH]; cbn; auto. now rewrite IH.
    - rewrite P, map_map. reflexivity.
  Qed.
End Props.
Print Assumptions C42_newton_terminates.
Print Assumptions C42_solve_terminates.
Print Assumptions C43_residual_flag_truthful.
Print Assumptions C43_incremental_flag_truthful.
Print Assumptions C43_nonconvergence_reported.
Print Assumptions C44_line_search.
Print Assumptions C44_points_tried.
