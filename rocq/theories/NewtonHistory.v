(** Two runs of the Newton solver compared (for C45 and C47). *)
From Coq Require Import List Arith Lia Bool Reals Lra.
Import ListNotations.
From Verif Require Import Prelude PreludeLemmas CropModel CandidatesProps NewtonModel NewtonProofs.
Local Open Scope R_scope.

Section History.
  Context {O G B Mt C : Type}.
  Variable pb : problem O G B Mt C.
  Variable cf : iterate O G -> C -> C.
  Variable rf : iterate O G -> C -> B.
  Variable jf : iterate O G -> C -> Mt -> Mt.
  Hypothesis Hcf : compute_coefficients pb = Some cf.
  Hypothesis Hrf : compute_residual pb = Some rf.
  Hypothesis Hjf : compute_jacobian pb = Some jf.
  Notation state := (state O G B Mt C).
  Ltac steps := repeat (first [rewrite bind_get | rewrite bind_modify | rewrite bind_ret | rewrite bind_raise | rewrite bind_emit | rewrite bind_bind]; cbv beta).

  (** Options, iterate, matrix and coefficients agree. *)
  Definition core (s t : state) : Prop :=
    same_options s t /\ s_x t = s_x s /\ s_A t = s_A s /\ s_coeffs t = s_coeffs s.
  (** Between iterations. *)
  Definition between (s t : state) : Prop :=
    core s t /\ s_b t = s_b s /\ iteration t = iteration s /\ (iteration s <> 0%nat -> initial_residual t = initial_residual s).
  (** Within the relaxation loop. *)
  Definition within (s t : state) : Prop :=
    core s t /\ s_b t = s_b s /\ iteration t = iteration s /\ (iteration s <> 1%nat -> initial_residual t = initial_residual s) /\
    s_dx t = s_dx s /\ relaxation t = relaxation s /\ relaxation s <> None.

  Lemma eval_within o s t : within s t -> within (eval_state pb cf rf o s) (eval_state pb cf rf o t).
  Proof.
    intros ((O1 & O2 & O3 & O4) & H1 & H2 & H3 & H4 & H5 & H6). unfold within, core, same_options in *. cbn [eval_state s_x s_A s_coeffs s_b iteration initial_residual s_dx relaxation max_it rtol atol criterion error_on_nonconvergence].
    rewrite O2, O4, O3. repeat split; try tauto.
  Qed.
  Lemma relaxed_within r s t : within s t -> within (set_relaxation (Some r) s) (set_relaxation (Some r) t).
  Proof. unfold within, core, same_options. cbn. intuition congruence. Qed.

  Lemma relax_loop_within saved ro : forall fuel rn s t k dx, within s t -> relaxation s = Some (half k) -> (k <= 6)%nat -> s_dx s = Some dx ->
    fst (relax_loop pb fuel saved ro rn s) = fst (relax_loop pb fuel saved ro rn t) /\
    within (snd (relax_loop pb fuel saved ro rn s)) (snd (relax_loop pb fuel saved ro rn t)).
  Proof.
    induction fuel as [|fuel IH]; intros rn s t k dx W Hr Hk Hdx; cbn [relax_loop]; (destruct (rlt ro rn); [|now split]).
    - now split.
    - assert (Hrt : relaxation t = Some (half k)) by (destruct W as (_ & _ & _ & _ & _ & E & _); congruence).
      assert (Hdt : s_dx t = Some dx) by (destruct W as (_ & _ & _ & _ & E & _); congruence).
      destruct (Nat.eq_dec k 6) as [-> | Hne].
      + rewrite !(bind_Ret _ _ _ _ _ (relax_body_break pb saved rn 6 _ Hr eq_refl)), !(bind_Ret _ _ _ _ _ (relax_body_break pb saved rn 6 _ Hrt eq_refl)). cbn [fst snd ret].
        split; [reflexivity|]. now apply relaxed_within.
      + rewrite !(bind_Ret _ _ _ _ _ (relax_body_step pb cf rf Hcf Hrf saved rn k dx s Hr ltac:(lia) Hdx)).
        rewrite !(bind_Ret _ _ _ _ _ (relax_body_step pb cf rf Hcf Hrf saved rn k dx t Hrt ltac:(lia) Hdt)). cbn [fst snd].
        pose proof (eval_within (axpy pb (half (S k)) dx saved) _ _ (relaxed_within (half (S k)) _ _ W)) as W'.
        assert (Eb : s_b (eval_state pb cf rf (axpy pb (half (S k)) dx saved) (set_relaxation (Some (half (S k))) t)) = s_b (eval_state pb cf rf (axpy pb (half (S k)) dx saved) (set_relaxation (Some (half (S k))) s))) by apply W'.
        rewrite Eb. eapply IH; [exact W'|reflexivity|lia|exact Hdx].
  Qed.

  Definition agree {T} (Q : state -> state -> Prop) (a b : outcome T * state) : Prop := fst a = fst b /\ ((exists v, fst a = Ret v) -> Q (snd a) (snd b)).

  Lemma agree_bind {T U} (Q Q' : state -> state -> Prop) (m : run O G B Mt C T) (k : T -> run O G B Mt C U) s t :
    agree Q (m s) (m t) -> (forall v s1 t1, Q s1 t1 -> agree Q' (k v s1) (k v t1)) -> agree Q' (bind m k s) (bind m k t).
  Proof.
    intros [H1 H2] H. unfold bind. destruct (m s) as [o s1], (m t) as [o' t1]. cbn [fst snd] in *. subst o'.
    destruct o as [v|e|]; [apply H, H2; eauto| |]; (split; [reflexivity|intros [v E]; discriminate]).
  Qed.

  Lemma newton_body_between fuel res_old s t : (7 <= fuel)%nat -> between s t -> agree between (newton_body pb fuel res_old s) (newton_body pb fuel res_old t).
  Proof.
    intros Hf (((O1 & O2 & O3 & O4 & O5) & X & A & Cc) & Hb & Hi & Hin).
    unfold newton_body. steps. rewrite Hjf. steps. cbn [set_relaxation set_trace set_s_A s_x s_coeffs s_A s_b owned trace].
    rewrite X, A, Cc, Hb.
    set (K := ksp pb (s_x s) (s_coeffs s) (jf (s_x s) (s_coeffs s) (s_A s)) (s_b s)).
    destruct (snd K); steps; [|split; [reflexivity|intros [v E]; discriminate]].
    set (s1 := set_krylov_iterations _ (set_s_dx _ (set_trace _ (set_s_A _ (set_trace _ (set_relaxation _ s)))))).
    set (t1 := set_krylov_iterations _ (set_s_dx _ (set_trace _ (set_s_A _ (set_trace _ (set_relaxation _ t)))))).
    unfold update_solution. steps.
    replace (relaxation s1) with (Some 1) by reflexivity. replace (s_dx s1) with (Some (fst (fst K))) by reflexivity.
    replace (relaxation t1) with (Some 1) by reflexivity. replace (s_dx t1) with (Some (fst (fst K))) by reflexivity. steps.
    unfold call_coefficients. rewrite Hcf. steps. unfold ghost_update. steps. unfold call_residual. rewrite Hrf. steps.
    match goal with |- agree _ (bind _ _ ?a) (bind _ _ ?b) => set (s2 := a); set (t2 := b) end.
    assert (Es2 : s2 = eval_state pb cf rf (axpy pb 1 (fst (fst K)) (owned (s_x s))) (set_iteration (iteration s + 1) s1)) by reflexivity.
    assert (Et2 : t2 = eval_state pb cf rf (axpy pb 1 (fst (fst K)) (owned (s_x t))) (set_iteration (iteration t + 1) t1)) by reflexivity.
    clearbody s2 t2. subst s2 t2. set (s2 := eval_state pb cf rf _ (set_iteration _ s1)). set (t2 := eval_state pb cf rf _ (set_iteration _ t1)).
    assert (W : within s2 t2).
    { unfold t2. rewrite X. apply eval_within. unfold within, core, same_options. cbn. rewrite Hi. intuition (try congruence). apply Hin. lia. }
    assert (Ei : iteration s2 = S (iteration s)) by (unfold s2; cbn; lia).
    assert (Eb : s_b t2 = s_b s2) by apply W. rewrite Eb.
    assert (H1 : half 0 = 1) by (unfold half; cbn; lra).
    destruct (relax_loop_spec pb cf rf Hcf Hrf (owned (s_x s)) (fst (fst K)) res_old 6 0 fuel s2)
      as (k & s3 & tr & E & _ & R3 & _ & _ & _ & _ & I3 & _);
      [lia|lia|rewrite H1; reflexivity|reflexivity|rewrite H1; reflexivity|apply eval_consistent|].
    pose proof (relax_loop_within (owned (s_x s)) res_old fuel (normB pb (s_b s2)) s2 t2 0 (fst (fst K)) W ltac:(rewrite H1; reflexivity) ltac:(lia) eq_refl) as [F1 F2].
    rewrite E in F1, F2. destruct (relax_loop pb fuel (owned (s_x s)) res_old (normB pb (s_b s2)) t2) as [o t3] eqn:E'. cbn [fst snd] in F1, F2. subst o.
    rewrite (bind_Ret _ _ _ _ _ E), (bind_Ret _ _ _ _ _ E'). steps.
    destruct F2 as (((P1 & P2 & P3 & P4 & P5) & P6 & P7 & P8) & Q1 & Q2 & Q3 & Q4 & Q5 & Q6).
    rewrite Q2, I3, Ei. change (S (iteration s) =? 1)%nat with (iteration s =? 0)%nat.
    set (s4 := if (iteration s =? 0)%nat then set_initial_residual (normO pb (fst (fst K))) s3 else s3).
    set (t4 := if (iteration s =? 0)%nat then set_initial_residual (normO pb (fst (fst K))) t3 else t3).
    assert (E4 : forall a : state, (if (iteration s =? 0)%nat then modify (set_initial_residual (normO pb (fst (fst K)))) else ret tt) a = (Ret tt, if (iteration s =? 0)%nat then set_initial_residual (normO pb (fst (fst K))) a else a)) by (intros; destruct (iteration s =? 0)%nat; reflexivity).
    rewrite (bind_Ret _ _ _ _ _ (E4 s3)), (bind_Ret _ _ _ _ _ (E4 t3)). fold s4 t4. steps.
    assert (B4 : between s4 t4 /\ initial_residual t4 = initial_residual s4).
    { unfold s4, t4, between, core, same_options. rewrite I3, Ei in Q3. destruct (Nat.eqb_spec (iteration s) 0) as [Z|Z]; cbn; intuition (try congruence); try (apply Q3; lia). }
    destruct B4 as [(((S1 & S2 & S3 & S4 & S5) & S6 & S7 & S8) & T1 & T2 & T3) Ein].
    assert (R4 : relaxation s4 = Some (half k)) by (unfold s4; destruct (iteration s =? 0)%nat; exact R3).
    assert (R4' : relaxation t4 = Some (half k)) by (unfold t4; destruct (iteration s =? 0)%nat; cbn; congruence).
    assert (Done : forall v w, between (set_residual v s4) (set_residual w t4)) by (intros; unfold between, core, same_options; cbn; auto 20).
    rewrite S4. destruct (criterion s4).
    - steps. rewrite (bind_Ret _ _ _ _ _ (check_convergence_set _ _ _ _ R4)), (bind_Ret _ _ _ _ _ (check_convergence_set _ _ _ _ R4')). steps.
      split; [|intros _; apply Done]. cbn [fst]. now rewrite T1, Ein, S2, S3.
    - destruct (iteration s =? 0)%nat; steps; [split; [reflexivity|intros _; apply Done]|].
      rewrite (bind_Ret _ _ _ _ _ (check_convergence_set _ _ _ _ R4)), (bind_Ret _ _ _ _ _ (check_convergence_set _ _ _ _ R4')). steps.
      split; [|intros _; apply Done]. cbn [fst]. now rewrite Ein, S2, S3.
    - split; [reflexivity|intros [v Ev]; discriminate].
  Qed.

  Lemma newton_loop_between fuel_in : (7 <= fuel_in)%nat -> forall fuel r conv s t, between s t ->
    agree between (newton_loop pb fuel_in fuel r conv s) (newton_loop pb fuel_in fuel r conv t).
  Proof.
    intros Hf. induction fuel as [|fuel IH]; intros r conv s t Hb; cbn [newton_loop]; steps;
      assert (E1 : iteration t = iteration s) by apply Hb; assert (E2 : max_it t = max_it s) by apply Hb; rewrite E1, E2;
      (destruct (negb conv && (iteration s <? max_it s)%nat)%bool; [|split; auto]).
    - split; [reflexivity|intros [v Ev]; discriminate].
    - eapply agree_bind; [now apply newton_body_between|]. intros [r' c'] s1 t1 H1. now apply IH.
  Qed.

  Lemma solve_once_agree fuel s t : (7 <= fuel)%nat -> core s t -> relaxation s <> None -> relaxation t <> None ->
    (criterion s = CResidual -> conv_at_start pb cf rf s = conv_at_start pb cf rf t) ->
    agree (fun s' t' => core s' t' /\ s_b t' = s_b s' /\ iteration t' = iteration s') (solve_once pb fuel s) (solve_once pb fuel t).
  Proof.
    intros Hf ((O1 & O2 & O3 & O4 & O5) & X & A & Cc) Hs Ht Hconv. unfold solve_once. steps.
    rewrite (eval_calls pb cf rf Hcf Hrf (owned (s_x s))) by reflexivity. rewrite (eval_calls pb cf rf Hcf Hrf (owned (s_x t))) by reflexivity. steps.
    fold (start_state pb cf rf s). fold (start_state pb cf rf t).
    assert (Eb : s_b (start_state pb cf rf t) = s_b (start_state pb cf rf s)) by (unfold start_state, eval_state; cbn; now rewrite X, Cc).
    assert (St : between (start_state pb cf rf s) (start_state pb cf rf t)).
    { unfold between, core, same_options, start_state, eval_state. cbn. rewrite X, Cc. repeat split; auto. intros []; reflexivity. }
    assert (Tail : forall r c s1 t1, between s1 t1 -> agree (fun s' t' => core s' t' /\ s_b t' = s_b s' /\ iteration t' = iteration s')
      (bind (newton_loop pb fuel fuel r c) (fun conv => bind (get error_on_nonconvergence) (fun err => bind (if conv then ret tt else if err then raise ERuntime else ret tt)
           (fun _ => bind (get iteration) (fun it => ret (it, conv))))) s1)
      (bind (newton_loop pb fuel fuel r c) (fun conv => bind (get error_on_nonconvergence) (fun err => bind (if conv then ret tt else if err then raise ERuntime else ret tt)
           (fun _ => bind (get iteration) (fun it => ret (it, conv))))) t1)).
    { intros r c s1 t1 H1. eapply agree_bind; [now apply newton_loop_between|]. intros conv s2 t2 H2. steps.
      assert (E5 : error_on_nonconvergence t2 = error_on_nonconvergence s2) by apply H2. assert (E6 : iteration t2 = iteration s2) by apply H2. rewrite E5.
      destruct conv; [|destruct (error_on_nonconvergence s2)]; steps; try (split; [reflexivity|intros [v Ev]; discriminate]);
        rewrite E6; (split; [reflexivity|intros _; split; [apply H2|split; [apply H2|exact E6]]]). }
    change (criterion (start_state pb cf rf s)) with (criterion s). change (criterion (start_state pb cf rf t)) with (criterion t). rewrite O4.
    destruct (criterion s) eqn:Ec; steps.
    - destruct (relaxation s) as [rs|] eqn:Ers; [|congruence]. destruct (relaxation t) as [rt|] eqn:Ert; [|congruence].
      rewrite (bind_Ret _ _ _ _ _ (check_convergence_set pb _ rs (start_state pb cf rf s) Ers)), (bind_Ret _ _ _ _ _ (check_convergence_set pb _ rt (start_state pb cf rf t) Ert)). steps. cbn [fst snd].
      specialize (Hconv eq_refl). unfold conv_at_start in Hconv. rewrite O4, Ec in Hconv.
      change (initial_residual (start_state pb cf rf s)) with (initial_residual s). change (initial_residual (start_state pb cf rf t)) with (initial_residual t).
      change (rtol (start_state pb cf rf s)) with (rtol s). change (rtol (start_state pb cf rf t)) with (rtol t).
      change (atol (start_state pb cf rf s)) with (atol s). change (atol (start_state pb cf rf t)) with (atol t).
      rewrite Hconv, Eb. apply Tail. destruct St as (((S1 & S2 & S3 & S4 & S5) & S6 & S7 & S8) & T1 & T2 & T3). unfold between, core, same_options. cbn [set_residual s_x s_A s_coeffs s_b iteration initial_residual max_it rtol atol criterion error_on_nonconvergence]. repeat split; auto.
    - rewrite Eb. now apply Tail.
    - split; [reflexivity|intros [v Ev]; discriminate].
  Qed.
End History.
