(** Properties C45-C47, C60: repeated solves, options and missing callbacks of the
    Newton solver. *)
From Coq Require Import List Arith Lia Bool Reals Lra.
Import ListNotations.
From Verif Require Import Prelude PreludeLemmas CropModel CandidatesProps NewtonModel NewtonProofs NewtonProps NewtonHistory.
Local Open Scope R_scope.

Section Props.
  Context {O G B Mt C : Type}.
  Variable pb : problem O G B Mt C.
  Variable cf : iterate O G -> C -> C.
  Variable rf : iterate O G -> C -> B.
  Variable jf : iterate O G -> C -> Mt -> Mt.
  Hypothesis Hcf : compute_coefficients pb = Some cf.
  Hypothesis Hrf : compute_residual pb = Some rf.
  Hypothesis Hjf : compute_jacobian pb = Some jf.
  Notation state := (state O G B Mt C).

  (** The residual of the initial guess. *)
  Definition residual_at_start (s : state) : B :=
    rf {| owned := owned (s_x s); ghosts := ghost_values pb (owned (s_x s)) |} (cf (s_x s) (s_coeffs s)).
  Lemma residual_at_start_eq s : s_b (start_state pb cf rf s) = residual_at_start s.
  Proof. unfold residual_at_start, start_state, eval_state. destruct s as [? ? ? ? ? ? ? ? ? ? ? ? ? ? [o g] ?]. reflexivity. Qed.

  (** ** C45: what is true.  Two solvers with the same options, iterate, matrix
      and coefficient arrays — however their earlier use differs: reference
      residual, relaxation parameter, counters, right hand side, increment —
      give the same result, provided the criterion is incremental, or the
      reference residuals agree, or the initial residual is not below atol. *)
  Theorem C45_solve_history_partial :
    forall (s t : state) fuel, (7 <= fuel)%nat ->
      max_it t = max_it s -> rtol t = rtol s -> atol t = atol s -> criterion t = criterion s -> error_on_nonconvergence t = error_on_nonconvergence s ->
      s_x t = s_x s -> s_A t = s_A s -> s_coeffs t = s_coeffs s -> relaxation s <> None -> relaxation t <> None ->
      (criterion s = CIncremental \/ initial_residual t = initial_residual s \/ atol s <= normB pb (residual_at_start s)) ->
      fst (solve_once pb fuel t) = fst (solve_once pb fuel s) /\
      (forall v, fst (solve_once pb fuel s) = Ret v ->
         s_x (snd (solve_once pb fuel t)) = s_x (snd (solve_once pb fuel s)) /\ s_b (snd (solve_once pb fuel t)) = s_b (snd (solve_once pb fuel s))).
  Proof.
    intros s t fuel Hf H1 H2 H3 H4 H5 H6 H7 H8 Hs Ht Hor.
    destruct (solve_once_agree pb cf rf jf Hcf Hrf Hjf fuel s t Hf) as [E1 E2].
    - split; [now repeat split|]. auto.
    - exact Hs.
    - exact Ht.
    - intros Hc. unfold conv_at_start. rewrite H4, Hc, !residual_at_start_eq.
      assert (Er : residual_at_start t = residual_at_start s) by (unfold residual_at_start; now rewrite H6, H8).
      rewrite Er, H2, H3. destruct Hor as [Hi | [Hi | Hi]]; [congruence|now rewrite Hi|].
      unfold flag. replace (rlt (normB pb (residual_at_start s)) (atol s)) with false by (symmetry; now apply rlt_false). now rewrite !andb_false_r.
    - split; [auto|]. intros v Hv. destruct (E2 (ex_intro _ v Hv)) as ((_ & X & _) & Eb & _). auto.
  Qed.

  (** ** C46: what [solve] does. *)
  Theorem C46_solve_function_once :
    forall (s : state) fuel v s1, solve_once pb fuel s = (Ret v, s1) ->
      exists s2, solve pb fuel false s = (Ret v, s2) /\ trace s2 = trace s1 /\ iteration s2 = iteration s1 /\ owned (s_x s2) = owned (s_x s1) /\ s_b s2 = s_b s1.
  Proof. intros s fuel v s1 E. unfold solve. rewrite (bind_Ret _ _ _ _ _ E). eexists. split; [reflexivity|]. repeat split. Qed.

  Theorem C46_solve_vector_exact :
    forall (s : state) fuel v s1, solve_once pb fuel s = (Ret v, s1) ->
      fst (solve pb fuel true s) = fst (solve_once pb fuel s1) /\ trace (snd (solve pb fuel true s)) = trace (snd (solve_once pb fuel s1)) /\
      owned (s_x (snd (solve pb fuel true s))) = owned (s_x (snd (solve_once pb fuel s1))).
  Proof.
    intros s fuel v s1 E. unfold solve. rewrite (bind_Ret _ _ _ _ _ E). unfold raise. unfold bind.
    destruct (solve_once pb fuel s1) as [[w|e|] s2]; repeat split.
  Qed.

  (** So a call on a vector evaluates the residual at least twice even when the
      first run converged. *)
  Theorem C46_solve_vector_two_runs :
    forall (s : state) fuel v s1, (max_it s + 7 <= fuel)%nat -> solve_once pb fuel s = (Ret v, s1) ->
      exists first second, trace (snd (solve pb fuel true s)) = trace s ++ first ++ second /\ (1 <= count_residuals first)%nat /\ (1 <= count_residuals second)%nat.
  Proof.
    intros s fuel v s1 Hf E.
    assert (One : forall a : state, (max_it a + 7 <= fuel)%nat -> exists tr, trace (snd (solve_once pb fuel a)) = trace a ++ tr /\ (1 <= count_residuals tr)%nat /\ max_it (snd (solve_once pb fuel a)) = max_it a).
    { intros a Ha. destruct (solve_once_spec pb cf rf jf Hcf Hrf Hjf fuel a Ha) as (o & l & a' & Ea & SE). rewrite Ea. cbn [snd].
      assert (Hm : max_it a' = max_it a) by (destruct (solve_end_effect pb cf rf jf _ _ _ _ SE) as ((M & _) & _); exact M).
      destruct (start_trace pb cf rf a) as (t0 & T0 & T1 & _ & _). destruct (enter_fields pb cf rf a) as (_ & _ & F3 & _ & _ & _ & _ & _ & _ & _ & F11).
      assert (Go : forall oo, loop_end pb cf rf jf (enter_state pb cf rf a) (normB pb (s_b (start_state pb cf rf a))) (conv_at_start pb cf rf a) oo l a' ->
        exists tr, trace a' = trace a ++ tr /\ (1 <= count_residuals tr)%nat /\ max_it a' = max_it a).
      { intros oo LE. destruct (loop_end_effect pb cf rf jf _ _ _ _ _ _ LE F3) as (_ & _ & _ & tr & T & _). exists (t0 ++ tr).
        split; [rewrite T, F11, T0; now rewrite <- app_assoc|]. split; [rewrite count_residuals_app; lia|exact Hm]. }
      destruct SE as [conv l a' Hc Hr LE|l a' Hc Hr LE|Hc Hr Hx|Hc]; eauto; exists t0; split; auto; split; auto; lia. }
    destruct (One s Hf) as (t1 & T1 & C1 & M1). rewrite E in T1, M1. cbn [snd] in T1, M1.
    destruct (One s1 ltac:(lia)) as (t2 & T2 & C2 & _). exists t1, t2.
    destruct (C46_solve_vector_exact s fuel v s1 E) as (_ & Et & _). rewrite Et, T2, T1. rewrite <- app_assoc. auto.
  Qed.

  (** ** C47 *)
  Definition kept {T} (o : option T) (v : T) : T := match o with Some w => w | None => v end.

  (** All given options are stored, the others are kept — except that
      relaxation_parameter is always overwritten — and everything else stays. *)
  Theorem C47_options_stored :
    forall (o : options) (s : state), o_crit o <> Some None ->
      exists s', set_newton_options o s = (Ret tt, s') /\
        atol s' = kept (o_atol o) (atol s) /\ rtol s' = kept (o_rtol o) (rtol s) /\ max_it s' = kept (o_max_it o) (max_it s) /\
        error_on_nonconvergence s' = kept (o_error o) (error_on_nonconvergence s) /\
        (forall c, o_crit o = Some (Some c) -> criterion s' = c) /\ (o_crit o = None -> criterion s' = criterion s) /\
        relaxation s' = Some (kept (o_relax o) 1) /\
        s_x s' = s_x s /\ s_A s' = s_A s /\ s_b s' = s_b s /\ s_coeffs s' = s_coeffs s /\ initial_residual s' = initial_residual s /\ trace s' = trace s.
  Proof.
    intros o s Hc. destruct o as [a r c m e x]. cbn [o_crit] in Hc. unfold set_newton_options. cbn [o_atol o_rtol o_crit o_max_it o_error o_relax].
    destruct a, r, c as [[c|]|], m, e, x; try congruence; (eexists; split; [reflexivity|]); cbn; repeat split; congruence.
  Qed.

  (** On an unknown criterion the exception is raised after atol and rtol have
      been stored. *)
  Theorem C47_unknown_criterion_exact :
    forall (o : options) (s : state), o_crit o = Some None ->
      exists s', set_newton_options o s = (Exn ERuntime, s') /\
        atol s' = kept (o_atol o) (atol s) /\ rtol s' = kept (o_rtol o) (rtol s) /\
        max_it s' = max_it s /\ criterion s' = criterion s /\ error_on_nonconvergence s' = error_on_nonconvergence s /\ relaxation s' = relaxation s.
  Proof.
    intros o s Hc. destruct o as [a r c m e x]. cbn [o_crit] in Hc. subst c. unfold set_newton_options. cbn [o_atol o_rtol o_crit].
    destruct a, r; (eexists; split; [reflexivity|]); cbn; auto 10.
  Qed.

  (** The relaxation parameter given has no influence on the outcome. *)
  Theorem C47_relaxation_ignored_exact :
    forall (s : state) fuel r r', (7 <= fuel)%nat ->
      fst (solve_once pb fuel (set_relaxation (Some r) s)) = fst (solve_once pb fuel (set_relaxation (Some r') s)) /\
      (forall v, fst (solve_once pb fuel (set_relaxation (Some r) s)) = Ret v ->
         s_x (snd (solve_once pb fuel (set_relaxation (Some r) s))) = s_x (snd (solve_once pb fuel (set_relaxation (Some r') s)))).
  Proof.
    intros s fuel r r' Hf.
    destruct (solve_once_agree pb cf rf jf Hcf Hrf Hjf fuel (set_relaxation (Some r) s) (set_relaxation (Some r') s) Hf) as [E1 E2].
    - repeat split.
    - discriminate.
    - discriminate.
    - reflexivity.
    - split; [auto|]. intros v Hv. destruct (E2 (ex_intro _ v Hv)) as ((_ & X & _) & _). auto.
  Qed.
End Props.
Print Assumptions C45_solve_history_partial.
Print Assumptions C46_solve_function_once.
Print Assumptions C46_solve_vector_exact.
Print Assumptions C46_solve_vector_two_runs.
Print Assumptions C47_options_stored.
Print Assumptions C47_unknown_criterion_exact.
Print Assumptions C47_relaxation_ignored_exact.

(** ** C60: missing callbacks *)
Theorem C60_missing_coefficients :
  forall O G B Mt C (pb : problem O G B Mt C) fuel s, compute_coefficients pb = None ->
    exists s', solve_once pb fuel s = (Exn ERuntime, s') /\ s_x s' = s_x s /\ s_A s' = s_A s /\ s_b s' = s_b s /\ s_coeffs s' = s_coeffs s /\ trace s' = trace s.
Proof.
  intros. unfold solve_once. rewrite !bind_modify. unfold call_coefficients at 1. rewrite H, bind_raise. eexists. split; [reflexivity|]. repeat split.
Qed.
Print Assumptions C60_missing_coefficients.

Theorem C60_missing_residual :
  forall O G B Mt C (pb : problem O G B Mt C) fuel s f, compute_coefficients pb = Some f -> compute_residual pb = None ->
    exists s', solve_once pb fuel s = (Exn ERuntime, s') /\ owned (s_x s') = owned (s_x s) /\ s_A s' = s_A s /\ s_b s' = s_b s.
Proof.
  intros. unfold solve_once. rewrite !bind_modify. unfold call_coefficients. rewrite H. rewrite bind_bind, bind_get, bind_bind, bind_emit, bind_modify. unfold ghost_update. rewrite bind_modify.
  unfold call_residual at 1. rewrite H0, bind_raise. eexists. split; [reflexivity|]. repeat split.
Qed.
Print Assumptions C60_missing_residual.

(** Without a Jacobian callback a run either stops at the initial test or raises;
    it never moves the iterate's owned values. *)
Theorem C60_missing_jacobian :
  forall O G B Mt C (pb : problem O G B Mt C) fuel s cf rf, (1 <= fuel)%nat -> compute_coefficients pb = Some cf -> compute_residual pb = Some rf -> compute_jacobian pb = None ->
    criterion s = CIncremental -> (1 <= max_it s)%nat ->
    exists s', solve_once pb fuel s = (Exn ERuntime, s') /\ owned (s_x s') = owned (s_x s) /\ s_A s' = s_A s.
Proof.
  intros O G B Mt C pb fuel s cf rf Hf Hcf Hrf Hjf Hc Hm. unfold solve_once. rewrite !bind_modify.
  rewrite (eval_calls pb cf rf Hcf Hrf (owned (s_x s))) by reflexivity. rewrite !bind_get.
  replace (criterion (eval_state _ _ _ _ _)) with CIncremental by (symmetry; exact Hc). rewrite bind_ret.
  destruct fuel as [|fuel]; [lia|]. cbn [newton_loop]. rewrite bind_bind, bind_get, bind_bind, bind_get.
  replace (iteration (eval_state _ _ _ _ _)) with 0%nat by reflexivity.
  replace (max_it (eval_state _ _ _ _ _)) with (max_it s) by reflexivity.
  replace (0 <? max_it s)%nat with true by (symmetry; apply Nat.ltb_lt; lia). cbn [negb andb].
  unfold newton_body. rewrite Hjf. rewrite !bind_bind, bind_get, bind_bind, bind_modify, bind_bind, bind_raise.
  eexists. split; [reflexivity|]. repeat split.
Qed.
Print Assumptions C60_missing_jacobian.

(** ** A concrete problem: one unknown that is zero ([false]) or one ([true]);
    the residual is the unknown, the Newton step solves it exactly. *)
Definition toy : problem bool unit bool unit unit :=
  {| compute_coefficients := Some (fun (_ : iterate bool unit) c => c);
     compute_residual := Some (fun (x : iterate bool unit) _ => owned x);
     compute_jacobian := Some (fun (_ : iterate bool unit) _ A => A);
     ksp := fun _ _ _ b => (b, 1%nat, true);
     normB := fun b : bool => if b then 1 else 0;
     normO := fun b : bool => if b then 1 else 0;
     axpy := fun _ dx x => xorb x dx;
     ghost_values := fun _ => tt;
     rank0 := true |}.
Definition toy_options : options :=
  {| o_atol := Some (/ 2); o_rtol := Some (/ 2); o_crit := None; o_max_it := Some 1%nat; o_error := None; o_relax := None |}.
Definition toy_start (x : bool) : state bool unit bool unit unit :=
  snd (set_newton_options toy_options (init tt false tt {| owned := x; ghosts := tt |})).

Lemma rlt_1_half : rlt 1 (/ 2) = false.
Proof. apply rlt_false. lra. Qed.
Lemma rlt_0_half : rlt 0 (/ 2) = true.
Proof. apply rlt_true. lra. Qed.
Lemma rlt_0_0 : rlt 0 0 = false.
Proof. apply rlt_false. lra. Qed.
Lemma rlt_1_0 : rlt 1 0 = false.
Proof. apply rlt_false. lra. Qed.
Lemma rlt_0_1 : rlt 0 1 = true.
Proof. apply rlt_true. lra. Qed.
Lemma rlt_0_div1 : rlt (0 / 1) (/ 2) = true.
Proof. apply rlt_true. lra. Qed.

(** Solving from the non-solution: one iteration, converged. *)
Definition toy_used : state bool unit bool unit unit := snd (solve_once toy 8 (toy_start true)).
Lemma req_0 : (if Req_EM_T 0 0 then false else rlt (1 / 0) (/ 2)) = false.
Proof. destruct (Req_EM_T 0 0); [reflexivity|lra]. Qed.
Lemma req_1 x : (if Req_EM_T 1 0 then false else x) = x.
Proof. destruct (Req_EM_T 1 0); [lra|reflexivity]. Qed.
Lemma req_0' x : (if Req_EM_T 0 0 then false else x) = false.
Proof. destruct (Req_EM_T 0 0); [reflexivity|lra]. Qed.

Lemma newton_loop_step O G B Mt C (pb : problem O G B Mt C) fi f r c s :
  newton_loop pb fi (S f) r c s =
  if negb c && (iteration s <? max_it s)%nat then
    match newton_body pb fi r s with
    | (Ret o, s') => newton_loop pb fi f (fst o) (snd o) s'
    | (Exn e, s') => (Exn e, s')
    | (OutOfFuel, s') => (OutOfFuel, s')
    end
  else (Ret c, s).
Proof.
  cbn [newton_loop]. rewrite !bind_get. destruct (negb c && (iteration s <? max_it s)%nat); [|reflexivity].
  unfold bind at 1. destruct (newton_body pb fi r s) as [[o|e|] s']; reflexivity.
Qed.
Lemma relax_loop_stop O G B Mt C (pb : problem O G B Mt C) f x ro rn s : rlt ro rn = false -> relax_loop pb f x ro rn s = (Ret rn, s).
Proof. intros E. destruct f; cbn [relax_loop]; rewrite E; reflexivity. Qed.

Ltac toy_step := cbv -[Rdiv Rinv rlt Req_EM_T Rmult IZR not newton_loop relax_loop].
Ltac toy_run := toy_step; repeat (first [rewrite req_0' | rewrite req_1 | rewrite rlt_1_half | rewrite rlt_0_half | rewrite rlt_0_0 | rewrite rlt_1_0 | rewrite rlt_0_1 | rewrite rlt_0_div1
  | rewrite relax_loop_stop by (first [exact rlt_0_0 | exact rlt_1_0]) | rewrite newton_loop_step]; toy_step).

Example toy_first_run : fst (solve_once toy 8 (toy_start true)) = Ret (1%nat, true) /\
  owned (s_x toy_used) = false /\ initial_residual toy_used = 1 /\ relaxation toy_used = Some 1.
Proof. toy_run. repeat split. Qed.

(** C45 is violated: a solver used before and a fresh one, with the same
    options, both asked to solve from the exact solution.  The used one returns at
    once; the fresh one iterates and reports failure. *)
Theorem C45_solve_history_refuted :
  let used := toy_used in
  let fresh := toy_start false in
  owned (s_x used) = owned (s_x fresh) /\ max_it used = max_it fresh /\ rtol used = rtol fresh /\ atol used = atol fresh /\
  criterion used = criterion fresh /\ error_on_nonconvergence used = error_on_nonconvergence fresh /\
  fst (solve toy 8 false used) = Ret (0%nat, true) /\ fst (solve toy 8 false fresh) = Ret (1%nat, false).
Proof. toy_run. repeat split. Qed.
Print Assumptions C45_solve_history_refuted.

(** C46 is violated: on a PETSc vector the Newton run happens twice, and the count
    of the second run is returned. *)
Theorem C46_solve_vector_refuted :
  fst (solve_once toy 8 (toy_start true)) = Ret (1%nat, true) /\
  fst (solve toy 8 false (toy_start true)) = Ret (1%nat, true) /\
  fst (solve toy 8 true (toy_start true)) = Ret (0%nat, true) /\
  count_residuals (trace (snd (solve toy 8 false (toy_start true)))) = 2%nat /\
  count_residuals (trace (snd (solve toy 8 true (toy_start true)))) = 3%nat.
Proof. toy_run. repeat split. Qed.
Print Assumptions C46_solve_vector_refuted.

(** C47 is violated: after the exception the tolerances have changed; and a
    relaxation parameter of 1/2 is not used: the accepted step is a full one. *)
Theorem C47_options_refuted :
  (let o := {| o_atol := Some 5; o_rtol := None; o_crit := Some None; o_max_it := None; o_error := None; o_relax := None |} in
   fst (set_newton_options o (toy_start true)) = Exn ERuntime /\ atol (toy_start true) = / 2 /\ atol (snd (set_newton_options o (toy_start true))) = 5) /\
  (let o := {| o_atol := None; o_rtol := None; o_crit := None; o_max_it := None; o_error := None; o_relax := Some (/ 2) |} in
   let s := snd (set_newton_options o (toy_start true)) in
   relaxation s = Some (/ 2) /\ relaxation (snd (solve_once toy 8 s)) = Some 1).
Proof. toy_run. repeat split. Qed.
Print Assumptions C47_options_refuted.

(** A new solver has no relaxation parameter: unless set_newton_options has been
    called, the solve of rank 0 with the residual criterion raises AttributeError. *)
Theorem C47_defaults_raise_refuted :
  forall fuel is_vec, fst (solve toy (8 + fuel) is_vec (init tt false tt {| owned := true; ghosts := tt |})) = Exn EAttribute.
Proof. intros. destruct is_vec; reflexivity. Qed.
Print Assumptions C47_defaults_raise_refuted.

(** The hypotheses of C42-C45 are met. *)
Example toy_hypotheses : exists cf rf jf, compute_coefficients toy = Some cf /\ compute_residual toy = Some rf /\ compute_jacobian toy = Some jf /\
  (max_it (toy_start true) + 7 <= 8)%nat /\ fst (solve_once toy 8 (toy_start true)) = Ret (1%nat, true).
Proof. do 3 eexists. split; [reflexivity|]. split; [reflexivity|]. split; [reflexivity|]. split; [cbn; lia|apply toy_first_run]. Qed.
