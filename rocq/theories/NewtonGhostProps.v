(** C88: at which points the Newton solver evaluates the coefficients, the residual and the
    Jacobian on a distributed mesh. *)
From Coq Require Import List Arith Lia Bool Reals Lra.
Import ListNotations.
From Verif Require Import Prelude PreludeLemmas CropModel CandidatesProps NewtonModel NewtonProofs.
Local Open Scope R_scope.

(** ** Specification
    A distributed vector is [up_to_date] if its ghost values are the values of their owners. *)
Definition up_to_date {O G B Mt C} (pb : problem O G B Mt C) (x : iterate O G) : Prop := ghosts x = ghost_values pb (owned x).
(** The last point before a place in the trace at which the residual was evaluated; the
    initial guess [x0] if there is none. *)
Definition last_residual_point {O G B} (x0 : iterate O G) (before : list (event O G B)) : iterate O G := last (res_points before) x0.

Section Ghosts.
  Context {O G B Mt C : Type}.
  Variable pb : problem O G B Mt C.
  Variable cf : iterate O G -> C -> C.
  Variable rf : iterate O G -> C -> B.
  Hypothesis Hcf : compute_coefficients pb = Some cf.
  Hypothesis Hrf : compute_residual pb = Some rf.
  Notation state := (state O G B Mt C).
  Notation run := (run O G B Mt C).

  (** The calls that take the iterate from [x] to [y]. *)
  Inductive calls : iterate O G -> list (event O G B) -> iterate O G -> Prop :=
  | c_done x : calls x [] x
  | c_eval x o tr y : calls (ghosted pb o) tr y -> calls x (EvCoef {| owned := o; ghosts := ghosts x |} :: EvRes (ghosted pb o) :: tr) y
  | c_jac x tr y : up_to_date pb x -> calls x tr y -> calls x (EvJac x :: tr) y
  | c_ksp x b tr y : calls x tr y -> calls x (EvKsp b :: tr) y.
  Lemma calls_app x a y b z : calls x a y -> calls y b z -> calls x (a ++ b) z.
  Proof. induction 1; intros H'; cbn [app]; [exact H'|constructor; auto..]. Qed.

  Definition ok (s s' : state) : Prop := exists tr, trace s' = trace s ++ tr /\ calls (s_x s) tr (s_x s').
  Lemma ok_refl s : ok s s.
  Proof. exists []. rewrite app_nil_r. split; [reflexivity|constructor]. Qed.
  Lemma ok_same s s' : s_x s' = s_x s -> trace s' = trace s -> ok s s'.
  Proof. intros X T. exists []. rewrite app_nil_r, X. split; [exact T|constructor]. Qed.
  Lemma ok_trans a b c : ok a b -> ok b c -> ok a c.
  Proof. intros (t1 & E1 & C1) (t2 & E2 & C2). exists (t1 ++ t2). split; [now rewrite E2, E1, app_assoc|eapply calls_app; eauto]. Qed.
  Lemma ok_eval o s : ok s (eval_state pb cf rf o s).
  Proof.
    exists [EvCoef {| owned := o; ghosts := ghosts (s_x s) |}; EvRes (ghosted pb o)]. split; [cbn [eval_state trace]; now rewrite <- app_assoc|].
    cbn [eval_state s_x]. constructor. constructor.
  Qed.

  (** [good m]: whatever [m] does, it makes its calls in this way and keeps the stored residual and
      coefficients those of the iterate. *)
  Notation inv s := (consistent pb cf rf s).
  Lemma inv_up s : inv s -> up_to_date pb (s_x s).
  Proof. intros [H _]. unfold up_to_date. rewrite H. reflexivity. Qed.
  Definition fine (s s' : state) : Prop := ok s s' /\ inv s'.
  Definition good {T} (m : run T) : Prop := forall s, inv s -> fine s (snd (m s)).
  Lemma good_bind {T U} (m : run T) (k : T -> run U) : good m -> (forall v, good (k v)) -> good (bind m k).
  Proof.
    intros Hm Hk s Hs. unfold bind. pose proof (Hm s Hs) as [H1 H2]. destruct (m s) as [[v|e|] s']; cbn [snd] in *; [|now split..].
    destruct (Hk v s' H2) as [H3 H4]. split; [eapply ok_trans; eauto|exact H4].
  Qed.
  Lemma good_ret {T} (v : T) : good (ret v).
  Proof. intros s Hs. split; [apply ok_refl|exact Hs]. Qed.
  Lemma good_raise {T} e : good (@raise O G B Mt C T e).
  Proof. intros s Hs. split; [apply ok_refl|exact Hs]. Qed.
  Lemma good_get {T} (f : state -> T) : good (get f).
  Proof. intros s Hs. split; [apply ok_refl|exact Hs]. Qed.
  Lemma good_set (f : state -> state) : (forall s, s_x (f s) = s_x s) -> (forall s, trace (f s) = trace s) -> (forall s, s_b (f s) = s_b s) -> (forall s, s_coeffs (f s) = s_coeffs s) -> good (modify f).
  Proof. intros X T Hb Hc s Hs. split; [apply ok_same; [apply X|apply T]|]. cbn [modify snd]. unfold consistent. now rewrite X, Hb, Hc. Qed.
  Lemma good_check n : good (check_convergence pb n).
  Proof. intros s Hs. unfold check_convergence, bind, get. destruct (rank0 pb), (relaxation s); (split; [apply ok_refl|exact Hs]). Qed.

  Ltac steps := repeat (first [rewrite bind_get | rewrite bind_modify | rewrite bind_ret | rewrite bind_raise | rewrite bind_emit | rewrite bind_bind]; cbv beta).
  Ltac good_tac := repeat first [match goal with |- good (bind _ _) => apply good_bind; [|intros ?] | |- good (ret _) => apply good_ret | |- good (raise _) => apply good_raise | |- good (get _) => apply good_get
    | |- good (check_convergence _ _) => apply good_check | |- good (modify _) => (apply good_set; intros; reflexivity) end
    | match goal with |- good (match ?x with _ => _ end) => destruct x end].

  Lemma fine_eval o s : fine s (eval_state pb cf rf o s).
  Proof. split; [apply ok_eval|apply eval_consistent]. Qed.
  Lemma fine_trans a b c : fine a b -> (inv b -> fine b c) -> fine a c.
  Proof. intros [H1 H2] H. destruct (H H2) as [H3 H4]. split; [eapply ok_trans; eauto|exact H4]. Qed.

  Lemma relax_body_cases saved r s rl dx : relaxation s = Some rl -> s_dx s = Some dx ->
    (exists v r', relax_body pb saved r s = (Ret v, set_relaxation (Some r') s)) \/
    (exists v r' o, relax_body pb saved r s = (Ret v, eval_state pb cf rf o (set_relaxation (Some r') s))).
  Proof.
    intros Hr Hd. unfold relax_body. steps. rewrite Hr. destruct (rlt _ _); steps; [left; now do 2 eexists|right].
    unfold update_solution at 1. steps. cbn [set_s_x set_relaxation relaxation s_dx]. rewrite Hd. steps. do 3 eexists.
    rewrite (eval_calls pb cf rf Hcf Hrf _) by reflexivity. steps. reflexivity.
  Qed.
  Lemma fine_relax_loop saved ro : forall fuel rn s rl dx, relaxation s = Some rl -> s_dx s = Some dx -> inv s -> fine s (snd (relax_loop pb fuel saved ro rn s)).
  Proof.
    assert (R : forall s, inv s -> fine s s) by (intros s H; split; [apply ok_refl|exact H]).
    induction fuel as [|fuel IH]; intros rn s rl dx Hr Hd Hs; cbn [relax_loop]; destruct (rlt ro rn); try (now apply R).
    destruct (relax_body_cases saved rn s rl dx Hr Hd) as [(v & r' & E)|(v & r' & o & E)]; rewrite (bind_Ret _ _ _ _ _ E); destruct (fst v); cbn [ret snd].
    - split; [apply ok_same; reflexivity|exact Hs].
    - eapply fine_trans; [|intros H; now apply (IH (snd v) (set_relaxation (Some r') s) r' dx)]. split; [apply ok_same; reflexivity|exact Hs].
    - eapply fine_trans; [split; [apply (ok_same s (set_relaxation (Some r') s)); reflexivity|exact Hs]|]. intros _. apply fine_eval.
    - eapply fine_trans; [split; [apply (ok_same s (set_relaxation (Some r') s)); reflexivity|exact Hs]|]. intros _.
      eapply fine_trans; [apply fine_eval|]. intros H. now apply (IH (snd v) _ r' dx).
  Qed.
  Lemma good_newton_body fuel ro : good (newton_body pb fuel ro).
  Proof.
    intros s Hs. unfold newton_body. steps. destruct (compute_jacobian pb) as [jf|]; steps; [|split; [apply ok_same; reflexivity|exact Hs]].
    set (K := ksp pb _ _ _ _).
    match goal with |- context [(if snd K then ret tt else raise EAssertion)] => idtac end.
    destruct (snd K); steps.
    2:{ split; [|exact Hs]. exists [EvJac (s_x s); EvKsp (s_b s)]. split; [cbn; now rewrite <- app_assoc|]. constructor; [now apply inv_up|]. constructor. constructor. }
    match goal with |- fine s (snd (bind (update_solution pb) _ ?a)) => set (s1 := a) end.
    assert (F1 : fine s s1). { split; [|exact Hs]. exists [EvJac (s_x s); EvKsp (s_b s)]. split; [cbn; now rewrite <- app_assoc|]. constructor; [now apply inv_up|]. constructor. constructor. }
    eapply fine_trans; [exact F1|]. intros _. unfold update_solution at 1. steps.
    replace (relaxation s1) with (Some 1) by reflexivity. replace (s_dx s1) with (Some (fst (fst K))) by reflexivity. steps.
    unfold call_coefficients at 1. rewrite Hcf. steps. unfold ghost_update at 1. steps. unfold call_residual at 1. rewrite Hrf. steps.
    match goal with |- fine s1 (snd (bind _ _ ?a)) => set (s2 := a) end.
    assert (Es2 : s2 = eval_state pb cf rf (axpy pb 1 (fst (fst K)) (owned (s_x s))) (set_iteration (iteration s + 1) s1)) by reflexivity.
    assert (F2 : fine s1 s2). { rewrite Es2. eapply fine_trans; [split; [apply (ok_same s1 (set_iteration (iteration s + 1) s1)); reflexivity|exact Hs]|]. intros _. apply fine_eval. }
    eapply fine_trans; [exact F2|]. intros U2. assert (R2 : relaxation s2 = Some 1) by reflexivity. assert (D2 : s_dx s2 = Some (fst (fst K))) by reflexivity.
    pose proof (fine_relax_loop (owned (s_x s)) ro fuel (normB pb (s_b s2)) s2 1 _ R2 D2 U2) as F3. clearbody s2.
    unfold bind at 1. destruct (relax_loop pb fuel (owned (s_x s)) ro (normB pb (s_b s2)) s2) as [[v|e|] s3]; cbn [snd] in F3; cbn [snd]; [|exact F3..].
    eapply fine_trans; [exact F3|]. intros U3. clear - U3. revert s3 U3. change (good (bind (get iteration) (fun it => bind (if (it =? 1)%nat then modify (set_initial_residual (normO pb (fst (fst K)))) else ret tt)
      (fun _ => bind (get criterion) (fun c => bind (match c with
        | CResidual => bind (get (fun s => normB pb (s_b s))) (fun nrm => bind (check_convergence pb nrm) (fun out => bind (modify (set_residual (fst out))) (fun _ => ret (snd out))))
        | CIncremental => if (it =? 1)%nat then bind (modify (set_residual 1)) (fun _ => ret false) else bind (check_convergence pb (normO pb (fst (fst K)))) (fun out => bind (modify (set_residual (fst out))) (fun _ => ret (snd out)))
        | COther => raise ERuntime end) (fun conv => ret (v, conv))))))).
    good_tac.
  Qed.
  Lemma good_newton_loop fi : forall fuel r c, good (newton_loop pb fi fuel r c).
  Proof.
    induction fuel as [|fuel IH]; intros r c; cbn [newton_loop]; good_tac; try apply good_newton_body; try apply IH.
    intros s Hs. split; [apply ok_refl|exact Hs].
  Qed.
  Lemma fine_solve_once fuel s : fine s (snd (solve_once pb fuel s)).
  Proof.
    unfold solve_once. steps. rewrite (eval_calls pb cf rf Hcf Hrf (owned (s_x s))) by reflexivity.
    set (s1 := eval_state pb cf rf _ _).
    assert (F1 : fine s s1).
    { unfold s1. split; [|apply eval_consistent]. eapply ok_trans; [apply (ok_same s (set_residual (-1) (set_krylov_iterations 0 (set_iteration 0 s)))); reflexivity|apply ok_eval]. }
    eapply fine_trans; [exact F1|]. clearbody s1. revert s1 F1. intros s1 _. revert s1.
    match goal with |- forall s1, _ -> fine s1 (snd (bind ?m ?k s1)) => change (good (bind m k)) end.
    good_tac; apply good_newton_loop.
  Qed.

  Lemma fine_solve fuel is_vec s : fine s (snd (solve pb fuel is_vec s)).
  Proof.
    assert (GU : forall {T} (v : T), good (bind (ghost_update pb) (fun _ => ret v))).
    { intros T v t Ht. cbn. assert (E : {| owned := owned (s_x t); ghosts := ghost_values pb (owned (s_x t)) |} = s_x t) by (destruct Ht as [H _]; now rewrite H at 3).
      split; [apply ok_same; [exact E|reflexivity]|]. unfold consistent. cbn [set_s_x s_x s_b s_coeffs]. rewrite E. exact Ht. }
    assert (Once : forall b t, fine t (snd (bind (solve_once pb fuel) (fun out => if b : bool then raise EAttribute else bind (ghost_update pb) (fun _ => ret out)) t))
                   /\ fine t (snd (bind (solve_once pb fuel) (fun out => if b : bool then bind (ghost_update pb) (fun _ => ret out) else raise EAttribute) t))).
    { intros b t. pose proof (fine_solve_once fuel t) as F. unfold bind at 1 3. destruct (solve_once pb fuel t) as [[v|e|] t1]; cbn [snd] in *; [|now split..].
      destruct b; (split; (eapply fine_trans; [exact F|]); intros H); first [now apply good_raise | now apply GU]. }
    unfold solve. destruct (Once is_vec s) as [F1 _].
    destruct (bind _ _ s) as [[v|e|] s1]; cbn [snd] in *; [exact F1| |exact F1]. destruct e; try exact F1.
    eapply fine_trans; [exact F1|]. intros _. apply (Once is_vec s1).
  Qed.

  Lemma calls_points x tr y : calls x tr y -> forall z, In (EvRes z) tr \/ In (EvJac z) tr -> up_to_date pb z.
  Proof.
    induction 1 as [x|x o tr y H IH|x tr y U H IH|x b tr y H IH]; intros z [I|I]; cbn [In] in I; try contradiction.
    - destruct I as [E|[E|I]]; [discriminate|injection E as <-; reflexivity|apply IH; now left].
    - destruct I as [E|[E|I]]; [discriminate|discriminate|apply IH; now right].
    - destruct I as [E|I]; [discriminate|apply IH; now left].
    - destruct I as [E|I]; [injection E as <-; exact U|apply IH; now right].
    - destruct I as [E|I]; [discriminate|apply IH; now left].
    - destruct I as [E|I]; [discriminate|apply IH; now right].
  Qed.
  Lemma last_cons_irrel {A} (l : list A) a d : last (a :: l) d = last l a.
  Proof. revert a d. induction l as [|b l IH]; intros a d; [reflexivity|]. cbn [last] in *. destruct l; [reflexivity|]. rewrite (IH b d), (IH b a). reflexivity. Qed.
  Lemma calls_coef x tr y : calls x tr y -> forall before z after, tr = before ++ EvCoef z :: after ->
    ghosts z = ghosts (last_residual_point x before) /\ exists after', after = EvRes (ghosted pb (owned z)) :: after'.
  Proof.
    induction 1 as [x|x o tr y H IH|x tr y U H IH|x b tr y H IH]; intros before z after E.
    - destruct before; discriminate.
    - destruct before as [|e [|e' before]]; cbn [app] in E.
      + injection E as <- <-. split; [reflexivity|]. now exists tr.
      + discriminate.
      + injection E as <- <- E. destruct (IH before z after E) as [I1 I2]. split; [|exact I2]. rewrite I1. unfold last_residual_point. cbn [res_points flat_map app]. fold (res_points before). now rewrite last_cons_irrel.
    - destruct before as [|e before]; cbn [app] in E; [discriminate|]. injection E as <- E. exact (IH before z after E).
    - destruct before as [|e before]; cbn [app] in E; [discriminate|]. injection E as <- E. exact (IH before z after E).
  Qed.

  (** Residual and Jacobian are evaluated at up to date iterates; after any solve (also one
      that raises) the stored residual is the one of the iterate. *)
  Theorem C88_residual_and_jacobian_points :
    forall (fuel : nat) (is_vec : bool) (s s' : state) (out : outcome (nat * bool)), solve pb fuel is_vec s = (out, s') ->
      up_to_date pb (s_x s') /\ s_b s' = rf (s_x s') (s_coeffs s') /\
      exists tr, trace s' = trace s ++ tr /\ forall x, In (EvRes x) tr \/ In (EvJac x) tr -> up_to_date pb x.
  Proof using Hcf Hrf.
    intros fuel is_vec s s' out E. pose proof (fine_solve fuel is_vec s) as [(tr & T & K) I]. rewrite E in T, K, I. cbn [snd] in T, K, I.
    split; [now apply inv_up|]. split; [apply I|]. exists tr. split; [exact T|]. exact (calls_points _ _ _ K).
  Qed.

  (** The coefficients are computed before the ghosts are updated: the callback sees the new
      owned values with the ghost values of the last point at which the residual was evaluated. *)
  Theorem C88_coefficients_exact :
    forall (fuel : nat) (is_vec : bool) (s s' : state) (out : outcome (nat * bool)), solve pb fuel is_vec s = (out, s') ->
      exists tr, trace s' = trace s ++ tr /\
        forall before x after, tr = before ++ EvCoef x :: after ->
          ghosts x = ghosts (last_residual_point (s_x s) before) /\
          exists y after', after = EvRes y :: after' /\ owned y = owned x /\ up_to_date pb y.
  Proof using Hcf Hrf.
    intros fuel is_vec s s' out E. pose proof (fine_solve fuel is_vec s) as [(tr & T & K) I]. rewrite E in T, K. cbn [snd] in T, K.
    exists tr. split; [exact T|]. intros before x after Et. destruct (calls_coef _ _ _ K before x after Et) as [H1 (after' & H2)]. split; [exact H1|].
    exists (ghosted pb (owned x)), after'. repeat split; auto.
  Qed.

  (** If the callback refreshes the ghosts itself, or does not read them, the coefficients
      left by a solve are those of the iterate. *)
  Theorem C88_refreshing_callback :
    (forall x y c, owned x = owned y -> cf x c = cf y c) ->
    forall (fuel : nat) (is_vec : bool) (s s' : state) (out : outcome (nat * bool)), solve pb fuel is_vec s = (out, s') ->
      exists c0, s_coeffs s' = cf (s_x s') c0 /\ s_b s' = rf (s_x s') (cf (s_x s') c0).
  Proof using Hcf Hrf.
    intros Href fuel is_vec s s' out E. pose proof (fine_solve fuel is_vec s) as [_ I]. rewrite E in I. cbn [snd] in I. destruct I as (_ & Hb & g & c0 & Hc).
    exists c0. assert (Ec : s_coeffs s' = cf (s_x s') c0) by (rewrite Hc; now apply Href). now rewrite <- Ec.
  Qed.
End Ghosts.
Print Assumptions C88_residual_and_jacobian_points.
Print Assumptions C88_coefficients_exact.
Print Assumptions C88_refreshing_callback.

(** ** Coefficients packed by the callback
    Two ranks, one degree of freedom each, and one facet per rank that uses both.
    nitsche_rigid_surface_custom.py:274-290: the callback copies the owned values and packs;
    it does not update ghosts.  292-298: the residual of the contact term uses the packed
    values (here their sum, for a stiffness of one on each facet).  The matrix is the identity. *)
From Verif Require Import NewtonHistoryProps.
Definition pack_two (x : iterate (R * R) (R * R)) : (R * R) * (R * R) := ((fst (owned x), fst (ghosts x)), (snd (owned x), snd (ghosts x))).
Definition residual_two (c : (R * R) * (R * R)) : R * R := (fst (fst c) + snd (fst c), fst (snd c) + snd (snd c)).
Definition norm_two (v : R * R) : R := sqrt (fst v * fst v + snd v * snd v).
Definition two_ranks : problem (R * R) (R * R) (R * R) unit ((R * R) * (R * R)) :=
  {| compute_coefficients := Some (fun x _ => pack_two x);
     compute_residual := Some (fun _ c => residual_two c);
     compute_jacobian := Some (fun _ _ A => A);
     ksp := fun _ _ _ b => (b, 1%nat, true);
     normB := norm_two;
     normO := norm_two;
     axpy := fun r dx x => (fst x - r * fst dx, snd x - r * snd dx);
     ghost_values := fun x => (snd x, fst x);
     rank0 := true |}.
Definition two_start (a b : R) : state (R * R) (R * R) (R * R) unit ((R * R) * (R * R)) :=
  snd (set_newton_options {| o_atol := None; o_rtol := None; o_crit := None; o_max_it := None; o_error := None; o_relax := None |}
    (init tt (0, 0) ((0, 0), (0, 0)) {| owned := (a, b); ghosts := (b, a) |})).

Lemma norm_zero x y : x = 0 -> y = 0 -> norm_two (x, y) = 0.
Proof. intros -> ->. unfold norm_two. cbn [fst snd]. replace (0 * 0 + 0 * 0) with 0 by ring. apply sqrt_0. Qed.
Lemma norm_pos x y : x <> 0 -> 0 < norm_two (x, y).
Proof. intros H. unfold norm_two. cbn [fst snd]. apply sqrt_lt_R0. pose proof (Rsqr_pos_lt x H). unfold Rsqr in *. pose proof (Rle_0_sqr y). unfold Rsqr in *. lra. Qed.

(** From any guess that is not a solution the solver reports convergence with a zero
    residual after one step, at a point whose residual is as large as that of the guess. *)
Theorem C88_convergence_with_stale_ghosts_refuted :
  forall a b, a + b <> 0 ->
    let r := solve two_ranks 60 false (two_start a b) in
    fst r = Ret (1%nat, true) /\ norm_two (s_b (snd r)) = 0 /\
    norm_two (residual_two (pack_two (s_x (snd r)))) = norm_two (residual_two (pack_two (s_x (two_start a b)))) /\
    0 < norm_two (residual_two (pack_two (s_x (snd r)))).
Proof.
  intros a b N.
  assert (E : exists s', solve two_ranks 60 false (two_start a b) = (Ret (1%nat, true), s') /\ s_x s' = {| owned := (a - 1 * (a + b), b - 1 * (b + a)); ghosts := (b - 1 * (b + a), a - 1 * (a + b)) |}
    /\ s_b s' = (a - 1 * (a + b) + b, b - 1 * (b + a) + a)).
  { unfold solve, solve_once.
    assert (P0 : 0 < norm_two (a + b, b + a)) by now apply norm_pos.
    assert (P1 : norm_two (a - 1 * (a + b) + b, b - 1 * (b + a) + a) = 0) by (apply norm_zero; ring).
    assert (Q1 : rlt (norm_two (a + b, b + a)) (norm_two (a - 1 * (a + b) + b, b - 1 * (b + a) + a)) = false) by (apply rlt_false; lra).
    assert (T0 : 0 < / 10 ^ 7) by (apply Rinv_0_lt_compat, pow_lt; lra).
    assert (Q2 : (if Req_EM_T (norm_two (a + b, b + a)) 0 then false else rlt (norm_two (a - 1 * (a + b) + b, b - 1 * (b + a) + a) / norm_two (a + b, b + a)) (/ 10 ^ 7)) = true).
    { destruct (Req_EM_T _ 0) as [Z|_]; [lra|]. apply rlt_true. rewrite P1. unfold Rdiv. rewrite Rmult_0_l. exact T0. }
    assert (Q3 : rlt (norm_two (a - 1 * (a + b) + b, b - 1 * (b + a) + a)) (/ 10 ^ 7) = true) by (apply rlt_true; lra).
    Ltac two_step := cbv -[Rdiv Rinv rlt Req_EM_T Rmult Rplus Rminus IZR not newton_loop relax_loop norm_two pow].
    two_step. rewrite req_0'. two_step. rewrite newton_loop_step. two_step. rewrite relax_loop_stop by exact Q1. two_step.
    rewrite Q2. two_step. rewrite Q3. two_step. rewrite newton_loop_step. two_step. eexists. split; [reflexivity|]. split; reflexivity. }
  destruct E as (s' & E & Ex & Eb). cbv zeta. rewrite E. cbn [fst snd]. rewrite Ex, Eb. split; [reflexivity|]. split; [apply norm_zero; ring|].
  assert (K : residual_two (pack_two {| owned := (a - 1 * (a + b), b - 1 * (b + a)); ghosts := (b - 1 * (b + a), a - 1 * (a + b)) |}) = (- (a + b), - (a + b))) by (unfold residual_two, pack_two; cbn [fst snd owned ghosts]; f_equal; ring).
  rewrite K. split; [|apply norm_pos; lra]. unfold norm_two, residual_two, pack_two, two_start, init. cbn [fst snd owned ghosts]. f_equal. cbn. ring.
Qed.
Print Assumptions C88_convergence_with_stale_ghosts_refuted.

(** The hypotheses of the theorems above are met by this problem; with a callback that
    updates the ghosts first, C88_refreshing_callback applies to it. *)
Example C88_nonvacuous : exists cf rf, compute_coefficients two_ranks = Some cf /\ compute_residual two_ranks = Some rf /\
  (exists x y c, owned x = owned y /\ cf x c <> cf y c) /\
  let fresh := fun (x : iterate (R * R) (R * R)) c => cf {| owned := owned x; ghosts := ghost_values two_ranks (owned x) |} c in
  forall x y c, owned x = owned y -> fresh x c = fresh y c.
Proof.
  do 2 eexists. split; [reflexivity|]. split; [reflexivity|]. split.
  - exists {| owned := (0, 0); ghosts := (0, 0) |}, {| owned := (0, 0); ghosts := (1, 1) |}, ((0, 0), (0, 0)). split; [reflexivity|]. cbn. intros E. injection E. lra.
  - cbv zeta. intros [x1 x2] [y1 y2] c E. cbn in E. subst y1. reflexivity.
Qed.
