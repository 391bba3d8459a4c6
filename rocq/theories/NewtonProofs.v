(** Step lemmas for the Newton solver model. *)
From Coq Require Import List Arith Lia Bool Reals Lra.
Import ListNotations.
From Verif Require Import Prelude PreludeLemmas CropModel CandidatesProps NewtonModel.
Local Open Scope R_scope.

Definition half (k : nat) : R := / 2 ^ k.

Lemma half_S k : / 2 * half k = half (S k).
Proof. unfold half. cbn [pow]. rewrite Rinv_mult. reflexivity. Qed.
Lemma half_floor k : (k <= 6)%nat -> rlt (/ 2 * half k) (1 / 100) = (k =? 6)%nat.
Proof.
  intros H. rewrite half_S. unfold rlt, half.
  destruct k as [|[|[|[|[|[|[|k]]]]]]]; [| | | | | | |lia]; destruct (Rlt_dec _ _) as [r|r]; try reflexivity; exfalso; cbn [pow] in r; lra.
Qed.

Section Proofs.
  Context {O G B Mt C : Type}.
  Variable pb : problem O G B Mt C.
  Variable cf : iterate O G -> C -> C.
  Variable rf : iterate O G -> C -> B.
  Variable jf : iterate O G -> C -> Mt -> Mt.
  Hypothesis Hcf : compute_coefficients pb = Some cf.
  Hypothesis Hrf : compute_residual pb = Some rf.

  Notation state := (state O G B Mt C).

  Lemma bind_get {T U} (f : state -> T) (k : T -> run O G B Mt C U) s : bind (get f) k s = k (f s) s.
  Proof. reflexivity. Qed.
  Lemma bind_modify {U} f (k : unit -> run O G B Mt C U) s : bind (modify f) k s = k tt (f s).
  Proof. reflexivity. Qed.
  Lemma bind_ret {T U} (v : T) (k : T -> run O G B Mt C U) s : bind (ret v) k s = k v s.
  Proof. reflexivity. Qed.
  Lemma bind_raise {T U} e (k : T -> run O G B Mt C U) s : bind (raise e) k s = (Exn e, s).
  Proof. reflexivity. Qed.
  Lemma bind_emit {U} e (k : unit -> run O G B Mt C U) s : bind (emit e) k s = k tt (set_trace (trace s ++ [e]) s).
  Proof. reflexivity. Qed.
  Lemma bind_bind {T U V} (m : run O G B Mt C T) (k : T -> run O G B Mt C U) (k' : U -> run O G B Mt C V) s :
    bind (bind m k) k' s = bind m (fun v => bind (k v) k') s.
  Proof. unfold bind. destruct (m s) as [[v|e|] s']; reflexivity. Qed.
  Ltac steps := repeat (first [rewrite bind_get | rewrite bind_modify | rewrite bind_ret | rewrite bind_raise | rewrite bind_emit | rewrite bind_bind]; cbv beta).
  Lemma bind_Ret {T U} (m : run O G B Mt C T) (k : T -> run O G B Mt C U) v s s' : m s = (Ret v, s') -> bind m k s = k v s'.
  Proof. intros H. unfold bind. now rewrite H. Qed.

  Definition ghosted (o : O) : iterate O G := {| owned := o; ghosts := ghost_values pb o |}.

  (** State after moving to [o] and evaluating coefficients and residual there. *)
  Definition eval_state (o : O) (s : state) : state :=
    let x1 := {| owned := o; ghosts := ghosts (s_x s) |} in
    let c := cf x1 (s_coeffs s) in
    {| max_it := max_it s; rtol := rtol s; atol := atol s; criterion := criterion s; relaxation := relaxation s;
       error_on_nonconvergence := error_on_nonconvergence s; iteration := iteration s; krylov_iterations := krylov_iterations s;
       initial_residual := initial_residual s; residual := residual s; s_A := s_A s; s_b := rf (ghosted o) c; s_coeffs := c; s_dx := s_dx s;
       s_x := ghosted o; trace := (trace s ++ [EvCoef x1]) ++ [EvRes (ghosted o)] |}.

  (** The stored residual is the residual callback's value at the stored
      iterate (with its ghosts up to date) for the stored coefficients, which the
      coefficient callback computed at that iterate (up to its ghost values). *)
  Definition consistent (s : state) : Prop :=
    s_x s = ghosted (owned (s_x s)) /\ s_b s = rf (s_x s) (s_coeffs s) /\
    exists g c0, s_coeffs s = cf {| owned := owned (s_x s); ghosts := g |} c0.

  Lemma eval_consistent o s : consistent (eval_state o s).
  Proof. unfold consistent, eval_state. cbn [s_x s_b s_coeffs owned ghosted]. repeat split. do 2 eexists. reflexivity. Qed.

  (** Fields that an evaluation or a relaxation leaves alone. *)
  Definition same_options (s s' : state) : Prop :=
    max_it s' = max_it s /\ rtol s' = rtol s /\ atol s' = atol s /\ criterion s' = criterion s /\ error_on_nonconvergence s' = error_on_nonconvergence s.

  Lemma same_options_refl s : same_options s s.
  Proof. unfold same_options. auto. Qed.
  Lemma same_options_trans s1 s2 s3 : same_options s1 s2 -> same_options s2 s3 -> same_options s1 s3.
  Proof. unfold same_options. intros (a & b & c & d & e) (a' & b' & c' & d' & e'). repeat split; congruence. Qed.

  Lemma relax_body_break saved r k s : relaxation s = Some (half k) -> k = 6%nat ->
    relax_body pb saved r s = (Ret (true, r), set_relaxation (Some (half 6)) s).
  Proof.
    intros Hr ->. unfold relax_body, bind, get. rewrite Hr, half_floor by lia. cbn [Nat.eqb]. unfold modify, ret.
    do 3 f_equal. f_equal. unfold half. field.
  Qed.

  Lemma relax_body_step saved r k dx s : relaxation s = Some (half k) -> (k < 6)%nat -> s_dx s = Some dx ->
    let s' := eval_state (axpy pb (half (S k)) dx saved) (set_relaxation (Some (half (S k))) s) in
    relax_body pb saved r s = (Ret (false, normB pb (s_b s')), s').
  Proof.
    intros Hr Hk Hdx. cbv zeta. unfold relax_body, bind, get. rewrite Hr, half_floor by lia.
    destruct (Nat.eqb_spec k 6); [lia|]. rewrite half_S.
    unfold modify, update_solution, call_coefficients, call_residual, ghost_update, emit, bind, get, modify, ret.
    rewrite Hcf, Hrf. cbn [set_relaxation set_s_x relaxation s_dx]. rewrite Hdx. reflexivity.
  Qed.

  (** Points at which the residual was evaluated. *)
  Definition res_points (t : list (event O G B)) : list (iterate O G) :=
    flat_map (fun e => match e with EvRes x => [x] | _ => [] end) t.
  Lemma res_points_app a b : res_points (a ++ b) = res_points a ++ res_points b.
  Proof. unfold res_points. apply flat_map_app. Qed.

  Definition is_jac (e : event O G B) : bool := match e with EvJac _ => true | _ => false end.
  Definition is_ksp (e : event O G B) : bool := match e with EvKsp _ => true | _ => false end.

  (** The residual at [o], for coefficients computed there, exceeds [r]. *)
  Definition rejected (r : R) (o : O) : Prop := exists g c, r < normB pb (rf (ghosted o) (cf {| owned := o; ghosts := g |} c)).
  Lemma consistent_rejected r s : consistent s -> r < normB pb (s_b s) -> rejected r (owned (s_x s)).
  Proof. intros (G1 & G2 & g & c & G3) H. exists g, c. now rewrite <- G3, <- G1, <- G2. Qed.

  Lemma relax_loop_spec saved dx res_old :
    forall n k fuel s, (k + n = 6)%nat -> (n < fuel)%nat -> relaxation s = Some (half k) -> s_dx s = Some dx ->
      owned (s_x s) = axpy pb (half k) dx saved -> consistent s ->
      exists k' s' tr,
        relax_loop pb fuel saved res_old (normB pb (s_b s)) s = (Ret (normB pb (s_b s')), s') /\ (k <= k' <= 6)%nat /\
        relaxation s' = Some (half k') /\ owned (s_x s') = axpy pb (half k') dx saved /\ consistent s' /\
        (normB pb (s_b s') <= res_old \/ k' = 6%nat) /\ same_options s s' /\
        iteration s' = iteration s /\ initial_residual s' = initial_residual s /\ s_A s' = s_A s /\ s_dx s' = s_dx s /\
        krylov_iterations s' = krylov_iterations s /\
        trace s' = trace s ++ tr /\ res_points tr = map (fun j => ghosted (axpy pb (half j) dx saved)) (seq (S k) (k' - k)) /\
        filter is_jac tr = [] /\ filter is_ksp tr = [] /\ (forall j, (k <= j < k')%nat -> rejected res_old (axpy pb (half j) dx saved)).
  Proof.
    induction n as [|n IH]; intros k fuel s Hkn Hf Hr Hdx Hx Hc.
    - destruct fuel as [|fuel]; [lia|]. cbn [relax_loop]. destruct (rlt res_old (normB pb (s_b s))) eqn:E.
      + unfold bind. rewrite (relax_body_break _ _ k) by (auto; lia). cbn [fst snd ret].
        exists 6%nat, (set_relaxation (Some (half 6)) s), []. assert (k = 6%nat) as -> by lia. rewrite app_nil_r.
        split; [reflexivity|]. split; [lia|]. split; [reflexivity|]. split; [exact Hx|]. split; [exact Hc|]. split; [now right|]. split; [repeat split|]. repeat (split; [reflexivity|]). intros j Hj. lia.
      + exists k, s, []. rewrite app_nil_r, Nat.sub_diag. apply rlt_false in E. split; [reflexivity|]. split; [lia|]. split; [auto|]. split; [auto|]. split; [auto|].
        split; [left; lra|]. split; [apply same_options_refl|]. repeat (split; [reflexivity|]). intros j Hj. lia.
    - destruct fuel as [|fuel]; [lia|]. cbn [relax_loop]. destruct (rlt res_old (normB pb (s_b s))) eqn:E.
      + unfold bind. rewrite (relax_body_step saved _ k dx) by (auto; lia). cbn [fst snd].
        set (s1 := eval_state _ _).
        destruct (IH (S k) fuel s1) as (k' & s' & tr & H1 & H2 & H3 & H4 & H5 & H6 & H7 & H8 & H9 & H10 & H11 & H12 & H13 & H14 & H15 & H16 & H17);
          [lia|lia|reflexivity|exact Hdx|reflexivity|apply eval_consistent|].
        exists k', s', (EvCoef {| owned := axpy pb (half (S k)) dx saved; ghosts := ghosts (s_x s) |} :: EvRes (ghosted (axpy pb (half (S k)) dx saved)) :: tr).
        split; [exact H1|]. split; [lia|]. split; [auto|]. split; [auto|]. split; [auto|]. split; [auto|].
        split; [exact H7|]. split; [exact H8|]. split; [exact H9|]. split; [exact H10|]. split; [exact H11|]. split; [exact H12|].
        split; [rewrite H13; unfold s1, eval_state; cbn [trace set_relaxation]; now rewrite <- !app_assoc|].
        split; [|split; [exact H15|]; split; [exact H16|]; intros j Hj; destruct (Nat.eq_dec j k) as [->|]; [rewrite <- Hx; apply consistent_rejected; [exact Hc|now apply rlt_true in E]|apply H17; lia]].
        cbn [res_points flat_map app]. fold (res_points tr). rewrite H14. replace (k' - k)%nat with (S (k' - S k)) by lia. reflexivity.
      + exists k, s, []. rewrite app_nil_r, Nat.sub_diag. apply rlt_false in E. split; [reflexivity|]. split; [lia|]. split; [auto|]. split; [auto|]. split; [auto|].
        split; [left; lra|]. split; [apply same_options_refl|]. repeat (split; [reflexivity|]). intros j Hj. lia.
  Qed.

  (** The convergence test. *)
  Definition flag (nrm init rt at_ : R) : bool := (if Req_EM_T init 0 then false else rlt (nrm / init) rt) && rlt nrm at_.
  Lemma flag_true nrm init rt at_ : flag nrm init rt at_ = true -> init <> 0 /\ nrm / init < rt /\ nrm < at_.
  Proof.
    unfold flag. destruct (Req_EM_T init 0); [discriminate|]. intros H. apply andb_prop in H. destruct H as [H1 H2].
    apply rlt_true in H1. apply rlt_true in H2. auto.
  Qed.
  Lemma check_convergence_set nrm r s : relaxation s = Some r ->
    check_convergence pb nrm s = (Ret (nrm, flag nrm (initial_residual s) (rtol s) (atol s)), s).
  Proof. intros H. unfold check_convergence, bind, get. rewrite H. destruct (rank0 pb); reflexivity. Qed.

  Hypothesis Hjf : compute_jacobian pb = Some jf.

  Definition jac_of (s : state) : Mt := jf (s_x s) (s_coeffs s) (s_A s).
  Definition ksp_of (s : state) : O * nat * bool := ksp pb (s_x s) (s_coeffs s) (jac_of s) (s_b s).
  Definition dx_of (s : state) : O := fst (fst (ksp_of s)).

  (** A completed Newton step from [s] with step length 2^-k. *)
  Record newton_step (s : state) (res_old : R) (k : nat) (s' : state) : Prop := {
    ns_k : (k <= 6)%nat;
    ns_x : owned (s_x s') = axpy pb (half k) (dx_of s) (owned (s_x s));
    ns_consistent : consistent s';
    ns_decrease : normB pb (s_b s') <= res_old \/ k = 6%nat;
    ns_options : same_options s s';
    ns_iteration : iteration s' = S (iteration s);
    ns_initial : initial_residual s' = if (iteration s =? 0)%nat then normO pb (dx_of s) else initial_residual s;
    ns_A : s_A s' = jac_of s;
    ns_dx : s_dx s' = Some (dx_of s);
    ns_krylov : krylov_iterations s' = (krylov_iterations s + snd (fst (ksp_of s)))%nat;
    ns_relax : relaxation s' = Some (half k);
    ns_trace : exists tr, trace s' = trace s ++ [EvJac (s_x s); EvKsp (s_b s)] ++ tr /\
        res_points tr = map (fun j => ghosted (axpy pb (half j) (dx_of s) (owned (s_x s)))) (seq 0 (S k)) /\
        filter is_jac tr = [] /\ filter is_ksp tr = [];
    ns_rejected : forall j, (j < k)%nat -> rejected res_old (axpy pb (half j) (dx_of s) (owned (s_x s))) }.

  Definition step_result (s s' : state) : outcome (R * bool) :=
    match criterion s with
    | CResidual => Ret (normB pb (s_b s'), flag (normB pb (s_b s')) (initial_residual s') (rtol s) (atol s))
    | CIncremental => Ret (normB pb (s_b s'), if (iteration s =? 0)%nat then false else flag (normO pb (dx_of s)) (initial_residual s') (rtol s) (atol s))
    | COther => Exn ERuntime
    end.

  Lemma newton_body_spec fuel res_old s :
    (7 <= fuel)%nat ->
    (snd (ksp_of s) = true -> exists k s', newton_body pb fuel res_old s = (step_result s s', s') /\ newton_step s res_old k s') /\
    (snd (ksp_of s) = false -> exists s', newton_body pb fuel res_old s = (Exn EAssertion, s') /\ same_options s s' /\ iteration s' = iteration s /\
       trace s' = trace s ++ [EvJac (s_x s); EvKsp (s_b s)]).
  Proof.
    intros Hf. unfold newton_body. steps. rewrite Hjf. steps.
    cbn [set_relaxation set_trace set_s_A s_x s_coeffs s_A s_b owned trace].
    fold (jac_of s). fold (ksp_of s). fold (dx_of s).
    split; intros Hk; rewrite Hk; steps.
    2:{ eexists. split; [reflexivity|]. split; [repeat split|]. split; [reflexivity|]. cbn. now rewrite <- app_assoc. }
    set (s1 := set_krylov_iterations _ _).
    unfold update_solution at 1. steps.
    replace (relaxation s1) with (Some 1) by reflexivity. replace (s_dx s1) with (Some (dx_of s)) by reflexivity. steps.
    unfold call_coefficients at 1. rewrite Hcf. steps. unfold ghost_update at 1. steps. unfold call_residual at 1. rewrite Hrf. steps.
    set (s2 := set_s_b _ _).
    assert (Es2 : s2 = eval_state (axpy pb 1 (dx_of s) (owned (s_x s))) (set_iteration (iteration s + 1) s1)) by reflexivity.
    clearbody s2. subst s2. set (s2 := eval_state _ _).
    assert (H1 : half 0 = 1) by (unfold half; cbn; lra).
    destruct (relax_loop_spec (owned (s_x s)) (dx_of s) res_old 6 0 fuel s2)
      as (k & s3 & tr & E & K & R3 & X3 & C3 & D3 & O3 & I3 & In3 & A3 & DX3 & Kr3 & T3 & P3 & J3 & KS3 & RJ3);
      [lia|lia|rewrite H1; reflexivity|reflexivity|rewrite H1; reflexivity|apply eval_consistent|].
    rewrite (bind_Ret _ _ _ _ _ E). steps. rewrite I3.
    assert (Ei : iteration s2 = S (iteration s)) by (unfold s2; cbn; lia).
    rewrite Ei. change (S (iteration s) =? 1)%nat with (iteration s =? 0)%nat.
    set (s4 := if (iteration s =? 0)%nat then set_initial_residual (normO pb (dx_of s)) s3 else s3).
    assert (E4 : (if (iteration s =? 0)%nat then modify (set_initial_residual (normO pb (dx_of s))) else ret tt) s3 = (Ret tt, s4)) by (unfold s4; destruct (iteration s =? 0)%nat; reflexivity).
    rewrite (bind_Ret _ _ _ _ _ E4). steps.
    assert (Ho : same_options s s4).
    { apply (same_options_trans s s2); [repeat split|]. apply (same_options_trans s2 s3); auto. unfold s4. destruct (iteration s =? 0)%nat; repeat split. }
    destruct Ho as (Om & Ort & Oat & Oc & Oe). rewrite Oc.
    assert (R4 : relaxation s4 = Some (half k)) by (unfold s4; destruct (iteration s =? 0)%nat; exact R3).
    assert (B4 : s_b s4 = s_b s3) by (unfold s4; destruct (iteration s =? 0)%nat; reflexivity).
    assert (NS : forall v, newton_step s res_old k (set_residual v s4) /\ newton_step s res_old k s4).
    { assert (NS0 : newton_step s res_old k s4).
      { constructor; auto; try lia.
        - unfold s4; destruct (iteration s =? 0)%nat; exact X3.
        - unfold s4; destruct (iteration s =? 0)%nat; exact C3.
        - rewrite B4. exact D3.
        - now repeat split.
        - unfold s4; destruct (iteration s =? 0)%nat; cbn [iteration set_initial_residual]; now rewrite I3.
        - unfold s4; destruct (iteration s =? 0)%nat; [reflexivity|]. rewrite In3. reflexivity.
        - unfold s4; destruct (iteration s =? 0)%nat; cbn [s_A set_initial_residual]; rewrite A3; reflexivity.
        - unfold s4; destruct (iteration s =? 0)%nat; cbn [s_dx set_initial_residual]; rewrite DX3; reflexivity.
        - unfold s4; destruct (iteration s =? 0)%nat; cbn [krylov_iterations set_initial_residual]; rewrite Kr3; reflexivity.
        - exists (EvCoef {| owned := axpy pb 1 (dx_of s) (owned (s_x s)); ghosts := ghosts (s_x s) |} :: EvRes (ghosted (axpy pb 1 (dx_of s) (owned (s_x s)))) :: tr).
          replace (trace s4) with (trace s3) by (unfold s4; destruct (iteration s =? 0)%nat; reflexivity). rewrite T3.
          split; [unfold s2; cbn; now rewrite <- !app_assoc|].
          split; [|split; [exact J3|exact KS3]]. cbn [res_points flat_map app]. fold (res_points tr). rewrite P3, Nat.sub_0_r. cbn [seq map]. now rewrite H1.
        - intros j Hj. apply RJ3. lia. }
      intros v. split; [|exact NS0]. destruct NS0. constructor; auto. }
    exists k. unfold step_result. destruct (criterion s).
    - steps. rewrite (bind_Ret _ _ _ _ _ (check_convergence_set _ _ _ R4)). steps.
      exists (set_residual (normB pb (s_b s4)) s4). split; [|apply NS]. cbn [s_b set_residual initial_residual bind modify ret fst snd].
      unfold bind, modify, ret. rewrite B4, Ort, Oat. reflexivity.
    - destruct (iteration s =? 0)%nat eqn:Eit.
      + exists (set_residual 1 s4). split; [|apply NS]. unfold bind, modify, ret. cbn [s_b set_residual]. now rewrite B4.
      + steps. rewrite (bind_Ret _ _ _ _ _ (check_convergence_set _ _ _ R4)). steps.
        exists (set_residual (normO pb (dx_of s)) s4). split; [|apply NS]. unfold bind, modify, ret. cbn [s_b set_residual initial_residual].
        rewrite B4, Ort, Oat. reflexivity.
    - exists s4. split; [reflexivity|]. apply (NS 0).
  Qed.

  (** A sequence of completed Newton steps. *)
  Inductive newton_run : state -> R -> list (state * nat) -> state -> Prop :=
  | nr_nil s r : newton_run s r [] s
  | nr_cons s r k s1 l s' : newton_step s r k s1 -> newton_run s1 (normB pb (s_b s1)) l s' -> newton_run s r ((s, k) :: l) s'.

  Lemma newton_run_app s r l s1 k s2 : newton_run s r l s1 -> newton_step s1 (if l then r else normB pb (s_b s1)) k s2 -> newton_run s r (l ++ [(s1, k)]) s2.
  Proof.
    induction 1 as [s r|s r k0 s1 l s' H1 H2 IH]; intros H; cbn [app].
    - econstructor; [exact H|constructor].
    - econstructor; [exact H1|]. apply IH. destruct l; [inversion H2; subst; exact H|exact H].
  Qed.

  Lemma newton_run_options s r l s' : newton_run s r l s' -> same_options s s' /\ iteration s' = (iteration s + length l)%nat.
  Proof.
    induction 1 as [s r|s r k s1 l s' H1 H2 [IH1 IH2]]; [split; [apply same_options_refl|cbn; lia]|].
    destruct H1. split; [eapply same_options_trans; eauto|]. cbn [length]. lia.
  Qed.

  (** Why the loop ended. *)
  Inductive loop_end (s : state) (r : R) (conv0 : bool) : outcome bool -> list (state * nat) -> state -> Prop :=
  | le_start : conv0 = true -> loop_end s r conv0 (Ret true) [] s
  | le_conv l s1 k s' : conv0 = false -> newton_run s r l s1 -> newton_step s1 (if l then r else normB pb (s_b s1)) k s' ->
      (iteration s1 < max_it s)%nat ->
      step_result s1 s' = Ret (normB pb (s_b s'), true) -> loop_end s r conv0 (Ret true) (l ++ [(s1, k)]) s'
  | le_max l s' : conv0 = false -> newton_run s r l s' -> iteration s' = max_it s -> loop_end s r conv0 (Ret false) l s'
  | le_crit k s' : conv0 = false -> criterion s = COther -> newton_step s r k s' -> (iteration s < max_it s)%nat -> loop_end s r conv0 (Exn ERuntime) [(s, k)] s'
  | le_ksp l s1 s' : conv0 = false -> newton_run s r l s1 -> (iteration s1 < max_it s)%nat -> snd (ksp_of s1) = false -> same_options s s' -> iteration s' = iteration s1 ->
      trace s' = trace s1 ++ [EvJac (s_x s1); EvKsp (s_b s1)] -> loop_end s r conv0 (Exn EAssertion) l s'.

  Lemma newton_loop_spec fuel_in : (7 <= fuel_in)%nat -> forall fuel s r conv0,
    (iteration s <= max_it s)%nat -> (max_it s <= iteration s + fuel)%nat ->
    exists out l s', newton_loop pb fuel_in fuel r conv0 s = (out, s') /\ loop_end s r conv0 out l s'.
  Proof.
    intros Hf. induction fuel as [|fuel IH]; intros s r conv0 Hle Hm; cbn [newton_loop]; steps.
    - destruct conv0; cbn [negb andb].
      + exists (Ret true), [], s. split; [reflexivity|now constructor].
      + destruct (Nat.ltb_spec (iteration s) (max_it s)); [lia|]. exists (Ret false), [], s. split; [reflexivity|]. constructor; auto; [constructor|lia].
    - destruct conv0; cbn [negb andb].
      + exists (Ret true), [], s. split; [reflexivity|now constructor].
      + destruct (Nat.ltb_spec (iteration s) (max_it s)) as [Hlt|Hge].
        2:{ exists (Ret false), [], s. split; [reflexivity|]. constructor; auto; [constructor|lia]. }
        destruct (newton_body_spec fuel_in r s Hf) as [Hok Hbad].
        destruct (snd (ksp_of s)) eqn:Ek.
        2:{ destruct Hbad as (s' & E & Ho & Hi & Ht); auto. exists (Exn EAssertion), [], s'. split; [unfold bind; now rewrite E|].
            apply (le_ksp s r false [] s s'); auto. constructor. }
        destruct Hok as (k & s1 & E & NS); auto.
        pose proof (ns_options _ _ _ _ NS) as (Om & _ & _ & Oc & _). pose proof (ns_iteration _ _ _ _ NS) as Oi.
        unfold bind at 1. rewrite E. destruct (step_result s s1) as [[r1 c1]|e|] eqn:Es.
        * cbn [fst snd].
          assert (Er : r1 = normB pb (s_b s1)) by (unfold step_result in Es; destruct (criterion s); congruence). subst r1.
          destruct c1.
          -- exists (Ret true), ([] ++ [(s, k)]), s1. split.
             ++ destruct fuel; cbn [newton_loop]; steps; reflexivity.
             ++ apply le_conv; auto. constructor.
          -- destruct (IH s1 (normB pb (s_b s1)) false) as (out & l & s' & E' & LE); [lia|lia|].
             destruct LE as [Hc|l0 s2 k0 s' Hc Hr Hn Hi Hs|l s' Hc Hr Hi|k0 s' Hc Hcr Hn Hi|l s2 s' Hc Hr Hi Hk Hso Hit Htr].
             ++ congruence.
             ++ exists (Ret true), (((s, k) :: l0) ++ [(s2, k0)]), s'. split; [exact E'|].
                apply le_conv; auto; [econstructor; eauto| |lia]. destruct l0; [|auto]. inversion Hr; subst; auto.
             ++ exists (Ret false), ((s, k) :: l), s'. split; [exact E'|]. apply le_max; auto; [econstructor; eauto|lia].
             ++ exfalso. unfold step_result in Es. replace (criterion s) with COther in Es by congruence. discriminate.
             ++ exists (Exn EAssertion), ((s, k) :: l), s'. split; [exact E'|]. apply (le_ksp s r false ((s, k) :: l) s2 s'); auto; [econstructor; eauto|lia|].
                eapply same_options_trans; [exact (ns_options _ _ _ _ NS)|]. auto.
        * exists (Exn e), [(s, k)], s1. split; [reflexivity|]. unfold step_result in Es. destruct (criterion s) eqn:Ec; try discriminate. injection Es as <-. now constructor.
        * exfalso. unfold step_result in Es. destruct (criterion s); discriminate.
  Qed.

  Lemma newton_run_trace s r l s' : newton_run s r l s' -> exists tr, trace s' = trace s ++ tr /\
    length (filter is_jac tr) = length l /\ length (filter is_ksp tr) = length l /\ (length (res_points tr) <= 7 * length l)%nat.
  Proof.
    induction 1 as [s r|s r k s1 l s' H1 H2 (tr & E & J & K & P)]; [exists []; rewrite app_nil_r; auto|].
    destruct H1 as [Hk _ _ _ _ _ _ _ _ _ _ (tr1 & E1 & P1 & J1 & K1)].
    exists (([EvJac (s_x s); EvKsp (s_b s)] ++ tr1) ++ tr). split; [rewrite E, E1; now rewrite <- !app_assoc|].
    rewrite !filter_app, !app_length, J1, K1, J, K, !res_points_app, !app_length, P1, map_length, seq_length. cbn. repeat split; lia.
  Qed.

  Lemma newton_run_consistent s r l s' : newton_run s r l s' -> consistent s -> consistent s'.
  Proof. induction 1 as [|s r k s1 l s' H1 H2 IH]; auto. intros _. apply IH. exact (ns_consistent _ _ _ _ H1). Qed.

  (** State in which the loop of a run starts. *)
  Definition start_state (s : state) : state := eval_state (owned (s_x s)) (set_residual (-1) (set_krylov_iterations 0 (set_iteration 0 s))).

  Lemma eval_calls o s e1 e2 {T} (k : unit -> run O G B Mt C T) : owned (s_x s) = o ->
    bind (call_coefficients pb e1) (fun _ => bind (ghost_update pb) (fun _ => bind (call_residual pb e2) k)) s = k tt (eval_state o s).
  Proof.
    intros <-. unfold call_coefficients. rewrite Hcf. steps. unfold ghost_update. steps. unfold call_residual. rewrite Hrf. steps. f_equal. unfold eval_state, ghosted. destruct s as [? ? ? ? ? ? ? ? ? ? ? ? ? ? [o g] ?]. reflexivity.
  Qed.

  Definition final (s' : state) (conv : bool) : outcome (nat * bool) :=
    if conv then Ret (iteration s', true) else if error_on_nonconvergence s' then Exn ERuntime else Ret (iteration s', false).

  Definition conv_at_start (s : state) : bool :=
    match criterion s with
    | CResidual => flag (normB pb (s_b (start_state s))) (initial_residual s) (rtol s) (atol s)
    | _ => false
    end.

  Definition enter_state (s : state) : state :=
    match criterion s with CResidual => set_residual (normB pb (s_b (start_state s))) (start_state s) | _ => start_state s end.

  (** How a run ends. *)
  Inductive solve_end (s : state) : outcome (nat * bool) -> list (state * nat) -> state -> Prop :=
  | se_loop conv l s' : criterion s <> COther -> (criterion s = CResidual -> rank0 pb = true -> relaxation s <> None) ->
      loop_end (enter_state s) (normB pb (s_b (start_state s))) (conv_at_start s) (Ret conv) l s' -> solve_end s (final s' conv) l s'
  | se_ksp l s' : criterion s <> COther -> (criterion s = CResidual -> rank0 pb = true -> relaxation s <> None) ->
      loop_end (enter_state s) (normB pb (s_b (start_state s))) (conv_at_start s) (Exn EAssertion) l s' -> solve_end s (Exn EAssertion) l s'
  | se_unset : criterion s = CResidual -> rank0 pb = true -> relaxation s = None -> solve_end s (Exn EAttribute) [] (start_state s)
  | se_crit : criterion s = COther -> solve_end s (Exn EValue) [] (start_state s).

  Lemma enter_fields s : criterion (enter_state s) = criterion s /\ max_it (enter_state s) = max_it s /\ iteration (enter_state s) = 0%nat /\
    rtol (enter_state s) = rtol s /\ atol (enter_state s) = atol s /\ error_on_nonconvergence (enter_state s) = error_on_nonconvergence s /\
    initial_residual (enter_state s) = initial_residual s /\ s_b (enter_state s) = s_b (start_state s) /\ s_x (enter_state s) = s_x (start_state s) /\
    s_coeffs (enter_state s) = s_coeffs (start_state s) /\ trace (enter_state s) = trace (start_state s).
  Proof. unfold enter_state. destruct (criterion s) eqn:E; cbn; auto 20. Qed.

  Lemma solve_once_spec fuel s : (max_it s + 7 <= fuel)%nat ->
    exists out l s', solve_once pb fuel s = (out, s') /\ solve_end s out l s'.
  Proof.
    intros Hf. unfold solve_once. steps. rewrite (eval_calls (owned (s_x s))) by reflexivity. steps. fold (start_state s).
    change (criterion (start_state s)) with (criterion s).
    assert (Loop : criterion s <> COther -> (criterion s = CResidual -> rank0 pb = true -> relaxation s <> None) ->
      exists out l s', bind (newton_loop pb fuel fuel (normB pb (s_b (start_state s))) (conv_at_start s))
        (fun conv => bind (get error_on_nonconvergence) (fun err => bind (if conv then ret tt else if err then raise ERuntime else ret tt)
           (fun _ => bind (get iteration) (fun it => ret (it, conv))))) (enter_state s) = (out, s') /\ solve_end s out l s').
    { intros H1 H2. destruct (enter_fields s) as (F1 & F2 & F3 & _).
      destruct (newton_loop_spec fuel ltac:(lia) fuel (enter_state s) (normB pb (s_b (start_state s))) (conv_at_start s)) as (out & l & s' & E & LE); [lia|lia|].
      assert (Hout : (exists conv, out = Ret conv) \/ out = Exn EAssertion).
      { inversion LE; subst; eauto. congruence. }
      destruct Hout as [[conv ->] | ->].
      - exists (final s' conv), l, s'. split; [|now constructor].
        rewrite (bind_Ret _ _ _ _ _ E). steps. unfold final. destruct conv; steps; [reflexivity|]. destruct (error_on_nonconvergence s'); reflexivity.
      - exists (Exn EAssertion), l, s'. split; [|now constructor]. unfold bind at 1. rewrite E. reflexivity. }
    destruct (criterion s) eqn:Ec; steps.
    - destruct (rank0 pb) eqn:E0; [destruct (relaxation s) eqn:Er|].
      + rewrite (bind_Ret _ _ _ _ _ (check_convergence_set _ r (start_state s) Er)). steps.
        unfold conv_at_start, enter_state in Loop. rewrite Ec in Loop. apply Loop; congruence.
      + exists (Exn EAttribute), [], (start_state s). split; [|now constructor].
        unfold check_convergence. steps. rewrite E0. change (relaxation (start_state s)) with (relaxation s). rewrite Er. reflexivity.
      + unfold check_convergence. steps. rewrite E0. steps.
        unfold conv_at_start, enter_state in Loop. rewrite Ec in Loop. apply Loop; congruence.
    - unfold conv_at_start, enter_state in Loop. rewrite Ec in Loop. apply Loop; congruence.
    - exists (Exn EValue), [], (start_state s). split; [reflexivity|now constructor].
  Qed.
End Proofs.
