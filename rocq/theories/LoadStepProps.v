(** C127: the load steps of the two-sided problem. *)
From Coq Require Import List Arith ZArith Lia Bool Reals Lra.
Import ListNotations.
From Verif Require Import Prelude PreludeLemmas RSum RealLemmas LayoutModel LayoutProps ContactProblemModel ContactProblemProps.
From Verif Require Import EntitiesModel PackingModel PackUProps AssemblyModel AssemblyProofs AssemblyProps RayModel KernelModel KernelProofs KernelSpec
  ElasticityProps ContactKernelModel ContactKernelSpec ContactKernelProps FrictionKernelProps CoefficientsModel CoefficientsProps SystemSpec TieSystemModel TieSystemProofs TieSystemProps
  TieWeakProps ContactWeakProps ContactSystemModel ContactSystemSpec ContactSystemProofs ContactSystemProps SystemWeakProps TieFormProps
  ContactFormProps ContactEnergyProps MonotoneProps UniqueProps FixedPointProofs ExistenceProps OneSidedModel NewtonModel NewtonProofs NewtonProps NewtonHistoryProps OneSidedSystemModel OneSidedSystemProps OneSidedSolveModel OneSidedSolveProps
  RigidSolveProps LoadStepModel.
Local Open Scope R_scope.

Section Load.
  Context {G : Type} (pd : pack_data) (kd : kernel_data) (num_pairs : nat) (surfaces : nat -> tie_pair) (basis : G -> (nat -> list Z) -> nat -> nat -> nat -> R)
    (num_rows : nat -> nat) (move : G -> list R -> G) (detect : G -> nat -> list Z) (pack_gap pack_normals : nat -> G -> (nat -> list Z) -> list (list R))
    (pack_param : nat -> list R -> list (list R)) (pack_h : nat -> list (list R)).
  Context (kernels mkernels : list kernel_fn) (form_vector : nat -> list R -> list R -> list R) (form_matrix : nat -> list R -> list R -> list insertion)
    (linear_solve : list insertion -> list R -> list R * nat * bool) (rank : bool).
  Notation nq := (pd_nq pd).
  Notation nd := (pd_functions pd).
  Notation bs := (pd_bs pd).
  Notation gdim := (pd_gdim pd).
  Notation after := (contact_after pd num_pairs surfaces basis num_rows move detect pack_gap pack_normals pack_param pack_h).
  Notation updated := (contact_updated pd num_pairs surfaces basis num_rows).
  Notation pairs s := (pair_at pd surfaces basis (cp_geom s) (cp_map s)).
  Notation strides := (contact_kernel_strides nq nd gdim gdim nq).
  Notation kd' := (with_strides kd strides).
  Notation calls_of := (list (@call (list R) (nat -> list Z))).
  Notation load_state := (@load_state G).
  Notation solver := (state (list R) unit (list R) (list insertion) load_state).
  Notation pb i u := (load_problem pd num_pairs surfaces basis num_rows kernels mkernels form_vector form_matrix linear_solve rank i u).
  Notation step := (load_step pd num_pairs surfaces basis num_rows move detect pack_gap pack_normals kernels mkernels form_vector form_matrix linear_solve rank).
  Notation loop := (load_loop pd num_pairs surfaces basis num_rows move detect pack_gap pack_normals kernels mkernels form_vector form_matrix linear_solve rank).
  Notation cf := (fun (x : iterate (list R) unit) (st : load_state) => load_coefficients pd num_pairs surfaces basis num_rows (owned x) st).
  Notation rf i u := (fun (x : iterate (list R) unit) (st : load_state) => load_residual pd num_pairs surfaces basis kernels form_vector i u (owned x) st).
  Notation jf i u := (fun (_ : iterate (list R) unit) (st : load_state) (_ : list insertion) => load_jacobian pd num_pairs surfaces basis mkernels form_matrix i u st).
  (** The contact object and the increment seen by the solver; the residual of the step as a
      function of the increment: contact object updated with it, bodies loaded with it. *)
  Notation object s := (ls_problem (s_coeffs s)).
  Notation F i u p := (fun v => contact_vector pd num_pairs surfaces basis kernels (updated v p) (form_vector i u v)).
  Definition plus_increment (u du : list R) : list R := map (fun d => nth d u 0 + nth d du 0) (seq 0 (length u)).

  Lemma updated_again g (calls : calls_of) x y : updated x (updated y (after g calls)) = updated x (after g calls).
  Proof using Type.
    apply (C49_last_increment_only move detect pack_gap pack_normals (cp_pack_test pd surfaces basis) (cp_pack_u pd surfaces num_rows) (cp_pack_grad pd surfaces num_rows) (cp_pack_u_opp pd surfaces basis) pack_param pack_h num_pairs num_rows). exists g, calls. reflexivity.
  Qed.

  (** *** During a solve *)
  Definition up_to_date (p : @cp_state G (nat -> list Z)) (c : load_state) : Prop := ls_problem c = updated (ls_du c) p.
  Definition some_data (p : @cp_state G (nat -> list Z)) (c : load_state) : Prop := ls_problem c = p \/ exists y, ls_problem c = updated y p.
  Lemma coefficients_fresh g (calls : calls_of) x c : some_data (after g calls) c -> up_to_date (after g calls) (load_coefficients pd num_pairs surfaces basis num_rows x c).
  Proof using Type.
    unfold up_to_date, load_coefficients. cbn [ls_problem ls_du]. intros [->|[y ->]]; [reflexivity|apply updated_again].
  Qed.
  Lemma load_solve_keeps i u g (calls : calls_of) fuel s : object s = after g calls -> up_to_date (after g calls) (s_coeffs (snd (solve_once (pb i u) fuel s))).
  Proof using Type.
    intros H. apply (solve_keeps (pb i u) cf eq_refl (up_to_date (after g calls)) (some_data (after g calls))).
    - intros x c. apply coefficients_fresh.
    - intros c Hc. right. exists (ls_du c). exact Hc.
    - left. exact H.
  Qed.
  Lemma load_solve_length i u fuel s n c s' : (max_it s + 7 <= fuel)%nat -> solve_once (pb i u) fuel s = (Ret (n, c), s') -> length (owned (s_x s')) = length (owned (s_x s)).
  Proof using Type.
    intros Hf E0. destruct (C44_line_search (pb i u) cf (rf i u) (jf i u) eq_refl eq_refl eq_refl s fuel _ s' Hf E0 ltac:(discriminate)) as (st & ks & _ & _ & X0 & XL & _ & ST).
    rewrite <- X0, <- XL at 1.
    assert (K : forall j, (j <= iteration s')%nat -> length (owned (s_x (nth j st s'))) = length (owned (s_x (nth 0 st s')))).
    { induction j as [|j IH]; intros Hj; [reflexivity|]. destruct (ST j ltac:(lia)) as (_ & X & _). cbv zeta in X. rewrite X. cbn [axpy load_problem]. rewrite vector_axpy_length. apply IH. lia. }
    now apply K.
  Qed.
  Lemma load_solve_inv i u fuel s v s' : (max_it s + 7 <= fuel)%nat -> solve (pb i u) fuel false s = (Ret v, s') ->
    exists s1, solve_once (pb i u) fuel s = (Ret v, s1) /\ s_coeffs s' = s_coeffs s1 /\ owned (s_x s') = owned (s_x s1) /\ same_options s s'.
  Proof using Type.
    intros Hf. unfold solve, bind. destruct (solve_once (pb i u) fuel s) as [[w|e|] s1] eqn:E1.
    - unfold ghost_update, modify, ret. intros H. injection H as <- <-. exists s1. split; [reflexivity|]. split; [reflexivity|]. split; [reflexivity|].
      destruct (solve_once_spec (pb i u) cf (rf i u) (jf i u) eq_refl eq_refl eq_refl fuel s Hf) as (out & l & s2 & E2 & SE). rewrite E1 in E2. injection E2 as <- <-.
      destruct (solve_end_effect (pb i u) cf (rf i u) (jf i u) s _ l s1 SE) as (SO & _). exact SO.
    - destruct e; try discriminate. destruct (solve_once (pb i u) fuel s1) as [[w|e|] s2]; discriminate.
    - discriminate.
  Qed.

  Notation finish := (finish_step pd num_pairs surfaces basis num_rows move detect pack_gap pack_normals).
  Lemma load_step_inv i u s c r : step i (u, s) = Ret (c, r) -> exists n s2, solve (pb i u) (max_it s + 7) false s = (Ret (n, c), s2) /\ r = finish u s2.
  Proof using Type.
    unfold load_step. generalize (solve (pb i u) (max_it s + 7) false s). intros [[[n c']|e|] s2] E; try discriminate. exists n, s2.
    assert (E' : (c', finish u s2) = (c, r)) by congruence. generalize dependent (finish u s2). intros f _ E'. injection E' as -> ->. split; reflexivity.
  Qed.
  Lemma finish_fields u (s : solver) : let u' := plus_increment u (owned (s_x s)) in let s' := snd (finish u s) in
    fst (finish u s) = u' /\ owned (s_x s') = map (fun x => 1 / 10 * x) (owned (s_x s)) /\ ls_du (s_coeffs s') = owned (s_x s') /\
    (forall g (calls : calls_of), object s = after g calls -> object s' = after g (calls ++ [CallDetection u'; CallUpdateData (owned (s_x s'))])) /\ same_options s s'.
  Proof using Type.
    intros u' s'. assert (EU : fst (finish u s) = u'). { unfold u', plus_increment, finish_step, vector_axpy. cbn [fst]. apply map_ext. intros d. ring. }
    split; [exact EU|]. split; [reflexivity|]. split; [reflexivity|]. split; [|repeat split].
    intros g calls H. unfold contact_after, run_calls. rewrite fold_left_app. unfold contact_after, run_calls in H. rewrite <- H. cbn [fold_left do_call].
    rewrite <- EU. unfold s', finish_step, load_coefficients, contact_updated. cbn [fst snd s_coeffs set_s_x set_s_A set_s_coeffs ls_problem s_x owned]. reflexivity.
  Qed.

  (** *** C127 *)
  (** No step runs for ever. *)
  Theorem C127_ends : forall k start, loop k start <> OutOfFuel.
  Proof using Type.
    induction k as [|k IH]; intros start; cbn [load_loop]; [discriminate|]. specialize (IH start). destruct (loop k start) as [[u s]|e|]; [|discriminate|contradiction].
    unfold load_step. destruct (solve (pb k u) (max_it s + 7) false s) as [[[n c]|e|] s'] eqn:E0; [discriminate|discriminate|].
    destruct (C42_solve_terminates (pb k u) cf (rf k u) (jf k u) eq_refl eq_refl eq_refl s _ false _ s' (le_n _) E0) as [X _]. congruence.
  Qed.

  (** A step is the calls update_contact_data, update_contact_detection, update_contact_data on
      the contact object: the detection with the new displacement, the last update with a tenth of
      the increment.  The options of the solver stay. *)
  Theorem C127_step_history :
    forall i u (s : solver) converged u' s' g (calls : calls_of), step i (u, s) = Ret (converged, (u', s')) -> object s = after g calls ->
      exists packed du, u' = plus_increment u du /\ length du = length (owned (s_x s)) /\ owned (s_x s') = map (fun x => 1 / 10 * x) du /\ ls_du (s_coeffs s') = owned (s_x s') /\
        object s' = after g (calls ++ [CallUpdateData packed; CallDetection u'; CallUpdateData (owned (s_x s'))]) /\ same_options s s'.
  Proof using Type.
    intros i u s converged u' s' g calls E Hs. destruct (load_step_inv _ _ _ _ _ E) as (n & s2 & E0 & Er). destruct (load_solve_inv i u _ _ _ _ (le_n _) E0) as (s1 & E1 & Ec & Ex & SO).
    pose proof (load_solve_keeps i u g calls (max_it s + 7) s Hs) as FR. rewrite E1 in FR. cbn [snd] in FR. unfold up_to_date in FR. rewrite <- Ec in FR.
    destruct (finish_fields u s2) as (F1 & F2 & F3 & F4 & F5). rewrite <- Er in F1, F2, F3, F4, F5. cbn [fst snd] in F1, F2, F3, F4, F5. rewrite <- F1 in F4.
    exists (ls_du (s_coeffs s2)), (owned (s_x s2)). split; [exact F1|]. split; [rewrite Ex; apply (load_solve_length _ _ _ _ _ _ _ (le_n _) E1)|]. split; [exact F2|]. split; [exact F3|]. split; [|exact (same_options_trans _ _ _ SO F5)].
    rewrite (F4 g (calls ++ [CallUpdateData (ls_du (s_coeffs s2))])); [now rewrite <- app_assoc|].
    rewrite FR. unfold contact_after, run_calls, contact_updated. rewrite fold_left_app. reflexivity.
  Qed.

  (** The solver of a step returned with the flag set (residual criterion): there is exactly one
      increment with zero residual, and the new displacement is closer than atol / alpha to the old
      one plus this increment, whatever the linear solver did. *)
  Theorem C127_step_is_close :
    forall (law : friction_law) (g : G) (calls : calls_of) (i : nat) (u : list R) (s : solver) (u' : list R) (s' : solver) (alpha K : R),
      let p := after g calls in
      let n := length (owned (s_x s)) in
      let gamma := nth 0 (constants_of p) 0 in
      let theta := nth 1 (constants_of p) 0 in
      object s = p -> length u = n -> criterion s = CResidual ->
      law <> Coulomb ->
      Forall no_crop calls -> cp_ready p = true -> (forall j, (num_local surfaces j <= num_rows j)%nat) ->
      tie_setting pd kd num_pairs (pairs p) nq -> bs = gdim ->
      generated kd' (vector_kinds law) kernels -> 0 < gamma ->
      (forall j e, (j < num_pairs)%nat -> (e < num_local surfaces j)%nat -> 0 <= stored_friction pd p j e /\ 0 < stored_h pd p j e) ->
      (forall j e q, (j < num_pairs)%nat -> (e < num_local surfaces j)%nat -> In q (points_of (pr_asm (pairs p j)) e) -> 0 <= interface_weight kd (pairs p j) e q) ->
      (forall v, length (form_vector i u v) = length v) ->
      0 < alpha -> 0 <= K ->
      (forall v w, length v = n -> length w = n ->
         alpha * rsum n (fun d => nth d w 0 * nth d w 0) + (1 + theta) * (1 + theta) / 4 * surface_traction pd kd num_pairs (pairs p) law gamma p w <= applied (form_vector i u (moved v w 1)) w - applied (form_vector i u v) w) ->
      (forall v w, length v = n -> length w = n -> distance2 n (form_vector i u w) (form_vector i u v) <= K * distance2 n w v) ->
      step i (u, s) = Ret (true, (u', s')) ->
      exists solution, length solution = n /\ F i u p solution = repeat 0 n /\ (forall v, length v = n -> F i u p v = repeat 0 n -> v = solution) /\
        length u' = n /\ sqrt (distance2 n u' (plus_increment u solution)) < atol s / alpha.
  Proof.
    intros law g calls i u s u' s' alpha K p n gamma theta Hs Lu EC HL HC HR HB TS Hg HK Hw H HW LB Ha K0 ST LIP E.
    set (FF := F i u p).
    assert (LF : forall v, length (FF v) = length v) by (intros v; rewrite <- (LB v); apply (contact_vector_length pd kd num_pairs surfaces basis num_rows move detect pack_gap pack_normals pack_param pack_h law g calls v (form_vector i u v) kernels HR TS HK)).
    destruct (C120_exactly_one_solution pd kd num_pairs surfaces basis num_rows move detect pack_gap pack_normals pack_param pack_h law g calls kernels (form_vector i u) n (fun _ => false) (repeat 0 n) (repeat 0 n) alpha K HL HC HR HB TS Hg HK Hw H HW LB (repeat_length _ _) Ha K0) as (us & SOL & UN & _).
    { intros v w Lv Lw _. now apply ST. }
    { exact LIP. }
    destruct SOL as (Ls & _ & Zs). fold p in Zs. change (forall d, (d < n)%nat -> false = false -> nth d (FF us) 0 = nth d (repeat 0 n) 0) in Zs.
    assert (ZF : FF us = repeat 0 n).
    { apply (nth_ext _ _ 0 0); [rewrite LF, repeat_length; exact Ls|]. intros d Hd. rewrite LF, Ls in Hd. now apply Zs. }
    exists us. split; [exact Ls|]. split; [exact ZF|]. split.
    { intros v Lv Zv. apply UN. split; [exact Lv|]. split; [discriminate|]. intros d _ _. fold p. change (nth d (FF v) 0 = nth d (repeat 0 n) 0). now rewrite Zv. }
    destruct (load_step_inv _ _ _ _ _ E) as (k & s2 & E0 & Er). assert (Eu : u' = vector_axpy (-1) (owned (s_x s2)) u) by (exact (f_equal fst Er)). destruct (load_solve_inv i u _ _ _ _ (le_n _) E0) as (s1 & E1 & _ & Ex & _).
    destruct (C43_residual_flag_truthful (pb i u) cf (rf i u) (jf i u) eq_refl eq_refl eq_refl s _ k s1 (le_n _) EC E1) as (_ & Eb & (gh & c0 & Ecs) & NB & _).
    pose proof (load_solve_length i u _ _ _ _ _ (le_n _) E1) as Ln. fold n in Ln.
    pose proof (load_solve_keeps i u g calls (max_it s + 7) s Hs) as FR. rewrite E1 in FR. cbn [snd] in FR. unfold up_to_date in FR. fold p in FR.
    assert (UX : ls_du (s_coeffs s1) = owned (s_x s1)) by (rewrite Ecs; reflexivity). rewrite UX in FR.
    rewrite Ex in Eu. set (v := owned (s_x s1)) in *.
    assert (Lu' : length u' = n) by (subst u'; rewrite vector_axpy_length; exact Lu). split; [exact Lu'|].
    (* The contact forces assembled into zeros and the bodies added afterwards: the same vector. *)
    assert (RE : s_b s1 = FF v).
    { rewrite Eb. cbv beta. unfold load_residual. rewrite FR, UX. fold v.
      assert (LC : forall b, length (contact_vector pd num_pairs surfaces basis kernels (updated v p) b) = length b) by (intros b; apply (contact_vector_length pd kd num_pairs surfaces basis num_rows move detect pack_gap pack_normals pack_param pack_h law g calls v b kernels HR TS HK)).
      apply (nth_ext _ _ 0 0); [rewrite map_length, seq_length, LC, repeat_length, LF; reflexivity|]. intros d Hd. rewrite map_length, seq_length, LC, repeat_length in Hd.
      rewrite (nth_map_lt _ _ d 0 0%nat) by (now rewrite seq_length, LC, repeat_length). rewrite seq_nth by (now rewrite LC, repeat_length). cbn [Nat.add].
      set (e := map (fun k => if (k =? d)%nat then 1 else 0) (seq 0 (length v))).
      assert (Le : length e = length v) by (unfold e; now rewrite map_length, seq_length).
      assert (AU : forall b, length b = length v -> applied b e = nth d b 0).
      { intros b Lb. unfold applied. rewrite Lb, <- (rsum_delta (length v) d (fun k => nth k b 0) Hd). apply rsum_ext. intros m Hm. unfold e. rewrite (nth_map_lt _ _ _ _ 0%nat) by (now rewrite seq_length). rewrite seq_nth by exact Hm. cbn [Nat.add]. ring. }
      pose proof (C107_residual_is_functional pd kd num_pairs surfaces basis num_rows move detect pack_gap pack_normals pack_param pack_h law g calls v e (repeat 0 (length v)) kernels HC HR HB TS Hg ltac:(now rewrite repeat_length) HK Hw H) as X1.
      pose proof (C107_residual_is_functional pd kd num_pairs surfaces basis num_rows move detect pack_gap pack_normals pack_param pack_h law g calls v e (form_vector i u v) kernels HC HR HB TS Hg ltac:(now rewrite LB) HK Hw H) as X2.
      fold p in X1, X2. rewrite !AU in X1 by (rewrite ?LC, ?repeat_length; reflexivity). rewrite !AU in X2 by (rewrite ?LC; apply LB). rewrite nth_repeat_0 in X1. unfold FF. cbv beta. rewrite X1, X2. ring. }
    rewrite RE in NB. cbn [normB load_problem] in NB.
    pose proof (C110_continuous_in_the_loads pd kd num_pairs surfaces basis num_rows move detect pack_gap pack_normals pack_param pack_h law g calls us v (repeat 0 n) (FF v) kernels (form_vector i u) (fun _ => False) alpha HL HC HR HB TS Hg HK Hw H HW LB ltac:(congruence) Ha) as CL.
    cbv zeta in CL. rewrite Ls in CL. specialize (CL ltac:(intros w Lw _; apply ST; assumption) ltac:(contradiction)).
    assert (CE : alpha * alpha * distance2 n v us <= distance2 n (FF v) (repeat 0 n)).
    { apply CL; intros d _; [fold p; change (nth d (FF us) 0 = nth d (repeat 0 n) 0); now rewrite ZF|reflexivity]. }
    assert (D1 : distance2 n u' (plus_increment u us) = distance2 n v us).
    { subst u'. apply rsum_ext. intros d Hd. unfold plus_increment, vector_axpy. rewrite !(nth_map_lt _ _ d 0 0%nat) by (rewrite seq_length; lia). rewrite seq_nth by lia. cbn [Nat.add]. ring. }
    assert (D2 : distance2 n (FF v) (repeat 0 n) = rsum n (fun d => nth d (FF v) 0 * nth d (FF v) 0)) by (apply rsum_ext; intros d _; rewrite nth_repeat_0; ring).
    rewrite D1. rewrite D2 in CE. unfold norm2 in NB. rewrite LF, Ln in NB.
    apply (Rmult_lt_reg_l alpha); [exact Ha|]. replace (alpha * (atol s / alpha)) with (atol s) by (field; lra).
    refine (Rle_lt_trans _ _ _ _ NB). rewrite <- (sqrt_square alpha) at 1 by lra. rewrite <- sqrt_mult; [now apply sqrt_le_1_alt|apply Rle_0_sqr|].
    unfold distance2. apply rsum_nonneg. intros. apply Rle_0_sqr.
  Qed.

  (** Any number of steps from a contact object with any history: its state is again that of a
      history without cropping, the options and the number of degrees of freedom stay, so that the
      theorem above applies to the next step. *)
  Theorem C127_every_step :
    forall k u0 (s0 : solver) u s g (calls : calls_of), loop k (u0, s0) = Ret (u, s) -> object s0 = after g calls -> Forall no_crop calls ->
      exists more, object s = after g (calls ++ more) /\ Forall no_crop (calls ++ more) /\ length more = (3 * k)%nat /\
        cp_ready (after g (calls ++ more)) = cp_ready (after g calls) /\ constants_of (after g (calls ++ more)) = constants_of (after g calls) /\
        same_options s0 s /\ length (owned (s_x s)) = length (owned (s_x s0)) /\ length u = length u0.
  Proof using Type.
    induction k as [|k IH]; intros u0 s0 u s g calls E Hs HC.
    - cbn [load_loop] in E. injection E as <- <-. exists []. rewrite app_nil_r. repeat split; auto.
    - cbn [load_loop] in E. destruct (loop k (u0, s0)) as [[u1 s1]|e|] eqn:E1; try discriminate.
      destruct (IH _ _ _ _ g calls E1 Hs HC) as (more & O1 & C1 & L1 & R1 & K1 & P1 & X1 & U1).
      destruct (step k (u1, s1)) as [[c [u2 s2]]|e|] eqn:E2; try discriminate. injection E as -> ->.
      destruct (C127_step_history _ _ _ _ _ _ g _ E2 O1) as (y & du & Eu & Ld & Ex & _ & O2 & P2).
      exists (more ++ [CallUpdateData y; CallDetection u; CallUpdateData (owned (s_x s))]). rewrite app_assoc.
      split; [exact O2|]. split; [apply Forall_app; split; [exact C1|repeat constructor]|]. split; [rewrite app_length, L1; cbn; lia|].
      assert (RC : cp_ready (after g ((calls ++ more) ++ [CallUpdateData y; CallDetection u; CallUpdateData (owned (s_x s))])) = cp_ready (after g (calls ++ more)) /\
                   cp_consts (after g ((calls ++ more) ++ [CallUpdateData y; CallDetection u; CallUpdateData (owned (s_x s))])) = cp_consts (after g (calls ++ more))).
      { set (a := calls ++ more). clearbody a. unfold contact_after, run_calls. rewrite fold_left_app. set (st := fold_left _ a _). clearbody st. cbn [fold_left do_call].
        unfold update_data, update_detection. destruct (cp_ready st) eqn:RS; cbn [negb cp_ready cp_consts]; rewrite ?RS; cbn [negb cp_ready cp_consts]; auto. }
      split; [rewrite (proj1 RC); exact R1|]. split; [rewrite <- K1; unfold constants_of; now rewrite (proj2 RC)|].
      split; [exact (same_options_trans _ _ _ P1 P2)|]. split; [rewrite Ex, map_length, Ld; exact X1|]. rewrite Eu. unfold plus_increment. rewrite map_length, seq_length. exact U1.
  Qed.
End Load.
Print Assumptions C127_ends.
Print Assumptions C127_step_history.
Print Assumptions C127_step_is_close.
Print Assumptions C127_every_step.
