(** C131: prescribed displacement over the load steps. *)
From Coq Require Import List Arith ZArith Lia Bool Reals Lra.
Import ListNotations.
From Verif Require Import Prelude PreludeLemmas RSum RealLemmas LayoutModel LayoutProps ContactProblemModel ContactProblemProps.
From Verif Require Import EntitiesModel PackingModel PackUProps AssemblyModel AssemblyProofs AssemblyProps CoefficientsModel SystemSpec TieSystemModel ContactSystemModel
  OneSidedModel NewtonModel NewtonProofs NewtonProps NewtonHistoryProps OneSidedSystemModel OneSidedSystemProps OneSidedSolveModel OneSidedSolveProps RigidSolveProps LoadStepModel LoadStepProps LiftModel LiftProps LiftStepModel.
Local Open Scope R_scope.

(** *** Assembly keeps the length of the vector, whatever the tables *)
Lemma assemble_vector_keeps_length a kernel cf st cst b : length (assemble_vector a kernel cf st cst b) = length b.
Proof.
  unfold assemble_vector. enough (X : forall m s, length (fst (for_loop m (vector_facet a kernel cf st cst) (b, s))) = length b) by apply X.
  induction m as [|m IH]; intros s; [reflexivity|]. rewrite for_loop_S, <- (IH s). generalize (for_loop m (vector_facet a kernel cf st cst) (b, s)). intros [b' s']. unfold vector_facet. cbn [fst snd].
  match goal with |- length (for_loop ?k ?f ?b1) = _ => assert (Y : forall n, length (for_loop n f b1) = length b1); [|rewrite Y; apply add_local_length] end.
  induction n as [|n IHn]; [reflexivity|]. rewrite for_loop_S, add_local_length. exact IHn.
Qed.
Lemma contact_vector_keeps_length {G} pd num_pairs surfaces basis kernels (s : @cp_state G (nat -> list Z)) b : length (contact_vector pd num_pairs surfaces basis kernels s b) = length b.
Proof.
  assert (FE : forall a cf st cst ks b, length (for_each ks (fun kernel b => assemble_vector a kernel cf st cst b) b) = length b).
  { intros a cf st cst. unfold for_each. induction ks as [|k ks IHk]; intros b'; [reflexivity|]. cbn [fold_left]. rewrite IHk. apply assemble_vector_keeps_length. }
  unfold contact_vector. induction num_pairs as [|m IH]; [reflexivity|]. rewrite for_loop_S, FE. exact IH.
Qed.

Section LiftStep.
  Context {G : Type} (pd : pack_data) (num_pairs : nat) (surfaces : nat -> tie_pair) (basis : G -> (nat -> list Z) -> nat -> nat -> nat -> R)
    (num_rows : nat -> nat) (move : G -> list R -> G) (detect : G -> nat -> list Z) (pack_gap pack_normals : nat -> G -> (nat -> list Z) -> list (list R))
    (pack_param : nat -> list R -> list (list R)) (pack_h : nat -> list (list R)).
  Context (kernels mkernels : list kernel_fn) (form_vector : nat -> list R -> list R -> list R) (form_matrix : nat -> list R -> list R -> list insertion)
    (fixed : nat -> bool) (g_value : nat -> list R) (linear_solve : list insertion * list insertion -> list R -> list R * nat * bool) (rank : bool).
  Notation after := (contact_after pd num_pairs surfaces basis num_rows move detect pack_gap pack_normals pack_param pack_h).
  Notation calls_of := (list (@call (list R) (nat -> list Z))).
  Notation load_state := (@load_state G).
  Notation solver := (state (list R) unit (list R) (list insertion * list insertion) load_state).
  Notation pb i u := (lifted_problem pd num_pairs surfaces basis num_rows kernels mkernels form_vector form_matrix fixed g_value linear_solve rank i u).
  Notation cf := (fun (x : iterate (list R) unit) (st : load_state) => load_coefficients pd num_pairs surfaces basis num_rows (owned x) st).
  Notation lifted := (lifted_residual pd num_pairs surfaces basis kernels form_vector form_matrix fixed g_value).
  Notation rf i u := (fun (x : iterate (list R) unit) (st : load_state) => lifted i u (owned x) st).
  Notation jf i u := (fun (_ : iterate (list R) unit) (st : load_state) (_ : list insertion * list insertion) => lifted_jacobian pd num_pairs surfaces basis mkernels form_matrix i u st).
  Notation object s := (ls_problem (s_coeffs s)).
  Notation step := (lifted_step pd num_pairs surfaces basis num_rows move detect pack_gap pack_normals kernels mkernels form_vector form_matrix fixed g_value linear_solve rank).
  Notation loop := (lifted_loop pd num_pairs surfaces basis num_rows move detect pack_gap pack_normals kernels mkernels form_vector form_matrix fixed g_value linear_solve rank).
  Notation finish := (lifted_finish pd num_pairs surfaces basis num_rows move detect pack_gap pack_normals).

  Lemma residual_length i u x (st : load_state) : length (load_residual pd num_pairs surfaces basis kernels form_vector i u x st) = length x.
  Proof using Type. unfold load_residual. now rewrite map_length, seq_length, contact_vector_keeps_length, repeat_length. Qed.
  Lemma lift_solve_length i u fuel s n c s' : (max_it s + 7 <= fuel)%nat -> solve_once (pb i u) fuel s = (Ret (n, c), s') -> length (owned (s_x s')) = length (owned (s_x s)).
  Proof using Type.
    intros Hf E0. destruct (C44_line_search (pb i u) cf (rf i u) (jf i u) eq_refl eq_refl eq_refl s fuel _ s' Hf E0 ltac:(discriminate)) as (st & ks & _ & _ & X0 & XL & _ & ST).
    rewrite <- X0, <- XL at 1.
    assert (K : forall j, (j <= iteration s')%nat -> length (owned (s_x (nth j st s'))) = length (owned (s_x (nth 0 st s')))).
    { induction j as [|j IH]; intros Hj; [reflexivity|]. destruct (ST j ltac:(lia)) as (_ & X & _). cbv zeta in X. rewrite X. cbn [axpy lifted_problem]. rewrite vector_axpy_length. apply IH. lia. }
    now apply K.
  Qed.
  Lemma lift_solve_inv i u fuel s v s' : (max_it s + 7 <= fuel)%nat -> solve (pb i u) fuel false s = (Ret v, s') ->
    exists s1, solve_once (pb i u) fuel s = (Ret v, s1) /\ s_coeffs s' = s_coeffs s1 /\ owned (s_x s') = owned (s_x s1) /\ same_options s s'.
  Proof using Type.
    intros Hf. unfold solve, bind. destruct (solve_once (pb i u) fuel s) as [[w|e|] s1] eqn:E1.
    - unfold ghost_update, modify, ret. intros H. injection H as <- <-. exists s1. split; [reflexivity|]. split; [reflexivity|]. split; [reflexivity|].
      destruct (solve_once_spec (pb i u) cf (rf i u) (jf i u) eq_refl eq_refl eq_refl fuel s Hf) as (out & l & s2 & E2 & SE). rewrite E1 in E2. injection E2 as <- <-.
      destruct (solve_end_effect (pb i u) cf (rf i u) (jf i u) s _ l s1 SE) as (SO & _). exact SO.
    - destruct e; try discriminate. destruct (solve_once (pb i u) fuel s1) as [[w|e|] s2]; discriminate.
    - discriminate.
  Qed.
  Lemma lift_step_inv i u s c r : step i (u, s) = Ret (c, r) -> exists n s2, solve (pb i u) (max_it s + 7) false s = (Ret (n, c), s2) /\ r = finish u s2.
  Proof using Type.
    unfold lifted_step. generalize (solve (pb i u) (max_it s + 7) false s). intros [[[n c']|e|] s2] E; try discriminate. exists n, s2.
    assert (E' : (c', finish u s2) = (c, r)) by congruence. generalize dependent (finish u s2). intros f _ E'. injection E' as -> ->. split; reflexivity.
  Qed.
  Lemma lift_finish_vectors u (s : solver) : fst (finish u s) = plus_increment u (owned (s_x s)) /\ owned (s_x (snd (finish u s))) = map (fun x => 1 / 10 * x) (owned (s_x s)) /\ same_options s (snd (finish u s)).
  Proof using Type. split; [unfold plus_increment, lifted_finish, vector_axpy; cbn [fst]; apply map_ext; intros d; ring|]. split; [reflexivity|repeat split]. Qed.
  Lemma lift_finish_fields u (s : solver) : let u' := plus_increment u (owned (s_x s)) in let s' := snd (finish u s) in
    fst (finish u s) = u' /\ owned (s_x s') = map (fun x => 1 / 10 * x) (owned (s_x s)) /\ ls_du (s_coeffs s') = owned (s_x s') /\
    (forall g (calls : calls_of), object s = after g calls -> object s' = after g (calls ++ [CallDetection u'; CallUpdateData (owned (s_x s'))])) /\ same_options s s'.
  Proof using Type.
    intros u' s'. assert (EU : fst (finish u s) = u'). { unfold u', plus_increment, lifted_finish, vector_axpy. cbn [fst]. apply map_ext. intros d. ring. }
    split; [exact EU|]. split; [reflexivity|]. split; [reflexivity|]. split; [|repeat split].
    intros g calls H. unfold contact_after, run_calls. rewrite fold_left_app. unfold contact_after, run_calls in H. rewrite <- H. cbn [fold_left do_call].
    rewrite <- EU. unfold s', lifted_finish, load_coefficients, contact_updated. cbn [fst snd s_coeffs set_s_x set_s_A set_s_coeffs ls_problem s_x owned]. reflexivity.
  Qed.

  (** ** C131 *)
  Theorem C131_ends : forall k start, loop k start <> OutOfFuel.
  Proof using Type.
    induction k as [|k IH]; intros start; cbn [lifted_loop]; [discriminate|]. specialize (IH start). destruct (loop k start) as [[fl [u s]]|e|]; [|discriminate|contradiction].
    unfold lifted_step. destruct (solve (pb k u) (max_it s + 7) false s) as [[[n c]|e|] s'] eqn:E0; [discriminate|discriminate|].
    destruct (C42_solve_terminates (pb k u) cf (rf k u) (jf k u) eq_refl eq_refl eq_refl s _ false _ s' (le_n _) E0) as [X _]. congruence.
  Qed.

  (** A step is the calls update_contact_data, update_contact_detection (with the new total
      displacement) and update_contact_data (with a tenth of the increment) on the contact object. *)
  Theorem C131_step_history :
    forall i u (s : solver) converged u' s' g (calls : calls_of), step i (u, s) = Ret (converged, (u', s')) -> object s = after g calls ->
      exists packed du, u' = plus_increment u du /\ length du = length (owned (s_x s)) /\ owned (s_x s') = map (fun x => 1 / 10 * x) du /\ ls_du (s_coeffs s') = owned (s_x s') /\
        object s' = after g (calls ++ [CallUpdateData packed; CallDetection u'; CallUpdateData (owned (s_x s'))]) /\ same_options s s'.
  Proof using Type.
    intros i u s converged u' s' g calls E Hs. destruct (lift_step_inv _ _ _ _ _ E) as (n & s2 & E0 & Er). destruct (lift_solve_inv i u _ _ _ _ (le_n _) E0) as (s1 & E1 & Ec & Ex & SO).
    pose proof (solve_keeps (pb i u) cf eq_refl (up_to_date pd num_pairs surfaces basis num_rows (after g calls)) (some_data pd num_pairs surfaces basis num_rows (after g calls))
      (fun x c => coefficients_fresh pd num_pairs surfaces basis num_rows move detect pack_gap pack_normals pack_param pack_h g calls (owned x) c) (fun c Hc => or_intror (ex_intro _ (ls_du c) Hc)) (max_it s + 7) s (or_introl Hs)) as FR.
    rewrite E1 in FR. cbn [snd] in FR. unfold up_to_date in FR. rewrite <- Ec in FR.
    destruct (lift_finish_fields u s2) as (F1 & F2 & F3 & F4 & F5). rewrite <- Er in F1, F2, F3, F4, F5. cbn [fst snd] in F1, F2, F3, F4, F5. rewrite <- F1 in F4.
    exists (ls_du (s_coeffs s2)), (owned (s_x s2)). split; [exact F1|]. split; [rewrite Ex; apply (lift_solve_length _ _ _ _ _ _ _ (le_n _) E1)|]. split; [exact F2|]. split; [exact F3|]. split; [|exact (same_options_trans _ _ _ SO F5)].
    rewrite (F4 g (calls ++ [CallUpdateData (ls_du (s_coeffs s2))])); [now rewrite <- app_assoc|].
    rewrite FR. unfold contact_after, run_calls, contact_updated. rewrite fold_left_app. reflexivity.
  Qed.

  (** A step whose solver reported convergence of the residual moves every prescribed degree of
      freedom by its prescribed value, up to atol, whatever the contact does. *)
  Theorem C131_step_moves_boundary :
    forall i u (s : solver) u' s', step i (u, s) = Ret (true, (u', s')) -> criterion s = CResidual -> length u = length (owned (s_x s)) ->
      same_options s s' /\ length u' = length u /\ length (owned (s_x s')) = length (owned (s_x s)) /\
      forall d, (d < length u)%nat -> fixed d = true -> Rabs (nth d u' 0 - (nth d u 0 + nth d (g_value i) 0)) < atol s.
  Proof using Type.
    intros i u s u' s' E EC Lu. destruct (lift_step_inv _ _ _ _ _ E) as (n & s2 & E0 & Er). destruct (lift_solve_inv i u _ _ _ _ (le_n _) E0) as (s1 & E1 & Ec & Ex & SO).
    pose proof (lift_solve_length _ _ _ _ _ _ _ (le_n _) E1) as Ln.
    destruct (C43_residual_flag_truthful (pb i u) cf (rf i u) (jf i u) eq_refl eq_refl eq_refl s _ n s1 (le_n _) EC E1) as (_ & Eb & _ & NB & _).
    destruct (lift_finish_vectors u s2) as (F1 & F2 & F5). rewrite <- Er in F1, F2, F5. cbn [fst snd] in F1, F2, F5. rewrite Ex in F1, F2.
    rewrite Eb in NB. cbv beta in NB. cbn [normB lifted_problem] in NB. set (v := owned (s_x s1)) in *. set (r := lifted i u v (s_coeffs s1)) in *.
    assert (Lr : length r = length v) by (unfold r; rewrite lifted_length; apply residual_length).
    split; [exact (same_options_trans _ _ _ SO F5)|]. split; [rewrite F1; unfold plus_increment; now rewrite map_length, seq_length|]. split; [rewrite F2, map_length; exact Ln|].
    intros d Hd Hf. assert (Hv : (d < length v)%nat) by (rewrite Ln, <- Lu; exact Hd).
    assert (Nr : nth d u' 0 - (nth d u 0 + nth d (g_value i) 0) = nth d r 0).
    { unfold r. rewrite lifted_nth, Hf by (rewrite residual_length; exact Hv). rewrite F1. unfold plus_increment. rewrite (nth_map_lt _ _ d 0 0%nat) by (now rewrite seq_length). rewrite seq_nth by exact Hd. cbn [Nat.add]. fold v. ring. }
    rewrite Nr. refine (Rle_lt_trans _ _ _ _ NB). rewrite <- sqrt_Rsqr_abs. unfold norm2. apply sqrt_le_1_alt. rewrite Lr. change (Rsqr (nth d r 0)) with (nth d r 0 * nth d r 0).
    rewrite <- (rsum_delta (length v) d (fun d => nth d r 0 * nth d r 0) Hv) at 1. apply rsum_le. intros e He. pose proof (Rle_0_sqr (nth e r 0)) as Q. unfold Rsqr in Q. destruct (e =? d)%nat; lra.
  Qed.

  (** After [n] such steps the total displacement of a prescribed degree of freedom is the sum of its
      prescribed values, up to [n] times atol. *)
  Theorem C131_prescribed_displacement :
    forall n u0 (s0 : solver) flags u s, loop n (u0, s0) = Ret (flags, (u, s)) -> Forall (fun c => c = true) flags -> criterion s0 = CResidual -> length u0 = length (owned (s_x s0)) ->
      length flags = n /\ same_options s0 s /\ length u = length u0 /\ length (owned (s_x s)) = length (owned (s_x s0)) /\
      forall d, (d < length u0)%nat -> fixed d = true -> Rabs (nth d u 0 - (nth d u0 0 + rsum n (fun i => nth d (g_value i) 0))) <= INR n * atol s0.
  Proof using Type.
    induction n as [|n IH]; intros u0 s0 flags u s E FL EC L0.
    - cbn [lifted_loop] in E. injection E as <- <- <-. split; [reflexivity|]. split; [repeat split|]. split; [reflexivity|]. split; [reflexivity|]. intros d _ _. cbn [rsum INR]. replace (nth d u0 0 - (nth d u0 0 + 0)) with 0 by ring. rewrite Rabs_R0. lra.
    - cbn [lifted_loop] in E. destruct (loop n (u0, s0)) as [[fl [u1 s1]]|e|] eqn:E1; try discriminate.
      destruct (step n (u1, s1)) as [[c [u2 s2]]|e|] eqn:E2; try discriminate. injection E as <- -> ->.
      apply Forall_app in FL. destruct FL as [FL FC]. inversion FC as [|? ? Hc _]. subst c. destruct (IH _ _ _ _ _ E1 FL EC L0) as (Lf & SO & Lu & Lx & D).
      assert (EC1 : criterion s1 = CResidual) by (rewrite <- EC; apply SO). assert (AT : atol s1 = atol s0) by (apply SO).
      destruct (C131_step_moves_boundary n u1 s1 u s E2 EC1 ltac:(congruence)) as (SO2 & Lu2 & Lx2 & D2).
      split; [rewrite app_length, Lf; cbn; lia|]. split; [exact (same_options_trans _ _ _ SO SO2)|]. split; [congruence|]. split; [congruence|].
      intros d Hd Hf. specialize (D d Hd Hf). specialize (D2 d ltac:(rewrite Lu; exact Hd) Hf). rewrite AT in D2. cbn [rsum]. rewrite S_INR.
      replace (nth d u 0 - (nth d u0 0 + (rsum n (fun i => nth d (g_value i) 0) + nth d (g_value n) 0)))
        with ((nth d u 0 - (nth d u1 0 + nth d (g_value n) 0)) + (nth d u1 0 - (nth d u0 0 + rsum n (fun i => nth d (g_value i) 0)))) by ring.
      refine (Rle_trans _ _ _ (Rabs_triang _ _) _). lra.
  Qed.
End LiftStep.

(** The values of the demo: after all its steps from rest, the boundary has the whole displacement. *)
Theorem C131_whole_displacement :
  forall {G : Type} pd num_pairs surfaces (basis : G -> (nat -> list Z) -> nat -> nat -> nat -> R) num_rows move detect pack_gap pack_normals kernels mkernels form_vector form_matrix fixed linear_solve rank
    nload_steps displacement (s0 : state (list R) unit (list R) (list insertion * list insertion) (@load_state G)) flags u s,
    (0 < nload_steps)%nat -> length displacement = length (owned (s_x s0)) -> criterion s0 = CResidual ->
    lifted_loop pd num_pairs surfaces basis num_rows move detect pack_gap pack_normals kernels mkernels form_vector form_matrix fixed (step_values nload_steps displacement) linear_solve rank
      nload_steps (repeat 0 (length displacement), s0) = Ret (flags, (u, s)) -> Forall (fun c => c = true) flags ->
    forall d, (d < length displacement)%nat -> fixed d = true -> Rabs (nth d u 0 - nth d displacement 0) <= INR nload_steps * atol s0.
Proof.
  intros G pd num_pairs surfaces basis num_rows move detect pack_gap pack_normals kernels mkernels form_vector form_matrix fixed linear_solve rank n displacement s0 flags u s Hn L EC E FL d Hd Hf.
  destruct (C131_prescribed_displacement _ _ _ _ _ _ _ _ _ _ _ _ _ _ _ _ _ _ _ _ _ _ _ E FL EC) as (_ & _ & _ & _ & D); [now rewrite repeat_length|].
  specialize (D d ltac:(now rewrite repeat_length) Hf). rewrite nth_repeat_0 in D.
  assert (X : rsum n (fun i => nth d (step_values n displacement i) 0) = nth d displacement 0).
  { rewrite (rsum_ext n _ (fun _ => nth d displacement 0 / INR n)) by (intros i _; unfold step_values; now rewrite (nth_map_lt _ _ d 0 0)).
    assert (C : forall m x, rsum m (fun _ => x) = INR m * x) by (induction m as [|m IH]; intros x; [cbn [rsum INR]; ring|cbn [rsum]; rewrite IH, S_INR; ring]).
    rewrite C. field. apply not_0_INR. lia. }
  rewrite X in D. replace (nth d u 0 - nth d displacement 0) with (nth d u 0 - (0 + nth d displacement 0)) by ring. exact D.
Qed.
Print Assumptions C131_ends.
Print Assumptions C131_step_history.
Print Assumptions C131_step_moves_boundary.
Print Assumptions C131_prescribed_displacement.
Print Assumptions C131_whole_displacement.
