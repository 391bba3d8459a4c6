(** C126: the displacement returned by the driver for contact with a rigid body. *)
From Coq Require Import List Arith ZArith Lia Bool Reals Lra.
Import ListNotations.
From Verif Require Import Prelude PreludeLemmas RSum RealLemmas EntitiesModel PackingModel AssemblyModel KernelModel KernelSpec RigidKernelModel RigidKernelProps OneSidedModel
  CoefficientsModel SystemSpec TieSystemModel ContactSystemSpec SystemWeakProps FixedPointProofs NewtonModel NewtonProofs NewtonProps NewtonHistoryProps OneSidedSystemModel OneSidedSystemProps OneSidedSolveModel OneSidedSolveProps
  RigidDriverModel RigidSystemModel RigidSystemProps RigidSolveModel.
Local Open Scope R_scope.

(** ** What holds of the coefficients during a solve *)
Section Invariant.
  Context {O G B Mt C : Type} (pb : problem O G B Mt C) (cf : iterate O G -> C -> C) (Hcf : compute_coefficients pb = Some cf).
  Context (P Q : C -> Prop) (HQP : forall x c, Q c -> P (cf x c)) (HPQ : forall c, P c -> Q c).
  Definition keeps {T} (m : run O G B Mt C T) : Prop := forall s, P (s_coeffs s) -> P (s_coeffs (snd (m s))).
  Lemma keeps_bind {T U} (m : run O G B Mt C T) (k : T -> run O G B Mt C U) : keeps m -> (forall v, keeps (k v)) -> keeps (bind m k).
  Proof using. intros Hm Hk s Hs. unfold bind. pose proof (Hm s Hs) as H1. destruct (m s) as [[v|e|] s']; cbn [snd] in *; [exact (Hk v s' H1)|exact H1..]. Qed.
  Lemma keeps_ret {T} (v : T) : keeps (ret v).
  Proof using. intros s Hs. exact Hs. Qed.
  Lemma keeps_raise {T} e : keeps (@raise O G B Mt C T e).
  Proof using. intros s Hs. exact Hs. Qed.
  Lemma keeps_fuel {T} : keeps (fun s => (@OutOfFuel T, s)).
  Proof using. intros s Hs. exact Hs. Qed.
  Lemma keeps_get {T} (f : state O G B Mt C -> T) : keeps (get f).
  Proof using. intros s Hs. exact Hs. Qed.
  Lemma keeps_modify f : (forall s, s_coeffs (f s) = s_coeffs s) -> keeps (modify f).
  Proof using. intros X s Hs. cbn [modify snd]. now rewrite X. Qed.
  Lemma keeps_check n : keeps (check_convergence pb n).
  Proof using. intros s Hs. unfold check_convergence, bind, get. destruct (rank0 pb), (relaxation s); exact Hs. Qed.
  Lemma keeps_coefficients e : keeps (call_coefficients pb e).
  Proof using All. intros s Hs. unfold call_coefficients. rewrite Hcf. cbn. apply HQP, HPQ, Hs. Qed.
  Ltac keeps_tac := repeat first
    [ match goal with
      | |- keeps (bind _ _) => apply keeps_bind; [|intros ?]
      | |- keeps (ret _) => apply keeps_ret
      | |- keeps (raise _) => apply keeps_raise
      | |- keeps (fun s => (OutOfFuel, s)) => apply keeps_fuel
      | |- keeps (get _) => apply keeps_get
      | |- keeps (check_convergence _ _) => apply keeps_check
      | |- keeps (call_coefficients _ _) => apply keeps_coefficients
      | |- keeps (modify _) => (apply keeps_modify; intros; reflexivity)
      | |- keeps (emit _) => (apply keeps_modify; intros; reflexivity)
      | |- keeps (ghost_update _) => (apply keeps_modify; intros; reflexivity)
      end
    | match goal with |- keeps (match ?x with _ => _ end) => destruct x end
    | unfold call_residual, update_solution, relax_body ].
  Lemma keeps_relax saved ro : forall fuel rn, keeps (relax_loop pb fuel saved ro rn).
  Proof using All. induction fuel as [|fuel IH]; intros rn; cbn [relax_loop]; keeps_tac; apply IH. Qed.
  Lemma keeps_body fuel ro : keeps (newton_body pb fuel ro).
  Proof using All. unfold newton_body. keeps_tac; try apply keeps_relax; keeps_tac. Qed.
  Lemma keeps_loop fi : forall fuel ro c, keeps (newton_loop pb fi fuel ro c).
  Proof using All. induction fuel as [|fuel IH]; intros ro c; cbn [newton_loop]; keeps_tac; try apply keeps_body; try apply IH. Qed.
  Lemma solve_keeps fuel s : Q (s_coeffs s) -> P (s_coeffs (snd (solve_once pb fuel s))).
  Proof using All.
    intros Hs. unfold solve_once. rewrite !bind_modify. unfold bind at 1. unfold call_coefficients. rewrite Hcf. rewrite bind_get, bind_emit. cbn [modify].
    match goal with |- P (s_coeffs (snd (?m ?s1))) => assert (K : keeps m) by (keeps_tac; try apply keeps_loop; keeps_tac); apply K end.
    cbn. apply HQP, Hs.
  Qed.
End Invariant.

Section Solve.
  Context (pd : pack_data) (kd : kernel_data) (asm : assembly) (mu lmbda E gamma theta : R) (h g_vec n_surf : list R) (rhs jac : kernel_fn) (junk : geometry) (form_vector : list R -> list R) (form_matrix : list insertion).
  Context (linear_solve : list insertion -> list R -> list R * nat * bool) (rank : bool) (vertical_displacement : R).
  Hypothesis DS : driver_setting pd kd asm.
  Hypothesis E_rhs : generate_rigid_surface_kernel Rhs kd junk false = Some rhs.
  Hypothesis Hw : 0 < gamma * E.
  Hypothesis Hh : forall e, (e < a_local asm)%nat -> 0 < nth e h 0.
  Hypothesis Lgv : length g_vec = (a_local asm * (pd_nq pd * pd_gdim pd))%nat.
  Hypothesis Lns : length n_surf = (a_local asm * (pd_nq pd * pd_gdim pd))%nat.
  (** The residual at [x]: pack_coefficients called with [x] on the array as it was made, then
      compute_residual. *)
  Notation F := (fun x => RigidSystemModel.compute_residual pd asm E gamma theta rhs form_vector x (after_packing pd asm mu lmbda h g_vec n_surf (repeat 0 (length x)) x ([] ++ [x]))).
  Notation pb := (surface_problem pd asm E gamma theta rhs jac form_vector form_matrix linear_solve rank).
  Notation driver := (nitsche_rigid_surface_custom pd asm mu lmbda E gamma theta h g_vec n_surf rhs jac form_vector form_matrix linear_solve rank vertical_displacement).
  Notation cf := (fun (x : iterate (list R) unit) (st : driver_state) => pack_coefficients pd asm (owned x) st).
  Notation rf := (fun (x : iterate (list R) unit) (st : driver_state) => RigidSystemModel.compute_residual pd asm E gamma theta rhs form_vector (repeat 0 (length (owned x))) st).
  Notation jf := (fun (x : iterate (list R) unit) (st : driver_state) (_ : list insertion) => RigidSystemModel.compute_jacobian pd asm E gamma theta jac form_matrix st).
  Notation row := (initial_row pd asm mu lmbda h g_vec n_surf).

  Definition packed_for (st : driver_state) : Prop := ds_rows st = map (row (ds_u st)) (seq 0 (a_local asm)).
  Definition some_rows (st : driver_state) : Prop := exists y, ds_rows st = map (row y) (seq 0 (a_local asm)).
  Lemma some_rows_nth st : some_rows st -> length (ds_rows st) = a_local asm /\ forall e, (e < a_local asm)%nat -> exists u, nth e (ds_rows st) [] = row u e.
  Proof using.
    intros [y Y]. rewrite Y, map_length, seq_length. split; [reflexivity|]. intros e He. exists y. rewrite (nth_map_lt _ _ e [] 0%nat) by (now rewrite seq_length). now rewrite seq_nth.
  Qed.
  Lemma packing_fresh x st : some_rows st -> packed_for (pack_coefficients pd asm x st).
  Proof using DS Lgv Lns.
    intros Y. destruct (some_rows_nth st Y) as [L H]. unfold packed_for.
    exact (packed_rows pd kd asm mu lmbda h g_vec n_surf DS Lgv Lns (ds_u st) x (ds_rows st) L H).
  Qed.
  Lemma fresh_residual x st : packed_for st -> ds_u st = x -> RigidSystemModel.compute_residual pd asm E gamma theta rhs form_vector (repeat 0 (length x)) st = F x.
  Proof using DS Lgv Lns.
    intros Y X. cbv beta. rewrite (state_last pd kd asm mu lmbda h g_vec n_surf DS Lgv Lns). unfold packed_for in Y. destruct st as [u rows]. cbn [ds_u ds_rows] in *. subst u rows. unfold RigidSystemModel.compute_residual. now rewrite repeat_length.
  Qed.
  Lemma surface_driver_length fuel s n c s' : (max_it s + 7 <= fuel)%nat -> solve_once pb fuel s = (Ret (n, c), s') -> length (owned (s_x s')) = length (owned (s_x s)).
  Proof using.
    clear DS E_rhs Hw Hh Lgv Lns. intros Hf E0. destruct (C44_line_search pb cf rf jf eq_refl eq_refl eq_refl s fuel _ s' Hf E0 ltac:(discriminate)) as (st & ks & _ & _ & X0 & XL & _ & ST).
    rewrite <- X0, <- XL at 1.
    assert (K : forall i, (i <= iteration s')%nat -> length (owned (s_x (nth i st s'))) = length (owned (s_x (nth 0 st s')))).
    { induction i as [|i IH]; intros Hi; [reflexivity|]. destruct (ST i ltac:(lia)) as (_ & X & _). cbv zeta in X. rewrite X. cbn [axpy surface_problem]. rewrite vector_axpy_length. apply IH. lia. }
    now apply K.
  Qed.
  Lemma surface_solve_options fuel s v s' : (max_it s + 7 <= fuel)%nat -> solve_once pb fuel s = (Ret v, s') -> error_on_nonconvergence s' = error_on_nonconvergence s.
  Proof using.
    intros Hf E0. destruct (solve_once_spec pb cf rf jf eq_refl eq_refl eq_refl fuel s Hf) as (out & l & s1 & E1 & SE). rewrite E0 in E1. injection E1 as <- <-.
    destruct (solve_end_effect pb cf rf jf s _ l s' SE) as ((_ & _ & _ & _ & X) & _). exact X.
  Qed.

  (** The driver ends, with a function, an error of the linear solver, or an error that says that
      Newton's method failed. *)
  Theorem C126_driver_ends : forall o nodes, driver o nodes <> OutOfFuel.
  Proof using.
    intros o nodes. unfold nitsche_rigid_surface_custom. cbv zeta. destruct (set_newton_options o _) as [[v|e|] s] eqn:ES; [|discriminate|].
    - destruct (solve pb (max_it s + 7) false s) as [[[k c]|e|] s'] eqn:E0; [destruct (error_on_nonconvergence s' && negb c); discriminate|discriminate|].
      destruct (C42_solve_terminates pb cf rf jf eq_refl eq_refl eq_refl s _ false _ s' (le_n _) E0) as [X _]. congruence.
    - exfalso. set (s0 := init _ _ _ _) in ES. assert (D : o_crit o = Some None \/ o_crit o <> Some None) by (destruct (o_crit o) as [[c|]|]; [right|left|right]; congruence).
      destruct D as [D|D]; [destruct (C47_unknown_criterion_exact o s0 D) as (s1 & X & _)|destruct (C47_options_stored o s0 D) as (s1 & X & _)]; congruence.
  Qed.

  (** With the residual criterion and errors switched on, what is returned is closer than
      atol / alpha to the one displacement with zero residual, whatever the linear solver did. *)
  Theorem C126_returned_is_close :
    forall (o : options) (nodes : nat) (u : list R) (alpha K : R), let n := length (surface_guess pd vertical_displacement nodes) in
      (forall v, length (form_vector v) = length v) ->
      (forall e q, (e < a_local asm)%nat -> (q < pd_nq pd)%nat -> 0 <= facet_weight kd asm e q) ->
      0 < alpha -> 0 <= K ->
      (forall u w, length u = n -> length w = n ->
         alpha * rsum n (fun d => nth d w 0 * nth d w 0) + (1 + theta) * (1 + theta) / 4 * body_contact_stress pd kd asm mu lmbda E gamma h n_surf w <= applied (form_vector (moved u w 1)) w - applied (form_vector u) w) ->
      (forall u v, length u = n -> length v = n -> distance2 n (form_vector v) (form_vector u) <= K * distance2 n v u) ->
      o_error o = Some true -> o_crit o = None \/ o_crit o = Some (Some CResidual) ->
      driver o nodes = Ret u ->
      exists solution, length solution = n /\ F solution = repeat 0 n /\ (forall u', length u' = n -> F u' = repeat 0 n -> u' = solution) /\
        length u = n /\ sqrt (distance2 n u solution) < kept (o_atol o) (/ 10 ^ 7) / alpha.
  Proof.
    intros o nodes u alpha K n LB HW Ha K0 ST LIP Oe Oc ED.
    (* One residual function: what was packed before does not matter. *)
    set (FF := fun x => RigidSystemModel.compute_residual pd asm E gamma theta rhs form_vector x (after_packing pd asm mu lmbda h g_vec n_surf [] [] ([] ++ [x]))).
    assert (EF : forall x, F x = FF x) by (intros x; unfold FF; cbv beta; now rewrite !(state_last pd kd asm mu lmbda h g_vec n_surf DS Lgv Lns)).
    destruct (C125_exactly_one_solution pd kd asm mu lmbda E gamma theta h g_vec n_surf rhs junk form_vector DS E_rhs Hw Hh Lgv Lns [] [] [] n alpha K LB HW Ha K0 ST LIP) as (us & Ls & Zs & Us).
    exists us. split; [exact Ls|]. split; [rewrite EF; exact Zs|]. split; [intros u' L' Z'; apply Us; [exact L'|]; fold (FF u'); rewrite <- EF; exact Z'|].
    unfold nitsche_rigid_surface_custom in ED. cbv zeta in ED. set (s0 := init _ _ _ _) in ED.
    destruct (C47_options_stored o s0 ltac:(destruct Oc; congruence)) as (s & ES & Eat & _ & _ & Eerr & Ec1 & Ec2 & _ & Ex). rewrite ES in ED.
    assert (EC : criterion s = CResidual) by (destruct Oc as [O1|O1]; [rewrite (Ec2 O1); reflexivity|exact (Ec1 _ O1)]).
    assert (X0 : owned (s_x s) = surface_guess pd vertical_displacement nodes) by (destruct Ex as (Ex & _); rewrite Ex; reflexivity).
    assert (Q0 : some_rows (s_coeffs s)).
    { destruct Ex as (_ & Ex). assert (SC : s_coeffs s = s_coeffs s0) by intuition. rewrite SC. exists (repeat 0 n). reflexivity. }
    destruct (solve pb (max_it s + 7) false s) as [[[k c]|e|] s'] eqn:E0; [|discriminate|discriminate].
    destruct (solve_function_inv _ _ _ _ _ E0) as (s1 & E1 & Xs & _).
    assert (Er : error_on_nonconvergence s' = true).
    { destruct (solve_function_inv _ _ _ _ _ E0) as (s2 & E2 & _ & ->). rewrite Oe in Eerr. cbn [kept] in Eerr. rewrite <- Eerr. apply (surface_solve_options _ _ _ _ (le_n _) E2). }
    rewrite Er in ED. destruct c; [|discriminate]. cbn [andb negb] in ED. injection ED as <-.
    destruct (C43_residual_flag_truthful pb cf rf jf eq_refl eq_refl eq_refl s _ k s1 (le_n _) EC E1) as (_ & Eb & (g & c0 & Ecs) & NB & _).
    pose proof (surface_driver_length _ _ _ _ _ (le_n _) E1) as Ln. rewrite X0 in Ln. fold n in Ln. rewrite Xs. 
    pose proof (solve_keeps pb cf eq_refl packed_for some_rows (fun x c => packing_fresh (owned x) c) (fun c H => ex_intro _ (ds_u c) H) (max_it s + 7) s Q0) as FR. rewrite E1 in FR. cbn [snd] in FR.
    assert (UX : ds_u (s_coeffs s1) = owned (s_x s1)) by (rewrite Ecs; reflexivity).
    set (v := owned (s_x s1)) in *. split; [exact Ln|].
    cbv beta in Eb. fold v in Eb. rewrite (fresh_residual v (s_coeffs s1) FR UX) in Eb. cbv beta in Eb. rewrite EF in Eb. cbn [normB surface_problem] in NB. rewrite Eb, Eat in NB.
    change (atol s0) with (/ 10 ^ 7) in NB.
    assert (LF : forall x, length (FF x) = length x) by (intros x; exact (proj1 (C125_residual_is_form pd kd asm mu lmbda E gamma theta h g_vec n_surf rhs junk form_vector DS E_rhs Hw Hh Lgv Lns [] [] [] x x eq_refl (LB x)))).
    set (w := moved v us (-1)). assert (Lw : length w = n) by (unfold w; rewrite moved_length; exact Ln).
    assert (Nw : forall d, nth d w 0 = nth d v 0 - nth d us 0) by (intros d; unfold w; rewrite nth_moved by congruence; ring).
    assert (MV : moved us w 1 = v) by (apply (nth_ext _ _ 0 0); [rewrite moved_length; congruence|]; intros d _; rewrite nth_moved, Nw by congruence; ring).
    specialize (ST us w Ls Lw). pose proof (C125_monotone pd kd asm mu lmbda E gamma theta h g_vec n_surf rhs junk form_vector DS E_rhs Hw Hh Lgv Lns [] [] [] us w ltac:(congruence) LB HW) as FC. cbv beta in FC. rewrite MV in FC, ST.
    fold (FF us) (FF v) in FC. fold (FF us) in Zs. rewrite Zs in FC.
    assert (A0 : applied (repeat 0 n) w = 0) by (unfold applied; apply rsum_zero; intros d _; rewrite nth_repeat_0; ring). rewrite A0 in FC.
    assert (E3 : applied (FF v) w = rsum n (fun d => nth d (FF v) 0 * nth d w 0)) by (unfold applied; now rewrite LF, Ln).
    rewrite E3 in FC.
    pose proof (residual_bounds_error n alpha (fun d => nth d (FF v) 0) (fun d => nth d w 0) Ha ltac:(cbv beta; lra)) as RB. cbv beta in RB.
    assert (E4 : distance2 n v us = rsum n (fun d => nth d w 0 * nth d w 0)) by (apply rsum_ext; intros d _; now rewrite Nw).
    rewrite E4. unfold norm2 in NB. rewrite LF, Ln in NB.
    apply (Rmult_lt_reg_l alpha); [exact Ha|]. apply (Rle_lt_trans _ _ _ RB). replace (alpha * (kept (o_atol o) (/ 10 ^ 7) / alpha)) with (kept (o_atol o) (/ 10 ^ 7)) by (field; lra). exact NB.
  Qed.
End Solve.
Print Assumptions C126_driver_ends.
Print Assumptions C126_returned_is_close.
