(** C127 for the two-triangle object of C78: theta = -1, springs at all nodes. *)
From Coq Require Import List Arith ZArith Lia Bool Reals Lra.
Import ListNotations.
From Verif Require Import Prelude PreludeLemmas RSum RealLemmas LayoutModel LayoutProps ContactProblemModel ContactProblemProps.
From Verif Require Import EntitiesModel PackingModel PackUProps AssemblyModel AssemblyProofs AssemblyProps RayModel KernelModel KernelProofs KernelSpec
  ElasticityProps ContactKernelModel ContactKernelSpec ContactKernelProps FrictionKernelProps CoefficientsModel CoefficientsProps SystemSpec TieSystemModel TieSystemProofs TieSystemProps
  TieWeakProps ContactWeakProps ContactSystemModel ContactSystemSpec ContactSystemProofs ContactSystemProps TieSystemExamples ContactSystemExamples SystemWeakProps TieFormProps TieFormExamples
  ContactFormProps ContactFormExamples ContactEnergyProps MonotoneProps UniqueProps UniqueExamples FixedPointProofs ExistenceProps OneSidedModel NewtonModel NewtonProofs NewtonProps NewtonFirstStep OneSidedSystemModel OneSidedSolveModel OneSidedSolveProps
  RigidSolveProps LoadStepModel LoadStepProps.
Local Open Scope R_scope.

Definition push : list R := [1; 0; 1; 0; 1; 0; 0; 0; 0; 0; 0; 0].
(** The load under which the increment is [push]. *)
Definition push_load (kernels : list kernel_fn) : list R :=
  map (fun k => nth k (contact_vector (tri_pd true) 2 (tri_pair true) two_basis kernels (two_updated push two_s) (repeat 0 12)) 0 + 2 * nth k push 0) (seq 0 12).
Definition push_solve (_ : list insertion) (_ : list R) : list R * nat * bool := (map Ropp push, 1%nat, true).
Definition push_start : state (list R) unit (list R) (list insertion) (@load_state unit) :=
  set_relaxation (Some 1) (init [] (repeat 0 12) {| ls_du := repeat 0 12; ls_problem := two_s |} {| owned := repeat 0 12; ghosts := tt |}).
Notation push_step kernels mkernels :=
  (load_step (tri_pd true) 2 (tri_pair true) two_basis (fun _ => 1%nat) (fun g _ => g) two_detect (fun i _ _ => [[- two_axis i * (1/2); 0]]) (fun i _ _ => [[two_axis i; 0]])
    kernels mkernels (fun _ _ v => springs (push_load kernels) v) (fun _ _ _ => []) push_solve true).
Notation push_problem kernels mkernels := (load_problem (tri_pd true) 2 (tri_pair true) two_basis (fun _ => 1%nat) kernels mkernels (fun _ _ v => springs (push_load kernels) v) (fun _ _ _ => []) push_solve true).
Notation push_residual kernels := (load_residual (tri_pd true) 2 (tri_pair true) two_basis kernels (fun _ _ v => springs (push_load kernels) v)).
Notation push_coefficients := (load_coefficients (tri_pd true) 2 (tri_pair true) two_basis (fun _ => 1%nat)).

Lemma push_again x y : contact_updated (tri_pd true) 2 (tri_pair true) two_basis (fun _ => 1%nat) x (contact_updated (tri_pd true) 2 (tri_pair true) two_basis (fun _ => 1%nat) y two_s) = two_updated x two_s.
Proof.
  exact (updated_again (tri_pd true) 2 (tri_pair true) two_basis (fun _ => 1%nat) (fun g _ => g) two_detect (fun i _ _ => [[- two_axis i * (1/2); 0]]) (fun i _ _ => [[two_axis i; 0]]) (fun _ f => [f]) (fun _ => [[1]]) tt two_calls x y).
Qed.
Lemma push_force_length law kernels x b : generated two_kd (vector_kinds law) kernels -> length (contact_vector (tri_pd true) 2 (tri_pair true) two_basis kernels (two_updated x two_s) b) = length b.
Proof.
  intros HK. exact (contact_vector_length (tri_pd true) (tri_kd true) 2 (tri_pair true) two_basis (fun _ => 1%nat) (fun g _ => g) two_detect (fun i _ _ => [[- two_axis i * (1/2); 0]]) (fun i _ _ => [[two_axis i; 0]]) (fun _ f => [f]) (fun _ => [[1]])
    law tt two_calls x b kernels eq_refl two_setting HK).
Qed.
Lemma push_zero law kernels y u : generated two_kd (vector_kinds law) kernels ->
  push_residual kernels 0%nat u push (push_coefficients push (push_coefficients y {| ls_du := repeat 0 12; ls_problem := two_s |})) = repeat 0 12.
Proof.
  intros HK. unfold load_residual, load_coefficients. cbn [ls_problem ls_du]. rewrite push_again.
  pose proof (push_force_length law kernels push (repeat 0 (length push)) HK) as L. rewrite repeat_length in L.
  assert (LP : length (push_load kernels) = length push) by (unfold push_load; now rewrite map_length, seq_length).
  assert (NP : forall d, (d < 12)%nat -> nth d (push_load kernels) 0 = nth d (contact_vector (tri_pd true) 2 (tri_pair true) two_basis kernels (two_updated push two_s) (repeat 0 12)) 0 + 2 * nth d push 0).
  { intros d Hd. unfold push_load. rewrite (nth_map_lt _ _ d 0 0%nat) by (now rewrite seq_length). now rewrite seq_nth. }
  change (length push) with 12%nat in L |- *. set (C := contact_vector _ _ _ _ _ _ _) in *. clearbody C.
  apply (nth_ext _ _ 0 0); [now rewrite map_length, seq_length, repeat_length|]. intros d Hd. rewrite map_length, seq_length, L in Hd.
  rewrite (nth_map_lt _ _ d 0 0%nat) by (now rewrite seq_length, L). rewrite seq_nth by (now rewrite L). cbn [Nat.add]. rewrite springs_nth by exact LP. rewrite (NP d Hd), nth_repeat_0. ring.
Qed.

(** The step ends with the flag set and the displacement moved by [push]. *)
Example C127_step_runs : forall law kernels mkernels u, generated two_kd (vector_kinds law) kernels ->
  exists s', push_step kernels mkernels 0 (u, push_start) = Ret (true, (plus_increment u push, s')).
Proof.
  intros law kernels mkernels u HK. set (pb := push_problem kernels mkernels 0%nat u).
  assert (T0 : 0 < / 10 ^ 7) by (apply Rinv_0_lt_compat, pow_lt; lra).
  pose (c0 := push_coefficients (repeat 0 12) {| ls_du := repeat 0 12; ls_problem := two_s |}).
  assert (AX : push = axpy pb 1 (map Ropp push) (repeat 0 12)).
  { cbn [pb load_problem axpy]. symmetry. apply (nth_ext' _ _ 0); [reflexivity|]. intros d Hd. rewrite vector_axpy_length in Hd. change (d < 12)%nat in Hd.
    unfold vector_axpy. rewrite (nth_map_lt _ _ d 0 0%nat) by (now rewrite seq_length). rewrite seq_nth by exact Hd. cbn [Nat.add]. do 12 (destruct d as [|d]; [cbn; lra|]). lia. }
  destruct (first_step_exact pb (fun x st => push_coefficients (owned x) st) (fun x st => push_residual kernels 0%nat u (owned x) st) (fun _ st _ => load_jacobian (tri_pd true) 2 (tri_pair true) two_basis mkernels (fun _ _ _ => []) 0%nat u st) eq_refl eq_refl eq_refl
    push_start (max_it push_start + 7) {| owned := repeat 0 12; ghosts := tt |} c0 (push_residual kernels 0%nat u (repeat 0 12) c0) (map Ropp push) 1%nat push (push_coefficients push c0) (push_residual kernels 0%nat u push (push_coefficients push c0))) as (s' & E & X & _).
  - cbn. lia.
  - cbn. lia.
  - reflexivity.
  - discriminate.
  - reflexivity.
  - exact T0.
  - exact T0.
  - reflexivity.
  - reflexivity.
  - reflexivity.
  - reflexivity.
  - exact AX.
  - reflexivity.
  - reflexivity.
  - change (0 < norm2 (map Ropp push)). apply sqrt_lt_R0. cbn. lra.
  - apply sqrt_pos.
  - unfold c0. rewrite (push_zero law) by exact HK. change (norm2 (repeat 0 12) = 0). unfold norm2. rewrite rsum_zero; [apply sqrt_0|]. intros d _. rewrite nth_repeat_0. ring.
  - unfold load_step. unfold pb in E. rewrite E.
    destruct (finish_fields (tri_pd true) 2 (tri_pair true) two_basis (fun _ => 1%nat) (fun g _ => g) two_detect (fun i _ _ => [[- two_axis i * (1/2); 0]]) (fun i _ _ => [[two_axis i; 0]]) (fun _ f => [f]) (fun _ => [[1]]) u s') as (F1 & _).
    rewrite X in F1. destruct (finish_step _ _ _ _ _ _ _ _ _ u s') as [u' s2]. cbn [fst] in F1. subst u'. exists s2. reflexivity.
Qed.

(** The theorem applies to this step. *)
Example C127_nonvacuous : forall law mkernels u, law <> Coulomb -> length u = 12%nat -> exists kernels, generated two_kd (vector_kinds law) kernels /\
  exists solution s', push_step kernels mkernels 0 (u, push_start) = Ret (true, (plus_increment u push, s')) /\ length solution = 12%nat /\
    contact_vector (tri_pd true) 2 (tri_pair true) two_basis kernels (two_updated solution two_s) (springs (push_load kernels) solution) = repeat 0 12 /\
    sqrt (distance2 12 (plus_increment u push) (plus_increment u solution)) < / 10 ^ 7 / 2.
Proof.
  intros law mkernels u HL Lu. destruct (two_kernels law) as (kernels & HK). exists kernels. split; [exact HK|].
  destruct (C127_step_runs law kernels mkernels u HK) as (s' & E).
  assert (LP : length (push_load kernels) = 12%nat) by (unfold push_load; now rewrite map_length, seq_length).
  destruct (C127_step_is_close (tri_pd true) (tri_kd true) 2 (tri_pair true) two_basis (fun _ => 1%nat) (fun g _ => g) two_detect
      (fun i _ _ => [[- two_axis i * (1/2); 0]]) (fun i _ _ => [[two_axis i; 0]]) (fun _ f => [f]) (fun _ => [[1]]) kernels mkernels (fun _ _ v => springs (push_load kernels) v) (fun _ _ _ => []) push_solve true
      law tt two_calls 0 u push_start (plus_increment u push) s' 2 4) as (us & L & Z & _ & _ & D).
  - exact (eq_refl two_s).
  - exact Lu.
  - reflexivity.
  - exact HL.
  - repeat constructor.
  - reflexivity.
  - intros j. apply le_n.
  - exact two_setting.
  - reflexivity.
  - exact HK.
  - change (0 < 2). lra.
  - intros i e Hi He. apply (two_stored i e Hi He).
  - intros i e q Hi He Hq. destruct (two_stored i e Hi He) as [-> _]. rewrite (two_point i q Hi Hq). clear Hq He. destruct i as [|[|i]]; [| |lia]; unfold interface_weight, surface_weight, own_cell, own_facet;
      lazy -[Rplus Rminus Rmult Rdiv Rinv Ropp sqrt Rabs Rle IZR]; rewrite Rmult_1_l; apply Rabs_pos.
  - intros v. apply springs_length.
  - lra.
  - lra.
  - intros v w Lv Lw. change (length v = 12%nat) in Lv. change (length w = 12%nat) in Lw. match goal with |- _ + (1 + ?th) * _ / 4 * ?X <= _ => set (Y := X); change th with (-1) end. clearbody Y.
    replace ((1 + -1) * (1 + -1) / 4 * Y) with 0 by field. rewrite Rplus_0_r. right. unfold applied. rewrite !springs_length, moved_length, Lv, <- rsum_minus. change (length (owned (s_x push_start))) with 12%nat. rewrite <- rsum_scal. apply rsum_ext. intros d _.
    rewrite !springs_nth by (rewrite ?moved_length; congruence). rewrite nth_moved by congruence. ring.
  - intros v w Lv Lw. change (length v = 12%nat) in Lv. change (length w = 12%nat) in Lw. change (length (owned (s_x push_start))) with 12%nat. right. unfold distance2. rewrite <- rsum_scal. apply rsum_ext. intros d _. rewrite !springs_nth by congruence. ring.
  - exact E.
  - exists us, s'. split; [exact E|]. split; [exact L|]. split; [exact Z|]. exact D.
Qed.
