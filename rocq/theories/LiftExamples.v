(** C129 for the two-triangle object of C78: a third body of one node, whose two degrees of freedom
    are prescribed; theta = -1, springs at all nodes. *)
From Coq Require Import List Arith ZArith Lia Bool Reals Lra.
Import ListNotations.
From Verif Require Import Prelude PreludeLemmas RSum RealLemmas LayoutModel LayoutProps ContactProblemModel ContactProblemProps.
From Verif Require Import EntitiesModel PackingModel PackUProps AssemblyModel AssemblyProofs AssemblyProps RayModel KernelModel KernelProofs KernelSpec
  ElasticityProps ContactKernelModel ContactKernelSpec ContactKernelProps FrictionKernelProps CoefficientsModel CoefficientsProps SystemSpec TieSystemModel TieSystemProofs TieSystemProps
  TieWeakProps ContactWeakProps ContactSystemModel ContactSystemSpec ContactSystemProofs ContactSystemProps TieSystemExamples ContactSystemExamples SystemWeakProps TieFormProps TieFormExamples
  ContactFormProps ContactFormExamples ContactEnergyProps MonotoneProps UniqueProps UniqueExamples FixedPointProofs ExistenceProps OneSidedModel NewtonModel NewtonProofs NewtonProps NewtonFirstStep OneSidedSystemModel OneSidedSolveModel OneSidedSolveProps
  RigidSolveProps NewtonLocalProps LoadStepModel LoadStepProps LoadStepExamples LiftModel LiftProps.
Local Open Scope R_scope.

Definition held (d : nat) : bool := (12 <=? d)%nat.
Definition held_value (_ : nat) : list R := repeat 0 12 ++ [1; -1].
Definition pull : list R := push ++ [1; -1].
Definition pull_load (kernels : list kernel_fn) : list R :=
  map (fun k => nth k (contact_vector (tri_pd true) 2 (tri_pair true) two_basis kernels (two_updated pull two_s) (repeat 0 14)) 0 + 2 * nth k pull 0) (seq 0 14).
Definition spring_matrix : list insertion := map (fun k => ([k], [k], [2; 0; 0; 2])) (seq 0 7).
Definition pull_solve (_ : list insertion * list insertion) (_ : list R) : list R * nat * bool := (map Ropp pull, 1%nat, true).
Definition pull_start : state (list R) unit (list R) (list insertion * list insertion) (@load_state unit) :=
  set_relaxation (Some 1) (init ([], []) (repeat 0 14) {| ls_du := repeat 0 14; ls_problem := two_s |} {| owned := repeat 0 14; ghosts := tt |}).
Notation pull_problem kernels mkernels :=
  (lifted_problem (tri_pd true) 2 (tri_pair true) two_basis (fun _ => 1%nat) kernels mkernels (fun _ _ v => springs (pull_load kernels) v) (fun _ _ _ => spring_matrix) held held_value pull_solve true).
Notation pull_residual kernels := (load_residual (tri_pd true) 2 (tri_pair true) two_basis kernels (fun _ _ v => springs (pull_load kernels) v)).
Notation pull_lifted kernels := (lifted_residual (tri_pd true) 2 (tri_pair true) two_basis kernels (fun _ _ v => springs (pull_load kernels) v) (fun _ _ _ => spring_matrix) held held_value).

Lemma spring_times w d : (d < 14)%nat -> matrix_times 2 spring_matrix w d = 2 * nth d w 0.
Proof.
  intros Hd. do 14 (destruct d as [|d]; [unfold matrix_times, spring_matrix, insertion_times; cbn [seq map lsum fold_right length rsum Nat.mul Nat.add nth Nat.eqb]; lra|]). lia.
Qed.
Lemma pull_clear : clear_of_contact (tri_pd true) 2 (tri_pair true) two_basis (fun _ => 1%nat) (fun g _ => g) two_detect (fun i _ _ => [[- two_axis i * (1/2); 0]]) (fun i _ _ => [[two_axis i; 0]]) (fun _ f => [f]) (fun _ => [[1]]) held tt two_calls.
Proof.
  assert (T : forall c k a, (k < 3)%nat -> (a < 2)%nat -> held (2 * nth k (tri_cells c) 0 + a)%nat = false).
  { intros c k a Hk Ha. apply Nat.leb_gt. unfold tri_cells. destruct (c =? 0)%nat; destruct k as [|[|[|k]]]; cbn [nth]; lia. }
  intros j e k a _ _ Hk Ha. split; [apply T; auto|]. intros q _. apply T; auto.
Qed.
Lemma pull_zero law kernels y u : generated two_kd (vector_kinds law) kernels ->
  pull_lifted kernels 0%nat u pull (push_coefficients pull (push_coefficients y {| ls_du := repeat 0 14; ls_problem := two_s |})) = repeat 0 14.
Proof.
  intros HK. unfold load_coefficients. cbn [ls_problem ls_du]. rewrite push_again.
  pose proof (push_force_length law kernels pull (repeat 0 14) HK) as L. rewrite repeat_length in L.
  assert (LP : length (pull_load kernels) = length pull) by (unfold pull_load; now rewrite map_length, seq_length).
  assert (LR : length (pull_residual kernels 0%nat u pull {| ls_du := pull; ls_problem := two_updated pull two_s |}) = length pull).
  { unfold load_residual. cbn [ls_problem]. rewrite map_length, seq_length. change (length pull) with 14%nat. exact L. }
  change (repeat 0 14) with (repeat 0 (length pull)). apply C129_lifting_keeps_solutions; [exact LR|]. split.
  - intros d Hd Hf. change (d < 14)%nat in Hd. apply Nat.leb_le in Hf. destruct (Nat.eq_dec d 12) as [->|]; [reflexivity|]. replace d with 13%nat by lia. reflexivity.
  - intros d Hd _. change (d < 14)%nat in Hd. unfold load_residual. cbn [ls_problem ls_du]. change (length pull) with 14%nat.
    assert (NP : nth d (pull_load kernels) 0 = nth d (contact_vector (tri_pd true) 2 (tri_pair true) two_basis kernels (two_updated pull two_s) (repeat 0 14)) 0 + 2 * nth d pull 0).
    { unfold pull_load. rewrite (nth_map_lt _ _ d 0 0%nat) by (now rewrite seq_length). now rewrite seq_nth. }
    set (C := contact_vector _ _ _ _ _ _ _) in *. clearbody C. rewrite (nth_map_lt _ _ d 0 0%nat) by (now rewrite seq_length, L). rewrite seq_nth by (now rewrite L). cbn [Nat.add]. rewrite springs_nth by exact LP. rewrite NP. ring.
Qed.

(** The solver ends with the flag set at [pull], whose prescribed entries are not those of the start. *)
Example C129_step_runs : forall law kernels mkernels u, generated two_kd (vector_kinds law) kernels ->
  exists s' : state (list R) unit (list R) (list insertion * list insertion) (@load_state unit), solve (pull_problem kernels mkernels 0%nat u) (max_it pull_start + 7) false pull_start = (Ret (1%nat, true), s') /\ owned (s_x s') = pull.
Proof.
  intros law kernels mkernels u HK. set (pb := pull_problem kernels mkernels 0%nat u).
  assert (T0 : 0 < / 10 ^ 7) by (apply Rinv_0_lt_compat, pow_lt; lra).
  pose (c0 := push_coefficients (repeat 0 14) {| ls_du := repeat 0 14; ls_problem := two_s |}).
  assert (AX : pull = axpy pb 1 (map Ropp pull) (repeat 0 14)).
  { cbn [pb lifted_problem axpy]. symmetry. apply (nth_ext' _ _ 0); [reflexivity|]. intros d Hd. rewrite vector_axpy_length in Hd. change (d < 14)%nat in Hd.
    unfold vector_axpy. rewrite (nth_map_lt _ _ d 0 0%nat) by (now rewrite seq_length). rewrite seq_nth by exact Hd. cbn [Nat.add]. do 14 (destruct d as [|d]; [cbn; lra|]). lia. }
  destruct (first_step_exact pb (fun x st => push_coefficients (owned x) st) (fun x st => pull_lifted kernels 0%nat u (owned x) st) (fun _ st _ => lifted_jacobian (tri_pd true) 2 (tri_pair true) two_basis mkernels (fun _ _ _ => spring_matrix) 0%nat u st) eq_refl eq_refl eq_refl
    pull_start (max_it pull_start + 7) {| owned := repeat 0 14; ghosts := tt |} c0 (pull_lifted kernels 0%nat u (repeat 0 14) c0) (map Ropp pull) 1%nat pull (push_coefficients pull c0) (pull_lifted kernels 0%nat u pull (push_coefficients pull c0))) as (s' & E & X & _).
  - cbn. lia.
  - cbn. lia.
  - reflexivity.
  - discriminate.
  - reflexivity.
  - exact T0.
  - exact T0.
  - reflexivity.
  - reflexivity.
  - reflexivity.
  - reflexivity.
  - exact AX.
  - reflexivity.
  - reflexivity.
  - change (0 < norm2 (map Ropp pull)). apply sqrt_lt_R0. cbn. lra.
  - apply sqrt_pos.
  - unfold c0. rewrite (pull_zero law) by exact HK. change (norm2 (repeat 0 14) = 0). unfold norm2. rewrite rsum_zero; [apply sqrt_0|]. intros d _. rewrite nth_repeat_0. ring.
  - exists s'. split; [exact E|exact X].
Qed.

(** The theorem applies to this step. *)
Example C129_nonvacuous : forall law mkernels u, law <> Coulomb -> exists kernels, generated two_kd (vector_kinds law) kernels /\
  exists solution, length solution = 14%nat /\ pull_lifted kernels 0%nat u solution {| ls_du := solution; ls_problem := two_updated solution two_s |} = repeat 0 14 /\
    (exists s' : state (list R) unit (list R) (list insertion * list insertion) (@load_state unit), solve (pull_problem kernels mkernels 0%nat u) (max_it pull_start + 7) false pull_start = (Ret (1%nat, true), s')) /\
    sqrt (distance2 14 pull solution) <= Rmax 1 (/ 2) * / 10 ^ 7.
Proof.
  intros law mkernels u HL. destruct (two_kernels law) as (kernels & HK). exists kernels. split; [exact HK|].
  destruct (C129_step_runs law kernels mkernels u HK) as (s' & E & X).
  assert (LP : length (pull_load kernels) = 14%nat) by (unfold pull_load; now rewrite map_length, seq_length).
  destruct (C129_increment_is_close (tri_pd true) (tri_kd true) 2 (tri_pair true) two_basis (fun _ => 1%nat) (fun g _ => g) two_detect
      (fun i _ _ => [[- two_axis i * (1/2); 0]]) (fun i _ _ => [[two_axis i; 0]]) (fun _ f => [f]) (fun _ => [[1]]) kernels mkernels (fun _ _ v => springs (pull_load kernels) v) (fun _ _ _ => spring_matrix) held held_value pull_solve true
      law tt two_calls 0%nat u) with (n := 14%nat) (alpha := 2) (K := 4) (s := pull_start) (k := 1%nat) (s' := s') as (us & L & Z & _ & _ & D).
  - exact HL.
  - repeat constructor.
  - reflexivity.
  - intros j. apply le_n.
  - exact two_setting.
  - reflexivity.
  - exact HK.
  - change (0 < 2). lra.
  - intros i e Hi He. apply (two_stored i e Hi He).
  - intros v. apply springs_length.
  - intros i e q Hi He Hq. destruct (two_stored i e Hi He) as [-> _]. rewrite (two_point i q Hi Hq). clear Hq He. destruct i as [|[|i]]; [| |lia]; unfold interface_weight, surface_weight, own_cell, own_facet;
      lazy -[Rplus Rminus Rmult Rdiv Rinv Ropp sqrt Rabs Rle IZR]; rewrite Rmult_1_l; apply Rabs_pos.
  - reflexivity.
  - lra.
  - lra.
  - intros v w Lv Lw _. match goal with |- _ + (1 + ?th) * _ / 4 * ?X <= _ => set (Y := X); change th with (-1) end. clearbody Y.
    replace ((1 + -1) * (1 + -1) / 4 * Y) with 0 by field. rewrite Rplus_0_r. right. unfold applied. rewrite !springs_length, moved_length, Lv, <- rsum_minus. rewrite <- rsum_scal. apply rsum_ext. intros d _.
    rewrite !springs_nth by (rewrite ?moved_length; congruence). rewrite nth_moved by congruence. ring.
  - intros v w Lv Lw. right. unfold distance2. rewrite <- rsum_scal. apply rsum_ext. intros d _. rewrite !springs_nth by congruence. ring.
  - exact pull_clear.
  - intros v w d Lv Lw Hd. change (pd_bs (tri_pd true)) with 2%nat. rewrite spring_times by exact Hd. rewrite !springs_nth by (rewrite ?moved_length; congruence). rewrite nth_moved by congruence. ring.
  - exact (eq_refl two_s).
  - reflexivity.
  - reflexivity.
  - exact E.
  - exists us. split; [exact L|]. split; [exact Z|]. split; [exists s'; exact E|]. rewrite X in D. exact D.
Qed.

(** A system that is solved by a given direction from the start of the step: the load is chosen for
    it.  The full step has the prescribed values. *)
Definition turn : list R := push ++ [-1; 1].
Definition turn_matrix (mkernels : list kernel_fn) : list insertion := contact_matrix (tri_pd true) 2 (tri_pair true) two_basis mkernels (two_updated (repeat 0 14) two_s).
Definition turn_load (kernels mkernels : list kernel_fn) : list R :=
  map (fun k => nth k (contact_vector (tri_pd true) 2 (tri_pair true) two_basis kernels (two_updated (repeat 0 14) two_s) (repeat 0 14)) 0 - matrix_times 2 (turn_matrix mkernels) turn k - 2 * nth k turn 0) (seq 0 14).
Example C129_direction_nonvacuous : forall law kernels mkernels u, generated two_kd (vector_kinds law) kernels -> generated two_kd (matrix_kinds law) mkernels ->
  let st := {| ls_du := repeat 0 14; ls_problem := two_updated (repeat 0 14) two_s |} in
  (forall d, (d < 14)%nat -> system_times (tri_pd true) held (lifted_jacobian (tri_pd true) 2 (tri_pair true) two_basis mkernels (fun _ _ _ => spring_matrix) 0%nat u st) turn d =
     nth d (lifted_residual (tri_pd true) 2 (tri_pair true) two_basis kernels (fun _ _ v => springs (turn_load kernels mkernels) v) (fun _ _ _ => spring_matrix) held held_value 0%nat u (repeat 0 14) st) 0) /\
  forall d, (d < 14)%nat -> held d = false -> matrix_times 2 (turn_matrix mkernels ++ spring_matrix) turn d =
     nth d (contact_vector (tri_pd true) 2 (tri_pair true) two_basis kernels (two_updated (repeat 0 14) two_s) (springs (turn_load kernels mkernels) (repeat 0 14))) 0.
Proof.
  intros law kernels mkernels u HK HM st.
  pose proof (push_force_length law kernels (repeat 0 14) (repeat 0 14) HK) as L. rewrite repeat_length in L.
  assert (LP : length (turn_load kernels mkernels) = 14%nat) by (unfold turn_load; now rewrite map_length, seq_length).
  assert (LR : length (load_residual (tri_pd true) 2 (tri_pair true) two_basis kernels (fun _ _ v => springs (turn_load kernels mkernels) v) 0%nat u (repeat 0 14) st) = 14%nat).
  { unfold load_residual. cbn [ls_problem st]. rewrite map_length, seq_length, repeat_length. exact L. }
  assert (EQ : forall d, (d < 14)%nat -> system_times (tri_pd true) held (lifted_jacobian (tri_pd true) 2 (tri_pair true) two_basis mkernels (fun _ _ _ => spring_matrix) 0%nat u st) turn d =
     nth d (lifted_residual (tri_pd true) 2 (tri_pair true) two_basis kernels (fun _ _ v => springs (turn_load kernels mkernels) v) (fun _ _ _ => spring_matrix) held held_value 0%nat u (repeat 0 14) st) 0).
  { intros d Hd. rewrite lifted_nth by (now rewrite LR). unfold system_times, lifted_jacobian. cbn [fst snd ls_problem ls_du st]. fold (turn_matrix mkernels). change (pd_bs (tri_pd true)) with 2%nat. rewrite nth_repeat_0. destruct (held d) eqn:Hf.
    - rewrite (matrix_times_no_row (tri_pd true)).
      + apply Nat.leb_le in Hf. destruct (Nat.eq_dec d 12) as [->|]; [cbn; lra|]. replace d with 13%nat by lia. cbn. lra.
      + intros rows cols block a c HI Ha Hc E. destruct (contact_rows (tri_pd true) (tri_kd true) 2 (tri_pair true) two_basis (fun _ => 1%nat) (fun g _ => g) two_detect (fun i _ _ => [[- two_axis i * (1/2); 0]]) (fun i _ _ => [[two_axis i; 0]]) (fun _ f => [f]) (fun _ => [[1]]) mkernels
          law tt two_calls eq_refl two_setting (repeat 0 14) rows cols block HM HI) as (j & e & Hj & He & X).
        assert (T : exists cell, rows = tri_cells cell) by (destruct X as [X|(q & _ & X)]; [exists (own_cell (pair_at (tri_pd true) (tri_pair true) two_basis (cp_geom two_s) (cp_map two_s) j) e)|exists (tied_cell (tri_pd true) (pair_at (tri_pd true) (tri_pair true) two_basis (cp_geom two_s) (cp_map two_s) j) e q)]; exact X).
        clear X. destruct T as (cell & ->). apply Nat.leb_le in Hf. change (c < 2)%nat in Hc. change (pd_bs (tri_pd true)) with 2%nat in E. unfold tri_cells in *. destruct (cell =? 0)%nat; destruct a as [|[|[|a]]]; cbn [nth length] in *; lia.
    - rewrite !spring_times by exact Hd. rewrite defect_nth, Hf by (now rewrite repeat_length).
      assert (LT : nth d (load_residual (tri_pd true) 2 (tri_pair true) two_basis kernels (fun _ _ v => springs (turn_load kernels mkernels) v) 0%nat u (repeat 0 14) st) 0 = matrix_times 2 (turn_matrix mkernels) turn d + 2 * nth d turn 0).
      { unfold load_residual. cbn [ls_problem ls_du st]. rewrite repeat_length.
        assert (NP : nth d (turn_load kernels mkernels) 0 = nth d (contact_vector (tri_pd true) 2 (tri_pair true) two_basis kernels (two_updated (repeat 0 14) two_s) (repeat 0 14)) 0 - matrix_times 2 (turn_matrix mkernels) turn d - 2 * nth d turn 0).
        { unfold turn_load. rewrite (nth_map_lt _ _ d 0 0%nat) by (now rewrite seq_length). now rewrite seq_nth. }
        set (C := contact_vector _ _ _ _ _ _ _) in *. clearbody C. rewrite (nth_map_lt _ _ d 0 0%nat) by (now rewrite seq_length, L). rewrite seq_nth by (now rewrite L). cbn [Nat.add]. rewrite springs_nth by (now rewrite repeat_length). rewrite NP, nth_repeat_0. ring. }
      rewrite LT. rewrite Rmult_0_r, Rplus_0_r. f_equal. unfold without_fixed. rewrite (nth_map_lt _ _ d 0 0%nat) by (rewrite seq_length; exact Hd). rewrite seq_nth by exact Hd. cbn [Nat.add]. rewrite Hf. reflexivity. }
  split; [exact EQ|].
  destruct (C129_direction_in_a_step (tri_pd true) (tri_kd true) 2 (tri_pair true) two_basis (fun _ => 1%nat) (fun g _ => g) two_detect
      (fun i _ _ => [[- two_axis i * (1/2); 0]]) (fun i _ _ => [[two_axis i; 0]]) (fun _ f => [f]) (fun _ => [[1]]) kernels mkernels (fun _ _ v => springs (turn_load kernels mkernels) v) (fun _ _ _ => spring_matrix) held held_value
      law tt two_calls 0%nat u) with (x := repeat 0 14) (dx := turn) as (_ & D).
  - repeat constructor.
  - reflexivity.
  - intros j. apply le_n.
  - exact two_setting.
  - reflexivity.
  - exact HK.
  - change (0 < 2). lra.
  - intros i e Hi He. apply (two_stored i e Hi He).
  - intros v. apply springs_length.
  - exact pull_clear.
  - exact HM.
  - reflexivity.
  - exact EQ.
  - exact D.
Qed.
