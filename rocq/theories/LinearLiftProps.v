(** C130: prescribed values in the linear drivers (mesh ties, heat). *)
From Coq Require Import List Arith ZArith Lia Bool Reals Lra.
Import ListNotations.
From Verif Require Import Prelude PreludeLemmas RSum RealLemmas AssemblyModel SystemSpec PackingModel CoefficientsModel TieSystemModel TieSystemExamples UniqueProps MonotoneProps NewtonLocalProps ContactSystemProps ContactFormProps OneSidedSystemProps ContactSystemSpec ContactSystemSpec LiftModel LiftProps.
Local Open Scope R_scope.

(** The prescribed values, zero at the other degrees of freedom. *)
Definition prescribed (fixed : nat -> bool) (n : nat) (g : list R) : list R := map (fun e => if fixed e then nth e g 0 else 0) (seq 0 n).

Section Linear.
  Context (pd : pack_data) (fixed : nat -> bool).
  Notation bs := (pd_bs pd).
  (** Rows of the interface part of the matrix: none is a prescribed degree of freedom. *)
  Definition rows_free (C : list insertion) : Prop :=
    forall rows cols block a c, In (rows, cols, block) C -> (a < length rows)%nat -> (c < bs)%nat -> fixed (bs * nth a rows 0 + c)%nat = false.

  Lemma linear_defect n g : boundary_defect fixed g (repeat 0 n) = prescribed fixed n g.
  Proof using Type. unfold boundary_defect, prescribed. rewrite repeat_length. apply map_ext. intros e. rewrite nth_repeat_0. destruct (fixed e); ring. Qed.
  Lemma linear_rhs_nth alpha A g b d : (d < length b)%nat ->
    nth d (linear_rhs pd fixed alpha A g b) 0 = if fixed d then nth d g 0 else nth d b 0 - alpha * matrix_times bs A (prescribed fixed (length b) g) d.
  Proof using Type.
    intros Hd. unfold linear_rhs, set_bc, apply_lifting. rewrite (nth_map_lt _ _ d 0 0%nat) by (now rewrite seq_length, map_length, seq_length). rewrite seq_nth by (now rewrite map_length, seq_length). cbn [Nat.add].
    destruct (fixed d); [rewrite nth_repeat_0; ring|]. rewrite (nth_map_lt _ _ d 0 0%nat) by (now rewrite seq_length). rewrite seq_nth by exact Hd. cbn [Nat.add]. now rewrite linear_defect.
  Qed.

  (** What a solution of the assembled system satisfies, for every lifting factor: the prescribed
      values hold, and the other equations have [1 - alpha] times the bulk matrix applied to the
      prescribed values as an additional load. *)
  Theorem C130_linear_solution_exact :
    forall alpha (C A : list insertion) g b w, rows_free C -> length w = length b ->
      ((forall d, (d < length b)%nat -> system_times pd fixed (C, A) w d = nth d (linear_rhs pd fixed alpha A g b) 0) <->
       (forall d, (d < length b)%nat -> fixed d = true -> nth d w 0 = nth d g 0) /\
       (forall d, (d < length b)%nat -> fixed d = false -> matrix_times bs (C ++ A) w d = nth d b 0 + (1 - alpha) * matrix_times bs A (prescribed fixed (length b) g) d)).
  Proof using Type.
    intros alpha C A g b w RF L.
    assert (NR : forall d v, fixed d = true -> matrix_times bs C v d = 0).
    { intros d v Hf. apply (matrix_times_no_row pd). intros rows cols block a c HI Ha Hc E. specialize (RF rows cols block a c HI Ha Hc). rewrite E in RF. congruence. }
    assert (WF : (forall d, (d < length b)%nat -> fixed d = true -> nth d w 0 = nth d g 0) -> without_fixed fixed w = moved w (prescribed fixed (length b) g) (-1)).
    { intros B. apply (nth_ext _ _ 0 0); [unfold without_fixed; now rewrite moved_length, map_length, seq_length|]. intros e He. unfold without_fixed in He. rewrite map_length, seq_length in He.
      rewrite nth_moved by (unfold prescribed; rewrite map_length, seq_length; congruence). unfold without_fixed. rewrite (nth_map_lt _ _ e 0 0%nat) by (now rewrite seq_length). rewrite seq_nth by exact He.
      rewrite L in He. unfold prescribed. rewrite (nth_map_lt _ _ e 0 0%nat) by (now rewrite seq_length). rewrite seq_nth by exact He. cbn [Nat.add]. destruct (fixed e) eqn:Ef; [rewrite (B e He Ef)|]; ring. }
    split.
    - intros EQ. assert (B : forall d, (d < length b)%nat -> fixed d = true -> nth d w 0 = nth d g 0).
      { intros d Hd Hf. specialize (EQ d Hd). rewrite linear_rhs_nth, Hf in EQ by exact Hd. unfold system_times in EQ. rewrite Hf in EQ. cbn [fst] in EQ. rewrite (NR d _ Hf) in EQ. lra. }
      split; [exact B|]. intros d Hd Hf. specialize (EQ d Hd). rewrite linear_rhs_nth, Hf in EQ by exact Hd. unfold system_times in EQ. rewrite Hf in EQ. cbn [fst snd] in EQ.
      rewrite (WF B), matrix_times_move in EQ by (unfold prescribed; rewrite map_length, seq_length; congruence). rewrite driver_times_app. lra.
    - intros [B EQ] d Hd. rewrite linear_rhs_nth by exact Hd. unfold system_times. cbn [fst snd]. destruct (fixed d) eqn:Hf; [rewrite (NR d _ Hf), (B d Hd Hf); ring|].
      specialize (EQ d Hd Hf). rewrite (WF B), matrix_times_move by (unfold prescribed; rewrite map_length, seq_length; congruence). rewrite driver_times_app in EQ. lra.
  Qed.

  (** Factor 1 (thermo_mech.py, both convergence studies): the linear problem with prescribed values. *)
  Theorem C130_factor_one :
    forall (C A : list insertion) g b w, rows_free C -> length w = length b ->
      ((forall d, (d < length b)%nat -> system_times pd fixed (C, A) w d = nth d (linear_rhs pd fixed 1 A g b) 0) <->
       (forall d, (d < length b)%nat -> fixed d = true -> nth d w 0 = nth d g 0) /\
       (forall d, (d < length b)%nat -> fixed d = false -> matrix_times bs (C ++ A) w d = nth d b 0)).
  Proof using Type.
    intros C A g b w RF L. rewrite (C130_linear_solution_exact 1 C A g b w RF L). split; intros [B E]; (split; [exact B|]); intros d Hd Hf; rewrite (E d Hd Hf); ring.
  Qed.
  (** Factor -1 (demo_nitsche_meshties.py, demo_poisson.py): only for prescribed values zero. *)
  Theorem C130_factor_minus_one_partial :
    forall (C A : list insertion) g b w, rows_free C -> length w = length b -> (forall d, fixed d = true -> nth d g 0 = 0) ->
      ((forall d, (d < length b)%nat -> system_times pd fixed (C, A) w d = nth d (linear_rhs pd fixed (-1) A g b) 0) <->
       (forall d, (d < length b)%nat -> fixed d = true -> nth d w 0 = 0) /\
       (forall d, (d < length b)%nat -> fixed d = false -> matrix_times bs (C ++ A) w d = nth d b 0)).
  Proof using Type.
    intros C A g b w RF L Hz. rewrite (C130_linear_solution_exact (-1) C A g b w RF L).
    assert (Z : forall d, matrix_times bs A (prescribed fixed (length b) g) d = 0).
    { intros d. apply matrix_times_zero. intros k. unfold prescribed. destruct (Nat.lt_ge_cases k (length b)) as [Hk|Hk]; [|apply nth_overflow; now rewrite map_length, seq_length].
      rewrite (nth_map_lt _ _ k 0 0%nat) by (now rewrite seq_length). rewrite seq_nth by exact Hk. cbn [Nat.add]. destruct (fixed k) eqn:E; [now apply Hz|reflexivity]. }
    split; intros [B E]; (split; [intros d Hd Hf; rewrite (B d Hd Hf); auto using eq_sym|]); intros d Hd Hf; rewrite (E d Hd Hf), ?Z; ring.
  Qed.
End Linear.

(** Two degrees of freedom, the first prescribed to 1: the solved system is not the problem. *)
Definition pair_matrix : list insertion := [([0; 1]%nat, [0; 1]%nat, [1; 1; 1; 2])].
Lemma pair_times w d : (d < 2)%nat -> matrix_times 1 pair_matrix w d = if (d =? 0)%nat then nth 0 w 0 + nth 1 w 0 else nth 0 w 0 + 2 * nth 1 w 0.
Proof. intros Hd. destruct d as [|[|d]]; [| |lia]; unfold matrix_times, pair_matrix, insertion_times; cbn [lsum fold_right length rsum Nat.mul Nat.add nth Nat.eqb]; lra. Qed.
Theorem C130_factor_minus_one_refuted :
  exists (fixed : nat -> bool) (A : list insertion) (g b w : list R), length w = length b /\
    (forall d, (d < length b)%nat -> system_times (tri_pd false) fixed ([], A) w d = nth d (linear_rhs (tri_pd false) fixed (-1) A g b) 0) /\
    exists d, (d < length b)%nat /\ fixed d = false /\ matrix_times (pd_bs (tri_pd false)) A w d <> nth d b 0.
Proof.
  exists (fun d => (d =? 0)%nat), pair_matrix, [1; 0], [0; 0], [1; 1/2]. split; [reflexivity|]. split.
  - apply C130_linear_solution_exact; [intros rows cols block a c []|reflexivity|]. split; intros d Hd; change (d < 2)%nat in Hd; destruct d as [|[|d]]; try lia; try discriminate; intros _; [reflexivity|].
    change (pd_bs (tri_pd false)) with 1%nat. cbn [app]. rewrite !pair_times by lia. cbn. lra.
  - exists 1%nat. split; [cbn; lia|]. split; [reflexivity|]. change (pd_bs (tri_pd false)) with 1%nat. rewrite pair_times by lia. cbn. lra.
Qed.
(** With factor 1 the same data give the solution. *)
Example C130_nonvacuous : forall d, (d < 2)%nat -> system_times (tri_pd false) (fun d => (d =? 0)%nat) ([], pair_matrix) [1; -1/2] d = nth d (linear_rhs (tri_pd false) (fun d => (d =? 0)%nat) 1 pair_matrix [1; 0] [0; 0]) 0.
Proof.
  apply (C130_factor_one (tri_pd false) (fun d => (d =? 0)%nat) [] pair_matrix [1; 0] [0; 0] [1; -1/2]); [intros rows cols block a c []|reflexivity|]. split; intros d Hd; change (d < 2)%nat in Hd; destruct d as [|[|d]]; try lia; try discriminate; intros _; [reflexivity|].
  change (pd_bs (tri_pd false)) with 1%nat. cbn [app]. rewrite !pair_times by lia. cbn. lra.
Qed.
Print Assumptions C130_linear_solution_exact.
Print Assumptions C130_factor_one.
Print Assumptions C130_factor_minus_one_partial.
Print Assumptions C130_factor_minus_one_refuted.
