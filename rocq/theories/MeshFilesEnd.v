(** C135: every run of the processes comes to an end, and then all of them have returned. *)
From Coq Require Import List Arith Lia Bool.
Import ListNotations.
From Verif Require Import MeshFilesModel MeshFilesProps.

(** A run of [k] steps. *)
Inductive run (n : nat) (s : run_state) : nat -> run_state -> Prop :=
| Run0 : run n s 0 s
| RunStep k t t' : run n s k t -> step n t t' -> run n s (S k) t'.
Lemma run_reaches n s k t : run n s k t -> reaches n s t.
Proof. induction 1; [constructor | econstructor; eassumption]. Qed.

(** Operations left, over all processes. *)
Fixpoint left_over (n : nat) (td : nat -> program) : nat := match n with 0 => 0 | S n => left_over n td + length (td n) end.
Lemma left_ext n a b : (forall r, r < n -> a r = b r) -> left_over n a = left_over n b.
Proof. induction n as [|n IH]; intros H; [reflexivity|]. cbn [left_over]. rewrite IH by (intros; apply H; lia). now rewrite (H n) by lia. Qed.
Lemma left_less n a b r : (forall q, q < n -> length (b q) <= length (a q)) -> r < n -> length (b r) < length (a r) -> left_over n b < left_over n a.
Proof.
  intros H Hr L. assert (W : forall m, m <= n -> left_over m b <= left_over m a).
  { induction m as [|m IH]; intros Hm; [reflexivity|]. cbn [left_over]. specialize (IH ltac:(lia)). specialize (H m ltac:(lia)). lia. }
  revert H Hr W. induction n as [|n IH]; intros H Hr W; [lia|]. cbn [left_over].
  destruct (Nat.eq_dec r n) as [->|].
  - specialize (W n ltac:(lia)). lia.
  - assert (X : left_over n b < left_over n a) by (apply IH; [intros; apply H; lia | lia | intros; apply W; lia]).
    specialize (H n ltac:(lia)). lia.
Qed.
Lemma step_less n s t : 0 < n -> step n s t -> left_over n (todo t) < left_over n (todo s).
Proof.
  intros Hn St. destruct St as [s r0 g rest Hr E | s r0 g rest Hr E | s All]; cbn [todo].
  - apply (left_less n _ _ r0); [| exact Hr | now rewrite Nat.eqb_refl, E; cbn [length]; lia].
    intros q _. destruct (Nat.eqb_spec q r0) as [->|]; [rewrite E; cbn [length]; lia | lia].
  - apply (left_less n _ _ r0); [| exact Hr | now rewrite Nat.eqb_refl, E; cbn [length]; lia].
    intros q _. destruct (Nat.eqb_spec q r0) as [->|]; [rewrite E; cbn [length]; lia | lia].
  - apply (left_less n _ _ 0); [| exact Hn |].
    + intros q Hq. destruct (All q Hq) as [rest ->]. cbn [tl length]. lia.
    + destruct (All 0 Hn) as [rest ->]. cbn [tl length]. lia.
Qed.

(** However the processes are scheduled, a run has no more steps than there are operations; where it can go no further all
    processes have returned, and every file some process writes is there. *)
Theorem C135_every_run_ends :
  forall n (p : nat -> program), 0 < n -> (forall r r', r < n -> r' < n -> barriers (p r) = barriers (p r')) ->
    forall k t, run n (start p) k t ->
      k <= left_over n p /\
      ((forall u, ~ step n t u) ->
         (forall rank, rank < n -> todo t rank = []) /\
         forall rank f, rank < n -> In (WriteFile f) (p rank) -> In f (files t)).
Proof.
  intros n p Hn B k t R. split.
  - assert (X : k + left_over n (todo t) <= left_over n p).
    { induction R as [|k t t' R IH St]; [cbn [start todo]; lia|]. pose proof (step_less n t t' Hn St). lia. }
    lia.
  - intros Stuck. pose proof (run_reaches n _ k t R) as Re.
    assert (D : forall rank, rank < n -> todo t rank = []).
    { intros rank Hr. destruct (todo t rank) as [|o l] eqn:E; [reflexivity|]. exfalso.
      destruct (C135_no_deadlock n p t B Re) as [u Su]; [exists rank; split; [exact Hr | rewrite E; discriminate]|]. exact (Stuck u Su). }
    split; [exact D|]. intros rank f Hr W. destruct (own_writes n p t Re rank Hr) as (dn & Ed & Wd).
    apply Wd. rewrite D, app_nil_r in Ed by exact Hr. now rewrite <- Ed.
Qed.
Print Assumptions C135_every_run_ends.

(** Two processes through the generator: a run of four steps to the end, of five operations. *)
Example C135_run_to_the_end :
  left_over 2 (fun r => contact_mesh 7 r ++ [ReadFile 7]) = 5 /\
  exists t, run 2 (start (fun r => contact_mesh 7 r ++ [ReadFile 7])) 4 t /\ (forall u, ~ step 2 t u) /\ files t = [7].
Proof.
  split; [reflexivity|]. eexists. split; [|split].
  - eapply RunStep; [eapply RunStep; [eapply RunStep; [eapply RunStep; [apply Run0|]|]|]|].
    + apply (StepWrite 2 _ 0 7 [Barrier; ReadFile 7]); [lia | reflexivity].
    + apply StepBarrier. intros r Hr. exists [ReadFile 7]. assert (E : r = 0 \/ r = 1) by lia. destruct E as [-> | ->]; reflexivity.
    + apply (StepRead 2 _ 1 7 []); [lia | reflexivity].
    + apply (StepRead 2 _ 0 7 []); [lia | reflexivity].
  - intros u St. inversion St as [s r0 g rest Hr E | s r0 g rest Hr E | s All]; subst.
    + assert (X : r0 = 0 \/ r0 = 1) by lia. destruct X as [-> | ->]; discriminate E.
    + assert (X : r0 = 0 \/ r0 = 1) by lia. destruct X as [-> | ->]; discriminate E.
    + destruct (All 0 ltac:(lia)) as [rest E]. discriminate E.
  - reflexivity.
Qed.

(** meshing/utils.py:24-33: process 0 raises while reading, so it never enters the barrier.  Under every schedule all other
    processes are still in front of it. *)
Theorem C134_failure_blocks_others :
  forall n f (rest : nat -> program) t rank, 0 < rank < n ->
    reaches n (start (fun r => if (r =? 0)%nat then [ReadFile f] else Barrier :: rest r)) t -> todo t rank = Barrier :: rest rank.
Proof.
  intros n f rest t rank Hr Re. assert (Hn : 0 < n) by lia.
  assert (X : ~ In Barrier (todo t 0) /\ forall r, 0 < r -> todo t r = Barrier :: rest r).
  { clear rank Hr. induction Re as [|t u Re [N0 Nr] St].
    - cbn [start todo Nat.eqb]. split; [intros [H|[]]; discriminate H|]. intros r Hr. destruct (Nat.eqb_spec r 0); [lia | reflexivity].
    - destruct St as [s r0 g l Hr0 E | s r0 g l Hr0 E | s All]; cbn [todo].
      + destruct r0 as [|r0]; [|rewrite Nr in E by lia; discriminate E]. cbn [Nat.eqb]. split; [intros H; apply N0; rewrite E; now right|].
        intros r Hr. destruct r; [lia | cbn [Nat.eqb]; apply Nr; lia].
      + destruct r0 as [|r0]; [|rewrite Nr in E by lia; discriminate E]. cbn [Nat.eqb]. split; [intros H; apply N0; rewrite E; now right|].
        intros r Hr. destruct r; [lia | cbn [Nat.eqb]; apply Nr; lia].
      + exfalso. destruct (All 0 Hn) as [l E]. apply N0. rewrite E. now left. }
  apply X. lia.
Qed.
Print Assumptions C134_failure_blocks_others.
