(** C81: the curves of the split-box generators start and end at the cut's ends. *)
From Coq Require Import List Arith Lia Reals Lra.
Import ListNotations.
From Verif Require Import SplitBoxModel SplitBoxSpec SplitBoxProps.
Local Open Scope R_scope.

(** np.linspace(0, 1, n + 1) (split_box.py:541, 553, 612, 626), in exact arithmetic. *)
Definition linspace01 (n : nat) : list R := map (fun i => INR i / INR n) (seq 0 (S n)).
(** split_box.py:25-31. *)
Definition vertical_line (t : list R) (x0 x1 : R * R) : list (R * R) :=
  map (fun tt => (fst x0, snd x0 + tt * (snd x1 - snd x0))) t.
(** split_box.py:34-40. *)
Definition horizontal_line (t : list R) (x0 x1 : R * R) : list (R * R) :=
  map (fun tt => (fst x0 + tt * (fst x1 - fst x0), snd x0 + tt * (snd x1 - snd x0))) t.
(** split_box.py:43-54. *)
Definition horizontal_sine (t : list R) (x0 x1 : R * R) : list (R * R) :=
  map (fun tt => (fst x0 + tt * (fst x1 - fst x0), snd x0 + tt * (snd x1 - snd x0) + / 10 * sin (8 * PI * tt))) t.

(** A curve of n segments from x0 to x1. *)
Definition joins (n : nat) (x0 x1 : R * R) (c : list (R * R)) : Prop :=
  length c = S n /\ nth_error c 0 = Some x0 /\ nth_error c n = Some x1.

Lemma map_curve (f : R -> R * R) n x0 x1 : (0 < n)%nat -> f 0 = x0 -> f 1 = x1 -> joins n x0 x1 (map f (linspace01 n)).
Proof.
  intros Hn H0 H1. unfold joins, linspace01. rewrite map_map, map_length, seq_length. split; [reflexivity|].
  assert (N : forall i, (i <= n)%nat -> nth_error (map (fun i => f (INR i / INR n)) (seq 0 (S n))) i = Some (f (INR i / INR n))).
  { intros i Hi. apply (map_nth_error (fun i => f (INR i / INR n))). rewrite nth_error_nth' with (d := 0%nat) by (rewrite seq_length; lia). now rewrite seq_nth by lia. }
  rewrite !N by lia. split; f_equal.
  - rewrite <- H0. f_equal. cbn [INR]. unfold Rdiv. apply Rmult_0_l.
  - rewrite <- H1. f_equal. field. apply not_0_INR; lia.
Qed.

Theorem C81_curve_ends :
  forall n x0 x1, (0 < n)%nat ->
    joins n x0 x1 (horizontal_line (linspace01 n) x0 x1)
    /\ joins n x0 x1 (horizontal_sine (linspace01 n) x0 x1)
    /\ (joins n x0 x1 (vertical_line (linspace01 n) x0 x1) <-> fst x0 = fst x1).
Proof.
  intros n [a b] [c d] Hn. cbn [fst snd]. split; [|split].
  - apply map_curve; [exact Hn|..]; cbn [fst snd]; f_equal; ring.
  - apply map_curve; [exact Hn|..]; cbn [fst snd]; f_equal; try ring.
    + rewrite Rmult_0_r, sin_0. ring.
    + replace (8 * PI * 1) with (0 + 2 * INR 4 * PI) by (cbn [INR]; ring). rewrite sin_period, sin_0. ring.
  - split.
    + intros (_ & _ & H). pose proof (map_curve (fun tt => (a, b + tt * (d - b))) n (a, b) (a, d) Hn) as (_ & _ & K); [f_equal; ring|f_equal; ring|].
      unfold vertical_line in H. cbn [fst snd] in H. rewrite K in H. now injection H.
    + intros ->. apply map_curve; [exact Hn|..]; cbn [fst snd]; f_equal; ring.
Qed.
Print Assumptions C81_curve_ends.

(** With such a curve the outline keeps every vertex of the domain. *)
Theorem C81_outline_keeps_vertices :
  forall (point : nat -> R * R) (domain : list nat) (n : nat) (curve out : list (R * R)),
    joins n (point 4%nat) (point 5%nat) curve -> outline_of point domain curve out ->
    forall d, In d domain -> In (point d) out.
Proof.
  intros point domain n curve out (_ & J0 & J1) H d Hd.
  apply nth_error_In in J0, J1.
  assert (R : forall x y rest, rotation domain (x :: y :: rest) -> d = x \/ d = y \/ In d rest).
  { intros x y rest (u & v & -> & E). assert (In d (x :: y :: rest)) as [K|[K|K]].
    - rewrite E. apply in_app_or in Hd. apply in_or_app. tauto.
    - left; symmetry; exact K.
    - right; left; symmetry; exact K.
    - right; right; exact K. }
  destruct H as [rest H|rest H]; apply R in H; destruct H as [H|[H|H]]; apply in_or_app; try (subst d).
  1,2: left; assumption.
  2,3: left; apply -> in_rev; assumption.
  all: right; apply in_map; exact H.
Qed.
Print Assumptions C81_outline_keeps_vertices.

Example C81_curve_example : joins 2 (2, 0) (2, 1) (vertical_line (linspace01 2) (2, 0) (2, 1)).
Proof. apply C81_curve_ends; [lia|reflexivity]. Qed.
