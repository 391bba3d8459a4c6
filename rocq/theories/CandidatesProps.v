(** Property C57: candidate facets are those within the radius, nearest first. *)
From Coq Require Import List Arith ZArith Lia Bool Reals Lra Permutation Sorted.
Import ListNotations.
From Verif Require Import Prelude PreludeLemmas RSum CropModel CandidatesModel.
Local Open Scope R_scope.

(** ** Specification *)

(** Euclidean distance of midpoint [j] of [qm] and midpoint [i] of [cm]. *)
Definition distance (qm cm : list R) (j i : nat) : R :=
  let x k := nth (3 * j + k)%nat qm 0 - nth (3 * i + k)%nat cm 0 in
  sqrt (x 0%nat * x 0%nat + x 1%nat * x 1%nat + x 2%nat * x 2%nat).

(** ** Proofs *)
Lemma rlt_true a b : rlt a b = true <-> a < b.
Proof. unfold rlt. destruct (Rlt_dec a b); split; auto; try discriminate; contradiction. Qed.
Lemma rlt_false a b : rlt a b = false <-> b <= a.
Proof. unfold rlt. destruct (Rlt_dec a b); split; intros; try discriminate; auto; lra. Qed.

Lemma abs_sq x : Rabs x * Rabs x = x * x.
Proof. rewrite <- Rabs_mult. apply Rabs_pos_eq. nra. Qed.

Lemma midpoint_dist_spec qm cm j i : midpoint_dist qm cm j i = distance qm cm j i * distance qm cm j i /\ 0 <= distance qm cm j i.
Proof.
  split; [|apply sqrt_pos]. unfold distance. cbn zeta.
  assert (H : forall a b c : R, 0 <= a * a + b * b + c * c) by (intros; nra).
  rewrite sqrt_sqrt by apply H.
  unfold midpoint_dist, for_loop, for_range, for_each. cbn [seq fold_left]. rewrite !abs_sq.
  rewrite !(Nat.mul_comm 3). ring.
Qed.

Lemma near_spec qm cm j i radius : 0 <= radius -> rlt (midpoint_dist qm cm j i) (radius * radius) = true <-> distance qm cm j i < radius.
Proof.
  intros Hr. destruct (midpoint_dist_spec qm cm j i) as [E H]. rewrite rlt_true, E. split; intros; nra.
Qed.

Lemma select_spec (P : nat -> bool) (f : nat -> R) n :
  for_loop n (fun i st => if P i then (fst st ++ [i], snd st ++ [f i]) else st) ([], [])
  = (filter P (seq 0 n), map f (filter P (seq 0 n))).
Proof.
  induction n as [|n IH]; [reflexivity|]. rewrite for_loop_S, IH, seq_S, filter_app. cbn [Nat.add filter].
  destruct (P n); cbn [fst snd]; [rewrite map_app; reflexivity|rewrite app_nil_r; reflexivity].
Qed.

Lemma map_nth_seq (l : list nat) : map (fun p => nth p l 0%nat) (seq 0 (length l)) = l.
Proof.
  apply (nth_ext' _ _ 0%nat); [now rewrite map_length, seq_length|]. intros i Hi. rewrite map_length, seq_length in Hi.
  rewrite (nth_map_lt _ (seq 0 (length l)) i 0%nat 0%nat) by (now rewrite seq_length). rewrite seq_nth; auto.
Qed.

Theorem C57_candidate_facets :
  forall (qm cm : list R) (n : nat) (radius : R),
    let r := find_candidate_facets qm cm n radius in
    NoDup r /\
    (forall i, In i r <-> (i < n)%nat /\ (radius < 0 \/ distance qm cm 0 i < radius)) /\
    StronglySorted (fun i j => distance qm cm 0 i <= distance qm cm 0 j) r.
Proof.
  intros qm cm n radius r.
  set (P := fun i => rlt radius 0 || rlt (midpoint_dist qm cm 0 i) (radius * radius)).
  set (sel := filter P (seq 0 n)).
  set (f := fun i => midpoint_dist qm cm 0 i).
  set (leb := fun i j => negb (rlt (nth j (map f sel) 0) (nth i (map f sel) 0))).
  assert (Er : r = map (fun p => nth p sel 0%nat) (isort leb (seq 0 (length sel)))).
  { unfold r, find_candidate_facets. rewrite (select_spec P f). reflexivity. }
  assert (Hperm : Permutation r sel).
  { rewrite Er. rewrite (Permutation_map _ (isort_perm leb (seq 0 (length sel)))). rewrite map_nth_seq. reflexivity. }
  assert (Hsel : forall i, In i sel <-> (i < n)%nat /\ (radius < 0 \/ distance qm cm 0 i < radius)).
  { intros i. unfold sel. rewrite filter_In, in_seq. unfold P. rewrite orb_true_iff, rlt_true.
    destruct (Rlt_dec radius 0) as [L|L].
    - split; intros [H1 H2]; (split; [lia|auto]).
    - rewrite near_spec by lra. split; intros [H1 H2]; (split; [lia|destruct H2; auto; lra]). }
  split; [|split].
  - apply (Permutation_NoDup (Permutation_sym Hperm)). unfold sel. apply NoDup_filter', seq_NoDup.
  - intros i. rewrite <- Hsel. split; apply Permutation_in; auto using Permutation_sym.
  - rewrite Er.
    assert (Hs : StronglySorted (fun a b => leb a b = true) (isort leb (seq 0 (length sel)))).
    { apply isort_sorted.
      - intros a b. unfold leb. rewrite !negb_true_iff, !rlt_false. lra.
      - intros a b c. unfold leb. rewrite !negb_true_iff, !rlt_false. lra. }
    assert (Hin : forall p, In p (isort leb (seq 0 (length sel))) -> (p < length sel)%nat).
    { intros p Hp. apply isort_in in Hp. apply in_seq in Hp. lia. }
    revert Hs Hin. generalize (isort leb (seq 0 (length sel))) as l. induction l as [|a l IH]; intros Hs Hin; cbn [map]; constructor.
    + inversion Hs; subst. apply IH; auto. intros; apply Hin; right; auto.
    + inversion Hs as [|? ? _ Hf]; subst. apply Forall_forall. intros x Hx. apply in_map_iff in Hx. destruct Hx as (b & <- & Hb).
      rewrite Forall_forall in Hf. specialize (Hf b Hb). unfold leb in Hf. rewrite negb_true_iff, rlt_false in Hf.
      rewrite (nth_map_lt f sel a 0 0%nat) in Hf by (apply Hin; left; auto).
      rewrite (nth_map_lt f sel b 0 0%nat) in Hf by (apply Hin; right; auto).
      unfold f in Hf.
      destruct (midpoint_dist_spec qm cm 0 (nth a sel 0%nat)) as [Ea Ha], (midpoint_dist_spec qm cm 0 (nth b sel 0%nat)) as [Eb Hb'].
      rewrite Ea, Eb in Hf. nra.
Qed.
Print Assumptions C57_candidate_facets.

(** The surface segment: each candidate within the radius of some quadrature
    facet, in the given order, once. *)
Theorem C57_surface_segment :
  forall (qm cm : list R) (nqf : nat) (candidates : list nat) (radius : R),
    let r := find_candidate_surface_segment qm cm nqf candidates radius in
    exists idx, r = map (fun i => nth i candidates 0%nat) idx /\ StronglySorted lt idx /\
      forall i, In i idx <-> (i < length candidates)%nat /\
        (radius < 0 \/ exists j, (j < nqf)%nat /\ distance qm cm j i < radius).
Proof.
  intros qm cm nqf candidates radius r.
  assert (Hss : forall (P : nat -> bool) n, StronglySorted lt (filter P (seq 0 n))).
  { intros P n. assert (G : forall a, StronglySorted lt (filter P (seq a n))).
    { induction n as [|n IH]; intros a; [constructor|]. cbn [seq filter].
      destruct (P a); auto. constructor; auto. apply Forall_forall. intros x Hx. apply filter_In in Hx.
      destruct Hx as [Hx _]. apply in_seq in Hx. lia. }
    apply G. }
  unfold r, find_candidate_surface_segment. destruct (rlt radius 0) eqn:E.
  - exists (seq 0 (length candidates)). split; [symmetry; apply map_nth_seq|]. split.
    + pose proof (Hss (fun _ => true) (length candidates)) as H. replace (filter (fun _ : nat => true) (seq 0 (length candidates))) with (seq 0 (length candidates)) in H; auto.
      symmetry. generalize (seq 0 (length candidates)) as l. induction l as [|x l IHl]; cbn [filter]; congruence.
    + intros i. rewrite in_seq. apply rlt_true in E. split; [intros; split; [lia|auto]|intros; lia].
  - exists (filter (fun i => near_any qm cm (radius * radius) i (seq 0 nqf)) (seq 0 (length candidates))).
    split; [|split; auto].
    + apply (for_loop_inv (fun n acc => acc = map (fun i => nth i candidates 0%nat)
         (filter (fun i => near_any qm cm (radius * radius) i (seq 0 nqf)) (seq 0 n)))); auto.
      intros i acc Hi ->. rewrite seq_S, filter_app, map_app. cbn [Nat.add filter].
      destruct (near_any qm cm (radius * radius) i (seq 0 nqf)); auto. cbn. now rewrite app_nil_r.
    + intros i. rewrite filter_In, in_seq. apply rlt_false in E.
      assert (N : forall js, near_any qm cm (radius * radius) i js = true <-> exists j, In j js /\ distance qm cm j i < radius).
      { induction js as [|j js IH]; cbn [near_any].
        - split; [discriminate|intros (j & [] & _)].
        - destruct (rlt (midpoint_dist qm cm j i) (radius * radius)) eqn:D.
          + split; auto. intros _. exists j. split; [left; auto|]. apply near_spec; auto.
          + rewrite IH. split.
            * intros (j' & Hj & H). exists j'. split; [right; auto|auto].
            * intros (j' & [<-|Hj] & H); [|exists j'; auto]. apply near_spec in H; auto. congruence. }
      rewrite N. split.
      * intros [H (j & Hj & H')]. split; [lia|]. right. exists j. apply in_seq in Hj. split; [lia|auto].
      * intros [H [H'|(j & Hj & H')]]; [lra|]. split; [lia|]. exists j. split; [apply in_seq; lia|auto].
Qed.
Print Assumptions C57_surface_segment.

(** Candidates at distances 3, 1 and 9 from the origin; radius 5 keeps the first
    two. *)
Example C57_example :
  In 0%nat (find_candidate_facets [0; 0; 0] [3; 0; 0; 0; 1; 0; 0; 0; 9] 3 5) /\
  ~ In 2%nat (find_candidate_facets [0; 0; 0] [3; 0; 0; 0; 1; 0; 0; 0; 9] 3 5).
Proof.
  destruct (C57_candidate_facets [0; 0; 0] [3; 0; 0; 0; 1; 0; 0; 0; 9] 3 5) as (_ & H & _).
  rewrite !H. unfold distance. cbn [Nat.mul Nat.add nth]. split.
  - split; [lia|]. right. replace (_ + _) with (3 * 3) by ring. rewrite sqrt_square; lra.
  - intros [_ [L|L]]; [lra|]. replace (_ + _) with (9 * 9) in L by ring. rewrite sqrt_square in L; lra.
Qed.
