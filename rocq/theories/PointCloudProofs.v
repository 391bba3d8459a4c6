From Coq Require Import List Arith ZArith QArith Qminmax Lqa Lia Bool Permutation Sorted.
Import ListNotations.
From Verif Require Import Prelude PreludeLemmas PointCloudModel PointCloudSpec.
Local Open Scope nat_scope.

Lemma qltb_spec a b : qltb a b = true <-> (a < b)%Q.
Proof.
  unfold qltb. rewrite negb_true_iff. split.
  - intros H. apply Qnot_le_lt. intros C. apply Qle_bool_iff in C. congruence.
  - intros H. destruct (Qle_bool b a) eqn:E; auto. apply Qle_bool_iff in E.
    exfalso. eapply Qlt_not_le; eauto.
Qed.
Lemma qltb_false a b : qltb a b = false <-> (b <= a)%Q.
Proof.
  unfold qltb. rewrite negb_false_iff. apply Qle_bool_iff.
Qed.

Lemma Qsq_nonneg (a : Q) : (0 <= a * a)%Q.
Proof. nra. Qed.

Section Proofs.
  Variables (x : list pt) (r : Q) (x_fwd : list nat).
  Hypothesis Hsort : sort_result x x_fwd.
  Hypothesis Hr : (0 <= r)%Q.
  Local Notation n := (length x).
  Local Notation fwd := (fwd x_fwd).
  Local Notation point := (point x).

  Definition nearb (i j : nat) : bool :=
    qltb (sq_dist (px (point j) - px (point i)) (point i) (point j)) (r * r).

  Lemma fwd_len : length x_fwd = n.
  Proof. destruct Hsort as [HP _]. apply Permutation_length in HP. now rewrite seq_length in HP. Qed.

  Lemma fwd_nodup : NoDup x_fwd.
  Proof. destruct Hsort as [HP _]. eapply Permutation_NoDup; [apply Permutation_sym; eauto|apply seq_NoDup]. Qed.

  Lemma fwd_range k : k < n -> fwd k < n.
  Proof.
    intros H. destruct Hsort as [HP _].
    assert (In (fwd k) (seq 0 n)).
    { eapply Permutation_in; eauto. apply nth_In. rewrite fwd_len; auto. }
    apply in_seq in H0. lia.
  Qed.

  Lemma fwd_surj i : i < n -> exists k, k < n /\ fwd k = i.
  Proof.
    intros H. destruct Hsort as [HP _].
    assert (Hin : In i x_fwd).
    { eapply Permutation_in; [apply Permutation_sym; eauto|]. apply in_seq. lia. }
    apply (In_nth _ _ 0) in Hin. destruct Hin as (k & Hk & E).
    exists k. rewrite fwd_len in Hk. auto.
  Qed.

  Lemma fwd_inj a b : a < n -> b < n -> fwd a = fwd b -> a = b.
  Proof.
    intros Ha Hb E. pose proof fwd_nodup as ND.
    rewrite (NoDup_nth x_fwd 0) in ND. apply ND; auto; rewrite fwd_len; auto.
  Qed.

  Lemma fwd_mono a b : a <= b -> b < n -> (px (point (fwd a)) <= px (point (fwd b)))%Q.
  Proof.
    intros Hab Hb. destruct (Nat.eq_dec a b) as [->|Hne]; [lra|].
    destruct Hsort as [_ HS]. apply HS; lia.
  Qed.

  (** [x_rev] is the inverse permutation. *)
  Lemma x_rev_spec : length (x_rev x x_fwd) = n /\
    forall k, k < n -> nth (fwd k) (x_rev x x_fwd) 0 = k.
  Proof.
    unfold x_rev, npoints.
    apply (for_loop_inv (fun m rev => length rev = n /\
             forall k, k < m -> nth (fwd k) rev 0 = k)).
    - split; [apply repeat_length|]. lia.
    - intros i rev Hi [Hl Hinv]. split; [now rewrite upd_length|].
      intros k Hk. rewrite nth_upd.
      destruct (Nat.eqb_spec (fwd i) (fwd k)) as [E|E]; cbn [andb].
      + apply fwd_inj in E; [|lia|lia]. subst k.
        rewrite Hl. destruct (Nat.ltb_spec (fwd i) n) as [_|C]; auto.
        pose proof (fwd_range i Hi). lia.
      + apply Hinv. destruct (Nat.eq_dec k i); [subst; congruence|lia].
  Qed.

  Lemma x_rev_pos i : i < n -> nth i (x_rev x x_fwd) 0 < n /\ fwd (nth i (x_rev x x_fwd) 0) = i.
  Proof.
    intros Hi. destruct (fwd_surj i Hi) as (k & Hk & E). subst i.
    destruct x_rev_spec as [_ H]. rewrite H by auto. auto.
  Qed.

  (** Beyond the break nothing is near. *)
  Lemma far_fwd i k : (r < px (point (fwd k)) - px (point i))%Q -> forall m, k <= m -> m < n -> nearb i (fwd m) = false.
  Proof.
    intros H m Hkm Hm. unfold nearb. apply qltb_false.
    pose proof (fwd_mono k m Hkm Hm) as Hmono.
    unfold sq_dist.
    set (dx := (px (point (fwd m)) - px (point i))%Q) in *.
    assert (r <= dx)%Q by (unfold dx; lra).
    set (dy := (py (point (fwd m)) - py (point i))%Q).
    set (dz := (pz (point (fwd m)) - pz (point i))%Q).
    pose proof (Qsq_nonneg dy). pose proof (Qsq_nonneg dz).
    assert (r * r <= dx * dx)%Q by nra. lra.
  Qed.

  Lemma far_bwd i k : k < n -> (r < px (point i) - px (point (fwd k)))%Q -> forall m, m <= k -> nearb i (fwd m) = false.
  Proof.
    intros Hk H m Hm. unfold nearb. apply qltb_false.
    pose proof (fwd_mono m k Hm Hk) as Hmono.
    unfold sq_dist.
    set (dx := (px (point (fwd m)) - px (point i))%Q) in *.
    assert (r <= - dx)%Q by (unfold dx; lra).
    set (dy := (py (point (fwd m)) - py (point i))%Q).
    set (dz := (pz (point (fwd m)) - pz (point i))%Q).
    pose proof (Qsq_nonneg dy). pose proof (Qsq_nonneg dz).
    assert (r * r <= dx * dx)%Q by nra. lra.
  Qed.

  Lemma scan_fwd_spec fuel idx i acc : n <= fuel + idx ->
    scan_fwd x r x_fwd fuel idx i acc = acc ++ filter (nearb i) (map fwd (seq idx (n - idx))).
  Proof.
    revert idx acc; induction fuel as [|fuel IH]; intros idx acc Hf; cbn [scan_fwd].
    - replace (n - idx) with 0 by lia. cbn. now rewrite app_nil_r.
    - unfold npoints. destruct (Nat.ltb_spec idx n) as [Hlt|Hge].
      + destruct (qltb r _) eqn:Ebr.
        * apply qltb_spec in Ebr. rewrite filter_none; [now rewrite app_nil_r|].
          intros a Ha. apply in_map_iff in Ha. destruct Ha as (m & <- & Hm).
          apply in_seq in Hm. eapply far_fwd; eauto; lia.
        * rewrite IH by lia. replace (n - idx) with (S (n - S idx)) by lia.
          cbn [seq map filter]. unfold nearb at 2.
          change (PointCloudModel.fwd x_fwd idx) with (fwd idx).
          change (PointCloudModel.point x (fwd idx)) with (point (fwd idx)).
          destruct (qltb (sq_dist _ _ _) _); auto.
          now rewrite <- app_assoc.
      + replace (n - idx) with 0 by lia. cbn. now rewrite app_nil_r.
  Qed.

  (** Positions visited by the backward scan from [k]: k, k-1, ..., 1. *)
  Fixpoint down (k : nat) : list nat :=
    match k with 0 => [] | S k' => k :: down k' end.

  Lemma down_in k m : In m (down k) <-> 1 <= m <= k.
  Proof.
    induction k as [|k IH]; cbn [down In]; [lia|]. rewrite IH. lia.
  Qed.

  Lemma sq_dist_sym i j :
    qltb (sq_dist (px (point i) - px (point j)) (point i) (point j)) (r * r) = nearb i j.
  Proof.
    unfold nearb. apply eq_true_iff_eq. rewrite !qltb_spec. unfold sq_dist.
    assert (E : ((px (point i) - px (point j)) * (px (point i) - px (point j)) ==
            (px (point j) - px (point i)) * (px (point j) - px (point i)))%Q) by ring.
    split; intros H; lra.
  Qed.

  Lemma scan_bwd_spec fuel k i acc : k <= fuel -> k < n ->
    scan_bwd x r x_fwd fuel (Z.of_nat k) i acc = acc ++ filter (nearb i) (map fwd (down k)).
  Proof.
    revert k acc; induction fuel as [|fuel IH]; intros k acc Hf Hk.
    - replace k with 0 by lia. cbn. now rewrite app_nil_r.
    - cbn [scan_bwd]. destruct k as [|k].
      + cbn. now rewrite app_nil_r.
      + replace (0 <? Z.of_nat (S k))%Z with true by (symmetry; apply Z.ltb_lt; lia).
        rewrite Nat2Z.id.
        destruct (qltb r _) eqn:Ebr.
        * apply qltb_spec in Ebr. rewrite filter_none; [now rewrite app_nil_r|].
          intros a Ha. apply in_map_iff in Ha. destruct Ha as (m & <- & Hm).
          apply down_in in Hm. eapply far_bwd; eauto; lia.
        * replace (Z.of_nat (S k) - 1)%Z with (Z.of_nat k) by lia.
          rewrite IH by lia. cbn [down map filter].
          rewrite sq_dist_sym.
          destruct (nearb i (fwd (S k))); auto. now rewrite <- app_assoc.
  Qed.

  Lemma scan_bwd_neg fuel i acc : scan_bwd x r x_fwd fuel (-1)%Z i acc = acc.
  Proof. destruct fuel; reflexivity. Qed.

  Definition row (i : nat) : list nat :=
    let p := nth i (x_rev x x_fwd) 0 in
    filter (nearb i) (map fwd (seq (p + 1) (n - (p + 1))))
    ++ filter (nearb i) (map fwd (down (p - 1))).

  Lemma step_spec i acc off : i < n ->
    point_cloud_step x r x_fwd i (acc, off) =
    (acc ++ row i, off ++ [length (acc ++ row i)]).
  Proof.
    intros Hi. unfold point_cloud_step. destruct (x_rev_pos i Hi) as [Hp _].
    set (p := nth i (x_rev x x_fwd) 0) in *.
    rewrite scan_fwd_spec by (unfold npoints; lia).
    assert (E : forall a, scan_bwd x r x_fwd (npoints x) (Z.of_nat p - 1) i a =
                a ++ filter (nearb i) (map fwd (down (p - 1)))).
    { intros a. destruct p as [|p'].
      - cbn [Z.of_nat Z.sub Z.add Z.opp]. rewrite scan_bwd_neg. cbn. now rewrite app_nil_r.
      - replace (Z.of_nat (S p') - 1)%Z with (Z.of_nat p') by lia.
        rewrite scan_bwd_spec by (unfold npoints; lia).
        replace (S p' - 1) with p' by lia. reflexivity. }
    rewrite E. unfold row. fold p. now rewrite <- app_assoc.
  Qed.

  Lemma pairs_spec :
    point_cloud_pairs x r x_fwd =
    mkAdj (concat (map row (seq 0 n))) (psums (map (@length nat) (map row (seq 0 n)))).
  Proof.
    unfold point_cloud_pairs.
    assert (G : for_loop n (point_cloud_step x r x_fwd) ([], [0]) =
            (concat (map row (seq 0 n)), psums (map (@length nat) (map row (seq 0 n))))).
    { apply (for_loop_inv (fun m st => st = (concat (map row (seq 0 m)), psums (map (@length nat) (map row (seq 0 m)))))); auto.
      intros i st Hi ->. rewrite step_spec by auto.
      rewrite seq_S, !map_app, concat_app. cbn [map concat app Nat.add].
      rewrite app_nil_r, psums_snoc. repeat f_equal.
      rewrite app_length, length_concat. reflexivity. }
    unfold npoints. rewrite G. reflexivity.
  Qed.

  Lemma pairs_links i : i < n -> links (point_cloud_pairs x r x_fwd) i = row i.
  Proof.
    intros Hi. rewrite pairs_spec, links_concat by (now rewrite map_length, seq_length).
    rewrite (nth_indep _ [] (row 0)) by (now rewrite map_length, seq_length).
    rewrite map_nth, seq_nth by auto. reflexivity.
  Qed.

  Lemma nearb_within i j : nearb i j = true <-> within x r i j.
  Proof.
    unfold nearb. rewrite qltb_spec. unfold within, dist2, sq_dist.
    fold (point i) (point j).
    assert (E : ((px (point j) - px (point i)) * (px (point j) - px (point i)) +
             (py (point j) - py (point i)) * (py (point j) - py (point i)) +
             (pz (point j) - pz (point i)) * (pz (point j) - pz (point i)) ==
             (px (point i) - px (point j)) * (px (point i) - px (point j)) +
             (py (point i) - py (point j)) * (py (point i) - py (point j)) +
             (pz (point i) - pz (point j)) * (pz (point i) - pz (point j)))%Q) by ring.
    split; intros; [rewrite <- E | rewrite E]; auto.
  Qed.

  (** Exact contents of the neighbour list of a point. *)
  Lemma row_in i j : i < n ->
    (In j (row i) <-> j < n /\ j <> i /\ within x r i j /\ j <> fwd 0).
  Proof.
    intros Hi. unfold row. destruct (x_rev_pos i Hi) as [Hp Ep].
    set (p := nth i (x_rev x x_fwd) 0) in *.
    rewrite in_app_iff, !filter_In, !in_map_iff. setoid_rewrite in_seq. setoid_rewrite down_in.
    rewrite !nearb_within.
    split.
    - intros [[(k & <- & Hk) Hw]|[(k & <- & Hk) Hw]].
      + repeat split; auto.
        * apply fwd_range; lia.
        * intros E. rewrite <- Ep in E. apply fwd_inj in E; lia.
        * intros E. apply fwd_inj in E; lia.
      + repeat split; auto.
        * apply fwd_range; lia.
        * intros E. rewrite <- Ep in E. apply fwd_inj in E; lia.
        * intros E. apply fwd_inj in E; lia.
    - intros (Hj & Hne & Hw & H0).
      destruct (fwd_surj j Hj) as (k & Hk & <-).
      destruct (Nat.lt_trichotomy k p) as [C|[C|C]].
      + right. split; auto. exists k. split; auto.
        assert (k <> 0) by (intros ->; congruence). lia.
      + subst k. congruence.
      + left. split; auto. exists k. split; auto. lia.
  Qed.

  Lemma NoDup_map_fwd l : NoDup l -> (forall k, In k l -> k < n) -> NoDup (map fwd l).
  Proof.
    induction 1 as [|a l Hn Hd IH]; cbn; intros H; constructor; auto.
    intros C. apply in_map_iff in C. destruct C as (k & E & Hk).
    apply fwd_inj in E; auto. subst. contradiction.
  Qed.

  Lemma down_nodup k : NoDup (down k).
  Proof.
    induction k; cbn; constructor; auto. rewrite down_in. lia.
  Qed.

  Lemma row_nodup i : i < n -> NoDup (row i).
  Proof.
    intros Hi. unfold row. destruct (x_rev_pos i Hi) as [Hp _].
    set (p := nth i (x_rev x x_fwd) 0) in *.
    apply NoDup_app_intro.
    - apply NoDup_filter', NoDup_map_fwd; [apply seq_NoDup|]. intros k Hk. apply in_seq in Hk. lia.
    - apply NoDup_filter', NoDup_map_fwd; [apply down_nodup|]. intros k Hk. apply down_in in Hk. lia.
    - intros z Hz Hz'. apply filter_In in Hz, Hz'.
      destruct Hz as [Hz _], Hz' as [Hz' _].
      apply in_map_iff in Hz, Hz'. destruct Hz as (k & <- & Hk), Hz' as (k' & E & Hk').
      apply in_seq in Hk. apply down_in in Hk'. apply fwd_inj in E; lia.
  Qed.
End Proofs.

(** [argsort_x] is one admissible order, so the theorems are not vacuous. *)
Lemma argsort_x_sort_result x : sort_result x (argsort_x x).
Proof.
  unfold sort_result, argsort_x. set (leb := fun a b => _).
  split; [apply isort_perm|].
  intros a b Hab Hb.
  assert (HS : StronglySorted (fun a b => leb a b = true) (isort leb (seq 0 (length x)))).
  { apply isort_sorted.
    - intros u v. unfold leb. rewrite !Qle_bool_iff. destruct (Qlt_le_dec (px (nth u x pt0)) (px (nth v x pt0))); [left|right]; lra.
    - intros u v w. unfold leb. rewrite !Qle_bool_iff. intros; lra. }
  apply Qle_bool_iff.
  apply (StronglySorted_nth _ _ 0 a b HS Hab).
  rewrite isort_length, seq_length. exact Hb.
Qed.
