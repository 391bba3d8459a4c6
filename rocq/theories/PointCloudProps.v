(** Properties C01 and C02: neighbour search in a point cloud. *)
From Coq Require Import List Arith ZArith QArith Lqa Lia Permutation.
Import ListNotations.
From Verif Require Import Prelude PreludeLemmas PointCloudModel PointCloudSpec PointCloudProofs.
Local Open Scope nat_scope.

(** C01.  Everything reported is a different point of the cloud, strictly within
    [r], and reported once. *)
Theorem C01_point_cloud_sound :
  forall (x : list pt) (r : Q) (order : list nat) (i j : nat),
    (0 <= r)%Q -> sort_result x order -> i < length x ->
    In j (links (point_cloud_pairs x r order) i) ->
    j < length x /\ j <> i /\ within x r i j /\
    NoDup (links (point_cloud_pairs x r order) i).
Proof.
  intros x r order i j Hr Hs Hi Hin. rewrite pairs_links in * by auto.
  pose proof (row_nodup x r order Hs i Hi). apply row_in in Hin; auto. tauto.
Qed.
Print Assumptions C01_point_cloud_sound.

(** C02 (partial).  Exactly the points strictly within [r] are reported, except
    that the point at position 0 of the sorted order is never reported to
    anybody.  What is missing with respect to the full claim is exactly the last
    conjunct. *)
Theorem C02_point_cloud_complete_partial :
  forall (x : list pt) (r : Q) (order : list nat) (i j : nat),
    (0 <= r)%Q -> sort_result x order -> i < length x ->
    (In j (links (point_cloud_pairs x r order) i) <->
     j < length x /\ j <> i /\ within x r i j /\ j <> nth 0 order 0).
Proof.
  intros x r order i j Hr Hs Hi. rewrite pairs_links by auto. apply row_in; auto.
Qed.
Print Assumptions C02_point_cloud_complete_partial.

(** Consequently the relation is symmetric between points that are not first in
    the sorted order. *)
Theorem C02_point_cloud_symmetric_partial :
  forall (x : list pt) (r : Q) (order : list nat) (i j : nat),
    (0 <= r)%Q -> sort_result x order -> i < length x ->
    i <> nth 0 order 0 ->
    In j (links (point_cloud_pairs x r order) i) ->
    In i (links (point_cloud_pairs x r order) j).
Proof.
  intros x r order i j Hr Hs Hi Hi0 H.
  rewrite C02_point_cloud_complete_partial in H by auto. destruct H as (Hj & Hne & Hw & _).
  rewrite C02_point_cloud_complete_partial by auto. repeat split; auto.
  unfold within, dist2 in *. lra.
Qed.
Print Assumptions C02_point_cloud_symmetric_partial.

Lemma two_points_order order :
  sort_result [(0, 0, 0)%Q; (1, 0, 0)%Q] order -> nth 0 order 0 = 0.
Proof.
  intros [HP HS].
  pose proof (Permutation_length HP) as HL; cbn in HL.
  destruct order as [|a [|b [|c o]]]; cbn in HL; try lia.
  assert (Ha : In a (seq 0 2)) by (eapply Permutation_in; [exact HP|left; auto]).
  assert (Hb : In b (seq 0 2)) by (eapply Permutation_in; [exact HP|right; left; auto]).
  apply Permutation_sym, Permutation_NoDup in HP; [|apply seq_NoDup].
  inversion HP as [|? ? Hn _]; subst.
  specialize (HS 0 1 ltac:(lia) ltac:(cbn; lia)).
  apply in_seq in Ha; apply in_seq in Hb.
  destruct a as [|a]; auto. exfalso.
  assert (a = 0) by lia. subst. assert (b <> 1) by (intros ->; apply Hn; cbn; auto).
  assert (b = 0) by lia. subst. cbn in HS. lra.
Qed.

(** The full claim fails: two points at distance 1 with radius 2, the right one
    is reported to the left one but not conversely, whatever the sort does. *)
Theorem C02_point_cloud_symmetric_refuted :
  exists (x : list pt) (r : Q) (i j : nat),
    (0 <= r)%Q /\ i < length x /\ j < length x /\ i <> j /\
    within x r i j /\ within x r j i /\
    forall order, sort_result x order ->
      In j (links (point_cloud_pairs x r order) i) /\
      ~ In i (links (point_cloud_pairs x r order) j).
Proof.
  exists [(0, 0, 0)%Q; (1, 0, 0)%Q], 2%Q, 0, 1.
  assert (Hw : within [(0, 0, 0)%Q; (1, 0, 0)%Q] 2 0 1) by (unfold within, dist2; cbn; lra).
  assert (Hw' : within [(0, 0, 0)%Q; (1, 0, 0)%Q] 2 1 0) by (unfold within, dist2; cbn; lra).
  repeat split; try (cbn; lia); auto; try lra.
  - apply C02_point_cloud_complete_partial; auto; cbn; try lia; try lra.
    pose proof (two_points_order _ H). repeat split; auto; lia.
  - intros C. apply C02_point_cloud_complete_partial in C; auto; cbn; try lia; try lra.
    destruct C as (_ & _ & _ & C). pose proof (two_points_order _ H). congruence.
Qed.
Print Assumptions C02_point_cloud_symmetric_refuted.

(** Non-vacuity: a concrete cloud with ties and an admissible order. *)
Example C01_example_hyps :
  sort_result [(3,0,0); (1,0,0); (3,1,0); (0,5,0); (2,0,0)]%Q
    (argsort_x [(3,0,0); (1,0,0); (3,1,0); (0,5,0); (2,0,0)]%Q).
Proof. apply argsort_x_sort_result. Qed.

Example C01_example_run :
  let x := [(3,0,0); (1,0,0); (3,1,0); (0,5,0); (2,0,0)]%Q in
  map (links (point_cloud_pairs x (3#2)%Q (argsort_x x))) (seq 0 5)
  = [[2; 4]; [4]; [0; 4]; []; [0; 2; 1]].
Proof. vm_compute. reflexivity. Qed.

(** Non-vacuity of the refutation's consequence: sorted position 0 within
    radius, and missing from the other list. *)
Example C02_example_run :
  let x := [(1,0,0); (0,0,0)]%Q in
  map (links (point_cloud_pairs x 2%Q (argsort_x x))) (seq 0 2) = [[]; [0]].
Proof. vm_compute. reflexivity. Qed.
