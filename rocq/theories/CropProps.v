(** Property C22: cropping removes exactly the invalid points. *)
From Coq Require Import List Arith ZArith Lia Bool Reals Lra.
Import ListNotations.
From Verif Require Import Prelude PreludeLemmas RSum CropModel.
Local Open Scope R_scope.

(** ** Specification *)

(** The gap vector of point [q] of facet [f], and the normal there. *)
Definition point_vector (nq gdim : nat) (a : list R) (f q : nat) : list R := slice a ((f * nq + q) * gdim) gdim.
Fixpoint dot (u v : list R) : R :=
  match u, v with
  | x :: u', y :: v' => x * y + dot u' v'
  | _, _ => 0
  end.
Definition length2 (u : list R) : R := sqrt (dot u u).

(** A contact point is invalid when the gap is longer than [tol], or is not
    negligible and encloses with the normal an angle whose cosine is below 0.7. *)
Definition invalid (tol : R) (gap n : list R) : Prop :=
  length2 gap > tol \/ (length2 gap > 1 / 10000000 /\ Rabs (dot gap n) < 7 / 10 * length2 gap).

(** Each row has room for all quadrature points, rows do not overlap. *)
Definition rows_ok (num_facets nq : nat) (m : adj Z) : Prop :=
  (forall f, (f < num_facets)%nat -> (nth f (adj_off m) 0 + nq <= nth (S f) (adj_off m) 0)%nat) /\
  (nth num_facets (adj_off m) 0 <= length (adj_data m))%nat.

(** ** Proofs *)
Lemma dot_rsum u v n : length u = n -> length v = n -> dot u v = rsum n (fun i => nth i u 0 * nth i v 0).
Proof.
  revert v n. induction u as [|x u IH]; intros [|y v] n Hu Hv; cbn in *; subst; try discriminate; auto.
  rewrite rsum_S_l. cbn [nth]. rewrite (IH v (length u)) by lia. reflexivity.
Qed.

Lemma dot_and_norm2_spec nq gdim gap n_y f q :
  length gap = length n_y -> ((f * nq + q) * gdim + gdim <= length gap)%nat ->
  dot_and_norm2 nq gdim gap n_y f q =
  (dot (point_vector nq gdim gap f q) (point_vector nq gdim n_y f q),
   dot (point_vector nq gdim gap f q) (point_vector nq gdim gap f q)).
Proof.
  intros Hl Hb. unfold dot_and_norm2.
  assert (G : forall m (F G : nat -> R) a b, for_loop m (fun i st => (fst st + F i, snd st + G i)) (a, b) = (a + rsum m F, b + rsum m G)).
  { induction m as [|m IH]; intros F G a b; [cbn; f_equal; ring|]. rewrite for_loop_S, IH. cbn [fst snd rsum]. f_equal; ring. }
  rewrite (G gdim (fun i => nth (f * nq * gdim + q * gdim + i)%nat gap 0 * nth (f * nq * gdim + q * gdim + i)%nat n_y 0)
             (fun i => nth (f * nq * gdim + q * gdim + i)%nat gap 0 * nth (f * nq * gdim + q * gdim + i)%nat gap 0)).
  unfold point_vector. rewrite !(dot_rsum _ _ gdim) by (apply slice_length; lia).
  f_equal; rewrite Rplus_0_l; apply rsum_ext; intros i Hi; rewrite !nth_slice by auto;
    replace ((f * nq + q) * gdim + i)%nat with (f * nq * gdim + q * gdim + i)%nat by ring; reflexivity.
Qed.

Section Crop.
  Context (num_facets nq gdim : nat) (gap n_y : list R).
  Hypothesis Hlen : length gap = length n_y.
  Hypothesis Hsize : (num_facets * nq * gdim <= length gap)%nat.

  Lemma crop_point_spec tol offsets f q data :
    (f < num_facets)%nat -> (q < nq)%nat ->
    (invalid tol (point_vector nq gdim gap f q) (point_vector nq gdim n_y f q) /\
     crop_point nq gdim gap n_y tol offsets f q data = upd data (nth f offsets 0 + q)%nat (-1)%Z) \/
    (~ invalid tol (point_vector nq gdim gap f q) (point_vector nq gdim n_y f q) /\
     crop_point nq gdim gap n_y tol offsets f q data = data).
  Proof.
    intros Hf Hq. unfold crop_point.
    assert (Hb : ((f * nq + q) * gdim + gdim <= num_facets * nq * gdim)%nat).
    { assert (f * nq + q + 1 <= num_facets * nq)%nat by nia. nia. }
    rewrite dot_and_norm2_spec by (auto; lia). cbn [fst snd].
    set (g := point_vector nq gdim gap f q). set (n := point_vector nq gdim n_y f q).
    change (sqrt (dot g g)) with (length2 g). unfold invalid, rlt.
    destruct (Rlt_dec tol (length2 g)) as [H|H].
    { left. split; auto. }
    destruct (Rlt_dec (1 / 10000000) (length2 g)) as [H1|H1].
    2:{ right. split; auto. intros [A|[A _]]; lra. }
    assert (Hp : 0 < length2 g) by lra.
    destruct (Rlt_dec (Rabs (dot g n) / length2 g) (7 / 10)) as [H2|H2].
    - left. split; auto. right. split; auto.
      apply (Rmult_lt_compat_r (length2 g)) in H2; auto. unfold Rdiv in H2. rewrite Rmult_assoc, Rinv_l, Rmult_1_r in H2 by lra. lra.
    - right. split; auto. intros [A|[_ A]]; [lra|]. apply H2.
      apply (Rmult_lt_reg_r (length2 g)); auto. unfold Rdiv. rewrite Rmult_assoc, Rinv_l, Rmult_1_r by lra. lra.
  Qed.
End Crop.

Lemma rows_disjoint num_facets nq m f f' q q' :
  rows_ok num_facets nq m -> (f < num_facets)%nat -> (f' < num_facets)%nat -> (q < nq)%nat -> (q' < nq)%nat ->
  (nth f (adj_off m) 0 + q = nth f' (adj_off m) 0 + q')%nat -> f = f' /\ q = q'.
Proof.
  intros [H _] Hf Hf' Hq Hq' E.
  assert (Hm : forall a b, (a < b)%nat -> (b <= num_facets)%nat -> (nth a (adj_off m) 0 + nq <= nth b (adj_off m) 0)%nat).
  { intros a b Hab. induction Hab as [|b Hab IH]; intros Hb; [apply H; lia|]. specialize (H b). lia. }
  destruct (Nat.lt_trichotomy f f') as [L|[->|L]]; [|lia|].
  - specialize (Hm f f' L). lia.
  - specialize (Hm f' f L). lia.
Qed.

Theorem C22_crop_invalid_points :
  forall (num_facets nq gdim : nat) (gap n_y : list R) (tol : R) (m : adj Z),
    length gap = length n_y -> (num_facets * nq * gdim <= length gap)%nat -> rows_ok num_facets nq m ->
    let m' := crop_invalid_points num_facets nq gdim gap n_y tol m in
    adj_off m' = adj_off m /\ length (adj_data m') = length (adj_data m) /\
    (forall f q, (f < num_facets)%nat -> (q < nq)%nat ->
       let p := (nth f (adj_off m) 0 + q)%nat in
       let bad := invalid tol (point_vector nq gdim gap f q) (point_vector nq gdim n_y f q) in
       (bad -> nth p (adj_data m') 0%Z = (-1)%Z) /\ (~ bad -> nth p (adj_data m') 0%Z = nth p (adj_data m) 0%Z)) /\
    (forall p, (forall f q, (f < num_facets)%nat -> (q < nq)%nat -> (nth f (adj_off m) 0 + q)%nat <> p) ->
       nth p (adj_data m') 0%Z = nth p (adj_data m) 0%Z).
Proof.
  intros num_facets nq gdim gap n_y tol m Hlen Hsize Hrows m'.
  assert (Hoff : forall f q, (f < num_facets)%nat -> (q < nq)%nat -> (nth f (adj_off m) 0 + q < length (adj_data m))%nat).
  { destruct Hrows as [H1 H2]. intros f q Hf Hq.
    assert (Hm : forall b, (f < b)%nat -> (b <= num_facets)%nat -> (nth f (adj_off m) 0 + nq <= nth b (adj_off m) 0)%nat).
    { intros b Hab. induction Hab as [|b Hab IH]; intros Hb; [apply H1; lia|]. specialize (H1 b). lia. }
    specialize (Hm num_facets). lia. }
  set (bad := fun f q => invalid tol (point_vector nq gdim gap f q) (point_vector nq gdim n_y f q)).
  (* state after finishing facets below F and points below Q of facet F *)
  set (Inv := fun F Q (data : list Z) => length data = length (adj_data m) /\
     (forall f q, (f < num_facets)%nat -> (q < nq)%nat ->
        let p := (nth f (adj_off m) 0 + q)%nat in
        ((f < F \/ (f = F /\ q < Q))%nat -> bad f q -> nth p data 0%Z = (-1)%Z) /\
        (~ (f < F \/ (f = F /\ q < Q))%nat \/ ~ bad f q -> nth p data 0%Z = nth p (adj_data m) 0%Z)) /\
     (forall p, (forall f q, (f < num_facets)%nat -> (q < nq)%nat -> (nth f (adj_off m) 0 + q)%nat <> p) ->
        nth p data 0%Z = nth p (adj_data m) 0%Z)).
  assert (Step : forall F Q data, (F < num_facets)%nat -> (Q < nq)%nat -> Inv F Q data ->
     Inv F (S Q) (crop_point nq gdim gap n_y tol (adj_off m) F Q data)).
  { intros F Q data HF HQ (I1 & I2 & I3).
    destruct (crop_point_spec num_facets nq gdim gap n_y Hlen Hsize tol (adj_off m) F Q data HF HQ) as [[B ->]|[B ->]].
    - split; [now rewrite upd_length|]. split.
      + intros f q Hf Hq. cbn zeta. rewrite nth_upd, I1.
        destruct (Nat.eqb_spec (nth F (adj_off m) 0 + Q)%nat (nth f (adj_off m) 0 + q)%nat) as [E|E]; cbn [andb].
        * destruct (rows_disjoint num_facets nq m F f Q q Hrows) as [<- <-]; auto.
          destruct (Nat.ltb_spec (nth F (adj_off m) 0 + Q)%nat (length (adj_data m))); [|specialize (Hoff F Q); lia].
          split; auto. intros [C|C]; [exfalso; apply C; right; lia|contradiction].
        * destruct (I2 f q Hf Hq) as [J1 J2]. split.
          -- intros C Hb. apply J1; auto. destruct C as [C|[-> C]]; [auto|]. right. split; auto.
             destruct (Nat.eq_dec q Q) as [->|]; [contradiction|lia].
          -- intros C. apply J2. destruct C as [C|C]; auto. left. intros D. apply C. destruct D as [D|[-> D]]; [auto|right; lia].
      + intros p Hp. rewrite nth_upd_other; auto.
    - split; auto. split; auto. intros f q Hf Hq. destruct (I2 f q Hf Hq) as [J1 J2]. split.
      + intros C Hb. apply J1; auto. destruct C as [C|[-> C]]; auto. right. split; auto.
        destruct (Nat.eq_dec q Q) as [->|]; [contradiction|lia].
      + intros C. apply J2. destruct C as [C|C]; auto. left. intros D. apply C. destruct D as [D|[-> D]]; [auto|right; lia]. }
  assert (Facet : forall F data, (F < num_facets)%nat -> Inv F O data ->
     Inv (S F) O (for_loop nq (fun q data => crop_point nq gdim gap n_y tol (adj_off m) F q data) data)).
  { intros F data HF HI.
    assert (K : Inv F nq (for_loop nq (fun q data => crop_point nq gdim gap n_y tol (adj_off m) F q data) data)).
    { apply (for_loop_inv (fun Q data => Inv F Q data)); auto. }
    destruct K as (K1 & K2 & K3). split; auto. split; auto. intros f q Hf Hq. destruct (K2 f q Hf Hq) as [J1 J2]. split.
    - intros C Hb. apply J1; auto. lia.
    - intros C. apply J2. destruct C as [C|C]; auto. left. lia. }
  assert (Fin : Inv num_facets O (adj_data m')).
  { apply (for_loop_inv (fun F data => Inv F O data)); auto.
    split; auto. split; auto. intros f q Hf Hq. split; auto. intros C. lia. }
  destruct Fin as (F1 & F2 & F3). split; auto. split; auto. split; auto.
  intros f q Hf Hq. destruct (F2 f q Hf Hq) as [J1 J2]. split; auto.
Qed.
Print Assumptions C22_crop_invalid_points.

(** Decide validity (classically available through the order on R). *)
Lemma invalid_dec tol g n : invalid tol g n \/ ~ invalid tol g n.
Proof.
  unfold invalid. destruct (Rgt_dec (length2 g) tol); auto. destruct (Rgt_dec (length2 g) (1 / 10000000)).
  - destruct (Rlt_dec (Rabs (dot g n)) (7 / 10 * length2 g)); auto. right. intros [A|[A B]]; lra.
  - right. intros [A|[A B]]; lra.
Qed.

Lemma rows_position num_facets nq (m : adj Z) p :
  (exists f q, (f < num_facets)%nat /\ (q < nq)%nat /\ (nth f (adj_off m) 0 + q)%nat = p) \/
  (forall f q, (f < num_facets)%nat -> (q < nq)%nat -> (nth f (adj_off m) 0 + q)%nat <> p).
Proof.
  induction num_facets as [|F IH].
  - right. intros f q H. lia.
  - destruct IH as [(f & q & Hf & H)|H]; [left; exists f, q; split; [lia|auto]|].
    destruct (Nat.le_decidable (nth F (adj_off m) 0%nat) p) as [L|L].
    + destruct (Nat.lt_decidable (p - nth F (adj_off m) 0)%nat nq) as [L'|L'].
      * left. exists F, (p - nth F (adj_off m) 0)%nat. lia.
      * right. intros f q Hf Hq. destruct (Nat.eq_dec f F) as [->|]; [lia|apply H; lia].
    + right. intros f q Hf Hq. destruct (Nat.eq_dec f F) as [->|]; [lia|apply H; lia].
Qed.

(** Cropping twice with the same data is cropping once. *)
Theorem C22_crop_idempotent :
  forall (num_facets nq gdim : nat) (gap n_y : list R) (tol : R) (m : adj Z),
    length gap = length n_y -> (num_facets * nq * gdim <= length gap)%nat -> rows_ok num_facets nq m ->
    let crop := crop_invalid_points num_facets nq gdim gap n_y tol in
    crop (crop m) = crop m.
Proof.
  intros num_facets nq gdim gap n_y tol m Hlen Hsize Hrows crop.
  destruct (C22_crop_invalid_points num_facets nq gdim gap n_y tol m Hlen Hsize Hrows) as (A1 & A2 & A3 & A4).
  fold crop in A1, A2, A3, A4.
  assert (Hrows' : rows_ok num_facets nq (crop m)).
  { destruct Hrows as [H1 H2]. unfold rows_ok. rewrite A1, A2. auto. }
  destruct (C22_crop_invalid_points num_facets nq gdim gap n_y tol (crop m) Hlen Hsize Hrows') as (B1 & B2 & B3 & B4).
  fold crop in B1, B2, B3, B4.
  enough (E : adj_data (crop (crop m)) = adj_data (crop m)).
  { destruct (crop (crop m)) as [d o], (crop m) as [d' o']. cbn in *. congruence. }
  apply (nth_ext' _ _ 0%Z); [lia|]. intros p Hp.
  destruct (rows_position num_facets nq m p) as [(f & q & Hf & Hq & <-)|H].
  - destruct (A3 f q Hf Hq) as [A5 A6], (B3 f q Hf Hq) as [B5 B6]. rewrite A1 in B5, B6.
    destruct (invalid_dec tol (point_vector nq gdim gap f q) (point_vector nq gdim n_y f q)) as [D|D].
    + rewrite A5, B5; auto.
    + rewrite B6; auto.
  - apply B4. rewrite A1. auto.
Qed.
Print Assumptions C22_crop_idempotent.

(** A point that survives a small tolerance survives a larger one. *)
Theorem C22_crop_monotone :
  forall (num_facets nq gdim : nat) (gap n_y : list R) (tol tol' : R) (m : adj Z) (p : nat),
    length gap = length n_y -> (num_facets * nq * gdim <= length gap)%nat -> rows_ok num_facets nq m -> tol' <= tol ->
    (0 <= nth p (adj_data (crop_invalid_points num_facets nq gdim gap n_y tol' m)) 0)%Z ->
    nth p (adj_data (crop_invalid_points num_facets nq gdim gap n_y tol m)) 0%Z
    = nth p (adj_data (crop_invalid_points num_facets nq gdim gap n_y tol' m)) 0%Z.
Proof.
  intros num_facets nq gdim gap n_y tol tol' m p Hlen Hsize Hrows Ht Hp.
  destruct (C22_crop_invalid_points num_facets nq gdim gap n_y tol m Hlen Hsize Hrows) as (A1 & A2 & A3 & A4).
  destruct (C22_crop_invalid_points num_facets nq gdim gap n_y tol' m Hlen Hsize Hrows) as (B1 & B2 & B3 & B4).
  destruct (rows_position num_facets nq m p) as [(f & q & Hf & Hq & <-)|H].
  - destruct (A3 f q Hf Hq) as [A5 A6], (B3 f q Hf Hq) as [B5 B6].
    destruct (invalid_dec tol' (point_vector nq gdim gap f q) (point_vector nq gdim n_y f q)) as [D|D].
    + rewrite B5 in Hp by auto. lia.
    + rewrite B6 by auto. apply A6. intros C. apply D. destruct C as [C|C]; [left; lra|right; auto].
  - rewrite A4, B4; auto.
Qed.
Print Assumptions C22_crop_monotone.

(** Two points in 2D: one kept, one cropped for its length. *)
Example C22_example :
  rows_ok 1 2 (mkAdj [5%Z; 7%Z] [0%nat; 2%nat]) /\
  adj_data (crop_invalid_points 1 2 2 [0; 1/2; 0; 3] [0; 1; 0; 1] 1 (mkAdj [5%Z; 7%Z] [0%nat; 2%nat])) = [5%Z; (-1)%Z].
Proof.
  split; [split; [intros [|f] H; cbn; lia|cbn; lia]|].
  assert (R1 : rows_ok 1 2 (mkAdj [5%Z; 7%Z] [0%nat; 2%nat])) by (split; [intros [|f] H; cbn; lia|cbn; lia]).
  destruct (C22_crop_invalid_points 1 2 2 [0; 1/2; 0; 3] [0; 1; 0; 1] 1 (mkAdj [5%Z; 7%Z] [0%nat; 2%nat])) as (A1 & A2 & A3 & _); [reflexivity|cbn; lia|auto|].
  assert (L1 : length2 [0; 1/2] = 1/2).
  { unfold length2. cbn [dot]. replace (0 * 0 + (1/2 * (1/2) + 0)) with (1/2 * (1/2)) by ring. apply sqrt_square. lra. }
  assert (L2 : length2 [0; 3] = 3).
  { unfold length2. cbn [dot]. replace (0 * 0 + (3 * 3 + 0)) with (3 * 3) by ring. apply sqrt_square. lra. }
  destruct (A3 0%nat 0%nat ltac:(lia) ltac:(lia)) as [_ B0]. destruct (A3 0%nat 1%nat ltac:(lia) ltac:(lia)) as [B1 _].
  set (r := adj_data (crop_invalid_points _ _ _ _ _ _ _)) in *. cbn [adj_data length] in A2.
  destruct r as [|x [|y [|z r]]]; try discriminate A2. cbn [adj_data adj_off nth Nat.add] in B0, B1.
  rewrite B0, B1; auto.
  - left. change (point_vector 2 2 [0; 1/2; 0; 3] 0 1) with [0; 3]. rewrite L2. lra.
  - change (point_vector 2 2 [0; 1/2; 0; 3] 0 0) with [0; 1/2]. change (point_vector 2 2 [0; 1; 0; 1] 0 0) with [0; 1].
    unfold invalid. rewrite L1. cbn [dot]. intros [H|[_ H]]; [lra|].
    replace (0 * 0 + (1 / 2 * 1 + 0)) with (1/2) in H by ring. rewrite Rabs_pos_eq in H; lra.
Qed.
