(** Property C80: ContactProblem.crop_invalid_points removes the far points. *)
From Coq Require Import List Arith ZArith Lia Bool Reals Lra.
Import ListNotations.
From Verif Require Import Prelude PreludeLemmas RSum CropModel CropProps ContactProblemModel CropMethodModel.
Local Open Scope R_scope.

(** ** Specification *)
(** Gap and normal of point [q] of facet [f] of pair [i]: they stand in row [f] of
    the coefficients, after the four constants. *)
Definition stored_gap (nq gdim : nat) (ob : crop_object) (i f q : nat) : list R := slice (nth f (nth i (co_coeffs ob) []) []) (4 + q * gdim) gdim.
Definition stored_normal (nq gdim : nat) (ob : crop_object) (i f q : nat) : list R := slice (nth f (nth i (co_coeffs ob) []) []) (4 + nq * gdim + q * gdim) gdim.
(** The entry of the contact map for a point. *)
Definition mapped (maps : list (adj Z)) (i f q : nat) : Z := let m := nth i maps (mkAdj [] []) in nth (nth f (adj_off m) 0%nat + q) (adj_data m) 0%Z.
(** The maps [maps'] result from [maps] by marking exactly the invalid points. *)
Definition cropped (num_pairs : nat) (num_facets : nat -> nat) (nq gdim : nat) (tol : R) (ob : crop_object) (maps' : list (adj Z)) : Prop :=
  forall i f q, (i < num_pairs)%nat -> (f < num_facets i)%nat -> (q < nq)%nat ->
    let bad := invalid tol (stored_gap nq gdim ob i f q) (stored_normal nq gdim ob i f q) in
    (bad -> mapped maps' i f q = (-1)%Z) /\ (~ bad -> mapped maps' i f q = mapped (co_maps ob) i f q).
(** The object as generate_contact_data leaves it. *)
Definition generated_object (num_pairs : nat) (num_facets : nat -> nat) (nq gdim : nat) (ob : crop_object) : Prop :=
  co_ready ob = true /\ length (co_maps ob) = num_pairs /\
  forall i, (i < num_pairs)%nat -> (num_facets i <= length (nth i (co_coeffs ob) []))%nat /\
    (forall row, In row (nth i (co_coeffs ob) []) -> (4 + 2 * (nq * gdim) <= length row)%nat) /\ rows_ok (num_facets i) nq (nth i (co_maps ob) (mkAdj [] [])).

(** ** The method *)
(** It never returns when there is a pair: the arrays it hands over have two axes.
    Nothing is cropped. *)
Theorem C80_crop_method_raises_exact :
  forall (num_pairs : nat) (num_facets : nat -> nat) (nq gdim : nat) (tol : R) (ob : crop_object),
    crop_method num_pairs num_facets nq gdim tol ob =
    (if (num_pairs =? 0)%nat then Returned else if co_ready ob then TypeError else AttributeError, ob).
Proof.
  intros [|n] num_facets nq gdim tol ob; [reflexivity|]. cbn [Nat.eqb]. unfold crop_method.
  assert (H0 : crop_pair num_facets nq gdim tol 0 ob = (if co_ready ob then TypeError else AttributeError, ob)).
  { unfold crop_pair. destruct (co_ready ob); reflexivity. }
  induction n as [|n IH]; rewrite for_loop_S; [exact H0|]. rewrite IH. cbn [fst]. destruct (co_ready ob); reflexivity.
Qed.
Print Assumptions C80_crop_method_raises_exact.

Lemma nth_read_block a b M r c : (r < length M)%nat -> (a + c < b)%nat -> nth c (nth r (read_block (a, b) M) []) 0 = nth (a + c) (nth r M []) 0.
Proof.
  intros Hr Hc. unfold read_block. cbn [fst snd].
  rewrite (nth_indep _ [] (map (fun c => nth c [] 0) (seq a (b - a)))) by now rewrite map_length. rewrite (map_nth (fun row => map (fun c => nth c row 0) (seq a (b - a)))).
  rewrite (nth_indep _ 0 (nth 0 (nth r M []) 0)) by (rewrite map_length, seq_length; lia). rewrite (map_nth (fun c => nth c (nth r M []) 0)), seq_nth by lia. reflexivity.
Qed.
Lemma read_block_row a b M r : In r (read_block (a, b) M) -> length r = (b - a)%nat.
Proof. unfold read_block. cbn [fst snd]. intros H. apply in_map_iff in H as (x & <- & _). now rewrite map_length, seq_length. Qed.
Lemma concat_length_uniform (M : list (list R)) n : (forall r, In r M -> length r = n) -> length (concat M) = (length M * n)%nat.
Proof. induction M as [|r M IH]; intros H; [reflexivity|]. cbn [concat length]. rewrite app_length, IH, (H r (or_introl eq_refl)) by (intros x Hx; apply H; now right). reflexivity. Qed.
Lemma nth_concat_uniform (M : list (list R)) n r c : (forall x, In x M -> length x = n) -> (r < length M)%nat -> (c < n)%nat -> nth (r * n + c) (concat M) 0 = nth c (nth r M []) 0.
Proof.
  revert r. induction M as [|x M IH]; intros r H Hr Hc; cbn [length] in Hr; [lia|]. cbn [concat]. assert (Lx : length x = n) by (apply H; now left).
  destruct r as [|r]; cbn [nth Nat.mul Nat.add].
  - now rewrite app_nth1 by lia.
  - rewrite app_nth2 by lia. replace (n + r * n + c - length x)%nat with (r * n + c)%nat by lia. apply IH; auto; [|lia]. intros; apply H; now right.
Qed.
Lemma point_of_columns a nq gdim M f q : (f < length M)%nat -> (q < nq)%nat -> (forall row, In row M -> (a + nq * gdim <= length row)%nat) ->
  point_vector nq gdim (concat (read_block (a, (a + nq * gdim)%nat) M)) f q = slice (nth f M []) (a + q * gdim) gdim.
Proof.
  intros Hf Hq HL. set (A := read_block (a, (a + nq * gdim)%nat) M). unfold point_vector.
  assert (LA : length A = length M) by (unfold A, read_block; now rewrite map_length).
  assert (RA : forall x, In x A -> length x = (nq * gdim)%nat) by (intros x Hx; apply read_block_row in Hx; lia).
  assert (LC : length (concat A) = (length M * (nq * gdim))%nat) by (rewrite (concat_length_uniform _ _ RA); now rewrite LA).
  assert (B1 : ((f * nq + q) * gdim + gdim <= length (concat A))%nat) by (rewrite LC; assert (f * nq + q + 1 <= length M * nq)%nat by nia; pose proof (Nat.mul_le_mono_r _ _ gdim H); nia).
  assert (B2 : (a + q * gdim + gdim <= length (nth f M []))%nat) by (specialize (HL (nth f M []) ltac:(now apply nth_In)); assert (q * gdim + gdim <= nq * gdim)%nat by nia; lia).
  apply (nth_ext _ _ 0 0); [now rewrite !slice_length by lia|]. rewrite slice_length by lia. intros k Hk. rewrite !nth_slice by auto.
  replace ((f * nq + q) * gdim + k)%nat with (f * (nq * gdim) + (q * gdim + k))%nat by ring.
  rewrite (nth_concat_uniform A (nq * gdim)); auto; [|lia|nia]. unfold A. rewrite nth_read_block; [now rewrite Nat.add_assoc|auto|nia].
Qed.

(** Refuted: after the call the points are still there. *)
Theorem C80_crop_removes_far_points_refuted :
  ~ (forall (num_pairs : nat) (num_facets : nat -> nat) (nq gdim : nat) (tol : R) (ob : crop_object), generated_object num_pairs num_facets nq gdim ob ->
       cropped num_pairs num_facets nq gdim tol ob (co_maps (snd (crop_method num_pairs num_facets nq gdim tol ob)))).
Proof.
  intros H. set (ob := mkCropObject true [[[0; 0; 0; 0; 2; 0; 1; 0]]] [mkAdj [5%Z] [0; 1]%nat]).
  assert (G : generated_object 1 (fun _ => 1%nat) 1 2 ob).
  { split; [reflexivity|]. split; [reflexivity|]. intros i Hi. assert (i = 0)%nat as -> by lia. split; [cbn; lia|]. split.
    - intros row [<-|[]]. cbn. lia.
    - split; [|cbn; lia]. intros f Hf. assert (f = 0)%nat as -> by lia. cbn. lia. }
  specialize (H 1%nat (fun _ => 1%nat) 1%nat 2%nat 1 ob G 0%nat 0%nat 0%nat (Nat.lt_0_succ 0) (Nat.lt_0_succ 0) (Nat.lt_0_succ 0)). rewrite C80_crop_method_raises_exact in H. destruct H as [H _].
  assert (B : invalid 1 (stored_gap 1 2 ob 0 0 0) (stored_normal 1 2 ob 0 0 0)).
  { left. unfold stored_gap, length2. cbn. replace (2 * 2 + (0 * 0 + 0)) with (2 * 2) by ring. rewrite sqrt_square by lra. lra. }
  specialize (H B). cbn in H. discriminate.
Qed.
Print Assumptions C80_crop_removes_far_points_refuted.

(** With the columns flattened the base class does what the method promises. *)
Theorem C80_flat_arrays_crop :
  forall (num_pairs : nat) (num_facets : nat -> nat) (nq gdim : nat) (tol : R) (ob : crop_object), generated_object num_pairs num_facets nq gdim ob ->
    exists maps, base_crop_all num_pairs num_facets nq gdim tol ob = Some maps /\ cropped num_pairs num_facets nq gdim tol ob maps.
Proof.
  intros num_pairs num_facets nq gdim tol ob (_ & Lm & HG). unfold base_crop_all.
  set (step := fun i o => _).
  assert (X : forall n, (n <= num_pairs)%nat -> exists maps, for_loop n step (Some (co_maps ob)) = Some maps /\ length maps = num_pairs /\
    forall i, (i < n -> forall f q, (f < num_facets i)%nat -> (q < nq)%nat ->
       let bad := invalid tol (stored_gap nq gdim ob i f q) (stored_normal nq gdim ob i f q) in
       (bad -> mapped maps i f q = (-1)%Z) /\ (~ bad -> mapped maps i f q = mapped (co_maps ob) i f q))%nat /\ (n <= i -> nth i maps (mkAdj [] []) = nth i (co_maps ob) (mkAdj [] []))%nat).
  { induction n as [|n IH]; intros Hn; [exists (co_maps ob); repeat split; auto; intros; lia|].
    destruct IH as (maps & E & L & X); [lia|]. rewrite for_loop_S, E. unfold step at 1. unfold base_crop. cbn [flat nd_shape length Nat.eqb andb]. eexists. split; [reflexivity|].
    split; [now rewrite upd_length|]. intros i. split.
    - intros Hi. destruct (Nat.eq_dec i n) as [->|Hne].
      + destruct (X n) as [_ X2]. specialize (X2 (le_n n)). destruct (HG n ltac:(lia)) as (H1 & H2 & H3). intros f q Hf Hq.
        set (M := nth n (co_coeffs ob) []) in *. cbv zeta. unfold mapped. rewrite nth_upd_same by lia. rewrite X2. cbn [nd_data flat].
        replace (4 + 2 * (nq * gdim))%nat with (4 + nq * gdim + nq * gdim)%nat by lia.
        set (c1 := concat (read_block (4%nat, (4 + nq * gdim)%nat) M)). set (c2 := concat (read_block ((4 + nq * gdim)%nat, (4 + nq * gdim + nq * gdim)%nat) M)).
        assert (L1 : length c1 = (length M * (nq * gdim))%nat). { unfold c1. rewrite (concat_length_uniform _ (nq * gdim)); [unfold read_block; now rewrite map_length|]. intros r Hr. apply read_block_row in Hr. lia. }
        assert (L2 : length c2 = (length M * (nq * gdim))%nat). { unfold c2. rewrite (concat_length_uniform _ (nq * gdim)); [unfold read_block; now rewrite map_length|]. intros r Hr. apply read_block_row in Hr. lia. }
        destruct (C22_crop_invalid_points (num_facets n) nq gdim c1 c2 tol (nth n (co_maps ob) (mkAdj [] [])) ltac:(congruence) ltac:(rewrite L1; nia) H3) as (O & _ & P & _).
        specialize (P f q Hf Hq). cbv zeta in P.
        assert (G1 : point_vector nq gdim c1 f q = stored_gap nq gdim ob n f q) by (apply point_of_columns; [lia|auto|intros row Hr; specialize (H2 row Hr); lia]).
        assert (G2 : point_vector nq gdim c2 f q = stored_normal nq gdim ob n f q) by (apply point_of_columns; [lia|auto|intros row Hr; specialize (H2 row Hr); lia]).
        rewrite G1, G2 in P.
        change (columns 4 (4 + nq * gdim) M) with (mkArray [length M; (4 + nq * gdim - 4)%nat] c1). change (columns (4 + nq * gdim) (4 + nq * gdim + nq * gdim) M) with (mkArray [length M; (4 + nq * gdim + nq * gdim - (4 + nq * gdim))%nat] c2).
        cbn [nd_data]. cbn zeta. rewrite O. exact P.
      + destruct (X i) as [X1 _]. intros f q Hf Hq. specialize (X1 ltac:(lia) f q Hf Hq). cbv zeta in *. unfold mapped in *. rewrite nth_upd_other by auto. exact X1.
    - intros Hi. rewrite nth_upd_other by lia. apply X. lia. }
  destruct (X num_pairs (le_n _)) as (maps & E & _ & Y). exists maps. split; [exact E|]. intros i f q Hi Hf Hq. now apply (Y i).
Qed.
Print Assumptions C80_flat_arrays_crop.
