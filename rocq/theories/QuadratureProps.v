(** Property C56: slices of a quadrature rule. *)
From Coq Require Import List Arith Lia Bool Reals Lra.
Import ListNotations.
From Verif Require Import Prelude PreludeLemmas RSum QuadratureModel.
Local Open Scope R_scope.

Lemma sum_nat_const {A} (l : list A) t : sum_nat (map (fun _ => t) l) = (length l * t)%nat.
Proof. induction l as [|a l IH]; [reflexivity|]. cbn [map length]. change (sum_nat (t :: map (fun _ => t) l)) with (t + sum_nat (map (fun _ => t) l))%nat. rewrite IH. lia. Qed.

Lemma push_forward_length npts nverts tdim phi coords : length (push_forward npts nverts tdim phi coords) = (npts * tdim)%nat.
Proof.
  unfold push_forward. rewrite flat_map_concat_map, length_concat, map_map.
  rewrite (map_ext _ (fun _ => tdim)) by (intros; now rewrite map_length, seq_length).
  now rewrite sum_nat_const, seq_length.
Qed.

Lemma facets_state tdim num_sub qw nverts phi coords :
  qrule_facets tdim num_sub qw nverts phi coords =
  {| qr_points := concat (map (fun i => push_forward (length (qw i)) (nverts i) tdim (phi i) (coords i)) (seq 0 num_sub));
     qr_weights := concat (map qw (seq 0 num_sub)); qr_offset := psums (map (fun i => length (qw i)) (seq 0 num_sub)) |}.
Proof.
  unfold qrule_facets. set (body := fun i s => _).
  assert (H : for_loop num_sub body ([], [], repeat 0%nat num_sub) =
    (concat (map (fun i => push_forward (length (qw i)) (nverts i) tdim (phi i) (coords i)) (seq 0 num_sub)),
     concat (map qw (seq 0 num_sub)), map (fun i => length (qw i)) (seq 0 num_sub))).
  { assert (G : forall m, (m <= num_sub)%nat -> for_loop m body ([], [], repeat 0%nat num_sub) =
      (concat (map (fun i => push_forward (length (qw i)) (nverts i) tdim (phi i) (coords i)) (seq 0 m)),
       concat (map qw (seq 0 m)), map (fun i => length (qw i)) (seq 0 m) ++ repeat 0%nat (num_sub - m))).
    { induction m as [|m IH]; intros Hm; [now rewrite Nat.sub_0_r|]. rewrite for_loop_S, IH by lia. unfold body. rewrite seq_S, !map_app, !concat_app. cbn [map concat].
      rewrite !app_nil_r. f_equal.
      replace (num_sub - m)%nat with (S (num_sub - S m)) by lia. cbn [repeat].
      set (l := map _ (seq 0 m)). rewrite <- app_assoc. cbn [app].
      assert (Hl : length l = m) by (unfold l; now rewrite map_length, seq_length).
      clearbody l. cbn [Nat.add]. generalize (length (qw m)) (repeat 0%nat (num_sub - S m)). intros y z. clear -Hl. subst m. induction l as [|a l IH]; [reflexivity|]. cbn [length upd app]. f_equal. apply IH. }
    rewrite G by lia. now rewrite Nat.sub_diag, app_nil_r. }
  now rewrite H.
Qed.

Lemma nth_psums_map f num i : (i <= num)%nat -> nth i (psums (map f (seq 0 num))) 0%nat = sum_nat (map f (seq 0 i)).
Proof.
  intros H. rewrite psums_nth by (rewrite map_length, seq_length; lia). rewrite firstn_map. do 2 f_equal.
  replace num with (i + (num - i))%nat by lia. rewrite seq_app, firstn_app, seq_length, Nat.sub_diag, firstn_all2 by (rewrite seq_length; lia). cbn. apply app_nil_r.
Qed.

Lemma concat_map_slice {A} (f : nat -> list A) num i : (i < num)%nat ->
  slice (concat (map f (seq 0 num))) (sum_nat (map (fun k => length (f k)) (seq 0 i))) (length (f i)) = f i.
Proof.
  intros H. replace num with (i + S (num - S i))%nat by lia. rewrite seq_app, map_app, concat_app. cbn [seq map concat].
  replace (sum_nat (map (fun k => length (f k)) (seq 0 i))) with (length (concat (map f (seq 0 i)))) by (rewrite length_concat, map_map; reflexivity).
  rewrite Nat.add_0_l. apply slice_app_mid.
Qed.

(** For each facet the slices are exactly that facet's weights and pushed
    forward points, and the slices of all facets, one after the other, are all
    the weights and points: so they are consecutive and disjoint. *)
Theorem C56_facet_slices :
  forall tdim num_sub qw nverts phi coords,
    let r := qrule_facets tdim num_sub qw nverts phi coords in
    (forall i, (i < num_sub)%nat ->
       qr_num_points r i = length (qw i) /\ qr_weights_of r i = qw i /\
       length (qr_points_of tdim r i) = (qr_num_points r i * tdim)%nat /\
       (forall q c, (q < qr_num_points r i)%nat -> (c < tdim)%nat ->
          nth (q * tdim + c) (qr_points_of tdim r i) 0 = rsum (nverts i) (fun v => phi i q v * coords i v c)) /\
       nth 0 (qr_offset r) 0%nat = 0%nat /\ nth (S i) (qr_offset r) 0%nat = (nth i (qr_offset r) 0%nat + qr_num_points r i)%nat) /\
    concat (map (qr_weights_of r) (seq 0 num_sub)) = qr_weights r /\
    concat (map (qr_points_of tdim r) (seq 0 num_sub)) = qr_points r /\
    length (qr_points r) = (length (qr_weights r) * tdim)%nat.
Proof.
  intros tdim num_sub qw nverts phi coords r. unfold r. rewrite facets_state.
  set (pf := fun i => push_forward (length (qw i)) (nverts i) tdim (phi i) (coords i)).
  set (r' := {| qr_points := _ |}).
  assert (Hnp : forall i, (i < num_sub)%nat -> qr_num_points r' i = length (qw i)).
  { intros i Hi. unfold qr_num_points, r'. cbn [qr_offset]. rewrite !nth_psums_map by lia. rewrite Nat.add_1_r, seq_S, map_app, sum_nat_app. cbn. lia. }
  assert (Hw : forall i, (i < num_sub)%nat -> qr_weights_of r' i = qw i).
  { intros i Hi. unfold qr_weights_of. rewrite Hnp by auto. unfold r'. cbn [qr_offset qr_weights]. rewrite nth_psums_map by lia. now apply (concat_map_slice qw). }
  assert (Hpf : forall i, length (pf i) = (length (qw i) * tdim)%nat) by (intros; apply push_forward_length).
  assert (Hsum : forall l, sum_nat (map (fun k => length (pf k)) l) = (sum_nat (map (fun k => length (qw k)) l) * tdim)%nat).
  { induction l as [|a l IH]; [reflexivity|].
    change (length (pf a) + sum_nat (map (fun k => length (pf k)) l) = (length (qw a) + sum_nat (map (fun k => length (qw k)) l)) * tdim)%nat.
    rewrite Hpf, IH. lia. }
  assert (Hp : forall i, (i < num_sub)%nat -> qr_points_of tdim r' i = pf i).
  { intros i Hi. unfold qr_points_of. rewrite Hnp by auto. unfold r'. cbn [qr_offset qr_points]. rewrite nth_psums_map by lia. rewrite <- Hsum, <- Hpf. now apply (concat_map_slice pf). }
  split; [|split; [|split]].
  - intros i Hi. rewrite Hp, Hw, Hnp by auto. split; [reflexivity|]. split; [reflexivity|]. split; [apply Hpf|]. split; [|split].
    + intros q c Hq Hc. unfold pf, push_forward.
      generalize (length (qw i)) Hq. clear -Hc. intros npts Hq.
      rewrite flat_map_concat_map. set (f := fun q => map _ (seq 0 tdim)).
      assert (Hf : forall k, length (f k) = tdim) by (intros; unfold f; now rewrite map_length, seq_length).
      assert (S : slice (concat (map f (seq 0 npts))) (q * tdim) tdim = f q).
      { pose proof (concat_map_slice f npts q Hq) as X. rewrite Hf, (map_ext _ (fun _ => tdim) Hf), sum_nat_const, seq_length in X. exact X. }
      rewrite <- (nth_slice _ (q * tdim) tdim c 0 Hc), S. unfold f. rewrite (nth_map_lt _ (seq 0 tdim) c 0 0%nat) by (now rewrite seq_length). rewrite seq_nth by auto. reflexivity.
    + unfold r'. cbn [qr_offset]. apply psums_0.
    + unfold r'. cbn [qr_offset]. rewrite !nth_psums_map by lia. rewrite seq_S, map_app, sum_nat_app. cbn. lia.
  - unfold r' at 2. cbn [qr_weights]. f_equal. apply map_ext_in. intros i Hi. apply in_seq in Hi. apply Hw. lia.
  - unfold r' at 2. cbn [qr_points]. f_equal. apply map_ext_in. intros i Hi. apply in_seq in Hi. apply Hp. lia.
  - unfold r'. cbn [qr_points qr_weights]. rewrite !length_concat, !map_map. apply Hsum.
Qed.
Print Assumptions C56_facet_slices.

(** KernelData slices the same arrays in the same way. *)
Theorem C56_kernel_data_slices :
  forall tdim num_sub qw nverts phi coords i, (i < num_sub)%nat ->
    let r := qrule_facets tdim num_sub qw nverts phi coords in kd_weights (qr_offset r) (qr_weights r) i = qw i.
Proof. intros tdim num_sub qw nverts phi coords i Hi r. destruct (C56_facet_slices tdim num_sub qw nverts phi coords) as [H _]. exact (proj1 (proj2 (H i Hi))). Qed.
Print Assumptions C56_kernel_data_slices.

Lemma copy_row (src p : list R) base off n :
  (base + n <= length p)%nat -> 
  let p' := for_loop n (fun k p => upd p (base + k) (nth (off + k) src 0)) p in
  length p' = length p /\ forall q, nth q p' 0 = if ((base <=? q) && (q <? base + n))%nat then nth (off + (q - base)) src 0 else nth q p 0.
Proof.
  intros Hlen. induction n as [|n IH].
  - cbn zeta. split; [reflexivity|]. intros q. destruct (Nat.leb_spec base q), (Nat.ltb_spec q (base + 0)); cbn [andb]; auto; lia.
  - cbn zeta. rewrite for_loop_S. destruct IH as [IH1 IH2]; [lia|]. set (p1 := for_loop n _ p) in *. split; [now rewrite upd_length|].
    intros q. rewrite nth_upd, IH1, IH2.
    destruct (Nat.eqb_spec (base + n) q) as [<-|Hne].
    + destruct (Nat.ltb_spec (base + n) (length p)); [|lia]. destruct (Nat.leb_spec base (base + n)), (Nat.ltb_spec (base + n) (base + S n)); try lia. cbn [andb].
      do 2 f_equal. lia.
    + cbn [andb]. destruct (Nat.leb_spec base q), (Nat.ltb_spec q (base + n)), (Nat.ltb_spec q (base + S n)); cbn [andb]; auto; lia.
Qed.

(** On the cell itself (one sub-entity) the rule is the reference rule. *)
Theorem C56_cell_rule :
  forall tdim qp qw, length qp = (length qw * tdim)%nat ->
    let r := qrule_cell tdim 1 qp qw in
    qr_weights_of r 0 = qw /\ qr_points_of tdim r 0 = qp /\ qr_weights r = qw /\ qr_points r = qp /\ qr_num_points r 0 = length qw.
Proof.
  intros tdim qp qw Hqp r.
  assert (E : r = {| qr_points := qp; qr_weights := qw; qr_offset := [0%nat; length qw] |}).
  { unfold r, qrule_cell. rewrite !Nat.mul_1_r. set (n := length qw) in *. change (for_loop 1 ?f ?s) with (f 0%nat s). cbv beta iota.
    set (body := fun j s => _).
    assert (G : exists p w, for_loop n body (repeat 0 (n * tdim), repeat 0 n) = (p, w) /\ p = qp /\ w = qw).
    { assert (I : (fun j (s : list R * list R) => length (fst s) = (n * tdim)%nat /\ length (snd s) = n /\
          (forall q, (q < j * tdim)%nat -> nth q (fst s) 0 = nth q qp 0) /\ (forall q, (q < j)%nat -> nth q (snd s) 0 = nth q qw 0)) n (for_loop n body (repeat 0 (n * tdim), repeat 0 n))).
      { apply (for_loop_inv (fun j (s : list R * list R) => length (fst s) = (n * tdim)%nat /\ length (snd s) = n /\
          (forall q, (q < j * tdim)%nat -> nth q (fst s) 0 = nth q qp 0) /\ (forall q, (q < j)%nat -> nth q (snd s) 0 = nth q qw 0))).
        - cbn [fst snd]. rewrite !repeat_length. repeat split; auto; intros; lia.
        - intros j [p w] Hj (H1 & H2 & H3 & H4). cbn [fst snd] in *. unfold body. rewrite !Nat.mul_0_l, !Nat.add_0_l. cbn [fst snd].
          destruct (copy_row qp p (j * tdim) (j * tdim) tdim) as [C1 C2]; [nia|]. cbn zeta in C1, C2.
          rewrite upd_length. split; [now rewrite C1|]. split; [auto|]. split.
          + intros q Hq. rewrite C2. destruct (Nat.leb_spec (j * tdim) q), (Nat.ltb_spec q (j * tdim + tdim)); cbn [andb]; try (f_equal; lia); try lia; apply H3; lia.
          + intros q Hq. rewrite nth_upd. destruct (Nat.eqb_spec j q) as [->|]; cbn [andb]; [|apply H4; lia]. destruct (Nat.ltb_spec q (length w)); [reflexivity|lia]. }
      destruct (for_loop n body _) as [p w]. destruct I as (H1 & H2 & H3 & H4). cbn [fst snd] in *. exists p, w. split; [reflexivity|]. split.
      - apply (nth_ext' _ _ 0); [now rewrite H1, Hqp|]. intros i Hi. apply H3. lia.
      - apply (nth_ext' _ _ 0); [now rewrite H2|]. intros i Hi. apply H4. lia. }
    destruct G as (p & w & -> & -> & ->). cbn [repeat Nat.add upd Nat.mul]. now rewrite Nat.add_0_r. }
  rewrite E. unfold qr_weights_of, qr_points_of, qr_num_points. cbn [qr_offset qr_weights qr_points nth Nat.add]. rewrite !Nat.sub_0_r, Nat.mul_0_l, <- Hqp.
  unfold slice. cbn [skipn]. rewrite !firstn_all. auto.
Qed.
Print Assumptions C56_cell_rule.

(** A prism-like rule: facets with different numbers of points. *)
Example C56_nonvacuous :
  let r := qrule_facets 3 3 (fun i => repeat (1 / 2) (1 + 2 * i)) (fun i => 3 + i)%nat (fun _ _ _ => 1) (fun _ _ _ => 1) in
  qr_offset r = [0; 1; 4; 9]%nat /\ length (qr_weights_of r 2) = 5%nat.
Proof. cbn. split; reflexivity. Qed.
