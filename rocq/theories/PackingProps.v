(** Properties C16-C18: packed opposite-surface data. *)
From Coq Require Import List Arith ZArith Lia Bool Sorted Permutation Reals Lra.
Import ListNotations.
From Verif Require Import Prelude PreludeLemmas Scatter RSum SubMeshModel SubMeshProofs SubMeshProps
  EntitiesModel EntitiesProofs EntitiesProps PackingModel PackingProofs.

(** ** Specification vocabulary *)

(** The parent cell behind a submesh contact facet. *)
Definition contact_cell (facet_map : adj nat) (parent : list nat) (f : Z) : nat :=
  nth (nth 0 (links facet_map (Z.to_nat f)) 0) parent 0.

(** Quadrature point [q] of a facet has its contact facet in linked cell [link]. *)
Definition in_link (facet_map : adj nat) (parent : list nat) (row : list Z) (q link : nat) : Prop :=
  let linked := linked_cells row facet_map parent in
  (0 <= nth q row (-1))%Z /\ link < length linked /\
  nth link linked 0 = contact_cell facet_map parent (nth q row (-1)%Z).

(** Number of points before [q] that have a contact facet. *)
Definition found_before (row : list Z) (q : nat) : nat :=
  length (filter (fun f => Z.leb 0 f) (firstn q row)).

Lemma linked_cells_in fm pc row c :
  In c (linked_cells row fm pc) <-> exists f, In f row /\ (0 <= f)%Z /\ contact_cell fm pc f = c.
Proof.
  rewrite linked_cells_unfold, sort_unique_nat_in, in_map_iff. split.
  - intros (f & E & Hf). apply filter_In in Hf. destruct Hf as [Hf L]. apply Z.leb_le in L. exists f. auto.
  - intros (f & Hf & L & E). exists f. split; auto. apply filter_In. split; auto. apply Z.leb_le. auto.
Qed.

Lemma slice_map {A B} (g : A -> B) l off len : slice (map g l) off len = map g (slice l off len).
Proof. unfold slice. rewrite skipn_map, firstn_map. reflexivity. Qed.

Lemma map_of_nat_sorted l : StronglySorted lt l -> StronglySorted Z.lt (map Z.of_nat l).
Proof.
  induction 1 as [|a l Hs IH Hf]; cbn; constructor; auto. apply Forall_forall. intros x Hx.
  apply in_map_iff in Hx. destruct Hx as (y & <- & Hy). rewrite Forall_forall in Hf. specialize (Hf y Hy). lia.
Qed.

Lemma linked_sorted row fm pc : StronglySorted lt (linked_cells row fm pc).
Proof. rewrite linked_cells_unfold. apply sort_unique_nat_sorted. Qed.

Lemma unique_is_linked fm pc row u :
  StronglySorted Z.lt u ->
  (forall x, In x u <-> (In x (qp_parent_cells fm pc row) /\ (0 <= x)%Z)) ->
  u = map Z.of_nat (linked_cells row fm pc).
Proof.
  intros Hs Hu. apply (sorted_ext Z.lt); auto; try (intros; lia).
  - apply map_of_nat_sorted, linked_sorted.
  - intros x. rewrite Hu, in_map_iff. unfold qp_parent_cells. rewrite in_map_iff. split.
    + intros [(f & E & Hf) L]. destruct (Z.leb_spec 0 f) as [Lf|Lf]; [|lia].
      exists (contact_cell fm pc f). split; auto. apply linked_cells_in. exists f. auto.
    + intros (c & <- & Hc). apply linked_cells_in in Hc. destruct Hc as (f & Hf & L & E). split; [|lia].
      exists f. split; auto. destruct (Z.leb_spec 0 f); [|lia]. rewrite <- E. reflexivity.
Qed.

Lemma qp_parent_nth fm pc row q :
  q < length row ->
  nth q (qp_parent_cells fm pc row) 0%Z =
  if Z.leb 0 (nth q row (-1)%Z) then Z.of_nat (contact_cell fm pc (nth q row (-1)%Z)) else (-1)%Z.
Proof. intros Hq. unfold qp_parent_cells. rewrite (nth_map_lt _ row q 0%Z (-1)%Z) by auto. reflexivity. Qed.

Lemma found_of_row (g : Z -> Z) row q :
  (forall f, (0 <= f)%Z -> (0 <= g f)%Z) -> (forall f, (f < 0)%Z -> (g f < 0)%Z) ->
  q <= length row -> rank (map g row) q = found_before row q.
Proof.
  intros H1 H2. unfold rank, found_before.
  induction q as [|q IH]; intros Hq; auto.
  rewrite seq_S, filter_app, app_length. cbn [Nat.add filter].
  rewrite (firstn_S_nth row q (-1)%Z) by lia. rewrite filter_app, app_length, IH by lia. f_equal.
  unfold found. rewrite (nth_map_lt g row q 0%Z (-1)%Z) by lia. cbn [filter].
  destruct (Z.leb_spec 0 (nth q row (-1)%Z)) as [L|L].
  - apply H1 in L. destruct (Z.leb_spec 0 (g (nth q row (-1)%Z))); [auto|lia].
  - apply H2 in L. destruct (Z.leb_spec 0 (g (nth q row (-1)%Z))); [lia|auto].
Qed.

Lemma positives_length f_cells : length (fst (positives f_cells)) = length (snd (positives f_cells)).
Proof. destruct (positives_spec f_cells) as [-> ->]. apply map_length. Qed.

(** Members of a group, in terms of original points. *)
Lemma group_member f_cells u j p :
  In p (group_of f_cells u j) <->
  p < length (snd (positives f_cells)) /\
  nth (nth p (snd (positives f_cells)) 0) f_cells 0%Z = nth j u 0%Z.
Proof.
  unfold group_of. rewrite filter_In, in_seq, Z.eqb_eq, positives_length.
  destruct (positives_spec f_cells) as [E1 E2]. rewrite E2, E1. set (old := filter _ _).
  split; intros [H1 H2]; (split; [lia|]); rewrite (nth_map_lt _ old p 0%Z 0) in * by lia; auto.
Qed.

Lemma old_spec f_cells p :
  p < length (snd (positives f_cells)) ->
  let q := nth p (snd (positives f_cells)) 0 in
  q < length f_cells /\ found f_cells q = true /\ rank f_cells q = p.
Proof.
  destruct (positives_spec f_cells) as [-> _]. intros Hp q. apply filter_seq_rank. auto.
Qed.

Lemma old_of_found f_cells q :
  q < length f_cells -> found f_cells q = true ->
  nth (rank f_cells q) (snd (positives f_cells)) 0 = q /\ rank f_cells q < length (snd (positives f_cells)).
Proof.
  destruct (positives_spec f_cells) as [-> _]. intros Hq Hf. apply filter_seq_nth; auto.
Qed.

(** ** C16 *)
Section C16.
Context {A : Type} (zero : A).

(** Exactly what every entry of the packed array holds. *)
Theorem C16_pack_test_functions_exact :
  forall (nf nq ml nd bs : nat) (facet_map : adj nat) (parent : list nat) (facets : list Z)
         (basis : nat -> nat -> A),
    length facets = nf * nq ->
    (forall i, i < nf -> length (linked_cells (slice facets (i * nq) nq) facet_map parent) <= ml) ->
    exists c, pack_test_functions zero nf nq ml nd bs facet_map parent facets basis = Some c /\
      length c = nf * (ml * nd * nq * bs) /\
      forall i link k q l, i < nf -> link < ml -> k < nd -> q < nq -> l < bs ->
        let row := slice facets (i * nq) nq in
        let entry := nth ((((i * ml + link) * nd + k) * nq + q) * bs + l) c zero in
        (in_link facet_map parent row q link -> entry = basis (i * nq + found_before row q) k) /\
        (~ in_link facet_map parent row q link -> entry = zero).
Proof.
  intros nf nq ml nd bs fm pc facets basis Hlen Hml.
  set (cells := qp_parent_cells fm pc facets).
  set (c0 := repeat zero (nf * ml * nq * nd * bs)).
  set (W := fun i ws => exists u,
     StronglySorted Z.lt u /\ (forall x, In x u <-> (In x (slice cells (i * nq) nq) /\ (0 <= x)%Z)) /\
     ws = gwrites (length u) (group_of (slice cells (i * nq) nq) u) nd bs
      (fun j k p l => (((i * ml + j) * nd + k) * nq + nth p (snd (positives (slice cells (i * nq) nq))) 0) * bs + l)
      (fun j k p l => basis (i * nq + p) k)).
  assert (Hrow : forall i, slice cells (i * nq) nq = qp_parent_cells fm pc (slice facets (i * nq) nq)).
  { intros i. apply slice_map. }
  assert (Hrl : forall i, i < nf -> length (slice facets (i * nq) nq) = nq).
  { intros i Hi. apply slice_length. rewrite Hlen. nia. }
  assert (Hcl : forall i, i < nf -> length (slice cells (i * nq) nq) = nq).
  { intros i Hi. rewrite Hrow. unfold qp_parent_cells. rewrite map_length. auto. }
  destruct (facet_loop nf (ml * nd * nq * bs)
     (fun i s => test_facet nq ml nd bs basis i (slice cells (i * nq) nq) s) W c0 (repeat 0 nq)) as (c & E & Hl & Hc).
  { intros i c p Hi.
    destruct (test_facet_writes nq ml nd bs basis i (slice cells (i * nq) nq) c p) as (u & p' & Hs & Hu & Et).
    eexists. exists p'. split; [exists u; eauto|exact Et]. }
  { intros i ws x v Hi (u & Hs & Hu & ->) Hin. apply gwrites_in in Hin.
    destruct Hin as (j & k & p & l & Hj & Hk & Hp & Hlb & -> & _).
    rewrite Hrow in Hu. rewrite (unique_is_linked fm pc _ u Hs Hu) in Hj. rewrite map_length in Hj.
    pose proof (Hml i Hi). apply group_member in Hp. destruct Hp as [Hp _]. apply old_spec in Hp.
    destruct Hp as (Hq & _). rewrite Hcl in Hq by auto. set (q := nth p _ 0) in *.
    assert (j < ml) by lia.
    pose proof (radix_lt j ml nd k ltac:(lia) Hk).
    pose proof (radix_lt (j * nd + k) (ml * nd) nq q ltac:(lia) Hq).
    pose proof (radix_lt ((j * nd + k) * nq + q) (ml * nd * nq) bs l ltac:(lia) Hlb).
    replace ((((i * ml + j) * nd + k) * nq + q) * bs + l)
      with (i * (ml * nd * nq * bs) + (((j * nd + k) * nq + q) * bs + l)) by ring.
    lia. }
  exists c. split; [exact E|]. split; [unfold c0 in Hl; rewrite Hl, repeat_length; ring|].
  intros i link k q l Hi Hlink Hk Hq Hlb row entry.
  destruct (Hc i zero Hi) as (ws & (u & Hs & Hu & Ews) & Hx).
  pose proof (radix_lt link ml nd k ltac:(lia) Hk) as B1.
  pose proof (radix_lt (link * nd + k) (ml * nd) nq q ltac:(lia) Hq) as B2.
  pose proof (radix_lt ((link * nd + k) * nq + q) (ml * nd * nq) bs l ltac:(lia) Hlb) as B3.
  assert (Ekey : (((i * ml + link) * nd + k) * nq + q) * bs + l = i * (ml * nd * nq * bs) + (((link * nd + k) * nq + q) * bs + l)) by ring.
  assert (Eu : u = map Z.of_nat (linked_cells row fm pc)).
  { apply unique_is_linked; auto. unfold row. rewrite <- Hrow. auto. }
  assert (Hent : entry = nth ((((i * ml + link) * nd + k) * nq + q) * bs + l) (writes ws c0) zero).
  { unfold entry. apply Hx. rewrite Ekey. lia. }
  rewrite Hent. clear Hent entry.
  assert (Hkb : (((i * ml + link) * nd + k) * nq + q) * bs + l < length c0).
  { unfold c0. rewrite repeat_length, Ekey. nia. }
  set (fc := slice cells (i * nq) nq) in *.
  assert (Hfc : fc = qp_parent_cells fm pc row) by apply Hrow.
  assert (Hrank : rank fc q = found_before row q).
  { rewrite Hfc. apply found_of_row.
    - intros f Lf. destruct (Z.leb_spec 0 f); lia.
    - intros f Lf. destruct (Z.leb_spec 0 f); lia.
    - unfold row. rewrite Hrl by auto. lia. }
  assert (Hfcq : nth q fc 0%Z = if Z.leb 0 (nth q row (-1)%Z) then Z.of_nat (contact_cell fm pc (nth q row (-1)%Z)) else (-1)%Z).
  { rewrite Hfc. apply qp_parent_nth. unfold row. rewrite Hrl; auto. }
  (* writes to this key come from (link, k, rank q, l) *)
  assert (Hinv : forall v, In ((((i * ml + link) * nd + k) * nq + q) * bs + l, v) ws ->
     v = basis (i * nq + found_before row q) k /\ in_link fm pc row q link).
  { intros v Hin. rewrite Ews in Hin. apply gwrites_in in Hin.
    destruct Hin as (j & k' & p & l' & Hj & Hk' & Hp & Hl' & Ex & ->).
    apply group_member in Hp. destruct Hp as [Hp Hv]. destruct (old_spec fc p Hp) as (Hq' & Hf' & Hr').
    set (q' := nth p (snd (positives fc)) 0) in *. unfold fc in Hq'. rewrite Hcl in Hq' by auto.
    apply radix in Ex; auto. destruct Ex as [Ex <-]. apply radix in Ex; auto. destruct Ex as [Ex Eq].
    apply radix in Ex; auto. destruct Ex as [Ex <-]. assert (j = link) by nia. subst j.
    rewrite <- Eq in Hv, Hr', Hf'. split; [now rewrite <- Hr', Hrank|].
    unfold found in Hf'. apply Z.leb_le in Hf'. rewrite Hfcq in Hf', Hv.
    destruct (Z.leb_spec 0 (nth q row (-1)%Z)) as [L|L]; [|lia].
    split; auto. rewrite Eu, map_length in Hj. split; auto.
    rewrite Eu in Hv. rewrite (nth_map_lt Z.of_nat _ link 0%Z 0) in Hv by auto. lia. }
  split.
  - intros Hil. apply writes_consistent; auto.
    2:{ intros v Hin. apply Hinv in Hin. apply Hin. }
    destruct Hil as (L & Hll & En). rewrite Ews. apply gwrites_in.
    assert (Hfq : found fc q = true).
    { unfold found. rewrite Hfcq. apply Z.leb_le. destruct (Z.leb_spec 0 (nth q row (-1)%Z)); lia. }
    destruct (old_of_found fc q) as [Eo Lo]; auto. { unfold fc. rewrite Hcl; auto. }
    exists link, k, (rank fc q), l. rewrite Eo. rewrite Hrank. repeat split; auto.
    + rewrite Eu, map_length. auto.
    + rewrite <- Hrank. apply group_member. split; auto. rewrite Eo, Hfcq.
      destruct (Z.leb_spec 0 (nth q row (-1)%Z)); [|lia].
      rewrite Eu. rewrite (nth_map_lt Z.of_nat _ link 0%Z 0) by auto. lia.
  - intros Hn. rewrite writes_miss.
    + unfold c0. apply nth_repeat_0.
    + intros v Hin. apply Hinv in Hin. apply Hn, Hin.
Qed.

(** The property, for facets without missing points. *)
Theorem C16_pack_test_functions_partial :
  forall (nf nq ml nd bs : nat) (facet_map : adj nat) (parent : list nat) (facets : list Z)
         (basis : nat -> nat -> A),
    length facets = nf * nq ->
    (forall i, i < nf -> length (linked_cells (slice facets (i * nq) nq) facet_map parent) <= ml) ->
    exists c, pack_test_functions zero nf nq ml nd bs facet_map parent facets basis = Some c /\
      length c = nf * (ml * nd * nq * bs) /\
      forall i link k q l, i < nf -> link < ml -> k < nd -> q < nq -> l < bs ->
        let row := slice facets (i * nq) nq in
        (forall f, In f row -> (0 <= f)%Z) ->
        let entry := nth ((((i * ml + link) * nd + k) * nq + q) * bs + l) c zero in
        (in_link facet_map parent row q link -> entry = basis (i * nq + q) k) /\
        (~ in_link facet_map parent row q link -> entry = zero).
Proof.
  intros nf nq ml nd bs fm pc facets basis Hlen Hml.
  destruct (C16_pack_test_functions_exact nf nq ml nd bs fm pc facets basis Hlen Hml) as (c & E & Hl & Hc).
  exists c. split; auto. split; auto. intros i link k q l Hi Hlink Hk Hq Hlb row Hall entry.
  destruct (Hc i link k q l) as [H1 H2]; auto. fold row entry in H1, H2.
  assert (Er : found_before row q = q).
  { unfold found_before.
    assert (G : forall m, (forall f, In f m -> (0 <= f)%Z) -> filter (fun f => Z.leb 0 f) m = m).
    { induction m as [|x m IH]; intros Hm; auto. cbn. destruct (Z.leb_spec 0 x) as [L|L].
      - f_equal. apply IH. intros; apply Hm; right; auto.
      - specialize (Hm x (or_introl eq_refl)). lia. }
    rewrite G.
    - rewrite firstn_length. unfold row. rewrite slice_length; [lia|]. rewrite Hlen. nia.
    - intros f Hf. apply Hall. rewrite <- (firstn_skipn q row). apply in_app_iff. left. auto. }
  rewrite Er in H1. auto.
Qed.
End C16.
Print Assumptions C16_pack_test_functions_exact.
Print Assumptions C16_pack_test_functions_partial.

(** With a missing point before [q] the stored value is that of another point:
    the full statement (drop the hypothesis of [_partial]) is false.  Facet 0 of
    cell 0; two points, the first one missing. *)
Theorem C16_pack_test_functions_refuted :
  exists (nf nq ml nd bs : nat) (facet_map : adj nat) (parent : list nat) (facets : list Z) (basis : nat -> nat -> nat),
    length facets = nf * nq /\
    (forall i, i < nf -> length (linked_cells (slice facets (i * nq) nq) facet_map parent) <= ml) /\
    exists c, pack_test_functions 0 nf nq ml nd bs facet_map parent facets basis = Some c /\
    exists i link k q l, i < nf /\ link < ml /\ k < nd /\ q < nq /\ l < bs /\
    in_link facet_map parent (slice facets (i * nq) nq) q link /\
    nth ((((i * ml + link) * nd + k) * nq + q) * bs + l) c 0 <> basis (i * nq + q) k.
Proof.
  exists 1, 2, 2, 1, 1, (mkAdj [0; 0] [0; 2]), [0], [-1; 0]%Z, (fun p _ => p).
  split; [reflexivity|]. split.
  { intros i Hi. assert (i = 0) by lia. subst. vm_compute. lia. }
  eexists. split; [vm_compute; reflexivity|]. exists 0, 0, 0, 1, 0.
  repeat split; try lia; try (vm_compute; lia); try (vm_compute; congruence).
Qed.
Print Assumptions C16_pack_test_functions_refuted.

(** Facets 0 and 1 in parent cells 4 and 3 (submesh cells 1 and 0). *)
Example C16_example :
  let fm := mkAdj [1; 0; 0; 2] [0; 2; 4] in
  let pc := [3; 4] in
  linked_cells [0; 1; 0]%Z fm pc = [3; 4] /\
  pack_test_functions 0 1 3 2 1 1 fm pc [0; 1; 0]%Z (fun p k => 10 + p) = Some [0; 11; 0; 10; 0; 12].
Proof. vm_compute. auto. Qed.

(** ** C17 *)
Lemma sub_unique_is_linked fm pc row u :
  StronglySorted lt pc ->
  (forall f, In f row -> (0 <= f)%Z -> sub_cell fm (Z.to_nat f) < length pc) ->
  StronglySorted Z.lt u ->
  (forall x, In x u <-> (In x (qp_sub_cells fm row) /\ (0 <= x)%Z)) ->
  map (fun s => nth (Z.to_nat s) pc 0) u = linked_cells row fm pc.
Proof.
  intros Hpc Hb Hs Hu.
  assert (Hsub : forall s, In s u <-> exists f, In f row /\ (0 <= f)%Z /\ s = Z.of_nat (sub_cell fm (Z.to_nat f))).
  { intros s. rewrite Hu. unfold qp_sub_cells. rewrite in_map_iff. split.
    - intros [(f & E & Hf) L]. destruct (Z.leb_spec 0 f); [|lia]. exists f. auto.
    - intros (f & Hf & L & ->). split; [|lia]. exists f. split; auto. destruct (Z.leb_spec 0 f); [auto|lia]. }
  apply (sorted_ext lt); auto using linked_sorted; try (intros; lia).
  - assert (Hlt : forall s, In s u -> (0 <= s)%Z /\ Z.to_nat s < length pc).
    { intros s Hin. apply Hsub in Hin. destruct Hin as (f & Hf & L & ->). split; [lia|]. rewrite Nat2Z.id. auto. }
    clear Hsub Hu. induction Hs as [|a l Hs IH Hf]; cbn; constructor.
    + apply IH. intros; apply Hlt; right; auto.
    + apply Forall_forall. intros x Hx. apply in_map_iff in Hx. destruct Hx as (y & <- & Hy).
      rewrite Forall_forall in Hf. specialize (Hf y Hy).
      destruct (Hlt a (or_introl eq_refl)), (Hlt y (or_intror Hy)).
      apply (StronglySorted_nth lt pc 0); auto. lia.
  - intros c. rewrite in_map_iff, linked_cells_in. split.
    + intros (s & <- & Hin). apply Hsub in Hin. destruct Hin as (f & Hf & L & ->). exists f. rewrite Nat2Z.id. auto.
    + intros (f & Hf & L & <-). exists (Z.of_nat (sub_cell fm (Z.to_nat f))). rewrite Nat2Z.id. split; auto.
      apply Hsub. exists f. auto.
Qed.

Section C17.
Context {A : Type} (zero : A).

(** Exactly what every entry holds: slot [p] of a facet is filled from its
    [p]-th found point. *)
Theorem C17_pack_grad_test_functions_exact :
  forall (nf nq ml nd gdim : nat) (facet_map : adj nat) (parent : list nat) (facets : list Z)
         (grad : nat -> nat -> nat -> nat -> A),
    length facets = nf * nq ->
    StronglySorted lt parent ->
    (forall f, In f facets -> (0 <= f)%Z -> nth 0 (links facet_map (Z.to_nat f)) 0 < length parent) ->
    (forall i, i < nf -> length (linked_cells (slice facets (i * nq) nq) facet_map parent) <= ml) ->
    exists c, pack_grad_test_functions zero nf nq ml nd gdim facet_map parent facets grad = Some c /\
      length c = nf * (ml * nd * nq * gdim) /\
      forall i link k p l, i < nf -> link < ml -> k < nd -> p < nq -> l < gdim ->
        let row := slice facets (i * nq) nq in
        let entry := nth ((((i * ml + link) * nd + k) * nq + p) * gdim + l) c zero in
        (forall q, q < nq -> found_before row q = p -> in_link facet_map parent row q link ->
           entry = grad (nth link (linked_cells row facet_map parent) 0) (i * nq + q) k l) /\
        ((forall q, q < nq -> found_before row q = p -> ~ in_link facet_map parent row q link) -> entry = zero).
Proof.
  intros nf nq ml nd gdim fm pc facets grad Hlen Hpc Hsb Hml.
  set (c0 := repeat zero (nf * nq * ml * nd * gdim)).
  set (fcs := fun i => qp_sub_cells fm (slice facets (i * nq) nq)).
  set (W := fun i ws => exists u,
     StronglySorted Z.lt u /\ (forall x, In x u <-> (In x (fcs i) /\ (0 <= x)%Z)) /\
     ws = gwrites (length u) (group_of (fcs i) u) nd gdim
      (fun j k p l => i * (nq * ml * nd * gdim) + j * nd * gdim * nq + k * gdim * nq + p * gdim + l)
      (fun j k p l => grad (nth (Z.to_nat (nth j u 0%Z)) pc 0) (i * nq + nth p (snd (positives (fcs i))) 0) k l)).
  assert (Hrl : forall i, i < nf -> length (slice facets (i * nq) nq) = nq).
  { intros i Hi. apply slice_length. rewrite Hlen. nia. }
  assert (Hcl : forall i, i < nf -> length (fcs i) = nq).
  { intros i Hi. unfold fcs, qp_sub_cells. rewrite map_length. auto. }
  assert (Hsb' : forall i f, In f (slice facets (i * nq) nq) -> (0 <= f)%Z -> sub_cell fm (Z.to_nat f) < length pc).
  { intros i f Hf L. apply Hsb; auto. unfold slice in Hf.
    rewrite <- (firstn_skipn (i * nq) facets). apply in_app_iff. right.
    rewrite <- (firstn_skipn nq (skipn (i * nq) facets)). apply in_app_iff. left. auto. }
  assert (Hul : forall i u, StronglySorted Z.lt u -> (forall x, In x u <-> (In x (fcs i) /\ (0 <= x)%Z)) ->
     map (fun s => nth (Z.to_nat s) pc 0) u = linked_cells (slice facets (i * nq) nq) fm pc).
  { intros i u Hs Hu. apply sub_unique_is_linked; auto. intros; eapply Hsb'; eauto. }
  assert (Hold : forall i p, i < nf -> p < length (snd (positives (fcs i))) -> p < nq).
  { intros i p Hi Hp. destruct (positives_spec (fcs i)) as [E1 _]. rewrite E1 in Hp.
    assert (G : forall m, length (filter (found (fcs i)) m) <= length m).
    { induction m as [|x m IH]; cbn; auto. destruct (found (fcs i) x); cbn; lia. }
    specialize (G (seq 0 (length (fcs i)))). rewrite seq_length, Hcl in G by auto. rewrite Hcl in Hp by auto. lia. }
  destruct (facet_loop nf (ml * nd * nq * gdim)
     (fun i s => grad_facet nq ml nd gdim pc grad i (fcs i) s) W c0 (repeat 0 nq)) as (c & E & Hl & Hc).
  { intros i c p Hi.
    destruct (grad_facet_writes nq ml nd gdim pc grad i (fcs i) c p) as (u & p' & Hs & Hu & Et).
    eexists. exists p'. split; [exists u; eauto|exact Et]. }
  { intros i ws x v Hi (u & Hs & Hu & ->) Hin. apply gwrites_in in Hin.
    destruct Hin as (j & k & p & l & Hj & Hk & Hp & Hlb & -> & _).
    pose proof (Hml i Hi). rewrite <- (Hul i u Hs Hu), map_length in H.
    apply group_member in Hp. destruct Hp as [Hp _]. apply Hold in Hp; auto.
    assert (j < ml) by lia.
    pose proof (radix_lt j ml nd k ltac:(lia) Hk).
    pose proof (radix_lt (j * nd + k) (ml * nd) nq p ltac:(lia) Hp).
    pose proof (radix_lt ((j * nd + k) * nq + p) (ml * nd * nq) gdim l ltac:(lia) Hlb).
    replace (i * (nq * ml * nd * gdim) + j * nd * gdim * nq + k * gdim * nq + p * gdim + l)
      with (i * (ml * nd * nq * gdim) + (((j * nd + k) * nq + p) * gdim + l)) by ring.
    lia. }
  exists c. split; [exact E|]. split; [unfold c0 in Hl; rewrite Hl, repeat_length; ring|].
  intros i link k p l Hi Hlink Hk Hp Hlb row entry.
  destruct (Hc i zero Hi) as (ws & (u & Hs & Hu & Ews) & Hx).
  pose proof (radix_lt link ml nd k ltac:(lia) Hk) as B1.
  pose proof (radix_lt (link * nd + k) (ml * nd) nq p ltac:(lia) Hp) as B2.
  pose proof (radix_lt ((link * nd + k) * nq + p) (ml * nd * nq) gdim l ltac:(lia) Hlb) as B3.
  set (key := (((i * ml + link) * nd + k) * nq + p) * gdim + l) in *.
  assert (Ekey : key = i * (ml * nd * nq * gdim) + (((link * nd + k) * nq + p) * gdim + l)) by (unfold key; ring).
  assert (Eu : map (fun s => nth (Z.to_nat s) pc 0) u = linked_cells row fm pc) by (apply Hul; auto).
  assert (Hent : entry = nth key (writes ws c0) zero).
  { unfold entry. apply Hx. rewrite Ekey. lia. }
  rewrite Hent. clear Hent entry.
  assert (Hkb : key < length c0).
  { unfold c0. rewrite repeat_length, Ekey. nia. }
  set (fc := fcs i) in *.
  assert (Hrank : forall q, q < nq -> rank fc q = found_before row q).
  { intros q Hq. unfold fc, fcs. apply found_of_row.
    - intros f Lf. destruct (Z.leb_spec 0 f); lia.
    - intros f Lf. destruct (Z.leb_spec 0 f); lia.
    - unfold row; rewrite Hrl by auto; lia. }
  assert (Hfcq : forall q, q < nq -> nth q fc 0%Z =
     if Z.leb 0 (nth q row (-1)%Z) then Z.of_nat (sub_cell fm (Z.to_nat (nth q row (-1)%Z))) else (-1)%Z).
  { intros q Hq. unfold fc, fcs, qp_sub_cells. rewrite (nth_map_lt _ _ q 0%Z (-1)%Z) by (now rewrite Hrl). reflexivity. }
  assert (Hnu : forall j, j < length u -> nth j (linked_cells row fm pc) 0 = nth (Z.to_nat (nth j u 0%Z)) pc 0).
  { intros j Hj. rewrite <- Eu. rewrite (nth_map_lt _ u j 0 0%Z) by auto. reflexivity. }
  assert (Hlu : length (linked_cells row fm pc) = length u) by (rewrite <- Eu; apply map_length).
  assert (Hinv : forall v, In (key, v) ws -> exists q, q < nq /\ found_before row q = p /\ in_link fm pc row q link /\
     v = grad (nth link (linked_cells row fm pc) 0) (i * nq + q) k l).
  { intros v Hin. rewrite Ews in Hin. apply gwrites_in in Hin.
    destruct Hin as (j & k' & p' & l' & Hj & Hk' & Hp' & Hl' & Ex & ->).
    apply group_member in Hp'. destruct Hp' as [Hp' Hv]. destruct (old_spec fc p' Hp') as (Hq' & Hf' & Hr').
    set (q' := nth p' (snd (positives fc)) 0) in *. unfold fc in Hq'. rewrite Hcl in Hq' by auto.
    assert (Hp'' : p' < nq) by (eapply Hold; eauto).
    assert (Ex' : (((i * ml + link) * nd + k) * nq + p) * gdim + l = (((i * ml + j) * nd + k') * nq + p') * gdim + l').
    { fold key. rewrite Ex. ring. }
    apply radix in Ex'; auto. destruct Ex' as [Ex' <-]. apply radix in Ex'; auto. destruct Ex' as [Ex' Eq].
    apply radix in Ex'; auto. destruct Ex' as [Ex' <-]. assert (j = link) by nia. subst j.
    exists q'. split; auto. rewrite <- Hrank by auto. split; [congruence|]. rewrite Hnu by auto. split; auto.
    unfold found in Hf'. apply Z.leb_le in Hf'. rewrite Hfcq in Hf', Hv by auto.
    destruct (Z.leb_spec 0 (nth q' row (-1)%Z)) as [L|L]; [|lia].
    split; auto. rewrite Hlu. split; auto. rewrite Hnu by auto. rewrite <- Hv, Nat2Z.id. reflexivity. }
  split.
  - intros q Hq Hfb Hil.
    apply writes_consistent; auto.
    + destruct Hil as (L & Hll & En). rewrite Ews. apply gwrites_in.
      assert (Hfq : found fc q = true).
      { unfold found. rewrite Hfcq by auto. apply Z.leb_le. destruct (Z.leb_spec 0 (nth q row (-1)%Z)); lia. }
      destruct (old_of_found fc q) as [Eo Lo]; auto. { unfold fc. rewrite Hcl; auto. }
      rewrite Hrank, Hfb in Eo, Lo by auto.
      exists link, k, p, l. rewrite Eo. rewrite Hlu in Hll. rewrite <- Hnu by auto. repeat split; auto.
      * apply group_member. split; auto. rewrite Eo, Hfcq by auto.
        destruct (Z.leb_spec 0 (nth q row (-1)%Z)); [|lia].
        rewrite Hnu in En by auto.
        (* parents determine submesh cells *)
        assert (Hin : In (nth link u 0%Z) u) by (apply nth_In; auto).
        apply Hu in Hin. destruct Hin as [Hin Ln]. unfold fc, fcs, qp_sub_cells in Hin. apply in_map_iff in Hin.
        destruct Hin as (f & Ef & Hf). destruct (Z.leb_spec 0 f) as [Lf|Lf]; [|lia].
        rewrite <- Ef in En. rewrite Nat2Z.id in En. unfold contact_cell in En. fold (sub_cell fm (Z.to_nat (nth q row (-1)%Z))) in En.
        assert (ND : NoDup pc) by (eapply StronglySorted_lt_NoDup; [|exact Hpc]; apply Nat.lt_irrefl).
        assert (sub_cell fm (Z.to_nat f) = sub_cell fm (Z.to_nat (nth q row (-1)%Z))) as Es.
        { apply (proj1 (NoDup_nth pc 0) ND); auto; eapply Hsb'; eauto. apply nth_In. unfold row. rewrite Hrl; auto. }
        rewrite <- Ef, Es. reflexivity.
      * unfold key. ring.
    + intros v Hin. apply Hinv in Hin. destruct Hin as (q' & Hq' & Hfb' & Hil' & ->). f_equal. f_equal.
      (* two found points with the same rank coincide *)
      destruct Hil as (L & _), Hil' as (L' & _).
      assert (Hfq : forall q, q < nq -> (0 <= nth q row (-1))%Z -> found fc q = true).
      { intros q0 Hq0 L0. unfold found. rewrite Hfcq by auto. apply Z.leb_le. destruct (Z.leb_spec 0 (nth q0 row (-1)%Z)); lia. }
      destruct (old_of_found fc q) as [Eo _]; auto. { unfold fc. rewrite Hcl; auto. }
      destruct (old_of_found fc q') as [Eo' _]; auto. { unfold fc. rewrite Hcl; auto. }
      rewrite Hrank in Eo, Eo' by auto. congruence.
  - intros Hn. rewrite writes_miss.
    + unfold c0. apply nth_repeat_0.
    + intros v Hin. apply Hinv in Hin. destruct Hin as (q & Hq & Hfb & Hil & _). exact (Hn q Hq Hfb Hil).
Qed.

(** The property, for facets without missing points. *)
Theorem C17_pack_grad_test_functions_partial :
  forall (nf nq ml nd gdim : nat) (facet_map : adj nat) (parent : list nat) (facets : list Z)
         (grad : nat -> nat -> nat -> nat -> A),
    length facets = nf * nq ->
    StronglySorted lt parent ->
    (forall f, In f facets -> (0 <= f)%Z -> nth 0 (links facet_map (Z.to_nat f)) 0 < length parent) ->
    (forall i, i < nf -> length (linked_cells (slice facets (i * nq) nq) facet_map parent) <= ml) ->
    exists c, pack_grad_test_functions zero nf nq ml nd gdim facet_map parent facets grad = Some c /\
      length c = nf * (ml * nd * nq * gdim) /\
      forall i link k q l, i < nf -> link < ml -> k < nd -> q < nq -> l < gdim ->
        let row := slice facets (i * nq) nq in
        (forall f, In f row -> (0 <= f)%Z) ->
        let entry := nth ((((i * ml + link) * nd + k) * nq + q) * gdim + l) c zero in
        (in_link facet_map parent row q link ->
           entry = grad (nth link (linked_cells row facet_map parent) 0) (i * nq + q) k l) /\
        (~ in_link facet_map parent row q link -> entry = zero).
Proof.
  intros nf nq ml nd gdim fm pc facets grad Hlen Hpc Hsb Hml.
  destruct (C17_pack_grad_test_functions_exact nf nq ml nd gdim fm pc facets grad Hlen Hpc Hsb Hml) as (c & E & Hl & Hc).
  exists c. split; auto. split; auto. intros i link k q l Hi Hlink Hk Hq Hlb row Hall entry.
  destruct (Hc i link k q l) as [H1 H2]; auto. fold row entry in H1, H2.
  assert (Er : forall q, q < nq -> found_before row q = q).
  { intros q0 Hq0. unfold found_before.
    assert (G : forall m, (forall f, In f m -> (0 <= f)%Z) -> filter (fun f => Z.leb 0 f) m = m).
    { induction m as [|x m IH]; intros Hm; auto. cbn. destruct (Z.leb_spec 0 x) as [L|L].
      - f_equal. apply IH. intros; apply Hm; right; auto.
      - specialize (Hm x (or_introl eq_refl)). lia. }
    rewrite G.
    - rewrite firstn_length. unfold row. rewrite slice_length; [lia|]. rewrite Hlen. nia.
    - intros f Hf. apply Hall. rewrite <- (firstn_skipn q0 row). apply in_app_iff. left. auto. }
  split; [apply H1; auto|]. intros Hn. apply H2. intros q' Hq' Ef. rewrite Er in Ef by auto. subst. auto.
Qed.
End C17.
Print Assumptions C17_pack_grad_test_functions_exact.
Print Assumptions C17_pack_grad_test_functions_partial.

Theorem C17_pack_grad_test_functions_refuted :
  exists (nf nq ml nd gdim : nat) (facet_map : adj nat) (parent : list nat) (facets : list Z)
         (grad : nat -> nat -> nat -> nat -> nat),
    length facets = nf * nq /\ StronglySorted lt parent /\
    (forall f, In f facets -> (0 <= f)%Z -> nth 0 (links facet_map (Z.to_nat f)) 0 < length parent) /\
    (forall i, i < nf -> length (linked_cells (slice facets (i * nq) nq) facet_map parent) <= ml) /\
    exists c, pack_grad_test_functions 0 nf nq ml nd gdim facet_map parent facets grad = Some c /\
    exists i link k q l, i < nf /\ link < ml /\ k < nd /\ q < nq /\ l < gdim /\
      let row := slice facets (i * nq) nq in
      in_link facet_map parent row q link /\
      nth ((((i * ml + link) * nd + k) * nq + q) * gdim + l) c 0
        <> grad (nth link (linked_cells row facet_map parent) 0) (i * nq + q) k l.
Proof.
  exists 1, 2, 2, 1, 1, (mkAdj [0; 0] [0; 2]), [0], [-1; 0]%Z, (fun _ p _ _ => p).
  split; [reflexivity|]. split; [repeat constructor|]. split.
  { intros f [<-|[<-|[]]] L; vm_compute; lia. } split.
  { intros i Hi. assert (i = 0) by lia. subst. vm_compute. lia. }
  eexists. split; [vm_compute; reflexivity|]. exists 0, 0, 0, 1, 0.
  repeat split; try lia; try (vm_compute; lia); try (vm_compute; congruence).
Qed.
Print Assumptions C17_pack_grad_test_functions_refuted.

Example C17_example :
  let fm := mkAdj [1; 0; 0; 2] [0; 2; 4] in
  pack_grad_test_functions 0 1 3 2 1 1 fm [3; 4] [0; 1; 0]%Z (fun c p k l => 10 * c + p) = Some [0; 31; 0; 40; 0; 42].
Proof. vm_compute. auto. Qed.
