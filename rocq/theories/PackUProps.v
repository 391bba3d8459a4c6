(** Property C18: displacement (and its gradient) on the opposite surface. *)
From Coq Require Import List Arith ZArith Lia Bool Sorted Permutation Reals Lra.
Import ListNotations.
From Verif Require Import Prelude PreludeLemmas Scatter RSum SubMeshModel SubMeshProofs SubMeshProps
  EntitiesModel EntitiesProofs EntitiesProps PackingModel PackingProofs PackingProps.

(** Component [k] of the expansion coefficient of local basis function [l]. *)
Definition dof_value (bs : nat) (dofs : list nat) (u : list R) (l k : nat) : R :=
  nth (bs * nth l dofs 0 + k) u 0%R.

Lemma for_loop_map_writes {A} n (key : nat -> nat) (v : nat -> A) s :
  for_loop n (fun l c => upd c (key l) (v l)) s = writes (map (fun l => (key l, v l)) (seq 0 n)) s.
Proof.
  induction n as [|n IH]; auto. rewrite for_loop_S, IH, seq_S, map_app, writes_app. reflexivity.
Qed.

Lemma gather_writes bs dofs u w :
  gather bs dofs u w = writes (flat_map (fun j => map (fun k => (bs * j + k, dof_value bs dofs u j k)) (seq 0 bs))
                                 (seq 0 (length dofs))) w.
Proof.
  unfold gather. apply for_loop_writes. intros j s Hj.
  apply for_loop_map_writes.
Qed.

Lemma gather_length bs dofs u w : length (gather bs dofs u w) = length w.
Proof. rewrite gather_writes. apply writes_length. Qed.

Lemma gather_nth bs dofs u w j k :
  length w = length dofs * bs -> j < length dofs -> k < bs ->
  nth (bs * j + k) (gather bs dofs u w) 0%R = dof_value bs dofs u j k.
Proof.
  intros Hw Hj Hk. rewrite gather_writes. apply writes_consistent.
  - nia.
  - apply in_flat_map_seq. exists j. split; auto. apply in_map_iff. exists k. split; auto. apply in_seq. lia.
  - intros v Hin. apply in_flat_map_seq in Hin. destruct Hin as (j' & Hj' & Hin). apply in_map_iff in Hin.
    destruct Hin as (k' & E & Hk'). apply in_seq in Hk'. injection E as E <-.
    assert (j' = j) by nia. subst j'. assert (k' = k) by lia. subst k'. auto.
Qed.

(** Loops whose state is an accumulated array and a work buffer. *)
Lemma pair_loop {T} n (body : nat -> list R * T -> list R * T) (f : nat -> list (nat * R)) (P : T -> Prop) c w :
  (forall i c w, i < n -> P w -> exists w', body i (c, w) = (accs (f i) c, w') /\ P w') -> P w ->
  exists w', for_loop n body (c, w) = (accs (flat_map f (seq 0 n)) c, w') /\ P w'.
Proof.
  intros Hb Hw. induction n as [|n IH].
  - exists w. auto.
  - destruct IH as (w1 & E & H1); [intros; apply Hb; auto; lia|].
    destruct (Hb n (accs (flat_map f (seq 0 n)) c) w1 (Nat.lt_succ_diag_r n) H1) as (w2 & E2 & H2).
    exists w2. split; auto. rewrite for_loop_S, E, E2, seq_S, flat_map_app, accs_app. cbn [Nat.add flat_map].
    now rewrite app_nil_r.
Qed.

Lemma map_seq_accs n (key : nat) (v : nat -> R) c :
  for_loop n (fun l c => addto c key (v l)) c = accs (map (fun l => (key, v l)) (seq 0 n)) c.
Proof.
  induction n as [|n IH]; auto. rewrite for_loop_S, IH, seq_S, map_app, accs_app. reflexivity.
Qed.

Lemma contrib_map_seq n (key : nat -> nat) (v : nat -> R) k :
  contrib (map (fun l => (key l, v l)) (seq 0 n)) k = rsum n (fun l => if key l =? k then v l else 0%R).
Proof. unfold contrib. rewrite lsum_map. cbn [fst snd]. apply lsum_seq. Qed.

(** ** The loops *)
Lemma pack_u_accs nf nq nd bs n_sub nds pc f_to_c ds dp u facets basis :
  (forall f, In f facets -> (0 <= f)%Z -> length (ds (hd 0%nat (f_to_c (Z.to_nat f)))) = nd) ->
  length facets = nf * nq ->
  let u_sub := copy_function 0%R bs n_sub pc ds dp u (repeat 0%R (bs * nds)) in
  pack_u_contact nf nq nd bs n_sub nds pc f_to_c ds dp u facets basis =
  accs (flat_map (fun i => flat_map (fun q =>
     let f := nth (i * nq + q) facets 0%Z in
     if Z.ltb f 0 then [] else
     flat_map (fun k => map (fun l => (nq * bs * i + q * bs + k,
        (dof_value bs (ds (hd 0%nat (f_to_c (Z.to_nat f)))) u_sub l k * basis (nq * i + q)%nat l)%R)) (seq 0 nd)) (seq 0 bs))
     (seq 0 nq)) (seq 0 nf)) (repeat 0%R (nf * nq * bs)).
Proof.
  intros Hnd Hlen u_sub. unfold pack_u_contact. fold u_sub.
  match goal with |- fst (for_loop nf ?b (?c0, ?w0)) = accs (flat_map ?g _) _ =>
    destruct (pair_loop nf b g (fun w => length w = nd * bs) c0 w0) as (w' & E & _) end.
  - intros i c w Hi Hw. apply pair_loop; auto. clear c w Hw. intros q c w Hq Hw. cbn zeta.
    set (f := nth (i * nq + q) facets 0%Z).
    destruct (Z.ltb_spec f 0) as [L|L]; [exists w; split; auto|].
    assert (Hf : In f facets) by (apply nth_In; nia).
    eexists. split; [|rewrite gather_length; exact Hw]. cbn [fst snd]. f_equal.
    apply for_loop_accs. intros k s Hk. rewrite map_seq_accs. f_equal. apply map_ext_in. intros l Hl.
    apply in_seq in Hl. f_equal. f_equal. apply gather_nth; rewrite ?Hnd; auto; lia.
  - apply repeat_length.
  - rewrite E. reflexivity.
Qed.

Lemma pack_u_entry nf nq nd bs n_sub nds pc f_to_c ds dp u facets basis i q k :
  (forall f, In f facets -> (0 <= f)%Z -> length (ds (hd 0%nat (f_to_c (Z.to_nat f)))) = nd) ->
  length facets = nf * nq -> i < nf -> q < nq -> k < bs ->
  let u_sub := copy_function 0%R bs n_sub pc ds dp u (repeat 0%R (bs * nds)) in
  let f := nth (i * nq + q) facets 0%Z in
  nth (i * (nq * bs) + q * bs + k) (pack_u_contact nf nq nd bs n_sub nds pc f_to_c ds dp u facets basis) 0%R =
  if Z.ltb f 0 then 0%R
  else rsum nd (fun l => (dof_value bs (ds (hd 0%nat (f_to_c (Z.to_nat f)))) u_sub l k * basis (i * nq + q)%nat l)%R).
Proof.
  intros Hnd Hlen Hi Hq Hk u_sub f. rewrite pack_u_accs by auto. fold u_sub.
  assert (Hb : i * (nq * bs) + q * bs + k < nf * nq * bs).
  { pose proof (radix_lt q nq bs k Hq Hk). nia. }
  rewrite nth_accs by (now rewrite repeat_length). rewrite nth_repeat_0, Rplus_0_l.
  rewrite contrib_seq. rewrite (rsum_single nf i); auto.
  - rewrite contrib_seq. rewrite (rsum_single nq q); auto.
    + cbn zeta. fold f. destruct (Z.ltb f 0); [reflexivity|]. rewrite contrib_seq. rewrite (rsum_single bs k); auto.
      * rewrite contrib_map_seq. apply rsum_ext. intros l Hl.
        destruct (Nat.eqb_spec (nq * bs * i + q * bs + k) (i * (nq * bs) + q * bs + k)); [|lia].
        now rewrite (Nat.mul_comm nq i).
      * intros k' Hk' Hne. rewrite contrib_map_seq. apply rsum_zero. intros l Hl.
        destruct (Nat.eqb_spec (nq * bs * i + q * bs + k') (i * (nq * bs) + q * bs + k)); [lia|auto].
    + intros q' Hq' Hne. cbn zeta. destruct (Z.ltb _ 0); [reflexivity|]. rewrite contrib_seq. apply rsum_zero. intros k' Hk'.
      rewrite contrib_map_seq. apply rsum_zero. intros l Hl.
      destruct (Nat.eqb_spec (nq * bs * i + q' * bs + k') (i * (nq * bs) + q * bs + k)) as [E|]; auto.
      exfalso. apply Hne. apply (radix q' q bs k' k); auto. lia.
  - intros i' Hi' Hne. rewrite contrib_seq. apply rsum_zero. intros q' Hq'.
    cbn zeta. destruct (Z.ltb _ 0); [reflexivity|]. rewrite contrib_seq. apply rsum_zero. intros k' Hk'.
    rewrite contrib_map_seq. apply rsum_zero. intros l Hl.
    destruct (Nat.eqb_spec (nq * bs * i' + q' * bs + k') (i * (nq * bs) + q * bs + k)) as [E|]; auto.
    exfalso. apply Hne. apply (radix i' i (nq * bs) (q' * bs + k') (q * bs + k)); try (apply radix_lt; auto). lia.
Qed.

Lemma pack_grad_u_entry nf nq nd bs gdim fm pc dp u facets grad i q k j :
  (forall f, In f facets -> (0 <= f)%Z -> length (dp (contact_cell fm pc f)) = nd) ->
  length facets = nf * nq -> i < nf -> q < nq -> k < bs -> j < gdim ->
  let f := nth (i * nq + q) facets 0%Z in
  nth (i * (nq * bs * gdim) + q * bs * gdim + k * gdim + j) (pack_grad_u_contact nf nq nd bs gdim fm pc dp u facets grad) 0%R =
  if Z.ltb f 0 then 0%R
  else rsum nd (fun l => (dof_value bs (dp (contact_cell fm pc f)) u l k * grad (contact_cell fm pc f) (i * nq + q)%nat l j)%R).
Proof.
  intros Hnd Hlen Hi Hq Hk Hj f.
  assert (E : pack_grad_u_contact nf nq nd bs gdim fm pc dp u facets grad =
    accs (flat_map (fun i => flat_map (fun q =>
     let f := nth (i * nq + q) facets 0%Z in
     if Z.ltb f 0 then [] else
     flat_map (fun k => flat_map (fun j => map (fun l => (nq * bs * gdim * i + q * bs * gdim + k * gdim + j,
        (dof_value bs (dp (contact_cell fm pc f)) u l k * grad (contact_cell fm pc f) (nq * i + q)%nat l j)%R)) (seq 0 nd))
        (seq 0 gdim)) (seq 0 bs))
     (seq 0 nq)) (seq 0 nf)) (repeat 0%R (nf * (nq * bs * gdim)))).
  { unfold pack_grad_u_contact.
    match goal with |- fst (for_loop nf ?b (?c0, ?w0)) = accs (flat_map ?g _) _ =>
      destruct (pair_loop nf b g (fun w => length w = nd * bs) c0 w0) as (w' & E & _) end.
    - clear i q k j Hi Hq Hk Hj f. intros i c w Hi Hw. apply pair_loop; auto. clear c w Hw. intros q c w Hq Hw. cbn zeta.
      set (f := nth (i * nq + q) facets 0%Z).
      destruct (Z.ltb_spec f 0) as [L|L]; [exists w; split; auto|].
      assert (Hf : In f facets) by (apply nth_In; nia).
      eexists. split; [|rewrite gather_length; exact Hw]. cbn [fst snd]. f_equal.
      apply for_loop_accs. intros k s Hk. apply for_loop_accs. intros j s' Hj. rewrite map_seq_accs. f_equal.
      apply map_ext_in. intros l Hl. apply in_seq in Hl. f_equal.
      change (nth (sub_cell fm (Z.to_nat f)) pc 0) with (contact_cell fm pc f).
      f_equal. apply gather_nth; rewrite ?Hnd; auto; lia.
    - apply repeat_length.
    - rewrite E. reflexivity. }
  rewrite E. clear E.
  assert (B1 : k * gdim + j < bs * gdim) by (apply radix_lt; auto).
  assert (B2 : q * (bs * gdim) + (k * gdim + j) < nq * (bs * gdim)) by (apply radix_lt; auto).
  assert (Hb : i * (nq * bs * gdim) + q * bs * gdim + k * gdim + j < nf * (nq * bs * gdim)) by nia.
  rewrite nth_accs by (now rewrite repeat_length). rewrite nth_repeat_0, Rplus_0_l.
  assert (Hz : forall i' q' k' j', k' < bs -> q' < nq -> j' < gdim -> (i' <> i \/ q' <> q \/ k' <> k \/ j' <> j) ->
     nq * bs * gdim * i' + q' * bs * gdim + k' * gdim + j' <> i * (nq * bs * gdim) + q * bs * gdim + k * gdim + j).
  { intros i' q' k' j' H1 H2 H3 Hne E.
    assert (E' : i' * (nq * (bs * gdim)) + (q' * (bs * gdim) + (k' * gdim + j')) = i * (nq * (bs * gdim)) + (q * (bs * gdim) + (k * gdim + j))) by lia.
    apply radix in E'; auto; [|apply radix_lt; auto; apply radix_lt; auto]. destruct E' as [-> E'].
    apply radix in E'; auto; [|apply radix_lt; auto]. destruct E' as [-> E'].
    apply radix in E'; auto. destruct E' as [-> ->]. lia. }
  rewrite contrib_seq. rewrite (rsum_single nf i); auto.
  - rewrite contrib_seq. rewrite (rsum_single nq q); auto.
    + cbn zeta. fold f. destruct (Z.ltb f 0); [reflexivity|]. rewrite contrib_seq. rewrite (rsum_single bs k); auto.
      * rewrite contrib_seq. rewrite (rsum_single gdim j); auto.
        -- rewrite contrib_map_seq. apply rsum_ext. intros l Hl.
           destruct (Nat.eqb_spec (nq * bs * gdim * i + q * bs * gdim + k * gdim + j) (i * (nq * bs * gdim) + q * bs * gdim + k * gdim + j)); [|lia].
           now rewrite (Nat.mul_comm nq i).
        -- intros j' Hj' Hne. rewrite contrib_map_seq. apply rsum_zero. intros l Hl.
           destruct (Nat.eqb_spec (nq * bs * gdim * i + q * bs * gdim + k * gdim + j') (i * (nq * bs * gdim) + q * bs * gdim + k * gdim + j)); [lia|auto].
      * intros k' Hk' Hne. rewrite contrib_seq. apply rsum_zero. intros j' Hj'. rewrite contrib_map_seq. apply rsum_zero. intros l Hl.
        destruct (Nat.eqb_spec (nq * bs * gdim * i + q * bs * gdim + k' * gdim + j') (i * (nq * bs * gdim) + q * bs * gdim + k * gdim + j)) as [E|]; auto.
        exfalso. eapply Hz; [| | | |exact E]; auto.
    + intros q' Hq' Hne. cbn zeta. destruct (Z.ltb _ 0); [reflexivity|]. rewrite contrib_seq. apply rsum_zero. intros k' Hk'.
      rewrite contrib_seq. apply rsum_zero. intros j' Hj'. rewrite contrib_map_seq. apply rsum_zero. intros l Hl.
      destruct (Nat.eqb_spec (nq * bs * gdim * i + q' * bs * gdim + k' * gdim + j') (i * (nq * bs * gdim) + q * bs * gdim + k * gdim + j)) as [E|]; auto.
      exfalso. eapply Hz; [| | | |exact E]; auto.
  - intros i' Hi' Hne. rewrite contrib_seq. apply rsum_zero. intros q' Hq'.
    cbn zeta. destruct (Z.ltb _ 0); [reflexivity|]. rewrite contrib_seq. apply rsum_zero. intros k' Hk'.
    rewrite contrib_seq. apply rsum_zero. intros j' Hj'. rewrite contrib_map_seq. apply rsum_zero. intros l Hl.
    destruct (Nat.eqb_spec (nq * bs * gdim * i' + q' * bs * gdim + k' * gdim + j') (i * (nq * bs * gdim) + q * bs * gdim + k * gdim + j)) as [E|]; auto.
    exfalso. eapply Hz; [| | | |exact E]; auto.
Qed.

(** ** C18 *)
Section Setting.
(** A contact pair as the packing functions see it. *)
Variables (nf nq nd bs n_sub nds : nat) (facet_map : adj nat) (parent : list nat)
  (f_to_c : nat -> list nat) (dofs_sub dofs_parent : nat -> list nat) (facets : list Z).

Definition packing_setting : Prop :=
  length facets = nf * nq /\
  conforming n_sub parent dofs_sub dofs_parent /\
  (forall c i, c < n_sub -> i < length (dofs_sub c) -> nth i (dofs_sub c) 0 < nds) /\
  (forall c, c < n_sub -> length (dofs_sub c) = nd /\ length (dofs_parent (nth c parent 0)) = nd) /\
  n_sub = length parent /\ StronglySorted lt parent /\
  (* a contact facet is an exterior facet of its submesh cell *)
  (forall f, In f facets -> (0 <= f)%Z ->
     hd 0%nat (f_to_c (Z.to_nat f)) = nth 0 (links facet_map (Z.to_nat f)) 0 /\
     nth 0 (links facet_map (Z.to_nat f)) 0 < n_sub).
End Setting.

(** Value of component [k] of the finite element function [u] at contact point
    [p], evaluated in parent cell [c]. *)
Definition fe_value (bs nd : nat) (dofs_parent : nat -> list nat) (u : list R) (basis : nat -> nat -> R) (c p k : nat) : R :=
  rsum nd (fun l => (dof_value bs (dofs_parent c) u l k * basis p l)%R).

Theorem C18_pack_u_contact :
  forall nf nq nd bs n_sub nds facet_map parent f_to_c dofs_sub dofs_parent facets (u : list R) (basis : nat -> nat -> R),
    packing_setting nf nq nd n_sub nds facet_map parent f_to_c dofs_sub dofs_parent facets ->
    let c := pack_u_contact nf nq nd bs n_sub nds parent f_to_c dofs_sub dofs_parent u facets basis in
    forall i q k, i < nf -> q < nq -> k < bs ->
      let f := nth (i * nq + q) facets (-1)%Z in
      nth (i * (nq * bs) + q * bs + k) c 0%R =
      if Z.ltb f 0 then 0%R
      else fe_value bs nd dofs_parent u basis (contact_cell facet_map parent f) (i * nq + q) k.
Proof.
  intros nf nq nd bs n_sub nds fm pc f_to_c ds dp facets u basis (Hlen & Hcf & Hb & Hd & Hn & Hpc & Hf) c i q k Hi Hq Hk f.
  assert (Hfn : f = nth (i * nq + q) facets 0%Z) by (apply nth_indep; nia).
  unfold c. rewrite pack_u_entry; auto.
  2:{ intros g Hg L. destruct (Hf g Hg L) as [-> ?]. apply Hd. auto. }
  rewrite <- Hfn. destruct (Z.ltb_spec f 0) as [L|L]; auto.
  assert (Hin : In f facets) by (apply nth_In; nia).
  destruct (Hf f Hin L) as [E Lc]. rewrite E. unfold fe_value. apply rsum_ext. intros l Hl. f_equal.
  destruct (C10_copy_function 0%R bs n_sub nds pc ds dp u (repeat 0%R (bs * nds)) Hcf (repeat_length _ _) Hb) as (_ & H & _).
  apply H; auto. destruct (Hd _ Lc) as [-> _]. auto.
Qed.
Print Assumptions C18_pack_u_contact.

Theorem C18_pack_grad_u_contact :
  forall nf nq nd bs gdim n_sub nds facet_map parent f_to_c dofs_sub dofs_parent facets (u : list R)
         (grad : nat -> nat -> nat -> nat -> R),
    packing_setting nf nq nd n_sub nds facet_map parent f_to_c dofs_sub dofs_parent facets ->
    let c := pack_grad_u_contact nf nq nd bs gdim facet_map parent dofs_parent u facets grad in
    forall i q k j, i < nf -> q < nq -> k < bs -> j < gdim ->
      let f := nth (i * nq + q) facets (-1)%Z in
      let cell := contact_cell facet_map parent f in
      nth (i * (nq * bs * gdim) + q * bs * gdim + k * gdim + j) c 0%R =
      if Z.ltb f 0 then 0%R
      else fe_value bs nd dofs_parent u (fun p l => grad cell p l j) cell (i * nq + q) k.
Proof.
  intros nf nq nd bs gdim n_sub nds fm pc f_to_c ds dp facets u grad (Hlen & Hcf & Hb & Hd & Hn & Hpc & Hf) c i q k j Hi Hq Hk Hj f cell.
  assert (Hfn : f = nth (i * nq + q) facets 0%Z) by (apply nth_indep; nia).
  unfold c. rewrite pack_grad_u_entry; auto.
  - rewrite <- Hfn. destruct (Z.ltb f 0); auto.
  - intros g Hg L. destruct (Hf g Hg L) as [_ Lc]. apply Hd. auto.
Qed.
Print Assumptions C18_pack_grad_u_contact.

(** Sum of packed test functions times the dofs of the linked cells: what a
    kernel that only sees the packed arrays reconstructs at point [q]. *)
Definition from_test_functions (nd bs : nat) (linked : list nat) (dofs_parent : nat -> list nat)
    (u : list R) (test : nat -> nat -> R) (k : nat) : R :=
  rsum (length linked) (fun link =>
    rsum nd (fun l => (test link l * dof_value bs (dofs_parent (nth link linked 0%nat)) u l k)%R)).

Lemma from_test_single nd bs linked dp u test k link0 v :
  link0 < length linked -> (forall link l, link < length linked -> link <> link0 -> l < nd -> test link l = 0%R) ->
  (forall l, l < nd -> test link0 l = v l) ->
  from_test_functions nd bs linked dp u test k = rsum nd (fun l => (dof_value bs (dp (nth link0 linked 0%nat)) u l k * v l)%R).
Proof.
  intros H0 Hz Hv. unfold from_test_functions. rewrite (rsum_single _ link0); auto.
  - apply rsum_ext. intros l Hl. rewrite Hv by auto. apply Rmult_comm.
  - intros link Hl Hne. apply rsum_zero. intros l Hl'. rewrite Hz by auto. apply Rmult_0_l.
Qed.

(** Packed displacement and packed test functions agree, for facets without
    missing points (see C16). *)
Theorem C18_consistent_with_test_functions :
  forall nf nq nd bs ml n_sub nds facet_map parent f_to_c dofs_sub dofs_parent facets (u : list R) (basis : nat -> nat -> R),
    packing_setting nf nq nd n_sub nds facet_map parent f_to_c dofs_sub dofs_parent facets ->
    (forall i, i < nf -> length (linked_cells (slice facets (i * nq) nq) facet_map parent) <= ml) ->
    exists t, pack_test_functions 0%R nf nq ml nd bs facet_map parent facets basis = Some t /\
    let c := pack_u_contact nf nq nd bs n_sub nds parent f_to_c dofs_sub dofs_parent u facets basis in
    forall i q k, i < nf -> q < nq -> k < bs ->
      let row := slice facets (i * nq) nq in
      (forall f, In f row -> (0 <= f)%Z) ->
      nth (i * (nq * bs) + q * bs + k) c 0%R =
      from_test_functions nd bs (linked_cells row facet_map parent) dofs_parent u
        (fun link l => nth ((((i * ml + link) * nd + l) * nq + q) * bs + k) t 0%R) k.
Proof.
  intros nf nq nd bs ml n_sub nds fm pc f_to_c ds dp facets u basis HS Hml.
  pose proof HS as (Hlen & Hcf & Hb & Hd & Hn & Hpc & Hf).
  destruct (C16_pack_test_functions_partial 0%R nf nq ml nd bs fm pc facets basis Hlen Hml) as (t & E & _ & Ht).
  exists t. split; auto. intros c i q k Hi Hq Hk row Hall.
  unfold c. rewrite (C18_pack_u_contact nf nq nd bs n_sub nds fm) by auto. cbn zeta.
  assert (Hrl : length row = nq) by (apply slice_length; nia).
  assert (Hfr : nth (i * nq + q) facets (-1)%Z = nth q row (-1)%Z) by (unfold row; rewrite nth_slice; auto).
  rewrite Hfr. set (f := nth q row (-1)%Z).
  assert (Hin : In f row) by (apply nth_In; lia).
  destruct (Z.ltb_spec f 0) as [L|L]; [specialize (Hall f Hin); lia|].
  set (linked := linked_cells row fm pc).
  assert (Hc : In (contact_cell fm pc f) linked) by (apply linked_cells_in; exists f; auto).
  apply (In_nth _ _ 0) in Hc. destruct Hc as (link0 & Hl0 & E0).
  assert (Hll : length linked <= ml) by (apply Hml; auto).
  rewrite (from_test_single _ _ _ _ _ _ _ link0 (fun l => basis (i * nq + q) l)); auto.
  - rewrite E0. reflexivity.
  - intros link l Hli Hne Hl. apply (Ht i link l q k); auto; try lia. intros (_ & _ & En). apply Hne.
    assert (ND : NoDup linked) by (eapply StronglySorted_lt_NoDup; [|apply linked_sorted]; apply Nat.lt_irrefl).
    apply (proj1 (NoDup_nth linked 0) ND); auto. exact (eq_trans En (eq_sym E0)).
  - intros l Hl. apply (Ht i link0 l q k); auto; try lia. split; auto.
Qed.
Print Assumptions C18_consistent_with_test_functions.

Theorem C18_consistent_with_grad_test_functions :
  forall nf nq nd bs ml gdim n_sub nds facet_map parent f_to_c dofs_sub dofs_parent facets (u : list R)
         (grad : nat -> nat -> nat -> nat -> R),
    packing_setting nf nq nd n_sub nds facet_map parent f_to_c dofs_sub dofs_parent facets ->
    (forall i, i < nf -> length (linked_cells (slice facets (i * nq) nq) facet_map parent) <= ml) ->
    exists t, pack_grad_test_functions 0%R nf nq ml nd gdim facet_map parent facets grad = Some t /\
    let c := pack_grad_u_contact nf nq nd bs gdim facet_map parent dofs_parent u facets grad in
    forall i q k j, i < nf -> q < nq -> k < bs -> j < gdim ->
      let row := slice facets (i * nq) nq in
      (forall f, In f row -> (0 <= f)%Z) ->
      nth (i * (nq * bs * gdim) + q * bs * gdim + k * gdim + j) c 0%R =
      from_test_functions nd bs (linked_cells row facet_map parent) dofs_parent u
        (fun link l => nth ((((i * ml + link) * nd + l) * nq + q) * gdim + j) t 0%R) k.
Proof.
  intros nf nq nd bs ml gdim n_sub nds fm pc f_to_c ds dp facets u grad HS Hml.
  pose proof HS as (Hlen & Hcf & Hb & Hd & Hn & Hpc & Hf).
  destruct (C17_pack_grad_test_functions_partial 0%R nf nq ml nd gdim fm pc facets grad Hlen Hpc) as (t & E & _ & Ht); auto.
  { intros f Hin L. rewrite <- Hn. apply Hf; auto. }
  exists t. split; auto. intros c i q k j Hi Hq Hk Hj row Hall.
  unfold c. rewrite (C18_pack_grad_u_contact nf nq nd bs gdim n_sub nds fm pc f_to_c ds dp) by auto. cbn zeta.
  assert (Hrl : length row = nq) by (apply slice_length; nia).
  assert (Hfr : nth (i * nq + q) facets (-1)%Z = nth q row (-1)%Z) by (unfold row; rewrite nth_slice; auto).
  rewrite Hfr. set (f := nth q row (-1)%Z).
  assert (Hin : In f row) by (apply nth_In; lia).
  destruct (Z.ltb_spec f 0) as [L|L]; [specialize (Hall f Hin); lia|].
  set (linked := linked_cells row fm pc).
  assert (Hc : In (contact_cell fm pc f) linked) by (apply linked_cells_in; exists f; auto).
  apply (In_nth _ _ 0) in Hc. destruct Hc as (link0 & Hl0 & E0).
  assert (Hll : length linked <= ml) by (apply Hml; auto).
  rewrite (from_test_single _ _ _ _ _ _ _ link0 (fun l => grad (contact_cell fm pc f) (i * nq + q) l j)); auto.
  - rewrite E0. reflexivity.
  - intros link l Hli Hne Hl. apply (Ht i link l q j); auto; try lia. intros (_ & _ & En). apply Hne.
    assert (ND : NoDup linked) by (eapply StronglySorted_lt_NoDup; [|apply linked_sorted]; apply Nat.lt_irrefl).
    apply (proj1 (NoDup_nth linked 0) ND); auto. exact (eq_trans En (eq_sym E0)).
  - intros l Hl. rewrite <- E0. apply (Ht i link0 l q j); auto; try lia. split; auto.
Qed.
Print Assumptions C18_consistent_with_grad_test_functions.

(** Two submesh intervals (parents 3 and 4) with P1 dofs; the packed array of a
    facet with three points. *)
Example C18_setting :
  packing_setting 1 3 2 2 3 (mkAdj [1; 0; 0; 2] [0; 2; 4]) [3; 4] (fun f => [1 - f])
    (fun c => [c; S c]) (fun c => [c; S c]) [0; 1; 0]%Z.
Proof.
  repeat split; auto; try lia.
  - intros c i c' i' Hc Hc' Hi Hi'. cbn in Hi, Hi'.
    destruct c as [|[|c]]; [| |lia]; destruct c' as [|[|c']]; try lia;
    destruct i as [|[|i]]; try lia; destruct i' as [|[|i']]; try lia; cbn; lia.
  - intros c i Hc Hi. cbn in Hi. destruct i as [|[|i]]; cbn; lia.
  - repeat constructor.
  - destruct H as [<-|[<-|[<-|[]]]]; vm_compute; auto.
  - destruct H as [<-|[<-|[<-|[]]]]; vm_compute; auto.
Qed.
