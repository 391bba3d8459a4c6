(** Proofs about the submesh maps. *)
From Coq Require Import List Arith Lia Bool Sorted.
Import ListNotations.
From Verif Require Import Prelude PreludeLemmas Scatter SubMeshModel.

(** ** Flat pair arrays *)
Definition flat2 (l : list (nat * nat)) : list nat := flat_map (fun p => [fst p; snd p]) l.

Lemma flat2_length l : length (flat2 l) = 2 * length l.
Proof. unfold flat2. induction l; cbn; auto. cbn in IHl. lia. Qed.

Lemma flat2_half l : length (flat2 l) / 2 = length l.
Proof. rewrite flat2_length, Nat.mul_comm, Nat.div_mul; lia. Qed.

Lemma flat2_fst l i d : i < length l -> nth (2 * i) (flat2 l) 0 = fst (nth i l d).
Proof.
  revert i. induction l as [|[a b] l IH]; intros i H; cbn [length] in H; [lia|].
  destruct i as [|i]; auto. replace (2 * S i) with (S (S (2 * i))) by lia.
  cbn [flat2 flat_map app nth]. fold (flat2 l). apply IH. lia.
Qed.

Lemma flat2_snd l i d : i < length l -> nth (2 * i + 1) (flat2 l) 0 = snd (nth i l d).
Proof.
  revert i. induction l as [|[a b] l IH]; intros i H; cbn [length] in H; [lia|].
  destruct i as [|i]; auto. replace (2 * S i + 1) with (S (S (2 * i + 1))) by lia.
  cbn [flat2 flat_map app nth]. fold (flat2 l). apply IH. lia.
Qed.

Lemma map_nth_seq {A} (l : list A) d : map (fun i => nth i l d) (seq 0 (length l)) = l.
Proof.
  apply (nth_ext' _ _ d); rewrite map_length, seq_length; auto.
  intros i Hi. rewrite (nth_map_lt _ _ i d 0) by (now rewrite seq_length). rewrite seq_nth by auto. auto.
Qed.

Lemma submesh_cells_flat (l : list (nat * nat)) :
  submesh_cells (flat2 l) = unique Nat.eqb (isort Nat.leb (map fst l)).
Proof.
  unfold submesh_cells. rewrite flat2_half. do 2 f_equal.
  rewrite <- (map_nth_seq l (0, 0)) at 2. rewrite map_map. apply map_ext_in. intros i Hi.
  apply in_seq in Hi. apply flat2_fst. lia.
Qed.

Lemma submesh_cells_sorted l : StronglySorted lt (submesh_cells (flat2 l)).
Proof. rewrite submesh_cells_flat. apply sort_unique_nat_sorted. Qed.

Lemma submesh_cells_in l c : In c (submesh_cells (flat2 l)) <-> exists lf, In (c, lf) l.
Proof.
  rewrite submesh_cells_flat, sort_unique_nat_in, in_map_iff. split.
  - intros ([c' lf] & <- & H). exists lf. auto.
  - intros (lf & H). exists (c, lf). auto.
Qed.

(** ** Marking *)
Lemma mark_writes num v keys : mark num v keys = writes (map (fun c => (c, v)) keys) (repeat 0 num).
Proof.
  unfold mark. rewrite (for_each_writes keys _ (fun c => [(c, v)])); [|reflexivity].
  reflexivity.
Qed.

Lemma mark_length num v keys : length (mark num v keys) = num.
Proof. now rewrite mark_writes, writes_length, repeat_length. Qed.

Lemma mark_in num v keys c : c < num -> In c keys -> nth c (mark num v keys) 0 = v.
Proof.
  intros Hc Hin. rewrite mark_writes. apply writes_consistent.
  - now rewrite repeat_length.
  - apply in_map_iff. eauto.
  - intros v' H. apply in_map_iff in H. destruct H as (x & E & _). congruence.
Qed.

Lemma mark_out num v keys c : ~ In c keys -> nth c (mark num v keys) 0 = 0.
Proof.
  intros Hn. rewrite mark_writes, writes_miss; [apply nth_repeat_0|].
  intros v' H. apply in_map_iff in H. destruct H as (x & E & Hx). congruence.
Qed.

(** Slots of marked keys are disjoint and in range. *)
Section Slots.
Variables (num w : nat) (keys : list nat).
Let m := mark num w keys.
Let off := psums m.

Lemma slot_end c : c < num -> In c keys -> nth (S c) off 0 = nth c off 0 + w.
Proof.
  intros Hc Hin. unfold off. rewrite psums_step by (unfold m; rewrite mark_length; auto).
  unfold m. rewrite mark_in; auto.
Qed.

Lemma slot_out c : c < num -> ~ In c keys -> nth (S c) off 0 = nth c off 0.
Proof.
  intros Hc Hin. unfold off. rewrite psums_step by (unfold m; rewrite mark_length; auto).
  unfold m. rewrite mark_out; auto.
Qed.

Lemma slot_disjoint c c' : c < num -> c' < num -> In c keys -> c < c' ->
  nth c off 0 + w <= nth c' off 0.
Proof.
  intros Hc Hc' Hin Hlt. rewrite <- slot_end by auto. apply psums_mono; [lia|].
  unfold m. rewrite mark_length. lia.
Qed.

Lemma slot_total c : c < num -> In c keys -> nth c off 0 + w <= nth num off 0.
Proof.
  intros Hc Hin. rewrite <- slot_end by auto. apply psums_mono; [lia|].
  unfold m. rewrite mark_length. lia.
Qed.
End Slots.

(** ** Cell map *)
Section CellMap.
Variables (num : nat) (cells : list nat).
Hypothesis Hnd : NoDup cells.
Hypothesis Hlt : forall c, In c cells -> c < num.

Lemma cell_map_out c : c < num -> ~ In c cells -> links (mesh_to_submesh_cell_map num cells) c = [].
Proof.
  intros Hc Hn. unfold links, mesh_to_submesh_cell_map. cbn [adj_off adj_data].
  rewrite slot_out by auto. rewrite Nat.sub_diag. apply slice_0.
Qed.

Lemma cell_map_in s : s < length cells -> links (mesh_to_submesh_cell_map num cells) (nth s cells 0) = [s].
Proof.
  intros Hs. assert (Hin : In (nth s cells 0) cells) by (apply nth_In; auto).
  pose proof (Hlt _ Hin) as Hc.
  unfold links, mesh_to_submesh_cell_map. cbn [adj_off adj_data].
  rewrite slot_end by auto. rewrite Nat.add_comm, Nat.add_sub.
  set (off := psums (mark num 1 cells)).
  pose proof (slot_total num 1 cells _ Hc Hin) as Ht. fold off in Ht.
  rewrite (for_loop_writes _ _ (fun c => [(nth (nth c cells 0) off 0, c)])) by reflexivity.
  assert (Hl : nth (nth s cells 0) off 0 < nth num off 0) by lia.
  rewrite (slice_cons _ _ _ 0) by (rewrite writes_length, repeat_length; auto). rewrite slice_0. f_equal.
  apply writes_consistent.
  - now rewrite repeat_length.
  - apply in_flat_map_seq. exists s. split; auto. left; auto.
  - intros v' H. apply in_flat_map_seq in H. destruct H as (i & Hi & [E|[]]).
    injection E as E1 E2. subst v'.
    assert (Hini : In (nth i cells 0) cells) by (apply nth_In; auto).
    destruct (Nat.lt_trichotomy (nth i cells 0) (nth s cells 0)) as [L|[L|L]].
    + pose proof (slot_disjoint num 1 cells _ _ (Hlt _ Hini) Hc Hini L). fold off in H. lia.
    + apply (proj1 (NoDup_nth cells 0) Hnd i s Hi Hs L).
    + pose proof (slot_disjoint num 1 cells _ _ Hc (Hlt _ Hini) Hin L). fold off in H. lia.
Qed.
End CellMap.

(** ** Facet map *)
Section FacetMap.
Variables (num_facets : nat) (cmap : adj nat) (c_to_f : nat -> list nat) (l : list (nat * nat)).
Let sub (c : nat) := hd 0 (links cmap c).
Let facet (p : nat * nat) := nth (snd p) (c_to_f (sub (fst p))) 0.
Hypothesis Hf : forall p, In p l -> facet p < num_facets.

Lemma pair_facet_flat k : k < length l -> pair_facet cmap c_to_f (flat2 l) (2 * k) = facet (nth k l (0, 0)).
Proof.
  intros Hk. unfold pair_facet, facet, sub. rewrite (flat2_fst l k (0, 0)), (flat2_snd l k (0, 0)) by auto. auto.
Qed.

Let marked := for_loop (length l) (fun k m => upd m (pair_facet cmap c_to_f (flat2 l) (2 * k)) 2) (repeat 0 num_facets).

Lemma marked_mark : marked = mark num_facets 2 (map facet l).
Proof.
  unfold marked. rewrite mark_writes.
  rewrite (for_loop_writes _ _ (fun k => [(facet (nth k l (0, 0)), 2)])).
  2:{ intros i s Hi. rewrite pair_facet_flat by auto. reflexivity. }
  f_equal. rewrite map_map.
  rewrite <- (map_nth_seq l (0, 0)) at 2. rewrite map_map.
  induction (seq 0 (length l)); cbn; congruence.
Qed.

Lemma facet_map_out f : f < num_facets -> (forall p, In p l -> facet p <> f) ->
  links (facets_to_cells cmap c_to_f num_facets (flat2 l)) f = [].
Proof.
  intros Hlt Hn. unfold links, facets_to_cells. cbn [adj_off adj_data]. rewrite flat2_half.
  fold marked. rewrite marked_mark. rewrite slot_out; auto.
  - rewrite Nat.sub_diag. apply slice_0.
  - intros H. apply in_map_iff in H. destruct H as (p & E & Hp). apply (Hn p); auto.
Qed.

(** The entry of a facet is the pair of the last input that touches it. *)
Lemma facet_map_in k : k < length l ->
  (forall k', k < k' -> k' < length l -> facet (nth k' l (0, 0)) <> facet (nth k l (0, 0))) ->
  links (facets_to_cells cmap c_to_f num_facets (flat2 l)) (facet (nth k l (0, 0)))
  = [sub (fst (nth k l (0, 0))); snd (nth k l (0, 0))].
Proof.
  intros Hk Hlast. set (pk := nth k l (0, 0)) in *.
  assert (Hin : In pk l) by (apply nth_In; auto).
  pose proof (Hf _ Hin) as Hlt.
  assert (Hmk : In (facet pk) (map facet l)) by (apply in_map; auto).
  unfold links, facets_to_cells. cbn [adj_off adj_data]. rewrite flat2_half.
  fold marked. rewrite marked_mark. rewrite slot_end by auto.
  rewrite (Nat.add_comm _ 2), Nat.add_sub.
  set (off := psums (mark num_facets 2 (map facet l))).
  pose proof (slot_total num_facets 2 (map facet l) _ Hlt Hmk) as Ht. fold off in Ht.
  set (wr := fun k => [(nth (facet (nth k l (0,0))) off 0, sub (fst (nth k l (0,0))));
                       (nth (facet (nth k l (0,0))) off 0 + 1, snd (nth k l (0,0)))]).
  rewrite (for_loop_writes _ _ wr).
  2:{ intros i s Hi. rewrite pair_facet_flat by auto.
      rewrite (flat2_fst l i (0, 0)), (flat2_snd l i (0, 0)) by auto. reflexivity. }
  assert (Hother : forall k', k' < length l -> facet (nth k' l (0,0)) <> facet pk ->
     nth (facet (nth k' l (0,0))) off 0 + 2 <= nth (facet pk) off 0 \/
     nth (facet pk) off 0 + 2 <= nth (facet (nth k' l (0,0))) off 0).
  { intros k' Hk' Hne. assert (Hin' : In (nth k' l (0,0)) l) by (apply nth_In; auto).
    destruct (Nat.lt_ge_cases (facet (nth k' l (0,0))) (facet pk)).
    - left. apply (slot_disjoint num_facets 2 (map facet l)); auto. apply in_map; auto.
    - right. apply (slot_disjoint num_facets 2 (map facet l)); auto. lia. }
  assert (Hsplit : flat_map wr (seq 0 (length l)) =
     flat_map wr (seq 0 k) ++ wr k ++ flat_map wr (seq (S k) (length l - S k))).
  { replace (length l) with (k + S (length l - S k)) at 1 by lia.
    rewrite seq_app, flat_map_app. cbn [seq flat_map Nat.add]. reflexivity. }
  assert (Htail : forall key v, In (key, v) (flat_map wr (seq (S k) (length l - S k))) ->
     key <> nth (facet pk) off 0 /\ key <> nth (facet pk) off 0 + 1).
  { intros key v H. apply in_flat_map in H. destruct H as (k' & Hk' & H). apply in_seq in Hk'.
    destruct (Hother k') as [O|O]; [lia|apply Hlast; lia| |];
      destruct H as [E|[E|[]]]; injection E as E1 E2; lia. }
  assert (L : length (writes (flat_map wr (seq 0 (length l))) (repeat 0 (nth num_facets off 0))) = nth num_facets off 0)
    by (now rewrite writes_length, repeat_length).
  rewrite (slice_cons _ _ _ 0) by lia. rewrite (slice_cons _ _ _ 0) by lia. rewrite slice_0.
  rewrite Hsplit. unfold wr at 2 5. fold pk. f_equal; [|f_equal].
  - cbn [app]. apply writes_last; [rewrite repeat_length; lia|].
    intros v' [E|H]; [injection E; lia|]. apply Htail in H. lia.
  - replace (S (nth (facet pk) off 0)) with (nth (facet pk) off 0 + 1) by lia.
    change ([(nth (facet pk) off 0, sub (fst pk)); (nth (facet pk) off 0 + 1, snd pk)])
      with ([(nth (facet pk) off 0, sub (fst pk))] ++ [(nth (facet pk) off 0 + 1, snd pk)]).
    rewrite <- app_assoc, app_assoc. cbn [app]. apply writes_last; [rewrite repeat_length; lia|].
    intros v' H. apply Htail in H. lia.
Qed.
End FacetMap.

Lemma get_submesh_tuples_flat cmap l :
  get_submesh_tuples cmap (flat2 l) = flat2 (map (fun p => (hd 0 (links cmap (fst p)), snd p)) l).
Proof.
  unfold get_submesh_tuples. rewrite flat2_half.
  set (wr := fun k => [(2 * k, hd 0 (links cmap (fst (nth k l (0,0))))); (2 * k + 1, snd (nth k l (0,0)))]).
  rewrite (for_loop_writes _ _ wr).
  2:{ intros i s Hi. rewrite (flat2_fst l i (0, 0)), (flat2_snd l i (0, 0)) by auto. reflexivity. }
  set (l' := map _ l). assert (Hl' : length l' = length l) by (unfold l'; now rewrite map_length).
  apply (nth_ext' _ _ 0).
  { rewrite writes_length, repeat_length, !flat2_length. lia. }
  intros i Hi. rewrite writes_length, repeat_length, flat2_length in Hi.
  assert (Hb : i / 2 < length l) by (apply Nat.div_lt_upper_bound; lia).
  pose proof (Nat.div_mod i 2 ltac:(lia)) as E. pose proof (Nat.mod_upper_bound i 2 ltac:(lia)) as M.
  set (k := i / 2) in *.
  assert (Hnth : nth k l' (0,0) = (hd 0 (links cmap (fst (nth k l (0,0)))), snd (nth k l (0,0)))).
  { unfold l'. rewrite (nth_map_lt _ l k (0,0) (0,0)) by auto. reflexivity. }
  assert (Hcons : forall key v, In (key, v) (flat_map wr (seq 0 (length l))) ->
     exists k', k' < length l /\ ((key = 2 * k' /\ v = hd 0 (links cmap (fst (nth k' l (0,0))))) \/
       (key = 2 * k' + 1 /\ v = snd (nth k' l (0,0))))).
  { intros key v H. apply in_flat_map_seq in H. destruct H as (k' & Hk' & [H|[H|[]]]);
      injection H as <- <-; exists k'; auto. }
  destruct (i mod 2) as [|[|]]; [| |lia].
  - replace i with (2 * k) by lia. rewrite (flat2_fst l' k (0,0)) by lia. rewrite Hnth. cbn [fst].
    apply writes_consistent.
    + rewrite repeat_length, flat2_length. lia.
    + apply in_flat_map_seq. exists k. split; auto. left; auto.
    + intros v' H. apply Hcons in H. destruct H as (k' & Hk' & [[E1 ->]|[E1 _]]); [|lia].
      replace k' with k by lia. auto.
  - replace i with (2 * k + 1) by lia. rewrite (flat2_snd l' k (0,0)) by lia. rewrite Hnth. cbn [snd].
    apply writes_consistent.
    + rewrite repeat_length, flat2_length. lia.
    + apply in_flat_map_seq. exists k. split; auto. right; left; auto.
    + intros v' H. apply Hcons in H. destruct H as (k' & Hk' & [[E1 _]|[E1 ->]]); [lia|].
      replace k' with k by lia. auto.
Qed.

(** ** Functions and geometry *)
Section Functions.
Context {A : Type} (add : A -> A -> A) (zero : A).

(** All writes of a nested cell/dof/component loop. *)
Definition dof_writes (bs n : nat) (key : nat -> nat -> nat -> nat) (val : nat -> nat -> nat -> A)
    (len : nat -> nat) : list (nat * A) :=
  flat_map (fun c => flat_map (fun i => flat_map (fun j => [(key c i j, val c i j)]) (seq 0 bs)) (seq 0 (len c))) (seq 0 n).

Lemma dof_writes_in bs n key val len k v :
  In (k, v) (dof_writes bs n key val len) <->
  exists c i j, c < n /\ i < len c /\ j < bs /\ k = key c i j /\ v = val c i j.
Proof.
  unfold dof_writes. rewrite in_flat_map_seq. split.
  - intros (c & Hc & H). apply in_flat_map_seq in H. destruct H as (i & Hi & H).
    apply in_flat_map_seq in H. destruct H as (j & Hj & [E|[]]). injection E as <- <-.
    exists c, i, j. auto.
  - intros (c & i & j & Hc & Hi & Hj & -> & ->). exists c. split; auto.
    apply in_flat_map_seq. exists i. split; auto. apply in_flat_map_seq. exists j. split; auto. left; auto.
Qed.

Lemma copy_function_writes bs n pc ds dp u w :
  copy_function zero bs n pc ds dp u w =
  writes (dof_writes bs n (fun c i j => bs * nth i (ds c) 0 + j)
     (fun c i j => nth (bs * nth i (dp (nth c pc 0)) 0 + j) u zero) (fun c => length (ds c))) w.
Proof.
  unfold copy_function, dof_writes. apply for_loop_writes. intros c s Hc.
  apply for_loop_writes. intros i s' Hi. apply for_loop_writes. intros; reflexivity.
Qed.

Lemma copy_function_length bs n pc ds dp u w :
  length (copy_function zero bs n pc ds dp u w) = length w.
Proof. rewrite copy_function_writes. apply writes_length. Qed.

Lemma block_index bs a b j j' : j < bs -> j' < bs -> bs * a + j = bs * b + j' -> a = b /\ j = j'.
Proof. intros. assert (a = b) by nia. subst. lia. Qed.

Lemma copy_function_nth bs n pc ds dp u w c i j :
  (forall c i c' i', c < n -> c' < n -> i < length (ds c) -> i' < length (ds c') ->
     nth i (ds c) 0 = nth i' (ds c') 0 ->
     nth i (dp (nth c pc 0)) 0 = nth i' (dp (nth c' pc 0)) 0) ->
  c < n -> i < length (ds c) -> j < bs -> bs * nth i (ds c) 0 + j < length w ->
  nth (bs * nth i (ds c) 0 + j) (copy_function zero bs n pc ds dp u w) zero
  = nth (bs * nth i (dp (nth c pc 0)) 0 + j) u zero.
Proof.
  intros Hcons Hc Hi Hj Hb. rewrite copy_function_writes. apply writes_consistent; auto.
  - apply dof_writes_in. exists c, i, j. auto.
  - intros v' H. apply dof_writes_in in H. destruct H as (c' & i' & j' & Hc' & Hi' & Hj' & E & ->).
    destruct (block_index _ _ _ _ _ Hj Hj' E) as [E1 E2]. subst j'.
    now rewrite (Hcons c i c' i').
Qed.

Lemma copy_function_other bs n pc ds dp u w k :
  (forall c i j, c < n -> i < length (ds c) -> j < bs -> k <> bs * nth i (ds c) 0 + j) ->
  nth k (copy_function zero bs n pc ds dp u w) zero = nth k w zero.
Proof.
  intros H. rewrite copy_function_writes. apply writes_miss. intros v Hv.
  apply dof_writes_in in Hv. destruct Hv as (c & i & j & Hc & Hi & Hj & E & _). eapply H; eauto.
Qed.

Lemma update_geometry_writes bs n ds dx u x :
  update_geometry add zero bs n ds dx u x =
  map (fun p => add (fst p) (snd p)) (combine x
    (writes (dof_writes bs n (fun c i j => 3 * nth i (dx c) 0 + j)
       (fun c i j => nth (bs * nth i (ds c) 0 + j) u zero) (fun c => length (ds c))) (repeat zero (length x)))).
Proof.
  unfold update_geometry, dof_writes. do 2 f_equal. apply for_loop_writes. intros c s Hc.
  apply for_loop_writes. intros i s' Hi. apply for_loop_writes. intros; reflexivity.
Qed.

Lemma update_geometry_length bs n ds dx u x : length (update_geometry add zero bs n ds dx u x) = length x.
Proof.
  rewrite update_geometry_writes, map_length, combine_length, writes_length, repeat_length. apply Nat.min_id.
Qed.

Lemma update_geometry_nth_gen bs n ds dx u x k :
  k < length x ->
  nth k (update_geometry add zero bs n ds dx u x) zero =
  add (nth k x zero) (nth k (writes (dof_writes bs n (fun c i j => 3 * nth i (dx c) 0 + j)
       (fun c i j => nth (bs * nth i (ds c) 0 + j) u zero) (fun c => length (ds c))) (repeat zero (length x))) zero).
Proof.
  intros Hk. rewrite update_geometry_writes.
  rewrite (nth_map_lt _ _ k zero (zero, zero)).
  2:{ rewrite combine_length, writes_length, repeat_length. lia. }
  rewrite combine_nth by (now rewrite writes_length, repeat_length). reflexivity.
Qed.

Lemma restore_writes m pg g :
  restore_geometry zero m pg g =
  writes (dof_writes 3 (length g / 3) (fun c i j => 3 * c + j)
     (fun c i j => nth (3 * nth c m 0 + j) pg zero) (fun _ => 1)) g.
Proof.
  unfold restore_geometry, dof_writes. apply for_loop_writes. intros c s Hc.
  reflexivity.
Qed.

Lemma restore_length m pg g : length (restore_geometry zero m pg g) = length g.
Proof. rewrite restore_writes. apply writes_length. Qed.

Lemma restore_nth m pg g n k : length g = 3 * n -> k < 3 * n ->
  nth k (restore_geometry zero m pg g) zero = nth (3 * nth (k / 3) m 0 + k mod 3) pg zero.
Proof.
  intros Hg Hk. rewrite restore_writes. replace (length g / 3) with n by (rewrite Hg, Nat.mul_comm, Nat.div_mul; lia).
  pose proof (Nat.div_mod k 3 ltac:(lia)) as E. pose proof (Nat.mod_upper_bound k 3 ltac:(lia)) as M.
  apply writes_consistent.
  - lia.
  - apply dof_writes_in. exists (k / 3), 0, (k mod 3). repeat split; auto. apply Nat.div_lt_upper_bound; lia.
  - intros v' H. apply dof_writes_in in H. destruct H as (c & i & j & Hc & Hi & Hj & E2 & ->).
    assert (c = k / 3 /\ j = k mod 3) as [-> ->]; auto.
    apply (block_index 3); auto. lia.
Qed.

Lemma restore_indep m pg g g' n : length g = 3 * n -> length g' = 3 * n ->
  restore_geometry zero m pg g = restore_geometry zero m pg g'.
Proof.
  intros H H'. apply (nth_ext' _ _ zero); [rewrite !restore_length; lia|].
  intros i Hi. rewrite restore_length in Hi. rewrite !(restore_nth _ _ _ n) by lia. auto.
Qed.
End Functions.
