(** Proofs about entity bookkeeping. *)
From Coq Require Import List Arith ZArith Lia Bool Permutation Sorted.
Import ListNotations.
From Verif Require Import Prelude PreludeLemmas Scatter SubMeshModel SubMeshProofs EntitiesModel.

(** ** Stable sorting *)
Section Stable.
Context {A : Type} (leb : A -> A -> bool) (P : A -> bool).
(** Elements selected by [P] are mutually equivalent. *)
Hypothesis HP : forall a b, P a = true -> P b = true -> leb a b = true.

Lemma insert_filter a l : filter P (insert_sorted leb a l) = filter P (a :: l).
Proof.
  induction l as [|h t IH]; auto. cbn [insert_sorted].
  destruct (leb a h) eqn:E; auto. cbn [filter]. rewrite IH. cbn [filter].
  destruct (P a) eqn:Ea, (P h) eqn:Eh; auto. rewrite HP in E; auto. discriminate.
Qed.

Lemma isort_filter l : filter P (isort leb l) = filter P l.
Proof.
  induction l as [|h t IH]; auto. cbn [isort]. rewrite insert_filter. cbn [filter]. now rewrite IH.
Qed.
End Stable.

Lemma argsort_perm key n : Permutation (argsort key n) (seq 0 n).
Proof. apply isort_perm. Qed.

Lemma argsort_sorted key n : StronglySorted (fun a b => key a <= key b) (argsort key n).
Proof.
  apply (StronglySorted_impl (fun a b => (key a <=? key b) = true)); [intros a b; apply Nat.leb_le|].
  apply isort_sorted.
  - intros a b. rewrite !Nat.leb_le. lia.
  - intros a b c. rewrite !Nat.leb_le. lia.
Qed.

(** ** find_index *)
Lemma find_index_spec x l : In x l -> find_index x l < length l /\ nth (find_index x l) l 0 = x.
Proof.
  induction l as [|h t IH]; cbn; [tauto|]. destruct (Nat.eqb_spec h x); [subst; cbn; split; auto; lia|].
  intros [|H]; [congruence|]. cbn. destruct (IH H). split; auto. lia.
Qed.

(** ** Active facets *)
Lemma for_each_append {A B} (l : list A) (f : A -> list B) acc :
  for_each l (fun a out => out ++ f a) acc = acc ++ flat_map f l.
Proof.
  revert acc. induction l as [|a l IH]; intros acc; cbn; [now rewrite app_nil_r|].
  change (for_each l (fun a out => out ++ f a) (acc ++ f a) = acc ++ f a ++ flat_map f l).
  rewrite IH, app_assoc. auto.
Qed.

Lemma for_each_append_if {A B} (l : list A) (p : A -> bool) (f : A -> B) acc :
  for_each l (fun a out => if p a then out ++ [f a] else out) acc = acc ++ map f (filter p l).
Proof.
  revert acc. induction l as [|a l IH]; intros acc; cbn; [now rewrite app_nil_r|].
  change (for_each l (fun a out => if p a then out ++ [f a] else out) (if p a then acc ++ [f a] else acc)
          = acc ++ map f (if p a then a :: filter p l else filter p l)).
  rewrite IH. destruct (p a); cbn; [rewrite <- app_assoc|]; auto.
Qed.

(** (cell, local index) of a facet. *)
Definition facet_pair (f_to_c c_to_f : nat -> list nat) (f : nat) : nat * nat :=
  (hd 0 (f_to_c f), find_index f (c_to_f (hd 0 (f_to_c f)))).

Lemma active_facets_flat f_to_c c_to_f ents :
  active_facets f_to_c c_to_f ents =
  flat2 (map (fun p => facet_pair f_to_c c_to_f (nth p ents 0))
     (argsort (fun i => fst (facet_pair f_to_c c_to_f (nth i ents 0))) (length ents))).
Proof.
  unfold active_facets.
  rewrite (for_each_append _ (fun p => [nth p (map (fun f => hd 0 (f_to_c f)) ents) 0;
      nth p (map (fun f => find_index f (c_to_f (hd 0 (f_to_c f)))) ents) 0]) []). cbn [app].
  assert (HA : argsort (fun i => nth i (map (fun f => hd 0 (f_to_c f)) ents) 0) (length ents)
     = argsort (fun i => fst (facet_pair f_to_c c_to_f (nth i ents 0))) (length ents)).
  { unfold argsort.
    assert (G : forall l, (forall x, In x l -> x < length ents) ->
      isort (fun a b => nth a (map (fun f => hd 0 (f_to_c f)) ents) 0 <=? nth b (map (fun f => hd 0 (f_to_c f)) ents) 0) l
      = isort (fun a b => fst (facet_pair f_to_c c_to_f (nth a ents 0)) <=? fst (facet_pair f_to_c c_to_f (nth b ents 0))) l).
    { assert (K : forall x, x < length ents -> nth x (map (fun f => hd 0 (f_to_c f)) ents) 0 = fst (facet_pair f_to_c c_to_f (nth x ents 0))).
      { intros x Hx. rewrite (nth_map_lt _ ents x 0 0) by auto. reflexivity. }
      induction l as [|h t IH]; intros Hl; auto. cbn [isort]. rewrite IH by (intros; apply Hl; right; auto).
      set (s := isort _ t). assert (Hs : forall x, In x s -> x < length ents).
      { intros x Hx. apply isort_in in Hx. apply Hl. right; auto. }
      assert (Hh : h < length ents) by (apply Hl; left; auto).
      clearbody s. induction s as [|h' s IHs]; auto. cbn [insert_sorted].
      rewrite !K by (auto; apply Hs; left; auto).
      rewrite IHs by (intros; apply Hs; right; auto). auto. }
    apply G. intros x Hx. apply in_seq in Hx. lia. }
  rewrite HA. set (p := argsort _ _).
  assert (Hp : forall x, In x p -> x < length ents).
  { intros x Hx. apply (Permutation_in _ (argsort_perm _ _)) in Hx. apply in_seq in Hx. lia. }
  clearbody p. clear HA. induction p as [|h t IH]; auto.
  cbn [flat_map map flat2]. unfold flat2 in IH. rewrite IH by (intros; apply Hp; right; auto).
  assert (Hh : h < length ents) by (apply Hp; left; auto).
  rewrite (nth_map_lt _ ents h 0 0) by auto.
  rewrite (nth_map_lt (fun f => find_index f (c_to_f (hd 0 (f_to_c f)))) ents h 0 0) by auto. reflexivity.
Qed.

(** ** Counting owned pairs *)
Definition sorted_by_cell (l : list (nat * nat)) : Prop := StronglySorted (fun a b => fst a <= fst b) l.

Lemma count_local_from_spec l n k : k <= length l -> sorted_by_cell l ->
  (forall i, k <= i -> i < length l -> n <= fst (nth i l (0, 0))) ->
  let m := count_local_from (flat2 l) n k in
  m <= k /\ (forall i, i < m -> fst (nth i l (0, 0)) < n) /\
  (forall i, m <= i -> i < length l -> n <= fst (nth i l (0, 0))).
Proof.
  intros Hk Hs. revert Hk. induction k as [|k IH]; intros Hk Ha; cbn [count_local_from].
  - repeat split; auto; intros; lia.
  - rewrite (flat2_fst l k (0, 0)) by lia.
    destruct (Nat.ltb_spec (fst (nth k l (0, 0))) n) as [L|G].
    + repeat split; auto. intros i Hi. destruct (Nat.eq_dec i k) as [->|]; auto.
      pose proof (StronglySorted_nth _ l (0, 0) i k Hs ltac:(lia) ltac:(lia)). cbn in H. lia.
    + destruct IH as (I1 & I2 & I3); try lia.
      { intros i Hi Hl. destruct (Nat.eq_dec i k) as [->|]; auto. apply Ha; lia. }
      repeat split; auto.
Qed.

Lemma count_local_spec l n : sorted_by_cell l ->
  let m := count_local (flat2 l) n in
  m <= length l /\ (forall i, i < m -> fst (nth i l (0, 0)) < n) /\
  (forall i, m <= i -> i < length l -> n <= fst (nth i l (0, 0))).
Proof.
  intros Hs. unfold count_local. rewrite flat2_half. apply count_local_from_spec; auto. intros; lia.
Qed.

Lemma prefix_count {A} (P : A -> bool) (l : list A) m d : m <= length l ->
  (forall i, i < m -> P (nth i l d) = true) -> (forall i, m <= i -> i < length l -> P (nth i l d) = false) ->
  length (filter P l) = m /\ filter P l = firstn m l.
Proof.
  revert m. induction l as [|h t IH]; intros m Hm H1 H2; cbn in *; [replace m with 0 by lia; auto|].
  destruct m as [|m].
  - rewrite (H2 0) by lia. destruct (IH 0) as [L F]; try lia.
    + intros i Hi Hl. apply (H2 (S i)); lia.
    + cbn. cbn in F. auto.
  - rewrite (H1 0) by lia. destruct (IH m) as [L F]; try lia.
    + intros i Hi. apply (H1 (S i)). lia.
    + intros i Hi Hl. apply (H2 (S i)); lia.
    + cbn. rewrite L, F. auto.
Qed.

(** ** create_cell_facet_pairs *)
Lemma create_pairs_rows f_to_c c_to_f find surfaces nm :
  let tags := flat_map (fun s => map (fun t => (s, t)) (surfaces s)) (seq 0 nm) in
  let rows := map (fun st => active_facets f_to_c c_to_f (find (fst st) (snd st))) tags in
  create_cell_facet_pairs f_to_c c_to_f find surfaces nm = mkAdj (concat rows) (psums (map (@length nat) rows)).
Proof.
  intros tags rows. unfold create_cell_facet_pairs.
  set (row := fun st : nat * nat => active_facets f_to_c c_to_f (find (fst st) (snd st))) in *.
  set (mk := fun ts => (concat (map row ts), psums (map (@length nat) (map row ts)))).
  assert (Step : forall ts t, (fst (mk ts) ++ row t, snd (mk ts) ++ [last (snd (mk ts)) 0 + length (row t)]) = mk (ts ++ [t])).
  { intros ts t. unfold mk. rewrite !map_app, concat_app. cbn [map concat app]. rewrite app_nil_r.
    rewrite psums_snoc. f_equal. cbn [snd]. do 3 f_equal.
    assert (Hne : psums (map (@length nat) (map row ts)) <> []).
    { intros E. apply (f_equal (@length nat)) in E. rewrite psums_length in E. discriminate. }
    rewrite <- (psums_last (map (@length nat) (map row ts))).
    set (q := psums (map (@length nat) (map row ts))) in *.
    replace (length (map (@length nat) (map row ts))) with (length q - 1)
      by (unfold q; rewrite psums_length; lia).
    clearbody q. clear -Hne. induction q as [|a q IH]; [congruence|]. destruct q as [|b q]; auto.
    transitivity (last (b :: q) 0); [reflexivity|]. rewrite IH by congruence. cbn. rewrite Nat.sub_0_r. auto. }
  assert (Inner : forall s ts0, for_each (surfaces s) (fun tag st =>
        let pairs := active_facets f_to_c c_to_f (find s tag) in
        let data := fst st in let offsets := snd st in
        (data ++ pairs, offsets ++ [last offsets 0 + length pairs])) (mk ts0)
      = mk (ts0 ++ map (fun t => (s, t)) (surfaces s))).
  { intros s. induction (surfaces s) as [|t tl IH]; intros ts0; cbn [map]; [now rewrite app_nil_r|].
    cbn [for_each fold_left]. fold (row (s, t)). change (active_facets f_to_c c_to_f (find s t)) with (row (s, t)).
    cbv zeta. rewrite (Step ts0 (s, t)).
    unfold for_each in IH. rewrite IH. rewrite <- app_assoc. reflexivity. }
  set (body := fun (s : nat) st => for_each (surfaces s) _ st).
  assert (G : for_loop nm body (mk []) = mk tags).
  { unfold tags, for_loop, for_range. generalize (seq 0 nm). intros l.
    change (mk []) with (mk ([] ++ [])).
    assert (GG : forall l ts0, for_each l body (mk ts0) = mk (ts0 ++ flat_map (fun s => map (fun t => (s, t)) (surfaces s)) l)).
    { clear l. induction l as [|s l IH]; intros ts0; cbn [flat_map]; [now rewrite app_nil_r|].
      change (for_each (s :: l) body (mk ts0)) with (for_each l body (body s (mk ts0))).
      unfold body at 2. rewrite Inner, IH, <- app_assoc. auto. }
    rewrite GG. reflexivity. }
  change (@nil nat, [0]) with (mk []). rewrite G. reflexivity.
Qed.

(** ** sort_cells *)
Lemma unique_snoc (l : list Z) a b :
  unique Z.eqb ((l ++ [a]) ++ [b]) = unique Z.eqb (l ++ [a]) ++ (if Z.eqb a b then [] else [b]).
Proof.
  assert (G : forall l x, unique_from Z.eqb x ((l ++ [a]) ++ [b]) =
     unique_from Z.eqb x (l ++ [a]) ++ (if Z.eqb a b then [] else [b])).
  { clear l. induction l as [|h t IH]; intros x; cbn [app unique_from].
    - destruct (Z.eqb_spec x a); [subst|]; cbn [unique_from];
      destruct (Z.eqb a b) eqn:E; cbn [app unique_from]; auto.
    - destruct (Z.eqb x h); cbn [app]; rewrite IH; auto. }
  destruct l as [|h t]; cbn [app unique].
  - cbn [unique_from]. destruct (Z.eqb a b) eqn:E; auto.
  - apply G.
Qed.

Section Boundaries.
Variables (s : list Z).
Let n := length s.
Hypothesis Hn : 0 < n.
Definition brk (i : nat) : bool := negb (Z.eqb (nth i s 0%Z) (nth (S i) s 0%Z)).
Definition bnds (i : nat) : list nat := filter brk (seq 0 i).
Definition starts (i : nat) : list nat := 0 :: map S (bnds i).

Lemma bnds_S i : bnds (S i) = bnds i ++ (if brk i then [i] else []).
Proof. unfold bnds. rewrite seq_S, filter_app. cbn. destruct (brk i); auto. Qed.

Lemma bnds_length i : length (bnds i) <= i.
Proof. induction i; [cbn; lia|]. rewrite bnds_S, app_length. destruct (brk i); cbn; lia. Qed.

Lemma firstn_nth_split (l : list Z) k : k < length l -> firstn (S k) l = firstn k l ++ [nth k l 0%Z].
Proof. intros. apply firstn_S_nth; auto. Qed.

Lemma unique_starts i : i < n ->
  unique Z.eqb (firstn (S i) s) = map (fun k => nth k s 0%Z) (starts i).
Proof.
  induction i as [|i IH]; intros Hi.
  - unfold n in Hn. destruct s; [cbn in Hn; lia|]. reflexivity.
  - rewrite (firstn_nth_split s (S i)) by auto. rewrite (firstn_nth_split s i) by lia.
    rewrite unique_snoc. rewrite <- (firstn_nth_split s i) by lia. rewrite IH by lia.
    unfold starts. rewrite bnds_S, map_app, !map_cons, map_app. cbn [app]. f_equal. f_equal.
    unfold brk. destruct (Z.eqb (nth i s 0%Z) (nth (S i) s 0%Z)); reflexivity.
Qed.

Lemma boundary_loop_spec :
  let st := boundary_loop s n in
  fst st = length (bnds (n - 1)) /\ length (snd st) = S n /\
  forall k, k <= fst st -> nth k (snd st) 0 = nth k (starts (n - 1)) 0.
Proof.
  intros st. subst st. unfold boundary_loop.
  apply (for_loop_inv (fun i st => fst st = length (bnds i) /\ length (snd st) = S n /\
     forall k, k <= fst st -> nth k (snd st) 0 = nth k (starts i) 0)).
  - cbn [fst snd]. split; [reflexivity|]. split; [apply repeat_length|]. intros k Hk.
    replace k with 0 by lia. rewrite nth_repeat_0. reflexivity.
  - intros i [index offs] Hi (H1 & H2 & H3). cbn [fst snd] in *. rewrite bnds_S.
    unfold starts. rewrite bnds_S. unfold brk.
    destruct (Z.eqb (nth i s 0%Z) (nth (S i) s 0%Z)); cbn [negb].
    + rewrite !app_nil_r. cbn [fst snd]. auto.
    + cbn [fst snd]. rewrite app_length. cbn [length]. split; [lia|]. split; [now rewrite upd_length|].
      intros k Hk. pose proof (bnds_length i). rewrite map_app, app_comm_cons.
      destruct (Nat.eq_dec k (S index)) as [->|Hne].
      * rewrite nth_upd_same by lia. rewrite app_nth2 by (cbn [length]; rewrite map_length; lia).
        cbn [length]. rewrite map_length. replace (S index - S (length (bnds i))) with 0 by lia. reflexivity.
      * rewrite nth_upd_other by lia. rewrite app_nth1 by (cbn [length]; rewrite map_length; lia).
        apply H3. lia.
Qed.

(** The offsets the function returns. *)
Lemma offsets_spec :
  let st := boundary_loop s n in
  let u := unique Z.eqb s in
  length u = S (length (bnds (n - 1))) /\
  firstn (S (length u)) (upd (snd st) (S (fst st)) n) = starts (n - 1) ++ [n] /\
  u = map (fun k => nth k s 0%Z) (starts (n - 1)).
Proof.
  intros st u. destruct boundary_loop_spec as (H1 & H2 & H3). fold st in H1, H2, H3.
  assert (Hu : u = map (fun k => nth k s 0%Z) (starts (n - 1))).
  { unfold u. rewrite <- unique_starts by lia. replace (S (n - 1)) with n by lia.
    unfold n. now rewrite firstn_all. }
  assert (Hl : length u = S (length (bnds (n - 1)))).
  { rewrite Hu, map_length. unfold starts. cbn [length]. now rewrite map_length. }
  split; auto. split; auto.
  pose proof (bnds_length (n - 1)).
  apply (nth_ext' _ _ 0).
  - rewrite firstn_length, upd_length, H2, app_length, Hl. unfold starts. cbn [length]. rewrite map_length. lia.
  - intros i Hi. rewrite firstn_length, upd_length, H2, Hl in Hi.
    rewrite nth_firstn by lia. destruct (Nat.eq_dec i (S (fst st))) as [->|Hne].
    + rewrite nth_upd_same by lia. rewrite app_nth2; unfold starts; cbn [length]; rewrite map_length; [|lia].
      replace (S (fst st) - S (length (bnds (n - 1)))) with 0 by lia. reflexivity.
    + rewrite nth_upd_other by lia. rewrite H3 by lia.
      rewrite app_nth1; auto. unfold starts. cbn [length]. rewrite map_length. lia.
Qed.

(** Consecutive starts: strictly increasing, a break right before each, none
    inside. *)
Lemma bnds_sorted i : StronglySorted lt (bnds i).
Proof.
  induction i; [constructor|]. rewrite bnds_S. destruct (brk i); [|now rewrite app_nil_r].
  assert (Hb : forall x, In x (bnds i) -> x < i).
  { intros x Hx. unfold bnds in Hx. apply filter_In in Hx. destruct Hx as [Hx _]. apply in_seq in Hx. lia. }
  clear -IHi Hb. induction (bnds i) as [|h t IH]; cbn; [repeat constructor|].
  inversion IHi; subst. constructor.
  - apply IH; auto. intros; apply Hb; right; auto.
  - apply Forall_app. split; auto. constructor; auto. apply Hb. left; auto.
Qed.

Definition offs : list nat := starts (n - 1) ++ [n].

Lemma bnds_in i x : In x (bnds i) <-> x < i /\ brk x = true.
Proof. unfold bnds. rewrite filter_In, in_seq. split; intros []; split; auto; lia. Qed.

Lemma offs_0 : nth 0 offs 0 = 0.
Proof. reflexivity. Qed.

Lemma offs_S k : k < length (bnds (n - 1)) -> nth (S k) offs 0 = S (nth k (bnds (n - 1)) 0).
Proof.
  intros Hk. unfold offs, starts. cbn [app nth]. rewrite app_nth1 by (now rewrite map_length).
  rewrite (nth_map_lt S _ k 0 0) by auto. auto.
Qed.

Lemma offs_last : nth (S (length (bnds (n - 1)))) offs 0 = n.
Proof.
  unfold offs, starts. cbn [app nth]. rewrite app_nth2; rewrite map_length; [|lia].
  rewrite Nat.sub_diag. reflexivity.
Qed.

(** No break strictly inside a group. *)
Lemma group_no_break k j : k <= length (bnds (n - 1)) ->
  nth k offs 0 <= j -> S j < nth (S k) offs 0 -> brk j = false.
Proof.
  intros Hk H1 H2. destruct (brk j) eqn:E; auto. exfalso.
  assert (Hj : j < n - 1).
  { destruct (Nat.eq_dec k (length (bnds (n - 1)))) as [->|].
    - rewrite offs_last in H2. lia.
    - rewrite offs_S in H2 by lia. assert (Hin : In (nth k (bnds (n-1)) 0) (bnds (n-1))) by (apply nth_In; lia).
      apply bnds_in in Hin. lia. }
  assert (Hin : In j (bnds (n - 1))) by (apply bnds_in; auto).
  apply (In_nth _ _ 0) in Hin. destruct Hin as (m & Hm & Em).
  pose proof (bnds_sorted (n - 1)) as Hb.
  destruct (Nat.lt_ge_cases m k) as [L|G].
  - destruct k as [|k']; [lia|]. rewrite offs_S in H1 by lia.
    destruct (Nat.eq_dec m k') as [->|]; [lia|].
    pose proof (StronglySorted_nth _ _ 0 m k' Hb ltac:(lia) ltac:(lia)). cbn in H. lia.
  - rewrite offs_S in H2 by lia. destruct (Nat.eq_dec m k) as [->|]; [lia|].
    pose proof (StronglySorted_nth _ _ 0 k m Hb ltac:(lia) Hm). cbn in H. lia.
Qed.

Lemma offs_lt k : k <= length (bnds (n - 1)) -> nth k offs 0 < nth (S k) offs 0.
Proof.
  intros Hk. destruct (Nat.eq_dec k (length (bnds (n - 1)))) as [->|Hne].
  - rewrite offs_last. destruct (length (bnds (n - 1))) as [|m] eqn:E; [rewrite offs_0; lia|].
    rewrite offs_S by lia. assert (Hin : In (nth m (bnds (n-1)) 0) (bnds (n-1))) by (apply nth_In; lia).
    apply bnds_in in Hin. lia.
  - rewrite offs_S by lia. destruct k as [|k]; [rewrite offs_0; lia|]. rewrite offs_S by lia.
    pose proof (StronglySorted_nth _ _ 0 k (S k) (bnds_sorted (n - 1)) ltac:(lia) ltac:(lia)). cbn in H. lia.
Qed.

Lemma offs_le_n k : k <= S (length (bnds (n - 1))) -> nth k offs 0 <= n.
Proof.
  intros Hk. remember (S (length (bnds (n - 1))) - k) as d. revert k Hk Heqd.
  induction d; intros k Hk E.
  - replace k with (S (length (bnds (n - 1)))) by lia. rewrite offs_last. lia.
  - pose proof (offs_lt k ltac:(lia)). specialize (IHd (S k) ltac:(lia) ltac:(lia)). lia.
Qed.

Hypothesis Hs : StronglySorted Z.le s.

Lemma sorted_nth_le i j : i <= j -> j < n -> (nth i s 0 <= nth j s 0)%Z.
Proof.
  intros Hij Hj. destruct (Nat.eq_dec i j) as [->|]; [lia|].
  apply (StronglySorted_nth Z.le s 0%Z i j); auto. lia.
Qed.

Lemma group_value k j : k <= length (bnds (n - 1)) ->
  nth k offs 0 <= j -> j < nth (S k) offs 0 -> nth j s 0%Z = nth (nth k offs 0) s 0%Z.
Proof.
  intros Hk. induction j as [|j IH]; intros H1 H2.
  - replace (nth k offs 0) with 0 by lia. auto.
  - destruct (Nat.eq_dec (nth k offs 0) (S j)) as [->|]; auto.
    rewrite <- IH by lia. assert (B : brk j = false) by (eapply group_no_break; eauto; lia).
    unfold brk in B. apply negb_false_iff in B. apply Z.eqb_eq in B. auto.
Qed.

Lemma group_outside k j : k <= length (bnds (n - 1)) -> j < n ->
  nth j s 0%Z = nth (nth k offs 0) s 0%Z -> nth k offs 0 <= j < nth (S k) offs 0.
Proof.
  intros Hk Hj E. split.
  - destruct (Nat.le_gt_cases (nth k offs 0) j) as [|L]; auto. exfalso.
    destruct k as [|k]; [rewrite offs_0 in L; lia|]. rewrite offs_S in * by lia.
    set (b := nth k (bnds (n - 1)) 0) in *.
    assert (Hin : In b (bnds (n - 1))) by (apply nth_In; lia). apply bnds_in in Hin. destruct Hin as [Hb B].
    unfold brk in B. apply negb_true_iff, Z.eqb_neq in B.
    pose proof (sorted_nth_le j b ltac:(lia) ltac:(lia)).
    pose proof (sorted_nth_le b (S b) ltac:(lia) ltac:(lia)). lia.
  - destruct (Nat.lt_ge_cases j (nth (S k) offs 0)) as [|G]; auto. exfalso.
    destruct (Nat.eq_dec k (length (bnds (n - 1)))) as [->|Hne]; [rewrite offs_last in G; lia|].
    pose proof (offs_lt k Hk) as Hlt.
    rewrite offs_S in G, Hlt by lia. set (b := nth k (bnds (n - 1)) 0) in *.
    assert (Hin : In b (bnds (n - 1))) by (apply nth_In; lia). apply bnds_in in Hin. destruct Hin as [Hb B].
    unfold brk in B. apply negb_true_iff, Z.eqb_neq in B.
    pose proof (sorted_nth_le (nth k offs 0) b ltac:(lia) ltac:(lia)).
    pose proof (sorted_nth_le b (S b) ltac:(lia) ltac:(lia)).
    pose proof (sorted_nth_le (S b) j ltac:(lia) ltac:(lia)). lia.
Qed.
End Boundaries.

Lemma filter_range {A} (P : A -> bool) (l : list A) a b d :
  a <= b -> b <= length l ->
  (forall i, i < length l -> (P (nth i l d) = true <-> a <= i < b)) ->
  filter P l = slice l a (b - a).
Proof.
  intros Hab Hb H. unfold slice.
  rewrite <- (firstn_skipn a l) at 1. rewrite filter_app.
  rewrite <- (firstn_skipn (b - a) (skipn a l)) at 1. rewrite filter_app.
  rewrite (filter_none P (firstn a l)). 2:{
    intros x Hx. apply (In_nth _ _ d) in Hx. destruct Hx as (i & Hi & <-). rewrite firstn_length in Hi.
    rewrite nth_firstn by lia. destruct (P (nth i l d)) eqn:E; auto. apply H in E; lia. }
  rewrite (filter_none P (skipn (b - a) (skipn a l))). 2:{
    intros x Hx. apply (In_nth _ _ d) in Hx. destruct Hx as (i & Hi & <-). rewrite !skipn_length in Hi.
    rewrite !nth_skipn. destruct (P (nth (a + (b - a + i)) l d)) eqn:E; auto. apply H in E; lia. }
  rewrite app_nil_r. cbn [app].
  assert (G : forall x, In x (firstn (b - a) (skipn a l)) -> P x = true).
  { intros x Hx. apply (In_nth _ _ d) in Hx. destruct Hx as (i & Hi & <-).
    rewrite firstn_length, skipn_length in Hi. rewrite nth_firstn, nth_skipn by lia. apply H; lia. }
  clear -G. induction (firstn (b - a) (skipn a l)) as [|h t IH]; auto. cbn.
  rewrite G by (left; auto). f_equal. apply IH. intros; apply G; right; auto.
Qed.
