(** Lemmas about the vocabulary of [Prelude]. *)
From Coq Require Import List Arith Lia ZArith Bool Permutation Sorted Relations.
Import ListNotations.
From Verif Require Import Prelude.

(** ** Loops *)
Lemma for_each_app {A S} (l1 l2 : list A) (f : A -> S -> S) s :
  for_each (l1 ++ l2) f s = for_each l2 f (for_each l1 f s).
Proof. apply fold_left_app. Qed.

Lemma for_each_inv {A S} (P : list A -> S -> Prop) (l : list A) (f : A -> S -> S) s :
  P [] s ->
  (forall done a rest s, l = done ++ a :: rest -> P done s -> P (done ++ [a]) (f a s)) ->
  P l (for_each l f s).
Proof.
  intros H0 Hstep.
  assert (G : forall rest done s, l = done ++ rest -> P done s ->
             P l (for_each rest f s)).
  { induction rest as [|a rest IH]; intros done s' E HP.
    - rewrite app_nil_r in E. subst. exact HP.
    - cbn. apply (IH (done ++ [a])).
      + rewrite <- app_assoc. exact E.
      + eapply Hstep; eauto. }
  apply (G l [] s); auto.
Qed.

Lemma for_each_ext {A S} (l : list A) (f g : A -> S -> S) s :
  (forall a s, In a l -> f a s = g a s) -> for_each l f s = for_each l g s.
Proof.
  revert s; induction l as [|a l IH]; intros s H; cbn; auto.
  rewrite H by (left; auto). apply IH. intros; apply H; right; auto.
Qed.

Lemma for_loop_inv {S} (P : nat -> S -> Prop) n (f : nat -> S -> S) s :
  P 0 s -> (forall i s, i < n -> P i s -> P (Datatypes.S i) (f i s)) ->
  P n (for_loop n f s).
Proof.
  intros H0 Hs. unfold for_loop, for_range.
  assert (G : forall k m s, k + m = n -> P k s -> P n (for_each (seq k m) f s)).
  { intros k m; revert k; induction m as [|m IH]; intros k s' E HP; cbn.
    - replace n with k by lia; auto.
    - apply IH; [lia|]. apply Hs; auto; lia. }
  apply G; auto.
Qed.

Lemma for_loop_S {S} n (f : nat -> S -> S) s :
  for_loop (Datatypes.S n) f s = f n (for_loop n f s).
Proof.
  unfold for_loop, for_range. rewrite seq_S, for_each_app. reflexivity.
Qed.

Lemma for_loop_ext {S} n (f g : nat -> S -> S) s :
  (forall i s, i < n -> f i s = g i s) -> for_loop n f s = for_loop n g s.
Proof.
  intros H. apply for_each_ext. intros a s' Hin. apply in_seq in Hin. apply H; lia.
Qed.

(** ** Arrays *)
Lemma upd_length {A} (l : list A) i v : length (upd l i v) = length l.
Proof. revert i; induction l; intros [|i]; cbn; auto. Qed.

Lemma nth_upd_same {A} (l : list A) i v d : i < length l -> nth i (upd l i v) d = v.
Proof. revert i; induction l; intros [|i]; cbn; intros; try lia; auto. apply IHl; lia. Qed.

Lemma nth_upd_other {A} (l : list A) i j v d : i <> j -> nth j (upd l i v) d = nth j l d.
Proof. revert i j; induction l; intros [|i] [|j]; cbn; intros; try lia; auto. Qed.

Lemma nth_upd {A} (l : list A) i j v d :
  nth j (upd l i v) d = if (i =? j) && (i <? length l) then v else nth j l d.
Proof.
  destruct (Nat.eqb_spec i j); cbn [andb].
  - subst. destruct (Nat.ltb_spec j (length l)).
    + apply nth_upd_same; auto.
    + rewrite !nth_overflow; auto. rewrite upd_length; auto.
  - apply nth_upd_other; auto.
Qed.

Lemma upd_oob {A} (l : list A) i v : length l <= i -> upd l i v = l.
Proof. revert i; induction l; intros [|i]; cbn; intros; try lia; auto. f_equal; apply IHl; lia. Qed.

Lemma nth_ext' {A} (l1 l2 : list A) d :
  length l1 = length l2 -> (forall i, i < length l1 -> nth i l1 d = nth i l2 d) -> l1 = l2.
Proof. intros. apply (nth_ext l1 l2 d d); auto. Qed.

(** ** Slices *)
Lemma nth_firstn {A} (l : list A) n i d : i < n -> nth i (firstn n l) d = nth i l d.
Proof. revert n i; induction l; intros [|n] [|i]; cbn; intros; try lia; auto. apply IHl; lia. Qed.

Lemma nth_skipn {A} (l : list A) n i d : nth i (skipn n l) d = nth (n + i) l d.
Proof. revert n i; induction l; intros [|n] i; cbn; auto. destruct i; auto. Qed.

Lemma nth_slice {A} (l : list A) off len i d : i < len -> nth i (slice l off len) d = nth (off + i) l d.
Proof. intros; unfold slice. rewrite nth_firstn by auto. apply nth_skipn. Qed.

Lemma slice_length {A} (l : list A) off len : off + len <= length l -> length (slice l off len) = len.
Proof. intros; unfold slice. rewrite firstn_length, skipn_length. lia. Qed.

Lemma slice_app_mid {A} (a b c : list A) : slice (a ++ b ++ c) (length a) (length b) = b.
Proof.
  unfold slice. rewrite skipn_app, skipn_all, Nat.sub_diag. cbn.
  rewrite firstn_app, firstn_all, Nat.sub_diag. cbn. apply app_nil_r.
Qed.

(** ** Prefix sums *)
Lemma psums_from_length acc l : length (psums_from acc l) = S (length l).
Proof. revert acc; induction l; cbn; auto. Qed.
Lemma psums_length l : length (psums l) = S (length l).
Proof. apply psums_from_length. Qed.

Lemma psums_from_nth acc l i : i <= length l -> nth i (psums_from acc l) 0 = acc + sum_nat (firstn i l).
Proof.
  revert acc i; induction l as [|h t IH]; intros acc [|i]; cbn; intros; try lia.
  rewrite IH by lia. unfold sum_nat. lia.
Qed.
Lemma psums_nth l i : i <= length l -> nth i (psums l) 0 = sum_nat (firstn i l).
Proof. intros; unfold psums; rewrite psums_from_nth; auto. Qed.

Lemma sum_nat_app a b : sum_nat (a ++ b) = sum_nat a + sum_nat b.
Proof. unfold sum_nat. induction a; cbn; lia. Qed.

Lemma firstn_S_nth {A} (l : list A) i d : i < length l -> firstn (S i) l = firstn i l ++ [nth i l d].
Proof.
  revert i; induction l as [|h t IH]; intros [|i]; cbn; intros; try lia; auto.
  f_equal. apply IH. lia.
Qed.

Lemma psums_step l i : i < length l -> nth (S i) (psums l) 0 = nth i (psums l) 0 + nth i l 0.
Proof.
  intros. rewrite !psums_nth by lia. rewrite (firstn_S_nth l i 0) by auto.
  rewrite sum_nat_app. cbn. lia.
Qed.

Lemma psums_mono l i j : i <= j -> j <= length l -> nth i (psums l) 0 <= nth j (psums l) 0.
Proof.
  intros. induction j as [|j IHj].
  - replace i with 0 by lia. lia.
  - destruct (Nat.eq_dec i (S j)); [subst; lia|].
    rewrite psums_step by lia. specialize (IHj ltac:(lia) ltac:(lia)). lia.
Qed.

Lemma psums_last l : nth (length l) (psums l) 0 = sum_nat l.
Proof. rewrite psums_nth by lia. now rewrite firstn_all. Qed.

Lemma psums_0 l : nth 0 (psums l) 0 = 0.
Proof. rewrite psums_nth by lia. reflexivity. Qed.

(** ** Adjacency lists built row by row *)
Lemma concat_slice {A} (rows : list (list A)) i :
  i < length rows ->
  slice (concat rows) (nth i (psums (map (@length A) rows)) 0) (length (nth i rows [])) = nth i rows [].
Proof.
  intros H.
  destruct (nth_split rows [] H) as (l1 & l2 & E & Hl).
  set (r := nth i rows []) in *.
  assert (Hn : nth i (psums (map (@length A) rows)) 0 = length (concat l1)).
  { rewrite psums_nth by (rewrite map_length; lia).
    rewrite E, map_app, firstn_app, map_length, Hl, Nat.sub_diag. cbn.
    rewrite app_nil_r, firstn_all2 by (rewrite map_length; lia).
    clear. induction l1; cbn; auto. rewrite app_length. unfold sum_nat in *. lia. }
  rewrite Hn, E, concat_app. cbn [concat]. apply slice_app_mid.
Qed.

Lemma links_concat {A} (rows : list (list A)) i :
  i < length rows ->
  links (mkAdj (concat rows) (psums (map (@length A) rows))) i = nth i rows [].
Proof.
  intros H. unfold links; cbn [adj_data adj_off].
  rewrite psums_step by (rewrite map_length; auto).
  replace (nth i (map (@length A) rows) 0) with (length (nth i rows [])).
  - rewrite Nat.add_comm, Nat.add_sub. apply concat_slice; auto.
  - change (length (nth i rows []) = nth i (map (@length A) rows) (length (@nil A))). now rewrite map_nth.
Qed.

(** ** Sorting *)
Section SortLemmas.
  Context {A : Type} (leb : A -> A -> bool).
  Local Notation le := (fun a b => leb a b = true).

  Lemma insert_perm a l : Permutation (insert_sorted leb a l) (a :: l).
  Proof.
    induction l as [|h t IH]; cbn; auto.
    destruct (leb a h); auto.
    rewrite perm_swap. constructor. exact IH.
  Qed.

  Lemma isort_perm l : Permutation (isort leb l) l.
  Proof.
    induction l as [|h t IH]; cbn; auto.
    rewrite insert_perm. constructor; auto.
  Qed.

  Lemma isort_in l x : In x (isort leb l) <-> In x l.
  Proof.
    split; apply Permutation_in; [apply isort_perm | apply Permutation_sym, isort_perm].
  Qed.

  Lemma isort_length l : length (isort leb l) = length l.
  Proof. apply Permutation_length, isort_perm. Qed.

  Hypothesis total : forall a b, leb a b = true \/ leb b a = true.

  Lemma insert_sorted_local a l : Sorted le l -> Sorted le (insert_sorted leb a l).
  Proof.
    induction l as [|h t IH]; cbn; intros H.
    - repeat constructor.
    - destruct (leb a h) eqn:E.
      + constructor; auto.
      + inversion H; subst. constructor; auto.
        destruct (total a h) as [C|C]; [congruence|].
        destruct t as [|h' t']; cbn; [constructor; auto|].
        destruct (leb a h') eqn:E'; constructor; auto. inversion H3; auto.
  Qed.

  Lemma isort_sorted_local l : Sorted le (isort leb l).
  Proof.
    induction l as [|h t IH]; cbn; [constructor|]. apply insert_sorted_local; auto.
  Qed.

  Hypothesis trans : forall a b c, leb a b = true -> leb b c = true -> leb a c = true.

  Lemma isort_sorted l : StronglySorted le (isort leb l).
  Proof.
    apply Sorted_StronglySorted; [|apply isort_sorted_local].
    intros a b c; apply trans.
  Qed.
End SortLemmas.

(** ** unique *)
Section UniqueLemmas.
  Context {A : Type} (eqb : A -> A -> bool).
  Hypothesis eqb_spec : forall a b, eqb a b = true <-> a = b.

  Lemma unique_from_in a l x : In x (unique_from eqb a l) <-> a = x \/ In x l.
  Proof.
    revert a; induction l as [|h t IH]; intros a; cbn; [tauto|].
    destruct (eqb a h) eqn:E.
    - apply eqb_spec in E; subst. rewrite IH. tauto.
    - cbn. rewrite IH. tauto.
  Qed.

  Lemma unique_in l x : In x (unique eqb l) <-> In x l.
  Proof. destruct l; cbn; [tauto|]. apply unique_from_in. Qed.

  Lemma unique_from_length a l : length (unique_from eqb a l) <= S (length l).
  Proof.
    revert a; induction l as [|h t IH]; intros a; cbn; [lia|].
    destruct (eqb a h); cbn; [specialize (IH a)|specialize (IH h)]; lia.
  Qed.

  Lemma unique_length l : length (unique eqb l) <= length l.
  Proof. destruct l; cbn; auto. apply unique_from_length. Qed.

  Section Ord.
    Variable le : A -> A -> Prop.
    Hypothesis le_antisym : forall a b, le a b -> le b a -> a = b.
    Hypothesis le_trans : forall a b c, le a b -> le b c -> le a c.

    Lemma unique_from_strict a l :
      StronglySorted le (a :: l) ->
      StronglySorted (fun x y => le x y /\ x <> y) (unique_from eqb a l).
    Proof.
      revert a; induction l as [|h t IH]; intros a H; cbn.
      - repeat constructor.
      - inversion H as [|? ? Hs Hf]; subst. inversion Hf; subst.
        destruct (eqb a h) eqn:E.
        + apply IH. inversion Hs; subst. constructor; auto.
        + constructor; auto.
          apply Forall_forall. intros x Hx. apply unique_from_in in Hx.
          assert (Hah : a <> h) by (intros ->; assert (eqb h h = true) by (apply eqb_spec; auto); congruence).
          destruct Hx as [<-|Hx]; [split; auto|].
          inversion Hs as [|? ? ? Hf']; subst.
          rewrite Forall_forall in Hf', H3. split; auto.
          intros ->. apply Hah, le_antisym; auto.
    Qed.

    Lemma unique_strict l :
      StronglySorted le l -> StronglySorted (fun x y => le x y /\ x <> y) (unique eqb l).
    Proof. destruct l; cbn; [constructor|]. apply unique_from_strict. Qed.
  End Ord.
End UniqueLemmas.

Lemma StronglySorted_impl {A} (P Q : A -> A -> Prop) l :
  (forall a b, P a b -> Q a b) -> StronglySorted P l -> StronglySorted Q l.
Proof.
  intros H; induction 1; constructor; auto.
  eapply Forall_impl; [|eassumption]. auto.
Qed.

Lemma StronglySorted_nth {A} (P : A -> A -> Prop) l d i j :
  StronglySorted P l -> i < j -> j < length l -> P (nth i l d) (nth j l d).
Proof.
  intros H; revert i j; induction H as [|a l Hs IH Hf]; cbn; intros i j Hij Hj; [lia|].
  destruct j as [|j]; [lia|]. destruct i as [|i].
  - rewrite Forall_forall in Hf. apply Hf. apply nth_In. lia.
  - apply IH; lia.
Qed.

Lemma StronglySorted_lt_NoDup {A} (P : A -> A -> Prop) l :
  (forall a, ~ P a a) -> StronglySorted P l -> NoDup l.
Proof.
  intros Hirr; induction 1 as [|a l Hs IH Hf]; constructor; auto.
  intros Hin. rewrite Forall_forall in Hf. exact (Hirr a (Hf a Hin)).
Qed.

(** ** upper / lower bound *)
Lemma upper_bound_le l x : upper_bound l x <= length l.
Proof. induction l; cbn; auto. destruct (a <=? x); lia. Qed.

Lemma upper_bound_below l x i : i < upper_bound l x -> nth i l 0 <= x.
Proof.
  revert i; induction l as [|h t IH]; cbn; intros i H; [lia|].
  destruct (Nat.leb_spec h x); [|lia]. destruct i; auto. apply IH; lia.
Qed.

Lemma upper_bound_at l x : upper_bound l x < length l -> x < nth (upper_bound l x) l 0.
Proof.
  induction l as [|h t IH]; cbn; intros H; [lia|].
  destruct (Nat.leb_spec h x); [|lia]. apply IH; lia.
Qed.

Lemma lower_bound_le l x : lower_bound l x <= length l.
Proof. induction l; cbn [lower_bound length]; auto. destruct (a <? x); lia. Qed.

Lemma lower_bound_below l x i : i < lower_bound l x -> nth i l 0 < x.
Proof.
  revert i; induction l as [|h t IH]; cbn [lower_bound length nth]; intros i H; [lia|].
  destruct (Nat.ltb_spec h x); [|lia]. destruct i; [cbn; auto|]. cbn. apply IH; lia.
Qed.

Lemma lower_bound_at l x : lower_bound l x < length l -> x <= nth (lower_bound l x) l 0.
Proof.
  induction l as [|h t IH]; cbn [lower_bound length nth]; intros H; [lia|].
  destruct (Nat.ltb_spec h x); [|lia]. apply IH; lia.
Qed.

(** ** Further list lemmas *)
Lemma filter_none {A} (f : A -> bool) l : (forall a, In a l -> f a = false) -> filter f l = [].
Proof.
  induction l as [|a l IH]; cbn; intros H; auto.
  rewrite H by auto. apply IH; auto.
Qed.

Lemma psums_snoc l a : psums (l ++ [a]) = psums l ++ [sum_nat l + a].
Proof.
  unfold psums. assert (G : forall acc, psums_from acc (l ++ [a]) = psums_from acc l ++ [acc + (sum_nat l + a)]).
  { induction l as [|h t IH]; intros acc; cbn [psums_from app]; [cbn; reflexivity|].
    rewrite IH. cbn [app sum_nat fold_right]. do 2 f_equal. f_equal. unfold sum_nat. cbn. lia. }
  rewrite G. f_equal.
Qed.

Lemma length_concat {A} (l : list (list A)) : length (concat l) = sum_nat (map (@length A) l).
Proof. induction l; cbn; auto. rewrite app_length. unfold sum_nat in *. lia. Qed.

Lemma NoDup_filter' {A} (f : A -> bool) l : NoDup l -> NoDup (filter f l).
Proof.
  induction 1; cbn; [constructor|]. destruct (f x); auto.
  constructor; auto. rewrite filter_In. tauto.
Qed.

Lemma NoDup_app_intro {A} (a b : list A) :
  NoDup a -> NoDup b -> (forall z, In z a -> ~ In z b) -> NoDup (a ++ b).
Proof.
  induction 1 as [|h t Hn Hd IH]; cbn; intros Hb Hdis; auto.
  constructor.
  - rewrite in_app_iff. intros [C|C]; [contradiction|]. exact (Hdis h (or_introl eq_refl) C).
  - apply IH; auto.
Qed.

Lemma nth_map_lt {A B} (f : A -> B) (l : list A) i d d' :
  i < length l -> nth i (map f l) d = f (nth i l d').
Proof.
  intros H. rewrite (nth_indep _ d (f d')) by (now rewrite map_length). apply map_nth.
Qed.

Lemma sort_unique_nat_sorted (l : list nat) : StronglySorted lt (unique Nat.eqb (isort Nat.leb l)).
Proof.
  apply (StronglySorted_impl (fun x y => x <= y /\ x <> y)); [intros; lia|].
  apply unique_strict.
  - intros a b. apply Nat.eqb_eq.
  - intros; lia.
  - apply (StronglySorted_impl (fun a b => Nat.leb a b = true)); [intros a b; apply Nat.leb_le|].
    apply isort_sorted.
    + intros a b. rewrite !Nat.leb_le. lia.
    + intros a b c. rewrite !Nat.leb_le. lia.
Qed.

Lemma sort_unique_nat_in (l : list nat) x : In x (unique Nat.eqb (isort Nat.leb l)) <-> In x l.
Proof. rewrite unique_in by (intros a b; apply Nat.eqb_eq). apply isort_in. Qed.

Lemma nth_repeat_0 {A} (d : A) n i : nth i (repeat d n) d = d.
Proof. revert i; induction n; intros [|i]; cbn; auto. Qed.

Lemma slice_cons {A} (l : list A) off len d :
  off < length l -> slice l off (S len) = nth off l d :: slice l (S off) len.
Proof.
  unfold slice. revert off; induction l as [|h t IH]; intros [|off] H; cbn in *; try lia; auto.
  apply IH. lia.
Qed.

Lemma slice_0 {A} (l : list A) off : slice l off 0 = [].
Proof. reflexivity. Qed.
