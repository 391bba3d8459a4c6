(** C91: groups of the Christmas tree meshes; the extruded bodies are closed. *)
From Coq Require Import List Arith Lia Permutation Reals.
Import ListNotations.
From Verif Require Import Prelude PreludeLemmas TreeMeshModel.
Local Open Scope nat_scope.

(** ** Lists *)
Lemma skipn_skipn {A} (l : list A) a b : skipn a (skipn b l) = skipn (a + b) l.
Proof.
  revert l. induction b; intros l; [rewrite Nat.add_0_r; reflexivity|].
  rewrite Nat.add_succ_r. destruct l; [rewrite !skipn_nil; reflexivity|]. cbn [skipn]. apply IHb.
Qed.
Lemma span_app {A} (l : list A) a b c : a <= b -> b <= c -> span_of a b l ++ span_of b c l = span_of a c l.
Proof.
  intros H1 H2. unfold span_of.
  replace (skipn b l) with (skipn (b - a) (skipn a l)) by (rewrite skipn_skipn; f_equal; lia).
  set (m := skipn a l). replace (c - b) with ((c - a) - (b - a)) by lia.
  rewrite <- (firstn_skipn (b - a) (firstn (c - a) m)). f_equal.
  - rewrite firstn_firstn. f_equal. lia.
  - rewrite skipn_firstn_comm. reflexivity.
Qed.

Lemma span_full {A} (l : list A) c : length l <= c -> span_of 0 c l = l.
Proof. intros. unfold span_of. cbn. apply firstn_all2. lia. Qed.

Lemma span_skipn {A} (l : list A) a : span_of a (length l) l = skipn a l.
Proof. unfold span_of. apply firstn_all2. rewrite skipn_length. lia. Qed.

Lemma span_firstn {A} (l : list A) b : span_of 0 b l = firstn b l.
Proof. unfold span_of. rewrite Nat.sub_0_r. reflexivity. Qed.

(** Consecutive slices of a list, cut at the points [c 0 <= c 1 <= ...]. *)
Lemma concat_slices {A} (l : list A) (c : nat -> nat) m k :
  (forall i, m <= i < m + k -> c i <= c (S i)) ->
  concat (map (fun i => span_of (c i) (c (S i)) l) (seq m k)) = span_of (c m) (c (m + k)) l.
Proof.
  revert m. induction k; intros m H.
  - rewrite Nat.add_0_r. unfold span_of. rewrite Nat.sub_diag. reflexivity.
  - cbn [seq map concat]. rewrite IHk by (intros; apply H; lia).
    replace (S m + k) with (m + S k) by lia.
    apply span_app; [apply H; lia|].
    assert (G : forall j, j <= k -> c (S m) <= c (S m + j)).
    { induction j; intros Hj; [rewrite Nat.add_0_r; lia|].
      specialize (IHj ltac:(lia)). specialize (H (S m + j) ltac:(lia)). rewrite Nat.add_succ_r. lia. }
    specialize (G k (le_n _)). replace (S m + k) with (m + S k) in G by lia. exact G.
Qed.

Lemma concat_map_ext {A B} (f g : A -> list B) l : (forall a, In a l -> f a = g a) -> concat (map f l) = concat (map g l).
Proof. intros H. f_equal. apply map_ext_in. exact H. Qed.

(** ** The pieces *)

(** Specification: [pieces] cut [l] into consecutive parts. *)
Definition cut_into {A} (groups : list (nat * list A)) (l : list A) : Prop := concat (map snd groups) = l.

Lemma inner_groups_cut {A} base split (inner : list A) : 1 <= split -> cut_into (inner_groups base split inner) inner.
Proof.
  intros Hs. unfold cut_into, inner_groups. set (n := length inner / split).
  rewrite map_app, concat_app, map_map. cbn [map snd concat]. rewrite app_nil_r.
  assert (Hn : split * n <= length inner) by (apply Nat.mul_div_le; lia).
  rewrite (concat_map_ext _ (fun i => span_of ((fun k => k * n) i) ((fun k => k * n) (S i)) inner)).
  2:{ intros i _. cbn [snd]. rewrite Nat.add_1_r. reflexivity. }
  rewrite (concat_slices inner (fun k => k * n) 0 (split - 1)) by (intros; nia).
  rewrite <- span_skipn. cbn [Nat.mul Nat.add].
  rewrite span_app by nia. apply span_full. lia.
Qed.

Lemma outer_groups_cut {A} base split n (outer : list A) : 1 <= split -> (split - 1) * n + 1 <= length outer ->
  cut_into (outer_groups base split n outer) outer.
Proof.
  intros Hs Hn. unfold cut_into, outer_groups. rewrite map_map. cbn [snd].
  set (c := fun i => if i =? 0 then 0 else if i =? split then length outer else i * n + 1).
  rewrite (concat_map_ext _ (fun i => span_of (c i) (c (S i)) outer)).
  2:{ intros i Hi. apply in_seq in Hi. unfold c. change (S i =? 0) with false.
      replace (i =? split) with false by (symmetry; apply Nat.eqb_neq; lia).
      destruct (Nat.eqb_spec i (split - 1)), (Nat.eqb_spec (S i) split); try lia; try reflexivity.
      replace (i + 1) with (S i) by lia. reflexivity. }
  rewrite concat_slices.
  - cbn [Nat.add]. unfold c. cbn [Nat.eqb].
    replace (split =? 0) with false by (symmetry; apply Nat.eqb_neq; lia).
    rewrite Nat.eqb_refl. apply span_full. lia.
  - intros i Hi. unfold c. change (S i =? 0) with false. replace (i =? split) with false by (symmetry; apply Nat.eqb_neq; lia).
    destruct (Nat.eqb_spec i 0); [lia|]. destruct (Nat.eqb_spec (S i) split); nia.
Qed.

Lemma inner_tags {A} base split (inner : list A) : 1 <= split ->
  map fst (inner_groups base split inner) = seq (base + 1) split.
Proof.
  intros Hs. unfold inner_groups. rewrite map_app, map_map. cbn [map fst].
  destruct split as [|s]; [lia|]. replace (S s - 1) with s by lia. rewrite seq_S. f_equal.
  - assert (E : forall k m, map (fun i => base + i + 1) (seq m k) = seq (base + 1 + m) k).
    { induction k; intros m; [reflexivity|]. cbn [seq map]. f_equal; [lia|]. rewrite IHk. f_equal. lia. }
    rewrite E. f_equal. lia.
  - f_equal. lia.
Qed.

Lemma outer_tags {A} base split n (outer : list A) : map fst (outer_groups base split n outer) = seq (base + split + 1) split.
Proof.
  unfold outer_groups. rewrite map_map. cbn [fst].
  assert (E : forall k m, map (fun i => base + split + i + 1) (seq m k) = seq (base + split + 1 + m) k).
  { induction k; intros m; [reflexivity|]. cbn [seq map]. f_equal; [lia|]. rewrite IHk. f_equal. lia. }
  rewrite E. f_equal. lia.
Qed.

Lemma tree_inner_length {A} lx lb (items : list A) : 2 <= lx -> 2 <= lb -> length items = 2 * (lx - 1) + (lb - 2) ->
  length (tree_inner lx lb items) = 2 * lx - 3.
Proof.
  intros. unfold tree_inner. rewrite app_length, skipn_length, firstn_length. lia.
Qed.

Lemma tree_body_split {A} lx lb (items : list A) : 2 <= lx -> 2 <= lb -> length items = 2 * (lx - 1) + (lb - 2) ->
  items = firstn (lx - 1) items ++ tree_bottom lx lb items ++ skipn (lx + lb - 2) items.
Proof.
  intros. unfold tree_bottom, span_of.
  rewrite <- (firstn_skipn (lx - 1) items) at 1. f_equal.
  rewrite <- (firstn_skipn (lx + lb - 2 - (lx - 1)) (skipn (lx - 1) items)) at 1. f_equal.
  rewrite skipn_skipn. f_equal. lia.
Qed.

Lemma tree_body_perm {A} lx lb (items : list A) : 2 <= lx -> 2 <= lb -> length items = 2 * (lx - 1) + (lb - 2) ->
  Permutation (tree_inner lx lb items ++ tree_bottom lx lb items) items.
Proof.
  intros H1 H2 H3. rewrite (tree_body_split lx lb items H1 H2 H3) at 3. unfold tree_inner.
  rewrite <- app_assoc. rewrite Permutation_app_comm. rewrite <- app_assoc. reflexivity.
Qed.

Lemma outer_length {A} lh lx (items : list A) : lh + 2 * lx <= length items -> length (tree_outer lh lx items) = 2 * lx - 1.
Proof. intros. unfold tree_outer, span_of. rewrite firstn_length, skipn_length. lia. Qed.

Lemma box_split_2d {A} lh lx (items : list A) : 1 <= lx ->
  items = firstn (lh + 1) items ++ tree_outer lh lx items ++ skipn (lh + 2 * lx) items.
Proof.
  intros. unfold tree_outer, span_of.
  rewrite <- (firstn_skipn (lh + 1) items) at 1. f_equal.
  rewrite <- (firstn_skipn (lh + 2 * lx - (lh + 1)) (skipn (lh + 1) items)) at 1. f_equal.
  rewrite skipn_skipn. f_equal. lia.
Qed.

(** ** Two dimensions *)

(** Every line of both outlines is in exactly one group, and the groups have
    different tags: 3 for the bottom of the tree, 4 for the box, [split] tags
    for the pieces of the tree, [split] tags for the pieces around it, and each
    family of pieces cuts its curve into consecutive parts. *)
Theorem C91_groups_2d :
  forall (A : Type) (split lx lb lh : nat) (lines1 lines2 : list A),
    1 <= split -> 2 <= lx -> 2 <= lb ->
    length lines1 = 2 * (lx - 1) + (lb - 2) -> lh + 2 * lx <= length lines2 ->
    exists groups, tree_groups_2d split lx lb lh lines1 lines2 = Some groups /\
      Permutation (concat (map snd groups)) (lines1 ++ lines2) /\
      NoDup (map fst groups) /\
      (forall t, In t (map fst groups) <-> 3 <= t <= 4 + 2 * split) /\
      (exists pieces others, Permutation groups (pieces ++ others) /\
         map fst pieces = seq 5 split /\ cut_into pieces (tree_inner lx lb lines1)) /\
      (exists pieces others, Permutation groups (pieces ++ others) /\
         map fst pieces = seq (5 + split) split /\ cut_into pieces (tree_outer lh lx lines2)).
Proof.
  intros A split lx lb lh lines1 lines2 Hs Hx Hb H1 H2.
  unfold tree_groups_2d. destruct split as [|s] eqn:ES; [lia|]. rewrite <- ES in *. clear ES s.
  eexists; split; [reflexivity|].
  set (inner := tree_inner lx lb lines1). set (outer := tree_outer lh lx lines2).
  assert (CI : cut_into (inner_groups 4 split inner) inner) by (apply inner_groups_cut; auto).
  assert (LI : length inner = 2 * lx - 3) by (apply tree_inner_length; auto).
  assert (LO : length outer = 2 * lx - 1) by (apply outer_length; auto).
  assert (CO : cut_into (outer_groups 4 split (length inner / split) outer) outer).
  { apply outer_groups_cut; auto. rewrite LI, LO.
    pose proof (Nat.mul_div_le (2 * lx - 3) split ltac:(lia)).
    assert (split - 1 <= split) by lia. set (m := (2 * lx - 3) / split) in *. nia. }
  unfold cut_into in CI, CO.
  split; [|split; [|split; [|split]]].
  - rewrite !map_app, !concat_app. cbn [map snd concat]. rewrite CI, CO, !app_nil_r.
    rewrite app_assoc. apply Permutation_app; [apply tree_body_perm; auto|].
    rewrite (box_split_2d lh lx lines2) at 2 by lia. fold outer. unfold box_lines.
    rewrite <- app_assoc. apply Permutation_app_head. apply Permutation_app_comm.
  - rewrite !map_app, inner_tags, outer_tags by auto. cbn [map fst app].
    apply Permutation_NoDup with (l := 3 :: 4 :: seq 5 split ++ seq (5 + split) split).
    + replace (4 + 1) with 5 by lia. replace (4 + split + 1) with (5 + split) by lia.
      apply Permutation_trans with (l' := 3 :: seq 5 split ++ 4 :: seq (5 + split) split).
      * constructor. apply Permutation_middle.
      * apply (Permutation_middle (seq 5 split) (4 :: seq (5 + split) split) 3).
    + rewrite <- seq_app. change (NoDup (seq 3 (S (S (split + split))))). apply seq_NoDup.
  - intros t. rewrite !map_app, inner_tags, outer_tags by auto. cbn [map fst].
    rewrite !in_app_iff, !in_seq. cbn [In]. lia.
  - exists (inner_groups 4 split inner).
    eexists. split; [reflexivity|]. split; [rewrite inner_tags by auto; f_equal; lia|exact CI].
  - exists (outer_groups 4 split (length inner / split) outer).
    exists ((inner_groups 4 split inner ++ [(3, tree_bottom lx lb lines1)]) ++ [(4, box_lines lh lx lines2)]).
    split; [|split; [rewrite outer_tags; f_equal; lia|exact CO]].
    eapply Permutation_trans; [|apply Permutation_app_comm]. rewrite <- !app_assoc. apply Permutation_refl.
Qed.
Print Assumptions C91_groups_2d.

(** ** Which line is which *)
Lemma closed_lines_length n : length (closed_lines n) = n.
Proof. unfold closed_lines. rewrite map_length, seq_length. reflexivity. Qed.
Lemma closed_lines_nth n i d : i < n -> nth i (closed_lines n) d = (before n i, i).
Proof.
  intros. unfold closed_lines. rewrite (nth_map_lt _ _ _ d 0) by (rewrite seq_length; auto).
  rewrite seq_nth by auto. reflexivity.
Qed.

Lemma seq_span m n a b : a <= b -> b <= n -> span_of a b (seq m n) = seq (m + a) (b - a).
Proof.
  intros H1 H2. unfold span_of.
  replace n with (a + ((b - a) + (n - b))) by lia. rewrite !seq_app.
  rewrite skipn_app, seq_length, Nat.sub_diag. cbn [skipn].
  rewrite skipn_all2 by (rewrite seq_length; lia). cbn [app].
  rewrite firstn_app, seq_length, Nat.sub_diag. cbn [firstn]. rewrite app_nil_r.
  apply firstn_all2. rewrite seq_length. lia.
Qed.

Lemma map_span {A B} (f : A -> B) a b l : span_of a b (map f l) = map f (span_of a b l).
Proof. unfold span_of. rewrite skipn_map, firstn_map. reflexivity. Qed.

Lemma in_closed_span n a b p q : a <= b -> b <= n -> q < n -> p = before n q ->
  (In (p, q) (span_of a b (closed_lines n)) <-> a <= q < b).
Proof.
  intros H1 H2 H3 ->. unfold closed_lines. rewrite map_span, seq_span by auto. rewrite in_map_iff. split.
  - intros (i & E & Hi). apply in_seq in Hi. injection E as _ E. lia.
  - intros H. exists q. split; [reflexivity|]. apply in_seq. lia.
Qed.

Lemma in_closed n p q : In (p, q) (closed_lines n) <-> q < n /\ p = before n q.
Proof.
  unfold closed_lines. rewrite in_map_iff. split.
  - intros (i & E & Hi). apply in_seq in Hi. injection E as E1 E2. subst. split; [lia|reflexivity].
  - intros [H ->]. exists q. split; [reflexivity|]. apply in_seq. lia.
Qed.

Lemma tl_nth {A} (l : list A) i d : nth i (tl l) d = nth (S i) l d.
Proof. destruct l; [destruct i; reflexivity|reflexivity]. Qed.
Lemma tl_length {A} (l : list A) : length (tl l) = length l - 1.
Proof. destruct l; cbn; lia. Qed.
Lemma removelast_repeat {A} (a : A) n : removelast (repeat a n) = repeat a (n - 1).
Proof.
  destruct n; [reflexivity|]. replace (S n - 1) with n by lia.
  cbn [repeat]. rewrite repeat_cons. apply removelast_last.
Qed.

Lemma outline_length {A} (x : list A) a lb : 1 <= length x -> 2 <= lb ->
  length (tree_outline x (repeat a lb)) = 2 * (length x - 1) + (lb - 2).
Proof.
  intros. unfold tree_outline. destruct lb as [|lb]; [lia|]. cbn [repeat tl].
  rewrite removelast_repeat, !app_length, rev_length, repeat_length, tl_length. lia.
Qed.

Lemma outline_nth (x : list R) a lb i : 2 <= length x -> 2 <= lb -> i < 2 * (length x - 1) + (lb - 2) ->
  nth i (tree_outline x (repeat a lb)) 0%R =
  if i <? length x - 1 then nth (S i) x 0%R
  else if i <? length x + lb - 3 then a
  else nth (2 * length x + lb - 4 - i) x 0%R.
Proof.
  intros Hx Hb Hi. unfold tree_outline. destruct lb as [|lb]; [lia|]. cbn [repeat tl].
  rewrite removelast_repeat.
  destruct (Nat.ltb_spec i (length x - 1)).
  - rewrite app_nth1 by (rewrite tl_length; lia). apply tl_nth.
  - rewrite app_nth2 by (rewrite tl_length; lia). rewrite tl_length.
    destruct (Nat.ltb_spec i (length x + S lb - 3)).
    + rewrite app_nth1 by (rewrite repeat_length; lia). rewrite nth_indep with (d' := a) by (rewrite repeat_length; lia). apply nth_repeat.
    + rewrite app_nth2 by (rewrite repeat_length; lia). rewrite repeat_length.
      rewrite rev_nth by (rewrite tl_length; lia). rewrite tl_length, tl_nth. f_equal. lia.
Qed.

(** The lines tagged as bottom of the tree are exactly those with both ends at
    the largest first coordinate: no line of the jagged curve is among them and
    no line of the bottom is missing.  [x]: first coordinates of the curve. *)
Theorem C91_bottom_lines :
  forall (x : list R) (lb : nat) (xs : list R) (lines : list (nat * nat)),
    3 <= length x -> 2 <= lb ->
    (forall i j, i < j < length x -> (nth i x 0 < nth j x 0)%R) ->
    xs = tree_outline x (repeat (last x 0%R) lb) -> lines = closed_lines (length xs) ->
    forall a b, In (a, b) lines ->
      (In (a, b) (tree_bottom (length x) lb lines) <->
       nth a xs 0%R = last x 0%R /\ nth b xs 0%R = last x 0%R).
Proof.
  intros x lb xs lines Hx Hb Inc Exs El a b Hin. subst lines.
  assert (Ln : length xs = 2 * (length x - 1) + (lb - 2)) by (subst xs; apply outline_length; lia).
  apply in_closed in Hin as [Hb' Ha].
  assert (La : last x 0%R = nth (length x - 1) x 0%R).
  { destruct x as [|h t] using rev_ind; [cbn in Hx; lia|].
    rewrite last_last, app_length. cbn [length]. replace (length t + 1 - 1) with (length t) by lia.
    rewrite app_nth2, Nat.sub_diag by lia. reflexivity. }
  assert (Val : forall i, i < length xs -> (nth i xs 0%R = last x 0%R <-> length x - 2 <= i <= length x + lb - 3)).
  { intros i Hi. rewrite Exs at 1. rewrite outline_nth by lia.
    destruct (Nat.ltb_spec i (length x - 1)) as [L|L].
    - split; [|intros; rewrite La; f_equal; lia].
      intros E. destruct (le_lt_dec (length x - 2) i); [lia|]. exfalso.
      specialize (Inc (S i) (length x - 1) ltac:(lia)). rewrite <- La in Inc. rewrite E in Inc. exact (Rlt_irrefl _ Inc).
    - destruct (Nat.ltb_spec i (length x + lb - 3)) as [M|M]; [split; [lia|reflexivity]|].
      split; [|intros; rewrite La; f_equal; lia].
      intros E. destruct (le_lt_dec i (length x + lb - 3)); [lia|]. exfalso.
      specialize (Inc (2 * length x + lb - 4 - i) (length x - 1) ltac:(lia)). rewrite <- La in Inc.
      rewrite E in Inc. exact (Rlt_irrefl _ Inc). }
  unfold tree_bottom. rewrite in_closed_span; auto; try lia.
  assert (Ha' : a < length xs) by (subst a; unfold before; destruct b; lia).
  rewrite (Val a Ha'), (Val b Hb'). subst a. unfold before. destruct b; lia.
Qed.
Print Assumptions C91_bottom_lines.

(** Around the tree: the outline of the outer body contains the jagged curve and
    its mirror image at the positions [lh .. lh + 2*lx), and the lines of the
    outer pieces are exactly those with both ends there. *)
Theorem C91_outer_lines :
  forall (A : Type) (d : A) (xh x xf xg : list A),
    length xh + 2 * length x < length (box_outline xh x xf xg) ->
    (forall k, k < 2 * length x -> nth (length xh + k) (box_outline xh x xf xg) d = nth k (rev x ++ x) d) /\
    (forall lines a b, lines = closed_lines (length (box_outline xh x xf xg)) -> In (a, b) lines ->
       (In (a, b) (tree_outer (length xh) (length x) lines) <->
        length xh <= a < length xh + 2 * length x /\ length xh <= b < length xh + 2 * length x)).
Proof.
  intros A d xh x xf xg Hn. split.
  - intros k Hk. unfold box_outline. rewrite app_nth2 by lia.
    replace (length xh + k - length xh) with k by lia.
    rewrite (app_assoc (rev x)). rewrite app_nth1; [reflexivity|]. rewrite app_length, rev_length. lia.
  - intros lines a b -> Hin. apply in_closed in Hin as [Hb Ha].
    unfold tree_outer. destruct (Nat.eq_dec (length x) 0) as [Z|Z].
    + replace (span_of _ _ _) with (@nil (nat * nat)).
      2:{ unfold span_of. replace (length xh + 2 * length x - (length xh + 1)) with 0 by lia. reflexivity. }
      cbn [In]. lia.
    + rewrite in_closed_span; auto; try lia. subst a. unfold before. destruct b; lia.
Qed.
Print Assumptions C91_outer_lines.

(** ** Three dimensions *)
Lemma span_one {A} (l : list A) a d : a < length l -> span_of a (a + 1) l = [nth a l d].
Proof.
  intros H. unfold span_of. replace (a + 1 - a) with 1 by lia.
  destruct (skipn a l) as [|h t] eqn:E.
  - assert (L : length (skipn a l) = 0) by (rewrite E; reflexivity). rewrite skipn_length in L. lia.
  - cbn [firstn]. f_equal. pose proof (nth_skipn l a 0 d) as N. rewrite E in N. cbn [nth] in N. rewrite N. f_equal. lia.
Qed.

Lemma box_split_3d {A} (d : A) lh lx (items : list A) : 1 <= lx -> lh + 2 * lx < length items ->
  Permutation ((box_surfaces lh lx items ++ tree_outer lh lx items) ++ [nth lh items d; nth (lh + 2 * lx) items d]) items.
Proof.
  intros H1 H2.
  assert (E : items = firstn lh items ++ [nth lh items d] ++ tree_outer lh lx items
              ++ [nth (lh + 2 * lx) items d] ++ skipn (1 + lh + 2 * lx) items).
  { rewrite <- (span_one items lh d) by lia. rewrite <- (span_one items (lh + 2 * lx) d) by lia.
    rewrite <- (span_firstn items lh). rewrite <- (span_skipn items (1 + lh + 2 * lx)). unfold tree_outer.
    replace (1 + lh + 2 * lx) with (lh + 2 * lx + 1) by lia.
    rewrite (span_app items (lh + 2 * lx)) by lia. rewrite (span_app items (lh + 1)) by lia.
    rewrite (span_app items lh) by lia. rewrite (span_app items 0) by lia. symmetry. apply span_full. lia. }
  rewrite E at 5. unfold box_surfaces.
  set (a := firstn lh items). set (u := nth lh items d). set (v := nth (lh + 2 * lx) items d).
  set (o := tree_outer lh lx items). set (c := skipn (1 + lh + 2 * lx) items).
  rewrite <- !app_assoc. apply Permutation_app_head.
  change ([u] ++ o ++ [v] ++ c) with (u :: o ++ v :: c).
  apply Permutation_trans with (l' := u :: v :: c ++ o).
  - apply Permutation_trans with (l' := [u; v] ++ (c ++ o)); [|reflexivity].
    rewrite app_assoc. apply Permutation_app_comm.
  - constructor. apply Permutation_trans with (l' := v :: o ++ c).
    + constructor. apply Permutation_app_comm.
    + apply Permutation_middle.
Qed.

(** In three dimensions the groups hold the sides of the tree, its front and back
    and all sides of the outer body except two: the one before and the one after
    the jagged part.  These two are in no group. *)
Theorem C91_groups_3d_exact :
  forall (A : Type) (split lx lb lh : nat) (sides1 sides2 : list A) (front back d : A),
    1 <= split -> 2 <= lx -> 2 <= lb ->
    length sides1 = 2 * (lx - 1) + (lb - 2) -> lh + 2 * lx < length sides2 ->
    exists groups, tree_groups_3d split lx lb lh sides1 sides2 front back = Some groups /\
      Permutation (concat (map snd groups) ++ [nth lh sides2 d; nth (lh + 2 * lx) sides2 d])
                  ((sides1 ++ [front; back]) ++ sides2) /\
      NoDup (map fst groups) /\
      (forall t, In t (map fst groups) <-> 3 <= t <= 5 + 2 * split).
Proof.
  intros A split lx lb lh sides1 sides2 front back d Hs Hx Hb H1 H2.
  unfold tree_groups_3d. destruct split as [|s] eqn:ES; [lia|]. rewrite <- ES in *. clear ES s.
  eexists; split; [reflexivity|].
  set (inner := tree_inner lx lb sides1). set (outer := tree_outer lh lx sides2).
  assert (CI : cut_into (inner_groups 5 split inner) inner) by (apply inner_groups_cut; auto).
  assert (LI : length inner = 2 * lx - 3) by (apply tree_inner_length; auto).
  assert (LO : length outer = 2 * lx - 1) by (apply outer_length; lia).
  assert (CO : cut_into (outer_groups 5 split (length inner / split) outer) outer).
  { apply outer_groups_cut; auto. rewrite LI, LO.
    pose proof (Nat.mul_div_le (2 * lx - 3) split ltac:(lia)).
    assert (split - 1 <= split) by lia. set (m := (2 * lx - 3) / split) in *. nia. }
  unfold cut_into in CI, CO.
  split; [|split].
  - rewrite !map_app, !concat_app. cbn [map snd concat]. rewrite CI, CO, !app_nil_r.
    assert (P : Permutation (inner ++ tree_bottom lx lb sides1 ++ [front; back]) (sides1 ++ [front; back])).
    { rewrite app_assoc. apply Permutation_app_tail. apply tree_body_perm; auto. }
    replace (inner ++ tree_bottom lx lb sides1 ++ [front; back] ++ box_surfaces lh lx sides2 ++ outer)
      with ((inner ++ tree_bottom lx lb sides1 ++ [front; back]) ++ (box_surfaces lh lx sides2 ++ outer))
      by (rewrite <- !app_assoc; reflexivity).
    rewrite <- app_assoc. apply Permutation_app; [exact P|]. apply box_split_3d; lia.
  - rewrite !map_app, inner_tags, outer_tags by auto. cbn [map fst app].
    apply Permutation_NoDup with (l := 3 :: 4 :: 5 :: seq 6 split ++ seq (6 + split) split).
    + replace (5 + 1) with 6 by lia. replace (5 + split + 1) with (6 + split) by lia.
      set (u := seq 6 split). set (v := seq (6 + split) split).
      change (3 :: 4 :: 5 :: u ++ v) with ([3; 4; 5] ++ (u ++ v)).
      rewrite app_assoc. rewrite (Permutation_app_comm [3; 4; 5] u). rewrite <- app_assoc.
      apply Permutation_app_head. cbn [app]. constructor. apply perm_swap.
    + rewrite <- seq_app. change (NoDup (seq 3 (S (S (S (split + split)))))). apply seq_NoDup.
  - intros t. rewrite !map_app, inner_tags, outer_tags by auto. cbn [map fst].
    rewrite !in_app_iff, !in_seq. cbn [In]. lia.
Qed.
Print Assumptions C91_groups_3d_exact.

(** So the promise of the two-dimensional mesh (every boundary part of the
    outline in a group) fails in three dimensions, for every choice of sizes. *)
Theorem C91_groups_3d_complete_refuted :
  forall (A : Type) (split lx lb lh : nat) (sides1 sides2 : list A) (front back : A),
    1 <= split -> 2 <= lx -> 2 <= lb ->
    length sides1 = 2 * (lx - 1) + (lb - 2) -> lh + 2 * lx < length sides2 ->
    NoDup ((sides1 ++ [front; back]) ++ sides2) ->
    exists groups s, tree_groups_3d split lx lb lh sides1 sides2 front back = Some groups /\
      In s sides2 /\ (forall t members, In (t, members) groups -> ~ In s members).
Proof.
  intros A split lx lb lh sides1 sides2 front back Hs Hx Hb H1 H2 ND.
  destruct (C91_groups_3d_exact A split lx lb lh sides1 sides2 front back front Hs Hx Hb H1 H2) as (g & E & P & _).
  exists g, (nth lh sides2 front). split; [exact E|]. split; [apply nth_In; lia|].
  intros t members Hin Hs'. apply Permutation_sym, Permutation_NoDup in P; [|exact ND].
  assert (In (nth lh sides2 front) (concat (map snd g))).
  { apply in_concat. exists members. split; auto. apply in_map_iff. exists (t, members). auto. }
  revert P. generalize (concat (map snd g)) H. intros l Hl P.
  apply in_split in Hl as (l1 & l2 & ->). rewrite <- app_assoc in P. cbn [app] in P.
  apply NoDup_remove_2 in P. apply P. rewrite !in_app_iff. right. right. left. reflexivity.
Qed.
Print Assumptions C91_groups_3d_complete_refuted.

(** ** The extruded bodies are closed *)
Definition oriented_ends (n : nat) (e : edge * bool) : (bool * nat) * (bool * nat) :=
  let '(a, b) := edge_ends n (fst e) in if snd e then (b, a) else (a, b).
(** A closed loop: every edge starts where the one before it ends. *)
Definition closed_loop (n : nat) (l : list (edge * bool)) : Prop :=
  forall i, i < length l ->
    fst (oriented_ends n (nth i l (front_line 0, false))) =
    snd (oriented_ends n (nth (before (length l) i) l (front_line 0, false))).

Lemma edge_eq_dec : forall a b : edge, {a = b} + {a <> b}.
Proof. decide equality; apply Nat.eq_dec. Defined.

(** Number of faces of the body that use a line. *)
Definition uses (n : nat) (e : edge) : nat := count_occ edge_eq_dec (map fst (concat (body_faces n))) e.
Definition belongs (n : nat) (e : edge) : Prop :=
  match e with front_line i | back_line i | cross_line i => i < n end.

Lemma loop_of_outline n (mk : nat -> edge) (side : bool) :
  (forall i, edge_ends n (mk i) = ((side, before n i), (side, i))) ->
  closed_loop n (map (fun i => (mk i, false)) (seq 0 n)).
Proof.
  intros H i Hi. rewrite map_length, seq_length in *.
  assert (N : forall k, k < n -> oriented_ends n (nth k (map (fun i => (mk i, false)) (seq 0 n)) (front_line 0, false)) =
     ((side, before n k), (side, k))).
  { intros k Hk. rewrite (nth_map_lt _ _ _ _ 0) by (rewrite seq_length; auto). rewrite seq_nth by auto.
    unfold oriented_ends. cbn [fst snd]. rewrite H. reflexivity. }
  rewrite !N; auto. unfold before; destruct i; lia.
Qed.

Lemma count_occ_map_seq (mk : nat -> edge) e m k :
  count_occ edge_eq_dec (map mk (seq m k)) e =
  length (filter (fun i => if edge_eq_dec (mk i) e then true else false) (seq m k)).
Proof.
  revert m; induction k; intros m; [reflexivity|]. cbn [seq map count_occ filter].
  destruct (edge_eq_dec (mk m) e); cbn [length]; rewrite IHk; reflexivity.
Qed.

Lemma count_one_seq (P : nat -> bool) m k j : m <= j < m + k -> (forall i, m <= i < m + k -> (P i = true <-> i = j)) ->
  length (filter P (seq m k)) = 1.
Proof.
  revert m. induction k; intros m Hj HP; [lia|]. cbn [seq filter].
  destruct (P m) eqn:E.
  - apply HP in E; [|lia]. subst j. cbn [length]. f_equal.
    assert (Z : forall k' m', m < m' -> m' + k' <= m + S k -> filter P (seq m' k') = []).
    { induction k'; intros m' H1 H2; [reflexivity|]. cbn [seq filter].
      destruct (P m') eqn:E; [apply HP in E; lia|]. apply IHk'; lia. }
    rewrite Z by lia. reflexivity.
  - apply IHk; [|intros; apply HP; lia].
    destruct (Nat.eq_dec j m); [subst; assert (P m = true) by (apply HP; lia); congruence|lia].
Qed.
Lemma count_none_seq (P : nat -> bool) m k : (forall i, m <= i < m + k -> P i = false) -> length (filter P (seq m k)) = 0.
Proof.
  revert m. induction k; intros m HP; [reflexivity|]. cbn [seq filter]. rewrite HP by lia. apply IHk. intros; apply HP; lia.
Qed.

Lemma sides_count n e m k :
  count_occ edge_eq_dec (map fst (concat (map (side_loop n) (seq m k)))) e =
  (length (filter (fun i => if edge_eq_dec (front_line i) e then true else false) (seq m k)) +
   length (filter (fun i => if edge_eq_dec (cross_line i) e then true else false) (seq m k))) +
  (length (filter (fun i => if edge_eq_dec (back_line i) e then true else false) (seq m k)) +
   length (filter (fun i => if edge_eq_dec (cross_line (before n i)) e then true else false) (seq m k))).
Proof.
  revert m; induction k; intros m; [reflexivity|]. cbn [seq map concat side_loop app fst count_occ filter].
  rewrite IHk.
  destruct (edge_eq_dec (front_line m) e), (edge_eq_dec (cross_line m) e), (edge_eq_dec (back_line m) e),
    (edge_eq_dec (cross_line (before n m)) e); cbn [length]; lia.
Qed.

(** All faces of an extruded body are bounded by closed loops, and every line of
    the body is used by exactly two faces (none is left open). *)
Theorem C91_bodies_closed :
  forall n, 1 <= n ->
    (forall face, In face (body_faces n) -> closed_loop n face) /\
    (forall e, belongs n e -> uses n e = 2).
Proof.
  intros n Hn. split.
  - intros face [<-|H].
    + apply (loop_of_outline n front_line false). reflexivity.
    + apply in_app_or in H as [H|[<-|[]]].
      * apply in_map_iff in H as (i & <- & Hi). intros k Hk. cbn [side_loop length] in *.
        destruct k as [|[|[|[|k]]]]; try lia; cbn [side_loop nth before length Nat.sub]; reflexivity.
      * apply (loop_of_outline n back_line true). reflexivity.
  - intros e He. unfold uses, body_faces. cbn [concat]. rewrite concat_app, !map_app, !count_occ_app.
    cbn [concat]. rewrite app_nil_r, !map_map. cbn [fst]. rewrite sides_count.
    rewrite (count_occ_map_seq front_line), (count_occ_map_seq back_line).
    destruct e as [j|j|j]; cbn [belongs] in He.
    + rewrite (count_one_seq _ 0 n j) by (try lia; intros i _; destruct (edge_eq_dec (front_line i) (front_line j)) as [E|E]; split; congruence).
      rewrite !count_none_seq; [reflexivity|..]; intros i _; match goal with |- context [edge_eq_dec ?a ?b] => destruct (edge_eq_dec a b); congruence end.
    + rewrite (count_one_seq (fun i => if edge_eq_dec (back_line i) (back_line j) then true else false) 0 n j) by (try lia; intros i _; destruct (edge_eq_dec (back_line i) (back_line j)) as [E|E]; split; congruence).
      rewrite !count_none_seq; [reflexivity|..]; intros i _; match goal with |- context [edge_eq_dec ?a ?b] => destruct (edge_eq_dec a b); congruence end.
    + rewrite (count_one_seq (fun i => if edge_eq_dec (cross_line i) (cross_line j) then true else false) 0 n j) by (try lia; intros i _; destruct (edge_eq_dec (cross_line i) (cross_line j)) as [E|E]; split; congruence).
      rewrite (count_one_seq (fun i => if edge_eq_dec (cross_line (before n i)) (cross_line j) then true else false) 0 n
        (if S j =? n then 0 else S j)).
      * rewrite !count_none_seq; [reflexivity|..]; intros i _; match goal with |- context [edge_eq_dec ?a ?b] => destruct (edge_eq_dec a b); congruence end.
      * destruct (Nat.eqb_spec (S j) n); lia.
      * intros i Hi. destruct (edge_eq_dec (cross_line (before n i)) (cross_line j)) as [E|E].
        -- injection E as E. split; auto. intros _. unfold before in E. destruct i, (Nat.eqb_spec (S j) n); lia.
        -- split; [discriminate|]. intros ->. exfalso. apply E. f_equal.
           destruct (Nat.eqb_spec (S j) n); cbn [before]; lia.
Qed.
Print Assumptions C91_bodies_closed.

(** Non-vacuity: four points on the curve, three on the bottom, two on each
    connecting part and three pieces; the tags and members of the groups. *)
Example C91_example_2d :
  tree_groups_2d 3 4 3 2 (seq 100 7) (seq 200 16) =
  Some [(5, [105]); (6, [106]); (7, [100; 101; 102]); (3, [103; 104]);
        (4, [200; 201; 202] ++ seq 210 6);
        (8, [203; 204]); (9, [205]); (10, [206; 207; 208; 209])].
Proof. reflexivity. Qed.

Example C91_example_3d :
  tree_groups_3d 1 4 3 2 (seq 100 7) (seq 200 16) 98 99 =
  Some [(6, [105; 106; 100; 101; 102]); (3, [103; 104]); (5, [98; 99]);
        (4, [200; 201] ++ seq 211 5); (7, seq 203 7)].
Proof. reflexivity. Qed.
