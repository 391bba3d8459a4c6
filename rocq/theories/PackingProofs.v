(** Proofs for [PackingModel]. *)
From Coq Require Import List Arith ZArith Lia Bool Sorted Permutation Reals Lra.
Import ListNotations.
From Verif Require Import Prelude PreludeLemmas Scatter RSum SubMeshModel SubMeshProofs SubMeshProps
  EntitiesModel EntitiesProofs EntitiesProps PackingModel.

(** ** Lists *)
Lemma sorted_ext {A} (lt : A -> A -> Prop) (l1 l2 : list A) :
  (forall a, ~ lt a a) -> (forall a b c, lt a b -> lt b c -> lt a c) ->
  StronglySorted lt l1 -> StronglySorted lt l2 -> (forall x, In x l1 <-> In x l2) -> l1 = l2.
Proof.
  intros Hi Ht H1. revert l2. induction H1 as [|a l Hs IH Hf]; intros l2 H2 Hin.
  - destruct l2 as [|b l2]; auto. exfalso. apply (in_nil (a := b)). apply Hin. left. auto.
  - destruct H2 as [|b l2 Hs2 Hf2].
    + exfalso. apply (in_nil (a := a)). apply Hin. left. auto.
    + rewrite Forall_forall in Hf, Hf2.
      assert (a = b).
      { pose proof (proj1 (Hin a) (or_introl eq_refl)) as [E|Ha]; auto.
        pose proof (proj2 (Hin b) (or_introl eq_refl)) as [E|Hb]; auto.
        exfalso. apply (Hi a). eapply Ht; [apply Hf; exact Hb|apply Hf2; exact Ha]. }
      subst b. f_equal. apply IH; auto. intros x. split; intros Hx.
      * destruct (proj1 (Hin x) (or_intror Hx)) as [E|H]; auto. subst x. exfalso. exact (Hi a (Hf a Hx)).
      * destruct (proj2 (Hin x) (or_intror Hx)) as [E|H]; auto. subst x. exfalso. exact (Hi a (Hf2 a Hx)).
Qed.

Lemma for_loop_nth {A S} (l : list A) d (f : A -> S -> S) s :
  for_loop (length l) (fun q => f (nth q l d)) s = for_each l f s.
Proof.
  unfold for_loop, for_range. revert s. induction l as [|a l IH]; intros s; auto.
  cbn [length seq]. rewrite <- seq_shift. unfold for_each in *. cbn [fold_left nth].
  rewrite <- IH. clear IH. generalize (f a s). generalize (seq 0 (length l)).
  intros m. induction m as [|x m IHm]; intros t; cbn; auto.
Qed.

Lemma slice_app_l {A} (a b : list A) off len : off + len <= length a -> slice (a ++ b) off len = slice a off len.
Proof.
  intros H. unfold slice. rewrite skipn_app, firstn_app, skipn_length.
  replace (len - (length a - off)) with 0 by lia. cbn. apply app_nil_r.
Qed.

(** ** Points with a contact cell *)
Definition found (f_cells : list Z) (j : nat) : bool := Z.leb 0 (nth j f_cells 0%Z).

Lemma positives_spec f_cells :
  snd (positives f_cells) = filter (found f_cells) (seq 0 (length f_cells)) /\
  fst (positives f_cells) = map (fun j => nth j f_cells 0%Z) (filter (found f_cells) (seq 0 (length f_cells))).
Proof.
  unfold positives.
  apply (for_loop_inv (fun n st => snd st = filter (found f_cells) (seq 0 n) /\
            fst st = map (fun j => nth j f_cells 0%Z) (filter (found f_cells) (seq 0 n)))); auto.
  intros i st Hi [H1 H2]. rewrite seq_S, filter_app. cbn [Nat.add filter]. unfold found at 2 4.
  destruct (Z.leb 0 (nth i f_cells 0%Z)); cbn [fst snd].
  - rewrite H1, H2, map_app. auto.
  - rewrite app_nil_r. auto.
Qed.

(** Position of point [q] among the found points. *)
Definition rank (f_cells : list Z) (q : nat) : nat := length (filter (found f_cells) (seq 0 q)).

Lemma filter_seq_nth (P : nat -> bool) n q : q < n -> P q = true ->
  nth (length (filter P (seq 0 q))) (filter P (seq 0 n)) 0 = q /\
  length (filter P (seq 0 q)) < length (filter P (seq 0 n)).
Proof.
  intros Hq HP. replace n with (q + S (n - q - 1)) by lia. rewrite seq_app, filter_app. cbn [seq filter Nat.add].
  rewrite HP. rewrite app_nth2 by lia. rewrite Nat.sub_diag. cbn [nth]. rewrite app_length. cbn. lia.
Qed.

Lemma filter_seq_rank (P : nat -> bool) n p : p < length (filter P (seq 0 n)) ->
  let q := nth p (filter P (seq 0 n)) 0 in
  q < n /\ P q = true /\ length (filter P (seq 0 q)) = p.
Proof.
  intros Hp q. assert (Hin : In q (filter P (seq 0 n))) by (apply nth_In; auto).
  apply filter_In in Hin. destruct Hin as [Hin HP]. apply in_seq in Hin.
  split; [lia|]. split; auto.
  destruct (filter_seq_nth P n q ltac:(lia) HP) as [E L].
  assert (ND : NoDup (filter P (seq 0 n))) by (apply NoDup_filter', seq_NoDup).
  apply (proj1 (NoDup_nth _ 0) ND); auto.
Qed.

Lemma rank_all f_cells q : (forall c, In c f_cells -> (0 <= c)%Z) -> q <= length f_cells -> rank f_cells q = q.
Proof.
  intros H Hq. unfold rank. rewrite <- (seq_length q 0) at 2. f_equal.
  assert (G : forall l, (forall x, In x l -> found f_cells x = true) -> filter (found f_cells) l = l).
  { induction l as [|x l IH]; intros Hl; auto. cbn. rewrite Hl by (left; auto). f_equal. apply IH.
    intros; apply Hl; right; auto. }
  apply G. intros x Hx. apply in_seq in Hx. unfold found. apply Z.leb_le. apply H. apply nth_In. lia.
Qed.

(** ** Sorting the found cells *)
Lemma groups f_cells buf rest :
  let pos := fst (positives f_cells) in
  exists r, sort_cells pos buf = Some r /\
    StronglySorted Z.lt (sc_unique r) /\
    (forall c, In c (sc_unique r) <-> (In c f_cells /\ (0 <= c)%Z)) /\
    forall j, j < length (sc_unique r) ->
      slice (sc_perm r ++ rest) (nth j (sc_offsets r) 0) (nth (S j) (sc_offsets r) 0 - nth j (sc_offsets r) 0)
      = filter (fun p => Z.eqb (nth p pos 0%Z) (nth j (sc_unique r) 0%Z)) (seq 0 (length pos)).
Proof.
  intros pos. destruct (positives_spec f_cells) as [_ Hpos].
  assert (Hin : forall c, In c pos <-> In c f_cells /\ (0 <= c)%Z).
  { intros c. unfold pos. rewrite Hpos, in_map_iff. split.
    - intros (j & <- & Hj). apply filter_In in Hj. destruct Hj as [Hj Hf]. apply in_seq in Hj.
      split; [apply nth_In; lia|]. apply Z.leb_le. auto.
    - intros [Hc L]. apply (In_nth _ _ 0%Z) in Hc. destruct Hc as (j & Hj & E). exists j. split; auto.
      apply filter_In. split; [apply in_seq; lia|]. unfold found. rewrite E. apply Z.leb_le. auto. }
  destruct pos as [|c0 pos'] eqn:Ep.
  - exists (mkSorted [] [0; 0] buf). split; [reflexivity|]. cbn [sc_unique sc_offsets length].
    split; [constructor|]. split; [exact Hin|]. intros; lia.
  - rewrite <- Ep in *. clearbody pos.
    destruct (C14_sort_cells pos buf) as (r & E & Hs & Hu & Hl & _ & Hlast & Hperm & Hg).
    { subst pos; discriminate. } { intros c Hc. apply Hin. auto. }
    exists r. split; auto. split; auto. split; [intros c; rewrite Hu; apply Hin|].
    intros j Hj. destruct (Hg j Hj) as [L Hs']. rewrite slice_app_l; auto.
    rewrite (Permutation_length Hperm), seq_length.
    enough (nth (S j) (sc_offsets r) 0 <= length pos) by lia.
    rewrite <- Hlast.
    clear -Hj Hg. destruct r as [u o p]. cbn [sc_unique sc_offsets sc_perm] in *.
    assert (G : forall k, S j + k <= length u -> nth (S j) o 0 <= nth (S j + k) o 0).
    { induction k as [|k IH]; intros Hk; [now rewrite Nat.add_0_r|].
      destruct (Hg (S j + k)) as [L _]; [lia|]. specialize (IH ltac:(lia)).
      replace (S j + S k) with (S (S j + k)) by lia. lia. }
    specialize (G (length u - S j) ltac:(lia)). replace (S j + (length u - S j)) with (length u) in G by lia. auto.
Qed.

(** ** Loops as writes *)
Section W.
Context {A : Type}.

Definition gwrites (nu : nat) (group : nat -> list nat) (nd bs : nat)
    (key : nat -> nat -> nat -> nat -> nat) (val : nat -> nat -> nat -> nat -> A) : list (nat * A) :=
  flat_map (fun j => flat_map (fun k => flat_map (fun p =>
    map (fun l => (key j k p l, val j k p l)) (seq 0 bs)) (group j)) (seq 0 nd)) (seq 0 nu).

Lemma gwrites_in nu group nd bs key val x v :
  In (x, v) (gwrites nu group nd bs key val) <->
  exists j k p l, j < nu /\ k < nd /\ In p (group j) /\ l < bs /\ x = key j k p l /\ v = val j k p l.
Proof.
  unfold gwrites. rewrite in_flat_map_seq. split.
  - intros (j & Hj & H). apply in_flat_map_seq in H. destruct H as (k & Hk & H).
    apply in_flat_map in H. destruct H as (p & Hp & H). apply in_map_iff in H.
    destruct H as (l & E & Hl). injection E as <- <-. apply in_seq in Hl. exists j, k, p, l. repeat split; auto. lia.
  - intros (j & k & p & l & Hj & Hk & Hp & Hl & -> & ->). exists j. split; auto.
    apply in_flat_map_seq. exists k. split; auto. apply in_flat_map. exists p. split; auto.
    apply in_map_iff. exists l. split; auto. apply in_seq. lia.
Qed.

Lemma inner_writes (group : nat -> list nat) nd bs j (key : nat -> nat -> nat -> nat -> nat)
    (val : nat -> nat -> nat -> nat -> A) (s : list A) :
  for_loop nd (fun k c => for_loop (length (group j)) (fun q c =>
     for_loop bs (fun l c => upd c (key j k (nth q (group j) 0) l) (val j k (nth q (group j) 0) l)) c) c) s
  = writes (flat_map (fun k => flat_map (fun p =>
      map (fun l => (key j k p l, val j k p l)) (seq 0 bs)) (group j)) (seq 0 nd)) s.
Proof.
  apply for_loop_writes. intros k s0 Hk.
  rewrite (for_loop_nth (group j) 0 (fun p c => for_loop bs (fun l c => upd c (key j k p l) (val j k p l)) c)).
  apply for_each_writes. intros p s1 Hp.
  assert (G : forall n s, for_loop n (fun l c => upd c (key j k p l) (val j k p l)) s
     = writes (map (fun l => (key j k p l, val j k p l)) (seq 0 n)) s).
  { induction n as [|n IH]; intros s'; auto. rewrite for_loop_S, IH, seq_S, map_app, writes_app. reflexivity. }
  apply G.
Qed.
End W.

Definition group_of (f_cells : list Z) (u : list Z) (j : nat) : list nat :=
  filter (fun p => Z.eqb (nth p (fst (positives f_cells)) 0%Z) (nth j u 0%Z))
         (seq 0 (length (fst (positives f_cells)))).

Section Facets.
Context {A : Type}.

Lemma test_facet_writes nq ml nd bs (basis : nat -> nat -> A) i f_cells c perm :
  exists u perm',
    StronglySorted Z.lt u /\ (forall x, In x u <-> (In x f_cells /\ (0 <= x)%Z)) /\
    test_facet nq ml nd bs basis i f_cells (c, perm) =
    Some (writes (gwrites (length u) (group_of f_cells u) nd bs
      (fun j k p l => (((i * ml + j) * nd + k) * nq + nth p (snd (positives f_cells)) 0) * bs + l)
      (fun j k p l => basis (i * nq + p) k)) c, perm').
Proof.
  unfold test_facet. cbn [fst snd].
  destruct (groups f_cells (firstn (length (fst (positives f_cells))) perm)
     (skipn (length (fst (positives f_cells))) perm)) as (r & E & Hs & Hu & Hg).
  rewrite E. eexists (sc_unique r), _. split; auto. split; auto. do 2 f_equal.
  set (key := fun j k p l => _). set (val := fun _ k p _ => _).
  unfold gwrites.
  match goal with |- snd (for_loop _ ?b _) = _ => set (body := b) end.
  enough (G : forall n, n <= length (sc_unique r) ->
    for_loop n body (0, c) = (n, writes (flat_map (fun j => flat_map (fun k => flat_map (fun p =>
       map (fun l => (key j k p l, val j k p l)) (seq 0 bs)) (group_of f_cells (sc_unique r) j)) (seq 0 nd)) (seq 0 n)) c)).
  { rewrite G by lia. reflexivity. }
  induction n as [|n IH]; intros Hn; auto.
  rewrite for_loop_S, IH by lia. unfold body at 1. cbn [fst snd]. rewrite Hg by lia. f_equal.
  rewrite seq_S, flat_map_app, writes_app. cbn [Nat.add flat_map]. rewrite app_nil_r.
  apply (inner_writes (group_of f_cells (sc_unique r)) nd bs n key val).
Qed.

Lemma grad_facet_writes nq ml nd gdim parent (grad : nat -> nat -> nat -> nat -> A) i f_cells c perm :
  exists u perm',
    StronglySorted Z.lt u /\ (forall x, In x u <-> (In x f_cells /\ (0 <= x)%Z)) /\
    grad_facet nq ml nd gdim parent grad i f_cells (c, perm) =
    Some (writes (gwrites (length u) (group_of f_cells u) nd gdim
      (fun j k p l => i * (nq * ml * nd * gdim) + j * nd * gdim * nq + k * gdim * nq + p * gdim + l)
      (fun j k p l => grad (nth (Z.to_nat (nth j u 0%Z)) parent 0) (i * nq + nth p (snd (positives f_cells)) 0) k l)) c, perm').
Proof.
  unfold grad_facet. cbn [fst snd].
  destruct (groups f_cells (firstn (length (fst (positives f_cells))) perm)
     (skipn (length (fst (positives f_cells))) perm)) as (r & E & Hs & Hu & Hg).
  rewrite E. eexists (sc_unique r), _. split; auto. split; auto. do 2 f_equal.
  set (key := fun j k p l => _). set (val := fun j k p l => _).
  unfold gwrites.
  match goal with |- snd (for_loop _ ?b _) = _ => set (body := b) end.
  enough (G : forall n, n <= length (sc_unique r) ->
    for_loop n body (0, c) = (n, writes (flat_map (fun j => flat_map (fun k => flat_map (fun p =>
       map (fun l => (key j k p l, val j k p l)) (seq 0 gdim)) (group_of f_cells (sc_unique r) j)) (seq 0 nd)) (seq 0 n)) c)).
  { rewrite G by lia. reflexivity. }
  induction n as [|n IH]; intros Hn; auto.
  rewrite for_loop_S, IH by lia. unfold body at 1. cbn [fst snd]. rewrite Hg by lia.
  destruct (Z.ltb_spec (nth n (sc_unique r) 0%Z) 0) as [L|_].
  { assert (In (nth n (sc_unique r) 0%Z) (sc_unique r)) as Hin by (apply nth_In; lia).
    apply Hu in Hin. lia. }
  f_equal. rewrite seq_S, flat_map_app, writes_app. cbn [Nat.add flat_map]. rewrite app_nil_r.
  apply (inner_writes (group_of f_cells (sc_unique r)) nd gdim n key val).
Qed.

(** Loop over facets where facet [i] writes only its own row of [stride]
    entries. *)
Lemma facet_loop nf stride (step : nat -> list A * list nat -> option (list A * list nat))
    (W : nat -> list (nat * A) -> Prop) c0 p0 :
  (forall i c p, i < nf -> exists ws p', W i ws /\ step i (c, p) = Some (writes ws c, p')) ->
  (forall i ws x v, i < nf -> W i ws -> In (x, v) ws -> i * stride <= x < i * stride + stride) ->
  exists c, option_map fst (for_loop nf (fun i st => match st with None => None | Some s => step i s end) (Some (c0, p0))) = Some c /\
    length c = length c0 /\
    forall i d, i < nf -> exists ws, W i ws /\
      forall x, i * stride <= x < i * stride + stride -> nth x c d = nth x (writes ws c0) d.
Proof.
  intros Hstep Hrow.
  set (body := fun i st => match st with None => None | Some s => step i s end).
  enough (G : forall n, n <= nf -> exists c p, for_loop n body (Some (c0, p0)) = Some (c, p) /\ length c = length c0 /\
     (forall i d, i < n -> exists ws, W i ws /\
      forall x, i * stride <= x < i * stride + stride -> nth x c d = nth x (writes ws c0) d) /\
     (forall x d, n * stride <= x -> nth x c d = nth x c0 d)).
  { destruct (G nf (le_n _)) as (c & p & E & Hl & Hc & _). exists c. rewrite E. auto. }
  induction n as [|n IH]; intros Hn.
  - exists c0, p0. repeat split; auto. intros i d Hi; lia.
  - destruct IH as (c & p & E & Hl & Hc & Hz); [lia|].
    destruct (Hstep n c p) as (ws & p' & HW & Es); [lia|].
    exists (writes ws c), p'. rewrite for_loop_S, E. unfold body at 1. rewrite Es.
    split; auto. split; [now rewrite writes_length|]. split.
    + intros i d Hi. destruct (Nat.eq_dec i n) as [->|Hne].
      * exists ws. split; auto. intros x Hx.
        assert (Hcx : forall d, nth x c d = nth x c0 d) by (intros; apply Hz; lia).
        clear -Hcx Hl Hx.
        revert c c0 Hcx Hl. induction ws as [|[y v] ws IHw]; intros c c0 Hcx Hl; [apply Hcx|].
        change (writes ((y, v) :: ws) c) with (writes ws (upd c y v)).
        change (writes ((y, v) :: ws) c0) with (writes ws (upd c0 y v)).
        apply IHw; [|now rewrite !upd_length]. intros d'. rewrite !nth_upd, Hl. destruct ((y =? x) && _); auto.
      * destruct (Hc i d) as (ws' & HW' & Hx'); [lia|]. exists ws'. split; auto. intros x Hx.
        rewrite writes_miss; auto. intros v Hin. pose proof (Hrow n ws x v ltac:(lia) HW Hin).
        assert (i < n) by lia. nia.
    + intros x d Hx. rewrite writes_miss; [apply Hz; nia|].
      intros v Hin. pose proof (Hrow n ws x v ltac:(lia) HW Hin). nia.
Qed.
End Facets.

Lemma radix a a' n b b' : b < n -> b' < n -> a * n + b = a' * n + b' -> a = a' /\ b = b'.
Proof.
  intros Hb Hb' E. assert (a = a') by nia. subst. split; auto. lia.
Qed.

Lemma radix_lt a m n b : a < m -> b < n -> a * n + b < m * n.
Proof. nia. Qed.
