(** Properties C12-C15: entity bookkeeping. *)
From Coq Require Import List Arith ZArith Lia Bool Permutation Sorted.
Import ListNotations.
From Verif Require Import Prelude PreludeLemmas Scatter SubMeshModel SubMeshProofs SubMeshProps
  EntitiesModel EntitiesProofs.

(** ** C13: active entities *)

(** Facet [f] is facet number [lf] of cell [c], its only cell. *)
Definition is_facet_of (f_to_c c_to_f : nat -> list nat) (f c lf : nat) : Prop :=
  f_to_c f = [c] /\ lf < length (c_to_f c) /\ nth lf (c_to_f c) 0 = f.

(** An exterior facet: one cell, which lists it. *)
Definition exterior (f_to_c c_to_f : nat -> list nat) (f : nat) : Prop :=
  exists c, f_to_c f = [c] /\ In f (c_to_f c).

Theorem C13_active_facets :
  forall (f_to_c c_to_f : nat -> list nat) (entities : list nat),
    (forall f, In f entities -> exterior f_to_c c_to_f f) ->
    exists (order : list nat) (pairs : list (nat * nat)),
      active_facets f_to_c c_to_f entities = flat2 pairs /\
      (* one pair per facet, in some order *)
      Permutation order entities /\ length pairs = length order /\
      (forall k, k < length pairs ->
         is_facet_of f_to_c c_to_f (nth k order 0) (fst (nth k pairs (0, 0))) (snd (nth k pairs (0, 0)))) /\
      (* sorted by cell *)
      sorted_by_cell pairs.
Proof.
  intros f_to_c c_to_f ents Hext.
  set (perm := argsort (fun i => fst (facet_pair f_to_c c_to_f (nth i ents 0))) (length ents)).
  exists (map (fun i => nth i ents 0) perm), (map (fun p => facet_pair f_to_c c_to_f (nth p ents 0)) perm).
  assert (Hperm : Permutation perm (seq 0 (length ents))) by apply argsort_perm.
  split; [apply active_facets_flat|]. split; [|split; [|split]].
  - rewrite (Permutation_map _ Hperm). rewrite map_nth_seq. auto.
  - now rewrite !map_length.
  - intros k Hk. rewrite map_length in Hk.
    rewrite (nth_map_lt _ perm k 0 0), (nth_map_lt _ perm k (0, 0) 0) by auto.
    set (f := nth (nth k perm 0) ents 0).
    assert (Hin : In f ents).
    { apply nth_In. assert (Hp : In (nth k perm 0) perm) by (apply nth_In; auto).
      apply (Permutation_in _ Hperm) in Hp. apply in_seq in Hp. lia. }
    destruct (Hext f Hin) as (c & E & Hc). unfold facet_pair, is_facet_of. rewrite E. cbn [hd fst snd].
    split; auto. apply find_index_spec. auto.
  - unfold sorted_by_cell. pose proof (argsort_sorted (fun i => fst (facet_pair f_to_c c_to_f (nth i ents 0))) (length ents)) as Hs.
    fold perm in Hs. clear -Hs. induction Hs as [|a l Hs IH Hf]; cbn; constructor; auto.
    apply Forall_forall. intros x Hx. apply in_map_iff in Hx. destruct Hx as (y & <- & Hy).
    rewrite Forall_forall in Hf. apply Hf; auto.
Qed.
Print Assumptions C13_active_facets.

Theorem C13_active_cells :
  forall entities : list nat,
    Permutation (active_cells entities) entities /\ StronglySorted le (active_cells entities).
Proof.
  intros ents. split; [apply isort_perm|].
  apply (StronglySorted_impl (fun a b => Nat.leb a b = true)); [intros a b; apply Nat.leb_le|].
  apply isort_sorted; intros a b; [|intros c]; rewrite !Nat.leb_le; lia.
Qed.
Print Assumptions C13_active_cells.

Lemma upper_bound_filter l x : StronglySorted le l -> upper_bound l x = length (filter (fun c => c <=? x) l).
Proof.
  induction 1 as [|a l Hs IH Hf]; auto. cbn [upper_bound filter].
  destruct (Nat.leb_spec a x); cbn [length]; [now rewrite IH|].
  rewrite filter_none; auto. intros b Hb. rewrite Forall_forall in Hf. apply Hf in Hb. apply Nat.leb_gt. lia.
Qed.

(** What the wrapper reports for cells: the number of entries up to and
    including [size_local]. *)
Theorem C13_local_cell_count_exact :
  forall (entities : list nat) (size_local : nat),
    count_local_cells (active_cells entities) size_local
    = length (filter (fun c => c <? size_local) entities) + length (filter (fun c => c =? size_local) entities).
Proof.
  intros ents n. unfold count_local_cells. rewrite upper_bound_filter by apply C13_active_cells.
  assert (G : forall l, length (filter (fun c => c <=? n) l) =
     length (filter (fun c => c <? n) l) + length (filter (fun c => c =? n) l)).
  { induction l as [|a l IH]; auto. cbn [filter].
    destruct (Nat.leb_spec a n), (Nat.ltb_spec a n), (Nat.eqb_spec a n); cbn [length]; lia. }
  rewrite <- G. apply Permutation_length.
  destruct (C13_active_cells ents) as [HP _]. revert HP. generalize (active_cells ents). intros l HP.
  induction HP; cbn [filter]; auto.
  - destruct (x <=? n); auto.
  - destruct (x <=? n), (y <=? n); auto. constructor.
  - etransitivity; eauto.
Qed.
Print Assumptions C13_local_cell_count_exact.

(** Hence correct when the first ghost cell is not among the entities. *)
Theorem C13_local_cell_count_partial :
  forall (entities : list nat) (size_local : nat), ~ In size_local entities ->
    count_local_cells (active_cells entities) size_local = length (filter (fun c => c <? size_local) entities).
Proof.
  intros ents n Hn. rewrite C13_local_cell_count_exact. rewrite (filter_none (fun c => c =? n)); [cbn; lia|].
  intros a Ha. apply Nat.eqb_neq. intros ->. auto.
Qed.
Print Assumptions C13_local_cell_count_partial.

Theorem C13_local_cell_count_refuted :
  exists (entities : list nat) (size_local : nat),
    NoDup entities /\
    count_local_cells (active_cells entities) size_local <> length (filter (fun c => c <? size_local) entities).
Proof.
  exists [3; 1; 2], 3. split; [|vm_compute; congruence].
  repeat constructor; cbn; intuition congruence.
Qed.
Print Assumptions C13_local_cell_count_refuted.

(** The facet branch of the wrapper is exact. *)
Theorem C13_local_facet_count :
  forall (f_to_c c_to_f : nat -> list nat) (entities : list nat) (size_local : nat),
    (forall f, In f entities -> exterior f_to_c c_to_f f) ->
    count_local (active_facets f_to_c c_to_f entities) size_local
    = length (filter (fun f => hd 0 (f_to_c f) <? size_local) entities).
Proof.
  intros f_to_c c_to_f ents n Hext.
  destruct (C13_active_facets f_to_c c_to_f ents Hext) as (order & pairs & E & HP & HL & HF & HS).
  rewrite E. destruct (count_local_spec pairs n HS) as (C1 & C2 & C3).
  destruct (prefix_count (fun p => fst p <? n) pairs _ (0, 0) C1) as [Hlen _].
  { intros i Hi. apply Nat.ltb_lt. auto. }
  { intros i Hi Hl. apply Nat.ltb_ge. auto. }
  rewrite <- Hlen.
  transitivity (length (filter (fun f => hd 0 (f_to_c f) <? n) order)).
  - assert (Em : map fst pairs = map (fun f => hd 0 (f_to_c f)) order).
    { apply (nth_ext' _ _ 0); rewrite !map_length; auto. intros i Hi.
      rewrite (nth_map_lt _ pairs i 0 (0, 0)), (nth_map_lt _ order i 0 0) by lia.
      destruct (HF i Hi) as (-> & _). reflexivity. }
    clear -Em. revert order Em. induction pairs as [|[c lf] ps IH]; intros [|f order] Em; cbn in Em; try discriminate; auto.
    injection Em as E1 E2. cbn [filter fst]. rewrite E1. destruct (hd 0 (f_to_c f) <? n); cbn [length]; f_equal; auto.
  - apply Permutation_length. clear -HP. induction HP; cbn [filter]; auto.
    + destruct (hd 0 (f_to_c x) <? n); auto.
    + destruct (hd 0 (f_to_c x) <? n), (hd 0 (f_to_c y) <? n); auto. constructor.
    + etransitivity; eauto.
Qed.
Print Assumptions C13_local_facet_count.

(** Two cells with facets [0;1;2] and [2;3;4]. *)
Example C13_example :
  let c_to_f := fun c => if c =? 0 then [0; 1; 2] else [2; 3; 4] in
  let f_to_c := fun f => if f <? 2 then [0] else if f =? 2 then [0; 1] else [1] in
  (forall f, In f [4; 0; 3] -> exterior f_to_c c_to_f f) /\
  active_facets f_to_c c_to_f [4; 0; 3] = flat2 [(0, 0); (1, 2); (1, 1)].
Proof.
  split; [|vm_compute; auto]. intros f [<-|[<-|[<-|[]]]].
  - exists 1. cbn. auto.
  - exists 0. cbn. auto.
  - exists 1. cbn. auto.
Qed.

(** ** C12: owned facets are a counted prefix *)
Theorem C12_local_facets_prefix :
  forall (pairs : list (nat * nat)) (num_cells : nat), sorted_by_cell pairs ->
    let m := count_local (flat2 pairs) num_cells in
    m = length (filter (fun p => fst p <? num_cells) pairs) /\
    forall i, i < length pairs -> (i < m <-> fst (nth i pairs (0, 0)) < num_cells).
Proof.
  intros pairs n HS m. destruct (count_local_spec pairs n HS) as (C1 & C2 & C3). fold m in C1, C2, C3.
  destruct (prefix_count (fun p => fst p <? n) pairs m (0, 0) C1) as [Hlen _].
  { intros i Hi. apply Nat.ltb_lt. auto. }
  { intros i Hi Hl. apply Nat.ltb_ge. auto. }
  split; auto. intros i Hi. split; auto. intros H.
  destruct (Nat.lt_ge_cases i m); auto. specialize (C3 i ltac:(auto) Hi). lia.
Qed.
Print Assumptions C12_local_facets_prefix.

(** For the rows the constructor builds from mesh tags (row [k] belongs to the
    [k]-th tag over all surfaces), the hypothesis holds. *)
Theorem C12_constructor_rows :
  forall (f_to_c c_to_f : nat -> list nat) (find : nat -> nat -> list nat) (surfaces : nat -> list nat)
         (num_markers num_cells k : nat),
    let tags := flat_map (fun s => map (fun t => (s, t)) (surfaces s)) (seq 0 num_markers) in
    (forall s t f, In (s, t) tags -> In f (find s t) -> exterior f_to_c c_to_f f) ->
    k < length tags ->
    let row := links (create_cell_facet_pairs f_to_c c_to_f find surfaces num_markers) k in
    let facets := find (fst (nth k tags (0, 0))) (snd (nth k tags (0, 0))) in
    row = active_facets f_to_c c_to_f facets /\
    exists pairs, row = flat2 pairs /\ length pairs = length facets /\ sorted_by_cell pairs /\
      let m := count_local row num_cells in
      m = length (filter (fun f => hd 0 (f_to_c f) <? num_cells) facets) /\
      forall i, i < length pairs -> (i < m <-> fst (nth i pairs (0, 0)) < num_cells).
Proof.
  intros f_to_c c_to_f find surfaces nm n k tags Hext Hk row facets.
  assert (Hrow : row = active_facets f_to_c c_to_f facets).
  { unfold row. rewrite create_pairs_rows. fold tags. rewrite links_concat by (now rewrite map_length).
    rewrite (nth_map_lt _ tags k [] (0, 0)) by auto. reflexivity. }
  split; auto. rewrite Hrow.
  assert (Hin : In (nth k tags (0, 0)) tags) by (apply nth_In; auto).
  assert (He : forall f, In f facets -> exterior f_to_c c_to_f f).
  { intros f Hf. eapply Hext; eauto. rewrite <- surjective_pairing. auto. }
  destruct (C13_active_facets f_to_c c_to_f facets He) as (order & pairs & E & HP & HL & HF & HS).
  exists pairs. split; auto. split; [rewrite HL; apply Permutation_length; auto|]. split; auto.
  cbn zeta. split; [apply C13_local_facet_count; auto|]. rewrite E. apply C12_local_facets_prefix. auto.
Qed.
Print Assumptions C12_constructor_rows.

Example C12_example : count_local (flat2 [(0, 0); (1, 2); (1, 1); (4, 0); (6, 1)]) 4 = 3.
Proof. vm_compute. reflexivity. Qed.

(** ** C14: sort_cells *)
Lemma sort_cells_some cells perm :
  cells <> [] -> (forall c, In c cells -> (0 <= c)%Z) ->
  let n := length cells in
  let p := isort (fun a b => Z.leb (nth a cells 0%Z) (nth b cells 0%Z)) (seq 0 n) in
  let sorted := map (fun i => nth (nth i p 0) cells 0%Z) (seq 0 n) in
  sort_cells cells perm = Some (mkSorted (unique Z.eqb sorted) (offs sorted) p).
Proof.
  intros Hne Hpos n p sorted. unfold sort_cells. fold n.
  assert (Hn : 0 < n) by (unfold n; destruct cells; [congruence|cbn; lia]).
  destruct (Nat.eqb_spec n 0); [lia|].
  assert (Hu : forall c, In c (unique Z.eqb cells) -> (0 <= c)%Z).
  { intros c Hc. apply Hpos. rewrite (unique_in Z.eqb Z.eqb_eq) in Hc. auto. }
  assert (H1 : (length (unique Z.eqb cells) =? 1) && Z.eqb (nth 0 (unique Z.eqb cells) 0%Z) (-1) = false).
  { apply andb_false_iff. right. apply Z.eqb_neq.
    destruct (unique Z.eqb cells) as [|c u] eqn:E; cbn; [lia|].
    specialize (Hu c). cbn in Hu. pose proof (Hu (or_introl eq_refl)). lia. }
  rewrite H1.
  assert (H2 : existsb (fun c => Z.ltb c 0) (unique Z.eqb cells) = false).
  { destruct (existsb _ _) eqn:E; auto. apply existsb_exists in E. destruct E as (c & Hc & L).
    apply Hu in Hc. apply Z.ltb_lt in L. lia. }
  rewrite H2. fold p. fold sorted. do 2 f_equal.
  assert (Hl : length sorted = n) by (unfold sorted; now rewrite map_length, seq_length).
  destruct (offsets_spec sorted) as (_ & Ho & _); [lia|]. rewrite Hl in Ho. rewrite Ho. unfold offs. rewrite Hl. auto.
Qed.

Theorem C14_sort_cells :
  forall (cells : list Z) (perm : list nat),
    cells <> [] -> (forall c, In c cells -> (0 <= c)%Z) ->
    exists r, sort_cells cells perm = Some r /\
      (* distinct cells, increasing *)
      StronglySorted Z.lt (sc_unique r) /\
      (forall c, In c (sc_unique r) <-> In c cells) /\
      (* one offset per cell and a final one *)
      length (sc_offsets r) = S (length (sc_unique r)) /\
      nth 0 (sc_offsets r) 0 = 0 /\ nth (length (sc_unique r)) (sc_offsets r) 0 = length cells /\
      Permutation (sc_perm r) (seq 0 (length cells)) /\
      (* group k lists exactly the positions of cell k *)
      forall k, k < length (sc_unique r) ->
        nth k (sc_offsets r) 0 < nth (S k) (sc_offsets r) 0 /\
        slice (sc_perm r) (nth k (sc_offsets r) 0) (nth (S k) (sc_offsets r) 0 - nth k (sc_offsets r) 0)
        = filter (fun i => Z.eqb (nth i cells 0%Z) (nth k (sc_unique r) 0%Z)) (seq 0 (length cells)).
Proof.
  intros cells perm Hne Hpos. eexists. split; [apply sort_cells_some; auto|].
  set (n := length cells).
  set (p := isort (fun a b => Z.leb (nth a cells 0%Z) (nth b cells 0%Z)) (seq 0 n)).
  set (sorted := map (fun i => nth (nth i p 0) cells 0%Z) (seq 0 n)).
  cbn [sc_unique sc_offsets sc_perm].
  assert (Hn : 0 < n) by (unfold n; destruct cells; [congruence|cbn; lia]).
  assert (Hl : length sorted = n) by (unfold sorted; now rewrite map_length, seq_length).
  assert (HP : Permutation p (seq 0 n)) by apply isort_perm.
  assert (Hpl : length p = n) by (rewrite (Permutation_length HP); apply seq_length).
  assert (Hsm : sorted = map (fun i => nth i cells 0%Z) p).
  { transitivity (map (fun i => nth i cells 0%Z) (map (fun i => nth i p 0) (seq 0 (length p)))).
    - rewrite Hpl, map_map. reflexivity.
    - now rewrite map_nth_seq. }
  assert (Hss : StronglySorted Z.le sorted).
  { rewrite Hsm.
    assert (Hp : StronglySorted (fun a b => (nth a cells 0 <= nth b cells 0)%Z) p).
    { apply (StronglySorted_impl (fun a b => Z.leb (nth a cells 0%Z) (nth b cells 0%Z) = true)).
      - intros a b; apply Z.leb_le.
      - apply isort_sorted; intros a b; [|intros c]; rewrite !Z.leb_le; lia. }
    clear -Hp. induction Hp as [|a l Hs IH Hf]; cbn; constructor; auto.
    apply Forall_forall. intros x Hx. apply in_map_iff in Hx. destruct Hx as (y & <- & Hy).
    rewrite Forall_forall in Hf. apply Hf; auto. }
  assert (Hn' : 0 < length sorted) by lia.
  destruct (offsets_spec sorted Hn') as (Hul & _ & Hu). rewrite Hl in Hul, Hu.
  split; [|split; [|split; [|split; [|split; [|split]]]]].
  - apply (StronglySorted_impl (fun x y => Z.le x y /\ x <> y)); [intros; lia|].
    apply unique_strict; auto; [intros a b; apply Z.eqb_eq|intros; lia].
  - intros c. rewrite (unique_in Z.eqb Z.eqb_eq). rewrite Hsm, in_map_iff. split.
    + intros (i & <- & Hi). apply (Permutation_in _ HP) in Hi. apply in_seq in Hi. apply nth_In. fold n. lia.
    + intros Hc. apply (In_nth _ _ 0%Z) in Hc. destruct Hc as (i & Hi & <-). exists i. split; auto.
      apply (Permutation_in _ (Permutation_sym HP)). apply in_seq. fold n in Hi. lia.
  - unfold offs. rewrite app_length. unfold starts. cbn [length]. rewrite map_length, Hl, Hul. lia.
  - reflexivity.
  - rewrite Hul, <- Hl. apply offs_last; auto.
  - exact HP.
  - intros k Hk. rewrite Hul in Hk.
    assert (Hk' : k <= length (bnds sorted (length sorted - 1))) by (rewrite Hl; lia).
    split; [apply offs_lt; auto|].
    assert (Hv : nth k (unique Z.eqb sorted) 0%Z = nth (nth k (offs sorted) 0) sorted 0%Z).
    { rewrite Hu. rewrite (nth_map_lt _ _ k 0%Z 0).
      - unfold offs. rewrite Hl. rewrite app_nth1; auto. unfold starts. cbn [length]. rewrite map_length. lia.
      - unfold starts. cbn [length]. rewrite map_length. lia. }
    symmetry. rewrite Hv. set (v := nth (nth k (offs sorted) 0) sorted 0%Z).
    rewrite <- (isort_filter (fun a b => Z.leb (nth a cells 0%Z) (nth b cells 0%Z))).
    2:{ intros a b Ha Hb. apply Z.eqb_eq in Ha, Hb. apply Z.leb_le. lia. }
    fold p. apply (filter_range _ p _ _ 0).
    + pose proof (offs_lt sorted Hn' k Hk'). lia.
    + rewrite Hpl, <- Hl. apply offs_le_n; auto. lia.
    + intros i Hi. rewrite Z.eqb_eq.
      assert (Es : nth (nth i p 0) cells 0%Z = nth i sorted 0%Z).
      { rewrite Hsm. rewrite (nth_map_lt _ p i 0%Z 0) by auto. auto. }
      rewrite Es. split.
      * intros E. apply group_outside; auto. lia.
      * intros [E1 E2]. unfold v. apply group_value; auto.
Qed.
Print Assumptions C14_sort_cells.

(** The remaining inputs: empty; all missing (-1); a mixture with a negative
    index raises. *)
Theorem C14_sort_cells_other :
  forall (cells : list Z) (perm : list nat),
    (cells = [] -> sort_cells cells perm = Some (mkSorted [] [0; 0] perm)) /\
    (cells <> [] -> (forall c, In c cells -> c = (-1)%Z) ->
       sort_cells cells perm = Some (mkSorted [(-1)%Z] [0; length cells] perm)) /\
    ((exists c, In c cells /\ (c < 0)%Z) -> (exists c, In c cells /\ c <> (-1)%Z) -> sort_cells cells perm = None).
Proof.
  intros cells perm. split; [intros ->; reflexivity|]. split.
  - intros Hne Hall.
    assert (Hu : unique Z.eqb cells = [(-1)%Z]).
    { destruct cells as [|c t]; [congruence|]. rewrite (Hall c) by (left; auto). cbn.
      assert (Ht : forall x, In x t -> x = (-1)%Z) by (intros; apply Hall; right; auto). clear Hall Hne.
      induction t as [|h t IH]; auto. cbn [unique_from].
      rewrite (Ht h) by (left; auto). rewrite Z.eqb_refl. apply IH. intros; apply Ht; right; auto. }
    unfold sort_cells. rewrite Hu. cbn [length nth Nat.eqb Z.eqb andb].
    destruct (Nat.eqb_spec (length cells) 0) as [E|_]; auto. destruct cells; [congruence|discriminate].
  - intros (c & Hc & Lc) (c' & Hc' & Nc'). unfold sort_cells.
    destruct (Nat.eqb_spec (length cells) 0) as [E|_]; [destruct cells; [contradiction|discriminate]|].
    assert (Hin : forall x, In x (unique Z.eqb cells) <-> In x cells) by (intros; apply (unique_in Z.eqb Z.eqb_eq)).
    assert (H1 : (length (unique Z.eqb cells) =? 1) && Z.eqb (nth 0 (unique Z.eqb cells) 0%Z) (-1) = false).
    { apply andb_false_iff. destruct (Nat.eqb_spec (length (unique Z.eqb cells)) 1) as [E|]; auto. right.
      apply Z.eqb_neq. apply Hin in Hc'. destruct (unique Z.eqb cells) as [|x [|y u]]; try discriminate.
      destruct Hc' as [->|[]]. cbn. auto. }
    rewrite H1.
    assert (H2 : existsb (fun c => Z.ltb c 0) (unique Z.eqb cells) = true).
    { apply existsb_exists. exists c. split; [apply Hin; auto|]. apply Z.ltb_lt. auto. }
    rewrite H2. auto.
Qed.
Print Assumptions C14_sort_cells_other.

Example C14_example :
  sort_cells [5; 2; 5; 9; 2]%Z [] = Some (mkSorted [2; 5; 9]%Z [0; 2; 4; 5] [1; 4; 0; 2; 3]).
Proof. vm_compute. reflexivity. Qed.

(** ** C15: linked cells *)
Lemma linked_cells_unfold fs fm pc :
  linked_cells fs fm pc =
  unique Nat.eqb (isort Nat.leb (map (fun f => nth (nth 0 (links fm (Z.to_nat f)) 0) pc 0) (filter (fun f => Z.leb 0 f) fs))).
Proof.
  unfold linked_cells.
  rewrite (for_each_append_if fs (fun f => Z.leb 0 f) (fun f => nth (nth 0 (links fm (Z.to_nat f)) 0) pc 0) []).
  reflexivity.
Qed.

(** Stated on the maps the submesh constructor builds: the linked cells are the
    parent cells of the pairs whose facets the quadrature points refer to. *)
Theorem C15_linked_cells :
  forall (num_cells num_facets : nat) (c_to_f : nat -> list nat) (pairs : list (nat * nat)) (qp_facets : list Z),
    (forall p, In p pairs -> fst p < num_cells) ->
    (forall p f, In p pairs -> on_facet pairs c_to_f p f -> f < num_facets) ->
    (* exterior facets: one input pair each *)
    (forall p p' f, In p pairs -> In p' pairs -> on_facet pairs c_to_f p f -> on_facet pairs c_to_f p' f -> p = p') ->
    (* the points refer to contact facets or are missing *)
    (forall f, In f qp_facets -> (0 <= f)%Z -> exists p, In p pairs /\ on_facet pairs c_to_f p (Z.to_nat f)) ->
    let linked := linked_cells qp_facets (facet_map num_cells num_facets c_to_f pairs) (parent_cells pairs) in
    StronglySorted lt linked /\
    (forall c, In c linked <->
       exists f lf, In f qp_facets /\ (0 <= f)%Z /\ In (c, lf) pairs /\ on_facet pairs c_to_f (c, lf) (Z.to_nat f)) /\
    length linked <= length qp_facets.
Proof.
  intros nc nf c_to_f pairs fs Hc Hf Hu Hfs linked. unfold linked. rewrite linked_cells_unfold.
  split; [apply sort_unique_nat_sorted|].
  destruct (C09_facet_map nc nf c_to_f pairs Hc Hf) as (_ & _ & H9).
  assert (Hval : forall f p, In p pairs -> on_facet pairs c_to_f p f ->
     nth (nth 0 (links (facet_map nc nf c_to_f pairs) f) 0) (parent_cells pairs) 0 = fst p).
  { intros f p Hp Ho. pose proof (sub_cell_ex nc pairs p Hc Hp) as Hs.
    rewrite (H9 p f _ Hp Ho Hs); [cbn [nth]; apply Hs|]. intros p' Hp' Ho'. eapply Hu; eauto. }
  split.
  - intros c. rewrite sort_unique_nat_in, in_map_iff. split.
    + intros (f & E & Hin). apply filter_In in Hin. destruct Hin as [Hin L]. apply Z.leb_le in L.
      destruct (Hfs f Hin L) as ([c' lf] & Hp & Ho). rewrite (Hval _ _ Hp Ho) in E. cbn in E. subst c'.
      exists f, lf. auto.
    + intros (f & lf & Hin & L & Hp & Ho). exists f. rewrite (Hval _ _ Hp Ho). split; auto.
      apply filter_In. split; auto. apply Z.leb_le. auto.
  - etransitivity; [apply unique_length|]. rewrite isort_length, map_length.
    clear. induction fs as [|h t IH]; cbn; auto. destruct (Z.leb 0 h); cbn; lia.
Qed.
Print Assumptions C15_linked_cells.

(** max_links(pair) bounds the number of linked cells of every facet. *)
Lemma unique_sort_map_inj_length (f : nat -> nat) (l : list nat) :
  length (unique Nat.eqb (isort Nat.leb (map f l))) <= length (unique Nat.eqb (isort Nat.leb l)).
Proof.
  set (u := unique Nat.eqb (isort Nat.leb l)).
  rewrite <- (map_length f u). apply NoDup_incl_length.
  - eapply StronglySorted_lt_NoDup; [|apply sort_unique_nat_sorted]. apply Nat.lt_irrefl.
  - intros x Hx. rewrite sort_unique_nat_in in Hx. apply in_map_iff in Hx. destruct Hx as (y & <- & Hy).
    apply in_map. apply sort_unique_nat_in. auto.
Qed.

Theorem C15_max_links_bound :
  forall (num_facets : nat) (qmap : nat -> list Z) (fm : adj nat) (pc : list nat) (i : nat),
    i < num_facets ->
    length (linked_cells (qmap i) fm pc) <= compute_max_links num_facets qmap fm.
Proof.
  intros nf qmap fm pc i Hi. unfold compute_max_links.
  set (cnt := fun i => length (unique Nat.eqb (isort Nat.leb (for_each (qmap i) (fun f acc =>
     if Z.leb 0 f then acc ++ [hd 0 (links fm (Z.to_nat f))] else acc) [])))).
  assert (G : forall n, i < n -> cnt i <= for_loop n (fun i m => Nat.max m (cnt i)) 0).
  { induction n as [|n IH]; intros Hn; [lia|]. rewrite for_loop_S.
    destruct (Nat.eq_dec i n) as [->|]; [lia|]. specialize (IH ltac:(lia)). lia. }
  specialize (G nf Hi). refine (Nat.le_trans _ _ _ _ G). unfold cnt.
  rewrite (for_each_append_if (qmap i) (fun f => Z.leb 0 f) (fun f => hd 0 (links fm (Z.to_nat f))) []).
  cbn [app]. rewrite linked_cells_unfold.
  replace (map (fun f => nth (nth 0 (links fm (Z.to_nat f)) 0) pc 0) (filter (fun f => (0 <=? f)%Z) (qmap i)))
    with (map (fun s => nth s pc 0) (map (fun f => hd 0 (links fm (Z.to_nat f))) (filter (fun f => (0 <=? f)%Z) (qmap i)))).
  - apply unique_sort_map_inj_length.
  - rewrite map_map. apply map_ext. intros f. destruct (links fm (Z.to_nat f)); reflexivity.
Qed.
Print Assumptions C15_max_links_bound.

Example C15_example :
  let pairs := [(7, 0); (2, 1)] in
  let c_to_f := fun s => if s =? 0 then [0; 1; 2] else [2; 3; 4] in
  linked_cells [2; -1; 1; 2]%Z (facet_map 9 5 c_to_f pairs) (parent_cells pairs) = [2; 7].
Proof. vm_compute. reflexivity. Qed.
