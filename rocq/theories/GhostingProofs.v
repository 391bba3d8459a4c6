From Coq Require Import List Arith ZArith QArith Lia Bool Permutation Sorted.
Import ListNotations.
From Verif Require Import Prelude PreludeLemmas PointCloudModel PointCloudSpec PointCloudProofs
  GhostingModel LexMatchProofs.
Local Open Scope nat_scope.

(** ** Gather *)
Lemma write_at_mid {A} (a b c : list A) d :
  length b = length d -> write_at (a ++ b ++ c) (length a) d = a ++ d ++ c.
Proof.
  intros H. unfold write_at.
  rewrite firstn_app, firstn_all, Nat.sub_diag. cbn [firstn]. rewrite app_nil_r.
  do 2 f_equal. rewrite skipn_app, skipn_all2 by lia. cbn.
  replace (length a + length d - length a) with (length d) by lia.
  rewrite skipn_app, skipn_all2 by lia. cbn.
  replace (length d - length b) with 0 by lia. reflexivity.
Qed.

Lemma concat_firstn_S {A} (l : list (list A)) i : i < length l ->
  concat (firstn (S i) l) = concat (firstn i l) ++ nth i l [].
Proof.
  intros H. rewrite (firstn_S_nth l i []) by auto. rewrite concat_app. cbn. now rewrite app_nil_r.
Qed.

Lemma concat_firstn_le {A} (l : list (list A)) i : length (concat (firstn i l)) <= length (concat l).
Proof.
  rewrite <- (firstn_skipn i l) at 2. rewrite concat_app, app_length. lia.
Qed.

Lemma gatherv_concat {A} (z : A) n displs send :
  n = length (concat send) ->
  (forall i, i < length send -> nth i displs 0 = length (concat (firstn i send))) ->
  gatherv z n displs send = concat send.
Proof.
  intros Hn Hd. unfold gatherv.
  assert (G : for_loop (length send) (fun i buf => write_at buf (nth i displs 0) (nth i send [])) (repeat z n)
          = concat (firstn (length send) send) ++ repeat z (n - length (concat (firstn (length send) send)))).
  { apply (for_loop_inv (fun i buf => buf = concat (firstn i send) ++ repeat z (n - length (concat (firstn i send))))).
    - cbn. now rewrite Nat.sub_0_r.
    - intros i buf Hi ->. rewrite Hd by auto.
      rewrite concat_firstn_S by auto.
      pose proof (concat_firstn_le send (S i)) as Hle. rewrite concat_firstn_S in Hle by auto.
      rewrite app_length in Hle |- *.
      set (a := concat (firstn i send)) in *. set (d := nth i send []) in *.
      replace (n - length a) with (length d + (n - (length a + length d))) by lia.
      rewrite repeat_app, write_at_mid by (now rewrite repeat_length).
      now rewrite app_assoc. }
  rewrite G, firstn_all, Hn, Nat.sub_diag. cbn. apply app_nil_r.
Qed.

Lemma last_nth {A} (l : list A) d : last l d = nth (length l - 1) l d.
Proof.
  induction l as [|a l IH]; cbn [last length]; auto.
  destruct l as [|b l]; auto. rewrite IH. cbn [length nth].
  replace (S (length l) - 1) with (length l) by lia.
  replace (S (S (length l)) - 1) with (S (length l)) by lia. reflexivity.
Qed.

Lemma last_psums l : last (psums l) 0 = sum_nat l.
Proof.
  rewrite last_nth, psums_length. replace (S (length l) - 1) with (length l) by lia. apply psums_last.
Qed.

Lemma psums_concat_nth {A} (l : list (list A)) i : i <= length l ->
  nth i (psums (map (@length A) l)) 0 = length (concat (firstn i l)).
Proof.
  intros H. rewrite psums_nth by (now rewrite map_length). rewrite length_concat, firstn_map. reflexivity.
Qed.

Lemma sum_nat_scale nv l : sum_nat (map (fun n => nv * n) l) = nv * sum_nat l.
Proof. unfold sum_nat. induction l; cbn [map fold_right]; [lia|]. rewrite IHl. lia. Qed.

Lemma psums_scaled nv l i : 0 < nv -> i <= length l ->
  nth i (psums (map (fun n => nv * n) l)) 0 / nv = nth i (psums l) 0.
Proof.
  intros Hnv H. rewrite !psums_nth by (try rewrite map_length; auto).
  rewrite firstn_map, sum_nat_scale. rewrite Nat.mul_comm. apply Nat.div_mul. lia.
Qed.

Lemma copy_to_all_spec nv indices values :
  0 < nv -> length values = length indices ->
  (forall i, i < length indices -> length (nth i indices []) = nv * length (nth i values [])) ->
  copy_to_all nv indices values = (concat indices, concat values).
Proof.
  intros Hnv Hlen Hsz. unfold copy_to_all.
  assert (E : map (@length Z) indices = map (fun n => nv * n) (map (@length Z) values)).
  { apply (nth_ext' _ _ 0); [now rewrite !map_length|].
    intros i Hi. rewrite map_length in Hi.
    rewrite map_map.
    rewrite (nth_indep _ 0 (length (@nil Z))) by (now rewrite map_length).
    rewrite map_nth.
    rewrite (nth_indep _ 0 (nv * length (@nil Z))) by (rewrite map_length; lia).
    rewrite (map_nth (fun x => nv * length x)). apply Hsz; auto. }
  f_equal.
  - apply gatherv_concat.
    + rewrite last_psums, length_concat. reflexivity.
    + intros i Hi. apply psums_concat_nth. lia.
  - apply gatherv_concat.
    + rewrite last_nth, map_length, psums_length, map_length.
      replace (S (length indices) - 1) with (length indices) by lia.
      rewrite (nth_indep _ 0 ((fun n => n / nv) 0)) by (rewrite map_length, psums_length, map_length; lia).
      rewrite (map_nth (fun n => n / nv)), E, psums_scaled by (rewrite ?map_length; lia).
      rewrite <- Hlen, psums_concat_nth by lia. now rewrite firstn_all.
    + intros i Hi.
      rewrite (nth_indep _ 0 ((fun n => n / nv) 0)) by (rewrite map_length, psums_length, map_length; lia).
      rewrite (map_nth (fun n => n / nv)), E, psums_scaled by (rewrite ?map_length; lia).
      apply psums_concat_nth. lia.
Qed.

(** ** Vertex keys *)
Lemma concat_length_const {A} nv (l : list (list A)) :
  (forall e, In e l -> length e = nv) -> length (concat l) = length l * nv.
Proof.
  induction l as [|a l IH]; cbn; intros H; auto.
  rewrite app_length, (H a) by auto. rewrite IH by auto. lia.
Qed.

Lemma entity_keys_spec nv ents :
  0 < nv -> (forall e, In e ents -> length e = nv) ->
  entity_keys nv ents = concat (map (isort zleb) ents).
Proof.
  intros Hnv Hl. unfold entity_keys.
  rewrite (concat_length_const nv) by auto. rewrite Nat.div_mul by lia.
  assert (G : for_loop (length ents) (sort_chunk nv) (concat ents) =
          concat (map (isort zleb) (firstn (length ents) ents)) ++ concat (skipn (length ents) ents)).
  { apply (for_loop_inv (fun i a => a = concat (map (isort zleb) (firstn i ents)) ++ concat (skipn i ents))).
    - reflexivity.
    - intros i a Hi ->.
      destruct (nth_split ents [] Hi) as (l1 & l2 & E & Hl1).
      set (e := nth i ents []) in *.
      assert (Ef : firstn i ents = l1).
      { rewrite E, firstn_app, Hl1, Nat.sub_diag. cbn. rewrite app_nil_r. rewrite <- Hl1. apply firstn_all. }
      assert (Ef' : firstn (S i) ents = l1 ++ [e]).
      { rewrite (firstn_S_nth ents i []) by auto. rewrite Ef. reflexivity. }
      assert (Es : skipn i ents = e :: l2).
      { rewrite E, skipn_app, Hl1, Nat.sub_diag, skipn_all2 by lia. reflexivity. }
      assert (Es' : skipn (S i) ents = l2).
      { rewrite E, skipn_app, skipn_all2 by lia.
        replace (S i - length l1) with 1 by lia. reflexivity. }
      rewrite Ef, Ef', Es, Es', map_app, concat_app. cbn [map concat app].
      assert (Hlen : length (concat (map (isort zleb) l1)) = i * nv).
      { rewrite (concat_length_const nv).
        - rewrite map_length. lia.
        - intros x Hx. apply in_map_iff in Hx. destruct Hx as (y & <- & Hy).
          rewrite isort_length. apply Hl. rewrite E. apply in_or_app. auto. }
      assert (He : length e = nv) by (apply Hl; rewrite E; apply in_or_app; right; left; auto).
      unfold sort_chunk. rewrite <- Hlen.
      replace (slice _ _ nv) with e by (rewrite <- He; symmetry; apply slice_app_mid).
      rewrite write_at_mid by (now rewrite isort_length).
      rewrite app_nil_r, app_assoc. reflexivity. }
  rewrite G, firstn_all, skipn_all. cbn. apply app_nil_r.
Qed.

Lemma slice_concat_const {A} nv (l : list (list A)) k :
  (forall e, In e l -> length e = nv) -> k < length l ->
  slice (concat l) (nv * k) nv = nth k l [].
Proof.
  intros Hl Hk. destruct (nth_split l [] Hk) as (l1 & l2 & E & Hl1).
  set (e := nth k l []) in *. rewrite E, concat_app. cbn [concat].
  assert (length (concat l1) = nv * k).
  { rewrite (concat_length_const nv); [lia|]. intros x Hx. apply Hl. rewrite E. apply in_or_app; auto. }
  assert (He : length e = nv) by (apply Hl; rewrite E; apply in_or_app; right; left; auto).
  rewrite <- H. rewrite <- He at 1. apply slice_app_mid.
Qed.

(** Sorting makes vertex keys equal exactly when the vertex lists are
    permutations of each other. *)
Lemma zleb_sorted l : StronglySorted (fun a b => zleb a b = true) (isort zleb l).
Proof.
  apply isort_sorted; unfold zleb.
  - intros a b. rewrite !Z.leb_le. lia.
  - intros a b c. rewrite !Z.leb_le. lia.
Qed.

Lemma sorted_perm_eq (a b : list Z) :
  StronglySorted (fun a b => zleb a b = true) a -> StronglySorted (fun a b => zleb a b = true) b ->
  Permutation a b -> a = b.
Proof.
  revert b; induction a as [|x a IH]; intros b Sa Sb P.
  - apply Permutation_nil in P. auto.
  - destruct b as [|y b]; [apply Permutation_sym, Permutation_nil in P; congruence|].
    inversion Sa as [|? ? Sa' Fa]; inversion Sb as [|? ? Sb' Fb]; subst.
    rewrite Forall_forall in Fa, Fb.
    assert (x = y).
    { assert (Hx : In x (y :: b)) by (eapply Permutation_in; [exact P|left; auto]).
      assert (Hy : In y (x :: a)) by (eapply Permutation_in; [apply Permutation_sym; exact P|left; auto]).
      destruct Hx as [|Hx]; auto. destruct Hy as [|Hy]; auto.
      apply Fb in Hx. apply Fa in Hy. unfold zleb in *. apply Z.leb_le in Hx, Hy. lia. }
    subst. f_equal. apply IH; auto. eapply Permutation_cons_inv; eauto.
Qed.

Lemma sort_key_eq a b : isort zleb a = isort zleb b <-> Permutation a b.
Proof.
  split; intros H.
  - rewrite <- (isort_perm zleb a), H. apply isort_perm.
  - apply sorted_perm_eq; try apply zleb_sorted.
    rewrite (isort_perm zleb a), H. symmetry. apply isort_perm.
Qed.

(** ** Ghost destinations *)
Section GhostProofs.
  Variable mids : list (list pt).
  Variable x_near : adj nat.
  Local Notation lens := (map (@length pt) mids).
  Local Notation nranks := (length mids).

  (** First global facet index of a rank. *)
  Definition start (q : nat) : nat := length (concat (firstn q mids)).

  Lemma offsets_nth q : q <= nranks -> nth q (offsets mids) 0 = start q.
  Proof.
    intros Hq. unfold offsets, offsets3, all_counts.
    rewrite (nth_indep _ 0 ((fun n => n / 3) 0)) by (rewrite map_length, psums_length, map_length; lia).
    rewrite (map_nth (fun i => i / 3)).
    replace (map (fun m : list pt => 3 * length m) mids) with (map (fun n => 3 * n) lens) by (now rewrite map_map).
    rewrite psums_scaled by (try rewrite map_length; lia).
    apply psums_concat_nth; auto.
  Qed.

  Lemma offsets_length : length (offsets mids) = S nranks.
  Proof. unfold offsets, offsets3, all_counts. now rewrite map_length, psums_length, map_length. Qed.

  Lemma start_mono a b : a <= b -> b <= nranks -> start a <= start b.
  Proof.
    intros Hab Hb. unfold start. rewrite <- !psums_concat_nth by lia.
    apply psums_mono; rewrite ?map_length; auto.
  Qed.

  Lemma start_S q : q < nranks -> start (S q) = start q + length (nth q mids []).
  Proof. intros. unfold start. rewrite concat_firstn_S by auto. apply app_length. Qed.

  Lemma start_0 : start 0 = 0. Proof. reflexivity. Qed.
  Lemma start_last : start nranks = length (concat mids).
  Proof. unfold start. now rewrite firstn_all. Qed.

  (** The owner lookup finds the rank whose index range contains [n]. *)
  Lemma owner_spec n q : q < nranks -> start q <= n < start (S q) -> owner mids n = q.
  Proof.
    intros Hq Hn. unfold owner.
    set (u := upper_bound (offsets mids) n).
    assert (Hu : u = S q); [|lia].
    pose proof (upper_bound_le (offsets mids) n) as Hle. fold u in Hle. rewrite offsets_length in Hle.
    destruct (Nat.lt_trichotomy u (S q)) as [C|[C|C]]; auto; exfalso.
    - assert (Hlt : u < length (offsets mids)) by (rewrite offsets_length; lia).
      pose proof (upper_bound_at (offsets mids) n Hlt) as Ha. fold u in Ha.
      rewrite offsets_nth in Ha by lia.
      pose proof (start_mono u q ltac:(lia) ltac:(lia)). lia.
    - pose proof (upper_bound_below (offsets mids) n (S q) C) as Hb.
      rewrite offsets_nth in Hb by lia. lia.
  Qed.

  Lemma owner_exists n : n < length (concat mids) -> exists q, q < nranks /\ start q <= n < start (S q).
  Proof.
    intros Hn. rewrite <- start_last in Hn.
    assert (G : forall m, m <= nranks -> n < start m -> exists q, q < m /\ start q <= n < start (S q)).
    { induction m as [|m IH]; intros Hm Hlt; [rewrite start_0 in Hlt; lia|].
      destruct (Nat.lt_ge_cases n (start m)) as [C|C].
      - destruct (IH ltac:(lia) C) as (q & ? & ?). exists q. split; auto.
      - exists m. auto. }
    apply G; auto.
  Qed.

  (** The processes collected for one facet. *)
  Lemma add_proc_spec p pr n :
    StronglySorted lt pr ->
    StronglySorted lt (add_proc mids p pr n) /\
    (forall q, In q (add_proc mids p pr n) <-> In q pr \/ (q = owner mids n /\ q <> p)).
  Proof.
    intros HS. unfold add_proc. destruct (Nat.eqb_spec (owner mids n) p) as [E|E]; cbn [negb].
    - split; auto. intros q. split; [auto|]. intros [|[-> C]]; [auto|contradiction].
    - destruct (existsb (Nat.eqb (owner mids n)) pr) eqn:Ex.
      + split; auto. intros q. split; auto. intros [|[-> C]]; auto.
        apply existsb_exists in Ex. destruct Ex as (y & Hy & Ey). apply Nat.eqb_eq in Ey. congruence.
      + assert (Hn : ~ In (owner mids n) pr).
        { intros C. assert (existsb (Nat.eqb (owner mids n)) pr = true); [|congruence].
          apply existsb_exists. exists (owner mids n). split; auto. apply Nat.eqb_refl. }
        split.
        * assert (HS' : StronglySorted (fun a b => (a <=? b) = true) (isort Nat.leb (pr ++ [owner mids n]))).
          { apply isort_sorted; intros; rewrite ?Nat.leb_le in *; lia. }
          assert (ND : NoDup (isort Nat.leb (pr ++ [owner mids n]))).
          { eapply Permutation_NoDup; [apply Permutation_sym, isort_perm|].
            apply NoDup_app_intro.
            - eapply StronglySorted_lt_NoDup; [|eauto]. intros; lia.
            - constructor; [auto|constructor].
            - intros z Hz [<-|[]]. auto. }
          clear -HS' ND. induction HS' as [|a l Hs IH Hf]; constructor.
          -- apply IH. inversion ND; auto.
          -- inversion ND as [|? ? Hn Hd]; subst. rewrite Forall_forall in *. intros y Hy.
             specialize (Hf y Hy). apply Nat.leb_le in Hf.
             assert (a <> y) by (intros ->; auto). lia.
        * intros q. rewrite isort_in, in_app_iff. cbn. split; [intros [|[<-|[]]]; auto|]. intros [|[-> _]]; auto.
  Qed.

  Lemma facet_procs_spec p i :
    StronglySorted lt (facet_procs mids x_near p i) /\
    (forall q, In q (facet_procs mids x_near p i) <->
       q <> p /\ exists n, In n (links x_near i) /\ owner mids n = q).
  Proof.
    unfold facet_procs.
    apply (for_each_inv (fun done pr => StronglySorted lt pr /\
      (forall q, In q pr <-> q <> p /\ exists n, In n done /\ owner mids n = q))).
    - split; [constructor|]. intros q. cbn. split; [tauto|]. intros (_ & n & [] & _).
    - intros done n rest pr _ [HS HI]. destruct (add_proc_spec p pr n HS) as [HS' HI'].
      split; auto. intros q. rewrite HI', HI. split.
      + intros [(H & m & Hm & E)|[-> H]]; split; auto.
        * exists m. split; auto. apply in_or_app; auto.
        * exists n. split; auto. apply in_or_app; right; left; auto.
      + intros (H & m & Hm & E). apply in_app_or in Hm. destruct Hm as [Hm|[<-|[]]]; eauto.
  Qed.

  (** The block written for one rank: offsets followed by the rows. *)
  Local Notation row := (facet_procs mids x_near).
  Definition rows (p i0 n : nat) : list (list nat) := map (fun j => row p (i0 + j)) (seq 0 n).
  Definition block (p i0 n : nat) : list nat :=
    psums (map (@length nat) (rows p i0 n)) ++ concat (rows p i0 n).

  Lemma rows_S p i0 n : rows p i0 (S n) = rows p i0 n ++ [row p (i0 + n)].
  Proof. unfold rows. rewrite seq_S, map_app. reflexivity. Qed.
  Lemma rows_length p i0 n : length (rows p i0 n) = n.
  Proof. unfold rows. now rewrite map_length, seq_length. Qed.

  Lemma resize_spec l n : length (resize l n) = n /\ (0 < n -> nth 0 l 0 = 0 -> nth 0 (resize l n) 0 = 0).
  Proof.
    unfold resize. rewrite app_length, firstn_length, repeat_length. split; [lia|].
    intros Hn H. destruct n; [lia|]. destruct l; cbn; auto.
  Qed.

  Lemma facet_loop p n i0 nb :
    length nb = n + 1 -> nth 0 nb 0 = 0 ->
    for_loop n (facet_step mids x_near p n) (i0, nb) = (i0 + n, block p i0 n).
  Proof.
    intros Hl H0.
    assert (G : let r := for_loop n (facet_step mids x_near p n) (i0, nb) in
      fst r = i0 + n /\
      exists off, snd r = off ++ concat (rows p i0 n) /\ length off = n + 1 /\
        forall k, k <= n -> nth k off 0 = nth k (psums (map (@length nat) (rows p i0 n))) 0).
    { apply (for_loop_inv (fun j r => fst r = i0 + j /\
        exists off, snd r = off ++ concat (rows p i0 j) /\ length off = n + 1 /\
        forall k, k <= j -> nth k off 0 = nth k (psums (map (@length nat) (rows p i0 j))) 0)).
      - cbn. split; [lia|]. exists nb. rewrite app_nil_r. split; auto. split; auto.
        intros k Hk. replace k with 0 by lia. cbn. auto.
      - intros j [i nbr] Hj (Hi & off & E & Ho & Hk). cbn [fst snd] in *. subst i nbr.
        cbn [facet_step fst snd]. split; [lia|].
        rewrite rows_S, concat_app. cbn [concat]. rewrite app_nil_r.
        set (r := row p (i0 + j)). set (L := (off ++ concat (rows p i0 j)) ++ r).
        exists (upd off (j + 1) (length L - (n + 1))). split; [|split].
        + unfold L. rewrite <- app_assoc. set (tl := concat (rows p i0 j) ++ r).
          assert (U : forall v, upd (off ++ tl) (j + 1) v = upd off (j + 1) v ++ tl).
          { intros v. assert (Hlt : j + 1 < length off) by lia. revert Hlt. generalize (j + 1). clear.
            induction off as [|a off IH]; intros [|m] H; cbn in *; try lia; auto. f_equal. apply IH. lia. }
          apply U.
        + now rewrite upd_length.
        + intros k Hkj. rewrite map_app. cbn [map]. rewrite psums_snoc.
          assert (Hpl : length (psums (map (@length nat) (rows p i0 j))) = j + 1).
          { rewrite psums_length, map_length, rows_length. lia. }
          destruct (Nat.eq_dec k (j + 1)) as [->|Hne].
          * rewrite nth_upd_same by lia. rewrite app_nth2 by lia. rewrite Hpl, Nat.sub_diag. cbn [nth].
            unfold L. rewrite !app_length, length_concat. lia.
          * rewrite nth_upd_other by lia. rewrite app_nth1 by lia. apply Hk. lia. }
    destruct (for_loop n (facet_step mids x_near p n) (i0, nb)) as [i nbr].
    cbn [fst snd] in G. destruct G as (-> & off & -> & Ho & Hk). f_equal. unfold block. f_equal.
    apply (nth_ext' _ _ 0).
    - rewrite psums_length, map_length, rows_length. lia.
    - intros k Hlt. apply Hk. lia.
  Qed.

  Definition nf (p : nat) : nat := length (nth p mids []).

  Lemma nf_counts p : nth p (all_counts mids) 0 / 3 = nf p.
  Proof.
    unfold all_counts, nf.
    assert (E : nth p (map (fun m : list pt => 3 * length m) mids) 0 = 3 * length (nth p mids [])).
    { exact (map_nth (fun m : list pt => 3 * length m) mids [] p). }
    rewrite E.
    rewrite Nat.mul_comm. apply Nat.div_mul. lia.
  Qed.

  Definition blocks (m : nat) : list (list nat) := map (fun p => block p (start p) (nf p)) (seq 0 m).

  Lemma block_hd p i0 n : nth 0 (block p i0 n) 0 = 0.
  Proof.
    unfold block. rewrite app_nth1 by (rewrite psums_length; lia). apply psums_0.
  Qed.

  Lemma blocks_S m : blocks (S m) = blocks m ++ [block m (start m) (nf m)].
  Proof. unfold blocks. rewrite seq_S, map_app. reflexivity. Qed.

  Lemma root_spec :
    let r := root_result mids x_near in
    rs_procs r = concat (blocks nranks) /\ rs_off r = psums (map (@length nat) (blocks nranks)).
  Proof.
    unfold root_result.
    assert (G : let r := for_loop nranks (proc_step mids x_near) (mkRoot 0 [] [] [0]) in
       rs_i r = start nranks /\ nth 0 (rs_nbr r) 0 = 0 /\
       rs_procs r = concat (blocks nranks) /\ rs_off r = psums (map (@length nat) (blocks nranks))).
    { apply (for_loop_inv (fun m r => rs_i r = start m /\ nth 0 (rs_nbr r) 0 = 0 /\
        rs_procs r = concat (blocks m) /\ rs_off r = psums (map (@length nat) (blocks m)))).
      - cbn. auto.
      - intros p r Hp (Hi & Hz & Hpr & Hof). unfold proc_step. rewrite nf_counts.
        destruct (resize_spec (rs_nbr r) (nf p + 1)) as [R1 R2].
        rewrite facet_loop by (auto; apply R2; auto; lia).
        cbn [rs_i rs_nbr rs_procs rs_off]. rewrite Hi, Hpr, Hof.
        split; [|split; [|split]].
        + rewrite start_S by auto. reflexivity.
        + apply block_hd.
        + rewrite blocks_S, concat_app. cbn. now rewrite app_nil_r.
        + rewrite blocks_S, map_app. cbn [map]. rewrite psums_snoc. f_equal.
          rewrite app_length, length_concat. reflexivity. }
    cbn in G. tauto.
  Qed.

  Lemma ghost_links p j : p < nranks -> j < nf p ->
    links (ghost_destinations mids x_near p) j = row p (start p + j).
  Proof.
    intros Hp Hj. unfold ghost_destinations. destruct root_spec as [-> ->].
    assert (Hb : nth p (blocks nranks) [] = block p (start p) (nf p)).
    { unfold blocks. rewrite (nth_indep _ [] (block 0 (start 0) (nf 0))) by (now rewrite map_length, seq_length).
      rewrite (map_nth (fun p => block p (start p) (nf p))), seq_nth by auto. reflexivity. }
    assert (Hbl : length (blocks nranks) = nranks) by (unfold blocks; now rewrite map_length, seq_length).
    rewrite psums_step by (rewrite map_length; lia).
    match goal with |- context [?a + ?b - ?a] => replace (a + b - a) with b by lia end.
    replace (nth p (map (@length nat) (blocks nranks)) 0) with (length (nth p (blocks nranks) [])).
    2:{ change (length (nth p (blocks nranks) []) = nth p (map (@length nat) (blocks nranks)) (length (@nil nat))).
        now rewrite map_nth. }
    rewrite concat_slice by lia. rewrite Hb. fold (nf p). unfold block.
    set (rw := rows p (start p) (nf p)).
    assert (Hl : length (psums (map (@length nat) rw)) = nf p + 1).
    { rewrite psums_length, map_length. unfold rw. rewrite rows_length. lia. }
    rewrite <- Hl, firstn_app, firstn_all, Nat.sub_diag, skipn_app, skipn_all, Nat.sub_diag.
    cbn [firstn skipn app]. rewrite app_nil_r.
    rewrite links_concat by (unfold rw; now rewrite rows_length).
    unfold rw, rows.
    rewrite (nth_indep _ [] (row p (start p + 0))) by (now rewrite map_length, seq_length).
    rewrite (map_nth (fun j => row p (start p + j))), seq_nth by auto. reflexivity.
  Qed.

  (** Bounds of the size loop on each rank. *)
  Lemma dsizes_root : exists ds, dsizes_on mids x_near 0 = Some ds /\ length ds = nranks.
  Proof.
    unfold dsizes_on, nbr_offsets_on. cbn [Nat.eqb]. destruct root_spec as [_ ->].
    assert (Hl : length (psums (map (@length nat) (blocks nranks))) = S nranks).
    { rewrite psums_length, map_length. unfold blocks. now rewrite map_length, seq_length. }
    set (o := psums _) in *.
    apply (for_loop_inv (fun m r => exists ds, r = Some ds /\ length ds = m)).
    - exists []. auto.
    - intros i r Hi (ds & -> & Hd).
      destruct (nth_error o (i + 1)) eqn:E1; [|apply nth_error_None in E1; lia].
      destruct (nth_error o i) eqn:E2; [|apply nth_error_None in E2; lia].
      eexists. split; [reflexivity|]. rewrite app_length. cbn. lia.
  Qed.

  Lemma dsizes_other rank : rank <> 0 -> 0 < nranks -> dsizes_on mids x_near rank = None.
  Proof.
    intros Hr Hn. unfold dsizes_on, nbr_offsets_on.
    destruct (Nat.eqb_spec rank 0); [contradiction|].
    assert (G : forall m, 0 < m -> for_loop m
       (fun i acc => match acc, nth_error [0] (i + 1), nth_error [0] i with
                    | Some ds, Some hi, Some lo => Some (ds ++ [hi - lo])
                    | _, _, _ => None end) (Some []) = None).
    { intros m Hm. destruct m; [lia|]. clear Hm. induction m as [|m IH].
      - reflexivity.
      - rewrite for_loop_S, IH. reflexivity. }
    apply G; auto.
  Qed.
End GhostProofs.

(** ** Destination map and partitioner *)
Lemma map_find_set m k v k' : map_find (map_set m k v) k' = if k' =? k then Some v else map_find m k'.
Proof.
  induction m as [|[a b] m IH]; cbn.
  - reflexivity.
  - destruct (Nat.eqb_spec k a); cbn.
    + subst. destruct (Nat.eqb_spec k' a); auto.
    + rewrite IH. destruct (Nat.eqb_spec k' a); destruct (Nat.eqb_spec k' k); auto. congruence.
Qed.

(** The destination list stored for a cell is the one of the last facet
    attached to it. *)
Lemma cell_to_dests_spec fcell subset cd c :
  (forall i, i < length subset -> fcell (nth i subset 0) = c ->
     (forall j, i < j -> j < length subset -> fcell (nth j subset 0) <> c) ->
     map_find (cell_to_dests fcell subset cd) c = Some (links cd i)) /\
  ((forall i, i < length subset -> fcell (nth i subset 0) <> c) ->
     map_find (cell_to_dests fcell subset cd) c = None).
Proof.
  unfold cell_to_dests. rewrite map_length.
  assert (Hnth : forall i, i < length subset -> nth i (map fcell subset) 0 = fcell (nth i subset 0)).
  { intros i Hi. rewrite (nth_indep _ 0 (fcell 0)) by (now rewrite map_length). apply map_nth. }
  assert (G : let m := for_loop (length subset) (fun i m => map_set m (nth i (map fcell subset) 0) (links cd i)) [] in
     (forall i, i < length subset -> fcell (nth i subset 0) = c ->
       (forall j, i < j -> j < length subset -> fcell (nth j subset 0) <> c) ->
       map_find m c = Some (links cd i)) /\
     ((forall i, i < length subset -> fcell (nth i subset 0) <> c) -> map_find m c = None)); [|exact G].
  apply (for_loop_inv (fun n m =>
     (forall i, i < n -> fcell (nth i subset 0) = c ->
       (forall j, i < j -> j < n -> fcell (nth j subset 0) <> c) ->
       map_find m c = Some (links cd i)) /\
     ((forall i, i < n -> fcell (nth i subset 0) <> c) -> map_find m c = None))).
  - split; [intros; lia|reflexivity].
  - intros n m Hn [H1 H2]. split.
    + intros i Hi E Hlast. rewrite map_find_set, Hnth by auto.
      destruct (Nat.eqb_spec c (fcell (nth n subset 0))) as [Ec|Ec].
      * destruct (Nat.eq_dec i n) as [->|Hne]; auto.
        exfalso. apply (Hlast n); auto; lia.
      * assert (i <> n) by (intros ->; auto). apply H1; [lia|auto|]. intros j Hj1 Hj2. apply Hlast; lia.
    + intros Hno. rewrite map_find_set, Hnth by auto.
      destruct (Nat.eqb_spec c (fcell (nth n subset 0))) as [Ec|Ec].
      * exfalso. apply (Hno n); auto.
      * apply H2. intros; apply Hno; lia.
Qed.

Lemma partitioner_links rank ncells c2d c : c < ncells ->
  links (partitioner rank ncells c2d) c =
  rank :: match map_find c2d c with Some l => l | None => [] end.
Proof.
  intros Hc. unfold partitioner.
  set (r := fun c => rank :: match map_find c2d c with Some l => l | None => [] end).
  match goal with |- context [for_loop ncells ?f ([], [0])] => set (F := f) end.
  assert (G : for_loop ncells F ([], [0]) =
     (concat (map r (seq 0 ncells)), psums (map (@length nat) (map r (seq 0 ncells))))).
  { apply (for_loop_inv (fun m st => st = (concat (map r (seq 0 m)), psums (map (@length nat) (map r (seq 0 m)))))); auto.
    intros i st Hi ->. unfold F. cbv beta iota zeta.
    set (X := concat (map r (seq 0 i))).
    assert (D : match map_find c2d i with Some l => (X ++ [rank]) ++ l | None => X ++ [rank] end = X ++ r i).
    { unfold r. destruct (map_find c2d i); auto. now rewrite <- app_assoc. }
    rewrite D, seq_S, !map_app, concat_app. cbn [map concat Nat.add]. rewrite app_nil_r, psums_snoc.
    fold X. f_equal. f_equal. f_equal. unfold X. rewrite app_length, length_concat. reflexivity. }
  rewrite G, links_concat by (now rewrite map_length, seq_length).
  rewrite (nth_indep _ [] (r 0)) by (now rewrite map_length, seq_length).
  rewrite map_nth, seq_nth by auto. reflexivity.
Qed.
