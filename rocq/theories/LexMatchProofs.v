From Coq Require Import List Arith ZArith Lia Bool Permutation Sorted.
Import ListNotations.
From Verif Require Import Prelude PreludeLemmas GhostingModel.
Local Open Scope nat_scope.

(** ** Lexicographic order *)
Lemma zlist_eqb_spec a b : zlist_eqb a b = true <-> a = b.
Proof.
  revert b; induction a as [|x a IH]; intros [|y b]; cbn; split; intros H; try congruence; auto.
  - apply andb_true_iff in H. destruct H as [H1 H2]. apply Z.eqb_eq in H1. apply IH in H2. congruence.
  - inversion H; subst. rewrite Z.eqb_refl. cbn. apply IH; auto.
Qed.

Lemma lex_lt_irrefl a : lex_lt a a = false.
Proof. induction a; cbn; auto. rewrite Z.ltb_irrefl. auto. Qed.

Lemma lex_lt_trans a b c : lex_lt a b = true -> lex_lt b c = true -> lex_lt a c = true.
Proof.
  revert b c; induction a as [|x a IH]; intros [|y b] [|z c]; cbn; intros H1 H2; try congruence; auto.
  destruct (Z.ltb_spec x y); destruct (Z.ltb_spec y x); destruct (Z.ltb_spec y z);
    destruct (Z.ltb_spec z y); destruct (Z.ltb_spec x z); destruct (Z.ltb_spec z x);
    try congruence; try lia; auto.
  eapply IH; eauto.
Qed.

Lemma lex_total a b : lex_lt a b = false -> lex_lt b a = false -> a = b.
Proof.
  revert b; induction a as [|x a IH]; intros [|y b]; cbn; intros H1 H2; try congruence; auto.
  destruct (Z.ltb_spec x y); destruct (Z.ltb_spec y x); try congruence; try lia.
  f_equal; [lia|]. apply IH; auto.
Qed.

Lemma lex_lt_asym a b : lex_lt a b = true -> lex_lt b a = false.
Proof.
  intros H. destruct (lex_lt b a) eqn:E; auto.
  pose proof (lex_lt_trans _ _ _ H E). rewrite lex_lt_irrefl in H0. congruence.
Qed.

(** a < b <= c implies a < c. *)
Lemma lex_lt_le_trans a b c : lex_lt a b = true -> lex_lt c b = false -> lex_lt a c = true.
Proof.
  intros H1 H2. destruct (lex_lt b c) eqn:E; [eapply lex_lt_trans; eauto|].
  rewrite <- (lex_total _ _ E H2). auto.
Qed.

Lemma lex_lt_neq a b : lex_lt a b = true -> a <> b.
Proof. intros H ->. rewrite lex_lt_irrefl in H. congruence. Qed.

(** ** The merge *)
Section Merge.
  Variables (dim : nat) (local_indices in_indices in_values : list Z) (p_local p_in : list nat).
  Local Notation lkey := (lkey dim local_indices).
  Local Notation ikey := (ikey dim in_indices).
  Local Notation nL := (length p_local).
  Local Notation nI := (length p_in).
  Definition kL j := lkey (nth j p_local 0).
  Definition kI i := ikey (nth i p_in 0).

  Hypothesis SL : forall a b, a < b -> b < nL -> lex_lt (kL b) (kL a) = false.
  Hypothesis SI : forall a b, a < b -> b < nI -> lex_lt (kI b) (kI a) = false.
  Hypothesis DL : forall a b, a < nL -> b < nL -> kL a = kL b -> a = b.

  Local Notation merge := (lex_merge dim local_indices in_indices in_values p_local p_in).

  Definition entry (j i : nat) : nat * Z := (nth j p_local 0, nth (nth i p_in 0) in_values 0%Z).

  Lemma merge_spec fuel : forall i j acc,
    (nI - i) + (nL - j) <= fuel ->
    (forall i' j', i' < i -> i' < nI -> j <= j' -> j' < nL -> kI i' <> kL j') ->
    exists res,
      merge fuel i j acc = acc ++ res /\
      (exists js, map fst res = map (fun j => nth j p_local 0) js /\
                  StronglySorted lt js /\ (forall j', In j' js -> j <= j' < nL)) /\
      (forall m, In m res -> exists j' i', j <= j' < nL /\ i' < nI /\ kI i' = kL j' /\ m = entry j' i') /\
      (forall j' i', j <= j' < nL -> i' < nI -> kI i' = kL j' -> In (nth j' p_local 0) (map fst res)).
  Proof.
    induction fuel as [|fuel IH]; intros i j acc Hf Hinv.
    - exists []. cbn. rewrite app_nil_r. split; [auto|]. split; [|split].
      + exists []. cbn. repeat split; auto using SSorted_nil; tauto.
      + tauto.
      + intros; lia.
    - cbn [lex_merge].
      destruct (Nat.ltb_spec i nI) as [Hi|Hi]; [destruct (Nat.ltb_spec j nL) as [Hj|Hj]|]; cbn [andb].
      + fold (kI i) (kL j). destruct (zlist_eqb (kI i) (kL j)) eqn:E; [|destruct (lex_lt (kI i) (kL j)) eqn:E'].
        * apply zlist_eqb_spec in E.
          destruct (IH (S i) (S j) (acc ++ [entry j i])) as (res & R1 & (js & R2 & R3 & R4) & R5 & R6); [lia| |].
          { intros i' j' Hi' Hi'' Hj' Hj''. destruct (Nat.eq_dec i' i) as [->|].
            - rewrite E. intros C. apply DL in C; lia.
            - apply Hinv; lia. }
          exists (entry j i :: res). split; [unfold entry in *; rewrite R1, <- app_assoc; reflexivity|].
          split; [|split].
          -- exists (j :: js). cbn. rewrite R2. split; [reflexivity|]. split.
             ++ constructor; auto. apply Forall_forall. intros y Hy. apply R4 in Hy. lia.
             ++ intros j' [<-|Hin]; [lia|]. apply R4 in Hin. lia.
          -- intros m [<-|Hm].
             ++ exists j, i. repeat split; auto; lia.
             ++ destruct (R5 m Hm) as (j' & i' & ? & ? & ? & ?). exists j', i'. repeat split; auto; lia.
          -- intros j' i' Hj' Hi' Ek. cbn. destruct (Nat.eq_dec j' j) as [->|]; [auto|].
             right. apply (R6 j' i'); auto; lia.
        * destruct (IH (S i) j acc) as (res & R1 & R2 & R5 & R6); [lia| |].
          { intros i' j' Hi' Hi'' Hj' Hj''. destruct (Nat.eq_dec i' i) as [->|].
            - apply lex_lt_neq. destruct (Nat.eq_dec j' j) as [->|]; auto.
              eapply lex_lt_le_trans; eauto. apply SL; lia.
            - apply Hinv; lia. }
          exists res. auto.
        * destruct (IH i (S j) acc) as (res & R1 & (js & R2 & R3 & R4) & R5 & R6); [lia| |].
          { intros i' j' Hi' Hi'' Hj' Hj''. apply Hinv; lia. }
          assert (Hlt : lex_lt (kL j) (kI i) = true).
          { destruct (lex_lt (kL j) (kI i)) eqn:C; auto.
            pose proof (lex_total _ _ E' C). rewrite H in E.
            assert (zlist_eqb (kL j) (kL j) = true) by (apply zlist_eqb_spec; auto). congruence. }
          exists res. split; auto. split; [|split].
          -- exists js. split; auto. split; auto. intros j' Hin. apply R4 in Hin. lia.
          -- intros m Hm. destruct (R5 m Hm) as (j' & i' & ? & ? & ? & ?). exists j', i'. repeat split; auto; lia.
          -- intros j' i' Hj' Hi' Ek. destruct (Nat.eq_dec j' j) as [->|]; [exfalso|apply (R6 j' i'); auto; lia].
             destruct (Nat.lt_ge_cases i' i) as [C|C]; [eapply (Hinv i' j); eauto; lia|].
             assert (lex_lt (kL j) (kI i') = true).
             { destruct (Nat.eq_dec i' i) as [->|]; auto.
               eapply lex_lt_le_trans; eauto. apply SI; lia. }
             apply lex_lt_neq in H. congruence.
      + exists []. cbn. rewrite app_nil_r. split; [auto|]. split; [|split].
        * exists []. cbn. repeat split; auto using SSorted_nil; tauto.
        * tauto.
        * intros; lia.
      + exists []. cbn. rewrite app_nil_r. split; [auto|]. split; [|split].
        * exists []. cbn. repeat split; auto using SSorted_nil; tauto.
        * tauto.
        * intros j' i' ? ? Ek. exfalso. eapply (Hinv i' j'); eauto; lia.
  Qed.
End Merge.

(** ** Final clean-up: sort and unique *)
Lemma pair_leb_total a b : pair_leb a b = true \/ pair_leb b a = true.
Proof.
  unfold pair_leb. destruct (Nat.ltb_spec (fst a) (fst b)); destruct (Nat.ltb_spec (fst b) (fst a)); auto.
  destruct (Z.leb_spec (snd a) (snd b)); auto. right. apply Z.leb_le. lia.
Qed.

Lemma pair_leb_iff a b : pair_leb a b = true <-> fst a < fst b \/ (fst a = fst b /\ (snd a <= snd b)%Z).
Proof.
  unfold pair_leb. destruct (Nat.ltb_spec (fst a) (fst b)); destruct (Nat.ltb_spec (fst b) (fst a));
    try rewrite Z.leb_le; split; intros; try lia; auto; try congruence.
Qed.

Lemma pair_eqb_spec a b : pair_eqb a b = true <-> a = b.
Proof.
  unfold pair_eqb. rewrite andb_true_iff, Nat.eqb_eq, Z.eqb_eq. destruct a, b; cbn. split; intros; [f_equal; tauto|].
  inversion H; auto.
Qed.

Lemma NoDup_fst_inj (l : list (nat * Z)) a v w : NoDup (map fst l) -> In (a, v) l -> In (a, w) l -> v = w.
Proof.
  induction l as [|[b u] l IH]; cbn; intros ND H1 H2; [tauto|].
  inversion ND as [|? ? Hn Hd]; subst.
  destruct H1 as [H1|H1], H2 as [H2|H2].
  - congruence.
  - inversion H1; subst. exfalso. apply Hn. apply in_map_iff. exists (a, w). auto.
  - inversion H2; subst. exfalso. apply Hn. apply in_map_iff. exists (a, v). auto.
  - auto.
Qed.

Lemma cleanup_spec (l : list (nat * Z)) :
  NoDup (map fst l) ->
  let m := unique pair_eqb (isort pair_leb l) in
  StronglySorted lt (map fst m) /\ (forall x, In x m <-> In x l).
Proof.
  intros ND m.
  assert (Hin : forall x, In x m <-> In x l).
  { intros x. unfold m. rewrite unique_in by apply pair_eqb_spec. apply isort_in. }
  split; auto.
  assert (HS : StronglySorted (fun x y => pair_leb x y = true /\ x <> y) m).
  { apply unique_strict with (le := fun a b => pair_leb a b = true).
    - apply pair_eqb_spec.
    - intros a b Ha Hb. apply pair_leb_iff in Ha, Hb. destruct a, b; cbn in *. f_equal; lia.
    - apply isort_sorted; [apply pair_leb_total|].
      intros a b c. rewrite !pair_leb_iff. lia. }
  assert (G : forall l', (forall x, In x l' -> In x l) ->
            StronglySorted (fun x y => pair_leb x y = true /\ x <> y) l' -> StronglySorted lt (map fst l')).
  { intros l' Hl' HS'. clear HS Hin. induction HS' as [|a l' Hs IH Hf]; cbn; [constructor|].
    constructor; [apply IH; intros; apply Hl'; right; auto|].
    apply Forall_forall. intros y Hy. apply in_map_iff in Hy. destruct Hy as (b & <- & Hb).
    rewrite Forall_forall in Hf. destruct (Hf b Hb) as [H1 H2].
    apply pair_leb_iff in H1. destruct H1 as [|[E _]]; auto. exfalso. apply H2.
    destruct a as [a1 a2], b as [b1 b2]; cbn in *. subst. f_equal.
    apply (NoDup_fst_inj l b1); auto; apply Hl'; cbn; auto. }
  apply G; auto. intros x Hx. apply Hin; auto.
Qed.

(** ** Main lemma *)
(** [p] is a possible result of std::sort of [0..n-1] by lexicographic order of
    the keys [key]. *)
Definition lex_sort_result (n : nat) (key : nat -> list Z) (p : list nat) : Prop :=
  Permutation p (seq 0 n) /\
  forall a b, a < b -> b < n -> lex_lt (key (nth b p 0)) (key (nth a p 0)) = false.

Lemma perm_seq_facts p n : Permutation p (seq 0 n) ->
  length p = n /\ NoDup p /\ (forall e, In e p <-> e < n).
Proof.
  intros HP. split; [|split].
  - apply Permutation_length in HP. now rewrite seq_length in HP.
  - eapply Permutation_NoDup; [apply Permutation_sym; eauto|apply seq_NoDup].
  - intros e. split; intros H.
    + apply (Permutation_in _ HP) in H. apply in_seq in H. lia.
    + eapply Permutation_in; [apply Permutation_sym; eauto|]. apply in_seq. lia.
Qed.

Lemma lex_match_spec dim local_indices in_indices in_values p_local p_in :
  let nL := length local_indices / dim in
  let nI := length in_indices / dim in
  let lk := lkey dim local_indices in
  let ik := ikey dim in_indices in
  lex_sort_result nL lk p_local -> lex_sort_result nI ik p_in ->
  (forall a b, a < nL -> b < nL -> lk a = lk b -> a = b) ->
  let r := lex_match dim local_indices in_indices in_values p_local p_in in
  length (fst r) = length (snd r) /\
  StronglySorted lt (fst r) /\
  (forall e v, In (e, v) (combine (fst r) (snd r)) ->
     e < nL /\ exists k, k < nI /\ ik k = lk e /\ v = nth k in_values 0%Z) /\
  (forall e k, e < nL -> k < nI -> ik k = lk e -> In e (fst r)).
Proof.
  intros nL nI lk ik [PL SL] [PI SI] D r.
  destruct (perm_seq_facts _ _ PL) as (LL & NL & IL).
  destruct (perm_seq_facts _ _ PI) as (LI & NI & II).
  destruct (merge_spec dim local_indices in_indices in_values p_local p_in) with
    (fuel := length p_in + length p_local) (i := 0) (j := 0) (acc := @nil (nat * Z))
    as (res & R1 & (js & R2 & R3 & R4) & R5 & R6).
  - intros a b Hab Hb. apply SL; lia.
  - intros a b Hab Hb. apply SI; lia.
  - intros a b Ha Hb E.
    assert (Hra : nth a p_local 0 < nL) by (apply IL, nth_In; auto).
    assert (Hrb : nth b p_local 0 < nL) by (apply IL, nth_In; auto).
    pose proof (D _ _ Hra Hrb E) as E'.
    rewrite (NoDup_nth p_local 0) in NL. apply NL; auto.
  - lia.
  - intros; lia.
  - cbn [app] in R1.
    assert (ND : NoDup (map fst res)).
    { rewrite R2. clear R1 R2 R5 R6.
      assert (NDj : NoDup js) by (eapply StronglySorted_lt_NoDup; [|eauto]; intros; lia).
      clear R3. induction NDj as [|a js Hn Hd IH]; cbn; constructor.
      - intros C. apply in_map_iff in C. destruct C as (b & E & Hb).
        rewrite (NoDup_nth p_local 0) in NL. apply NL in E; [subst; auto| |].
        + apply R4; right; auto.
        + apply R4; left; auto.
      - apply IH. intros; apply R4; right; auto. }
    destruct (cleanup_spec res ND) as [CS CI].
    unfold r, lex_match. rewrite R1. cbn [fst snd].
    set (m := unique pair_eqb (isort pair_leb res)) in *.
    split; [now rewrite !map_length|]. split; [auto|]. split.
    + intros e v H.
      assert (Hm : In (e, v) m).
      { clear -H. induction m as [|[a b] m IH]; cbn in *; auto. destruct H; auto. }
      apply CI, R5 in Hm. destruct Hm as (j' & i' & Hj & Hi & Ek & E).
      unfold entry in E. inversion E; subst.
      split; [apply IL, nth_In; lia|]. exists (nth i' p_in 0). split; [apply II, nth_In; auto|].
      split; auto.
    + intros e k He Hk Ek.
      assert (Hin : In e p_local) by (apply IL; auto).
      assert (Hik : In k p_in) by (apply II; auto).
      apply (In_nth _ _ 0) in Hin, Hik. destruct Hin as (j' & Hj' & <-), Hik as (i' & Hi' & <-).
      specialize (R6 j' i' ltac:(lia) Hi' Ek).
      apply in_map_iff in R6. destruct R6 as (x & E & Hx).
      apply in_map_iff. exists x. split; auto. apply CI; auto.
Qed.

Lemma lex_argsort_result dim a : lex_sort_result (length a / dim) (fun i => slice a (dim * i) dim) (lex_argsort dim a).
Proof.
  unfold lex_argsort, lex_sort_result. set (leb := fun i j => _).
  split; [apply isort_perm|].
  intros i j Hij Hj.
  assert (HS : StronglySorted (fun i j => leb i j = true) (isort leb (seq 0 (length a / dim)))).
  { apply isort_sorted.
    - intros u v. unfold leb. rewrite !negb_true_iff.
      destruct (lex_lt (slice a (dim * v) dim) (slice a (dim * u) dim)) eqn:E; auto.
      right. apply lex_lt_asym; auto.
    - intros u v w. unfold leb. rewrite !negb_true_iff. intros H1 H2.
      destruct (lex_lt (slice a (dim * w) dim) (slice a (dim * u) dim)) eqn:E; auto.
      pose proof (lex_lt_le_trans _ _ _ E H1). congruence. }
  pose proof (StronglySorted_nth _ _ 0 i j HS Hij) as H.
  rewrite isort_length, seq_length in H. specialize (H Hj).
  unfold leb in H at 1. apply negb_true_iff in H. exact H.
Qed.
