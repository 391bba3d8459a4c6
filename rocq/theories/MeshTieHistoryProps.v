(** Properties C61-C63: mesh tie data rows, over histories of calls. *)
From Coq Require Import List Arith Lia Bool Reals Lra.
Import ListNotations.
From Verif Require Import Prelude PreludeLemmas LayoutModel LayoutProps MeshTieModel MeshTieProps.
Local Open Scope R_scope.

Lemma row_value_skip (blocks : list block) e c v : Forall (fun b : block => (c < fst b)%nat \/ (fst b + snd (snd b) <= c)%nat) blocks -> row_value blocks e c v = v.
Proof.
  unfold row_value. revert v. induction blocks as [|b bs IH]; intros v H; cbn [fold_left]; [reflexivity|]. apply Forall_cons_iff in H as [H1 H2].
  rewrite IH by auto. destruct (Nat.leb_spec (fst b) c), (Nat.ltb_spec c (fst b + snd (snd b))); cbn [andb]; auto; lia.
Qed.
Lemma row_value_hit pre (o n : nat) src post e q v : (q < n)%nat -> Forall (fun b : block => (o + q < fst b)%nat \/ (fst b + snd (snd b) <= o + q)%nat) post ->
  row_value (pre ++ (o, (src, n)) :: post) e (o + q) v = nth (e * n + q) src 0.
Proof.
  intros Hq H. unfold row_value. rewrite fold_left_app. cbn [fold_left fst snd]. rewrite <- (row_value_skip post e (o + q) (nth (e * n + q) src 0) H).
  unfold row_value at 1. f_equal. destruct (Nat.leb_spec o (o + q)), (Nat.ltb_spec (o + q) (o + n)); cbn [andb]; try lia. do 2 f_equal. lia.
Qed.

Lemma nth_nil_0 k : nth k (@nil R) 0 = 0.
Proof. now destruct k. Qed.

Section History.
  Context {F : Type}.
  Variables (pack_h : nat -> list R) (pack_coeff0 pack_q pack_grad_q pack_opp pack_grad_opp : nat -> F -> list R * nat)
    (pack_test pack_grad_test : bool -> nat -> list R * nat).
  Variables (num_pairs : nat) (num_facets : nat -> nat) (nq nd gdim ml : nat).
  Notation for_pairs := (for_pairs num_pairs).
  Notation generate := (generate_kernel_data pack_h pack_coeff0 pack_q pack_grad_q pack_opp pack_grad_opp pack_test pack_grad_test num_pairs num_facets nq nd gdim ml).
  Notation update := (update_kernel_data pack_q pack_grad_q pack_opp pack_grad_opp num_pairs num_facets nq nd gdim ml).
  Notation run := (run_tie pack_h pack_coeff0 pack_q pack_grad_q pack_opp pack_grad_opp pack_test pack_grad_test num_pairs num_facets nq nd gdim ml).
  Notation shaped := (shaped num_pairs num_facets).
  Notation block_holds := (block_holds num_facets).
  Notation vector_like := (vector_like pack_q pack_grad_q pack_opp pack_grad_opp nq gdim).
  Notation scalar_like := (scalar_like pack_q pack_grad_q pack_opp pack_grad_opp nq gdim).
  Hypothesis Lc : forall i f, snd (pack_coeff0 i f) = 1%nat.
  Hypothesis Ltest : forall vec i, snd (pack_test vec i) = len_test nq nd (if vec then gdim else 1) ml.
  Hypothesis Lgtest : forall vec i, snd (pack_grad_test vec i) = len_grad_test nq nd gdim ml.

  (** Arrays in which the rows are overwritten by a list of blocks. *)
  Definition overwritten (stride : nat) (B : nat -> list block) (old new : list (list R)) : Prop :=
    shaped new stride /\ forall i e c, (i < num_pairs)%nat -> (e < num_facets i)%nat -> (c < stride)%nat ->
      entry new stride i e c = row_value (B i) e c (entry old stride i e c).

  Lemma overwritten_rows stride B arr : shaped arr stride -> (forall i, (i < num_pairs)%nat -> fits stride (B i)) ->
    overwritten stride B arr (for_pairs (fun i d => write_rows (num_facets i) stride (B i) d) arr).
  Proof. intros H Hf. split; [now apply shaped_rows|]. intros i e c Hi He Hc. apply entry_rows; auto. Qed.
  Lemma overwritten_resized stride B arr : length arr = num_pairs -> (forall i, (i < num_pairs)%nat -> fits stride (B i)) ->
    overwritten stride B arr (for_pairs (fun i d => write_rows (num_facets i) stride (B i) (resize d (stride * num_facets i))) arr).
  Proof. intros H Hf. split; [now apply shaped_resized|]. intros i e c Hi He Hc. apply entry_resized; auto. Qed.
  Lemma overwritten_resized2 stride B B2 arr : length arr = num_pairs -> (forall i, (i < num_pairs)%nat -> fits stride (B i)) -> (forall i, (i < num_pairs)%nat -> fits stride (B2 i)) ->
    overwritten stride (fun i => B i ++ B2 i) arr
      (for_pairs (fun i d => write_rows (num_facets i) stride (B2 i) (write_rows (num_facets i) stride (B i) (resize d (stride * num_facets i)))) arr).
  Proof.
    intros H Hf Hf2. split; [now apply shaped_resized2|]. intros i e c Hi He Hc. rewrite row_value_app. apply entry_resized2; auto.
  Qed.
  Lemma overwritten_app stride B1 B2 a1 a2 a3 : overwritten stride B1 a1 a2 -> overwritten stride B2 a2 a3 -> overwritten stride (fun i => B1 i ++ B2 i) a1 a3.
  Proof. intros [S1 H1] [S2 H2]. split; auto. intros i e c Hi He Hc. rewrite row_value_app. rewrite H2, H1; auto. Qed.
  Lemma overwritten_ext stride B B' a1 a2 : (forall i, (i < num_pairs)%nat -> B i = B' i) -> overwritten stride B a1 a2 -> overwritten stride B' a1 a2.
  Proof. intros E [S H]. split; auto. intros i e c Hi He Hc. rewrite <- E; auto. Qed.

  Definition L1 := (nq * nd * gdim * ml)%nat.
  Definition L0 := (nq * nd * ml)%nat.
  Definition Lu := (nq * gdim)%nat.
  Definition Lg := (nq * gdim * gdim)%nat.

  Definition elastic_static (first : nat) (mu lm : F) (i : nat) : list block :=
    [(0, (fst (pack_coeff0 i mu), 1)); (1, (fst (pack_coeff0 i lm), 1)); (2, (pack_h i, 1)); (first, (fst (pack_test true i), L1)); (first + L1, (fst (pack_grad_test true i), L1))]%nat.
  Definition alpha_block (al : F) (i : nat) : list block := [(3, (fst (pack_coeff0 i al), 1))]%nat.
  Definition elastic_dynamic (first : nat) (u : F) (i : nat) : list block :=
    [(first + 2 * L1, (fst (pack_q i u), Lu)); (first + 2 * L1 + Lu + Lg, (fst (pack_opp i u), Lu));
     (first + 2 * L1 + Lu, (fst (pack_grad_q i u), Lg)); (first + 2 * L1 + Lu + Lg + Lu, (fst (pack_grad_opp i u), Lg))]%nat.
  Definition temperature_dynamic (T : F) (i : nat) : list block :=
    [(4 + 2 * L1 + Lu + Lg + Lu + Lg, (fst (pack_q i T), nq)); (4 + 2 * L1 + Lu + Lg + Lu + Lg + nq, (fst (pack_opp i T), nq))]%nat.
  Definition poisson_static (kdt : F) (i : nat) : list block :=
    [(0, (pack_h i, 1)); (1, (fst (pack_coeff0 i kdt), 1)); (2, (fst (pack_test false i), L0)); (2 + L0, (fst (pack_grad_test false i), L1))]%nat.
  Definition poisson_dynamic (T : F) (i : nat) : list block :=
    [(2 + L0 + L1, (fst (pack_q i T), nq)); (2 + L0 + L1 + nq + Lu, (fst (pack_opp i T), nq));
     (2 + L0 + L1 + nq, (fst (pack_grad_q i T), Lu)); (2 + L0 + L1 + nq + Lu + nq, (fst (pack_grad_opp i T), Lu))]%nat.

  Lemma sum_elastic : sum_nat (elastic_strides nq nd gdim gdim ml) = (3 + L1 + L1 + Lu + Lg + Lu + Lg)%nat.
  Proof. cbn. unfold L1, Lu, Lg. lia. Qed.
  Lemma sum_thermo : sum_nat (thermo_strides nq nd gdim gdim ml) = (4 + L1 + L1 + Lu + Lg + Lu + Lg + nq + nq)%nat.
  Proof. cbn. unfold L1, Lu, Lg. lia. Qed.
  Lemma sum_poisson : sum_nat (poisson_strides nq nd gdim ml) = (2 + L0 + L1 + nq + Lu + nq + Lu)%nat.
  Proof. cbn. unfold L1, L0, Lu. lia. Qed.

  Lemma pair_eta (p : list R * nat) n : snd p = n -> p = (fst p, n).
  Proof. intros <-. now destruct p. Qed.
  Lemma static_ok first mu lm i : static_blocks pack_h pack_coeff0 pack_test pack_grad_test first mu lm i = elastic_static first mu lm i.
  Proof.
    unfold static_blocks, elastic_static. rewrite (pair_eta (pack_coeff0 i mu) 1), (pair_eta (pack_coeff0 i lm) 1) by apply Lc. cbn [fst snd].
    rewrite (pair_eta (pack_test true i) L1), (pair_eta (pack_grad_test true i) L1); [reflexivity| |]; rewrite ?Ltest, ?Lgtest; unfold len_test, len_grad_test, L1; nia.
  Qed.
  Lemma fun_ok u o0 o1 n i : snd (pack_q i u) = n -> snd (pack_opp i u) = n -> fun_blocks pack_q pack_opp u o0 o1 i = [(o0, (fst (pack_q i u), n)); (o1, (fst (pack_opp i u), n))].
  Proof. intros H1 H2. unfold fun_blocks. now rewrite (pair_eta (pack_q i u) n), (pair_eta (pack_opp i u) n). Qed.
  Lemma grad_ok u o0 o1 n i : snd (pack_grad_q i u) = n -> snd (pack_grad_opp i u) = n -> grad_blocks pack_grad_q pack_grad_opp u o0 o1 i = [(o0, (fst (pack_grad_q i u), n)); (o1, (fst (pack_grad_opp i u), n))].
  Proof. intros H1 H2. unfold grad_blocks. now rewrite (pair_eta (pack_grad_q i u) n), (pair_eta (pack_grad_opp i u) n). Qed.

  Ltac fitting := unfold fits; repeat apply Forall_cons; try apply Forall_nil; cbn [fst snd]; lia.

  Lemma update_vector first stride u arr : vector_like u -> shaped arr stride -> (first + 2 * L1 + 2 * Lu + 2 * Lg <= stride)%nat ->
    let o0 := (first + 2 * (nq * ml * gdim * nd))%nat in let o1 := (o0 + (1 + gdim) * nq * gdim)%nat in
    overwritten stride (elastic_dynamic first u) arr
      (update_gradient_data pack_grad_q pack_grad_opp num_pairs num_facets u (update_function_data pack_q pack_opp num_pairs num_facets u arr o0 o1 stride) (o0 + nq * gdim) (o1 + nq * gdim) stride).
  Proof.
    intros Hv Hs Hst o0 o1. rewrite update_gradient_rows, update_function_rows.
    assert (E0 : o0 = (first + 2 * L1)%nat) by (unfold o0, L1; nia).
    assert (E1 : o1 = (first + 2 * L1 + Lu + Lg)%nat) by (unfold o1; rewrite E0; unfold Lu, Lg; nia).
    apply (overwritten_ext stride (fun i => fun_blocks pack_q pack_opp u o0 o1 i ++ grad_blocks pack_grad_q pack_grad_opp u (o0 + nq * gdim) (o1 + nq * gdim) i)).
    { intros i _. destruct (Hv i) as (Q1 & Q2 & Q3 & Q4). rewrite (fun_ok u o0 o1 Lu) by auto. rewrite (grad_ok u _ _ Lg) by auto. fold Lu. rewrite E0, E1. reflexivity. }
    eapply overwritten_app; apply overwritten_rows.
    - auto.
    - intros i _. destruct (Hv i) as (Q1 & Q2 & Q3 & Q4). rewrite (fun_ok u o0 o1 Lu) by auto. rewrite E0, E1. fitting.
    - now apply shaped_rows.
    - intros i _. destruct (Hv i) as (Q1 & Q2 & Q3 & Q4). rewrite (grad_ok u _ _ Lg) by auto. fold Lu. rewrite E0, E1. fitting.
  Qed.

  (** *** The three data sets *)
  Lemma gen_elastic_rows mu lm gamma theta s : length (coeffs s) = num_pairs ->
    let s' := generate_matrix_only pack_h pack_coeff0 pack_test pack_grad_test num_pairs num_facets nq nd gdim ml mu lm None gamma theta s in
    overwritten (sum_nat (elastic_strides nq nd gdim gdim ml)) (elastic_static 3 mu lm) (coeffs s) (coeffs s').
  Proof.
    intros H s'. apply (overwritten_ext _ (fun i => static_blocks pack_h pack_coeff0 pack_test pack_grad_test 3 mu lm i)); [intros i _; apply static_ok|].
    apply (overwritten_resized (sum_nat (elastic_strides nq nd gdim gdim ml))); auto.
    intros i _. rewrite static_ok, sum_elastic. fitting.
  Qed.
  Lemma gen_thermo_rows mu lm al gamma theta s : length (coeffs s) = num_pairs ->
    let s' := generate_matrix_only pack_h pack_coeff0 pack_test pack_grad_test num_pairs num_facets nq nd gdim ml mu lm (Some al) gamma theta s in
    overwritten (sum_nat (thermo_strides nq nd gdim gdim ml)) (fun i => elastic_static 4 mu lm i ++ alpha_block al i) (coeffs s) (coeffs s').
  Proof.
    intros H s'. apply (overwritten_ext _ (fun i => static_blocks pack_h pack_coeff0 pack_test pack_grad_test 4 mu lm i ++ [(3%nat, pack_coeff0 i al)])).
    { intros i _. unfold alpha_block. rewrite static_ok. do 2 f_equal. f_equal. apply pair_eta, Lc. }
    apply (overwritten_resized2 (sum_nat (thermo_strides nq nd gdim gdim ml)) (fun i => static_blocks pack_h pack_coeff0 pack_test pack_grad_test 4 mu lm i) (fun i => [(3%nat, pack_coeff0 i al)])); auto.
    - intros i _. rewrite static_ok, sum_thermo. fitting.
    - intros i _. rewrite sum_thermo. unfold fits. repeat apply Forall_cons; try apply Forall_nil. cbn [fst snd]. rewrite Lc. lia.
  Qed.
  Lemma gen_poisson_rows kdt gamma theta s : length (coeffs_poisson s) = num_pairs ->
    let s' := generate_poisson pack_h pack_coeff0 pack_test pack_grad_test num_pairs num_facets nq nd gdim ml kdt gamma theta s in
    overwritten (sum_nat (poisson_strides nq nd gdim ml)) (poisson_static kdt) (coeffs_poisson s) (coeffs_poisson s').
  Proof.
    intros H s'.
    set (B := fun i : nat => [(0%nat, (pack_h i, 1%nat)); (1%nat, pack_coeff0 i kdt); ((1 + snd (pack_coeff0 i kdt))%nat, pack_test false i);
       ((1 + snd (pack_coeff0 i kdt) + snd (pack_test false i))%nat, pack_grad_test false i)]).
    assert (E : forall i, B i = poisson_static kdt i).
    { intros i. unfold B, poisson_static. rewrite (pair_eta (pack_coeff0 i kdt) 1) by apply Lc. cbn [fst snd].
      rewrite (pair_eta (pack_test false i) L0), (pair_eta (pack_grad_test false i) L1); [reflexivity| |]; rewrite ?Ltest, ?Lgtest; unfold len_test, len_grad_test, L1, L0; nia. }
    apply (overwritten_ext _ B); [intros i _; apply E|]. apply (overwritten_resized (sum_nat (poisson_strides nq nd gdim ml))); auto.
    intros i _. rewrite E, sum_poisson. fitting.
  Qed.
  Lemma upd_poisson_rows T arr : scalar_like T -> let stride := sum_nat (poisson_strides nq nd gdim ml) in shaped arr stride ->
    let o0 := (2 + (1 + gdim) * (nq * ml * nd))%nat in let o1 := (o0 + (1 + gdim) * nq)%nat in
    overwritten stride (poisson_dynamic T) arr
      (update_gradient_data pack_grad_q pack_grad_opp num_pairs num_facets T (update_function_data pack_q pack_opp num_pairs num_facets T arr o0 o1 stride) (o0 + nq) (o1 + nq) stride).
  Proof.
    intros Hv stride Hs o0 o1. rewrite update_gradient_rows, update_function_rows.
    assert (E0 : o0 = (2 + L0 + L1)%nat) by (unfold o0, L1, L0; nia).
    assert (E1 : o1 = (2 + L0 + L1 + nq + Lu)%nat) by (unfold o1; rewrite E0; unfold Lu; nia).
    apply (overwritten_ext stride (fun i => fun_blocks pack_q pack_opp T o0 o1 i ++ grad_blocks pack_grad_q pack_grad_opp T (o0 + nq) (o1 + nq) i)).
    { intros i _. destruct (Hv i) as (Q1 & Q2 & Q3 & Q4). unfold len_u, len_grad_u in *. rewrite Nat.mul_1_r in *. rewrite (fun_ok T o0 o1 nq) by auto. rewrite (grad_ok T _ _ Lu) by auto. rewrite E0, E1. reflexivity. }
    eapply overwritten_app; apply overwritten_rows.
    - auto.
    - intros i _. destruct (Hv i) as (Q1 & Q2 & Q3 & Q4). unfold len_u, len_grad_u in *. rewrite Nat.mul_1_r in *. rewrite (fun_ok T o0 o1 nq) by auto. rewrite E0, E1. unfold stride. rewrite sum_poisson. fitting.
    - now apply shaped_rows.
    - intros i _. destruct (Hv i) as (Q1 & Q2 & Q3 & Q4). unfold len_u, len_grad_u in *. rewrite Nat.mul_1_r in *. rewrite (grad_ok T _ _ Lu) by auto. rewrite E0, E1. unfold stride. rewrite sum_poisson. fitting.
  Qed.
  Lemma upd_temperature_rows T arr : scalar_like T -> let stride := sum_nat (thermo_strides nq nd gdim gdim ml) in shaped arr stride ->
    let o0 := (4 + 2 * (nq * ml * gdim * nd))%nat in let o1 := (o0 + (1 + gdim) * nq * gdim + nq * gdim)%nat in let o2 := (o1 + nq * gdim * gdim)%nat in
    overwritten stride (temperature_dynamic T) arr (update_function_data pack_q pack_opp num_pairs num_facets T arr o2 (o2 + nq) stride).
  Proof.
    intros Hv stride Hs o0 o1 o2. rewrite update_function_rows.
    assert (E2 : o2 = (4 + 2 * L1 + Lu + Lg + Lu + Lg)%nat) by (unfold o2, o1, o0, L1, Lu, Lg; nia).
    assert (E : forall i, fun_blocks pack_q pack_opp T o2 (o2 + nq) i = temperature_dynamic T i).
    { intros i. destruct (Hv i) as (Q1 & Q2 & Q3 & Q4). unfold len_u, len_grad_u in *. rewrite Nat.mul_1_r in *. rewrite (fun_ok T _ _ nq) by auto. now rewrite E2. }
    apply (overwritten_ext stride (fun i => fun_blocks pack_q pack_opp T o2 (o2 + nq) i)); [intros i _; apply E|].
    apply overwritten_rows; auto. intros i _. rewrite E. unfold stride. rewrite sum_thermo. fitting.
  Qed.

  (** ** Specification: what the rows of a pair must hold.  [None]: no function
      has been given yet, the blocks are zero. *)
  Definition data_of (p : nat -> F -> list R * nat) (i : nat) (o : option F) : list R := match o with Some u => fst (p i u) | None => [] end.
  Definition scalar_column (st : list nat) (arr : list (list R)) (i c : nat) (v : list R) : Prop :=
    forall e, (e < num_facets i)%nat -> entry arr (sum_nat st) i e c = nth e v 0.

  Definition elastic_matrix_data (st : list nat) (arr : list (list R)) (mu lm : F) : Prop := forall i, (i < num_pairs)%nat ->
    scalar_column st arr i 0 (fst (pack_coeff0 i mu)) /\ scalar_column st arr i 1 (fst (pack_coeff0 i lm)) /\ scalar_column st arr i 2 (pack_h i) /\
    block_holds st arr i 1 (fst (pack_test true i)) /\ block_holds st arr i 2 (fst (pack_grad_test true i)).
  Definition expansion_data (st : list nat) (arr : list (list R)) (al : F) : Prop := forall i, (i < num_pairs)%nat -> scalar_column st arr i 3 (fst (pack_coeff0 i al)).
  Definition state_data (st : list nat) (arr : list (list R)) (u : option F) : Prop := forall i, (i < num_pairs)%nat ->
    block_holds st arr i 3 (data_of pack_q i u) /\ block_holds st arr i 4 (data_of pack_grad_q i u) /\
    block_holds st arr i 5 (data_of pack_opp i u) /\ block_holds st arr i 6 (data_of pack_grad_opp i u).
  Definition temperature_data (st : list nat) (arr : list (list R)) (T : option F) : Prop := forall i, (i < num_pairs)%nat ->
    block_holds st arr i 7 (data_of pack_q i T) /\ block_holds st arr i 8 (data_of pack_opp i T).
  Definition poisson_matrix_data (st : list nat) (arr : list (list R)) (kdt : F) : Prop := forall i, (i < num_pairs)%nat ->
    scalar_column st arr i 0 (pack_h i) /\ scalar_column st arr i 1 (fst (pack_coeff0 i kdt)) /\
    block_holds st arr i 1 (fst (pack_test false i)) /\ block_holds st arr i 2 (fst (pack_grad_test false i)).

  Ltac avoid := repeat apply Forall_cons; try apply Forall_nil; cbn [fst snd]; lia.
  Lemma overwritten_column st B old new i c pre v post : overwritten (sum_nat st) B old new -> (i < num_pairs)%nat -> (c < sum_nat st)%nat ->
    B i = pre ++ (c, (v, 1%nat)) :: post -> Forall (fun b : block => (c < fst b)%nat \/ (fst b + snd (snd b) <= c)%nat) post ->
    scalar_column st new i c v.
  Proof.
    intros [_ H] Hi Hc E Hp e He. rewrite H by auto. rewrite E. pose proof (row_value_hit pre c 1 v post e 0) as G. rewrite Nat.add_0_r in G.
    rewrite G by (auto; lia). f_equal. lia.
  Qed.
  Lemma overwritten_block st B old new i k o n pre v post : overwritten (sum_nat st) B old new -> (i < num_pairs)%nat ->
    fst (kernel_block st k) = o -> nth k st 0%nat = n -> (o + n <= sum_nat st)%nat ->
    B i = pre ++ (o, (v, n)) :: post -> Forall (fun b : block => (o + n <= fst b)%nat \/ (fst b + snd (snd b) <= o)%nat) post ->
    block_holds st new i k v.
  Proof.
    intros [_ H] Hi Ho Hn Hb E Hp e q He Hq. rewrite Hn in *. rewrite Ho. rewrite H by (auto; lia). rewrite E. apply row_value_hit; auto.
    eapply Forall_impl; [|exact Hp]. cbn. intros b Hb'. lia.
  Qed.
  Lemma untouched_column st B old new i c v : overwritten (sum_nat st) B old new -> (i < num_pairs)%nat -> (c < sum_nat st)%nat ->
    Forall (fun b : block => (c < fst b)%nat \/ (fst b + snd (snd b) <= c)%nat) (B i) -> scalar_column st old i c v -> scalar_column st new i c v.
  Proof. intros [_ H] Hi Hc Hp Ho e He. rewrite H by auto. rewrite row_value_skip by auto. now apply Ho. Qed.
  Lemma untouched_block st B old new i k o n v : overwritten (sum_nat st) B old new -> (i < num_pairs)%nat ->
    fst (kernel_block st k) = o -> nth k st 0%nat = n -> (o + n <= sum_nat st)%nat ->
    Forall (fun b : block => (o + n <= fst b)%nat \/ (fst b + snd (snd b) <= o)%nat) (B i) -> block_holds st old i k v -> block_holds st new i k v.
  Proof.
    intros [_ H] Hi Ho Hn Hb Hp Hold e q He Hq. rewrite Hn in Hq. rewrite Ho. rewrite H by (auto; lia). rewrite row_value_skip.
    - specialize (Hold e q He). rewrite Hn, Ho in Hold. rewrite Hn. apply Hold; auto.
    - eapply Forall_impl; [|exact Hp]. cbn. intros b Hb'. lia.
  Qed.


  Notation est := (elastic_strides nq nd gdim gdim ml).
  Notation tst := (thermo_strides nq nd gdim gdim ml).
  Notation pst := (poisson_strides nq nd gdim ml).


  Lemma est_list : est = [3; L1; L1; Lu; Lg; Lu; Lg]%nat. Proof. reflexivity. Qed.
  Lemma tst_list : tst = [4; L1; L1; Lu; Lg; Lu; Lg; nq; nq]%nat. Proof. reflexivity. Qed.
  Lemma pst_list : pst = [2; L0; L1; nq; Lu; nq; Lu]%nat. Proof. reflexivity. Qed.

  Ltac offset := first [rewrite est_list | rewrite tst_list | rewrite pst_list]; unfold kernel_block, kernel_offsets; cbn [psums psums_from nth fst]; try lia; reflexivity.
  Ltac size := first [rewrite sum_elastic | rewrite sum_thermo | rewrite sum_poisson]; lia.
  Ltac new_block H B i o n j := apply (overwritten_block _ _ _ _ i _ o n (firstn j (B i)) _ (skipn (S j) (B i)) H); [assumption | offset | reflexivity | size | reflexivity | cbn [skipn]; avoid].
  Ltac new_column H B i j := apply (overwritten_column _ _ _ _ i _ (firstn j (B i)) _ (skipn (S j) (B i)) H); [assumption | size | reflexivity | cbn [skipn]; avoid].
  Ltac old_block H i o n := apply (untouched_block _ _ _ _ i _ o n _ H); [assumption | offset | reflexivity | size | avoid | ].
  Ltac old_column H i := apply (untouched_column _ _ _ _ i _ _ H); [assumption | size | avoid | ].

  (** Elasticity. *)
  Lemma elastic_static_new mu lm old new : overwritten (sum_nat est) (elastic_static 3 mu lm) old new -> elastic_matrix_data est new mu lm.
  Proof.
    intros H i Hi. set (B := elastic_static 3 mu lm) in *. repeat split.
    - new_column H B i 0%nat.
    - new_column H B i 1%nat.
    - new_column H B i 2%nat.
    - new_block H B i 3%nat L1 3%nat.
    - new_block H B i (3 + L1)%nat L1 4%nat.
  Qed.
  Lemma elastic_static_keeps mu lm u old new : overwritten (sum_nat est) (elastic_static 3 mu lm) old new -> state_data est old u -> state_data est new u.
  Proof.
    intros H D i Hi. destruct (D i Hi) as (D1 & D2 & D3 & D4). repeat split.
    - old_block H i (3 + 2 * L1)%nat Lu. auto.
    - old_block H i (3 + 2 * L1 + Lu)%nat Lg. auto.
    - old_block H i (3 + 2 * L1 + Lu + Lg)%nat Lu. auto.
    - old_block H i (3 + 2 * L1 + Lu + Lg + Lu)%nat Lg. auto.
  Qed.
  Lemma elastic_dynamic_new u old new : overwritten (sum_nat est) (elastic_dynamic 3 u) old new -> state_data est new (Some u).
  Proof.
    intros H i Hi. set (B := elastic_dynamic 3 u) in *. repeat split.
    - new_block H B i (3 + 2 * L1)%nat Lu 0%nat.
    - new_block H B i (3 + 2 * L1 + Lu)%nat Lg 2%nat.
    - new_block H B i (3 + 2 * L1 + Lu + Lg)%nat Lu 1%nat.
    - new_block H B i (3 + 2 * L1 + Lu + Lg + Lu)%nat Lg 3%nat.
  Qed.
  Lemma dynamic_keeps st first u B old new i e c : overwritten (sum_nat st) B old new -> B = elastic_dynamic first u -> (first + 2 * L1 <= sum_nat st)%nat ->
    (i < num_pairs)%nat -> (e < num_facets i)%nat -> (c < first + 2 * L1)%nat -> entry new (sum_nat st) i e c = entry old (sum_nat st) i e c.
  Proof. intros [_ H] -> Hs Hi He Hc. rewrite H by (auto; lia). apply row_value_skip. avoid. Qed.

  (** Thermo-elasticity. *)
  Lemma thermo_static_new mu lm al old new : overwritten (sum_nat tst) (fun i => elastic_static 4 mu lm i ++ alpha_block al i) old new -> elastic_matrix_data tst new mu lm /\ expansion_data tst new al.
  Proof.
    intros H. set (B := fun i => elastic_static 4 mu lm i ++ alpha_block al i) in *. split; intros i Hi; repeat split.
    - new_column H B i 0%nat.
    - new_column H B i 1%nat.
    - new_column H B i 2%nat.
    - new_block H B i 4%nat L1 3%nat.
    - new_block H B i (4 + L1)%nat L1 4%nat.
    - new_column H B i 5%nat.
  Qed.
  Lemma thermo_static_keeps mu lm al u T old new : overwritten (sum_nat tst) (fun i => elastic_static 4 mu lm i ++ alpha_block al i) old new ->
    state_data tst old u -> temperature_data tst old T -> state_data tst new u /\ temperature_data tst new T.
  Proof.
    intros H D E. split; intros i Hi; destruct (D i Hi) as (D1 & D2 & D3 & D4); destruct (E i Hi) as (E1 & E2); repeat split.
    - old_block H i (4 + 2 * L1)%nat Lu. auto.
    - old_block H i (4 + 2 * L1 + Lu)%nat Lg. auto.
    - old_block H i (4 + 2 * L1 + Lu + Lg)%nat Lu. auto.
    - old_block H i (4 + 2 * L1 + Lu + Lg + Lu)%nat Lg. auto.
    - old_block H i (4 + 2 * L1 + Lu + Lg + Lu + Lg)%nat nq. auto.
    - old_block H i (4 + 2 * L1 + Lu + Lg + Lu + Lg + nq)%nat nq. auto.
  Qed.
  Lemma thermo_dynamic_new u T old new : overwritten (sum_nat tst) (fun i => elastic_dynamic 4 u i ++ temperature_dynamic T i) old new ->
    state_data tst new (Some u) /\ temperature_data tst new (Some T).
  Proof.
    intros H. set (B := fun i => elastic_dynamic 4 u i ++ temperature_dynamic T i) in *. split; intros i Hi; repeat split.
    - new_block H B i (4 + 2 * L1)%nat Lu 0%nat.
    - new_block H B i (4 + 2 * L1 + Lu)%nat Lg 2%nat.
    - new_block H B i (4 + 2 * L1 + Lu + Lg)%nat Lu 1%nat.
    - new_block H B i (4 + 2 * L1 + Lu + Lg + Lu)%nat Lg 3%nat.
    - new_block H B i (4 + 2 * L1 + Lu + Lg + Lu + Lg)%nat nq 4%nat.
    - new_block H B i (4 + 2 * L1 + Lu + Lg + Lu + Lg + nq)%nat nq 5%nat.
  Qed.

  (** Poisson; the temperature data has the block numbers of the displacement. *)
  Lemma poisson_static_new kdt old new : overwritten (sum_nat pst) (poisson_static kdt) old new -> poisson_matrix_data pst new kdt.
  Proof.
    intros H i Hi. set (B := poisson_static kdt) in *. repeat split.
    - new_column H B i 0%nat.
    - new_column H B i 1%nat.
    - new_block H B i 2%nat L0 2%nat.
    - new_block H B i (2 + L0)%nat L1 3%nat.
  Qed.
  Lemma poisson_static_keeps kdt u old new : overwritten (sum_nat pst) (poisson_static kdt) old new -> state_data pst old u -> state_data pst new u.
  Proof.
    intros H D i Hi. destruct (D i Hi) as (D1 & D2 & D3 & D4). repeat split.
    - old_block H i (2 + L0 + L1)%nat nq. auto.
    - old_block H i (2 + L0 + L1 + nq)%nat Lu. auto.
    - old_block H i (2 + L0 + L1 + nq + Lu)%nat nq. auto.
    - old_block H i (2 + L0 + L1 + nq + Lu + nq)%nat Lu. auto.
  Qed.
  Lemma poisson_dynamic_new T old new : overwritten (sum_nat pst) (poisson_dynamic T) old new -> state_data pst new (Some T).
  Proof.
    intros H i Hi. set (B := poisson_dynamic T) in *. repeat split.
    - new_block H B i (2 + L0 + L1)%nat nq 0%nat.
    - new_block H B i (2 + L0 + L1 + nq)%nat Lu 2%nat.
    - new_block H B i (2 + L0 + L1 + nq + Lu)%nat nq 1%nat.
    - new_block H B i (2 + L0 + L1 + nq + Lu + nq)%nat Lu 3%nat.
  Qed.
  Lemma overwritten_keeps st B old new : overwritten (sum_nat st) B old new -> forall o, (o <= sum_nat st)%nat -> (forall i, Forall (fun b : block => (o <= fst b)%nat) (B i)) ->
    forall i e c, (i < num_pairs)%nat -> (e < num_facets i)%nat -> (c < o)%nat -> entry new (sum_nat st) i e c = entry old (sum_nat st) i e c.
  Proof.
    intros [_ H] o Ho Hp i e c Hi He Hc. rewrite H by (auto; lia). apply row_value_skip. eapply Forall_impl; [|apply Hp]. cbn. intros b Hb. lia.
  Qed.

  (** *** Update as block writes *)
  Lemma update_elastic c u s : c_u c = Some u -> vector_like u -> cstride s = sum_nat est -> shaped (coeffs s) (sum_nat est) ->
    exists arr, update c Elasticity s = (Done, with_coeffs arr s) /\ overwritten (sum_nat est) (elastic_dynamic 3 u) (coeffs s) arr.
  Proof.
    intros Hu Hv Hc Hs. unfold update_kernel_data. rewrite Hu, Hc. eexists. split; [reflexivity|]. apply update_vector; auto. rewrite sum_elastic. lia.
  Qed.
  Lemma update_thermo c u T s : c_u c = Some u -> c_T c = Some T -> vector_like u -> scalar_like T -> cstride s = sum_nat tst -> shaped (coeffs s) (sum_nat tst) ->
    exists arr, update c ThermoElasticity s = (Done, with_coeffs arr s) /\ overwritten (sum_nat tst) (fun i => elastic_dynamic 4 u i ++ temperature_dynamic T i) (coeffs s) arr.
  Proof.
    intros Hu HT Hv Hsc Hc Hs. unfold update_kernel_data. rewrite Hu, HT, Hc. eexists. split; [reflexivity|].
    eapply overwritten_app; [apply update_vector; auto; rewrite sum_thermo; lia|].
    apply upd_temperature_rows; auto. apply (update_vector 4); auto. rewrite sum_thermo. lia.
  Qed.
  Lemma update_poisson c T s : c_T c = Some T -> scalar_like T -> cstride_poisson s = sum_nat pst -> shaped (coeffs_poisson s) (sum_nat pst) ->
    exists arr, update c Poisson s = (Done, with_coeffs_poisson arr s) /\ overwritten (sum_nat pst) (poisson_dynamic T) (coeffs_poisson s) arr.
  Proof.
    intros HT Hv Hc Hs. unfold update_kernel_data. rewrite HT, Hc. eexists. split; [reflexivity|]. apply upd_poisson_rows; auto.
  Qed.

  (** ** C62: an update writes the state blocks and nothing else *)
  Definition same_but_coeffs (s s' : tie_state) : Prop :=
    kernel_rhs s' = kernel_rhs s /\ kernel_jac s' = kernel_jac s /\ kernel_thermo_el s' = kernel_thermo_el s /\ kernel_rhs_poisson s' = kernel_rhs_poisson s /\
    kernel_jac_poisson s' = kernel_jac_poisson s /\ consts s' = consts s /\ consts_poisson s' = consts_poisson s /\ cstride s' = cstride s /\ cstride_poisson s' = cstride_poisson s.

  Theorem C62_update_elastic :
    forall c u s, c_u c = Some u -> vector_like u -> cstride s = sum_nat est -> shaped (coeffs s) (sum_nat est) ->
    exists s', update c Elasticity s = (Done, s') /\ same_but_coeffs s s' /\ coeffs_poisson s' = coeffs_poisson s /\ shaped (coeffs s') (sum_nat est) /\
      state_data est (coeffs s') (Some u) /\
      (forall i e c, (i < num_pairs)%nat -> (e < num_facets i)%nat -> (c < fst (kernel_block est 3))%nat -> entry (coeffs s') (sum_nat est) i e c = entry (coeffs s) (sum_nat est) i e c).
  Proof.
    intros c u s Hu Hv Hc Hs. destruct (update_elastic c u s) as (arr & E & O); auto. exists (with_coeffs arr s). split; [exact E|]. split; [repeat split|]. split; [reflexivity|].
    cbn [coeffs with_coeffs]. split; [apply O|]. split; [now apply (elastic_dynamic_new u (coeffs s))|]. intros i e k Hi He Hk.
    replace (fst (kernel_block est 3)) with (3 + 2 * L1)%nat in Hk by (symmetry; offset).
    eapply (overwritten_keeps _ _ _ _ O (3 + 2 * L1)); auto; [size|]. intros j. avoid.
  Qed.
  Theorem C62_update_thermo :
    forall c u T s, c_u c = Some u -> c_T c = Some T -> vector_like u -> scalar_like T -> cstride s = sum_nat tst -> shaped (coeffs s) (sum_nat tst) ->
    exists s', update c ThermoElasticity s = (Done, s') /\ same_but_coeffs s s' /\ coeffs_poisson s' = coeffs_poisson s /\ shaped (coeffs s') (sum_nat tst) /\
      state_data tst (coeffs s') (Some u) /\ temperature_data tst (coeffs s') (Some T) /\
      (forall i e c, (i < num_pairs)%nat -> (e < num_facets i)%nat -> (c < fst (kernel_block tst 3))%nat -> entry (coeffs s') (sum_nat tst) i e c = entry (coeffs s) (sum_nat tst) i e c).
  Proof.
    intros c u T s Hu HT Hv Hsc Hc Hs. destruct (update_thermo c u T s) as (arr & E & O); auto. exists (with_coeffs arr s). split; [exact E|]. split; [repeat split|]. split; [reflexivity|].
    cbn [coeffs with_coeffs]. split; [apply O|]. destruct (thermo_dynamic_new u T _ _ O) as [D1 D2]. split; [exact D1|]. split; [exact D2|]. intros i e k Hi He Hk.
    replace (fst (kernel_block tst 3)) with (4 + 2 * L1)%nat in Hk by (symmetry; offset).
    eapply (overwritten_keeps _ _ _ _ O (4 + 2 * L1)); auto; [size|]. intros j. cbn [app elastic_dynamic temperature_dynamic]. avoid.
  Qed.
  Theorem C62_update_poisson :
    forall c T s, c_T c = Some T -> scalar_like T -> cstride_poisson s = sum_nat pst -> shaped (coeffs_poisson s) (sum_nat pst) ->
    exists s', update c Poisson s = (Done, s') /\ same_but_coeffs s s' /\ coeffs s' = coeffs s /\ shaped (coeffs_poisson s') (sum_nat pst) /\
      state_data pst (coeffs_poisson s') (Some T) /\
      (forall i e c, (i < num_pairs)%nat -> (e < num_facets i)%nat -> (c < fst (kernel_block pst 3))%nat ->
         entry (coeffs_poisson s') (sum_nat pst) i e c = entry (coeffs_poisson s) (sum_nat pst) i e c).
  Proof.
    intros c T s HT Hv Hc Hs. destruct (update_poisson c T s) as (arr & E & O); auto. exists (with_coeffs_poisson arr s). split; [exact E|]. split; [repeat split|]. split; [reflexivity|].
    cbn [coeffs_poisson with_coeffs_poisson]. split; [apply O|]. split; [now apply (poisson_dynamic_new T (coeffs_poisson s))|]. intros i e k Hi He Hk.
    replace (fst (kernel_block pst 3)) with (2 + L0 + L1)%nat in Hk by (symmetry; offset).
    eapply (overwritten_keeps _ _ _ _ O (2 + L0 + L1)); auto; [size|]. intros j. avoid.
  Qed.
  Theorem C62_update_rejected :
    forall c pt s, pt = OtherProblem \/ (pt = Poisson /\ c_T c = None) \/ (pt = Elasticity /\ c_u c = None) \/ (pt = ThermoElasticity /\ (c_u c = None \/ c_T c = None)) ->
    update c pt s = (InvalidArgument, s).
  Proof.
    intros c pt s [-> | [[-> H] | [[-> H] | [-> H]]]]; unfold update_kernel_data; try rewrite H; auto. destruct H as [-> | ->]; auto. now destruct (c_u c).
  Qed.

  (** ** C61: after a generation the rows hold what the kernels read *)
  Lemma empty_displacement st arr : (forall i, nth i arr [] = []) -> state_data st arr None.
  Proof. intros H i Hi. repeat split; intros e q He Hq; unfold entry, data_of; rewrite H, !nth_nil_0; reflexivity. Qed.
  Lemma empty_temperature st arr : (forall i, nth i arr [] = []) -> temperature_data st arr None.
  Proof. intros H i Hi. repeat split; intros e q He Hq; unfold entry, data_of; rewrite H, !nth_nil_0; reflexivity. Qed.

  Definition or_old (new old : option F) : option F := match new with Some _ => new | None => old end.

  Theorem C61_elastic_rows :
    forall c gamma theta s mu lm old, length (coeffs s) = num_pairs -> state_data est (coeffs s) old ->
      c_mu c = Some mu -> c_lambda c = Some lm -> (forall u, c_u c = Some u -> vector_like u) ->
      let s' := snd (generate Elasticity c gamma theta s) in
      fst (generate Elasticity c gamma theta s) = Done /\ kernel_rhs s' = Some est /\ kernel_jac s' = Some est /\ kernel_thermo_el s' = kernel_thermo_el s /\
      cstride s' = sum_nat est /\ shaped (coeffs s') (sum_nat est) /\ consts s' = [gamma; theta] /\
      elastic_matrix_data est (coeffs s') mu lm /\ state_data est (coeffs s') (or_old (c_u c) old).
  Proof.
    intros c gamma theta s mu lm old Hlen Hd Hmu Hlm Hv s'. unfold s', generate_kernel_data. rewrite Hmu, Hlm.
    set (s1 := generate_matrix_only pack_h pack_coeff0 pack_test pack_grad_test num_pairs num_facets nq nd gdim ml mu lm None gamma theta s).
    pose proof (gen_elastic_rows mu lm gamma theta s Hlen) as O1. cbv zeta in O1. fold s1 in O1.
    assert (M1 : elastic_matrix_data est (coeffs s1) mu lm) by now apply (elastic_static_new mu lm (coeffs s)).
    assert (D1 : state_data est (coeffs s1) old) by now apply (elastic_static_keeps mu lm old (coeffs s)).
    destruct (c_u c) as [u|] eqn:Hu; cbn [given or_old].
    - destruct (update_elastic c u s1) as (arr & E & O2); auto; [apply O1|]. rewrite E. cbn [fst snd with_coeffs kernel_rhs kernel_jac kernel_thermo_el cstride consts coeffs].
      repeat (split; [first [reflexivity | apply O2]|]). split; [|now apply (elastic_dynamic_new u (coeffs s1))].
      intros i Hi. destruct (M1 i Hi) as (X1 & X2 & X3 & X4 & X5). repeat split.
      + old_column O2 i. auto.
      + old_column O2 i. auto.
      + old_column O2 i. auto.
      + old_block O2 i 3%nat L1. auto.
      + old_block O2 i (3 + L1)%nat L1. auto.
    - cbn [fst snd]. repeat (split; [first [reflexivity | apply O1]|]). split; auto.
  Qed.
  Theorem C61_thermo_rows :
    forall c gamma theta s mu lm al old oldT, length (coeffs s) = num_pairs -> state_data tst (coeffs s) old -> temperature_data tst (coeffs s) oldT ->
      c_mu c = Some mu -> c_lambda c = Some lm -> c_alpha c = Some al -> (forall u, c_u c = Some u -> vector_like u) -> (forall T, c_T c = Some T -> scalar_like T) ->
      let s' := snd (generate ThermoElasticity c gamma theta s) in
      (fst (generate ThermoElasticity c gamma theta s) = InvalidArgument <-> c_u c <> None /\ c_T c = None) /\
      kernel_rhs s' = Some tst /\ kernel_jac s' = Some tst /\ kernel_thermo_el s' = Some tst /\
      cstride s' = sum_nat tst /\ shaped (coeffs s') (sum_nat tst) /\ consts s' = [gamma; theta] /\
      elastic_matrix_data tst (coeffs s') mu lm /\ expansion_data tst (coeffs s') al /\
      (c_u c <> None -> c_T c <> None -> state_data tst (coeffs s') (c_u c) /\ temperature_data tst (coeffs s') (c_T c)) /\
      (c_u c = None \/ c_T c = None -> state_data tst (coeffs s') old /\ temperature_data tst (coeffs s') oldT).
  Proof.
    intros c gamma theta s mu lm al old oldT Hlen Hd HdT Hmu Hlm Hal Hv Hsc s'. unfold s', generate_kernel_data. rewrite Hmu, Hlm, Hal.
    set (s1 := generate_matrix_only pack_h pack_coeff0 pack_test pack_grad_test num_pairs num_facets nq nd gdim ml mu lm (Some al) gamma theta s).
    pose proof (gen_thermo_rows mu lm al gamma theta s Hlen) as O1. cbv zeta in O1. fold s1 in O1.
    destruct (thermo_static_new mu lm al _ _ O1) as [M1 A1].
    destruct (thermo_static_keeps mu lm al old oldT _ _ O1 Hd HdT) as [D1 T1].
    destruct (c_u c) as [u|] eqn:Hu; cbn [given].
    - destruct (c_T c) as [T|] eqn:HT.
      + destruct (update_thermo c u T s1) as (arr & E & O2); auto; [apply O1|]. rewrite E. cbn [fst snd with_coeffs kernel_rhs kernel_jac kernel_thermo_el cstride consts coeffs].
        split; [split; [discriminate | intros [_ X]; discriminate]|].
        repeat (split; [first [reflexivity | apply O2]|]). destruct (thermo_dynamic_new u T _ _ O2) as [N1 N2]. split; [|split; [|split; [auto | intros [X | X]; discriminate]]].
        * intros i Hi. destruct (M1 i Hi) as (X1 & X2 & X3 & X4 & X5). repeat split.
          -- old_column O2 i. auto.
          -- old_column O2 i. auto.
          -- old_column O2 i. auto.
          -- old_block O2 i 4%nat L1. auto.
          -- old_block O2 i (4 + L1)%nat L1. auto.
        * intros i Hi. old_column O2 i. now apply A1.
      + unfold update_kernel_data. rewrite Hu, HT. cbn [fst snd]. split; [split; [split; [discriminate | auto] | auto]|].
        repeat (split; [first [reflexivity | apply O1]|]). split; [exact M1|]. split; [exact A1|]. split; [intros _ X; exfalso; now apply X | auto].
    - cbn [fst snd]. split; [split; [discriminate | intros [X _]; now elim X]|]. repeat (split; [first [reflexivity | apply O1]|]). split; [exact M1|]. split; [exact A1|]. split; [intros X; exfalso; now apply X | auto].
  Qed.
  Theorem C61_poisson_rows :
    forall c gamma theta s kdt old, length (coeffs_poisson s) = num_pairs -> state_data pst (coeffs_poisson s) old ->
      c_kdt c = Some kdt -> (forall T, c_T c = Some T -> scalar_like T) ->
      let s' := snd (generate Poisson c gamma theta s) in
      fst (generate Poisson c gamma theta s) = Done /\ kernel_rhs_poisson s' = Some pst /\ kernel_jac_poisson s' = Some pst /\
      cstride_poisson s' = sum_nat pst /\ shaped (coeffs_poisson s') (sum_nat pst) /\ consts_poisson s' = [gamma; theta] /\
      poisson_matrix_data pst (coeffs_poisson s') kdt /\ state_data pst (coeffs_poisson s') (or_old (c_T c) old).
  Proof.
    intros c gamma theta s kdt old Hlen Hd Hk Hv s'. unfold s', generate_kernel_data. rewrite Hk.
    set (s1 := generate_poisson pack_h pack_coeff0 pack_test pack_grad_test num_pairs num_facets nq nd gdim ml kdt gamma theta s).
    pose proof (gen_poisson_rows kdt gamma theta s Hlen) as O1. cbv zeta in O1. fold s1 in O1.
    assert (M1 : poisson_matrix_data pst (coeffs_poisson s1) kdt) by now apply (poisson_static_new kdt (coeffs_poisson s)).
    assert (D1 : state_data pst (coeffs_poisson s1) old) by now apply (poisson_static_keeps kdt old (coeffs_poisson s)).
    destruct (c_T c) as [T|] eqn:HT; cbn [given or_old].
    - destruct (update_poisson c T s1) as (arr & E & O2); auto; [apply O1|]. rewrite E. cbn [fst snd with_coeffs_poisson kernel_rhs_poisson kernel_jac_poisson cstride_poisson consts_poisson coeffs_poisson].
      repeat (split; [first [reflexivity | apply O2]|]). split; [|now apply (poisson_dynamic_new T (coeffs_poisson s1))].
      intros i Hi. destruct (M1 i Hi) as (X1 & X2 & X3 & X4). repeat split.
      + old_column O2 i. auto.
      + old_column O2 i. auto.
      + old_block O2 i 2%nat L0. auto.
      + old_block O2 i (2 + L0)%nat L1. auto.
    - cbn [fst snd]. repeat (split; [first [reflexivity | apply O1]|]). split; auto.
  Qed.

  (** ** C63: histories of calls *)
  Definition call_functions_ok (k : tie_call) : Prop :=
    match k with TGenerate _ c _ _ | TUpdate _ c => (forall u, c_u c = Some u -> vector_like u) /\ (forall T, c_T c = Some T -> scalar_like T) end.
  Definition call_type (k : tie_call (F := F)) : problem_type := match k with TGenerate pt _ _ _ | TUpdate pt _ => pt end.

  (** What a history amounts to: material data, constants and state of the last
      calls that supplied them, nothing before the first generation. *)
  Record elastic_input := { e_mu : F; e_lambda : F; e_gamma : R; e_theta : R; e_u : option F }.
  Definition elastic_step (o : option elastic_input) (k : tie_call) : option elastic_input :=
    match k with
    | TGenerate Elasticity c g t =>
        match c_mu c, c_lambda c with
        | Some mu, Some lm => Some {| e_mu := mu; e_lambda := lm; e_gamma := g; e_theta := t; e_u := or_old (c_u c) (match o with Some p => e_u p | None => None end) |}
        | _, _ => o
        end
    | TUpdate Elasticity c =>
        match o, c_u c with
        | Some p, Some u => Some {| e_mu := e_mu p; e_lambda := e_lambda p; e_gamma := e_gamma p; e_theta := e_theta p; e_u := Some u |}
        | _, _ => o
        end
    | _ => o
    end.
  Record thermo_input := { t_mu : F; t_lambda : F; t_alpha : F; t_gamma : R; t_theta : R; t_u : option F; t_T : option F }.
  Definition thermo_step (o : option thermo_input) (k : tie_call) : option thermo_input :=
    match k with
    | TGenerate ThermoElasticity c g t =>
        match c_mu c, c_lambda c, c_alpha c with
        | Some mu, Some lm, Some al =>
            let given_both := given (c_u c) && given (c_T c) in
            Some {| t_mu := mu; t_lambda := lm; t_alpha := al; t_gamma := g; t_theta := t;
                    t_u := if given_both then c_u c else match o with Some p => t_u p | None => None end;
                    t_T := if given_both then c_T c else match o with Some p => t_T p | None => None end |}
        | _, _, _ => o
        end
    | TUpdate ThermoElasticity c =>
        match o, c_u c, c_T c with
        | Some p, Some u, Some T =>
            Some {| t_mu := t_mu p; t_lambda := t_lambda p; t_alpha := t_alpha p; t_gamma := t_gamma p; t_theta := t_theta p; t_u := Some u; t_T := Some T |}
        | _, _, _ => o
        end
    | _ => o
    end.
  Record poisson_input := { p_kdt : F; p_gamma : R; p_theta : R; p_T : option F }.
  Definition poisson_step (o : option poisson_input) (k : tie_call) : option poisson_input :=
    match k with
    | TGenerate Poisson c g t =>
        match c_kdt c with
        | Some kdt => Some {| p_kdt := kdt; p_gamma := g; p_theta := t; p_T := or_old (c_T c) (match o with Some p => p_T p | None => None end) |}
        | None => o
        end
    | TUpdate Poisson c =>
        match o, c_T c with
        | Some p, Some T => Some {| p_kdt := p_kdt p; p_gamma := p_gamma p; p_theta := p_theta p; p_T := Some T |}
        | _, _ => o
        end
    | _ => o
    end.

  Definition no_rows (arr : list (list R)) : Prop := forall i, nth i arr [] = [].
  Lemma no_rows_init : no_rows (repeat [] num_pairs).
  Proof. intros i. destruct (Nat.lt_ge_cases i num_pairs); [rewrite nth_repeat; reflexivity | rewrite nth_overflow; auto; rewrite repeat_length; lia]. Qed.
  Lemma no_rows_write stride B arr : length arr = num_pairs -> no_rows arr -> no_rows (for_pairs (fun i d => write_rows (num_facets i) stride (B i) d) arr).
  Proof.
    intros Hl H i. destruct (Nat.lt_ge_cases i num_pairs).
    - rewrite nth_for_pairs by auto. apply length_zero_iff_nil. rewrite write_rows_length, H. reflexivity.
    - apply nth_overflow. rewrite for_pairs_length. lia.
  Qed.

  (** Fields of one group untouched. *)
  Definition same_elastic (s s' : tie_state) : Prop :=
    kernel_rhs s' = kernel_rhs s /\ kernel_jac s' = kernel_jac s /\ kernel_thermo_el s' = kernel_thermo_el s /\ coeffs s' = coeffs s /\ consts s' = consts s /\ cstride s' = cstride s.
  Definition same_poisson (s s' : tie_state) : Prop :=
    kernel_rhs_poisson s' = kernel_rhs_poisson s /\ kernel_jac_poisson s' = kernel_jac_poisson s /\ coeffs_poisson s' = coeffs_poisson s /\ consts_poisson s' = consts_poisson s /\
    cstride_poisson s' = cstride_poisson s.
  Notation do_call := (do_tie pack_h pack_coeff0 pack_q pack_grad_q pack_opp pack_grad_opp pack_test pack_grad_test num_pairs num_facets nq nd gdim ml).
  Lemma poisson_call_keeps s k : call_type k = Poisson \/ call_type k = OtherProblem -> same_elastic s (do_call s k).
  Proof.
    intros H. destruct k as [pt c g t|pt c]; cbn [call_type] in H; unfold do_tie.
    - destruct H as [-> | ->]; unfold generate_kernel_data, update_kernel_data; [|repeat split]. destruct (c_kdt c); [|repeat split]. destruct (c_T c); cbn [given]; repeat split.
    - destruct H as [-> | ->]; unfold update_kernel_data; [|repeat split]. destruct (c_T c); repeat split.
  Qed.
  Lemma elastic_call_keeps s k : call_type k <> Poisson -> same_poisson s (do_call s k).
  Proof.
    intros H. destruct k as [pt c g t|pt c]; cbn [call_type] in H; unfold do_tie.
    - destruct pt; try congruence; unfold generate_kernel_data, update_kernel_data; [| |repeat split].
      + destruct (c_mu c); [|repeat split]. destruct (c_lambda c); [|repeat split]. destruct (c_u c); cbn [given]; repeat split.
      + destruct (c_mu c); [|repeat split]. destruct (c_lambda c); [|repeat split]. destruct (c_alpha c); [|repeat split]. destruct (c_u c); cbn [given]; [destruct (c_T c)|]; repeat split.
    - destruct pt; try congruence; unfold update_kernel_data; [| |repeat split].
      + destruct (c_u c); repeat split.
      + destruct (c_u c); [destruct (c_T c)|]; repeat split.
  Qed.

  Definition elastic_agrees (o : option elastic_input) (s : tie_state) : Prop :=
    match o with
    | None => kernel_rhs s = None /\ kernel_jac s = None /\ no_rows (coeffs s)
    | Some p => kernel_rhs s = Some est /\ kernel_jac s = Some est /\ cstride s = sum_nat est /\ shaped (coeffs s) (sum_nat est) /\ consts s = [e_gamma p; e_theta p] /\
        elastic_matrix_data est (coeffs s) (e_mu p) (e_lambda p) /\ state_data est (coeffs s) (e_u p)
    end.
  Definition thermo_agrees (o : option thermo_input) (s : tie_state) : Prop :=
    match o with
    | None => kernel_rhs s = None /\ kernel_jac s = None /\ kernel_thermo_el s = None /\ no_rows (coeffs s)
    | Some p => kernel_rhs s = Some tst /\ kernel_jac s = Some tst /\ kernel_thermo_el s = Some tst /\ cstride s = sum_nat tst /\ shaped (coeffs s) (sum_nat tst) /\
        consts s = [t_gamma p; t_theta p] /\ elastic_matrix_data tst (coeffs s) (t_mu p) (t_lambda p) /\ expansion_data tst (coeffs s) (t_alpha p) /\
        state_data tst (coeffs s) (t_u p) /\ temperature_data tst (coeffs s) (t_T p)
    end.
  Definition poisson_agrees (o : option poisson_input) (s : tie_state) : Prop :=
    match o with
    | None => kernel_rhs_poisson s = None /\ kernel_jac_poisson s = None /\ no_rows (coeffs_poisson s)
    | Some p => kernel_rhs_poisson s = Some pst /\ kernel_jac_poisson s = Some pst /\ cstride_poisson s = sum_nat pst /\ shaped (coeffs_poisson s) (sum_nat pst) /\
        consts_poisson s = [p_gamma p; p_theta p] /\ poisson_matrix_data pst (coeffs_poisson s) (p_kdt p) /\ state_data pst (coeffs_poisson s) (p_T p)
    end.

  Lemma matrix_data_eq st old new mu lm (a : nat) : (nth 1 st 0 = L1)%nat -> (nth 2 st 0 = L1)%nat -> (3 <= a)%nat -> (fst (kernel_block st 1) + L1 <= a)%nat -> (fst (kernel_block st 2) + L1 <= a)%nat ->
    (forall i e c, (i < num_pairs)%nat -> (e < num_facets i)%nat -> (c < a)%nat -> entry new (sum_nat st) i e c = entry old (sum_nat st) i e c) ->
    elastic_matrix_data st old mu lm -> elastic_matrix_data st new mu lm.
  Proof.
    intros H1 H2 H3 H4 H5 E M i Hi. destruct (M i Hi) as (X1 & X2 & X3 & X4 & X5). repeat split.
    - intros e He. rewrite E by (auto; lia). now apply X1.
    - intros e He. rewrite E by (auto; lia). now apply X2.
    - intros e He. rewrite E by (auto; lia). now apply X3.
    - intros e q He Hq. rewrite H1 in Hq. rewrite E by (auto; lia). apply X4; auto. now rewrite H1.
    - intros e q He Hq. rewrite H2 in Hq. rewrite E by (auto; lia). apply X5; auto. now rewrite H2.
  Qed.

  Theorem C63_elastic_history :
    forall calls, Forall call_functions_ok calls -> Forall (fun k => call_type k <> ThermoElasticity) calls ->
      elastic_agrees (fold_left elastic_step calls None) (run calls).
  Proof.
    intros calls Hok Hty. enough (G : length (coeffs (run calls)) = num_pairs /\ elastic_agrees (fold_left elastic_step calls None) (run calls)) by apply G.
    induction calls as [|k calls IH] using rev_ind.
    { unfold run_tie. cbn [fold_left]. split; [apply repeat_length|]. repeat split. apply no_rows_init. }
    apply Forall_app in Hok as [Hok Hk]. apply Forall_app in Hty as [Hty Tk]. apply Forall_inv in Hk. apply Forall_inv in Tk. destruct (IH Hok Hty) as [IL IA]. clear IH.
    unfold run_tie. rewrite !fold_left_app. cbn [fold_left]. fold (run calls). set (o := fold_left elastic_step calls None) in *. set (s := run calls) in *.
    destruct (call_type k) eqn:Et; [|assert (K : same_elastic s (do_call s k)) by (apply poisson_call_keeps; auto)| congruence |assert (K : same_elastic s (do_call s k)) by (apply poisson_call_keeps; auto)].
    2: { destruct K as (K1 & K2 & K3 & K4 & K5 & K6). rewrite K4. split; auto. replace (elastic_step o k) with o by (destruct k; cbn in Et; subst; reflexivity).
         unfold elastic_agrees. destruct o; rewrite K1, K2, K4, ?K5, ?K6; auto. }
    2: { destruct K as (K1 & K2 & K3 & K4 & K5 & K6). rewrite K4. split; auto. replace (elastic_step o k) with o by (destruct k; cbn in Et; subst; reflexivity).
         unfold elastic_agrees. destruct o; rewrite K1, K2, K4, ?K5, ?K6; auto. }
    destruct k as [pt c g t|pt c]; cbn [call_type] in Et; subst pt; destruct Hk as [Hv Hsc].
    - cbn [elastic_step]. unfold do_tie. destruct (c_mu c) as [mu|] eqn:Hmu; [destruct (c_lambda c) as [lm|] eqn:Hlm|].
      + assert (D : state_data est (coeffs s) (match o with Some p => e_u p | None => None end)).
        { destruct o; [apply IA | apply empty_displacement; apply IA]. }
        destruct (C61_elastic_rows c g t s mu lm _ IL D Hmu Hlm Hv) as (_ & G2 & G3 & _ & G5 & G6 & G7 & G8 & G9).
        split; [apply G6|]. repeat (split; [assumption|]). exact G9.
      + rewrite C50_missing_rejected by (left; cbn; auto). auto.
      + rewrite C50_missing_rejected by (left; cbn; auto). auto.
    - cbn [elastic_step]. unfold do_tie. destruct (c_u c) as [u|] eqn:Hu.
      + destruct o as [p|].
        * destruct IA as (G2 & G3 & G5 & G6 & G7 & G8 & G9). destruct (C62_update_elastic c u s Hu (Hv u eq_refl) G5 G6) as (s' & -> & (S1 & S2 & S3 & S4 & S5 & S6 & S7 & S8 & S9) & _ & Sh & D & Ekeep).
          cbn [snd]. split; [apply Sh|]. cbn [elastic_agrees e_gamma e_theta e_mu e_lambda e_u]. rewrite S1, S2, S6, S8. repeat (split; [assumption|]). split; [|exact D].
          apply (matrix_data_eq est (coeffs s) _ _ _ (fst (kernel_block est 3))); auto; try (rewrite est_list; unfold kernel_block, kernel_offsets; cbn [psums psums_from nth fst]; lia).
        * destruct IA as (G1 & G2 & G3). unfold update_kernel_data. rewrite Hu, update_gradient_rows, update_function_rows. cbn [snd with_coeffs coeffs elastic_agrees kernel_rhs kernel_jac].
          split; [now rewrite !for_pairs_length|]. split; auto. split; auto. apply no_rows_write; [now rewrite for_pairs_length|]. now apply no_rows_write.
      + unfold update_kernel_data. rewrite Hu. cbn [snd]. destruct o; auto.
  Qed.

  Theorem C63_thermo_history :
    forall calls, Forall call_functions_ok calls -> Forall (fun k => call_type k <> Elasticity) calls ->
      thermo_agrees (fold_left thermo_step calls None) (run calls).
  Proof.
    intros calls Hok Hty. enough (G : length (coeffs (run calls)) = num_pairs /\ thermo_agrees (fold_left thermo_step calls None) (run calls)) by apply G.
    induction calls as [|k calls IH] using rev_ind.
    { unfold run_tie. cbn [fold_left]. split; [apply repeat_length|]. repeat split. apply no_rows_init. }
    apply Forall_app in Hok as [Hok Hk]. apply Forall_app in Hty as [Hty Tk]. apply Forall_inv in Hk. apply Forall_inv in Tk. destruct (IH Hok Hty) as [IL IA]. clear IH.
    unfold run_tie. rewrite !fold_left_app. cbn [fold_left]. fold (run calls). set (o := fold_left thermo_step calls None) in *. set (s := run calls) in *.
    destruct (call_type k) eqn:Et; [congruence |assert (K : same_elastic s (do_call s k)) by (apply poisson_call_keeps; auto)| |assert (K : same_elastic s (do_call s k)) by (apply poisson_call_keeps; auto)].
    1: { destruct K as (K1 & K2 & K3 & K4 & K5 & K6). rewrite K4. split; auto. replace (thermo_step o k) with o by (destruct k; cbn in Et; subst; reflexivity).
         unfold thermo_agrees. destruct o; rewrite K1, K2, K3, K4, ?K5, ?K6; auto. }
    2: { destruct K as (K1 & K2 & K3 & K4 & K5 & K6). rewrite K4. split; auto. replace (thermo_step o k) with o by (destruct k; cbn in Et; subst; reflexivity).
         unfold thermo_agrees. destruct o; rewrite K1, K2, K3, K4, ?K5, ?K6; auto. }
    destruct k as [pt c g t|pt c]; cbn [call_type] in Et; subst pt; destruct Hk as [Hv Hsc].
    - cbn [thermo_step]. unfold do_tie. destruct (c_mu c) as [mu|] eqn:Hmu; [destruct (c_lambda c) as [lm|] eqn:Hlm; [destruct (c_alpha c) as [al|] eqn:Hal|]|].
      + assert (D : state_data tst (coeffs s) (match o with Some p => t_u p | None => None end)).
        { destruct o; [apply IA | apply empty_displacement; apply IA]. }
        assert (D' : temperature_data tst (coeffs s) (match o with Some p => t_T p | None => None end)).
        { destruct o; [apply IA | apply empty_temperature; apply IA]. }
        destruct (C61_thermo_rows c g t s mu lm al _ _ IL D D' Hmu Hlm Hal Hv Hsc) as (_ & G2 & G3 & G4 & G5 & G6 & G7 & G8 & G9 & G10 & G11).
        split; [apply G6|]. repeat (split; [assumption|]). cbn [t_u t_T].
        destruct (c_u c); [destruct (c_T c)|]; cbn [given andb]; [apply G10; discriminate | apply G11; auto | apply G11; auto].
      + rewrite C50_missing_rejected by (left; cbn; auto). auto.
      + rewrite C50_missing_rejected by (left; cbn; auto). auto.
      + rewrite C50_missing_rejected by (left; cbn; auto). auto.
    - cbn [thermo_step]. unfold do_tie. destruct (c_u c) as [u|] eqn:Hu; [destruct (c_T c) as [T|] eqn:HT|].
      + destruct o as [p|].
        * destruct IA as (G2 & G3 & G4 & G5 & G6 & G7 & G8 & G9 & G10 & G11).
          destruct (C62_update_thermo c u T s Hu HT (Hv u eq_refl) (Hsc T eq_refl) G5 G6) as (s' & -> & (S1 & S2 & S3 & S4 & S5 & S6 & S7 & S8 & S9) & _ & Sh & D & D' & Ekeep).
          cbn [snd]. split; [apply Sh|]. cbn [thermo_agrees t_gamma t_theta t_mu t_lambda t_alpha t_u t_T]. rewrite S1, S2, S3, S6, S8. repeat (split; [assumption|]).
          assert (A3 : (4 <= fst (kernel_block tst 3))%nat) by (rewrite tst_list; unfold kernel_block, kernel_offsets; cbn [psums psums_from nth fst]; lia).
          split; [|split; [|split; [exact D | exact D']]].
          -- apply (matrix_data_eq tst (coeffs s) _ _ _ (fst (kernel_block tst 3))); auto; try (rewrite tst_list; unfold kernel_block, kernel_offsets; cbn [psums psums_from nth fst]; lia).
          -- intros i Hi e He. rewrite Ekeep by (auto; lia). now apply G9.
        * destruct IA as (G1 & G2 & G3 & G4). unfold update_kernel_data. rewrite Hu, HT, update_function_rows, update_gradient_rows, update_function_rows. cbn [snd with_coeffs coeffs thermo_agrees kernel_rhs kernel_jac kernel_thermo_el].
          split; [now rewrite !for_pairs_length|]. split; auto. split; auto. split; auto.
          apply no_rows_write; [now rewrite !for_pairs_length|]. apply no_rows_write; [now rewrite for_pairs_length|]. now apply no_rows_write.
      + rewrite C62_update_rejected by (right; right; right; auto). cbn [snd]. destruct o; auto.
      + rewrite C62_update_rejected by (right; right; right; auto). cbn [snd]. destruct o; auto.
  Qed.

  Theorem C63_poisson_history :
    forall calls, Forall call_functions_ok calls -> poisson_agrees (fold_left poisson_step calls None) (run calls).
  Proof.
    intros calls Hok. enough (G : length (coeffs_poisson (run calls)) = num_pairs /\ poisson_agrees (fold_left poisson_step calls None) (run calls)) by apply G.
    induction calls as [|k calls IH] using rev_ind.
    { unfold run_tie. cbn [fold_left]. split; [apply repeat_length|]. repeat split. apply no_rows_init. }
    apply Forall_app in Hok as [Hok Hk]. apply Forall_inv in Hk. destruct (IH Hok) as [IL IA]. clear IH.
    unfold run_tie. rewrite !fold_left_app. cbn [fold_left]. fold (run calls). set (o := fold_left poisson_step calls None) in *. set (s := run calls) in *.
    assert (Dec : call_type k = Poisson \/ call_type k <> Poisson) by (destruct (call_type k); auto; right; discriminate).
    destruct Dec as [Et | Et].
    2: { destruct (elastic_call_keeps s k Et) as (K1 & K2 & K3 & K4 & K5). rewrite K3. split; auto.
         replace (poisson_step o k) with o by (destruct k as [[] ? ? ?|[] ?]; cbn in Et; try congruence; reflexivity).
         unfold poisson_agrees. destruct o; rewrite K1, K2, K3, ?K4, ?K5; auto. }
    destruct k as [pt c g t|pt c]; cbn [call_type] in Et; subst pt; destruct Hk as [_ Hsc].
    - cbn [poisson_step]. unfold do_tie. destruct (c_kdt c) as [kdt|] eqn:Hk.
      + assert (D : state_data pst (coeffs_poisson s) (match o with Some p => p_T p | None => None end)).
        { destruct o; [apply IA | apply empty_displacement; apply IA]. }
        destruct (C61_poisson_rows c g t s kdt _ IL D Hk Hsc) as (_ & G2 & G3 & G5 & G6 & G7 & G8 & G9).
        split; [apply G6|]. repeat (split; [assumption|]). exact G9.
      + rewrite C50_missing_rejected by (left; cbn; auto). auto.
    - cbn [poisson_step]. unfold do_tie. destruct (c_T c) as [T|] eqn:HT.
      + destruct o as [p|].
        * destruct IA as (G2 & G3 & G5 & G6 & G7 & G8 & G9). destruct (C62_update_poisson c T s HT (Hsc T eq_refl) G5 G6) as (s' & -> & (S1 & S2 & S3 & S4 & S5 & S6 & S7 & S8 & S9) & _ & Sh & D & Ekeep).
          cbn [snd]. split; [apply Sh|]. cbn [poisson_agrees p_gamma p_theta p_kdt p_T]. rewrite S4, S5, S7, S9. repeat (split; [assumption|]). split; [|exact D].
          assert (A3 : (fst (kernel_block pst 3) = 2 + L0 + L1)%nat) by offset. rewrite A3 in Ekeep.
          intros i Hi. destruct (G8 i Hi) as (X1 & X2 & X3 & X4). repeat split.
          -- intros e He. rewrite Ekeep by (auto; lia). now apply X1.
          -- intros e He. rewrite Ekeep by (auto; lia). now apply X2.
          -- intros e q He Hq. assert ((fst (kernel_block pst 1) + q < 2 + L0 + L1)%nat) by (change (nth 1 pst 0%nat) with L0 in Hq; replace (fst (kernel_block pst 1)) with 2%nat by (symmetry; offset); lia).
             rewrite Ekeep by auto. now apply X3.
          -- intros e q He Hq. assert ((fst (kernel_block pst 2) + q < 2 + L0 + L1)%nat) by (change (nth 2 pst 0%nat) with L1 in Hq; replace (fst (kernel_block pst 2)) with (2 + L0)%nat by (symmetry; offset); lia).
             rewrite Ekeep by auto. now apply X4.
        * destruct IA as (G1 & G2 & G3). unfold update_kernel_data. rewrite HT, update_gradient_rows, update_function_rows. cbn [snd with_coeffs_poisson coeffs_poisson poisson_agrees kernel_rhs_poisson kernel_jac_poisson].
          split; [now rewrite !for_pairs_length|]. split; auto. split; auto. apply no_rows_write; [now rewrite for_pairs_length|]. now apply no_rows_write.
      + rewrite C62_update_rejected by auto. cbn [snd]. destruct o; auto.
  Qed.

  (** Every assembly call of a vector or matrix uses a kernel that was generated
      for the row length it is given, in histories of one mechanical problem. *)
  Definition calls_consistent (l : list assembly_call) : Prop :=
    forall i kern data stride cs, In (i, kern, data, stride, cs) l -> exists st, kern = Some st /\ stride = sum_nat st /\ length data = (stride * num_facets i)%nat /\ (i < num_pairs)%nat.

  Theorem C63_assembly_consistent :
    forall calls, Forall call_functions_ok calls ->
      (Forall (fun k => call_type k <> ThermoElasticity) calls -> fold_left elastic_step calls None <> None ->
         calls_consistent (snd (assemble_vector_calls num_pairs Elasticity (run calls))) /\ calls_consistent (snd (assemble_matrix_calls num_pairs Elasticity (run calls)))) /\
      (Forall (fun k => call_type k <> Elasticity) calls -> fold_left thermo_step calls None <> None ->
         calls_consistent (snd (assemble_vector_calls num_pairs ThermoElasticity (run calls))) /\ calls_consistent (snd (assemble_matrix_calls num_pairs ThermoElasticity (run calls)))) /\
      (fold_left poisson_step calls None <> None ->
         calls_consistent (snd (assemble_vector_calls num_pairs Poisson (run calls))) /\ calls_consistent (snd (assemble_matrix_calls num_pairs Poisson (run calls)))).
  Proof.
    intros calls Hok. split; [|split].
    - intros Hty Hn. pose proof (C63_elastic_history calls Hok Hty) as A. destruct (fold_left elastic_step calls None) as [p|]; [|congruence].
      destruct A as (G2 & G3 & G5 & G6 & _). destruct G6 as [_ G6].
      split; intros i kern data stride cs H; cbn [assemble_vector_calls assemble_matrix_calls snd] in H; apply in_map_iff in H as (j & E & Hj); apply in_seq in Hj; inversion E; subst;
        exists est; rewrite ?G2, ?G3, G5; repeat split; auto; try (apply G6; lia); lia.
    - intros Hty Hn. pose proof (C63_thermo_history calls Hok Hty) as A. destruct (fold_left thermo_step calls None) as [p|]; [|congruence].
      destruct A as (G2 & G3 & G4 & G5 & G6 & _). destruct G6 as [_ G6].
      split; intros i kern data stride cs H; cbn [assemble_vector_calls assemble_matrix_calls snd] in H.
      + apply in_flat_map in H as (j & Hj & [E | [E | []]]); apply in_seq in Hj; inversion E; subst; exists tst; rewrite ?G2, ?G4, G5; repeat split; auto; try (apply G6; lia); lia.
      + apply in_map_iff in H as (j & E & Hj); apply in_seq in Hj; inversion E; subst; exists tst; rewrite ?G2, ?G3, G5; repeat split; auto; try (apply G6; lia); lia.
    - intros Hn. pose proof (C63_poisson_history calls Hok) as A. destruct (fold_left poisson_step calls None) as [p|]; [|congruence].
      destruct A as (G2 & G3 & G5 & G6 & _). destruct G6 as [_ G6].
      split; intros i kern data stride cs H; cbn [assemble_vector_calls assemble_matrix_calls snd] in H; apply in_map_iff in H as (j & E & Hj); apply in_seq in Hj; inversion E; subst;
        exists pst; rewrite ?G2, ?G3, G5; repeat split; auto; try (apply G6; lia); lia.
  Qed.
End History.
Print Assumptions C62_update_elastic.
Print Assumptions C62_update_thermo.
Print Assumptions C62_update_poisson.
Print Assumptions C62_update_rejected.
Print Assumptions C61_elastic_rows.
Print Assumptions C61_thermo_rows.
Print Assumptions C61_poisson_rows.
Print Assumptions C63_elastic_history.
Print Assumptions C63_thermo_history.
Print Assumptions C63_poisson_history.
Print Assumptions C63_assembly_consistent.

(** ** A concrete problem: one pair with two facets, one quadrature point, one
    dof, dimension 1, one link; functions are numbers. *)
Section Toy.
  Definition rows2 (f : nat -> R) (n : nat) : list R * nat := (map f (seq 0 (2 * n)), n).
  Definition toy_h (i : nat) : list R := [1; 2].
  Definition toy_pack (n : nat) (i : nat) (f : R) : list R * nat := rows2 (fun k => f + INR k) n.
  Definition toy_test (vec : bool) (i : nat) : list R * nat := rows2 (fun k => 10 + INR k) 1.
  Definition toy_run := run_tie toy_h (toy_pack 1) (toy_pack 1) (toy_pack 1) (toy_pack 1) (toy_pack 1) toy_test toy_test 1 (fun _ => 2%nat) 1 1 1 1.
  Definition full (x : R) : coefficients := {| c_mu := Some x; c_lambda := Some x; c_alpha := Some x; c_kdt := Some x; c_u := Some x; c_T := Some x |}.

  (** The hypotheses of the theorems hold. *)
  Example toy_hypotheses :
    (forall i f, snd (toy_pack 1 i f) = 1%nat) /\ (forall vec i, snd (toy_test vec i) = len_test 1 1 (if vec then 1 else 1) 1) /\
    (forall vec i, snd (toy_test vec i) = len_grad_test 1 1 1 1) /\
    Forall (call_functions_ok (toy_pack 1) (toy_pack 1) (toy_pack 1) (toy_pack 1) 1 1) [TGenerate Elasticity (full 1) 10 1; TGenerate Poisson (full 2) 10 1; TUpdate Elasticity (full 3)].
  Proof.
    repeat split.
    - intros [] i; reflexivity.
    - repeat apply Forall_cons; try apply Forall_nil; cbn; split; intros; intros i; repeat split.
  Qed.
  Example toy_elastic : fold_left elastic_step [TGenerate Elasticity (full 1) 10 1; TGenerate Poisson (full 2) 10 1; TUpdate Elasticity (full 3)] None =
    Some {| e_mu := 1; e_lambda := 1; e_gamma := 10; e_theta := 1; e_u := Some 3 |}.
  Proof. reflexivity. Qed.

  (** The mechanical problem types share rows and kernels.  After generating
      thermo-elastic data and then elastic data, assembling the thermo-elastic
      vector calls a kernel on rows of another length. *)
  Theorem C63_mixed_types_refuted :
    exists calls, Forall (call_functions_ok (toy_pack 1) (toy_pack 1) (toy_pack 1) (toy_pack 1) 1 1) calls /\
      fold_left thermo_step calls None <> None /\ fold_left elastic_step calls None <> None /\
      ~ calls_consistent 1 (fun _ => 2%nat) (snd (assemble_vector_calls 1 ThermoElasticity (toy_run calls))).
  Proof.
    exists [TGenerate ThermoElasticity (full 1) 10 1; TGenerate Elasticity (full 1) 10 1].
    split; [repeat apply Forall_cons; try apply Forall_nil; cbn; split; intros; intros i; repeat split|]. split; [discriminate|]. split; [discriminate|].
    intros H. set (s := toy_run _) in H. destruct (H 0%nat (kernel_thermo_el s) (nth 0 (coeffs s) []) (cstride s) (consts s)) as (st & K & S & _).
    - cbn. auto.
    - change (kernel_thermo_el s) with (Some [4; 1; 1; 1; 1; 1; 1; 1; 1]%nat) in K. change (cstride s) with 9%nat in S. inversion K; subst st. cbn in S. discriminate.
  Qed.
End Toy.
Print Assumptions C63_mixed_types_refuted.
