(** Property C50: mesh tie data generation; lemmas on row writing. *)
From Coq Require Import List Arith Lia Bool Reals Lra.
Import ListNotations.
From Verif Require Import Prelude PreludeLemmas LayoutModel LayoutProps MeshTieModel.
Local Open Scope R_scope.

(** ** Copying rows *)
Lemma copy_n_length src so n dst doff : length (copy_n src so n dst doff) = length dst.
Proof.
  unfold copy_n. apply (for_loop_inv (fun _ d => length d = length dst)); [reflexivity|]. intros k d _ H. now rewrite upd_length.
Qed.
Lemma nth_copy_n src so n dst doff j : (doff + n <= length dst)%nat ->
  nth j (copy_n src so n dst doff) 0 = if (doff <=? j)%nat && (j <? doff + n)%nat then nth (so + (j - doff)) src 0 else nth j dst 0.
Proof.
  unfold copy_n. intros H.
  enough (G : length (for_loop n (fun k d => upd d (doff + k) (nth (so + k) src 0)) dst) = length dst /\
    forall j, nth j (for_loop n (fun k d => upd d (doff + k) (nth (so + k) src 0)) dst) 0 = if (doff <=? j)%nat && (j <? doff + n)%nat then nth (so + (j - doff)) src 0 else nth j dst 0) by apply G.
  clear j. induction n as [|n IH].
  - split; [reflexivity|]. intros j. change (for_loop 0 _ dst) with dst. replace ((doff <=? j)%nat && (j <? doff + 0)%nat) with false; [reflexivity|].
    destruct (Nat.leb_spec doff j), (Nat.ltb_spec j (doff + 0)); cbn; auto; lia.
  - destruct IH as [L IH]; [lia|]. rewrite for_loop_S. split; [now rewrite upd_length|]. intros j.
    destruct (Nat.eq_dec j (doff + n)) as [-> | Hj].
    + rewrite nth_upd_same by lia. destruct (Nat.leb_spec doff (doff + n)), (Nat.ltb_spec (doff + n) (doff + S n)); cbn [andb]; try lia. do 2 f_equal. lia.
    + rewrite nth_upd_other by lia. rewrite IH. destruct (Nat.leb_spec doff j), (Nat.ltb_spec j (doff + n)), (Nat.ltb_spec j (doff + S n)); cbn [andb]; auto; lia.
Qed.

Lemma resize_length l n : length (resize l n) = n.
Proof. unfold resize. rewrite app_length, firstn_length, repeat_length. lia. Qed.
Lemma nth_resize l n j : (j < n)%nat -> nth j (resize l n) 0 = nth j l 0.
Proof.
  intros H. unfold resize. destruct (Nat.lt_ge_cases j (length l)) as [Hj | Hj].
  - rewrite app_nth1 by (rewrite firstn_length; lia). now apply nth_firstn.
  - rewrite app_nth2 by (rewrite firstn_length; lia). rewrite nth_repeat_0. now rewrite nth_overflow.
Qed.

Definition block : Type := nat * (list R * nat).
Definition write_row (stride : nat) (blocks : list block) (e : nat) (d : list R) : list R :=
  fold_left (fun d b => put (snd b) e stride (fst b) d) blocks d.
Definition write_rows (n stride : nat) (blocks : list block) (d : list R) : list R := for_loop n (write_row stride blocks) d.

(** What a sequence of block writes puts at column [c] of row [e]. *)
Definition row_value (blocks : list block) (e c : nat) (v : R) : R :=
  fold_left (fun v b => if (fst b <=? c)%nat && (c <? fst b + snd (snd b))%nat then nth (e * snd (snd b) + (c - fst b)) (fst (snd b)) 0 else v) blocks v.

Definition fits (stride : nat) (blocks : list block) : Prop := Forall (fun b : block => (fst b + snd (snd b) <= stride)%nat) blocks.

Lemma write_row_length stride blocks e d : length (write_row stride blocks e d) = length d.
Proof.
  unfold write_row. revert d. induction blocks as [|b bs IH]; intros d; cbn [fold_left]; auto. rewrite IH. unfold put. now rewrite copy_n_length.
Qed.
Lemma nth_write_row stride blocks e e' c d : fits stride blocks -> ((S e) * stride <= length d)%nat -> (c < stride)%nat ->
  nth (e' * stride + c) (write_row stride blocks e d) 0 = if (e' =? e)%nat then row_value blocks e c (nth (e' * stride + c) d 0) else nth (e' * stride + c) d 0.
Proof.
  intros Hf Hl Hc. unfold write_row, row_value. revert d Hl. induction Hf as [|b bs Hb Hf IH]; intros d Hl; cbn [fold_left].
  - destruct (e' =? e)%nat; reflexivity.
  - rewrite IH by (unfold put; now rewrite copy_n_length).
    assert (E : nth (e' * stride + c) (put (snd b) e stride (fst b) d) 0 =
      if (e' =? e)%nat then (if (fst b <=? c)%nat && (c <? fst b + snd (snd b))%nat then nth (e * snd (snd b) + (c - fst b)) (fst (snd b)) 0 else nth (e' * stride + c) d 0)
      else nth (e' * stride + c) d 0).
    { unfold put. rewrite nth_copy_n by (cbn in Hl; lia). destruct (Nat.eqb_spec e' e) as [-> | Hne].
      - replace (e * stride + fst b <=? e * stride + c)%nat with (fst b <=? c)%nat by (destruct (Nat.leb_spec (fst b) c), (Nat.leb_spec (e * stride + fst b) (e * stride + c)); auto; lia).
        replace (e * stride + c <? e * stride + fst b + snd (snd b))%nat with (c <? fst b + snd (snd b))%nat by (destruct (Nat.ltb_spec c (fst b + snd (snd b))), (Nat.ltb_spec (e * stride + c) (e * stride + fst b + snd (snd b))); auto; lia).
        destruct ((fst b <=? c)%nat && (c <? fst b + snd (snd b))%nat); auto. f_equal. f_equal. lia.
      - replace ((e * stride + fst b <=? e' * stride + c)%nat && (e' * stride + c <? e * stride + fst b + snd (snd b))%nat) with false; [reflexivity|]. symmetry.
        destruct (Nat.leb_spec (e * stride + fst b) (e' * stride + c)), (Nat.ltb_spec (e' * stride + c) (e * stride + fst b + snd (snd b))); cbn [andb]; auto. exfalso. nia. }
    destruct (e' =? e)%nat; rewrite E; reflexivity.
Qed.

Lemma write_rows_length n stride blocks d : length (write_rows n stride blocks d) = length d.
Proof. unfold write_rows. apply (for_loop_inv (fun _ d' => length d' = length d)); [reflexivity|]. intros k d' _ H. now rewrite write_row_length. Qed.
Lemma nth_write_rows n stride blocks d e c : fits stride blocks -> (stride * n <= length d)%nat -> (c < stride)%nat ->
  nth (e * stride + c) (write_rows n stride blocks d) 0 = if (e <? n)%nat then row_value blocks e c (nth (e * stride + c) d 0) else nth (e * stride + c) d 0.
Proof.
  intros Hf Hl Hc. unfold write_rows. induction n as [|n IH]; [reflexivity|]. rewrite for_loop_S.
  assert (L : length (for_loop n (write_row stride blocks) d) = length d) by apply write_rows_length.
  rewrite nth_write_row by (auto; rewrite L; nia). rewrite IH by nia.
  destruct (Nat.eqb_spec e n) as [-> | Hne].
  - rewrite Nat.ltb_irrefl. replace (n <? S n)%nat with true by (symmetry; apply Nat.ltb_lt; lia). reflexivity.
  - destruct (Nat.ltb_spec e n), (Nat.ltb_spec e (S n)); auto; lia.
Qed.

Section Tie.
  Context {F : Type}.
  Variables (pack_h : nat -> list R) (pack_coeff0 pack_q pack_grad_q pack_opp pack_grad_opp : nat -> F -> list R * nat)
    (pack_test pack_grad_test : bool -> nat -> list R * nat).
  Variables (num_pairs : nat) (num_facets : nat -> nat) (nq nd gdim ml : nat).
  Notation tie_init := (tie_init num_pairs).
  Notation for_pairs := (for_pairs num_pairs).
  Notation generate := (generate_kernel_data pack_h pack_coeff0 pack_q pack_grad_q pack_opp pack_grad_opp pack_test pack_grad_test num_pairs num_facets nq nd gdim ml).
  Notation update := (update_kernel_data pack_q pack_grad_q pack_opp pack_grad_opp num_pairs num_facets nq nd gdim ml).
  Notation run := (run_tie pack_h pack_coeff0 pack_q pack_grad_q pack_opp pack_grad_opp pack_test pack_grad_test num_pairs num_facets nq nd gdim ml).

  Lemma for_pairs_length f arr : length (for_pairs f arr) = length arr.
  Proof. unfold MeshTieModel.for_pairs. apply (for_loop_inv (fun _ a => length a = length arr)); [reflexivity|]. intros k a _ H. now rewrite upd_length. Qed.
  Lemma nth_for_pairs f arr i : length arr = num_pairs -> (i < num_pairs)%nat -> nth i (for_pairs f arr) [] = f i (nth i arr []).
  Proof.
    intros Ha Hi. unfold MeshTieModel.for_pairs.
    enough (G : forall n, (n <= num_pairs)%nat -> length (for_loop n (fun i a => upd a i (f i (nth i a []))) arr) = num_pairs /\
      forall j, nth j (for_loop n (fun i a => upd a i (f i (nth i a []))) arr) [] = if (j <? n)%nat then f j (nth j arr []) else nth j arr []).
    { destruct (G num_pairs (le_n _)) as [_ G2]. rewrite G2. now replace (i <? num_pairs)%nat with true by (symmetry; apply Nat.ltb_lt; lia). }
    induction n as [|n IH]; intros Hn; [split; auto|]. destruct IH as [L IH]; [lia|]. rewrite for_loop_S. split; [now rewrite upd_length|]. intros j.
    destruct (Nat.eq_dec j n) as [-> | Hj].
    - rewrite nth_upd_same by lia. rewrite IH, Nat.ltb_irrefl. now replace (n <? S n)%nat with true by (symmetry; apply Nat.ltb_lt; lia).
    - rewrite nth_upd_other by lia. rewrite IH. destruct (Nat.ltb_spec j n), (Nat.ltb_spec j (S n)); auto; lia.
  Qed.

  Definition entry (arr : list (list R)) (stride i e c : nat) : R := nth (e * stride + c) (nth i arr []) 0.
  Definition shaped (arr : list (list R)) (stride : nat) : Prop :=
    length arr = num_pairs /\ forall i, (i < num_pairs)%nat -> length (nth i arr []) = (stride * num_facets i)%nat.

  Lemma shaped_rows arr stride B : shaped arr stride -> shaped (for_pairs (fun i d => write_rows (num_facets i) stride (B i) d) arr) stride.
  Proof.
    intros [H1 H2]. split; [now rewrite for_pairs_length|]. intros i Hi. rewrite nth_for_pairs by auto. rewrite write_rows_length. auto.
  Qed.
  Lemma entry_rows arr stride B i e c : shaped arr stride -> (i < num_pairs)%nat -> (e < num_facets i)%nat -> (c < stride)%nat -> fits stride (B i) ->
    entry (for_pairs (fun i d => write_rows (num_facets i) stride (B i) d) arr) stride i e c = row_value (B i) e c (entry arr stride i e c).
  Proof.
    intros [H1 H2] Hi He Hc Hf. unfold entry. rewrite nth_for_pairs by auto. rewrite nth_write_rows by (auto; rewrite H2 by auto; lia).
    now replace (e <? num_facets i)%nat with true by (symmetry; apply Nat.ltb_lt; lia).
  Qed.

  (** ** C50 *)

  (** Coefficients each problem type requires. *)
  Definition required (pt : problem_type) (c : coefficients) : list (option F) :=
    match pt with
    | Elasticity => [c_mu c; c_lambda c]
    | Poisson => [c_kdt c]
    | ThermoElasticity => [c_mu c; c_lambda c; c_alpha c]
    | OtherProblem => []
    end.

  Theorem C50_missing_rejected :
    forall pt c gamma theta s, (In None (required pt c) \/ pt = OtherProblem) -> generate pt c gamma theta s = (InvalidArgument, s).
  Proof.
    intros pt c gamma theta s H. destruct pt; cbn [required In] in H; unfold generate_kernel_data.
    - destruct (c_mu c); [|reflexivity]. destruct (c_lambda c); [|reflexivity]. intuition congruence.
    - destruct (c_kdt c); [|reflexivity]. intuition congruence.
    - destruct (c_mu c); [|reflexivity]. destruct (c_lambda c); [|reflexivity]. destruct (c_alpha c); [|reflexivity]. intuition congruence.
    - reflexivity.
  Qed.

  (** Otherwise data is generated; the call still raises, after that, for
      thermo-elasticity with a displacement but no temperature. *)
  Theorem C50_otherwise_generated :
    forall pt c gamma theta s, ~ In None (required pt c) -> pt <> OtherProblem ->
      (fst (generate pt c gamma theta s) = InvalidArgument <-> pt = ThermoElasticity /\ c_u c <> None /\ c_T c = None) /\
      (pt = Poisson -> consts_poisson (snd (generate pt c gamma theta s)) = [gamma; theta]) /\
      (pt <> Poisson -> consts (snd (generate pt c gamma theta s)) = [gamma; theta]).
  Proof.
    intros pt c gamma theta s H H'. destruct pt; cbn [required In] in H; try congruence; unfold generate_kernel_data.
    - destruct (c_mu c); [|tauto]. destruct (c_lambda c); [|tauto]. cbn [update_kernel_data]. destruct (c_u c); cbn; (split; [|split]); try (split; [discriminate|intros (? & _); discriminate]); try discriminate; auto.
    - destruct (c_kdt c); [|tauto]. cbn [update_kernel_data]. destruct (c_T c); cbn; (split; [|split]); try (split; [discriminate|intros (? & _); discriminate]); try discriminate; auto; intros X; now elim X.
    - destruct (c_mu c); [|tauto]. destruct (c_lambda c); [|tauto]. destruct (c_alpha c); [|tauto]. cbn [update_kernel_data]. destruct (c_u c); cbn; [destruct (c_T c); cbn|]; (split; [|split]); try discriminate; auto.
      + split; [discriminate|intros (_ & _ & ?); discriminate].
      + split; auto. intros _. repeat split. discriminate.
      + split; [discriminate|intros (_ & X & _); now elim X].
  Qed.

  (** ** Rows *)

  (** Strides of the packed arrays. *)
  Hypothesis Lc : forall i f, snd (pack_coeff0 i f) = 1%nat.
  Hypothesis Ltest : forall vec i, snd (pack_test vec i) = len_test nq nd (if vec then gdim else 1) ml.
  Hypothesis Lgtest : forall vec i, snd (pack_grad_test vec i) = len_grad_test nq nd gdim ml.
  (** [u]: displacement (block size gdim), [T]: temperature. *)
  Definition vector_like (u : F) : Prop := forall i,
    snd (pack_q i u) = len_u nq gdim /\ snd (pack_opp i u) = len_u nq gdim /\ snd (pack_grad_q i u) = len_grad_u nq gdim gdim /\ snd (pack_grad_opp i u) = len_grad_u nq gdim gdim.
  Definition scalar_like (T : F) : Prop := forall i,
    snd (pack_q i T) = len_u nq 1 /\ snd (pack_opp i T) = len_u nq 1 /\ snd (pack_grad_q i T) = len_grad_u nq 1 gdim /\ snd (pack_grad_opp i T) = len_grad_u nq 1 gdim.

  Definition static_blocks (first : nat) (mu lm : F) (i : nat) : list block :=
    [(0%nat, pack_coeff0 i mu); (snd (pack_coeff0 i mu), pack_coeff0 i lm); ((snd (pack_coeff0 i mu) + snd (pack_coeff0 i lm))%nat, (pack_h i, 1%nat));
     (first, pack_test true i); ((first + snd (pack_test true i))%nat, pack_grad_test true i)].
  Definition fun_blocks (u : F) (o0 o1 i : nat) : list block := [(o0, pack_q i u); (o1, pack_opp i u)].
  Definition grad_blocks (u : F) (o0 o1 i : nat) : list block := [(o0, pack_grad_q i u); (o1, pack_grad_opp i u)].

  Lemma update_function_rows u arr o0 o1 size :
    update_function_data pack_q pack_opp num_pairs num_facets u arr o0 o1 size = for_pairs (fun i d => write_rows (num_facets i) size (fun_blocks u o0 o1 i) d) arr.
  Proof. reflexivity. Qed.
  Lemma update_gradient_rows u arr o0 o1 size :
    update_gradient_data pack_grad_q pack_grad_opp num_pairs num_facets u arr o0 o1 size = for_pairs (fun i d => write_rows (num_facets i) size (grad_blocks u o0 o1 i) d) arr.
  Proof. reflexivity. Qed.


  (** [arr] holds [src] (packed row by row) in the [k]-th block of a kernel that
      was generated with [strides]. *)
  Definition block_holds (strides : list nat) (arr : list (list R)) (i k : nat) (src : list R) : Prop :=
    forall e q, (e < num_facets i)%nat -> (q < nth k strides 0)%nat ->
      entry arr (sum_nat strides) i e (fst (kernel_block strides k) + q) = nth (e * nth k strides 0%nat + q) src 0.

  Lemma shaped_resized arr stride B : length arr = num_pairs ->
    shaped (for_pairs (fun i d => write_rows (num_facets i) stride (B i) (resize d (stride * num_facets i))) arr) stride.
  Proof.
    intros H. split; [now rewrite for_pairs_length|]. intros i Hi. rewrite nth_for_pairs by auto. now rewrite write_rows_length, resize_length.
  Qed.
  Lemma entry_resized arr stride B i e c : length arr = num_pairs -> (i < num_pairs)%nat -> (e < num_facets i)%nat -> (c < stride)%nat -> fits stride (B i) ->
    entry (for_pairs (fun i d => write_rows (num_facets i) stride (B i) (resize d (stride * num_facets i))) arr) stride i e c = row_value (B i) e c (entry arr stride i e c).
  Proof.
    intros H Hi He Hc Hf. unfold entry. rewrite nth_for_pairs by auto. rewrite nth_write_rows by (auto; rewrite resize_length; lia).
    replace (e <? num_facets i)%nat with true by (symmetry; apply Nat.ltb_lt; lia). f_equal. apply nth_resize. nia.
  Qed.
  Lemma row_value_app a b e c v : row_value (a ++ b) e c v = row_value b e c (row_value a e c v).
  Proof. unfold row_value. now rewrite fold_left_app. Qed.

  Lemma shaped_resized2 arr stride B B2 : length arr = num_pairs ->
    shaped (for_pairs (fun i d => write_rows (num_facets i) stride (B2 i) (write_rows (num_facets i) stride (B i) (resize d (stride * num_facets i)))) arr) stride.
  Proof.
    intros H. split; [now rewrite for_pairs_length|]. intros i Hi. rewrite nth_for_pairs by auto. now rewrite !write_rows_length, resize_length.
  Qed.
  Lemma entry_resized2 arr stride B B2 i e c : length arr = num_pairs -> (i < num_pairs)%nat -> (e < num_facets i)%nat -> (c < stride)%nat -> fits stride (B i) -> fits stride (B2 i) ->
    entry (for_pairs (fun i d => write_rows (num_facets i) stride (B2 i) (write_rows (num_facets i) stride (B i) (resize d (stride * num_facets i)))) arr) stride i e c
    = row_value (B2 i) e c (row_value (B i) e c (entry arr stride i e c)).
  Proof.
    intros H Hi He Hc Hf Hf2. unfold entry. rewrite nth_for_pairs by auto. rewrite !nth_write_rows by (auto; rewrite ?write_rows_length, resize_length; lia).
    replace (e <? num_facets i)%nat with true by (symmetry; apply Nat.ltb_lt; lia). do 2 f_equal. apply nth_resize. nia.
  Qed.

End Tie.
Print Assumptions C50_missing_rejected.
Print Assumptions C50_otherwise_generated.
