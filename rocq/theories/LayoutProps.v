(** Properties C23, C24: the coefficient layouts agree. *)
From Coq Require Import List Arith Lia.
Import ListNotations.
From Verif Require Import Prelude PreludeLemmas LayoutModel.

(** ** Specification *)

(** The blocks partition [0, total): each index lies in exactly one block. *)
Definition inside (b : nat * nat) (p : nat) : Prop := fst b <= p < snd b.
Definition partition_of (blocks : list (nat * nat)) (total : nat) : Prop :=
  (forall b p, In b blocks -> inside b p -> p < total) /\
  forall p, p < total ->
    exists k, k < length blocks /\ inside (nth k blocks (0, 0)) p /\
      forall k', k' < length blocks -> inside (nth k' blocks (0, 0)) p -> k' = k.

(** ** Proofs *)
Definition blocks_of (strides : list nat) : list (nat * nat) := map (kernel_block strides) (seq 0 (length strides)).

Lemma psums_partition strides : partition_of (blocks_of strides) (sum_nat strides).
Proof.
  assert (Hn : forall k, k < length strides -> nth k (blocks_of strides) (0, 0) = kernel_block strides k).
  { intros k Hk. unfold blocks_of. rewrite (nth_map_lt _ _ k (0,0) 0) by (now rewrite seq_length). rewrite seq_nth; auto. }
  assert (Hl : length (blocks_of strides) = length strides) by (unfold blocks_of; now rewrite map_length, seq_length).
  split.
  - intros b p Hb Hp. unfold blocks_of in Hb. apply in_map_iff in Hb. destruct Hb as (k & <- & Hk). apply in_seq in Hk.
    unfold inside, kernel_block, kernel_offsets in Hp. cbn in Hp.
    assert (nth (S k) (psums strides) 0 <= nth (length strides) (psums strides) 0) by (apply psums_mono; lia).
    rewrite psums_last in *. lia.
  - intros p Hp. rewrite <- psums_last in Hp.
    assert (G : forall m, m <= length strides -> p < nth m (psums strides) 0 ->
       exists k, k < m /\ nth k (psums strides) 0 <= p < nth (S k) (psums strides) 0).
    { induction m as [|m IH]; intros Hm Hpm; [rewrite psums_0 in Hpm; lia|].
      destruct (Nat.lt_ge_cases p (nth m (psums strides) 0)) as [L|L].
      - destruct (IH ltac:(lia) L) as (k & Hk & H). exists k. split; [lia|auto].
      - exists m. split; [lia|auto]. }
    destruct (G _ (le_n _) Hp) as (k & Hk & H1). exists k. rewrite Hl. split; auto. split; [rewrite Hn by auto; exact H1|].
    intros k' Hk' H2. rewrite Hn in H2 by auto. unfold inside, kernel_block, kernel_offsets in H2. cbn in H2.
    destruct (Nat.lt_trichotomy k' k) as [L|[E|L]]; auto; exfalso.
    + assert (nth (S k') (psums strides) 0 <= nth k (psums strides) 0) by (apply psums_mono; lia). lia.
    + assert (nth (S k) (psums strides) 0 <= nth k' (psums strides) 0) by (apply psums_mono; lia). lia.
Qed.

Lemma test_index_block offset np nd bs ml k i q n :
  k < ml -> i < nd -> q < np -> n < bs ->
  inside (offset, offset + np * nd * bs * ml) (kernel_test_index offset np nd bs k i q n).
Proof.
  intros Hk Hi Hq Hn. unfold inside, kernel_test_index. cbn.
  assert (q * bs + n < np * bs) by nia.
  assert (i * (np * bs) + (q * bs + n) < nd * (np * bs)) by nia.
  assert (k * (nd * (np * bs)) + (i * (np * bs) + (q * bs + n)) < ml * (nd * (np * bs))) by nia. nia.
Qed.

(** ** C23 *)

(** With block size equal to the geometric dimension, the blocks Python writes
    are the blocks the kernels read, the row length is coefficients_size, and the
    blocks partition the row. *)
Theorem C23_contact_layout :
  forall nq nd gdim ml : nat, 0 < nq -> 0 < gdim ->
    let n := contact_coefficients_size nq nd gdim gdim ml in
    let read := kernel_block (contact_kernel_strides nq nd gdim gdim ml) in
    read 0 = (0, 4) /\
    py_gap nq gdim = read 1 /\
    py_normals nq gdim = read 2 /\ py_old_normals_source nq gdim = read 2 /\
    py_test nq nd gdim ml = read 3 /\
    py_u nq nd gdim ml = read 4 /\
    py_grad_u nq nd gdim ml = read 5 /\
    py_u_opp nq nd gdim ml = read 6 /\
    py_old_normals_init nq gdim n = read 7 /\ py_old_normals_update nq nd gdim ml n = read 7 /\
    partition_of [read 0; read 1; read 2; read 3; read 4; read 5; read 6; read 7] n.
Proof.
  intros nq nd gdim ml Hq Hg n read.
  assert (Hp : partition_of [read 0; read 1; read 2; read 3; read 4; read 5; read 6; read 7] n)
    by exact (psums_partition (contact_kernel_strides nq nd gdim gdim ml)).
  assert (Hz : (nq * gdim =? 0) = false) by (apply Nat.eqb_neq; nia).
  assert (Hn : n = 4 + nq * gdim + nq * gdim + nq * nd * gdim * ml + nq * gdim + nq * gdim * gdim + nq * gdim + nq * gdim)
    by (unfold n, contact_coefficients_size, sum_nat; cbn [fold_right]; lia).
  split; [reflexivity|].
  repeat match goal with |- _ /\ _ => split end; try exact Hp;
  unfold read, kernel_block, kernel_offsets, contact_kernel_strides, psums; cbn [psums_from nth];
  repeat (progress (unfold py_gap, py_normals, py_old_normals_source, py_test, py_u, py_grad_u, py_u_opp, py_old_normals_init, py_old_normals_update; cbn [fst snd]));
  try rewrite Hz; rewrite ?Hn; f_equal; try nia.
Qed.
Print Assumptions C23_contact_layout.

(** Inside the test-function block: the kernels read the entry that
    pack_test_functions wrote, within the block, and different (link, function,
    point, component) never share an entry. *)
Theorem C23_test_function_index :
  forall offset np nd bs k i q n : nat,
    kernel_test_index offset np nd bs k i q n = offset + packed_test_index np nd bs k i q n /\
    (forall ml, k < ml -> i < nd -> q < np -> n < bs ->
       inside (offset, offset + np * nd * bs * ml) (kernel_test_index offset np nd bs k i q n)) /\
    (forall k' i' q' n', i < nd -> q < np -> n < bs -> i' < nd -> q' < np -> n' < bs ->
       kernel_test_index offset np nd bs k i q n = kernel_test_index offset np nd bs k' i' q' n' ->
       (k, i, q, n) = (k', i', q', n')).
Proof.
  intros offset np nd bs k i q n. split; [unfold kernel_test_index, packed_test_index; ring|]. split.
  - intros ml Hk Hi Hq Hn. apply test_index_block; auto.
  - intros k' i' q' n' Hi Hq Hn Hi' Hq' Hn' E. unfold kernel_test_index in E.
    assert (A : forall d a b a' b', b < d -> b' < d -> a * d + b = a' * d + b' -> a = a' /\ b = b').
    { intros d a b a' b' H1 H2 H3. assert (a = a') by nia. nia. }
    assert (E1 : (((k * nd + i) * np + q) * bs + n) = (((k' * nd + i') * np + q') * bs + n')) by nia.
    apply A in E1; auto. destruct E1 as [E1 ->]. apply A in E1; auto. destruct E1 as [E1 ->].
    apply A in E1; auto. destruct E1 as [-> ->]. reflexivity.
Qed.
Print Assumptions C23_test_function_index.

(** ** C24 *)
Theorem C24_meshtie_elastic_layout :
  forall nq nd gdim ml : nat,
    let read := kernel_block (elastic_strides nq nd gdim gdim ml) in
    read 0 = (0, 3) /\
    tie_static 3 nq nd gdim gdim ml = [read 1; read 2] /\
    tie_update 3 nq nd gdim gdim ml = [read 3; read 4; read 5; read 6] /\
    partition_of [read 0; read 1; read 2; read 3; read 4; read 5; read 6] (sum_nat (elastic_strides nq nd gdim gdim ml)) /\
    meshtie_coefficients_size nq nd gdim gdim ml = sum_nat (elastic_strides nq nd gdim gdim ml).
Proof.
  intros nq nd gdim ml read.
  assert (Hp : partition_of [read 0; read 1; read 2; read 3; read 4; read 5; read 6] (sum_nat (elastic_strides nq nd gdim gdim ml)))
    by exact (psums_partition (elastic_strides nq nd gdim gdim ml)).
  split; [reflexivity|]. split; [|split; [|split; [exact Hp|unfold meshtie_coefficients_size, elastic_strides, sum_nat; cbn [fold_right]; lia]]].
  - unfold read, kernel_block, kernel_offsets, elastic_strides, psums. cbn [psums_from nth].
    unfold tie_static, at_offset, len_test, len_grad_test. repeat (f_equal; try nia).
  - unfold read, kernel_block, kernel_offsets, elastic_strides, psums. cbn [psums_from nth].
    unfold tie_update, at_offset, len_u, len_grad_u. repeat (f_equal; try nia).
Qed.
Print Assumptions C24_meshtie_elastic_layout.

Theorem C24_meshtie_thermo_layout :
  forall nq nd gdim ml : nat,
    let read := kernel_block (thermo_strides nq nd gdim gdim ml) in
    read 0 = (0, 4) /\
    tie_static 4 nq nd gdim gdim ml = [read 1; read 2] /\
    tie_update 4 nq nd gdim gdim ml = [read 3; read 4; read 5; read 6] /\
    tie_temperature nq nd gdim gdim ml = [read 7; read 8] /\
    partition_of [read 0; read 1; read 2; read 3; read 4; read 5; read 6; read 7; read 8] (sum_nat (thermo_strides nq nd gdim gdim ml)).
Proof.
  intros nq nd gdim ml read.
  assert (Hp : partition_of [read 0; read 1; read 2; read 3; read 4; read 5; read 6; read 7; read 8] (sum_nat (thermo_strides nq nd gdim gdim ml)))
    by exact (psums_partition (thermo_strides nq nd gdim gdim ml)).
  split; [reflexivity|]. split; [|split; [|split; [|exact Hp]]].
  - unfold read, kernel_block, kernel_offsets, thermo_strides, psums. cbn [psums_from nth].
    unfold tie_static, at_offset, len_test, len_grad_test. repeat (f_equal; try nia).
  - unfold read, kernel_block, kernel_offsets, thermo_strides, psums. cbn [psums_from nth].
    unfold tie_update, at_offset, len_u, len_grad_u. repeat (f_equal; try nia).
  - unfold read, kernel_block, kernel_offsets, thermo_strides, psums. cbn [psums_from nth].
    unfold tie_temperature, at_offset, len_u. repeat (f_equal; try nia).
Qed.
Print Assumptions C24_meshtie_thermo_layout.

Theorem C24_meshtie_poisson_layout :
  forall nq nd gdim ml : nat,
    let read := kernel_block (poisson_strides nq nd gdim ml) in
    read 0 = (0, 2) /\
    tie_static 2 nq nd 1 gdim ml = [read 1; read 2] /\
    poisson_update nq nd gdim ml = [read 3; read 4; read 5; read 6] /\
    partition_of [read 0; read 1; read 2; read 3; read 4; read 5; read 6] (sum_nat (poisson_strides nq nd gdim ml)).
Proof.
  intros nq nd gdim ml read.
  assert (Hp : partition_of [read 0; read 1; read 2; read 3; read 4; read 5; read 6] (sum_nat (poisson_strides nq nd gdim ml)))
    by exact (psums_partition (poisson_strides nq nd gdim ml)).
  split; [reflexivity|]. split; [|split; [|exact Hp]].
  - unfold read, kernel_block, kernel_offsets, poisson_strides, psums. cbn [psums_from nth].
    unfold tie_static, at_offset, len_test, len_grad_test. repeat (f_equal; try nia).
  - unfold read, kernel_block, kernel_offsets, poisson_strides, psums. cbn [psums_from nth].
    unfold poisson_update, at_offset, len_u, len_grad_u. repeat (f_equal; try nia).
Qed.
Print Assumptions C24_meshtie_poisson_layout.

(** Inside the gradient block the kernels read what was packed. *)
Theorem C24_grad_test_index :
  forall np nd gdim k i q g : nat,
    kernel_grad_test_index np nd gdim k i q g = packed_grad_test_index np nd gdim k i q g /\
    (forall ml, k < ml -> i < nd -> q < np -> g < gdim -> kernel_grad_test_index np nd gdim k i q g < len_grad_test np nd gdim ml) /\
    (forall k' i' q' g', i < nd -> q < np -> g < gdim -> i' < nd -> q' < np -> g' < gdim ->
       kernel_grad_test_index np nd gdim k i q g = kernel_grad_test_index np nd gdim k' i' q' g' ->
       (k, i, q, g) = (k', i', q', g')).
Proof.
  intros np nd gdim k i q g. split; [unfold kernel_grad_test_index, packed_grad_test_index; ring|]. split.
  - intros ml Hk Hi Hq Hg. pose proof (test_index_block 0 np nd gdim ml k i q g Hk Hi Hq Hg) as H.
    unfold inside, kernel_test_index in H. cbn [fst snd] in H. unfold kernel_grad_test_index, len_grad_test. nia.
  - intros k' i' q' g' Hi Hq Hg Hi' Hq' Hg' E.
    destruct (C23_test_function_index 0 np nd gdim k i q g) as (_ & _ & H). apply (H k' i' q' g'); auto.
Qed.
Print Assumptions C24_grad_test_index.

(** Without "block size = geometric dimension" the layouts do not agree. *)
Example C24_block_size_needed :
  let read := kernel_block (elastic_strides 1 2 1 2 1) in
  tie_static 3 1 2 1 2 1 <> [read 1; read 2].
Proof. vm_compute. discriminate. Qed.
Example C23_nontrivial : contact_coefficients_size 3 6 2 2 3 = 154 /\ py_old_normals_update 3 6 2 3 154 = (148, 154).
Proof. vm_compute. auto. Qed.
