(** Properties C48, C49, C58: histories of calls on a ContactProblem. *)
From Coq Require Import List Arith Lia Bool Reals Lra.
Import ListNotations.
From Verif Require Import Prelude PreludeLemmas LayoutModel ContactProblemModel.

(** Entry of an array; column [q] of the block the kernels read as number [k]
    (1 gap, 2 normals, 3 test functions, 4 u, 5 grad u, 6 opposite u, 7 old normals). *)
Definition at2 (M : matrix) (r c : nat) : R := nth c (nth r M []) 0%R.
Definition column (nq nd gdim k q : nat) : nat := (fst (kernel_block (contact_kernel_strides nq nd gdim gdim nq) k) + q)%nat.
Definition shape (M : matrix) (n m : nat) : Prop := length M = n /\ forall r, (r < n)%nat -> length (nth r M []) = m.

(** ** Arrays *)
Lemma write_shape M n m nr blk X : shape M n m -> shape (write_block nr blk X M) n m.
Proof.
  intros [H1 H2]. unfold write_block, shape. rewrite map_length, seq_length. split; auto. intros r Hr.
  rewrite (nth_map_lt _ _ r [] 0%nat) by (rewrite seq_length; lia). rewrite seq_nth by lia. cbn [Nat.add].
  destruct (r <? nr)%nat; auto. unfold splice. rewrite map_length, seq_length. auto.
Qed.

Lemma at2_write M n m nr a b X r c :
  shape M n m -> (r < n)%nat -> (c < m)%nat ->
  at2 (write_block nr (a, b) X M) r c =
  if (r <? nr)%nat && ((a <=? c)%nat && (c <? b)%nat) then at2 X r (c - a) else at2 M r c.
Proof.
  intros [H1 H2] Hr Hc. unfold at2, write_block.
  rewrite (nth_map_lt _ _ r [] 0%nat) by (rewrite seq_length; lia). rewrite seq_nth by lia. cbn [Nat.add fst snd].
  destruct (r <? nr)%nat; cbn [andb]; auto. unfold splice.
  rewrite (nth_map_lt _ _ c 0%R 0%nat) by (rewrite seq_length, H2; auto). rewrite seq_nth by (rewrite H2; auto). reflexivity.
Qed.

Lemma at2_read M n m a b r q : shape M n m -> (r < n)%nat -> (q < b - a)%nat -> at2 (read_block (a, b) M) r q = at2 M r (a + q).
Proof.
  intros [H1 H2] Hr Hq. unfold at2, read_block. cbn [fst snd].
  rewrite (nth_map_lt _ M r [] []) by lia. rewrite (nth_map_lt _ _ q 0%R 0%nat) by (rewrite seq_length; auto). rewrite seq_nth; auto.
Qed.

Lemma at2_add A B n m r c : shape A n m -> (r < n)%nat -> (c < m)%nat -> at2 (add_matrix A B) r c = (at2 A r c + at2 B r c)%R.
Proof.
  intros [H1 H2] Hr Hc. unfold at2, add_matrix.
  rewrite (nth_map_lt _ _ r [] 0%nat) by (rewrite seq_length; lia). rewrite seq_nth by lia. cbn [Nat.add].
  rewrite (nth_map_lt _ _ c 0%R 0%nat) by (rewrite seq_length, H2; auto). rewrite seq_nth by (rewrite H2; auto). reflexivity.
Qed.

Lemma zeros_shape n m : shape (zeros n m) n m.
Proof.
  unfold zeros, shape. rewrite repeat_length. split; auto. intros r Hr.
  rewrite (nth_indep _ [] (repeat 0%R m)) by (rewrite repeat_length; auto). rewrite nth_repeat_0. apply repeat_length.
Qed.
Lemma at2_zeros n m r c : at2 (zeros n m) r c = 0%R.
Proof.
  unfold at2, zeros. destruct (Nat.lt_ge_cases r n) as [Hr|Hr].
  - rewrite (nth_indep _ [] (repeat 0%R m)) by (rewrite repeat_length; auto). rewrite nth_repeat_0. apply nth_repeat_0.
  - rewrite (nth_overflow (repeat _ n)) by (rewrite repeat_length; auto). destruct c; auto.
Qed.

Lemma shape_ext A B n m : shape A n m -> shape B n m -> (forall r c, (r < n)%nat -> (c < m)%nat -> at2 A r c = at2 B r c) -> A = B.
Proof.
  intros [A1 A2] [B1 B2] H. apply (nth_ext' _ _ []); [lia|]. intros r Hr. apply (nth_ext' _ _ 0%R).
  - rewrite A2, B2; auto; lia.
  - intros c Hc. rewrite A2 in Hc by lia. apply (H r c); lia.
Qed.

(** ** Columns *)
Section Columns.
  Context (nq nd gdim : nat).
  Definition A1 : nat := (nq * gdim)%nat.
  Definition T1 : nat := (nq * gdim * nq * nd)%nat.
  Definition B1 : nat := (nq * gdim * gdim)%nat.
  Lemma columns_eq :
    py_gap nq gdim = (4, 4 + A1) /\ py_normals nq gdim = (4 + A1, 4 + 2 * A1) /\
    py_test nq nd gdim nq = (4 + 2 * A1, 4 + 2 * A1 + T1) /\ py_u nq nd gdim nq = (4 + 2 * A1 + T1, 4 + 3 * A1 + T1) /\
    py_grad_u nq nd gdim nq = (4 + 3 * A1 + T1, 4 + 3 * A1 + T1 + B1) /\
    py_u_opp nq nd gdim nq = (4 + 3 * A1 + T1 + B1, 4 + 4 * A1 + T1 + B1) /\
    contact_coefficients_size nq nd gdim gdim nq = (4 + 5 * A1 + T1 + B1) /\
    py_old_normals_update nq nd gdim nq (4 + 5 * A1 + T1 + B1) = (4 + 4 * A1 + T1 + B1, 4 + 5 * A1 + T1 + B1) /\
    py_old_normals_source nq gdim = (4 + A1, 4 + 2 * A1).
  Proof.
    unfold py_gap, py_normals, py_test, py_u, py_grad_u, py_u_opp, contact_coefficients_size, py_old_normals_update, py_old_normals_source.
    cbn zeta. cbn [fst snd].
    unfold py_normals, py_grad_u, py_u, py_gap. cbn zeta. cbn [fst snd]. unfold py_gap. cbn zeta. cbn [fst snd]. unfold A1, T1, B1.
    unfold sum_nat; cbn [fold_right].
    repeat match goal with |- _ /\ _ => split end; try reflexivity; try ring; apply f_equal2; ring.
  Qed.
  Lemma column_eq q :
    column nq nd gdim 1 q = 4 + q /\ column nq nd gdim 2 q = 4 + A1 + q /\ column nq nd gdim 3 q = 4 + 2 * A1 + q /\
    column nq nd gdim 4 q = 4 + 2 * A1 + T1 + q /\ column nq nd gdim 5 q = 4 + 3 * A1 + T1 + q /\
    column nq nd gdim 6 q = 4 + 3 * A1 + T1 + B1 + q /\ column nq nd gdim 7 q = 4 + 4 * A1 + T1 + B1 + q /\
    column nq nd gdim 0 q = q.
  Proof.
    unfold column, kernel_block, kernel_offsets, contact_kernel_strides. cbn [fst]. unfold A1, T1, B1.
    rewrite !psums_nth by (cbn [length]; lia).
    unfold sum_nat. cbn [firstn fold_right]. repeat match goal with |- _ /\ _ => split end; ring.
  Qed.
End Columns.

(** ** Histories *)
Section History.
  Context {F G D : Type} (move : G -> F -> G) (detect : G -> D)
    (pack_gap pack_normals pack_test : nat -> G -> D -> matrix)
    (pack_u pack_grad : nat -> F -> matrix) (pack_u_opp : nat -> G -> D -> F -> matrix)
    (pack_param : nat -> F -> matrix) (pack_h : nat -> matrix)
    (num_pairs : nat) (num_rows num_local : nat -> nat) (nq nd gdim : nat).

  Notation state := (@cp_state G D).
  Notation run := (run_calls move detect pack_gap pack_normals pack_test pack_u pack_grad pack_u_opp pack_param pack_h
                     num_pairs num_rows num_local nq nd gdim).
  Notation step := (do_call move detect pack_gap pack_normals pack_test pack_u pack_grad pack_u_opp pack_param pack_h
                     num_pairs num_rows num_local nq nd gdim).
  Notation upd_data := (update_data pack_u pack_grad pack_u_opp num_pairs num_local nq nd gdim).
  Notation upd_detection := (update_detection move detect pack_gap pack_normals pack_test pack_grad num_pairs num_local nq nd gdim).
  Notation gen := (generate detect pack_gap pack_normals pack_test pack_u pack_grad pack_u_opp pack_param pack_h
                     num_pairs num_rows num_local nq nd gdim).
  Notation col := (column nq nd gdim).

  Definition entry (s : state) (i r c : nat) : R := at2 (nth i (cp_coeffs s) []) r c.

  (** Specification: the submesh geometry, and the geometries of the latest and of
      the previous detection, as told by the calls alone. *)
  Record history := mkH { h_geom : G; h_latest : option (G * G) }.
  Definition given {A} (o : option A) : bool := match o with Some _ => true | None => false end.
  Definition hist_step (h : history) (c : @call F D) : history :=
    match c with
    | CallGenerate d _ _ =>
        if given (d_mu d) && given (d_lambda d) then
          mkH (h_geom h) (match h_latest h with None => Some (h_geom h, h_geom h) | Some (_, old) => Some (h_geom h, old) end)
        else h
    | CallDetection u =>
        let g := move (h_geom h) u in
        mkH g (match h_latest h with None => None | Some (cur, _) => Some (g, cur) end)
    | _ => h
    end.
  Definition history_of (g : G) (cs : list (@call F D)) : history := fold_left hist_step cs (mkH g None).

  (** *** Invariant *)
  Notation NC := (4 + 5 * A1 nq gdim + T1 nq nd gdim + B1 nq gdim)%nat.
  Definition shapes (s : state) : Prop :=
    if cp_ready s then length (cp_coeffs s) = num_pairs /\ (forall i, (i < num_pairs)%nat -> shape (nth i (cp_coeffs s) []) (num_rows i) NC)
    else cp_coeffs s = [].

  Lemma each_pair_nth f l i : (i < num_pairs)%nat -> nth i (each_pair num_pairs f l) [] = f i (nth i l []).
  Proof.
    intros Hi. unfold each_pair. rewrite (@nth_map_lt nat matrix _ _ i [] 0%nat) by (now rewrite seq_length). rewrite seq_nth; auto.
  Qed.
  Lemma each_pair_length f l : length (each_pair num_pairs f l) = num_pairs.
  Proof. unfold each_pair. now rewrite map_length, seq_length. Qed.

  Lemma write_params_shape i keys M n m : shape M n m -> shape (write_params pack_param pack_h i keys M) n m.
  Proof.
    intros H. unfold write_params. apply write_shape. set (k := length keys). clearbody k.
    induction k as [|k IH]; auto. rewrite for_loop_S. destruct (nth_error keys k); auto. now apply write_shape.
  Qed.

  (** Columns from 4 on are not touched by the parameters. *)
  Lemma write_params_frame i keys M n m r c :
    shape M n m -> (length keys <= 3)%nat -> (r < n)%nat -> (4 <= c < m)%nat ->
    at2 (write_params pack_param pack_h i keys M) r c = at2 M r c.
  Proof.
    intros H Hk Hr Hc. unfold write_params. set (k := length keys) in *.
    assert (G' : forall k, (k <= 3)%nat ->
      let M' := for_loop k (fun j M => match nth_error keys j with Some f => write_block (length M) (j, j + 1)%nat (pack_param i f) M | None => M end) M in
      shape M' n m /\ at2 M' r c = at2 M r c).
    { clear k Hk. induction k as [|k IH]; intros Hk; [split; auto|]. rewrite for_loop_S. cbn zeta. cbn zeta in IH.
      destruct IH as [I1 I2]; [lia|]. destruct (nth_error keys k); auto. split; [now apply write_shape|].
      rewrite (at2_write _ n m) by (auto; lia).
      destruct (Nat.leb_spec k c), (Nat.ltb_spec c (k + 1)); cbn [andb]; try lia; rewrite andb_false_r; auto. }
    destruct (G' k Hk) as [I1 I2]. cbn zeta. rewrite (at2_write _ n m) by (auto; lia).
    destruct (Nat.ltb_spec c 4); [lia|]. rewrite !andb_false_r. auto.
  Qed.

  Lemma material_keys_given (d : @coefficient_dict F) keys : material_keys d = Some keys ->
    given (d_mu d) && given (d_lambda d) = true /\ (length keys <= 3)%nat.
  Proof.
    unfold material_keys. destruct (d_mu d), (d_lambda d), (d_fric d); intros E; try discriminate; injection E as <-; cbn; auto.
  Qed.
  Lemma material_keys_missing (d : @coefficient_dict F) : material_keys d = None -> given (d_mu d) && given (d_lambda d) = false.
  Proof. unfold material_keys. destruct (d_mu d), (d_lambda d); intros E; try discriminate; auto. Qed.

  Ltac cols := destruct (columns_eq nq nd gdim) as (EQ1 & EQ2 & EQ3 & EQ4 & EQ5 & EQ6 & EQ7 & EQ8 & EQ9).

  Lemma update_data_shapes du s : shapes s -> shapes (upd_data du s).
  Proof.
    unfold shapes, update_data. destruct (cp_ready s) eqn:E; cbn [negb cp_ready cp_coeffs]; [|now rewrite E].
    intros [H1 H2]. rewrite each_pair_length. split; auto. intros i Hi. rewrite each_pair_nth by auto.
    do 3 apply write_shape. auto.
  Qed.

  Lemma generate_shapes d ga th s : shapes s -> shapes (gen d ga th s).
  Proof.
    intros H. unfold generate. cbn [cp_geom cp_map cp_coeffs cp_grad cp_consts cp_ready].
    destruct (material_keys d) as [keys|]; [|exact H].
    cbn zeta. set (s' := mkCP _ _ _ _ _ _). assert (Hs : shapes s').
    { unfold shapes, s'. cbn [cp_ready cp_coeffs]. rewrite each_pair_length. split; auto. intros i Hi.
      rewrite !each_pair_nth by auto. cols. unfold numcoeffs, ml. rewrite EQ7.
      assert (S0 : shape (nth i (if (length (cp_coeffs s) =? 0)%nat then map (fun i => zeros (num_rows i) NC) (seq 0 num_pairs) else cp_coeffs s) []) (num_rows i) NC).
      { destruct (Nat.eqb_spec (length (cp_coeffs s)) 0) as [E|E].
        - rewrite (@nth_map_lt nat matrix _ _ i [] 0%nat) by (now rewrite seq_length). rewrite seq_nth by auto. apply zeros_shape.
        - unfold shapes in H. destruct (cp_ready s); [apply H; auto|]. rewrite H in E. now cbn in E. }
      apply (write_params_shape i keys) in S0. set (M1 := write_params _ _ _ _ _) in *. clearbody M1.
      destruct (length (cp_coeffs s) =? 0)%nat; repeat apply write_shape; exact S0. }
    destruct (d_du d); [now apply update_data_shapes|auto].
  Qed.

  Lemma update_detection_shapes u s : shapes s -> shapes (upd_detection u s).
  Proof.
    unfold shapes, update_detection. destruct (cp_ready s) eqn:E; cbn [negb cp_ready cp_coeffs]; auto.
    intros [H1 H2]. rewrite each_pair_length. split; auto. intros i Hi. rewrite !each_pair_nth by auto.
    repeat apply write_shape. auto.
  Qed.

  Lemma step_shapes s c : shapes s -> shapes (step s c).
  Proof.
    destruct c; cbn [do_call].
    - apply generate_shapes.
    - apply update_data_shapes.
    - apply update_detection_shapes.
    - unfold update_nitsche. destruct (cp_consts s); auto.
    - auto.
  Qed.

  Lemma run_shapes g cs : shapes (run g cs).
  Proof.
    unfold run_calls. assert (H : shapes (cp_init detect g)) by reflexivity. revert H.
    generalize (cp_init detect g). induction cs as [|c cs IH]; intros s H; auto. cbn [fold_left]. apply IH, step_shapes, H.
  Qed.

  (** *** Effect and frame of update_contact_data *)
  Lemma update_data_entries du s i r c :
    shapes s -> cp_ready s = true -> (i < num_pairs)%nat -> (r < num_rows i)%nat -> (c < NC)%nat ->
    entry (upd_data du s) i r c =
    if (4 + 2 * A1 nq gdim + T1 nq nd gdim <=? c)%nat && (c <? 4 + 3 * A1 nq gdim + T1 nq nd gdim)%nat
    then at2 (pack_u i du) r (c - (4 + 2 * A1 nq gdim + T1 nq nd gdim))
    else if (4 + 3 * A1 nq gdim + T1 nq nd gdim <=? c)%nat && (c <? 4 + 3 * A1 nq gdim + T1 nq nd gdim + B1 nq gdim)%nat
    then at2 (add_matrix (pack_grad i du) (nth i (cp_grad s) [])) r (c - (4 + 3 * A1 nq gdim + T1 nq nd gdim))
    else if (r <? num_local i)%nat && ((4 + 3 * A1 nq gdim + T1 nq nd gdim + B1 nq gdim <=? c)%nat && (c <? 4 + 4 * A1 nq gdim + T1 nq nd gdim + B1 nq gdim)%nat)
    then at2 (pack_u_opp i (cp_geom s) (cp_map s) du) r (c - (4 + 3 * A1 nq gdim + T1 nq nd gdim + B1 nq gdim))
    else entry s i r c.
  Proof.
    intros Hs Hr Hi Hrow Hc. unfold entry, update_data. rewrite Hr. cbn [negb cp_coeffs].
    rewrite each_pair_nth by auto. unfold shapes in Hs. rewrite Hr in Hs. destruct Hs as [S1 S2]. specialize (S2 i Hi).
    cols. unfold ml. rewrite EQ4, EQ5, EQ6. cbn zeta.
    assert (L : forall M, shape M (num_rows i) NC -> length M = num_rows i) by (intros M [E _]; exact E).
    rewrite !(at2_write _ (num_rows i) NC) by (auto; repeat apply write_shape; auto).
    rewrite !(L (write_block _ _ _ _)) by (repeat apply write_shape; auto). rewrite (L (nth i (cp_coeffs s) [])) by auto.
    destruct (Nat.ltb_spec r (num_rows i)); [|lia]. cbn [andb].
    set (a := A1 nq gdim) in *. set (t := T1 nq nd gdim) in *. set (b := B1 nq gdim) in *. clearbody a t b.
    destruct (r <? num_local i)%nat; cbn [andb];
    repeat match goal with |- context [(?x <=? ?y)%nat] => destruct (Nat.leb_spec x y) end;
    repeat match goal with |- context [(?x <? ?y)%nat] => destruct (Nat.ltb_spec x y) end; cbn [andb]; auto; lia.
  Qed.

  Lemma update_data_ready du s : cp_ready (upd_data du s) = cp_ready s.
  Proof. unfold update_data. destruct (cp_ready s) eqn:E; cbn; auto. Qed.
  Lemma update_data_geom du s : cp_geom (upd_data du s) = cp_geom s.
  Proof. unfold update_data. destruct (cp_ready s) eqn:E; cbn; auto. Qed.

  (** *** Blocks of a detection *)
  Hypothesis Hlocal : forall i, (num_local i <= num_rows i)%nat.

  Definition blocks_hold (s : state) (cur old : G) : Prop :=
    forall i r, (i < num_pairs)%nat -> (r < num_local i)%nat ->
      (forall q, (q < nq * gdim)%nat ->
         entry s i r (col 1 q) = at2 (pack_gap i cur (detect cur)) r q /\
         entry s i r (col 2 q) = at2 (pack_normals i cur (detect cur)) r q /\
         entry s i r (col 7 q) = at2 (pack_normals i old (detect old)) r q) /\
      (forall q, (q < nq * gdim * nq * nd)%nat -> entry s i r (col 3 q) = at2 (pack_test i cur (detect cur)) r q).
  Definition inv (h : history) (s : state) : Prop :=
    shapes s /\ cp_geom s = h_geom h /\
    match h_latest h with
    | None => cp_ready s = false
    | Some (cur, old) => cp_ready s = true /\ blocks_hold s cur old
    end.

  Lemma update_data_blocks du s cur old : shapes s -> cp_ready s = true -> blocks_hold s cur old -> blocks_hold (upd_data du s) cur old.
  Proof.
    intros Hs Hr H i r Hi Hrow. pose proof (Hlocal i). destruct (H i r Hi Hrow) as [H1 H2]. split.
    - intros q Hq. destruct (H1 q Hq) as (K1 & K2 & K3). destruct (column_eq nq nd gdim q) as (C1 & C2 & C3 & C4 & C5 & C6 & C7 & _).
      rewrite C1, C2, C7 in *. fold (A1 nq gdim) in Hq.
      rewrite !update_data_entries by (auto; lia).
      set (a := A1 nq gdim) in *. set (t := T1 nq nd gdim) in *. set (b := B1 nq gdim) in *. clearbody a t b.
      destruct (r <? num_local i)%nat; cbn [andb];
      repeat split;
      repeat match goal with |- context [(?x <=? ?y)%nat] => destruct (Nat.leb_spec x y) end;
      repeat match goal with |- context [(?x <? ?y)%nat] => destruct (Nat.ltb_spec x y) end; cbn [andb]; auto; lia.
    - intros q Hq. specialize (H2 q Hq). destruct (column_eq nq nd gdim q) as (C1 & C2 & C3 & C4 & C5 & C6 & C7 & _).
      rewrite C3 in *. fold (T1 nq nd gdim) in Hq.
      rewrite !update_data_entries by (auto; lia).
      set (a := A1 nq gdim) in *. set (t := T1 nq nd gdim) in *. set (b := B1 nq gdim) in *. clearbody a t b.
      destruct (r <? num_local i)%nat; cbn [andb];
      repeat match goal with |- context [(?x <=? ?y)%nat] => destruct (Nat.leb_spec x y) end;
      repeat match goal with |- context [(?x <? ?y)%nat] => destruct (Nat.ltb_spec x y) end; cbn [andb]; auto; lia.
  Qed.

  Lemma detection_blocks u s cur old :
    shapes s -> cp_ready s = true -> blocks_hold s cur old ->
    blocks_hold (upd_detection u s) (move (cp_geom s) u) cur.
  Proof.
    intros Hs Hr H i r Hi Hrow. pose proof (Hlocal i). destruct (H i r Hi Hrow) as [H1 H2].
    unfold entry, update_detection. rewrite Hr. cbn [negb cp_coeffs]. rewrite !each_pair_nth by auto.
    unfold shapes in Hs. rewrite Hr in Hs. destruct Hs as [S1 S2]. specialize (S2 i Hi).
    cols. unfold numcoeffs, ml. rewrite EQ7, EQ8, EQ1, EQ2, EQ3, EQ9. cbn zeta.
    assert (L : forall M, shape M (num_rows i) NC -> length M = num_rows i) by (intros M [E _]; exact E).
    rewrite (L (nth i (cp_coeffs s) [])) by auto. unfold entry in *.
    split; intros q Hq; destruct (column_eq nq nd gdim q) as (C1 & C2 & C3 & C4 & C5 & C6 & C7 & _).
    - destruct (H1 q Hq) as (K1 & K2 & K3).
      rewrite C1, C2, C7 in *. fold (A1 nq gdim) in Hq.
      rewrite !(at2_write _ (num_rows i) NC) by (repeat apply write_shape; auto; lia).
      destruct (Nat.ltb_spec r (num_local i)); [|lia]. destruct (Nat.ltb_spec r (num_rows i)); [|lia]. cbn [andb].
      rewrite <- K2.
      assert (RD : forall x, x = 4 + 4 * A1 nq gdim + T1 nq nd gdim + B1 nq gdim + q ->
         at2 (read_block (4 + A1 nq gdim, 4 + 2 * A1 nq gdim) (nth i (cp_coeffs s) [])) r
          (x - (4 + 4 * A1 nq gdim + T1 nq nd gdim + B1 nq gdim)) = at2 (nth i (cp_coeffs s) []) r (4 + A1 nq gdim + q)).
      { intros x ->. replace (4 + 4 * A1 nq gdim + T1 nq nd gdim + B1 nq gdim + q - (4 + 4 * A1 nq gdim + T1 nq nd gdim + B1 nq gdim)) with q by lia.
        apply (at2_read _ (num_rows i) NC); auto; lia. }
      rewrite (RD _ eq_refl). clear RD.
      replace (4 + q - 4) with q by lia. replace (4 + A1 nq gdim + q - (4 + A1 nq gdim)) with q by lia.
      set (a := A1 nq gdim) in *. set (t := T1 nq nd gdim) in *. set (b := B1 nq gdim) in *. clearbody a t b.
      repeat split;
      repeat match goal with |- context [(?x <=? ?y)%nat] => destruct (Nat.leb_spec x y); try lia end;
      repeat match goal with |- context [(?x <? ?y)%nat] => destruct (Nat.ltb_spec x y); try lia end; cbn [andb]; auto; lia.
    - rewrite C3. fold (T1 nq nd gdim) in Hq.
      rewrite !(at2_write _ (num_rows i) NC) by (repeat apply write_shape; auto; lia).
      destruct (Nat.ltb_spec r (num_local i)); [|lia]. cbn [andb].
      replace (4 + 2 * A1 nq gdim + q - (4 + 2 * A1 nq gdim)) with q by lia.
      set (a := A1 nq gdim) in *. set (t := T1 nq nd gdim) in *. set (b := B1 nq gdim) in *. clearbody a t b.
      repeat match goal with |- context [(?x <=? ?y)%nat] => destruct (Nat.leb_spec x y); try lia end;
      repeat match goal with |- context [(?x <? ?y)%nat] => destruct (Nat.ltb_spec x y); try lia end; cbn [andb]; auto; lia.
  Qed.

  (** The state right before the final update_contact_data of a successful
      generation. *)
  Lemma generate_blocks d ga th s h keys :
    inv h s -> material_keys d = Some keys ->
    let h' := hist_step h (CallGenerate d ga th) in
    match h_latest h' with
    | None => False
    | Some (cur, old) => cp_geom (gen d ga th s) = h_geom h' /\ cp_ready (gen d ga th s) = true /\ blocks_hold (gen d ga th s) cur old
    end.
  Proof.
    intros (Hs & Hg & Hl) Ek h'. destruct (material_keys_given d keys Ek) as [E1 E2].
    unfold h'. cbn [hist_step]. rewrite E1. cbn [h_latest h_geom].
    pose (cur := h_geom h). pose (old := match h_latest h with None => h_geom h | Some (_, o) => o end).
    assert (EL : match h_latest h with None => Some (h_geom h, h_geom h) | Some (_, o) => Some (h_geom h, o) end = Some (cur, old)).
    { unfold cur, old. destruct (h_latest h) as [[x y]|]; auto. }
    rewrite EL. unfold generate. rewrite Ek. cbn [cp_geom cp_map cp_coeffs cp_grad cp_consts cp_ready]. cbn zeta.
    set (s' := mkCP _ _ _ _ _ _).
    assert (Hs' : shapes s').
    { pose proof (generate_shapes (mkDict (d_mu d) (d_lambda d) (d_fric d) (d_u d) None) ga th s Hs) as K.
      assert (Ek' : material_keys (mkDict (d_mu d) (d_lambda d) (d_fric d) (d_u d) None) = Some keys) by exact Ek.
      unfold generate in K. rewrite Ek' in K. exact K. }
    assert (HB : blocks_hold s' cur old).
    { intros i r Hi Hrow. pose proof (Hlocal i). unfold entry, s'. cbn [cp_coeffs]. rewrite !each_pair_nth by auto.
      cols. unfold numcoeffs, ml. rewrite EQ7, EQ1, EQ2, EQ3.
      set (new := (length (cp_coeffs s) =? 0)%nat).
      set (M0 := nth i (if new then map (fun i => zeros (num_rows i) NC) (seq 0 num_pairs) else cp_coeffs s) []).
      assert (S0 : shape M0 (num_rows i) NC).
      { unfold M0, new. destruct (Nat.eqb_spec (length (cp_coeffs s)) 0) as [E|E].
        - rewrite (@nth_map_lt nat matrix _ _ i [] 0%nat) by (now rewrite seq_length). rewrite seq_nth by auto. apply zeros_shape.
        - unfold shapes in Hs. destruct (cp_ready s); [apply Hs; auto|]. rewrite Hs in E. now cbn in E. }
      assert (Hnew : new = match h_latest h with None => true | Some _ => false end).
      { unfold new. unfold shapes in Hs. destruct (h_latest h) as [[x y]|].
        - destruct Hl as [Hr _]. rewrite Hr in Hs. destruct Hs as [Hs _]. rewrite Hs. destruct num_pairs; [lia|reflexivity].
        - rewrite Hl in Hs. rewrite Hs. reflexivity. }
      set (M1 := write_params pack_param pack_h i keys M0).
      assert (S1 : shape M1 (num_rows i) NC) by (apply write_params_shape; auto).
      assert (F1 : forall c, (4 <= c < NC)%nat -> at2 M1 r c = at2 M0 r c).
      { intros c Hc. apply (write_params_frame i keys M0 (num_rows i) NC); auto; lia. }
      clearbody M1.
      assert (EG : cp_geom s = cur) by exact Hg. rewrite EG.
      assert (OLD : forall q, (q < A1 nq gdim)%nat -> new = false ->
                at2 M0 r (4 + 4 * A1 nq gdim + T1 nq nd gdim + B1 nq gdim + q) = at2 (pack_normals i old (detect old)) r q).
      { intros q Hq En. unfold M0. rewrite En. rewrite Hnew in En. unfold old. destruct (h_latest h) as [[x y]|]; [|discriminate].
        destruct Hl as [_ Hl]. destruct (Hl i r Hi Hrow) as [K _]. destruct (K q Hq) as (_ & _ & K3).
        destruct (column_eq nq nd gdim q) as (_ & _ & _ & _ & _ & _ & C7 & _). rewrite C7 in K3. exact K3. }
      assert (INI : py_old_normals_init nq gdim NC = ((if A1 nq gdim =? 0 then 0 else NC - A1 nq gdim)%nat, NC)) by reflexivity.
      rewrite INI.
      split; intros q Hq; destruct (column_eq nq nd gdim q) as (C1 & C2 & C3 & C4 & C5 & C6 & C7 & _).
      - rewrite C1, C2, C7. fold (A1 nq gdim) in Hq. destruct (Nat.eqb_spec (A1 nq gdim) 0) as [Z|NZ]; [lia|].
        specialize (OLD q Hq).
        destruct new; [clear OLD|specialize (OLD eq_refl)];
        rewrite !(at2_write _ (num_rows i) NC) by (repeat apply write_shape; auto; lia);
        rewrite ?F1 by lia; rewrite ?OLD;
        destruct (Nat.ltb_spec r (num_local i)); try lia; cbn [andb].
        + assert (EO : old = cur) by (unfold old, cur; destruct (h_latest h); [discriminate|auto]). rewrite EO.
          replace (4 + q - 4) with q by lia. replace (4 + A1 nq gdim + q - (4 + A1 nq gdim)) with q by lia.
          replace (4 + 4 * A1 nq gdim + T1 nq nd gdim + B1 nq gdim + q - (NC - A1 nq gdim)) with q by lia.
          set (a := A1 nq gdim) in *. set (t := T1 nq nd gdim) in *. set (b := B1 nq gdim) in *. clearbody a t b.
          repeat split;
          repeat match goal with |- context [(?x <=? ?y)%nat] => destruct (Nat.leb_spec x y); try lia end;
          repeat match goal with |- context [(?x <? ?y)%nat] => destruct (Nat.ltb_spec x y); try lia end; cbn [andb]; auto; lia.
        + replace (4 + q - 4) with q by lia. replace (4 + A1 nq gdim + q - (4 + A1 nq gdim)) with q by lia.
          set (a := A1 nq gdim) in *. set (t := T1 nq nd gdim) in *. set (b := B1 nq gdim) in *. clearbody a t b.
          repeat split;
          repeat match goal with |- context [(?x <=? ?y)%nat] => destruct (Nat.leb_spec x y); try lia end;
          repeat match goal with |- context [(?x <? ?y)%nat] => destruct (Nat.ltb_spec x y); try lia end; cbn [andb]; auto; lia.
      - rewrite C3. fold (T1 nq nd gdim) in Hq.
        assert (HT : A1 nq gdim <> 0%nat) by (unfold T1, A1 in *; intros Z; rewrite Z in Hq; lia).
        destruct (Nat.eqb_spec (A1 nq gdim) 0) as [Z|NZ]; [lia|].
        destruct new;
        rewrite !(at2_write _ (num_rows i) NC) by (repeat apply write_shape; auto; lia);
        destruct (Nat.ltb_spec r (num_local i)); try lia; cbn [andb];
        replace (4 + 2 * A1 nq gdim + q - (4 + 2 * A1 nq gdim)) with q by lia;
        set (a := A1 nq gdim) in *; set (t := T1 nq nd gdim) in *; set (b := B1 nq gdim) in *; clearbody a t b;
        repeat match goal with |- context [(?x <=? ?y)%nat] => destruct (Nat.leb_spec x y); try lia end;
        repeat match goal with |- context [(?x <? ?y)%nat] => destruct (Nat.ltb_spec x y); try lia end; cbn [andb]; auto; lia. }
    destruct (d_du d) as [du|].
    - split; [rewrite update_data_geom; exact Hg|]. split; [rewrite update_data_ready; reflexivity|].
      apply update_data_blocks; auto.
    - split; [exact Hg|]. split; auto.
  Qed.

  Lemma step_inv h s c : inv h s -> inv (hist_step h c) (step s c).
  Proof.
    intros Hinv. split; [apply step_shapes, Hinv|]. destruct c as [d ga th|du|u|ga th|dm]; cbn [do_call].
    - destruct (material_keys d) as [keys|] eqn:Ek.
      + pose proof (generate_blocks d ga th s h keys Hinv Ek) as K. cbn zeta in K.
        destruct (h_latest (hist_step h (CallGenerate d ga th))) as [[cur old]|]; [|contradiction]. exact K.
      + cbn [hist_step]. rewrite (material_keys_missing d Ek). unfold generate. rewrite Ek. exact (proj2 Hinv).
    - destruct Hinv as (Hs & Hg & Hl). cbn [hist_step]. rewrite update_data_geom, update_data_ready. split; auto.
      destruct (h_latest h) as [[cur old]|]; auto. destruct Hl as [Hr Hl]. split; auto. apply update_data_blocks; auto.
    - destruct Hinv as (Hs & Hg & Hl). cbn [hist_step h_geom h_latest]. split.
      + unfold update_detection. rewrite <- Hg. destruct (cp_ready s); reflexivity.
      + destruct (h_latest h) as [[cur old]|].
        * destruct Hl as [Hr Hl]. split; [unfold update_detection; now rewrite Hr|]. rewrite <- Hg.
          apply (detection_blocks u s cur old); auto.
        * unfold update_detection. now rewrite Hl.
    - destruct Hinv as (Hs & Hg & Hl). cbn [hist_step]. unfold update_nitsche. destruct (cp_consts s); auto.
    - destruct Hinv as (Hs & Hg & Hl). cbn [hist_step]. auto.
  Qed.

  Lemma run_inv g cs : inv (history_of g cs) (run g cs).
  Proof.
    unfold run_calls, history_of.
    assert (H : inv (mkH g None) (cp_init detect g)) by (repeat split).
    revert H. generalize (cp_init detect g), (mkH g None). induction cs as [|c cs IH]; intros s h H; auto.
    cbn [fold_left]. apply IH, step_inv, H.
  Qed.

  (** ** C48 *)

  (** After any calls with at least one successful generation, every owned row
      holds the gap, normals and test functions of the latest detection and, as old
      normals, the normals of the previous one. *)
  Theorem C48_detection_history :
    forall g (cs : list (@call F D)) cur old, h_latest (history_of g cs) = Some (cur, old) ->
      let s := run g cs in
      forall i r, (i < num_pairs)%nat -> (r < num_local i)%nat ->
      (forall q, (q < nq * gdim)%nat ->
         entry s i r (col 1 q) = at2 (pack_gap i cur (detect cur)) r q /\
         entry s i r (col 2 q) = at2 (pack_normals i cur (detect cur)) r q /\
         entry s i r (col 7 q) = at2 (pack_normals i old (detect old)) r q) /\
      (forall q, (q < nq * gdim * nq * nd)%nat -> entry s i r (col 3 q) = at2 (pack_test i cur (detect cur)) r q).
  Proof.
    intros g cs cur old E s. destruct (run_inv g cs) as (_ & _ & H). rewrite E in H. apply H.
  Qed.

  (** The plain case: one generation followed by detections for u1 .. un. *)
  Theorem C48_old_normals :
    forall g d gamma theta us u mu lambda,
      d_mu d = Some mu -> d_lambda d = Some lambda ->
      let before := fold_left move us g in
      let s := run g (CallGenerate d gamma theta :: map CallDetection (us ++ [u])) in
      forall i r q, (i < num_pairs)%nat -> (r < num_local i)%nat -> (q < nq * gdim)%nat ->
        entry s i r (col 7 q) = at2 (pack_normals i before (detect before)) r q /\
        entry s i r (col 2 q) = at2 (pack_normals i (move before u) (detect (move before u))) r q.
  Proof.
    intros g d gamma theta us u mu lambda Em El before s i r q Hi Hr Hq.
    assert (E : h_latest (history_of g (CallGenerate d gamma theta :: map CallDetection (us ++ [u]))) = Some (move before u, before)).
    { unfold history_of. cbn [fold_left hist_step]. rewrite Em, El. cbn [given andb h_geom h_latest].
      rewrite map_app, fold_left_app. cbn [map fold_left hist_step]. unfold before.
      assert (K : forall us a b, exists b', fold_left hist_step (map (@CallDetection F D) us) (mkH a (Some (a, b))) =
                    mkH (fold_left move us a) (Some (fold_left move us a, b'))).
      { clear. induction us as [|u us IH]; intros a b; cbn [map fold_left]; [exists b; auto|]. apply IH. }
      destruct (K us g g) as [b' ->]. reflexivity. }
    destruct (C48_detection_history _ _ _ _ E i r Hi Hr) as [H _]. destruct (H q Hq) as (_ & H2 & H3). split; auto.
  Qed.

  (** ** C49 *)

  (** Any reachable state, any column: only the blocks 4, 5 (all rows) and 6 (owned
      rows) change, to values given by the increment, the accumulated gradient, the
      geometry and the contact map. *)
  Definition reachable (s : state) : Prop := exists g (cs : list (@call F D)), s = run g cs.

  Theorem C49_update_contact_data :
    forall s du, reachable s -> cp_ready s = true ->
      let s' := upd_data du s in
      cp_geom s' = cp_geom s /\ cp_map s' = cp_map s /\ cp_grad s' = cp_grad s /\ cp_consts s' = cp_consts s /\
      forall i r, (i < num_pairs)%nat -> (r < num_rows i)%nat ->
        (forall q, (q < nq * gdim)%nat -> entry s' i r (col 4 q) = at2 (pack_u i du) r q) /\
        (shape (pack_grad i du) (num_rows i) (nq * gdim * gdim) -> forall q, (q < nq * gdim * gdim)%nat ->
           entry s' i r (col 5 q) = (at2 (pack_grad i du) r q + at2 (nth i (cp_grad s) []) r q)%R) /\
        (forall q, (q < nq * gdim)%nat ->
           entry s' i r (col 6 q) =
           if (r <? num_local i)%nat then at2 (pack_u_opp i (cp_geom s) (cp_map s) du) r q else entry s i r (col 6 q)) /\
        (forall c, (c < numcoeffs nq nd gdim)%nat -> (c < col 4 0 \/ col 7 0 <= c)%nat -> entry s' i r c = entry s i r c).
  Proof.
    intros s du (g & cs & ->) Hr s'. pose proof (run_shapes g cs) as Hs.
    set (s := run g cs) in *.
    split; [apply update_data_geom|]. split; [unfold s', update_data; rewrite Hr; auto|]. split; [unfold s', update_data; rewrite Hr; auto|].
    split; [unfold s', update_data; rewrite Hr; auto|]. intros i r Hi Hrow. unfold numcoeffs, ml. cols. rewrite EQ7.
    fold (B1 nq gdim). fold (A1 nq gdim).
    split; [|split; [|split]].
    - intros q Hq. destruct (column_eq nq nd gdim q) as (C1 & C2 & C3 & C4 & C5 & C6 & C7 & _). rewrite C4.
      unfold s'. rewrite update_data_entries by (auto; lia).
      replace (4 + 2 * A1 nq gdim + T1 nq nd gdim + q - (4 + 2 * A1 nq gdim + T1 nq nd gdim)) with q by lia.
      repeat match goal with |- context [(?x <=? ?y)%nat] => destruct (Nat.leb_spec x y); try lia end;
      repeat match goal with |- context [(?x <? ?y)%nat] => destruct (Nat.ltb_spec x y); try lia end; cbn [andb]; auto; lia.
    - intros Hp q Hq. rewrite <- (at2_add _ _ (num_rows i) (B1 nq gdim)) by auto.
      destruct (column_eq nq nd gdim q) as (C1 & C2 & C3 & C4 & C5 & C6 & C7 & _). rewrite C5.
      unfold s'. rewrite update_data_entries by (auto; lia).
      replace (4 + 3 * A1 nq gdim + T1 nq nd gdim + q - (4 + 3 * A1 nq gdim + T1 nq nd gdim)) with q by lia.
      repeat match goal with |- context [(?x <=? ?y)%nat] => destruct (Nat.leb_spec x y); try lia end;
      repeat match goal with |- context [(?x <? ?y)%nat] => destruct (Nat.ltb_spec x y); try lia end; cbn [andb]; auto; lia.
    - intros q Hq. destruct (column_eq nq nd gdim q) as (C1 & C2 & C3 & C4 & C5 & C6 & C7 & _). rewrite C6.
      unfold s'. rewrite update_data_entries by (auto; lia).
      replace (4 + 3 * A1 nq gdim + T1 nq nd gdim + B1 nq gdim + q - (4 + 3 * A1 nq gdim + T1 nq nd gdim + B1 nq gdim)) with q by lia.
      destruct (r <? num_local i)%nat; cbn [andb];
      repeat match goal with |- context [(?x <=? ?y)%nat] => destruct (Nat.leb_spec x y); try lia end;
      repeat match goal with |- context [(?x <? ?y)%nat] => destruct (Nat.ltb_spec x y); try lia end; cbn [andb]; auto; lia.
    - intros c Hc Hd. destruct (column_eq nq nd gdim 0) as (_ & _ & _ & C4 & _ & _ & C7 & _). rewrite C4, C7 in Hd.
      unfold s'. rewrite update_data_entries by (auto; lia).
      destruct (r <? num_local i)%nat; cbn [andb];
      repeat match goal with |- context [(?x <=? ?y)%nat] => destruct (Nat.leb_spec x y); try lia end;
      repeat match goal with |- context [(?x <? ?y)%nat] => destruct (Nat.ltb_spec x y); try lia end; cbn [andb]; auto; lia.
  Qed.

  (** Earlier increments leave no trace. *)
  Theorem C49_last_increment_only :
    forall s du1 du2, reachable s -> upd_data du2 (upd_data du1 s) = upd_data du2 s.
  Proof.
    intros s du1 du2 (g & cs & ->). pose proof (run_shapes g cs) as Hs. set (s := run g cs) in *.
    destruct (cp_ready s) eqn:Hr; [|unfold update_data; rewrite Hr; cbn; rewrite Hr; reflexivity].
    pose proof (update_data_shapes du1 s Hs) as Hs1. pose proof (update_data_shapes du2 s Hs) as Hs2.
    pose proof (update_data_shapes du2 _ Hs1) as Hs12.
    pose proof (update_data_ready du1 s) as R1. rewrite Hr in R1. pose proof (update_data_ready du2 s) as R2. rewrite Hr in R2.
    pose proof (update_data_ready du2 (upd_data du1 s)) as R12. rewrite R1 in R12.
    assert (EC : cp_coeffs (upd_data du2 (upd_data du1 s)) = cp_coeffs (upd_data du2 s)).
    { unfold shapes in Hs12, Hs2. rewrite R12 in Hs12. rewrite R2 in Hs2. destruct Hs12 as [L12 S12], Hs2 as [L2 S2].
      apply (@nth_ext' matrix _ _ []); [congruence|]. intros i Hi. rewrite L12 in Hi.
      apply (shape_ext _ _ (num_rows i) NC); auto. intros r c Hrow Hc.
      change (entry (upd_data du2 (upd_data du1 s)) i r c = entry (upd_data du2 s) i r c).
      rewrite !update_data_entries by auto. rewrite update_data_geom.
      assert (EM : cp_map (upd_data du1 s) = cp_map s) by (unfold update_data; rewrite Hr; auto).
      assert (EG : cp_grad (upd_data du1 s) = cp_grad s) by (unfold update_data; rewrite Hr; auto).
      rewrite EM, EG.
      repeat match goal with |- context [if ?b then _ else _] => destruct b end; auto. }
    assert (Eta : forall t : state, t = mkCP (cp_geom t) (cp_map t) (cp_coeffs t) (cp_grad t) (cp_consts t) (cp_ready t)) by (intros []; reflexivity).
    rewrite (Eta (upd_data du2 (upd_data du1 s))), (Eta (upd_data du2 s)), EC, R12, R2, !update_data_geom.
    assert (P : forall du (t : state), cp_map (upd_data du t) = cp_map t /\ cp_grad (upd_data du t) = cp_grad t /\ cp_consts (upd_data du t) = cp_consts t).
    { intros du t. unfold update_data. destruct (cp_ready t); cbn; auto. }
    destruct (P du2 (upd_data du1 s)) as (-> & -> & ->). destruct (P du2 s) as (-> & -> & ->). destruct (P du1 s) as (-> & -> & ->). reflexivity.
  Qed.

  (** The accumulated gradient is that of the function given last to a successful
      generation or, after one, to a detection; zero when generated without one. *)
  Definition acc_step (a : option (option F)) (c : @call F D) : option (option F) :=
    match c with
    | CallGenerate d _ _ => if given (d_mu d) && given (d_lambda d) then Some (d_u d) else a
    | CallDetection u => match a with None => None | Some _ => Some (Some u) end
    | _ => a
    end.
  Theorem C49_accumulated_gradient :
    forall g (cs : list (@call F D)) o, fold_left acc_step cs None = Some o ->
      cp_grad (run g cs) = map (fun i => match o with Some u => pack_grad i u | None => zeros (num_rows i) (nq * gdim * gdim) end) (seq 0 num_pairs).
  Proof.
    intros g cs o E. unfold run_calls.
    assert (K : forall cs s (a : option (option F)),
       (match a with None => cp_ready s = false
        | Some o => cp_ready s = true /\ cp_grad s = map (fun i => match o with Some u => pack_grad i u | None => zeros (num_rows i) (nq * gdim * gdim) end) (seq 0 num_pairs) end) ->
       match fold_left acc_step cs a with
       | None => True
       | Some o => cp_grad (fold_left step cs s) = map (fun i => match o with Some u => pack_grad i u | None => zeros (num_rows i) (nq * gdim * gdim) end) (seq 0 num_pairs)
       end).
    { clear g cs o E. induction cs as [|c cs IH]; intros s a H; cbn [fold_left].
      - destruct a; [apply H|auto].
      - apply IH. destruct c as [d ga th|du|u|ga th|dm]; cbn [acc_step do_call].
        + unfold generate. destruct (material_keys d) as [keys|] eqn:Ek.
          * rewrite (proj1 (material_keys_given d keys Ek)). cbn zeta. destruct (d_du d); cbn; auto.
          * rewrite (material_keys_missing d Ek). exact H.
        + unfold update_data. destruct a as [o|].
          * destruct H as [Hr Hg]. rewrite Hr. cbn. auto.
          * rewrite H. cbn. auto.
        + unfold update_detection. destruct a as [o|].
          * destruct H as [Hr Hg]. rewrite Hr. cbn. auto.
          * rewrite H. cbn. auto.
        + unfold update_nitsche. destruct (cp_consts s); auto.
        + auto. }
    specialize (K cs (cp_init detect g) None eq_refl). rewrite E in K. exact K.
  Qed.

  (** ** C58 *)

  (** A generation without mu or lambda changes nothing but the Nitsche parameters. *)
  Theorem C58_missing_parameter_rejected :
    forall d gamma theta s, d_mu d = None \/ d_lambda d = None ->
      let s' := gen d gamma theta s in
      cp_coeffs s' = cp_coeffs s /\ cp_grad s' = cp_grad s /\ cp_geom s' = cp_geom s /\ cp_map s' = cp_map s /\
      cp_ready s' = cp_ready s /\ cp_consts s' = Some (gamma, theta).
  Proof.
    intros d gamma theta s H. unfold generate.
    assert (E : material_keys d = None) by (unfold material_keys; destruct H as [E|E]; rewrite E; destruct (d_mu d); auto).
    rewrite E. cbn. auto 10.
  Qed.

  Lemma params_entries i keys M n m r c :
    shape M n m -> (length keys <= 3)%nat -> (r < n)%nat -> (c < 4)%nat -> (c < m)%nat ->
    at2 (write_params pack_param pack_h i keys M) r c =
    if (c =? 3)%nat then at2 (pack_h i) r 0
    else match nth_error keys c with Some f => at2 (pack_param i f) r 0 | None => at2 M r c end.
  Proof.
    intros H Hk Hr Hc4 Hc. unfold write_params.
    assert (G' : forall k, (k <= length keys)%nat ->
      let M' := for_loop k (fun j M => match nth_error keys j with Some f => write_block (length M) (j, j + 1)%nat (pack_param i f) M | None => M end) M in
      shape M' n m /\ at2 M' r c = if (c <? k)%nat then match nth_error keys c with Some f => at2 (pack_param i f) r 0 | None => at2 M r c end else at2 M r c).
    { induction k as [|k IH]; intros Hk'; [split; auto|]. rewrite for_loop_S. cbn zeta. cbn zeta in IH.
      destruct IH as [I1 I2]; [lia|]. destruct (nth_error keys k) as [f|] eqn:Ef; [|apply nth_error_None in Ef; lia].
      split; [now apply write_shape|].
      rewrite (at2_write _ n m), I2 by auto. destruct I1 as [L _]. rewrite L.
      destruct (Nat.ltb_spec r n); [|lia]. cbn [andb].
      destruct (Nat.ltb_spec c (S k)), (Nat.ltb_spec c k), (Nat.leb_spec k c), (Nat.ltb_spec c (k + 1)); cbn [andb]; auto; try lia.
      assert (c = k) as -> by lia. rewrite Ef, Nat.sub_diag. reflexivity. }
    destruct (G' _ (le_n _)) as [I1 I2]. cbn zeta. rewrite (at2_write _ n m), I2 by auto. destruct I1 as [L _]. rewrite L.
    destruct (Nat.ltb_spec r n); [|lia]. cbn [andb].
    destruct (Nat.eqb_spec c 3) as [->|Hne]; [reflexivity|].
    destruct (Nat.leb_spec 3 c); [lia|]. cbn [andb].
    destruct (Nat.ltb_spec c (length keys)); auto. destruct (nth_error keys c) eqn:E; auto.
    assert (nth_error keys c <> None) as Q by congruence. apply nth_error_Some in Q. lia.
  Qed.

  (** A successful generation packs the parameters of every row; without a friction
      coefficient the friction column keeps what it had (zero the first time). *)
  Theorem C58_parameters_packed :
    forall d gamma theta s mu lambda, reachable s ->
      d_mu d = Some mu -> d_lambda d = Some lambda -> d_du d = None ->
      let s' := gen d gamma theta s in
      forall i r, (i < num_pairs)%nat -> (r < num_rows i)%nat -> (0 < nq * gdim)%nat ->
        entry s' i r 0 = at2 (pack_param i mu) r 0 /\
        entry s' i r 1 = at2 (pack_param i lambda) r 0 /\
        entry s' i r 2 = match d_fric d with
                         | Some f => at2 (pack_param i f) r 0
                         | None => if cp_ready s then entry s i r 2 else 0%R
                         end /\
        entry s' i r 3 = at2 (pack_h i) r 0.
  Proof.
    intros d gamma theta s mu lambda (g & cs & ->) Em El Ed s' i r Hi Hr Hpos. pose proof (run_shapes g cs) as Hs.
    set (s := run g cs) in *.
    assert (Ek : material_keys d = Some ([mu; lambda] ++ match d_fric d with Some f => [f] | None => [] end)) by (unfold material_keys; now rewrite Em, El).
    set (keys := [mu; lambda] ++ match d_fric d with Some f => [f] | None => [] end) in *.
    assert (Hk : (length keys <= 3)%nat) by (unfold keys; destruct (d_fric d); cbn; lia).
    assert (K : forall c, (c < 4)%nat -> entry s' i r c =
       if (c =? 3)%nat then at2 (pack_h i) r 0
       else match nth_error keys c with Some f => at2 (pack_param i f) r 0 | None => if cp_ready s then entry s i r c else 0%R end).
    { intros c Hc. unfold s', generate, entry. rewrite Ek, Ed. cbn [cp_geom cp_map cp_coeffs cp_grad cp_consts cp_ready]. cbn zeta. rewrite !each_pair_nth by auto.
      cols. unfold numcoeffs, ml. rewrite EQ7, EQ1, EQ2, EQ3.
      set (new := (length (cp_coeffs s) =? 0)%nat).
      set (M0 := nth i (if new then map (fun i => zeros (num_rows i) NC) (seq 0 num_pairs) else cp_coeffs s) []).
      assert (Hnew : new = negb (cp_ready s)).
      { unfold new. unfold shapes in Hs. destruct (cp_ready s).
        - destruct Hs as [Hs _]. rewrite Hs. destruct num_pairs; [lia|reflexivity].
        - rewrite Hs. reflexivity. }
      assert (S0 : shape M0 (num_rows i) NC /\ at2 M0 r c = if cp_ready s then at2 (nth i (cp_coeffs s) []) r c else 0%R).
      { unfold M0. rewrite Hnew. unfold shapes in Hs. destruct (cp_ready s); cbn [negb].
        - split; auto. apply Hs. auto.
        - rewrite (@nth_map_lt nat matrix _ _ i [] 0%nat) by (now rewrite seq_length). rewrite seq_nth by auto. split; [apply zeros_shape|apply at2_zeros]. }
      destruct S0 as [S0 V0].
      set (M1 := write_params pack_param pack_h i keys M0).
      assert (S1 : shape M1 (num_rows i) NC) by (apply write_params_shape; auto).
      assert (INI : py_old_normals_init nq gdim NC = ((NC - A1 nq gdim)%nat, NC)).
      { unfold py_old_normals_init. destruct (Nat.eqb_spec (nq * gdim) 0); [lia|reflexivity]. }
      rewrite INI. rewrite <- V0.
      rewrite <- (params_entries i keys M0 (num_rows i) NC) by (auto; lia). fold M1. clearbody M1.
      destruct new;
      rewrite !(at2_write _ (num_rows i) NC) by (repeat apply write_shape; auto; lia);
      set (a := A1 nq gdim) in *; set (t := T1 nq nd gdim) in *; set (b := B1 nq gdim) in *; clearbody a t b;
      repeat match goal with |- context [(?x <=? c)%nat] => destruct (Nat.leb_spec x c); try lia end;
      cbn [andb]; rewrite ?andb_false_r; reflexivity. }
    unfold keys in K. rewrite !K by lia. cbn [Nat.eqb nth_error app]. destruct (d_fric d); cbn [nth_error]; auto.
  Qed.
End History.
Print Assumptions C48_detection_history.
Print Assumptions C48_old_normals.
Print Assumptions C49_update_contact_data.
Print Assumptions C49_last_increment_only.
Print Assumptions C49_accumulated_gradient.
Print Assumptions C58_missing_parameter_rejected.
Print Assumptions C58_parameters_packed.

(** ** A concrete problem *)

(** One pair, one owned row and one ghost row, one quadrature point, scalar data. *)
Definition toy_move (g u : R) : R := (g + u)%R.
Definition toy_geo (k : R) (i : nat) (g d : R) : matrix := [[(k * g)%R]].
Definition toy_fun (i : nat) (u : R) : matrix := [[u]; [u]].
Definition toy_run : R -> list (@call R R) -> @cp_state R R :=
  run_calls toy_move (fun g => g) (toy_geo 1) (toy_geo 2) (toy_geo 3) toy_fun toy_fun (fun _ _ _ u => [[u]]) toy_fun
    (fun _ => [[1%R]; [1%R]]) 1 (fun _ => 2%nat) (fun _ => 1%nat) 1 1 1.
Definition toy_dict (fric : option R) : @coefficient_dict R := mkDict (Some 10%R) (Some 20%R) fric None None.

(** Generation, two detections and an increment between them. *)
Example C48_example :
  h_latest (history_of toy_move 0%R [CallGenerate (toy_dict None) 1%R 1%R; CallDetection (D := R) 3%R; CallUpdateData 7%R; CallDetection 4%R])
  = Some (toy_move (toy_move 0 3) 4, toy_move 0 3)%R.
Proof. reflexivity. Qed.

(** Friction is documented as zero when not provided; a second generation without
    it keeps the earlier coefficient. *)
Theorem C58_friction_default_refuted :
  let s := toy_run 0%R [CallGenerate (toy_dict (Some 5%R)) 1%R 1%R; CallGenerate (toy_dict None) 1%R 1%R] in
  entry s 0 0 2 = 5%R.
Proof.
  cbn zeta. set (s1 := toy_run 0%R [CallGenerate (toy_dict (Some 5%R)) 1%R 1%R]).
  assert (R0 : reachable toy_move (fun g => g) (toy_geo 1) (toy_geo 2) (toy_geo 3) toy_fun toy_fun (fun _ _ _ u => [[u]]) toy_fun
    (fun _ => [[1%R]; [1%R]]) 1 (fun _ => 2%nat) (fun _ => 1%nat) 1 1 1 (cp_init (fun g : R => g) 0%R)) by (exists 0%R, []; reflexivity).
  assert (R1 : reachable toy_move (fun g => g) (toy_geo 1) (toy_geo 2) (toy_geo 3) toy_fun toy_fun (fun _ _ _ u => [[u]]) toy_fun
    (fun _ => [[1%R]; [1%R]]) 1 (fun _ => 2%nat) (fun _ => 1%nat) 1 1 1 s1) by (eexists 0%R, _; reflexivity).
  destruct (C58_parameters_packed toy_move (fun g => g) (toy_geo 1) (toy_geo 2) (toy_geo 3) toy_fun toy_fun (fun _ _ _ u => [[u]]) toy_fun
    (fun _ => [[1%R]; [1%R]]) 1 (fun _ => 2%nat) (fun _ => 1%nat) 1 1 1 (toy_dict None) 1%R 1%R s1 10%R 20%R R1 eq_refl eq_refl eq_refl 0 0 ltac:(cbn; lia) ltac:(cbn; lia) ltac:(cbn; lia)) as (_ & _ & H & _).
  destruct (C58_parameters_packed toy_move (fun g => g) (toy_geo 1) (toy_geo 2) (toy_geo 3) toy_fun toy_fun (fun _ _ _ u => [[u]]) toy_fun
    (fun _ => [[1%R]; [1%R]]) 1 (fun _ => 2%nat) (fun _ => 1%nat) 1 1 1 (toy_dict (Some 5%R)) 1%R 1%R _ 10%R 20%R R0 eq_refl eq_refl eq_refl 0 0 ltac:(cbn; lia) ltac:(cbn; lia) ltac:(cbn; lia)) as (_ & _ & H' & _).
  transitivity (entry s1 0 0 2); [exact H|exact H'].
Qed.
Print Assumptions C58_friction_default_refuted.
