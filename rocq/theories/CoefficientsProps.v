(** C71, C72: packed values and gradients are those of the function at the
    quadrature points. *)
From Coq Require Import List Arith Lia Bool Reals Lra FunctionalExtensionality.
Import ListNotations.
From Verif Require Import Prelude PreludeLemmas RSum RayModel CoefficientsModel.
Local Open Scope R_scope.

(** ** Specification *)
(** A function of the space on a cell: basis function [m], copy [r] of it (block
    component) has the coefficient [cell_coefficient m r], stored in the cell's
    unrolled dofs in the order function, copy. *)
Definition cell_coefficient (pd : pack_data) (data : list R) (cell m r : nat) : R :=
  let p := (m * pd_bs pd + r)%nat in
  nth (pd_dofmap_bs pd * nth (p / pd_dofmap_bs pd) (pd_dofs pd cell) 0 + p mod pd_dofmap_bs pd)%nat data 0.
(** Component [r * vs + l] of the function at point [q] of an entity. *)
Definition function_value (pd : pack_data) (data : list R) (basis : nat -> nat -> R) (cell r l : nat) : R :=
  rsum (pd_functions pd) (fun m => basis m l * cell_coefficient pd data cell m r).
(** Derivative in direction [j] of basis function [m], component [l], by the
    chain rule: K is the inverse Jacobian at the point. *)
Definition basis_derivative (pd : pack_data) (cell entity q j m l : nat) : R :=
  let p := (pd_q_offsets pd entity + q)%nat in
  let K := pd_inverse pd (pack_jacobian pd cell p) in
  rsum (pd_tdim pd) (fun k => K k j * pd_basis pd (k + 1) p m l).

(** Basis functions on the cell at point [q] of an entity: the reference basis
    functions, for spaces with dof transformations transformed and pushed forward
    with the Jacobian at that point. *)
Definition physical_basis (pd : pack_data) (cell entity q : nat) : nat -> nat -> R :=
  let p := (pd_q_offsets pd entity + q)%nat in
  let reference := fun m l => pd_basis pd 0 p m l in
  let J := pack_jacobian pd cell p in
  if pd_transforms pd then pd_push_forward pd J (pd_determinant pd J) (pd_inverse pd J) (pd_transform pd cell reference) else reference.

(** Entities as a user lists them: cells, or (cell, local facet) pairs. *)
Definition lists_entities (it : integral_type) (active : list nat) (entities : list (nat * nat)) : Prop :=
  match it with
  | CellIntegral => entities = map (fun c => (c, 0%nat)) active
  | ExteriorFacet => active = concat (map (fun e => [fst e; snd e]) entities)
  | OtherIntegral => False
  end.

(** Spaces for which the code is meant: blocked scalar elements or unblocked
    vector elements; the dofmap is blocked like the element or not at all. *)
Record pack_space (pd : pack_data) : Prop := {
  ps_bs : (0 < pd_bs pd)%nat; ps_dbs : (0 < pd_dofmap_bs pd)%nat;
  ps_one : pd_bs pd = 1%nat \/ pd_vs pd = 1%nat;
  ps_dofs : forall cell, (length (pd_dofs pd cell) * pd_dofmap_bs pd = pd_functions pd * pd_bs pd)%nat }.

(** On affine cells the Jacobian does not depend on the point (linear geometry
    has constant basis derivatives). *)
Definition affine_tables (pd : pack_data) : Prop :=
  pd_affine pd = true -> forall j p p' a, pd_dphi_c pd j p a = pd_dphi_c pd j p' a.

(** ** Change of one entry of an accumulated array *)
Definition adds (k : nat) (a a' : list R) (v : R) : Prop := length a' = length a /\ ((k < length a)%nat -> nth k a' 0 = nth k a 0 + v).
Lemma adds_addto k a k' v : adds k a (addto a k' v) (if (k' =? k)%nat then v else 0).
Proof.
  split; [apply addto_length|]. intros H. unfold addto. rewrite nth_upd.
  destruct (Nat.eqb_spec k' k) as [->|]; cbn [andb]; [|ring]. destruct (Nat.ltb_spec k (length a)); [ring|lia].
Qed.
Lemma adds_loop k n (body : nat -> list R -> list R) (v : nat -> R) a : (forall i s, (i < n)%nat -> adds k s (body i s) (v i)) -> adds k a (for_loop n body a) (rsum n v).
Proof.
  intros H. induction n as [|n IH]; [split; [reflexivity | intros; cbn; ring]|]. rewrite for_loop_S. cbn [rsum].
  destruct IH as [L E]; [intros; apply H; lia|]. destruct (H n (for_loop n body a) ltac:(lia)) as [L' E']. split; [now rewrite L'|]. intros Hk. rewrite E', E by (rewrite ?L; auto). ring.
Qed.
Lemma adds_eq k a a' v v' : v = v' -> adds k a a' v -> adds k a a' v'.
Proof. now intros ->. Qed.

(** ** Sums over unrolled dofs *)
Lemma rsum_blocks n k (g : nat -> R) : rsum n (fun i => rsum k (fun j => g (i * k + j)%nat)) = rsum (n * k) g.
Proof.
  induction n as [|n IH]; [reflexivity|]. cbn [rsum]. rewrite IH. replace (S n * k)%nat with (n * k + k)%nat by lia. now rewrite rsum_app.
Qed.
(** Selecting the entries with remainder [r]. *)
Lemma rsum_select n bs r (g : nat -> R) : (r < bs)%nat -> rsum (n * bs) (fun p => if (p mod bs =? r)%nat then g p else 0) = rsum n (fun m => g (m * bs + r)%nat).
Proof.
  intros Hr. rewrite <- rsum_blocks. apply rsum_ext. intros m _. rewrite (rsum_single bs r); [| exact Hr |].
  - replace ((m * bs + r) mod bs)%nat with r by (rewrite Nat.add_comm, Nat.mod_add by lia; now rewrite Nat.mod_small). now rewrite Nat.eqb_refl.
  - intros j Hj N. replace ((m * bs + j) mod bs)%nat with j by (rewrite Nat.add_comm, Nat.mod_add by lia; now rewrite Nat.mod_small).
    destruct (Nat.eqb_spec j r); [contradiction|reflexivity].
Qed.
Lemma div_block m bs r : (r < bs)%nat -> ((m * bs + r) / bs = m)%nat.
Proof. intros H. rewrite Nat.add_comm, Nat.div_add by lia. rewrite Nat.div_small; auto. Qed.

(** ** Decoding of positions *)
Lemma position i q r nq n i' q' r' : (q < nq)%nat -> (q' < nq)%nat -> (r < n)%nat -> (r' < n)%nat ->
  (n * nq * i' + q' * n + r' =? i * (n * nq) + q * n + r)%nat = ((i' =? i) && (q' =? q) && (r' =? r))%nat.
Proof.
  intros Hq Hq' Hr Hr'. apply eq_true_iff_eq. rewrite !andb_true_iff, !Nat.eqb_eq. split.
  - intros E. assert (E' : ((i' * nq + q') * n + r' = (i * nq + q) * n + r)%nat) by nia.
    assert (A : (i' * nq + q' = i * nq + q)%nat) by (rewrite <- (div_block (i' * nq + q') n r' Hr'), <- (div_block (i * nq + q) n r Hr), E'; reflexivity).
    assert (r' = r) by nia. split; [|assumption].
    assert (i' = i) by (rewrite <- (div_block i' nq q' Hq'), <- (div_block i nq q Hq), A; reflexivity). split; [assumption|nia].
  - intros [[-> ->] ->]. lia.
Qed.

Lemma rsum_if n k (b : bool) f : rsum n (fun i => if ((i =? k)%nat && b) then f i else 0) = if ((k <? n)%nat && b) then f k else 0.
Proof.
  destruct b.
  - rewrite andb_true_r. destruct (Nat.ltb_spec k n).
    + rewrite (rsum_single n k); auto; [now rewrite Nat.eqb_refl|]. intros i _ N. destruct (Nat.eqb_spec i k); [contradiction|reflexivity].
    + apply rsum_zero. intros i Hi. destruct (Nat.eqb_spec i k); [lia|reflexivity].
  - rewrite andb_false_r. apply rsum_zero. intros i _. now rewrite andb_false_r.
Qed.

Section Entries.
  Context (pd : pack_data) (data : list R) (S : pack_space pd).
  Notation bs := (pd_bs pd).
  Notation vs := (pd_vs pd).
  Notation dbs := (pd_dofmap_bs pd).
  Notation nq := (pd_nq pd).
  Notation gdim := (pd_gdim pd).
  Notation vsize := (value_size pd).

  (** The component index: one of the two factors is 1. *)
  Lemma component_eq r l r' l' : (r < bs)%nat -> (l < vs)%nat -> (r' < bs)%nat -> (l' < vs)%nat -> (l' + r' = r * vs + l)%nat <-> (l' = l /\ r' = r)%nat.
  Proof. intros. destruct (ps_one _ S); nia. Qed.
  Lemma component_lt r l : (r < bs)%nat -> (l < vs)%nat -> (l + r < vsize)%nat.
  Proof. intros. unfold value_size. destruct (ps_one _ S); nia. Qed.

  (** Position of a packed value. *)
  Lemma value_position i q r l i' q' r' l' : (q < nq)%nat -> (q' < nq)%nat -> (r < bs)%nat -> (l < vs)%nat -> (r' < bs)%nat -> (l' < vs)%nat ->
    (vsize * nq * i' + q' * bs * vs + l' + r' =? i * (vsize * nq) + q * vsize + (r * vs + l))%nat =
    ((l' =? l) && ((q' =? q) && ((r' =? r) && (i' =? i))))%nat.
  Proof.
    intros Hq Hq' Hr Hl Hr' Hl'.
    replace (vsize * nq * i' + q' * bs * vs + l' + r')%nat with (vsize * nq * i' + q' * vsize + (l' + r'))%nat by (unfold value_size; nia).
    assert (C : (r * vs + l = l + r)%nat) by (destruct (ps_one _ S); nia). rewrite C.
    rewrite (position i q (l + r) nq vsize i' q' (l' + r') Hq Hq') by (auto using component_lt).
    pose proof (component_eq r l r' l' Hr Hl Hr' Hl') as E. rewrite C in E.
    apply eq_true_iff_eq. rewrite !andb_true_iff, !Nat.eqb_eq. intuition (subst; auto).
  Qed.

  (** Sum over the unrolled dofs of a cell. *)
  Lemma unrolled_sum cell r (g : nat -> R) : (r < bs)%nat ->
    rsum (length (pd_dofs pd cell)) (fun d => rsum dbs (fun b =>
      if ((d * dbs + b) mod bs =? r)%nat then g ((d * dbs + b) / bs)%nat * nth (dbs * nth d (pd_dofs pd cell) 0 + b)%nat data 0 else 0)) =
    rsum (pd_functions pd) (fun m => g m * cell_coefficient pd data cell m r).
  Proof.
    intros Hr. pose proof (ps_dbs _ S) as Hd.
    rewrite (rsum_ext _ _ (fun d => rsum dbs (fun b => (fun p => if (p mod bs =? r)%nat then g (p / bs)%nat * nth (dbs * nth (p / dbs) (pd_dofs pd cell) 0 + p mod dbs)%nat data 0 else 0) (d * dbs + b)%nat))).
    2:{ intros d _. apply rsum_ext. intros b Hb. cbv beta. rewrite (div_block d dbs b Hb).
        replace ((d * dbs + b) mod dbs)%nat with b by (rewrite Nat.add_comm, Nat.mod_add by lia; now rewrite Nat.mod_small). reflexivity. }
    set (F := fun p => if (p mod bs =? r)%nat then g (p / bs)%nat * nth (dbs * nth (p / dbs) (pd_dofs pd cell) 0 + p mod dbs)%nat data 0 else 0).
    change (rsum (length (pd_dofs pd cell)) (fun d => rsum dbs (fun b => F (d * dbs + b)%nat)) = rsum (pd_functions pd) (fun m => g m * cell_coefficient pd data cell m r)).
    rewrite (rsum_blocks _ _ F). unfold F. rewrite (ps_dofs _ S cell), rsum_select by exact Hr.
    apply rsum_ext. intros m _. unfold cell_coefficient. cbv zeta. now rewrite (div_block m bs r Hr).
  Qed.

  Lemma plain_entity i i' cell f c q r l : (q < nq)%nat -> (r < bs)%nat -> (l < vs)%nat ->
    adds (i * (vsize * nq) + q * vsize + (r * vs + l)) c (pack_plain pd data (vsize * nq) i' cell f c)
      (if (i' =? i)%nat then function_value pd data (pd_basis pd 0 (pd_q_offsets pd f + q)%nat) cell r l else 0).
  Proof.
    intros Hq Hr Hl. unfold pack_plain. cbv zeta. pose proof (ps_bs _ S) as Hbs.
    eapply adds_eq; [|apply adds_loop; intros d c1 Hd; apply adds_loop; intros b c2 Hb; apply adds_loop; intros q' c3 Hq'; apply adds_loop; intros l' c4 Hl'; apply adds_addto].
    rewrite (rsum_ext _ _ (fun d => rsum dbs (fun b => if ((d * dbs + b) mod bs =? r)%nat then
        (if (i' =? i)%nat then pd_basis pd 0 (pd_q_offsets pd f + q)%nat ((d * dbs + b) / bs) l else 0) * nth (dbs * nth d (pd_dofs pd cell) 0 + b)%nat data 0 else 0))).
    - rewrite (unrolled_sum cell r (fun m => if (i' =? i)%nat then pd_basis pd 0 (pd_q_offsets pd f + q)%nat m l else 0) Hr).
      destruct (i' =? i)%nat; [reflexivity|]. apply rsum_zero. intros; ring.
    - intros d _. apply rsum_ext. intros b _. set (p := (d * dbs + b)%nat). assert (Hp : (p mod bs < bs)%nat) by (apply Nat.mod_upper_bound; lia).
      rewrite (rsum_ext nq _ (fun q' => if ((q' =? q) && ((p mod bs =? r) && (i' =? i)))%nat then pd_basis pd 0 (pd_q_offsets pd f + q')%nat (p / bs) l * nth (dbs * nth d (pd_dofs pd cell) 0 + b)%nat data 0 else 0)).
      + rewrite rsum_if. destruct (Nat.ltb_spec q nq); [|lia]. cbn [andb]. destruct (p mod bs =? r)%nat, (i' =? i)%nat; cbn [andb]; ring.
      + intros q' Hq'. rewrite (rsum_ext vs _ (fun l' => if ((l' =? l) && ((q' =? q) && ((p mod bs =? r) && (i' =? i))))%nat then pd_basis pd 0 (pd_q_offsets pd f + q')%nat (p / bs) l' * nth (dbs * nth d (pd_dofs pd cell) 0 + b)%nat data 0 else 0)).
        * rewrite rsum_if. destruct (Nat.ltb_spec l vs); [|lia]. reflexivity.
        * intros l' Hl'. now rewrite value_position.
  Qed.

  Lemma transformed_entity i i' cell f c q r l : dbs = bs -> (q < nq)%nat -> (r < bs)%nat -> (l < vs)%nat ->
    adds (i * (vsize * nq) + q * vsize + (r * vs + l)) c (pack_transformed pd data (vsize * nq) i' cell f c)
      (if (i' =? i)%nat then function_value pd data (basis_values pd cell f q) cell r l else 0).
  Proof.
    intros Hdb Hq Hr Hl. unfold pack_transformed. cbv zeta. pose proof (ps_bs _ S) as Hbs.
    eapply adds_eq; [|apply adds_loop; intros d c1 Hd; apply adds_loop; intros q' c2 Hq'; apply adds_loop; intros k c3 Hk; apply adds_loop; intros l' c4 Hl'; apply adds_addto].
    pose proof (ps_dofs _ S cell) as Hn. rewrite Hdb in *. assert (length (pd_dofs pd cell) = pd_functions pd) as -> by nia.
    rewrite (rsum_ext _ _ (fun d => if (i' =? i)%nat then basis_values pd cell f q d l * cell_coefficient pd data cell d r else 0)).
    { destruct (i' =? i)%nat; [reflexivity|]. apply rsum_0. }
    intros d _.
    rewrite (rsum_ext nq _ (fun q' => if ((q' =? q) && (i' =? i))%nat then basis_values pd cell f q' d l * cell_coefficient pd data cell d r else 0)).
    { rewrite rsum_if. destruct (Nat.ltb_spec q nq); [|lia]. reflexivity. }
    intros q' Hq'.
    rewrite (rsum_ext bs _ (fun k => if ((k =? r) && ((q' =? q) && (i' =? i)))%nat then basis_values pd cell f q' d l * nth (bs * nth d (pd_dofs pd cell) 0 + k)%nat data 0 else 0)).
    { rewrite rsum_if. destruct (Nat.ltb_spec r bs); [|lia]. cbn [andb]. destruct ((q' =? q) && (i' =? i))%nat; [|reflexivity].
      unfold cell_coefficient. cbv zeta. rewrite Hdb, (div_block d bs r Hr). replace ((d * bs + r) mod bs)%nat with r by (rewrite Nat.add_comm, Nat.mod_add by lia; now rewrite Nat.mod_small). reflexivity. }
    intros k Hk.
    rewrite (rsum_ext vs _ (fun l' => if ((l' =? l) && ((k =? r) && ((q' =? q) && (i' =? i))))%nat then basis_values pd cell f q' d l' * nth (bs * nth d (pd_dofs pd cell) 0 + k)%nat data 0 else 0)).
    { rewrite rsum_if. destruct (Nat.ltb_spec l vs); [|lia]. reflexivity. }
    intros l' Hl'. pose proof (value_position i q r l i' q' k l' Hq Hq' Hr Hl Hk Hl') as E.
    replace (vsize * nq * i' + q' * vsize + k + l')%nat with (vsize * nq * i' + q' * bs * vs + l' + k)%nat by (unfold value_size; nia). rewrite E.
    replace ((l' =? l) && ((q' =? q) && ((k =? r) && (i' =? i))))%nat with ((l' =? l) && ((k =? r) && ((q' =? q) && (i' =? i))))%nat; [reflexivity|].
    destruct (l' =? l)%nat, (k =? r)%nat, (q' =? q)%nat; reflexivity.
  Qed.

  (** Position of a packed derivative. *)
  Lemma gradient_position i q r l j i' q' r' l' j' : (q < nq)%nat -> (q' < nq)%nat -> (r < bs)%nat -> (l < vs)%nat -> (r' < bs)%nat -> (l' < vs)%nat -> (j < gdim)%nat -> (j' < gdim)%nat ->
    (vsize * nq * gdim * i' + q' * bs * vs * gdim + (l' + r') * gdim + j' =? i * (vsize * nq * gdim) + q * (vsize * gdim) + (r * vs + l) * gdim + j)%nat =
    ((j' =? j) && ((l' =? l) && ((q' =? q) && ((r' =? r) && (i' =? i)))))%nat.
  Proof.
    intros Hq Hq' Hr Hl Hr' Hl' Hj Hj'. rewrite <- (value_position i q r l i' q' r' l') by auto.
    replace (vsize * nq * gdim * i' + q' * bs * vs * gdim + (l' + r') * gdim + j')%nat with ((vsize * nq * i' + q' * bs * vs + l' + r') * gdim + j')%nat by nia.
    replace (i * (vsize * nq * gdim) + q * (vsize * gdim) + (r * vs + l) * gdim + j)%nat with ((i * (vsize * nq) + q * vsize + (r * vs + l)) * gdim + j)%nat by nia.
    set (A := (vsize * nq * i' + _ + _ + _)%nat). set (B := (i * (vsize * nq) + _ + _)%nat).
    apply eq_true_iff_eq. rewrite andb_true_iff, !Nat.eqb_eq. split; [|intros [-> ->]; reflexivity].
    intros E. assert (A = B) by (rewrite <- (div_block A gdim j' Hj'), <- (div_block B gdim j Hj), E; reflexivity). split; [nia|assumption].
  Qed.

  Lemma gradient_entity i i' cell f c q r l j : affine_tables pd -> (q < nq)%nat -> (r < bs)%nat -> (l < vs)%nat -> (j < gdim)%nat ->
    adds (i * (vsize * nq * gdim) + q * (vsize * gdim) + (r * vs + l) * gdim + j) c (pack_gradient_entity pd data (vsize * nq * gdim) i' cell f c)
      (if (i' =? i)%nat then function_value pd data (fun m l => basis_derivative pd cell f q j m l) cell r l else 0).
  Proof.
    intros HA Hq Hr Hl Hj. pose proof (ps_bs _ S) as Hbs.
    set (K := fun q' => if pd_affine pd then pd_inverse pd (pack_jacobian pd cell (pd_q_offsets pd f)) else pd_inverse pd (pack_jacobian pd cell (pd_q_offsets pd f + q')%nat)).
    assert (E : pack_gradient_entity pd data (vsize * nq * gdim) i' cell f c = 
      for_loop (length (pd_dofs pd cell)) (fun d c => for_loop dbs (fun b c => for_loop nq (fun q c => for_loop vs (fun l c => for_loop gdim (fun j c => for_loop (pd_tdim pd) (fun k c =>
          addto c (vsize * nq * gdim * i' + q * bs * vs * gdim + (l + (d * dbs + b) mod bs) * gdim + j)
            (K q k j * pd_basis pd (k + 1) (pd_q_offsets pd f + q)%nat ((d * dbs + b) / bs) l * nth (dbs * nth d (pd_dofs pd cell) 0 + b)%nat data 0)) c) c) c) c) c) c).
    { unfold pack_gradient_entity, K. cbv zeta. destruct (pd_affine pd); reflexivity. }
    rewrite E. clear E.
    assert (EK : K q = pd_inverse pd (pack_jacobian pd cell (pd_q_offsets pd f + q)%nat) \/ pd_affine pd = true).
    { unfold K. destruct (pd_affine pd); auto. }
    eapply adds_eq; [|apply adds_loop; intros d c1 Hd; apply adds_loop; intros b c2 Hb; apply adds_loop; intros q' c3 Hq'; apply adds_loop; intros l' c4 Hl'; apply adds_loop; intros j' c5 Hj'; apply adds_loop; intros k c6 Hk; apply adds_addto].
    set (D := fun m => rsum (pd_tdim pd) (fun k => K q k j * pd_basis pd (k + 1) (pd_q_offsets pd f + q)%nat m l)).
    rewrite (rsum_ext _ _ (fun d => rsum dbs (fun b => if ((d * dbs + b) mod bs =? r)%nat then
        (if (i' =? i)%nat then D ((d * dbs + b) / bs)%nat else 0) * nth (dbs * nth d (pd_dofs pd cell) 0 + b)%nat data 0 else 0))).
    - rewrite (unrolled_sum cell r (fun m => if (i' =? i)%nat then D m else 0) Hr).
      destruct (i' =? i)%nat; [|apply rsum_zero; intros; ring]. unfold function_value. apply rsum_ext. intros m _. f_equal. unfold D, basis_derivative. cbv zeta. apply rsum_ext. intros k _. f_equal.
      unfold K. destruct (pd_affine pd) eqn:Ha; [|reflexivity].
      assert (X : forall p, pack_jacobian pd cell p = pack_jacobian pd cell (pd_q_offsets pd f)) by
        (intros p; unfold pack_jacobian; extensionality a; extensionality b; apply for_loop_ext; intros; f_equal; f_equal; now apply HA).
      cbv beta. now rewrite (X (pd_q_offsets pd f + q)%nat).
    - intros d _. apply rsum_ext. intros b _. set (p := (d * dbs + b)%nat). assert (Hp : (p mod bs < bs)%nat) by (apply Nat.mod_upper_bound; lia).
      set (cf := nth (dbs * nth d (pd_dofs pd cell) 0 + b)%nat data 0).
      set (V := fun q' l' j' => rsum (pd_tdim pd) (fun k => K q' k j' * pd_basis pd (k + 1) (pd_q_offsets pd f + q')%nat (p / bs) l' * cf)).
      rewrite (rsum_ext nq _ (fun q' => if ((q' =? q) && ((p mod bs =? r) && (i' =? i)))%nat then V q' l j else 0)).
      { rewrite rsum_if. destruct (Nat.ltb_spec q nq); [|lia]. cbn [andb]. unfold V. rewrite rsum_scal_r. fold (D (p / bs)%nat). destruct (p mod bs =? r)%nat, (i' =? i)%nat; cbn [andb]; ring. }
      intros q' Hq'. rewrite (rsum_ext vs _ (fun l' => if ((l' =? l) && ((q' =? q) && ((p mod bs =? r) && (i' =? i))))%nat then V q' l' j else 0)).
      { rewrite rsum_if. destruct (Nat.ltb_spec l vs); [|lia]. reflexivity. }
      intros l' Hl'. rewrite (rsum_ext gdim _ (fun j' => if ((j' =? j) && ((l' =? l) && ((q' =? q) && ((p mod bs =? r) && (i' =? i)))))%nat then V q' l' j' else 0)).
      { rewrite rsum_if. destruct (Nat.ltb_spec j gdim); [|lia]. reflexivity. }
      intros j' Hj'. rewrite (gradient_position i q r l j i' q' (p mod bs) l' j') by auto.
      destruct ((j' =? j) && _)%nat; [reflexivity | apply rsum_0].
  Qed.
End Entries.

Lemma affine_jacobian pd cell p p' : affine_tables pd -> pd_affine pd = true -> pack_jacobian pd cell p = pack_jacobian pd cell p'.
Proof. intros HA Ha. unfold pack_jacobian. extensionality a. extensionality b. apply for_loop_ext. intros. f_equal. f_equal. now apply HA. Qed.

Lemma flat_pairs (entities : list (nat * nat)) i : (i < length entities)%nat ->
  nth (2 * i) (concat (map (fun e => [fst e; snd e]) entities)) 0%nat = fst (nth i entities (0, 0)%nat) /\
  nth (2 * i + 1) (concat (map (fun e => [fst e; snd e]) entities)) 0%nat = snd (nth i entities (0, 0)%nat).
Proof.
  revert i. induction entities as [|e l IH]; intros i Hi; cbn [length] in Hi; [lia|]. destruct i as [|i]; [split; reflexivity|].
  replace (2 * S i)%nat with (S (S (2 * i))) by lia. cbn. apply IH. lia.
Qed.
Lemma flat_pairs_length (entities : list (nat * nat)) : length (concat (map (fun e => [fst e; snd e]) entities)) = (2 * length entities)%nat.
Proof. induction entities as [|e l IH]; cbn; [reflexivity|]. rewrite IH. lia. Qed.

Lemma listed_entities it active entities : lists_entities it active entities ->
  num_active_entities it active = Some (length entities) /\ (forall i, (i < length entities)%nat -> active_entity it active i = nth i entities (0, 0)%nat).
Proof.
  destruct it; cbn [lists_entities num_active_entities active_entity]; [intros -> | intros -> | contradiction].
  - rewrite map_length. split; [reflexivity|]. intros i Hi. 
    change (nth i active 0%nat, 0%nat) with ((fun c : nat => (c, 0%nat)) (nth i active 0%nat)). symmetry. exact (map_nth (fun c : nat => (c, 0%nat)) active 0%nat i).
  - rewrite flat_pairs_length. split; [f_equal; rewrite Nat.mul_comm; apply Nat.div_mul; lia|]. intros i Hi. destruct (flat_pairs entities i Hi) as [-> ->]. now destruct (nth i entities _).
Qed.

Lemma entry_lt n m k i q w : (i < n)%nat -> (q < m)%nat -> (w < k)%nat -> (i * (k * m) + q * k + w < n * (k * m))%nat.
Proof. intros. assert (q * k + w < k * m)%nat by nia. nia. Qed.
Lemma loop_length n (body : nat -> list R -> list R) a : (forall i s, length (body i s) = length s) -> length (for_loop n body a) = length a.
Proof. intros H. induction n as [|n IH]; [reflexivity|]. now rewrite for_loop_S, H. Qed.
Lemma pack_transformed_length pd data cs i cell f c : length (pack_transformed pd data cs i cell f c) = length c.
Proof. unfold pack_transformed. cbv zeta. repeat (apply loop_length; intros). apply addto_length. Qed.
Lemma pack_plain_length pd data cs i cell f c : length (pack_plain pd data cs i cell f c) = length c.
Proof. unfold pack_plain. cbv zeta. repeat (apply loop_length; intros). apply addto_length. Qed.
Lemma pack_gradient_length pd data cs i cell f c : length (pack_gradient_entity pd data cs i cell f c) = length c.
Proof. unfold pack_gradient_entity. cbv zeta. destruct (pd_affine pd); repeat (apply loop_length; intros); apply addto_length. Qed.

(** C71: packing at quadrature points evaluates the function.  Entry (entity,
    point, component) of the packed array is the value of that component at that
    point of that entity: the sum over the cell's basis functions of the basis
    function there times its coefficient.  Every listed entity has its row, also
    when a cell or facet is listed more than once. *)
Theorem C71_values_are_function_values pd data it active entities : pack_space pd -> affine_tables pd ->
  (pd_transforms pd = true -> pd_dofmap_bs pd = pd_bs pd) -> lists_entities it active entities ->
  exists c, pack_coefficient_quadrature pd data it active = Some (c, value_size pd * pd_nq pd)%nat /\
    length c = (length entities * (value_size pd * pd_nq pd))%nat /\
    forall i q r l, (i < length entities)%nat -> (q < pd_nq pd)%nat -> (r < pd_bs pd)%nat -> (l < pd_vs pd)%nat ->
      let '(cell, facet) := nth i entities (0, 0)%nat in
      nth (i * (value_size pd * pd_nq pd) + q * value_size pd + (r * pd_vs pd + l)) c 0 = function_value pd data (physical_basis pd cell facet q) cell r l.
Proof.
  intros S HA HT HL. destruct (listed_entities _ _ _ HL) as [En Ee]. unfold pack_coefficient_quadrature. rewrite En. eexists. split; [reflexivity|].
  assert (X : forall i q r l, (q < pd_nq pd)%nat -> (r < pd_bs pd)%nat -> (l < pd_vs pd)%nat ->
    adds (i * (value_size pd * pd_nq pd) + q * value_size pd + (r * pd_vs pd + l)) (repeat 0 (length entities * (value_size pd * pd_nq pd)))
      (for_loop (length entities) (fun i c => let '(cell, entity_index) := active_entity it active i in
         if pd_transforms pd then pack_transformed pd data (value_size pd * pd_nq pd) i cell entity_index c else pack_plain pd data (value_size pd * pd_nq pd) i cell entity_index c) (repeat 0 (length entities * (value_size pd * pd_nq pd))))
      (rsum (length entities) (fun i' => if ((i' =? i)%nat && true) then let '(cell, facet) := nth i' entities (0, 0)%nat in function_value pd data (physical_basis pd cell facet q) cell r l else 0))).
  { intros i q r l Hq Hr Hl. apply adds_loop. intros i' c Hi'. rewrite (Ee i' Hi'). destruct (nth i' entities (0, 0)%nat) as [cell facet]. rewrite andb_true_r. unfold physical_basis. cbv zeta.
    destruct (pd_transforms pd) eqn:ET; [|now apply plain_entity].
    eapply adds_eq; [|now apply (transformed_entity pd data S i i' cell facet c q r l (HT eq_refl))].
    destruct (i' =? i)%nat; [|reflexivity]. unfold function_value. apply rsum_ext. intros m _. f_equal. unfold basis_values, transformed_push_forward. cbv zeta.
    destruct (pd_affine pd) eqn:Ha; [|reflexivity]. now rewrite (affine_jacobian pd cell (pd_q_offsets pd facet) (pd_q_offsets pd facet + q) HA Ha). }
  split.
  - rewrite loop_length; [apply repeat_length|]. intros i c. destruct (active_entity it active i) as [cell facet]. destruct (pd_transforms pd); [apply pack_transformed_length | apply pack_plain_length].
  - intros i q r l Hi Hq Hr Hl. destruct (X i q r l Hq Hr Hl) as [_ E]. rewrite rsum_if in E. destruct (Nat.ltb_spec i (length entities)); [cbn [andb] in E|lia].
    destruct (nth i entities (0, 0)%nat) as [cell facet]. rewrite E; [|rewrite repeat_length].
    + rewrite nth_repeat. ring.
    + apply entry_lt; auto. unfold value_size. nia.
Qed.
Print Assumptions C71_values_are_function_values.

(** Interior-facet and vertex integrals are refused. *)
Theorem C71_other_integrals_refused pd data active : pack_coefficient_quadrature pd data OtherIntegral active = None /\ pack_gradient_quadrature pd data OtherIntegral active = None.
Proof. split; reflexivity. Qed.
Print Assumptions C71_other_integrals_refused.

(** C72: the packed gradient is the gradient.  Entry (entity, point, component,
    direction) is the derivative of that component at that point, by the chain
    rule with the inverse Jacobian at that point.  Spaces needing dof
    transformations are refused. *)
Theorem C72_gradients_are_function_gradients pd data it active entities : pack_space pd -> affine_tables pd ->
  pd_transforms pd = false -> lists_entities it active entities ->
  exists c, pack_gradient_quadrature pd data it active = Some (c, value_size pd * pd_nq pd * pd_gdim pd)%nat /\
    length c = (length entities * (value_size pd * pd_nq pd * pd_gdim pd))%nat /\
    forall i q r l j, (i < length entities)%nat -> (q < pd_nq pd)%nat -> (r < pd_bs pd)%nat -> (l < pd_vs pd)%nat -> (j < pd_gdim pd)%nat ->
      let '(cell, facet) := nth i entities (0, 0)%nat in
      nth (i * (value_size pd * pd_nq pd * pd_gdim pd) + q * (value_size pd * pd_gdim pd) + (r * pd_vs pd + l) * pd_gdim pd + j) c 0 =
      function_value pd data (fun m l => basis_derivative pd cell facet q j m l) cell r l.
Proof.
  intros S HA HT HL. destruct (listed_entities _ _ _ HL) as [En Ee]. unfold pack_gradient_quadrature. rewrite En, HT. eexists. split; [reflexivity|].
  set (cs := (value_size pd * pd_nq pd * pd_gdim pd)%nat).
  split.
  - rewrite loop_length; [apply repeat_length|]. intros i c. destruct (active_entity it active i) as [cell facet]. apply pack_gradient_length.
  - intros i q r l j Hi Hq Hr Hl Hj.
    assert (X : adds (i * cs + q * (value_size pd * pd_gdim pd) + (r * pd_vs pd + l) * pd_gdim pd + j) (repeat 0 (length entities * cs))
      (for_loop (length entities) (fun i c => let '(cell, entity_index) := active_entity it active i in pack_gradient_entity pd data cs i cell entity_index c) (repeat 0 (length entities * cs)))
      (rsum (length entities) (fun i' => if ((i' =? i)%nat && true) then let '(cell, facet) := nth i' entities (0, 0)%nat in function_value pd data (fun m l => basis_derivative pd cell facet q j m l) cell r l else 0))).
    { apply adds_loop. intros i' c Hi'. rewrite (Ee i' Hi'). destruct (nth i' entities (0, 0)%nat) as [cell facet]. rewrite andb_true_r. now apply gradient_entity. }
    destruct X as [_ E]. rewrite rsum_if in E. destruct (Nat.ltb_spec i (length entities)); [cbn [andb] in E|lia].
    destruct (nth i entities (0, 0)%nat) as [cell facet]. rewrite E; [|rewrite repeat_length].
    + rewrite nth_repeat. ring.
    + assert (B : (r * pd_vs pd + l < value_size pd)%nat) by (unfold value_size; nia). pose proof (entry_lt _ _ _ _ _ _ Hi Hq B) as L. unfold cs. nia.
Qed.
Print Assumptions C72_gradients_are_function_gradients.
Theorem C72_transformed_spaces_refused pd data it active : pd_transforms pd = true -> pack_gradient_quadrature pd data it active = None.
Proof. intros H. unfold pack_gradient_quadrature. rewrite H. now destruct (num_active_entities it active). Qed.
Print Assumptions C72_transformed_spaces_refused.

(** Isoparametric elements: the basis functions are those of the geometry, and
    their sum is constant.  For these, the packed gradient of a function that is
    affine in space is its matrix: linear deformations are reproduced exactly, and
    rigid translations have gradient zero, on every cell. *)
Record isoparametric (pd : pack_data) : Prop := {
  iso_functions : pd_functions pd = pd_nodes pd;
  iso_vs : pd_vs pd = 1%nat;
  iso_basis : forall k p m, pd_basis pd (k + 1) p m 0%nat = pd_dphi_c pd k p m;
  iso_unity : forall k p, rsum (pd_nodes pd) (fun m => pd_dphi_c pd k p m) = 0 }.
(** Coordinate [i] of node [m] of a cell: the array of the geometry holds three numbers per node. *)
Definition node_coordinate (pd : pack_data) (cell m i : nat) : R := nth (nth m (pd_x_dofmap pd cell) 0%nat * 3 + i) (pd_x pd) 0.
(** The Jacobian the gradients are taken with is that of the map from the reference cell, whose
    value at a point is the sum of the nodes times the basis functions of the geometry. *)
Theorem C72_jacobian_of_the_cell pd cell p i j : pack_jacobian pd cell p i j = rsum (pd_nodes pd) (fun m => node_coordinate pd cell m i * pd_dphi_c pd j p m).
Proof. unfold pack_jacobian. rewrite for_loop_rsum, Rplus_0_l. apply rsum_ext. intros m _. unfold coordinate_dofs, node_coordinate. now rewrite (Nat.mul_comm 3). Qed.
Print Assumptions C72_jacobian_of_the_cell.
(** The function is x |-> G x + b at the nodes of the cell. *)
Definition affine_on (pd : pack_data) (data : list R) (cell : nat) (G : nat -> nat -> R) (b : nat -> R) : Prop :=
  forall m r, (m < pd_nodes pd)%nat -> (r < pd_bs pd)%nat ->
    cell_coefficient pd data cell m r = rsum (pd_gdim pd) (fun i => G r i * node_coordinate pd cell m i) + b r.
(** The cell is not degenerate: the inverse inverts the Jacobian. *)
Definition inverts (pd : pack_data) (cell p : nat) : Prop :=
  forall i j, (i < pd_gdim pd)%nat -> (j < pd_gdim pd)%nat ->
    rsum (pd_tdim pd) (fun k => pack_jacobian pd cell p i k * pd_inverse pd (pack_jacobian pd cell p) k j) = if (i =? j)%nat then 1 else 0.
Theorem C72_affine_functions_exact pd data it active entities : pack_space pd -> affine_tables pd -> isoparametric pd ->
  pd_transforms pd = false -> lists_entities it active entities ->
  exists c, pack_gradient_quadrature pd data it active = Some (c, value_size pd * pd_nq pd * pd_gdim pd)%nat /\
    forall i q r j G b, (i < length entities)%nat -> (q < pd_nq pd)%nat -> (r < pd_bs pd)%nat -> (j < pd_gdim pd)%nat ->
      let '(cell, facet) := nth i entities (0, 0)%nat in
      affine_on pd data cell G b -> inverts pd cell (pd_q_offsets pd facet + q) ->
      nth (i * (value_size pd * pd_nq pd * pd_gdim pd) + q * (value_size pd * pd_gdim pd) + r * pd_gdim pd + j) c 0 = G r j.
Proof.
  intros S HA HI HT HL. destruct (C72_gradients_are_function_gradients pd data it active entities S HA HT HL) as (c & E & _ & X). exists c. split; [exact E|].
  intros i q r j G b Hi Hq Hr Hj. specialize (X i q r 0%nat j Hi Hq Hr ltac:(rewrite (iso_vs _ HI); lia) Hj).
  destruct (nth i entities (0, 0)%nat) as [cell facet]. intros HG HK. rewrite (iso_vs _ HI), Nat.mul_1_r, Nat.add_0_r in X. rewrite X. clear X.
  unfold function_value, basis_derivative. cbv zeta. set (p := (pd_q_offsets pd facet + q)%nat) in *. set (K := pd_inverse pd (pack_jacobian pd cell p)).
  rewrite (iso_functions _ HI).
  rewrite (rsum_ext _ _ (fun m => rsum (pd_tdim pd) (fun k => rsum (pd_gdim pd) (fun i => G r i * (node_coordinate pd cell m i * pd_dphi_c pd k p m * K k j)) + pd_dphi_c pd k p m * (b r * K k j)))).
  2:{ intros m Hm. rewrite (HG m r Hm Hr). rewrite <- rsum_scal_r. apply rsum_ext. intros k _. rewrite (iso_basis _ HI).
      assert (X : rsum (pd_gdim pd) (fun i => G r i * (node_coordinate pd cell m i * pd_dphi_c pd k p m * K k j)) = rsum (pd_gdim pd) (fun i => G r i * node_coordinate pd cell m i) * (pd_dphi_c pd k p m * K k j)).
      { rewrite <- rsum_scal_r. apply rsum_ext. intros. ring. }
      rewrite X. ring. }
  rewrite rsum_swap.
  rewrite (rsum_ext _ _ (fun k => rsum (pd_gdim pd) (fun i => G r i * (pack_jacobian pd cell p i k * K k j)))).
  2:{ intros k _. rewrite rsum_plus, rsum_scal_r, (iso_unity _ HI), rsum_swap. rewrite Rmult_0_l, Rplus_0_r. apply rsum_ext. intros i' _.
      rewrite rsum_scal. f_equal. rewrite rsum_scal_r. f_equal. now rewrite C72_jacobian_of_the_cell. }
  rewrite rsum_swap. rewrite (rsum_ext _ _ (fun i => if ((i =? j)%nat && true) then G r i else 0)).
  2:{ intros i' Hi'. rewrite rsum_scal. unfold K. rewrite (HK i' j Hi' Hj), andb_true_r. destruct (i' =? j)%nat; ring. }
  rewrite rsum_if. destruct (Nat.ltb_spec j (pd_gdim pd)); [reflexivity|lia].
Qed.
Print Assumptions C72_affine_functions_exact.

(** Example: continuous P1 vectors on the unit square cut into two triangles
    (nodes (0,0), (1,0), (0,1), (1,1); cells 0 1 2 and 3 2 1), one point per facet,
    u = (2 x + 3 y, 5 x - y).  The gradients packed for a facet of each cell are
    that matrix. *)
Definition P1_dphi (k a : nat) : R := nth a (nth k [[-1; 1; 0]; [-1; 0; 1]] []) 0.
Definition inverse2 (J : matrix) : matrix := fun i j =>
  let det := J 0%nat 0%nat * J 1%nat 1%nat - J 0%nat 1%nat * J 1%nat 0%nat in
  match i, j with
  | O, O => J 1%nat 1%nat / det | O, _ => - J 0%nat 1%nat / det
  | _, O => - J 1%nat 0%nat / det | _, _ => J 0%nat 0%nat / det end.
Definition square : pack_data := {|
  pd_gdim := 2; pd_tdim := 2; pd_bs := 2; pd_vs := 1; pd_dofmap_bs := 2; pd_nq := 1; pd_q_offsets := fun f => f;
  pd_basis := fun d p m l => match d with
    | O => nth m (nth p [[0; 1/2; 1/2]; [1/2; 0; 1/2]; [1/2; 1/2; 0]] []) 0
    | S k => P1_dphi k m end;
  pd_functions := 3; pd_dofs := fun cell => if (cell =? 0)%nat then [0; 1; 2]%nat else [3; 2; 1]%nat;
  pd_affine := true; pd_nodes := 3; pd_x_dofmap := fun cell => if (cell =? 0)%nat then [0; 1; 2]%nat else [3; 2; 1]%nat;
  pd_x := [0; 0; 0; 1; 0; 0; 0; 1; 0; 1; 1; 0]; pd_dphi_c := fun k p a => P1_dphi k a;
  pd_inverse := inverse2; pd_determinant := fun J => J 0%nat 0%nat * J 1%nat 1%nat - J 0%nat 1%nat * J 1%nat 0%nat;
  pd_transforms := false; pd_transform := fun _ b => b; pd_push_forward := fun _ _ _ b => b |}.
Definition square_u : list R := [0; 0; 2; 5; 3; -1; 5; 4].
Definition square_gradient (r j : nat) : R := nth j (nth r [[2; 3]; [5; -1]] []) 0.

Lemma square_space : pack_space square.
Proof. split; cbn; auto; try lia. intros cell. destruct (cell =? 0)%nat; reflexivity. Qed.
Lemma square_tables : affine_tables square.
Proof. intros _ j p p' a. reflexivity. Qed.
Lemma square_isoparametric : isoparametric square.
Proof.
  split; try reflexivity.
  - intros k p m. cbn [square pd_basis pd_dphi_c]. now rewrite Nat.add_comm.
  - intros k p. cbn [square pd_dphi_c pd_nodes rsum]. unfold P1_dphi. destruct k as [|[|[|k]]]; cbn; ring.
Qed.
Ltac component x := destruct x as [|[|x]]; [| |lia].
Lemma square_affine cell : (cell < 2)%nat -> affine_on square square_u cell square_gradient (fun _ => 0).
Proof.
  intros Hc m r Hm Hr. cbn [square pd_nodes pd_bs] in Hm, Hr. component cell; component r; destruct m as [|[|[|m]]]; try lia; unfold cell_coefficient, node_coordinate, square_u, square_gradient; cbn; ring.
Qed.
Lemma square_inverts cell p : (cell < 2)%nat -> inverts square cell p.
Proof.
  intros Hc i j Hi Hj. cbn [square pd_gdim] in Hi, Hj. component cell; component i; component j; unfold pack_jacobian, coordinate_dofs, P1_dphi, inverse2; cbn; field; lra.
Qed.
Example C71_C72_nonvacuous : pack_space square /\ affine_tables square /\ isoparametric square /\
  lists_entities ExteriorFacet [0; 2; 1; 0]%nat [(0, 2); (1, 0)]%nat /\
  exists c, pack_gradient_quadrature square square_u ExteriorFacet [0; 2; 1; 0]%nat = Some (c, 4%nat) /\
    forall i r j, (i < 2)%nat -> (r < 2)%nat -> (j < 2)%nat -> nth (i * 4 + r * 2 + j) c 0 = square_gradient r j.
Proof.
  split; [exact square_space|]. split; [exact square_tables|]. split; [exact square_isoparametric|]. split; [reflexivity|].
  destruct (C72_affine_functions_exact square square_u ExteriorFacet [0; 2; 1; 0]%nat [(0, 2); (1, 0)]%nat square_space square_tables square_isoparametric eq_refl eq_refl) as (c & E & X).
  exists c. split; [exact E|]. intros i r j Hi Hr Hj. pose proof (X i 0%nat r j square_gradient (fun _ => 0) Hi ltac:(cbn; lia) Hr Hj) as Y. cbn [value_size square pd_bs pd_vs pd_nq pd_gdim] in Y.
  component i; cbn [nth] in Y; rewrite <- Y by (try apply square_affine; try apply square_inverts; lia); f_equal.
Qed.
