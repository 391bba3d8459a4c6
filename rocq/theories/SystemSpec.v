(** Assembled systems: the matrix given by the mat_set calls applied to a vector,
    and when it reproduces the assembled vector. *)
From Coq Require Import List Arith ZArith Lia Bool Reals Lra.
Import ListNotations.
From Verif Require Import Prelude PreludeLemmas RSum EntitiesModel PackingModel PackUProps AssemblyModel AssemblyProofs AssemblyProps KernelModel KernelSpec.
Local Open Scope R_scope.

(** ** Specification *)
(** Row [d] of the matrix to which a block is added, applied to [u].  A block has
    rows and columns dof by dof, component by component; PETSc's MatSetValuesBlocked
    adds it at the blocks of the given dofs. *)
Definition insertion_times (bs : nat) (ins : insertion) (u : list R) (d : nat) : R :=
  let '(rows, cols, block) := ins in
  rsum (length rows) (fun i => rsum bs (fun n =>
    if (bs * nth i rows 0 + n =? d)%nat
    then rsum (length cols) (fun j => rsum bs (fun l => nth ((i * bs + n) * (length cols * bs) + (j * bs + l)) block 0 * nth (bs * nth j cols 0 + l)%nat u 0))
    else 0)).
(** The matrix that a list of insertions adds up to, applied to [u]. *)
Definition matrix_times (bs : nat) (insertions : list insertion) (u : list R) (d : nat) : R :=
  lsum insertions (fun ins => insertion_times bs ins u d).
(** A bilinear form: v . M u, for v with [n] entries. *)
Definition dot (n : nat) (v : nat -> R) (w : nat -> R) : R := rsum n (fun d => v d * w d).

(** Coefficients of a global vector on a cell. *)
Definition restrict (a : assembly) (u : list R) (cell : nat) : coeffs := fun j l => dof_value (a_bs a) (a_dofs a cell) u j l.

(** Element vectors [V] and element matrices [M] of a cell and [links] cells:
    the vectors are the matrices times the coefficients. *)
Definition element_consistent (nd bs links : nat) (V M : list (list R)) (U : coeffs) (Uo : nat -> coeffs) : Prop :=
  let vec s i n := nth (dof bs i n) (nth s V []) 0 in
  let mat s i n := fun j l => nth (row_col (nd * bs) (dof bs i n) (dof bs j l)) (nth s M []) 0 in
  forall i n, (i < nd)%nat -> (n < bs)%nat ->
    vec 0%nat i n = apply_row nd bs (mat 0%nat i n) U + rsum links (fun k => apply_row nd bs (mat (3 * k + 1)%nat i n) (Uo k)) /\
    forall k, (k < links)%nat -> vec (k + 1)%nat i n = apply_row nd bs (mat (3 * k + 2)%nat i n) U + apply_row nd bs (mat (3 * k + 3)%nat i n) (Uo k).

(** ** Lemmas *)
Section Scatter.
  Context (a : assembly) (u : list R) (d : nat).
  Definition scatter (cell : nat) (P : nat -> nat -> R) : R :=
    rsum (a_ndofs a) (fun i => rsum (a_bs a) (fun n => if (a_bs a * nth i (a_dofs a cell) 0 + n =? d)%nat then P i n else 0)).
  Lemma scatter_ext cell P P' : (forall i n, (i < a_ndofs a)%nat -> (n < a_bs a)%nat -> P i n = P' i n) -> scatter cell P = scatter cell P'.
  Proof. intros H. apply rsum_ext. intros i Hi. apply rsum_ext. intros n Hn. now rewrite H. Qed.
  Lemma scatter_plus cell P P' : scatter cell (fun i n => P i n + P' i n) = scatter cell P + scatter cell P'.
  Proof.
    unfold scatter. rewrite <- rsum_plus. apply rsum_ext. intros i _. rewrite <- rsum_plus. apply rsum_ext. intros n _. destruct (_ =? d)%nat; ring.
  Qed.
  Lemma scatter_sum cell m P : scatter cell (fun i n => rsum m (fun k => P k i n)) = rsum m (fun k => scatter cell (P k)).
  Proof.
    induction m as [|m IH]; cbn [rsum]; [|now rewrite scatter_plus, IH].
    unfold scatter. apply rsum_zero. intros i _. apply rsum_zero. intros n _. now destruct (_ =? d)%nat.
  Qed.
  Lemma scattered_scatter cell be : scattered a cell be d = scatter cell (fun i n => nth (dof (a_bs a) i n) be 0).
  Proof. unfold scattered, scatter, dof. apply rsum_ext. intros i _. apply rsum_ext. intros n _. now rewrite (Nat.mul_comm (a_bs a) i). Qed.
  Lemma insertion_scatter c c' block : length (a_dofs a c) = a_ndofs a -> length (a_dofs a c') = a_ndofs a ->
    insertion_times (a_bs a) (a_dofs a c, a_dofs a c', block) u d =
    scatter c (fun i n => apply_row (a_ndofs a) (a_bs a) (fun j l => nth (row_col (a_ndofs a * a_bs a) (dof (a_bs a) i n) (dof (a_bs a) j l)) block 0) (restrict a u c')).
  Proof.
    intros E E'. unfold insertion_times, scatter, apply_row, restrict, dof_value, row_col, dof. rewrite E, E'. reflexivity.
  Qed.
End Scatter.

(** Consistency of all facets is consistency of the assembled system. *)
Theorem assembled_consistent (a : assembly) (rhs jac : kernel_fn) (cf : list R) (cstride : nat) (w u b : list R) :
  kernel_local (fun n => n + 1)%nat rhs -> kernel_local (fun n => 3 * n + 1)%nat jac -> well_formed a ->
  (forall i c, (i < a_local a)%nat -> In c (nth (2 * i) (a_active a) 0%nat :: links_of a i) -> length (a_dofs a c) = a_ndofs a) ->
  (forall i, (i < a_local a)%nat ->
     element_consistent (a_ndofs a) (a_bs a) (length (links_of a i))
       (facet_result a rhs cf cstride w (a_max_links a + 1) (a_bs a * a_ndofs a) i)
       (facet_result a jac cf cstride w (3 * a_max_links a + 1) (a_bs a * a_ndofs a * a_bs a * a_ndofs a) i)
       (restrict a u (nth (2 * i) (a_active a) 0%nat)) (fun k => restrict a u (nth k (links_of a i) 0%nat))) ->
  forall d, (d < length b)%nat ->
    nth d (assemble_vector a rhs cf cstride w b) 0 = nth d b 0 + matrix_times (a_bs a) (assemble_matrix a jac cf cstride w) u d.
Proof.
  intros HR HJ HW HD HE d Hd. destruct (C20_assemble_vector a rhs cf cstride w b HR HW) as [_ Ev]. rewrite (Ev d Hd). f_equal.
  rewrite (C21_assemble_matrix a jac cf cstride w HJ HW). unfold matrix_times. rewrite lsum_flat_map, lsum_seq. apply rsum_ext. intros i Hi. cbv zeta. cbn [lsum].
  rewrite lsum_flat_map, lsum_seq. unfold facet_vector. cbv zeta. specialize (HE i Hi).
  set (V := facet_result a rhs cf cstride w _ _ i) in *. set (M := facet_result a jac cf cstride w _ _ i) in *. set (c := nth (2 * i) (a_active a) 0%nat) in *. set (lk := links_of a i) in *.
  assert (Dc : length (a_dofs a c) = a_ndofs a) by (apply (HD i); [auto | now left]).
  assert (Dl : forall k, (k < length lk)%nat -> length (a_dofs a (nth k lk 0%nat)) = a_ndofs a) by (intros k Hk; apply (HD i); [auto | right; now apply nth_In]).
  set (U := restrict a u c). set (Uo := fun k => restrict a u (nth k lk 0%nat)).
  set (mat := fun s i n => fun j l => nth (row_col (a_ndofs a * a_bs a) (dof (a_bs a) i n) (dof (a_bs a) j l)) (nth s M []) 0).
  rewrite scattered_scatter, (scatter_ext a d c _ (fun i n => apply_row (a_ndofs a) (a_bs a) (mat 0%nat i n) U + rsum (length lk) (fun k => apply_row (a_ndofs a) (a_bs a) (mat (3 * k + 1)%nat i n) (Uo k))))
    by (intros i' n' Hi' Hn'; apply (HE i' n' Hi' Hn')).
  rewrite scatter_plus, (scatter_sum a d c _ (fun k i n => apply_row (a_ndofs a) (a_bs a) (mat (3 * k + 1)%nat i n) (Uo k))).
  rewrite (insertion_scatter a u d c c) by auto. fold U.
  rewrite (rsum_ext (length lk) (fun l => scattered a _ _ d) (fun k => scatter a d (nth k lk 0%nat) (fun i n => apply_row (a_ndofs a) (a_bs a) (mat (3 * k + 2)%nat i n) U) + scatter a d (nth k lk 0%nat) (fun i n => apply_row (a_ndofs a) (a_bs a) (mat (3 * k + 3)%nat i n) (Uo k)))).
  2:{ intros k Hk. rewrite scattered_scatter, <- scatter_plus. apply scatter_ext. intros i' n' Hi' Hn'. destruct (HE i' n' Hi' Hn') as [_ E]. apply (E k Hk). }
  rewrite (rsum_ext (length lk) (fun a0 => lsum _ _) (fun k => scatter a d c (fun i n => apply_row (a_ndofs a) (a_bs a) (mat (3 * k + 1)%nat i n) (Uo k)) + (scatter a d (nth k lk 0%nat) (fun i n => apply_row (a_ndofs a) (a_bs a) (mat (3 * k + 2)%nat i n) U) + scatter a d (nth k lk 0%nat) (fun i n => apply_row (a_ndofs a) (a_bs a) (mat (3 * k + 3)%nat i n) (Uo k))))).
  2:{ intros k Hk. specialize (Dl k Hk). cbn [lsum]. rewrite !insertion_scatter by auto. fold U. change (restrict a u (nth k lk 0%nat)) with (Uo k). fold (mat (3 * k + 1)%nat) (mat (3 * k + 2)%nat) (mat (3 * k + 3)%nat). unfold mat. ring. }
  rewrite !rsum_plus. fold (mat 0%nat). unfold mat. ring.
Qed.
