(** Derivatives of assembled vectors: when the assembled matrix applied to a
    direction is the derivative of the assembled vector. *)
From Coq Require Import List Arith ZArith Lia Bool Reals Lra.
Import ListNotations.
From Verif Require Import Prelude PreludeLemmas RSum RealLemmas EntitiesModel PackingModel PackUProps AssemblyModel AssemblyProofs AssemblyProps KernelModel KernelSpec SystemSpec.
Local Open Scope R_scope.

(** ** Specification *)
(** The vector [u + t w]. *)
Definition moved (u w : list R) (t : R) : list R := map (fun d => nth d u 0 + t * nth d w 0) (seq 0 (length u)).
(** Element vectors [V t] and element matrices [M] of a cell and [links] cells:
    the matrices times the direction are the derivatives of the vectors at 0. *)
Definition element_derivative (nd bs links : nat) (V : R -> list (list R)) (M : list (list R)) (W : coeffs) (Wo : nat -> coeffs) : Prop :=
  let vec t s i n := nth (dof bs i n) (nth s (V t) []) 0 in
  let mat s i n := fun j l => nth (row_col (nd * bs) (dof bs i n) (dof bs j l)) (nth s M []) 0 in
  forall i n, (i < nd)%nat -> (n < bs)%nat ->
    derivable_pt_lim (fun t => vec t 0%nat i n) 0 (apply_row nd bs (mat 0%nat i n) W + rsum links (fun k => apply_row nd bs (mat (3 * k + 1)%nat i n) (Wo k))) /\
    forall k, (k < links)%nat -> derivable_pt_lim (fun t => vec t (k + 1)%nat i n) 0 (apply_row nd bs (mat (3 * k + 2)%nat i n) W + apply_row nd bs (mat (3 * k + 3)%nat i n) (Wo k)).

(** ** Lemmas *)
Lemma moved_length u w t : length (moved u w t) = length u.
Proof. unfold moved. now rewrite map_length, seq_length. Qed.
Lemma nth_moved u w t d : length w = length u -> nth d (moved u w t) 0 = nth d u 0 + t * nth d w 0.
Proof.
  intros H. destruct (Nat.lt_ge_cases d (length u)) as [L|L].
  - unfold moved. rewrite (nth_map_lt _ (seq 0 (length u)) d 0 0%nat) by now rewrite seq_length. now rewrite seq_nth.
  - rewrite !nth_overflow by (rewrite ?moved_length; lia). ring.
Qed.
Lemma restrict_moved a u w t c j l : length w = length u -> restrict a (moved u w t) c j l = restrict a u c j l + t * restrict a w c j l.
Proof. intros H. unfold restrict, dof_value. now rewrite nth_moved. Qed.

Lemma scatter_derivative a d cell (P : R -> nat -> nat -> R) D :
  (forall i n, (i < a_ndofs a)%nat -> (n < a_bs a)%nat -> derivable_pt_lim (fun t => P t i n) 0 (D i n)) ->
  derivable_pt_lim (fun t => scatter a d cell (P t)) 0 (scatter a d cell D).
Proof.
  intros H. unfold scatter. apply (derivable_rsum (a_ndofs a) (fun i t => rsum (a_bs a) (fun n => if (a_bs a * nth i (a_dofs a cell) 0 + n =? d)%nat then P t i n else 0))). intros i Hi.
  apply (derivable_rsum (a_bs a) (fun n t => if (a_bs a * nth i (a_dofs a cell) 0 + n =? d)%nat then P t i n else 0)). intros n Hn. destruct (_ =? d)%nat; [now apply H|apply derivable_const].
Qed.

(** If the element matrices are the derivatives of the element vectors, then so
    for the assembled matrix and vector, added to any [b t]. *)
Theorem assembled_derivative (a : assembly) (rhs jac : kernel_fn) (cf : R -> list R) (cstride : nat) (w dir : list R) (b : R -> list R) (d : nat) (x : R) :
  kernel_local (fun n => n + 1)%nat rhs -> kernel_local (fun n => 3 * n + 1)%nat jac -> well_formed a ->
  (forall i c, (i < a_local a)%nat -> In c (nth (2 * i) (a_active a) 0%nat :: links_of a i) -> length (a_dofs a c) = a_ndofs a) ->
  (forall i, (i < a_local a)%nat ->
     element_derivative (a_ndofs a) (a_bs a) (length (links_of a i))
       (fun t => facet_result a rhs (cf t) cstride w (a_max_links a + 1) (a_bs a * a_ndofs a) i)
       (facet_result a jac (cf 0) cstride w (3 * a_max_links a + 1) (a_bs a * a_ndofs a * a_bs a * a_ndofs a) i)
       (restrict a dir (nth (2 * i) (a_active a) 0%nat)) (fun k => restrict a dir (nth k (links_of a i) 0%nat))) ->
  (forall t, (d < length (b t))%nat) -> derivable_pt_lim (fun t => nth d (b t) 0) 0 x ->
  derivable_pt_lim (fun t => nth d (assemble_vector a rhs (cf t) cstride w (b t)) 0) 0
    (x + matrix_times (a_bs a) (assemble_matrix a jac (cf 0) cstride w) dir d).
Proof.
  intros HR HJ HW HD HE Hd Hb.
  eapply derivable_ext; [intros t; destruct (C20_assemble_vector a rhs (cf t) cstride w (b t) HR HW) as [_ Ev]; exact (Ev d (Hd t))|].
  apply derivable_plus; [exact Hb|].
  rewrite (C21_assemble_matrix a jac (cf 0) cstride w HJ HW). unfold matrix_times. rewrite lsum_flat_map, lsum_seq.
  apply (derivable_rsum (a_local a) (fun i t => facet_vector a rhs (cf t) cstride w i d)). intros i Hi. cbv zeta. cbn [lsum].
  rewrite lsum_flat_map, lsum_seq. unfold facet_vector. cbv zeta. specialize (HE i Hi).
  set (M := facet_result a jac (cf 0) cstride w _ _ i) in *. set (V := fun t => facet_result a rhs (cf t) cstride w (a_max_links a + 1) (a_bs a * a_ndofs a) i) in *.
  set (c := nth (2 * i) (a_active a) 0%nat) in *. set (lk := links_of a i) in *.
  assert (Dc : length (a_dofs a c) = a_ndofs a) by (apply (HD i); [auto | now left]).
  assert (Dl : forall k, (k < length lk)%nat -> length (a_dofs a (nth k lk 0%nat)) = a_ndofs a) by (intros k Hk; apply (HD i); [auto | right; now apply nth_In]).
  set (U := restrict a dir c). set (Uo := fun k => restrict a dir (nth k lk 0%nat)).
  set (mat := fun s i n => fun j l => nth (row_col (a_ndofs a * a_bs a) (dof (a_bs a) i n) (dof (a_bs a) j l)) (nth s M []) 0).
  assert (DC : derivable_pt_lim (fun t => scattered a c (nth 0 (V t) []) d) 0
     (scatter a d c (fun i n => apply_row (a_ndofs a) (a_bs a) (mat 0%nat i n) U + rsum (length lk) (fun k => apply_row (a_ndofs a) (a_bs a) (mat (3 * k + 1)%nat i n) (Uo k))))).
  { eapply derivable_ext; [intros t; apply scattered_scatter|]. apply scatter_derivative. intros i' n' Hi' Hn'. apply (HE i' n' Hi' Hn'). }
  assert (DL : derivable_pt_lim (fun t => rsum (length lk) (fun l => scattered a (nth l lk 0%nat) (nth (l + 1) (V t) []) d)) 0
     (rsum (length lk) (fun k => scatter a d (nth k lk 0%nat) (fun i n => apply_row (a_ndofs a) (a_bs a) (mat (3 * k + 2)%nat i n) U + apply_row (a_ndofs a) (a_bs a) (mat (3 * k + 3)%nat i n) (Uo k))))).
  { apply (derivable_rsum (length lk) (fun l t => scattered a (nth l lk 0%nat) (nth (l + 1) (V t) []) d)). intros k Hk.
    eapply derivable_ext; [intros t; apply scattered_scatter|]. apply scatter_derivative. intros i' n' Hi' Hn'. destruct (HE i' n' Hi' Hn') as [_ E]. apply (E k Hk). }
  eapply derivable_eq; [apply derivable_plus; [exact DC|exact DL]|].
  rewrite scatter_plus, (scatter_sum a d c _ (fun k i n => apply_row (a_ndofs a) (a_bs a) (mat (3 * k + 1)%nat i n) (Uo k))).
  rewrite (insertion_scatter a dir d c c) by auto. fold U.
  rewrite (rsum_ext (length lk) (fun a0 => lsum _ _) (fun k => scatter a d c (fun i n => apply_row (a_ndofs a) (a_bs a) (mat (3 * k + 1)%nat i n) (Uo k)) + scatter a d (nth k lk 0%nat) (fun i n => apply_row (a_ndofs a) (a_bs a) (mat (3 * k + 2)%nat i n) U + apply_row (a_ndofs a) (a_bs a) (mat (3 * k + 3)%nat i n) (Uo k)))).
  2:{ intros k Hk. specialize (Dl k Hk). cbn [lsum]. rewrite !insertion_scatter by auto. rewrite scatter_plus. fold U. change (restrict a dir (nth k lk 0%nat)) with (Uo k). unfold mat. ring. }
  rewrite rsum_plus. unfold mat. ring.
Qed.
