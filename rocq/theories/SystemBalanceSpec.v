(** Totals of an assembled vector: the sum of one component over all dofs. *)
From Coq Require Import List Arith ZArith Lia Bool Reals Lra.
Import ListNotations.
From Verif Require Import Prelude PreludeLemmas RSum EntitiesModel PackingModel PackUProps AssemblyModel AssemblyProofs AssemblyProps KernelModel KernelSpec SystemSpec.
Local Open Scope R_scope.

(** ** Specification *)
(** Sum of component [n] over the blocks of a vector: for a load vector the
    resultant force in direction [n]. *)
Definition resultant (bs n : nat) (v : list R) : R := rsum (length v / bs) (fun d => nth (bs * d + n) v 0).
(** The dofs of all cells that the assembly can touch have a block in a vector
    of length [len]. *)
Definition dofs_fit (a : assembly) (len : nat) : Prop := forall c j, In j (a_dofs a c) -> (j < len / a_bs a)%nat.
(** Element vectors [V] of a cell and [links] cells that sum to zero. *)
Definition element_balanced (nd bs links : nat) (V : list (list R)) (n : nat) : Prop :=
  let vec s i := nth (dof bs i n) (nth s V []) 0 in
  rsum nd (fun i => vec 0%nat i) + rsum links (fun k => rsum nd (fun i => vec (k + 1)%nat i)) = 0.

(** ** Lemmas *)
Lemma scatter_total a cell (P : nat -> nat -> R) n N : (n < a_bs a)%nat -> (forall i, (i < a_ndofs a)%nat -> (nth i (a_dofs a cell) 0 < N)%nat) ->
  rsum N (fun d => scatter a (a_bs a * d + n)%nat cell P) = rsum (a_ndofs a) (fun i => P i n).
Proof.
  intros Hn HN. unfold scatter. rewrite rsum_swap. apply rsum_ext. intros i Hi. rewrite rsum_swap.
  rewrite (rsum_single (a_bs a) n).
  - rewrite (rsum_single N (nth i (a_dofs a cell) 0%nat)); [now rewrite Nat.eqb_refl|auto|]. intros d _ Hd.
    destruct (Nat.eqb_spec (a_bs a * nth i (a_dofs a cell) 0 + n)%nat (a_bs a * d + n)%nat) as [E|E]; [|reflexivity]. exfalso. apply Hd. nia.
  - exact Hn.
  - intros m Hm Hne. apply rsum_zero. intros d _. destruct (Nat.eqb_spec (a_bs a * nth i (a_dofs a cell) 0 + m)%nat (a_bs a * d + n)%nat) as [E|E]; [|reflexivity].
    exfalso. apply Hne. assert (d = nth i (a_dofs a cell) 0)%nat by nia. subst d. lia.
Qed.
Lemma facet_total a kernel cf cstride w e n len : (n < a_bs a)%nat -> dofs_fit a len ->
  (forall c, In c (nth (2 * e) (a_active a) 0%nat :: links_of a e) -> length (a_dofs a c) = a_ndofs a) ->
  element_balanced (a_ndofs a) (a_bs a) (length (links_of a e)) (facet_result a kernel cf cstride w (a_max_links a + 1) (a_bs a * a_ndofs a) e) n ->
  rsum (len / a_bs a) (fun d => facet_vector a kernel cf cstride w e (a_bs a * d + n)%nat) = 0.
Proof.
  intros Hn HF HD HE. unfold facet_vector. cbv zeta. set (V := facet_result _ _ _ _ _ _ _ _) in *.
  rewrite rsum_plus. rewrite (rsum_swap (len / a_bs a)%nat). unfold element_balanced in HE. cbv zeta in HE. rewrite <- HE. f_equal.
  - rewrite (rsum_ext _ _ (fun d => scatter a (a_bs a * d + n)%nat (nth (2 * e) (a_active a) 0%nat) (fun i n => nth (dof (a_bs a) i n) (nth 0 V []) 0))) by (intros; apply scattered_scatter).
    apply scatter_total; auto. intros i Hi. apply (HF (nth (2 * e) (a_active a) 0%nat)), nth_In. rewrite HD; [auto|now left].
  - apply rsum_ext. intros k Hk.
    rewrite (rsum_ext _ _ (fun d => scatter a (a_bs a * d + n)%nat (nth k (links_of a e) 0%nat) (fun i n => nth (dof (a_bs a) i n) (nth (k + 1) V []) 0))) by (intros; apply scattered_scatter).
    apply scatter_total; auto. intros i Hi. apply (HF (nth k (links_of a e) 0%nat)), nth_In. rewrite HD; [auto|right; now apply nth_In].
Qed.
Lemma resultant_bound bs n len d : (n < bs)%nat -> (d < len / bs)%nat -> (bs * d + n < len)%nat.
Proof. intros Hn Hd. pose proof (Nat.mul_div_le len bs ltac:(lia)). nia. Qed.

(** If the element vectors of all facets sum to zero, assembling them does not
    change the resultant. *)
Theorem assembled_balance (a : assembly) (kernel : kernel_fn) (cf : list R) (cstride : nat) (w b : list R) (n : nat) :
  kernel_local (fun m => m + 1)%nat kernel -> well_formed a -> (n < a_bs a)%nat -> dofs_fit a (length b) ->
  (forall e c, (e < a_local a)%nat -> In c (nth (2 * e) (a_active a) 0%nat :: links_of a e) -> length (a_dofs a c) = a_ndofs a) ->
  (forall e, (e < a_local a)%nat ->
     element_balanced (a_ndofs a) (a_bs a) (length (links_of a e)) (facet_result a kernel cf cstride w (a_max_links a + 1) (a_bs a * a_ndofs a) e) n) ->
  length (assemble_vector a kernel cf cstride w b) = length b /\ resultant (a_bs a) n (assemble_vector a kernel cf cstride w b) = resultant (a_bs a) n b.
Proof.
  intros HK HW Hn HF HD HE. destruct (C20_assemble_vector a kernel cf cstride w b HK HW) as [L X]. split; [exact L|]. unfold resultant. rewrite L.
  rewrite (rsum_ext _ _ (fun d => nth (a_bs a * d + n) b 0 + rsum (a_local a) (fun e => facet_vector a kernel cf cstride w e (a_bs a * d + n)%nat)))
    by (intros d Hd; apply X; now apply resultant_bound).
  rewrite rsum_plus, (rsum_swap (length b / a_bs a)%nat), (rsum_zero (a_local a)); [ring|]. intros e He. apply facet_total; auto. intros c Hc. now apply (HD e).
Qed.
