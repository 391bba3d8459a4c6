(** The coefficient rows of a ContactProblem move along lines of displacements;
    the element matrices are the derivatives of the element vectors. *)
From Coq Require Import List Arith ZArith Lia Bool Reals Lra.
Import ListNotations.
From Verif Require Import Prelude PreludeLemmas RSum RealLemmas LayoutModel LayoutProps ContactProblemModel ContactProblemProps.
From Verif Require Import EntitiesModel PackingModel PackUProps AssemblyModel AssemblyProofs AssemblyProps RayModel KernelModel KernelProofs KernelSpec
  ContactKernelModel ContactKernelSpec ContactKernelProps FrictionKernelProps CoefficientsModel CoefficientsProps SystemSpec TieSystemModel TieSystemProofs TieSystemProps ContactSystemModel ContactSystemSpec.
Local Open Scope R_scope.

(** ** Element derivatives from the kernels *)
Section Element.
  Context (kd : kernel_data) (a : assembly) (cf : R -> list R) (cstride : nat) (w dir : list R) (e : nat).
  Context (Hnd : a_ndofs a = kd_ndofs kd) (Hbs : a_bs a = kd_bs kd) (Hl : (length (links_of a e) <= a_max_links a)%nat).
  Notation cell := (nth (2 * e) (a_active a) 0%nat).
  Notation f := (nth (2 * e + 1) (a_active a) 0%nat).
  Notation row t := (slice (cf t) (e * cstride) cstride).
  Notation W := (restrict a dir cell).
  Notation Wo := (fun k => restrict a dir (nth k (links_of a e) 0%nat)).
  Notation V rhs := (fun t => facet_result a rhs (cf t) cstride w (a_max_links a + 1) (a_bs a * a_ndofs a) e).
  Notation M jac := (facet_result a jac (cf 0) cstride w (3 * a_max_links a + 1) (a_bs a * a_ndofs a * a_bs a * a_ndofs a) e).
  Notation links := (length (links_of a e)).
  Notation qs := (points_of a e).
  Notation coords := (coordinates_of a cell).
  Notation Bv := (repeat (repeat 0 (a_bs a * a_ndofs a)) (a_max_links a + 1)).
  Notation Bm := (repeat (repeat 0 (a_bs a * a_ndofs a * a_bs a * a_ndofs a)) (3 * a_max_links a + 1)).
  Context (Hg : kd_bs kd = kd_gdim kd) (HL : contact_layout kd f links qs) (HC : contact_line kd coords f (fun t => row t) links qs W Wo) (H1 : contact_one_link kd f (row 0) links qs).

  Lemma vector_bufs : vector_buffers kd links Bv.
  Proof using Hnd Hbs Hl. clear - Hnd Hbs Hl. apply zero_vectors; [auto|rewrite Hnd, Hbs; lia]. Qed.
  Lemma matrix_bufs : matrix_buffers kd links Bm.
  Proof using Hnd Hbs Hl. clear - Hnd Hbs Hl. apply zero_matrices; [auto|rewrite Hnd, Hbs; lia]. Qed.

  Lemma element_from_added (rhs jac : kernel_fn) :
    (forall i n, (i < kd_ndofs kd)%nat -> (n < kd_bs kd)%nat ->
       let vec t := added_vec kd Bv (rhs Bv (row t) w coords f links qs) in
       let mat := added_mat kd Bm (jac Bm (row 0) w coords f links qs) in
       derivable_pt_lim (fun t => vec t 0%nat i n) 0
         (apply_row (kd_ndofs kd) (kd_bs kd) (mat 0%nat i n) W + rsum links (fun k => apply_row (kd_ndofs kd) (kd_bs kd) (mat (3 * k + 1)%nat i n) (Wo k))) /\
       forall k, (k < links)%nat -> derivable_pt_lim (fun t => vec t (k + 1)%nat i n) 0
         (apply_row (kd_ndofs kd) (kd_bs kd) (mat (3 * k + 2)%nat i n) W + apply_row (kd_ndofs kd) (kd_bs kd) (mat (3 * k + 3)%nat i n) (Wo k))) ->
    element_derivative (a_ndofs a) (a_bs a) links (V rhs) (M jac) W Wo.
  Proof using Hnd Hbs. clear - Hnd Hbs.
    intros X i n Hi Hn. rewrite Hnd in Hi. rewrite Hbs in Hn. specialize (X i n Hi Hn). cbv zeta in X. destruct X as [X1 X2].
    unfold added_vec, added_mat in X1, X2. cbv zeta in X1, X2. rewrite Hnd, Hbs in *. unfold facet_result. split.
    - refine (derivable_ext _ _ _ _ _ (derivable_eq _ _ _ _ X1 _)); [intros t; cbv beta; rewrite nth_zeros; ring|]. f_equal; [|apply rsum_ext; intros k _]; unfold apply_row; apply rsum_ext; intros j _; apply rsum_ext; intros l _; now rewrite nth_zeros, Rminus_0_r.
    - intros k Hk. specialize (X2 k Hk).
      refine (derivable_ext _ _ _ _ _ (derivable_eq _ _ _ _ X2 _)); [intros t; cbv beta; rewrite nth_zeros; ring|]. f_equal; unfold apply_row; apply rsum_ext; intros j _; apply rsum_ext; intros l _; now rewrite nth_zeros, Rminus_0_r.
  Qed.

  Lemma unbiased_element junk junk' rhs jac :
    generate_contact_kernel Rhs kd junk = Some rhs -> generate_contact_kernel Jac kd junk' = Some jac ->
    (forall q, In q qs -> contact_indicator kd coords f (row 0) w q <> 0) ->
    element_derivative (a_ndofs a) (a_bs a) links (V rhs) (M jac) W Wo.
  Proof using All.
    intros Er Ej HI. apply element_from_added. intros i n Hi Hn. cbv zeta.
    apply (C27_unbiased_derivative kd junk junk' _ _ (fun t => row t) w coords f links qs W Wo rhs jac Er Ej Hg vector_bufs matrix_bufs HL HC H1 HI i n Hi Hn).
  Qed.
  Lemma tresca_element junk junk' rhs jac :
    generate_contact_kernel TrescaRhs kd junk = Some rhs -> generate_contact_kernel TrescaJac kd junk' = Some jac -> (kd_gdim kd <= 3)%nat ->
    (forall q, In q qs -> off_tresca_kink kd coords f (row 0) w q) -> (forall q, In q qs -> unit_normal kd (row 0) q) ->
    element_derivative (a_ndofs a) (a_bs a) links (V rhs) (M jac) W Wo.
  Proof using All.
    intros Er Ej Hd HK HU. apply element_from_added. intros i n Hi Hn. cbv zeta.
    pose proof (C28_tresca_derivative kd junk junk' _ _ (fun t => row t) w coords f links qs W Wo rhs jac Er Ej Hg Hd vector_bufs matrix_bufs HL HC H1 HK i n Hi Hn) as [X1 X2].
    split; [exact X1|exact (X2 HU)].
  Qed.
  Lemma coulomb_element junk junk' rhs jac :
    generate_contact_kernel CoulombRhs kd junk = Some rhs -> generate_contact_kernel CoulombJac kd junk' = Some jac -> (kd_gdim kd <= 3)%nat ->
    (forall q, In q qs -> off_coulomb_kink kd coords f (row 0) w q) -> (forall q, In q qs -> unit_normal kd (row 0) q) ->
    element_derivative (a_ndofs a) (a_bs a) links (V rhs) (M jac) W Wo.
  Proof using All.
    intros Er Ej Hd HK HU. apply element_from_added. intros i n Hi Hn. cbv zeta.
    pose proof (C29_coulomb_derivative kd junk junk' _ _ (fun t => row t) w coords f links qs W Wo rhs jac Er Ej Hg Hd vector_bufs matrix_bufs HL HC H1 HK i n Hi Hn) as [X1 X2].
    split; [exact X1|exact (X2 HU)].
  Qed.
End Element.
