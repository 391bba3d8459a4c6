(** Poisson tie kernels: consistency (C31), symmetry (C33), balance of fluxes
    (C34), buffers (C68). *)
From Coq Require Import List Arith Lia Bool Reals Lra.
Import ListNotations.
From Verif Require Import Prelude PreludeLemmas RSum RealLemmas RayModel AssemblyModel AssemblyProofs KernelModel KernelProofs KernelSpec MeshTieKernelModel PoissonKernelProofs.
Local Open Scope R_scope.

(** Value and gradient, at point [q], of basis function [i] of linked cell [k]. *)
Definition poisson_test (kd : kernel_data) (f : nat) (c : list R) (q k i : nat) : R :=
  nth (offsets kd 1 + k * num_points kd f * kd_ndofs kd + i * num_points kd f + q)%nat c 0.
Definition poisson_test_grad (kd : kernel_data) (f : nat) (c : list R) (q k i a : nat) : R :=
  nth (offsets kd 2 + k * num_points kd f * kd_ndofs kd * kd_gdim kd + i * kd_gdim kd * num_points kd f + q * kd_gdim kd + a)%nat c 0.

Definition poisson_one_link (kd : kernel_data) (f : nat) (c : list R) (links : nat) (qs : list nat) : Prop :=
  forall q, In q qs -> exists k0, forall k i, (k < links)%nat -> k <> k0 -> (i < kd_ndofs kd)%nat ->
    poisson_test kd f c q k i = 0 /\ (forall a, (a < kd_gdim kd)%nat -> poisson_test_grad kd f c q k i a = 0).

(** The state blocks of the row are the values and gradients of the temperature
    with coefficients [T] on the cell and [To k] on linked cell [k]. *)
Record poisson_fields (kd : kernel_data) (coords : list R) (f : nat) (c : list R) (links : nat) (qs : list nat) (T : nat -> R) (To : nat -> nat -> R) : Prop := {
  pf_T : forall q, In q qs -> nth (offsets kd 3 + q)%nat c 0 = rsum (kd_ndofs kd) (fun j => kd_phi kd (kd_qp_offsets kd f + q) j * T j);
  pf_grad : forall q a, In q qs -> (a < kd_gdim kd)%nat -> nth (offsets kd 4 + q * kd_gdim kd + a)%nat c 0 = rsum (kd_ndofs kd) (fun j => phys_grad kd coords f q j a * T j);
  pf_T_opp : forall q, In q qs -> nth (offsets kd 5 + q)%nat c 0 = rsum links (fun k => rsum (kd_ndofs kd) (fun j => poisson_test kd f c q k j * To k j));
  pf_grad_opp : forall q a, In q qs -> (a < kd_gdim kd)%nat ->
    nth (offsets kd 6 + q * kd_gdim kd + a)%nat c 0 = rsum links (fun k => rsum (kd_ndofs kd) (fun j => poisson_test_grad kd f c q k j a * To k j)) }.

Section Point.
  Context (kd : kernel_data) (coords : list R) (f : nat) (c : list R).
  Notation gdim := (kd_gdim kd).
  Notation nd := (kd_ndofs kd).
  Notation geo q := (geometry_at kd coords f q).
  Notation dn q i := (basis_normal_derivative kd (geo q) (kd_qp_offsets kd f + q) i).
  Definition normal_grad (q k i : nat) : R := rsum gdim (fun a => poisson_test_grad kd f c q k i a * g_n (geo q) a).

  Lemma basis_normal_derivative_eq q i : dn q i = rsum gdim (fun a => phys_grad kd coords f q i a * g_n (geo q) a).
  Proof.
    unfold basis_normal_derivative, phys_grad.
    rewrite (for_loop_ext _ _ (fun j acc => acc + rsum (kd_tdim kd) (fun k => g_K (geo q) k j * kd_dphi kd k (kd_qp_offsets kd f + q) i * g_n (geo q) j))) by (intros; apply for_loop_rsum).
    rewrite for_loop_rsum, Rplus_0_l. apply rsum_ext. intros a _. now rewrite <- rsum_scal_r.
  Qed.

  Lemma average_flux links qs T To : poisson_fields kd coords f c links qs T To -> forall q, In q qs ->
    for_loop gdim (fun j acc => acc + 0.5 * (nth (offsets kd 4 + q * gdim + j)%nat c 0 + nth (offsets kd 6 + q * gdim + j)%nat c 0) * g_n (geo q) j) 0 =
    / 2 * rsum nd (fun j => dn q j * T j) + / 2 * rsum links (fun k => rsum nd (fun j => normal_grad q k j * To k j)).
  Proof.
    intros F q Hq. rewrite for_loop_rsum, Rplus_0_l.
    rewrite (rsum_ext gdim _ (fun a => / 2 * rsum nd (fun j => phys_grad kd coords f q j a * g_n (geo q) a * T j) +
       / 2 * rsum links (fun k => rsum nd (fun j => poisson_test_grad kd f c q k j a * g_n (geo q) a * To k j)))).
    2:{ intros a Ha. rewrite (pf_grad _ _ _ _ _ _ _ _ F q a Hq Ha), (pf_grad_opp _ _ _ _ _ _ _ _ F q a Hq Ha), half_eq.
        rewrite (rsum_ext nd (fun j => phys_grad kd coords f q j a * g_n (geo q) a * T j) (fun j => g_n (geo q) a * (phys_grad kd coords f q j a * T j))) by (intros; ring).
        rewrite (rsum_ext links (fun k => rsum nd (fun j => poisson_test_grad kd f c q k j a * g_n (geo q) a * To k j)) (fun k => g_n (geo q) a * rsum nd (fun j => poisson_test_grad kd f c q k j a * To k j)))
          by (intros; rewrite <- rsum_scal; apply rsum_ext; intros; ring).
        rewrite !rsum_scal. ring. }
    rewrite rsum_plus, !rsum_scal. f_equal; f_equal.
    - rewrite rsum_swap. apply rsum_ext. intros j _. rewrite rsum_scal_r, basis_normal_derivative_eq. reflexivity.
    - rewrite rsum_swap. apply rsum_ext. intros k _. rewrite rsum_swap. apply rsum_ext. intros j _. rewrite rsum_scal_r. reflexivity.
  Qed.
End Point.

Section Entries.
  Context (kd : kernel_data) (junk : geometry) (c w coords : list R) (f links : nat) (qs : list nat) (Hbs : kd_bs kd = 1%nat).
  Notation nd := (kd_ndofs kd).
  Notation gam := (nth 0 w 0 / nth 0 c 0).
  Notation theta := (nth 1 w 0).
  Notation phi q i := (kd_phi kd (kd_qp_offsets kd f + q) i).
  Notation geo q := (geometry_at kd coords f q).
  Notation dn q i := (basis_normal_derivative kd (geo q) (kd_qp_offsets kd f + q) i).
  Notation gn q k i := (normal_grad kd coords f c q k i).
  Notation test q k i := (poisson_test kd f c q k i).
  Notation jump q := (nth (offsets kd 3 + q)%nat c 0 - nth (offsets kd 5 + q)%nat c 0).
  Notation avg q := (for_loop (kd_gdim kd) (fun j acc =>
          acc + 0.5 * (nth (offsets kd 4 + q * kd_gdim kd + j)%nat c 0 + nth (offsets kd 6 + q * kd_gdim kd + j)%nat c 0) * g_n (geo q) j) 0).
  Notation w0 q := (0.5 * weight kd f q * g_detJ (geo q) * nth 1 c 0).

  Lemma chg_vec1 b out s i v : vector_buffers kd links b -> (s <= links)%nat -> (i < nd)%nat -> chg s i b out v -> added_vec kd b out s i 0 = v.
  Proof. intros Hb Hs Hi C. apply (chg_vec kd links); auto; [lia|]. replace (0 + i * kd_bs kd)%nat with i by (rewrite Hbs; lia). exact C. Qed.
  Lemma chg_mat1 A out s i j v : matrix_buffers kd links A -> (s <= 3 * links)%nat -> (i < nd)%nat -> (j < nd)%nat -> chg s (i * nd + j) A out v -> added_mat kd A out s i 0 j 0 = v.
  Proof.
    intros HA Hs Hi Hj C. apply (chg_mat kd links); auto; try lia.
    replace ((0 + i * kd_bs kd) * nd * kd_bs kd + 0 + j * kd_bs kd)%nat with (i * nd + j)%nat by (rewrite Hbs; nia). exact C.
  Qed.

  Lemma vec_cell b i : vector_buffers kd links b -> (i < nd)%nat ->
    added_vec kd b (poisson_rhs kd junk b c w coords f links qs) 0 i 0 =
    lsum qs (fun q => (- avg q + gam * jump q) * phi q i * w0 q - theta * / 2 * dn q i * jump q * w0 q).
  Proof.
    intros Hb Hi. rewrite (chg_vec1 b _ 0 i _ Hb ltac:(lia) Hi (poisson_rhs_cell kd junk c w coords f links b qs i Hi)). apply lsum_ext. intros q _. rewrite half_eq. ring.
  Qed.
  Lemma vec_link b k i : vector_buffers kd links b -> (k < links)%nat -> (i < nd)%nat ->
    added_vec kd b (poisson_rhs kd junk b c w coords f links qs) (k + 1) i 0 =
    lsum qs (fun q => (avg q - gam * jump q) * test q k i * w0 q - theta * / 2 * gn q k i * jump q * w0 q).
  Proof.
    intros Hb Hk Hi. rewrite (chg_vec1 b _ (k + 1) i _ Hb ltac:(lia) Hi (poisson_rhs_link kd junk c w coords f links b qs k i Hk Hi)). apply lsum_ext. intros q _.
    unfold normal_grad. unfold poisson_test at 1. set (j := jump q). set (W := w0 q).
    rewrite (rsum_ext (kd_gdim kd) _ (fun a => (- (/ 2) * theta * j * W) * (poisson_test_grad kd f c q k i a * g_n (geo q) a)))
      by (intros a _; unfold poisson_test_grad; rewrite minus_half_eq; ring).
    rewrite rsum_scal. ring.
  Qed.
  Lemma mat_cell A i j : matrix_buffers kd links A -> (i < nd)%nat -> (j < nd)%nat ->
    added_mat kd A (poisson_jac kd junk A c w coords f links qs) 0 i 0 j 0 =
    lsum qs (fun q => (- / 2 * dn q j + gam * phi q j) * phi q i * w0 q - theta * / 2 * dn q i * phi q j * w0 q).
  Proof.
    intros HA Hi Hj. rewrite (chg_mat1 A _ 0 i j _ HA ltac:(lia) Hi Hj (poisson_jac_cell kd junk c w coords f links A qs i j Hi Hj)). apply lsum_ext. intros q _. rewrite half_eq, minus_half_eq. ring.
  Qed.
  Lemma mat_cell_link A k i j : matrix_buffers kd links A -> (k < links)%nat -> (i < nd)%nat -> (j < nd)%nat ->
    added_mat kd A (poisson_jac kd junk A c w coords f links qs) (3 * k + 1) i 0 j 0 =
    lsum qs (fun q => (- gam * phi q i + theta * / 2 * dn q i) * test q k j * w0 q - / 2 * gn q k j * phi q i * w0 q).
  Proof.
    intros HA Hk Hi Hj. rewrite (chg_mat1 A _ (3 * k + 1) i j _ HA ltac:(lia) Hi Hj (poisson_jac_cell_link kd junk c w coords f links A qs k i j Hk Hi Hj)). apply lsum_ext. intros q _.
    unfold normal_grad. unfold poisson_test at 1. set (W := w0 q).
    rewrite (rsum_ext (kd_gdim kd) _ (fun a => (- (/ 2) * phi q i * W) * (poisson_test_grad kd f c q k j a * g_n (geo q) a)))
      by (intros a _; unfold poisson_test_grad; rewrite minus_half_eq; ring).
    rewrite rsum_scal, half_eq. ring.
  Qed.
  Lemma mat_link_cell A k i j : matrix_buffers kd links A -> (k < links)%nat -> (i < nd)%nat -> (j < nd)%nat ->
    added_mat kd A (poisson_jac kd junk A c w coords f links qs) (3 * k + 2) i 0 j 0 =
    lsum qs (fun q => (/ 2 * dn q j - gam * phi q j) * test q k i * w0 q - theta * / 2 * gn q k i * phi q j * w0 q).
  Proof.
    intros HA Hk Hi Hj. rewrite (chg_mat1 A _ (3 * k + 2) i j _ HA ltac:(lia) Hi Hj (poisson_jac_link_cell kd junk c w coords f links A qs k i j Hk Hi Hj)). apply lsum_ext. intros q _.
    unfold normal_grad. unfold poisson_test at 1. set (W := w0 q).
    rewrite (rsum_ext (kd_gdim kd) _ (fun a => (- (/ 2) * theta * phi q j * W) * (poisson_test_grad kd f c q k i a * g_n (geo q) a)))
      by (intros a _; unfold poisson_test_grad; rewrite half_eq; ring).
    rewrite rsum_scal, half_eq. ring.
  Qed.
  Lemma mat_link_link A k i j : matrix_buffers kd links A -> (k < links)%nat -> (i < nd)%nat -> (j < nd)%nat ->
    added_mat kd A (poisson_jac kd junk A c w coords f links qs) (3 * k + 3) i 0 j 0 =
    lsum qs (fun q => gam * test q k j * test q k i * w0 q + / 2 * gn q k j * test q k i * w0 q + theta * / 2 * gn q k i * test q k j * w0 q).
  Proof.
    intros HA Hk Hi Hj. rewrite (chg_mat1 A _ (3 * k + 3) i j _ HA ltac:(lia) Hi Hj (poisson_jac_link_link kd junk c w coords f links A qs k i j Hk Hi Hj)). apply lsum_ext. intros q _.
    unfold normal_grad. set (W := w0 q).
    rewrite (rsum_ext (kd_gdim kd) _ (fun a => (/ 2 * test q k i * W) * (poisson_test_grad kd f c q k j a * g_n (geo q) a) + (theta * / 2 * test q k j * W) * (poisson_test_grad kd f c q k i a * g_n (geo q) a)))
      by (intros a _; unfold poisson_test_grad, poisson_test; rewrite half_eq; ring).
    rewrite rsum_plus, !rsum_scal. unfold poisson_test. ring.
  Qed.
End Entries.

(** ** C31 *)
Theorem C31_poisson_consistent :
  forall (kd : kernel_data) (junk junk' : geometry) (b A : list (list R)) (c w coords : list R) (f links : nat) (qs : list nat) (T : nat -> R) (To : nat -> nat -> R) (rhs jac : kernel_fn),
    generate_poisson_kernel MeshTieRhs kd junk = Some rhs -> generate_poisson_kernel MeshTieJac kd junk' = Some jac ->
    kd_bs kd = 1%nat -> vector_buffers kd links b -> matrix_buffers kd links A ->
    poisson_fields kd coords f c links qs T To -> poisson_one_link kd f c links qs ->
    let nd := kd_ndofs kd in
    let vec s i := added_vec kd b (rhs b c w coords f links qs) s i 0 in
    let mat s i j := added_mat kd A (jac A c w coords f links qs) s i 0 j 0 in
    forall i, (i < nd)%nat ->
      vec 0%nat i = rsum nd (fun j => mat 0%nat i j * T j) + rsum links (fun k => rsum nd (fun j => mat (3 * k + 1)%nat i j * To k j)) /\
      forall k, (k < links)%nat -> vec (k + 1)%nat i = rsum nd (fun j => mat (3 * k + 2)%nat i j * T j) + rsum nd (fun j => mat (3 * k + 3)%nat i j * To k j).
Proof.
  intros kd junk junk' b A c w coords f links qs T To rhs jac E_rhs E_jac. unfold generate_poisson_kernel in E_rhs, E_jac. destruct (negb (kd_bs kd =? 1)%nat); [discriminate|]. injection E_rhs as <-. injection E_jac as <-. intros Hbs Hb HA F HL nd vec mat i Hi. subst nd.
  assert (S1 : forall (M : nat -> nat -> R) V, rsum (kd_ndofs kd) (fun j => lsum qs (fun q => M q j) * V j) = lsum qs (fun q => rsum (kd_ndofs kd) (fun j => M q j * V j))).
  { intros M V. rewrite lsum_rsum. apply rsum_ext. intros j _. now rewrite lsum_scal_r. }
  split.
  - unfold vec. rewrite vec_cell by auto.
    rewrite (rsum_ext _ (fun j => mat 0%nat i j * T j) (fun j => lsum qs _ * T j)) by (intros j Hj; unfold mat; rewrite (mat_cell kd junk' c w coords f links qs Hbs A i j HA Hi Hj); reflexivity).
    rewrite (rsum_ext links _ (fun k => rsum (kd_ndofs kd) (fun j => lsum qs _ * To k j)))
      by (intros k Hk; apply rsum_ext; intros j Hj; unfold mat; rewrite (mat_cell_link kd junk' c w coords f links qs Hbs A k i j HA Hk Hi Hj); reflexivity).
    rewrite S1. rewrite (rsum_ext links _ (fun k => lsum qs (fun q => rsum (kd_ndofs kd) _))) by (intros k _; apply S1).
    rewrite <- lsum_rsum, <- lsum_plus. apply lsum_ext. intros q Hq. cbv beta.
    rewrite (average_flux kd coords f c links qs T To F q Hq), (pf_T _ _ _ _ _ _ _ _ F q Hq), (pf_T_opp _ _ _ _ _ _ _ _ F q Hq).
    set (w0 := 0.5 * weight kd f q * g_detJ (geometry_at kd coords f q) * nth 1 c 0). set (gam := nth 0 w 0 / nth 0 c 0). set (theta := nth 1 w 0).
    set (ph := kd_phi kd (kd_qp_offsets kd f + q)). set (dn := basis_normal_derivative kd (geometry_at kd coords f q) (kd_qp_offsets kd f + q)).
    rewrite (rsum_ext (kd_ndofs kd) (fun j => (_ - _) * T j) (fun j => (- / 2 * ph i * w0) * (dn j * T j) + ((gam * ph i - theta * / 2 * dn i) * w0) * (ph j * T j))) by (intros; ring).
    rewrite (rsum_ext links (fun k => rsum (kd_ndofs kd) (fun j => (_ - _) * To k j)) (fun k => ((- gam * ph i + theta * / 2 * dn i) * w0) * rsum (kd_ndofs kd) (fun j => poisson_test kd f c q k j * To k j)
        + (- / 2 * ph i * w0) * rsum (kd_ndofs kd) (fun j => normal_grad kd coords f c q k j * To k j)))
      by (intros k _; rewrite <- !rsum_scal, <- rsum_plus; apply rsum_ext; intros; ring).
    rewrite !rsum_plus, !rsum_scal. ring.
  - intros k Hk. unfold vec. rewrite vec_link by auto.
    rewrite (rsum_ext _ (fun j => mat (3 * k + 2)%nat i j * T j) (fun j => lsum qs _ * T j)) by (intros j Hj; unfold mat; rewrite (mat_link_cell kd junk' c w coords f links qs Hbs A k i j HA Hk Hi Hj); reflexivity).
    rewrite (rsum_ext _ (fun j => mat (3 * k + 3)%nat i j * To k j) (fun j => lsum qs _ * To k j)) by (intros j Hj; unfold mat; rewrite (mat_link_link kd junk' c w coords f links qs Hbs A k i j HA Hk Hi Hj); reflexivity).
    rewrite !S1, <- lsum_plus. apply lsum_ext. intros q Hq. cbv beta.
    rewrite (average_flux kd coords f c links qs T To F q Hq), (pf_T _ _ _ _ _ _ _ _ F q Hq), (pf_T_opp _ _ _ _ _ _ _ _ F q Hq).
    set (w0 := 0.5 * weight kd f q * g_detJ (geometry_at kd coords f q) * nth 1 c 0). set (gam := nth 0 w 0 / nth 0 c 0). set (theta := nth 1 w 0).
    set (ph := kd_phi kd (kd_qp_offsets kd f + q)). set (dn := basis_normal_derivative kd (geometry_at kd coords f q) (kd_qp_offsets kd f + q)).
    set (t := poisson_test kd f c q). set (g := normal_grad kd coords f c q).
    rewrite (rsum_ext (kd_ndofs kd) (fun j => (_ - _) * T j) (fun j => (/ 2 * t k i * w0) * (dn j * T j) + (- gam * t k i * w0 - theta * / 2 * g k i * w0) * (ph j * T j))) by (intros; ring).
    rewrite (rsum_ext (kd_ndofs kd) (fun j => (_ + _) * To k j) (fun j => (gam * t k i * w0 + theta * / 2 * g k i * w0) * (t k j * To k j) + (/ 2 * t k i * w0) * (g k j * To k j))) by (intros; ring).
    rewrite !rsum_plus, !rsum_scal. destruct (HL q Hq) as [k0 H0].
    assert (Zg : forall k' j, (k' < links)%nat -> k' <> k0 -> (j < kd_ndofs kd)%nat -> g k' j = 0).
    { intros k' j Hk' N Hj. unfold g, normal_grad. apply rsum_zero. intros a Ha. destruct (H0 k' j Hk' N Hj) as [_ Z]. rewrite Z by auto. ring. }
    destruct (Nat.eq_dec k k0) as [<-|Ne].
    + rewrite (rsum_single links k (fun k' => rsum (kd_ndofs kd) (fun j => g k' j * To k' j))) by (first [exact Hk | intros k' Hk' N; apply rsum_zero; intros j Hj; rewrite Zg by auto; ring]).
      rewrite (rsum_single links k (fun k' => rsum (kd_ndofs kd) (fun j => t k' j * To k' j))) by (first [exact Hk | intros k' Hk' N; apply rsum_zero; intros j Hj; destruct (H0 k' j Hk' N Hj) as [Z _]; fold t in Z; rewrite Z; ring]).
      ring.
    + destruct (H0 k i Hk Ne Hi) as [Z _]. fold t in Z. rewrite Z, (Zg k i Hk Ne Hi). ring.
Qed.
Print Assumptions C31_poisson_consistent.

(** ** C33 *)
Theorem C33_poisson_symmetric :
  forall (kd : kernel_data) (junk : geometry) (A : list (list R)) (c w coords : list R) (f links : nat) (qs : list nat) (jac : kernel_fn),
    generate_poisson_kernel MeshTieJac kd junk = Some jac ->
    kd_bs kd = 1%nat -> matrix_buffers kd links A -> nth 1 w 0 = 1 ->
    let mat s i j := added_mat kd A (jac A c w coords f links qs) s i 0 j 0 in
    forall i j, (i < kd_ndofs kd)%nat -> (j < kd_ndofs kd)%nat ->
      mat 0%nat i j = mat 0%nat j i /\
      forall k, (k < links)%nat -> mat (3 * k + 1)%nat i j = mat (3 * k + 2)%nat j i /\ mat (3 * k + 3)%nat i j = mat (3 * k + 3)%nat j i.
Proof.
  intros kd junk A c w coords f links qs jac E_jac. unfold generate_poisson_kernel in E_jac. destruct (negb (kd_bs kd =? 1)%nat); [discriminate|]. injection E_jac as <-. intros Hbs HA Ht mat i j Hi Hj. unfold mat. split.
  - rewrite !mat_cell by auto. apply lsum_ext. intros q _. rewrite Ht. ring.
  - intros k Hk. split.
    + rewrite mat_cell_link, mat_link_cell by auto. apply lsum_ext. intros q _. rewrite Ht. ring.
    + rewrite !mat_link_link by auto. apply lsum_ext. intros q _. rewrite Ht. ring.
Qed.
Print Assumptions C33_poisson_symmetric.

(** ** C34: the heat flux out of one side enters the other *)
Record poisson_partition (kd : kernel_data) (coords : list R) (f : nat) (c : list R) (links : nat) (qs : list nat) : Prop := {
  pp_phi : forall q, In q qs -> rsum (kd_ndofs kd) (fun i => kd_phi kd (kd_qp_offsets kd f + q) i) = 1;
  pp_grad : forall q b, In q qs -> (b < kd_gdim kd)%nat -> rsum (kd_ndofs kd) (fun i => phys_grad kd coords f q i b) = 0;
  pp_test : forall q, In q qs -> rsum links (fun k => rsum (kd_ndofs kd) (fun i => poisson_test kd f c q k i)) = 1;
  pp_test_grad : forall q b, In q qs -> (b < kd_gdim kd)%nat -> rsum links (fun k => rsum (kd_ndofs kd) (fun i => poisson_test_grad kd f c q k i b)) = 0 }.

Theorem C34_poisson_balance :
  forall (kd : kernel_data) (junk : geometry) (b : list (list R)) (c w coords : list R) (f links : nat) (qs : list nat) (rhs : kernel_fn),
    generate_poisson_kernel MeshTieRhs kd junk = Some rhs ->
    kd_bs kd = 1%nat -> vector_buffers kd links b -> poisson_partition kd coords f c links qs ->
    let vec s i := added_vec kd b (rhs b c w coords f links qs) s i 0 in
    rsum (kd_ndofs kd) (fun i => vec 0%nat i) + rsum links (fun k => rsum (kd_ndofs kd) (fun i => vec (k + 1)%nat i)) = 0.
Proof.
  intros kd junk b c w coords f links qs rhs E_rhs. unfold generate_poisson_kernel in E_rhs. destruct (negb (kd_bs kd =? 1)%nat); [discriminate|]. injection E_rhs as <-. intros Hbs Hb P vec. unfold vec.
  rewrite (rsum_ext (kd_ndofs kd) _ (fun i => lsum qs _)) by (intros i Hi; apply vec_cell; auto).
  rewrite (rsum_ext links _ (fun k => rsum (kd_ndofs kd) (fun i => lsum qs _))) by (intros k Hk; apply rsum_ext; intros i Hi; apply vec_link; auto).
  rewrite <- lsum_rsum.
  rewrite (rsum_ext links _ (fun k => lsum qs (fun q => rsum (kd_ndofs kd) (fun i => _)))) by (intros k _; now rewrite <- lsum_rsum).
  rewrite <- lsum_rsum, <- lsum_plus. apply lsum_zero. intros q Hq.
  set (w0 := 0.5 * weight kd f q * g_detJ (geometry_at kd coords f q) * nth 1 c 0). set (gam := nth 0 w 0 / nth 0 c 0). set (theta := nth 1 w 0).
  set (ph := kd_phi kd (kd_qp_offsets kd f + q)). set (dn := basis_normal_derivative kd (geometry_at kd coords f q) (kd_qp_offsets kd f + q)).
  set (j := nth (offsets kd 3 + q)%nat c 0 - nth (offsets kd 5 + q)%nat c 0).
  match goal with |- context [- for_loop ?n ?g ?z] => set (av := for_loop n g z) end.
  rewrite (rsum_ext (kd_ndofs kd) (fun i => _ - _) (fun i => (- av + gam * j) * w0 * ph i + (- theta * / 2 * j * w0) * dn i)) by (intros; ring).
  rewrite (rsum_ext links _ (fun k => (av - gam * j) * w0 * rsum (kd_ndofs kd) (fun i => poisson_test kd f c q k i) + (- theta * / 2 * j * w0) * rsum (kd_ndofs kd) (fun i => normal_grad kd coords f c q k i)))
    by (intros k _; rewrite <- !rsum_scal, <- rsum_plus; apply rsum_ext; intros; ring).
  assert (Hp : rsum (kd_ndofs kd) ph = 1) by exact (pp_phi _ _ _ _ _ _ P q Hq).
  assert (Hd : rsum (kd_ndofs kd) dn = 0).
  { rewrite (rsum_ext _ dn (fun i => rsum (kd_gdim kd) (fun a => phys_grad kd coords f q i a * g_n (geometry_at kd coords f q) a))) by (intros; apply basis_normal_derivative_eq).
    rewrite rsum_swap. apply rsum_zero. intros a Ha. rewrite rsum_scal_r, (pp_grad _ _ _ _ _ _ P q a Hq Ha). ring. }
  assert (Hg : rsum links (fun k => rsum (kd_ndofs kd) (fun i => normal_grad kd coords f c q k i)) = 0).
  { unfold normal_grad. rewrite (rsum_ext links _ (fun k => rsum (kd_gdim kd) (fun a => g_n (geometry_at kd coords f q) a * rsum (kd_ndofs kd) (fun i => poisson_test_grad kd f c q k i a)))).
    - rewrite rsum_swap. apply rsum_zero. intros a Ha. rewrite rsum_scal, (pp_test_grad _ _ _ _ _ _ P q a Hq Ha). ring.
    - intros k _. rewrite rsum_swap. apply rsum_ext. intros a _. rewrite <- rsum_scal. apply rsum_ext. intros; ring. }
  rewrite !rsum_plus, !rsum_scal, Hp, Hd, Hg, (pp_test _ _ _ _ _ _ P q Hq). ring.
Qed.
Print Assumptions C34_poisson_balance.

Theorem C68_poisson_kernels_local :
  forall (kd : kernel_data) (junk : geometry), kd_bs kd = 1%nat ->
    (exists kernel, generate_poisson_kernel MeshTieRhs kd junk = Some kernel /\ kernel_local (fun n => n + 1)%nat kernel) /\
    (exists kernel, generate_poisson_kernel MeshTieJac kd junk = Some kernel /\ kernel_local (fun n => 3 * n + 1)%nat kernel).
Proof.
  intros kd junk Hbs. unfold generate_poisson_kernel. rewrite Hbs. cbn [Nat.eqb negb].
  split; eexists; (split; [reflexivity|]); apply kernel_local_intro; intros; unfold poisson_rhs, poisson_jac; cbv zeta; rewrite !quadrature_loop_geometry.
  all: first [ lazymatch goal with |- same_shape _ ?b => pose proof (same_shape_refl b) end; solve [kernel_shape] | solve [kernel_agree] ].
Qed.
Print Assumptions C68_poisson_kernels_local.

(** ** A concrete facet: one point of a triangle, two linked triangles, the point
    in the first of them. *)
Definition example_kd1 : kernel_data :=
  {| kd_gdim := 2; kd_tdim := 2; kd_bs := 1; kd_ndofs := 3; kd_nodes := 0; kd_affine := true;
     kd_cstrides := [2; 6; 12; 1; 2; 1; 2]%nat; kd_qp_offsets := fun f => f;
     kd_phi := fun _ _ => 1 / 3;
     kd_dphi := fun k _ i => nth i (nth k [[-1; 1; 0]; [-1; 0; 1]] []) 0;
     kd_dphi_c := fun _ _ _ => 0; kd_weights := fun _ => 1 / 2;
     kd_ref_jacobian := fun _ i j => if (i =? j)%nat then 1 else 0; kd_ref_normal := fun _ i => if (i =? 0)%nat then 1 else 0;
     kd_inverse := fun _ i j => if (i =? j)%nat then 1 else 0; kd_determinant := fun _ => 1 |}.
Definition example_row1 : list R :=
  [1; 1] ++ [1/3; 1/3; 1/3; 0; 0; 0] ++ [-1; -1; 1; 0; 0; 1; 0; 0; 0; 0; 0; 0] ++ [4/3] ++ [-1; 2] ++ [4/3] ++ [-1; 2].
Definition example_T : nat -> R := fun j => nth j [1; 0; 3] 0.

Ltac ex_eval := cbv -[IZR Rdiv Rminus Rinv Rmult Rplus Ropp]; try lra.
Example C31_nonvacuous :
  vector_buffers example_kd1 2 (repeat (repeat 0 3) 3) /\ matrix_buffers example_kd1 2 (repeat (repeat 0 9) 7) /\
  poisson_fields example_kd1 [] 0 example_row1 2 [0%nat] example_T (fun _ => example_T) /\ poisson_one_link example_kd1 0 example_row1 2 [0%nat] /\
  poisson_partition example_kd1 [] 0 example_row1 2 [0%nat].
Proof.
  split; [split; [cbn; lia|]; intros s Hs; change (kd_ndofs example_kd1 * kd_bs example_kd1)%nat with 3%nat; do 3 (destruct s; [reflexivity|]); lia|].
  split; [split; [cbn; lia|]; intros s Hs; change (kd_ndofs example_kd1 * kd_bs example_kd1 * (kd_ndofs example_kd1 * kd_bs example_kd1))%nat with 9%nat; do 7 (destruct s; [reflexivity|]); lia|].
  split; [constructor|split; [|constructor]].
  - intros q [<-|[]]. ex_eval.
  - intros q b [<-|[]] Hb; change (kd_gdim example_kd1) with 2%nat in Hb. destruct b as [|[|b]]; [ex_eval | ex_eval | lia].
  - intros q [<-|[]]. ex_eval.
  - intros q b [<-|[]] Hb; change (kd_gdim example_kd1) with 2%nat in Hb. destruct b as [|[|b]]; [ex_eval | ex_eval | lia].
  - intros q [<-|[]]. exists 0%nat. intros k i Hk N Hi. assert (k = 1%nat) as -> by lia. change (kd_ndofs example_kd1) with 3%nat in Hi. split.
    + do 3 (destruct i as [|i]; [reflexivity|]). lia.
    + intros n Hn; change (kd_gdim example_kd1) with 2%nat in Hn. do 3 (destruct i as [|i]; [destruct n as [|[|n]]; [reflexivity | reflexivity | lia]|]); lia.
  - intros q [<-|[]]. ex_eval.
  - intros q b [<-|[]] Hb; change (kd_gdim example_kd1) with 2%nat in Hb. destruct b as [|[|b]]; [ex_eval | ex_eval | lia].
  - intros q [<-|[]]. ex_eval.
  - intros q b [<-|[]] Hb; change (kd_gdim example_kd1) with 2%nat in Hb. destruct b as [|[|b]]; [ex_eval | ex_eval | lia].
Qed.
