(** Frictionless contact kernels: the matrix is the derivative of the residual
    (C27), symmetry (C33), balance of forces (C34), inactive contact (C35), the
    contact pressure (C36). *)
From Coq Require Import List Arith Lia Bool Reals Lra.
Import ListNotations.
From Verif Require Import Prelude PreludeLemmas RSum RealLemmas CropModel CandidatesProps RayModel OpsModel OpsProps AssemblyModel AssemblyProofs KernelModel KernelProofs KernelSpec
  MeshTieKernelModel MeshTieKernelProps ElasticityProps ContactKernelModel ContactKernelProofs ContactKernelSpec ContactCurveProofs.
Local Open Scope R_scope.

Lemma derivable_R_plus_affine a b : a <> 0 -> derivable_pt_lim (fun t => R_plus (a + t * b)) 0 (dR_plus a * b).
Proof.
  intros Ha. apply (derivable_pt_lim_comp (fun t => a + t * b) R_plus); [apply derivable_affine|].
  rewrite Rmult_0_l, Rplus_0_r. now apply C38_derivatives.
Qed.
Lemma apply_row_comb nd bs x y M M' U : apply_row nd bs (fun j l => x * M j l + y * M' j l) U = x * apply_row nd bs M U + y * apply_row nd bs M' U.
Proof. rewrite (apply_row_plus nd bs (fun j l => x * M j l)), !apply_row_scal. reflexivity. Qed.

(** ** C27 *)
Theorem C27_unbiased_derivative :
  forall (kd : kernel_data) (junk junk' : geometry) (b A : list (list R)) (C : R -> list R) (w coords : list R) (f links : nat) (qs : list nat) (W : coeffs) (Wo : nat -> coeffs) (rhs jac : kernel_fn),
    generate_contact_kernel Rhs kd junk = Some rhs -> generate_contact_kernel Jac kd junk' = Some jac ->
    kd_bs kd = kd_gdim kd -> vector_buffers kd links b -> matrix_buffers kd links A ->
    contact_layout kd f links qs -> contact_line kd coords f C links qs W Wo -> contact_one_link kd f (C 0) links qs ->
    (forall q, In q qs -> contact_indicator kd coords f (C 0) w q <> 0) ->
    let nd := kd_ndofs kd in
    let bs := kd_bs kd in
    let vec t := added_vec kd b (rhs b (C t) w coords f links qs) in
    let mat := added_mat kd A (jac A (C 0) w coords f links qs) in
    forall i n, (i < nd)%nat -> (n < bs)%nat ->
      derivable_pt_lim (fun t => vec t 0%nat i n) 0
        (apply_row nd bs (mat 0%nat i n) W + rsum links (fun k => apply_row nd bs (mat (3 * k + 1)%nat i n) (Wo k))) /\
      forall k, (k < links)%nat -> derivable_pt_lim (fun t => vec t (k + 1)%nat i n) 0
        (apply_row nd bs (mat (3 * k + 2)%nat i n) W + apply_row nd bs (mat (3 * k + 3)%nat i n) (Wo k)).
Proof.
  intros kd junk junk' b A C w coords f links qs W Wo rhs jac E_rhs E_jac. injection E_rhs as <-. injection E_jac as <-. intros Hbs Hb HA HL HC H1 HI nd bs vec mat i n Hi Hn. subst nd bs.
  assert (Hn' : (n < kd_gdim kd)%nat) by (rewrite <- Hbs; auto).
  assert (HI' : forall q, In q qs -> (jump_un kd (C 0) q - normal_gap kd (C 0) q) - gamma_of (C 0) w * sign_u kd (C 0) (geometry_at kd coords f q) q <> 0)
    by (intros q Hq; rewrite indicator_eq by auto; auto).
  split.
  - eapply derivable_eq; [eapply derivable_ext; [intros t; unfold vec; exact (chg_vec kd links b _ 0 i n _ Hb ltac:(lia) Hi Hn (unbiased_rhs_cell kd junk (C t) w coords f links b qs i n Hi Hn))|]|].
    + apply derivable_lsum. intros q Hq. eapply derivable_ext; [intros t; rewrite (line_ind kd coords f w C links qs W Wo Hbs HL HC t q Hq), (line_ns kd coords f w C links qs W Wo Hbs HL HC t q n Hq Hn'),
        (line_sign kd coords f w C links qs W Wo Hbs HL HC t q i n Hq Hn'), (line_signu kd coords f w C links qs W Wo Hbs HL HC t q Hq), (line_gamma kd coords f w C links qs W Wo Hbs HL HC t), (line_gamma_inv kd coords f w C links qs W Wo Hbs HL HC t); reflexivity|].
      apply derivable_minus.
      * apply derivable_scal_r, derivable_scal, derivable_scal_r. apply derivable_R_plus_affine. auto.
      * apply derivable_scal_r, derivable_scal_r, derivable_scal. apply derivable_affine.
    + rewrite (apply_row_ext _ _ (mat 0%nat i n) _ W) by (intros j l Hj Hl; apply (chg_mat kd links A _ 0 i n j l _ HA ltac:(lia) Hi Hn Hj Hl (unbiased_jac_cell kd junk' (C 0) w coords f links A qs i n j l Hi Hn Hj Hl))).
      rewrite apply_row_lsum.
      rewrite (rsum_ext links _ (fun k => apply_row (kd_ndofs kd) (kd_bs kd) _ (Wo k))) by
        (intros k Hk; apply apply_row_ext; intros j l Hj Hl; apply (chg_mat kd links A _ (3 * k + 1) i n j l _ HA ltac:(lia) Hi Hn Hj Hl (unbiased_jac_cell_link kd junk' (C 0) w coords f links A qs k i n j l Hk Hi Hn Hj Hl))).
      rewrite (rsum_ext links _ (fun k => lsum qs _)) by (intros k Hk; apply apply_row_lsum).
      rewrite <- lsum_rsum, <- lsum_plus. apply lsum_ext. intros q Hq. cbv beta.
      set (d := dR_plus _). set (w0 := weight kd f q * g_detJ (geometry_at kd coords f q)). set (gam := gamma_of (C 0) w). set (gami := gamma_inv_of (C 0) w). set (theta := nth 1 w 0).
      set (sv := basis_sign kd (C 0) (geometry_at kd coords f q) f q i n). set (Pv := n_surf kd (C 0) q n * kd_phi kd (kd_qp_offsets kd f + q) i - gam * theta * sv).
      rewrite (apply_row_ext _ _ _ (fun j l => (0.5 * gami * d * w0 * Pv) * (kd_phi kd (kd_qp_offsets kd f + q) j * n_surf kd (C 0) q l) +
        (- (0.5 * gami * d * w0 * Pv * gam) - 0.5 * theta * gam * w0 * sv) * basis_sign kd (C 0) (geometry_at kd coords f q) f q j l) W) by (intros; ring).
      rewrite apply_row_comb.
      rewrite (rsum_ext links _ (fun k => (- (0.5 * gami * w0 * d * Pv)) * apply_row (kd_ndofs kd) (kd_bs kd) (fun j l => contact_test kd f (C 0) q k j l * n_surf kd (C 0) q l) (Wo k)))
        by (intros k Hk; rewrite <- apply_row_scal; apply apply_row_ext; intros; unfold contact_test, test_index; ring).
      rewrite rsum_scal. rewrite Hbs. rewrite <- (row_test_ns kd coords f w C links qs W Wo Hbs HL HC q), <- (row_phi_ns kd coords f w C links qs W Wo Hbs HL HC q). fold (dsn kd coords f C W q).
      unfold dind, djn. fold gam. ring.
  - intros k Hk.
    eapply derivable_eq; [eapply derivable_ext; [intros t; unfold vec; exact (chg_vec kd links b _ (k + 1) i n _ Hb ltac:(lia) Hi Hn (unbiased_rhs_link kd junk (C t) w coords f links b qs k i n Hk Hi Hn))|]|].
    + apply derivable_lsum. intros q Hq. eapply derivable_ext; [intros t; rewrite (line_ind kd coords f w C links qs W Wo Hbs HL HC t q Hq), (line_ns kd coords f w C links qs W Wo Hbs HL HC t q n Hq Hn'),
        (line_test_index kd coords f w C links qs W Wo Hbs HL HC t q k i n Hq Hk Hi Hn), (line_gamma_inv kd coords f w C links qs W Wo Hbs HL HC t); reflexivity|].
      apply derivable_opp, derivable_scal, derivable_scal_r. apply derivable_R_plus_affine. auto.
    + rewrite (apply_row_ext _ _ (mat (3 * k + 2)%nat i n) _ W) by (intros j l Hj Hl; apply (chg_mat kd links A _ (3 * k + 2) i n j l _ HA ltac:(lia) Hi Hn Hj Hl (unbiased_jac_link_cell kd junk' (C 0) w coords f links A qs k i n j l Hk Hi Hn Hj Hl))).
      rewrite (apply_row_ext _ _ (mat (3 * k + 3)%nat i n) _ (Wo k)) by (intros j l Hj Hl; apply (chg_mat kd links A _ (3 * k + 3) i n j l _ HA ltac:(lia) Hi Hn Hj Hl (unbiased_jac_link_link kd junk' (C 0) w coords f links A qs k i n j l Hk Hi Hn Hj Hl))).
      rewrite !apply_row_lsum, <- lsum_plus. apply lsum_ext. intros q Hq. cbv beta.
      set (d := dR_plus _). set (w0 := weight kd f q * g_detJ (geometry_at kd coords f q)). set (gam := gamma_of (C 0) w). set (gami := gamma_inv_of (C 0) w).
      change (nth (test_index kd (offsets kd 3) (num_points kd f) q k i n) (C 0) 0) with (contact_test kd f (C 0) q k i n).
      set (vn := contact_test kd f (C 0) q k i n * n_surf kd (C 0) q n).
      rewrite (apply_row_ext _ _ _ (fun j l => (- (0.5 * gami * d * w0 * vn)) * (kd_phi kd (kd_qp_offsets kd f + q) j * n_surf kd (C 0) q l) +
        (0.5 * gami * d * w0 * vn * gam) * basis_sign kd (C 0) (geometry_at kd coords f q) f q j l) W) by (intros; ring).
      rewrite apply_row_comb.
      rewrite (apply_row_ext _ _ _ (fun j l => (0.5 * gami * w0 * d * vn) * (contact_test kd f (C 0) q k j l * n_surf kd (C 0) q l)) (Wo k)) by (intros; unfold contact_test, test_index; ring).
      rewrite apply_row_scal.
      destruct (H1 q Hq) as [k0 H0]. destruct (Nat.eq_dec k k0) as [<-|Ne].
      * unfold dind, djn. rewrite (row_test_ns kd coords f w C links qs W Wo Hbs HL HC q), (row_phi_ns kd coords f w C links qs W Wo Hbs HL HC q).
        rewrite (rsum_single links k) by (first [exact Hk | intros k' Hk' N; apply rsum_zero; intros j Hj; apply rsum_zero; intros l Hl; rewrite H0 by (auto; rewrite Hbs; auto); ring]).
        rewrite Hbs. fold (dsn kd coords f C W q). fold gam. ring.
      * assert (Z : vn = 0) by (unfold vn; rewrite H0 by auto; ring). rewrite Z. ring.
Qed.
Print Assumptions C27_unbiased_derivative.

(** ** C33: with theta = 1 the element matrices are symmetric *)
Theorem C33_unbiased_symmetric :
  forall (kd : kernel_data) (junk : geometry) (A : list (list R)) (c w coords : list R) (f links : nat) (qs : list nat) (jac : kernel_fn),
    generate_contact_kernel Jac kd junk = Some jac ->
    matrix_buffers kd links A -> nth 1 w 0 = 1 ->
    let mat := added_mat kd A (jac A c w coords f links qs) in
    forall i n j l, (i < kd_ndofs kd)%nat -> (n < kd_bs kd)%nat -> (j < kd_ndofs kd)%nat -> (l < kd_bs kd)%nat ->
      mat 0%nat i n j l = mat 0%nat j l i n /\
      forall k, (k < links)%nat -> mat (3 * k + 1)%nat i n j l = mat (3 * k + 2)%nat j l i n /\ mat (3 * k + 3)%nat i n j l = mat (3 * k + 3)%nat j l i n.
Proof.
  intros kd junk A c w coords f links qs jac E_jac. injection E_jac as <-. intros HA Ht mat i n j l Hi Hn Hj Hl. unfold mat. split.
  - rewrite (chg_mat kd links A _ 0 i n j l _ HA ltac:(lia) Hi Hn Hj Hl (unbiased_jac_cell kd junk c w coords f links A qs i n j l Hi Hn Hj Hl)).
    rewrite (chg_mat kd links A _ 0 j l i n _ HA ltac:(lia) Hj Hl Hi Hn (unbiased_jac_cell kd junk c w coords f links A qs j l i n Hj Hl Hi Hn)).
    apply lsum_ext. intros q _. rewrite Ht. ring.
  - intros k Hk. split.
    + rewrite (chg_mat kd links A _ (3 * k + 1) i n j l _ HA ltac:(lia) Hi Hn Hj Hl (unbiased_jac_cell_link kd junk c w coords f links A qs k i n j l Hk Hi Hn Hj Hl)).
      rewrite (chg_mat kd links A _ (3 * k + 2) j l i n _ HA ltac:(lia) Hj Hl Hi Hn (unbiased_jac_link_cell kd junk c w coords f links A qs k j l i n Hk Hj Hl Hi Hn)).
      apply lsum_ext. intros q _. rewrite Ht. ring.
    + rewrite (chg_mat kd links A _ (3 * k + 3) i n j l _ HA ltac:(lia) Hi Hn Hj Hl (unbiased_jac_link_link kd junk c w coords f links A qs k i n j l Hk Hi Hn Hj Hl)).
      rewrite (chg_mat kd links A _ (3 * k + 3) j l i n _ HA ltac:(lia) Hj Hl Hi Hn (unbiased_jac_link_link kd junk c w coords f links A qs k j l i n Hk Hj Hl Hi Hn)).
      apply lsum_ext. intros q _. ring.
Qed.
Print Assumptions C33_unbiased_symmetric.

(** ** C34: action equals reaction *)
Lemma basis_sign_sum kd coords f c links qs : kd_bs kd = kd_gdim kd -> contact_partition kd coords f c links qs -> forall q n, In q qs -> (n < kd_gdim kd)%nat ->
  rsum (kd_ndofs kd) (fun i => basis_sign kd c (geometry_at kd coords f q) f q i n) = 0.
Proof.
  intros Hbs P q n Hq Hn. rewrite (rsum_ext (kd_ndofs kd) _ (fun i => rsum (kd_gdim kd) (fun a => sig_n kd c (geometry_at kd coords f q) f q i n a * n_surf kd c q a)))
    by (intros; now apply basis_sign_sig).
  rewrite rsum_swap. apply rsum_zero. intros a Ha. rewrite rsum_scal_r.
  rewrite (rsum_ext (kd_ndofs kd) _ (fun i => traction (kd_gdim kd) (ck_mu c) (ck_lambda c) (in_direction n (phys_grad kd coords f q i)) (g_n (geometry_at kd coords f q)) a)) by (intros; now apply sig_n_eq).
  rewrite traction_direction_sum by (first [exact Ha | intros; apply (cp_grad _ _ _ _ _ _ P); auto]). ring.
Qed.

Theorem C34_unbiased_balance :
  forall (kd : kernel_data) (junk : geometry) (b : list (list R)) (c w coords : list R) (f links : nat) (qs : list nat) (rhs : kernel_fn),
    generate_contact_kernel Rhs kd junk = Some rhs ->
    kd_bs kd = kd_gdim kd -> vector_buffers kd links b -> contact_partition kd coords f c links qs ->
    let vec := added_vec kd b (rhs b c w coords f links qs) in
    forall n, (n < kd_bs kd)%nat ->
      rsum (kd_ndofs kd) (fun i => vec 0%nat i n) + rsum links (fun k => rsum (kd_ndofs kd) (fun i => vec (k + 1)%nat i n)) = 0.
Proof.
  intros kd junk b c w coords f links qs rhs E_rhs. injection E_rhs as <-. intros Hbs Hb P vec n Hn. unfold vec.
  assert (Hn' : (n < kd_gdim kd)%nat) by (rewrite <- Hbs; auto).
  rewrite (rsum_ext (kd_ndofs kd) _ (fun i => lsum qs _)) by
    (intros i Hi; apply (chg_vec kd links b _ 0 i n _ Hb ltac:(lia) Hi Hn (unbiased_rhs_cell kd junk c w coords f links b qs i n Hi Hn))).
  rewrite (rsum_ext links _ (fun k => rsum (kd_ndofs kd) (fun i => lsum qs _))) by
    (intros k Hk; apply rsum_ext; intros i Hi; apply (chg_vec kd links b _ (k + 1) i n _ Hb ltac:(lia) Hi Hn (unbiased_rhs_link kd junk c w coords f links b qs k i n Hk Hi Hn))).
  rewrite <- lsum_rsum.
  rewrite (rsum_ext links _ (fun k => lsum qs (fun q => rsum (kd_ndofs kd) (fun i => _)))) by (intros k _; now rewrite <- lsum_rsum).
  rewrite <- lsum_rsum, <- lsum_plus. apply lsum_zero. intros q Hq.
  set (w0 := weight kd f q * g_detJ (geometry_at kd coords f q)). set (gam := gamma_of c w). set (gami := gamma_inv_of c w). set (theta := nth 1 w 0).
  set (su := sign_u kd c (geometry_at kd coords f q) q). set (r := R_plus _).
  rewrite (rsum_ext (kd_ndofs kd) _ (fun i => (0.5 * gami * r * w0 * n_surf kd c q n) * kd_phi kd (kd_qp_offsets kd f + q) i +
     (- (0.5 * gami * r * w0 * gam * theta) - 0.5 * theta * gam * su * w0) * basis_sign kd c (geometry_at kd coords f q) f q i n)) by (intros; ring).
  rewrite (rsum_ext links _ (fun k => (- (0.5 * gami * r * w0 * n_surf kd c q n)) * rsum (kd_ndofs kd) (fun i => contact_test kd f c q k i n))).
  2:{ intros k _. rewrite <- rsum_scal. apply rsum_ext. intros i _. unfold contact_test, test_index. ring. }
  rewrite rsum_plus, (rsum_scal (kd_ndofs kd) _ (fun i => kd_phi kd (kd_qp_offsets kd f + q) i)), (cp_phi _ _ _ _ _ _ P q Hq).
  rewrite (rsum_scal (kd_ndofs kd) _ (fun i => basis_sign kd c (geometry_at kd coords f q) f q i n)), (basis_sign_sum kd coords f c links qs Hbs P q n Hq Hn').
  rewrite rsum_scal, (cp_test _ _ _ _ _ _ P q n Hq Hn). ring.
Qed.
Print Assumptions C34_unbiased_balance.

(** ** C35: no contact, no force *)
Lemma R_plus_open x : x <= 0 -> R_plus x = 0.
Proof. intros H. rewrite R_plus_max. now apply Rmax_right. Qed.
Lemma dR_plus_open x : x <= 0 -> dR_plus x = 0.
Proof. intros H. unfold dR_plus. assert (rlt 0 x = false) as -> by (apply rlt_false; lra). reflexivity. Qed.

Theorem C35_unbiased_open :
  forall (kd : kernel_data) (junk : geometry) (b A : list (list R)) (c w coords : list R) (f links : nat) (qs : list nat) (rhs jac : kernel_fn),
    generate_contact_kernel Rhs kd junk = Some rhs -> generate_contact_kernel Jac kd junk = Some jac ->
    kd_bs kd = kd_gdim kd -> nth 1 w 0 = 0 -> (forall q, In q qs -> contact_indicator kd coords f c w q <= 0) ->
    rhs b c w coords f links qs = b /\ jac A c w coords f links qs = A.
Proof.
  intros kd junk b A c w coords f links qs rhs jac E_rhs E_jac. injection E_rhs as <-. injection E_jac as <-. intros Hbs Ht HI.
  assert (HI' : forall q, In q qs -> (jump_un kd c q - normal_gap kd c q) - gamma_of c w * sign_u kd c (geometry_at kd coords f q) q <= 0)
    by (intros q Hq; rewrite indicator_eq by auto; auto).
  split.
  - unfold unbiased_rhs. rewrite quadrature_loop_geometry. apply for_each_id. intros q b' Hq. cbv zeta. rewrite (R_plus_open _ (HI' q Hq)), Ht. unchanged.
  - unfold unbiased_jac. rewrite quadrature_loop_geometry. apply for_each_id. intros q b' Hq. cbv zeta. rewrite (dR_plus_open _ (HI' q Hq)), Ht. unchanged.
Qed.
Print Assumptions C35_unbiased_open.

(** A facet without valid points. *)
Theorem C35_no_points :
  forall (kd : kernel_data) (junk : geometry) (b : list (list R)) (c w coords : list R) (f links : nat) (k : kernel_type) (kernel : kernel_fn),
    generate_contact_kernel k kd junk = Some kernel -> kernel b c w coords f links [] = b.
Proof.
  intros kd junk b c w coords f links k kernel E.
  destruct k; cbn in E; inversion E; subst; unfold unbiased_rhs, unbiased_jac, tresca_rhs, tresca_jac, coulomb_rhs, coulomb_jac; cbv zeta; rewrite quadrature_loop_geometry; reflexivity.
Qed.
Print Assumptions C35_no_points.

(** ** C36: the contact pressure *)
Theorem C36_contact_pressure :
  forall (kd : kernel_data) (junk : geometry) (b : list (list R)) (c w coords : list R) (f links : nat) (qs : list nat) (rhs : kernel_fn),
    generate_contact_kernel Rhs kd junk = Some rhs ->
    kd_bs kd = kd_gdim kd -> vector_buffers kd links b ->
    let vec := added_vec kd b (rhs b c w coords f links qs) in
    exists pressure : nat -> R,
      (forall q, 0 <= pressure q /\ (contact_indicator kd coords f c w q <= 0 -> pressure q = 0) /\
         (0 < contact_indicator kd coords f c w q -> pressure q = contact_indicator kd coords f c w q)) /\
      forall i n, (i < kd_ndofs kd)%nat -> (n < kd_bs kd)%nat ->
        let scale q := / 2 * (nth 0 w 0 / nth 3 c 0) * (weight kd f q * g_detJ (geometry_at kd coords f q)) in
        let basis_traction q := along kd (ck_normal kd c q) (traction (kd_gdim kd) (ck_mu c) (ck_lambda c) (in_direction n (phys_grad kd coords f q i)) (g_n (geometry_at kd coords f q))) in
        vec 0%nat i n = lsum qs (fun q => scale q * pressure q * (kd_phi kd (kd_qp_offsets kd f + q) i * ck_normal kd c q n - ck_gamma c w * nth 1 w 0 * basis_traction q)
          - / 2 * nth 1 w 0 * ck_gamma c w * along kd (ck_normal kd c q) (ck_traction kd coords f c q) * basis_traction q * (weight kd f q * g_detJ (geometry_at kd coords f q))) /\
        forall k, (k < links)%nat -> vec (k + 1)%nat i n = lsum qs (fun q => - (scale q * pressure q * (contact_test kd f c q k i n * ck_normal kd c q n))).
Proof.
  intros kd junk b c w coords f links qs rhs E_rhs. injection E_rhs as <-. intros Hbs Hb vec. exists (fun q => R_plus (contact_indicator kd coords f c w q)). split.
  - intros q. rewrite R_plus_max. split; [apply Rmax_r|]. split; intros H; [apply Rmax_right | apply Rmax_left]; lra.
  - intros i n Hi Hn. assert (Hn' : (n < kd_gdim kd)%nat) by (rewrite <- Hbs; auto). cbv zeta. split.
    + unfold vec. rewrite (chg_vec kd links b _ 0 i n _ Hb ltac:(lia) Hi Hn (unbiased_rhs_cell kd junk c w coords f links b qs i n Hi Hn)).
      apply lsum_ext. intros q _. rewrite indicator_eq by auto. rewrite basis_sign_eq by auto. rewrite sign_u_eq. unfold n_surf, ck_normal, ck_gamma, gamma_of, gamma_inv_of. ringh.
    + intros k Hk. unfold vec. rewrite (chg_vec kd links b _ (k + 1) i n _ Hb ltac:(lia) Hi Hn (unbiased_rhs_link kd junk c w coords f links b qs k i n Hk Hi Hn)).
      apply lsum_ext. intros q _. rewrite indicator_eq by auto. unfold n_surf, ck_normal, gamma_inv_of, contact_test, test_index. ringh.
Qed.
Print Assumptions C36_contact_pressure.

(** ** C68 *)
Theorem C68_contact_kernels_local :
  forall (kd : kernel_data) (junk : geometry),
    (forall k, In k [Rhs; TrescaRhs; CoulombRhs] -> exists kernel, generate_contact_kernel k kd junk = Some kernel /\ kernel_local (fun n => n + 1)%nat kernel) /\
    (forall k, In k [Jac; TrescaJac; CoulombJac] -> exists kernel, generate_contact_kernel k kd junk = Some kernel /\ kernel_local (fun n => 3 * n + 1)%nat kernel).
Proof.
  intros kd junk.
  split; intros k H; cbn in H; repeat (destruct H as [<-|H]); try contradiction; eexists; (split; [reflexivity|]); apply kernel_local_intro; intros;
    unfold unbiased_rhs, unbiased_jac, tresca_rhs, tresca_jac, coulomb_rhs, coulomb_jac, friction_rhs_point; cbv zeta; rewrite !quadrature_loop_geometry.
  all: first [ lazymatch goal with |- same_shape _ ?b => pose proof (same_shape_refl b) end; solve [kernel_shape] | solve [kernel_agree] ].
Qed.
Print Assumptions C68_contact_kernels_local.
