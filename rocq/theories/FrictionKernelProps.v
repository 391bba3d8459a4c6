(** Friction kernels: the matrix is the derivative of the residual (C28 Tresca,
    C29 Coulomb), balance of forces (C34), no force without contact (C35),
    friction bounds (C36), the unweighted term (C37). *)
From Coq Require Import List Arith Lia Bool Reals Lra.
Import ListNotations.
From Verif Require Import Prelude PreludeLemmas RSum RealLemmas CropModel CandidatesProps RayModel OpsModel OpsProps AssemblyModel AssemblyProofs KernelModel KernelProofs KernelSpec
  MeshTieKernelModel MeshTieKernelProps ElasticityProps ContactKernelModel ContactKernelProofs ContactKernelSpec ContactCurveProofs ContactKernelProps FrictionKernelProofs.
Local Open Scope R_scope.

(** ** The kernels' arguments are the specified ones *)
Lemma tresca_argument_eq kd coords f c w q : kd_bs kd = kd_gdim kd ->
  Pt_u_tresca kd c w (geometry_at kd coords f q) q = array3 kd (tresca_argument kd coords f c w q).
Proof.
  intros Hbs. unfold Pt_u_tresca. apply array3_ext. intros j Hj. rewrite Hbs in Hj. rewrite jump_un_eq, sig_n_u_eq, sign_u_eq by auto.
  unfold tresca_argument, tangential, n_surf, u_at, u_opp, ck_jump, ck_gamma, gamma_of, ck_normal. ring.
Qed.
Lemma coulomb_argument_eq kd coords f c w q : kd_bs kd = kd_gdim kd ->
  Pt_u_coulomb kd c w (geometry_at kd coords f q) q = array3 kd (coulomb_argument kd coords f c w q).
Proof.
  intros Hbs. unfold Pt_u_coulomb, v_rel. apply array3_ext. intros j Hj. rewrite Hbs in Hj. rewrite jump_un_eq, sig_n_u_eq, sign_u_eq, normal_gap_eq, ndotn_sig by auto.
  unfold coulomb_argument, tangential, n_surf, n_old, u_at, u_opp, ck_jump, ck_gamma, gamma_of, ck_normal, ck_old_normal.
  replace (rsum (kd_gdim kd) (fun a => - nth (offsets kd 2 + q * kd_gdim kd + a) c 0 * - nth (offsets kd 7 + q * kd_gdim kd + a) c 0))
    with (along kd (fun a => - nth (offsets kd 2 + q * kd_gdim kd + a) c 0) (fun a => - nth (offsets kd 7 + q * kd_gdim kd + a) c 0)) by (unfold along; apply rsum_ext; intros; ring).
  ring.
Qed.
Lemma norm_array3 kd x : kd_bs kd = kd_gdim kd -> (kd_gdim kd <= 3)%nat -> normn 3 (array3 kd x) = norm_of kd x.
Proof. intros Hbs Hd. unfold normn, dotn, norm_of. f_equal. rewrite (rsum_array3 kd x (fun _ y => y * y)) by (rewrite ?Hbs; auto; intros; ring). now rewrite Hbs. Qed.
Lemma coulomb_radius_eq kd coords f c w q : kd_bs kd = kd_gdim kd ->
  Pn_u_coulomb kd c w (geometry_at kd coords f q) q = R_plus (contact_indicator kd coords f c w q).
Proof. intros Hbs. unfold Pn_u_coulomb. now rewrite indicator_eq. Qed.

(** ** Derivatives of the multipliers *)
Section Line.
  Context (kd : kernel_data) (coords : list R) (f : nat) (w : list R) (C : R -> list R) (links : nat) (qs : list nat) (W : coeffs) (Wo : nat -> coeffs).
  Context (Hbs : kd_bs kd = kd_gdim kd) (HL : contact_layout kd f links qs) (HC : contact_line kd coords f C links qs W Wo) (Hdim : (kd_gdim kd <= 3)%nat).
  Notation gdim := (kd_gdim kd).
  Notation nd := (kd_ndofs kd).
  Notation bs := (kd_bs kd).
  Notation geo q := (geometry_at kd coords f q).
  Notation c0 := (C 0).
  Notation "'L' x" := (x kd coords f w C links qs W Wo Hbs HL HC) (at level 0, only parsing).
  Notation dxm m q := (dx kd coords f w C links W Wo m q).

  Lemma tresca_line t q : In q qs -> Pt_u_tresca kd (C t) w (geo q) q = shift (Pt_u_tresca kd c0 w (geo q) q) (array3 kd (dxm (m_tresca kd c0) q)) t.
  Proof using All.
    intros Hq. unfold Pt_u_tresca. apply array3_shift; [rewrite Hbs; auto|]. intros j Hj. assert (Hj' : (j < gdim)%nat) by (rewrite <- Hbs; auto).
    rewrite (L line_u t), (L line_uo t), (L line_jump t), (L line_ns t), (L line_sigu t), (L line_signu t), (L line_gamma t) by auto. unfold dx, m_tresca. ring.
  Qed.
  Lemma coulomb_line t q : In q qs -> Pt_u_coulomb kd (C t) w (geo q) q = shift (Pt_u_coulomb kd c0 w (geo q) q) (array3 kd (dxm (m_coulomb kd c0) q)) t.
  Proof using All.
    intros Hq. unfold Pt_u_coulomb, v_rel. apply array3_shift; [rewrite Hbs; auto|]. intros j Hj. assert (Hj' : (j < gdim)%nat) by (rewrite <- Hbs; auto).
    rewrite (L line_u t), (L line_uo t), (L line_jump t), (L line_ns t), (L line_sigu t), (L line_signu t), (L line_gamma t), (L line_gap t), (L line_ndotn t), (L line_no t) by auto. unfold dx, m_coulomb. ring.
  Qed.

  (** A projection with moving argument and radius. *)
  Lemma moving_projection x (h : nat -> R) alpha da a : length x = 3%nat -> (forall i, (bs <= i)%nat -> nth i x 0 = 0) -> 1 / 10 ^ 14 <= alpha -> normn 3 x <> alpha -> (a < bs)%nat ->
    derivable_pt_lim (fun t => nth a (ball_projection (shift x (array3 kd h) t) (alpha + t * da)) 0) 0
      (rsum bs (fun n => nth (n * bs + a) (d_ball_projection x alpha bs) 0 * h n) + nth a (d_alpha_ball_projection x alpha da) 0).
  Proof using All.
    intros Hx H0 Ha Hne Hb. assert (Hbs3 : (bs <= 3)%nat) by (rewrite Hbs; auto). eapply derivable_eq; [apply (C40_ball_projection_derivative x (array3 kd h) alpha da bs); auto|].
    - intros i Hi. split; [auto|]. rewrite array3_nth by auto. destruct (Nat.ltb_spec i bs); [lia|reflexivity].
    - f_equal. apply rsum_ext. intros n Hn. rewrite array3_nth, d_ball_symmetric by auto. destruct (Nat.ltb_spec n bs); [reflexivity|lia].
  Qed.

  Lemma tresca_multiplier q a : In q qs -> (a < bs)%nat -> off_tresca_kink kd coords f c0 w q ->
    derivable_pt_lim (fun t => nth a (ball_projection (Pt_u_tresca kd (C t) w (geo q) q) (gamma_of (C t) w * nth 2 (C t) 0)) 0) 0
      (apply_row nd gdim (fun j l => D_tresca kd c0 w coords f q j l a) W - rsum links (fun k => apply_row nd gdim (fun j l => Do_tresca kd c0 w coords f q k j l a) (Wo k))).
  Proof using All.
    intros Hq Ha K. assert (Hbs3 : (bs <= 3)%nat) by (rewrite Hbs; auto). unfold D_tresca, Do_tresca. rewrite (Jt_rows kd coords f w C links qs W Wo Hbs HL HC Hdim _ _ q a Hq).
    set (alpha := gamma_of c0 w * nth 2 c0 0) in *.
    apply (derivable_ext _ (fun t => nth a (ball_projection (shift (Pt_u_tresca kd c0 w (geo q) q) (array3 kd (dxm (m_tresca kd c0) q)) t) (alpha + t * 0)) 0)).
    { intros t. rewrite (tresca_line t q Hq), (L line_gamma t), (L line_scalar t 2%nat) by lia. fold alpha. now rewrite Rmult_0_r, Rplus_0_r. }
    destruct K as [K|[K1 K2]]; change (tresca_radius c0 w) with alpha in *.
    - rewrite K. apply (derivable_ext _ (fun _ => 0)); [intros t; rewrite Rmult_0_r, Rplus_0_r; apply (C40_zero_radius _ 0%nat)|].
      eapply derivable_eq; [apply derivable_const|]. symmetry. apply rsum_zero. intros n _. rewrite (proj1 (C40_zero_radius _ _ _)). ring.
    - eapply derivable_eq; [apply moving_projection; auto|].
      + intros i Hi. unfold Pt_u_tresca. rewrite array3_nth by auto. destruct (Nat.ltb_spec i bs); [lia|reflexivity].
      + rewrite tresca_argument_eq, norm_array3 by auto. exact K2.
      + rewrite d_alpha_zero. ring.
  Qed.

  Lemma coulomb_multiplier q a : In q qs -> (a < bs)%nat -> off_coulomb_kink kd coords f c0 w q ->
    derivable_pt_lim (fun t => nth a (ball_projection (Pt_u_coulomb kd (C t) w (geo q) q) (nth 2 (C t) 0 * Pn_u_coulomb kd (C t) w (geo q) q)) 0) 0
      (apply_row nd gdim (fun j l => D_coulomb kd c0 w coords f q j l a) W - rsum links (fun k => apply_row nd gdim (fun j l => Do_coulomb kd c0 w coords f q k j l a) (Wo k))).
  Proof using All.
    intros Hq Ha K. assert (Hbs3 : (bs <= 3)%nat) by (rewrite Hbs; auto).
    set (J := d_ball_projection (Pt_u_coulomb kd c0 w (geo q) q) (nth 2 c0 0 * Pn_u_coulomb kd c0 w (geo q) q) bs).
    set (da := nth a (dab kd c0 w coords f q) 0).
    assert (E : apply_row nd gdim (fun j l => D_coulomb kd c0 w coords f q j l a) W - rsum links (fun k => apply_row nd gdim (fun j l => Do_coulomb kd c0 w coords f q k j l a) (Wo k)) =
      rsum bs (fun n => nth (n * bs + a) J 0 * dxm (m_coulomb kd c0) q n) + da * dind kd coords f w C links W Wo q).
    { unfold D_coulomb, Do_coulomb. fold J da.
      rewrite (apply_row_plus nd gdim (fun j l => Jt kd J (xd kd c0 w coords f (m_coulomb kd c0) q j l) a)), (apply_row_scal nd gdim da).
      rewrite (rsum_ext links _ (fun k => apply_row nd gdim (fun j l => Jt kd J (xo kd c0 f (m_coulomb kd c0) q k j l) a) (Wo k) + da * apply_row nd gdim (fun j l => contact_test kd f c0 q k j l * n_surf kd c0 q l) (Wo k))).
      2:{ intros k _. rewrite <- apply_row_scal, <- apply_row_plus. reflexivity. }
      rewrite rsum_plus, rsum_scal. rewrite <- (Jt_rows kd coords f w C links qs W Wo Hbs HL HC Hdim J (m_coulomb kd c0) q a Hq), <- (dind_rows kd coords f w C links qs W Wo Hbs HL HC Hdim q Hq). ring. }
    rewrite E. unfold off_coulomb_kink, coulomb_radius in K. set (ind := contact_indicator kd coords f c0 w q) in *. set (di := dind kd coords f w C links W Wo q) in *.
    assert (Ei : jump_un kd c0 q - normal_gap kd c0 q - gamma_of c0 w * sign_u kd c0 (geo q) q = ind) by (apply indicator_eq; auto).
    apply (derivable_ext _ (fun t => nth a (ball_projection (shift (Pt_u_coulomb kd c0 w (geo q) q) (array3 kd (dxm (m_coulomb kd c0) q)) t) (nth 2 c0 0 * R_plus (ind + t * di))) 0)).
    { intros t. rewrite (coulomb_line t q Hq), (L line_scalar t 2%nat) by lia. unfold Pn_u_coulomb. rewrite (L line_ind t q Hq), Ei. reflexivity. }
    assert (Pn : Pn_u_coulomb kd c0 w (geo q) q = R_plus ind) by now apply coulomb_radius_eq.
    assert (Zero : nth 2 c0 0 * R_plus ind = 0 -> da * di = 0 -> derivable_pt_lim (fun _ => 0) 0 (rsum bs (fun n => nth (n * bs + a) J 0 * dxm (m_coulomb kd c0) q n) + da * di)).
    { intros Z1 Z2. eapply derivable_eq; [apply derivable_const|]. rewrite Z2, rsum_zero; [ring|]. intros n _. unfold J. rewrite Pn, Z1, (proj1 (C40_zero_radius _ _ _)). ring. }
    destruct K as [K|[K|(K1 & K2 & K3)]].
    - destruct (stays_below (fun t => ind + t * di) 0 di 0 (derivable_affine ind di 0)) as (d & Hd & B); [lra|].
      apply (derivable_local _ (fun _ => 0) 0 _ d Hd).
      + intros y Hy. specialize (B y Hy). cbv beta in B. rewrite R_plus_open by lra. rewrite Rmult_0_r. apply (C40_zero_radius _ 0%nat).
      + apply Zero; [rewrite R_plus_open by lra; ring|]. unfold da, dab. rewrite Ei, dR_plus_open by lra. rewrite Rmult_0_l, d_alpha_zero. ring.
    - change (ck_friction c0) with (nth 2 c0 0) in K. apply (derivable_ext _ (fun _ => 0)).
      + intros y. rewrite K, Rmult_0_l. apply (C40_zero_radius _ 0%nat).
      + apply Zero; [rewrite K; ring|]. unfold da, dab. rewrite K, Rmult_0_r, d_alpha_zero. ring.
    - change (ck_friction c0) with (nth 2 c0 0) in *.
      assert (Ri : R_plus ind = ind) by (rewrite R_plus_max; apply Rmax_left; lra).
      destruct (stays_above (fun t => ind + t * di) 0 di 0 (derivable_affine ind di 0)) as (d & Hd & B); [lra|].
      apply (derivable_local _ (fun t => nth a (ball_projection (shift (Pt_u_coulomb kd c0 w (geo q) q) (array3 kd (dxm (m_coulomb kd c0) q)) t) (nth 2 c0 0 * ind + t * (nth 2 c0 0 * di))) 0) 0 _ d Hd).
      + intros y Hy. specialize (B y Hy). cbv beta in B. rewrite R_plus_max, Rmax_left by lra. do 2 f_equal. ring.
      + unfold J. rewrite Pn, Ri. eapply derivable_eq; [apply moving_projection; auto|].
        * intros i Hi. unfold Pt_u_coulomb. rewrite array3_nth by auto. destruct (Nat.ltb_spec i bs); [lia|reflexivity].
        * rewrite coulomb_argument_eq, norm_array3 by auto. exact K3.
        * f_equal. unfold da, dab. rewrite Ei, Pn, Ri. rewrite d_alpha_linear. unfold dR_plus. assert (rlt 0 ind = true) as -> by (apply rlt_true; auto). now rewrite Rmult_1_l.
  Qed.
End Line.

(** ** Tangential vectors have no normal component *)
Section Unit.
  Context (kd : kernel_data) (coords : list R) (f : nat) (c w : list R) (q : nat).
  Context (Hbs : kd_bs kd = kd_gdim kd) (Hdim : (kd_gdim kd <= 3)%nat) (HU : unit_normal kd c q).
  Notation bs := (kd_bs kd).
  Notation ns := (n_surf kd c q).

  Lemma unit_ns : rsum bs (fun a => ns a * ns a) = 1.
  Proof. rewrite Hbs. exact HU. Qed.
  Lemma tangential_normal x : rsum bs (fun a => tangential kd c q x a * ns a) = 0.
  Proof.
    unfold tangential. rewrite (rsum_ext bs _ (fun a => x a * ns a - along kd (ck_normal kd c q) x * (ns a * ns a))) by (intros; unfold n_surf, ck_normal; ring).
    rewrite rsum_minus, rsum_scal, unit_ns. rewrite Hbs. unfold along, ck_normal, n_surf. ring.
  Qed.
  Lemma tresca_normal : rsum bs (fun a => nth a (Pt_u_tresca kd c w (geometry_at kd coords f q) q) 0 * ns a) = 0.
  Proof.
    rewrite tresca_argument_eq by auto.
    rewrite (rsum_ext bs _ (fun a => tangential kd c q (ck_jump kd c q) a * ns a - ck_gamma c w * (tangential kd c q (ck_traction kd coords f c q) a * ns a))).
    - rewrite rsum_minus, rsum_scal, !tangential_normal. ring.
    - intros a Ha. rewrite array3_nth by (rewrite Hbs; auto). destruct (Nat.ltb_spec a bs); [|lia]. unfold tresca_argument. ring.
  Qed.
  Lemma coulomb_normal : rsum bs (fun a => nth a (Pt_u_coulomb kd c w (geometry_at kd coords f q) q) 0 * ns a) = 0.
  Proof.
    rewrite coulomb_argument_eq by auto.
    rewrite (rsum_ext bs _ (fun a => tangential kd c q (ck_jump kd c q) a * ns a - ((ck_gap kd c q - along kd (ck_normal kd c q) (ck_jump kd c q)) * (tangential kd c q (ck_old_normal kd c q) a * ns a)
        + ck_gamma c w * (tangential kd c q (ck_traction kd coords f c q) a * ns a)))).
    - rewrite rsum_minus, rsum_plus, !rsum_scal, !tangential_normal. ring.
    - intros a Ha. rewrite array3_nth by (rewrite Hbs; auto). destruct (Nat.ltb_spec a bs); [|lia]. unfold coulomb_argument. ring.
  Qed.
  Lemma m_tresca_normal : rsum bs (fun n => m_tresca kd c q n * ns n) = 1.
  Proof. exact unit_ns. Qed.
  Lemma m_coulomb_normal : rsum bs (fun n => m_coulomb kd c q n * ns n) = 1.
  Proof.
    unfold m_coulomb. rewrite (rsum_ext bs _ (fun n => ns n * ns n - n_old kd c q n * ns n + ndotn kd c q * (ns n * ns n))) by (intros; ring).
    rewrite rsum_plus, rsum_minus, rsum_scal, unit_ns, ndotn_sig. rewrite Hbs.
    rewrite (rsum_ext (kd_gdim kd) (fun a => ns a * n_old kd c q a) (fun a => n_old kd c q a * ns a)) by (intros; ring). ring.
  Qed.
  Lemma Jt_normal x alpha m k j l : (l < bs)%nat -> rsum bs (fun a => nth a x 0 * ns a) = 0 -> rsum bs (fun n => m q n * ns n) = 1 ->
    rsum bs (fun a => Jt kd (d_ball_projection x alpha bs) (xo kd c f m q k j l) a * ns a) = 0.
  Proof.
    intros Hl Hx Hm. unfold Jt. destruct (d_ball_orthogonal x alpha bs ns ltac:(rewrite Hbs; auto) Hx) as [s Hs].
    rewrite (rsum_ext bs _ (fun a => rsum bs (fun n => xo kd c f m q k j l n * (nth (n * bs + a) (d_ball_projection x alpha bs) 0 * ns a)))) by (intros a _; rewrite <- rsum_scal_r; apply rsum_ext; intros; ring).
    rewrite rsum_swap. rewrite (rsum_ext bs _ (fun n => s * (xo kd c f m q k j l n * ns n))) by (intros n Hn; rewrite rsum_scal, Hs by auto; ring).
    rewrite rsum_scal. unfold xo. set (te := nth _ c 0).
    rewrite (rsum_ext bs _ (fun n => (te * ns n) * delta l n - (te * ns l) * (m q n * ns n))) by (intros; ring).
    rewrite rsum_minus, rsum_scal, Hm, (delta_sum_r bs l (fun n => te * ns n)) by auto. ring.
  Qed.
  Lemma tresca_link_normal k j l : (l < bs)%nat -> rsum bs (fun a => Do_tresca kd c w coords f q k j l a * ns a) = 0.
  Proof. intros Hl. unfold Do_tresca. apply Jt_normal; auto; [apply tresca_normal | apply m_tresca_normal]. Qed.
  Lemma coulomb_link_normal k j l : (l < bs)%nat -> rsum bs (fun a => Do_coulomb kd c w coords f q k j l a * ns a) = 0.
  Proof.
    intros Hl. unfold Do_coulomb. set (te := nth _ c 0 * ns l). rewrite (rsum_ext bs _ (fun a => Jt kd (d_ball_projection (Pt_u_coulomb kd c w (geometry_at kd coords f q) q) (nth 2 c 0 * Pn_u_coulomb kd c w (geometry_at kd coords f q) q) bs)
       (xo kd c f (m_coulomb kd c) q k j l) a * ns a + te * (nth a (dab kd c w coords f q) 0 * ns a))) by (intros; unfold te; ring).
    rewrite rsum_plus, rsum_scal, (Jt_normal _ _ _ k j l Hl coulomb_normal m_coulomb_normal).
    assert (Z : rsum bs (fun a => nth a (dab kd c w coords f q) 0 * ns a) = 0); [|rewrite Z; ring].
    unfold dab, d_alpha_ball_projection. set (x := Pt_u_coulomb kd c w (geometry_at kd coords f q) q). assert (Lx : length x = 3%nat) by reflexivity.
    destruct (rlt _ _).
    - match goal with |- context [map (fun xi => ?d * xi / ?N) x] => rewrite (rsum_ext bs _ (fun a => (d / N) * (nth a x 0 * ns a))) end.
      + rewrite rsum_scal. unfold x. rewrite coulomb_normal. ring.
      + intros a Ha. rewrite (nth_map_lt _ x a 0 0) by (rewrite Lx; rewrite Hbs in Ha; lia). unfold Rdiv. ring.
    - apply rsum_zero. intros a Ha. rewrite (nth_map_lt _ x a 0 0) by (rewrite Lx; rewrite Hbs in Ha; lia). ring.
  Qed.
End Unit.

Lemma Jt_zero kd J x a : (forall n, (n < kd_bs kd)%nat -> x n = 0) -> Jt kd J x a = 0.
Proof. intros H. apply rsum_zero. intros n Hn. rewrite H by auto. ring. Qed.

(** ** C28 *)
Theorem C28_tresca_derivative :
  forall (kd : kernel_data) (junk junk' : geometry) (b A : list (list R)) (C : R -> list R) (w coords : list R) (f links : nat) (qs : list nat) (W : coeffs) (Wo : nat -> coeffs) (rhs jac : kernel_fn),
    generate_contact_kernel TrescaRhs kd junk = Some rhs -> generate_contact_kernel TrescaJac kd junk' = Some jac ->
    kd_bs kd = kd_gdim kd -> (kd_gdim kd <= 3)%nat -> vector_buffers kd links b -> matrix_buffers kd links A ->
    contact_layout kd f links qs -> contact_line kd coords f C links qs W Wo -> contact_one_link kd f (C 0) links qs ->
    (forall q, In q qs -> off_tresca_kink kd coords f (C 0) w q) ->
    let nd := kd_ndofs kd in
    let bs := kd_bs kd in
    let vec t := added_vec kd b (rhs b (C t) w coords f links qs) in
    let mat := added_mat kd A (jac A (C 0) w coords f links qs) in
    forall i n, (i < nd)%nat -> (n < bs)%nat ->
      derivable_pt_lim (fun t => vec t 0%nat i n) 0
        (apply_row nd bs (mat 0%nat i n) W + rsum links (fun k => apply_row nd bs (mat (3 * k + 1)%nat i n) (Wo k))) /\
      ((forall q, In q qs -> unit_normal kd (C 0) q) ->
       forall k, (k < links)%nat -> derivable_pt_lim (fun t => vec t (k + 1)%nat i n) 0
         (apply_row nd bs (mat (3 * k + 2)%nat i n) W + apply_row nd bs (mat (3 * k + 3)%nat i n) (Wo k))).
Proof.
  intros kd junk junk' b A C w coords f links qs W Wo rhs jac E_rhs E_jac. injection E_rhs as <-. injection E_jac as <-. intros Hbs Hdim Hb HA HL HC H1 HK nd bs vec mat i n Hi Hn. subst nd bs.
  assert (HP := fun q a Hq Ha => tresca_multiplier kd coords f w C links qs W Wo Hbs HL HC Hdim q a Hq Ha (HK q Hq)).
  split.
  - eapply derivable_ext; [intros t; unfold vec; exact (chg_vec kd links b _ 0 i n _ Hb ltac:(lia) Hi Hn (tresca_rhs_cell kd junk (C t) w coords f links b qs i n Hi Hn))|].
    eapply derivable_eq; [apply (cell_derivative kd coords f w C links qs W Wo Hbs HL HC Hdim _ _ _ HP i n Hn)|].
    f_equal; [|apply rsum_ext; intros k Hk]; apply apply_row_ext; intros j l Hj Hl; symmetry.
    + apply (chg_mat kd links A _ 0 i n j l _ HA ltac:(lia) Hi Hn Hj Hl (tresca_jac_cell kd junk' (C 0) w coords f links A qs i n j l Hi Hn Hj Hl)).
    + apply (chg_mat kd links A _ (3 * k + 1) i n j l _ HA ltac:(lia) Hi Hn Hj Hl (tresca_jac_cell_link kd junk' (C 0) w coords f links A qs k i n j l Hk Hi Hn Hj Hl)).
  - intros HU k Hk.
    eapply derivable_ext; [intros t; unfold vec; exact (chg_vec kd links b _ (k + 1) i n _ Hb ltac:(lia) Hi Hn (tresca_rhs_link kd junk (C t) w coords f links b qs k i n Hk Hi Hn))|].
    eapply derivable_eq; [apply (link_derivative kd coords f w C links qs W Wo Hbs HL HC Hdim _ _ _ HP H1) with (k := k) (i := i) (n := n); auto|].
    + intros q k' j l Hq Hl. apply tresca_link_normal; auto.
    + intros q k' j l a Z. apply Jt_zero. intros m _. unfold xo. change (nth (test_index kd (offsets kd 3) (num_points kd f) q k' j l) (C 0) 0) with (contact_test kd f (C 0) q k' j l). rewrite Z. ring.
    + f_equal; apply apply_row_ext; intros j l Hj Hl; symmetry.
      * apply (chg_mat kd links A _ (3 * k + 2) i n j l _ HA ltac:(lia) Hi Hn Hj Hl (tresca_jac_link_cell kd junk' (C 0) w coords f links A qs k i n j l Hk Hi Hn Hj Hl)).
      * apply (chg_mat kd links A _ (3 * k + 3) i n j l _ HA ltac:(lia) Hi Hn Hj Hl (tresca_jac_link_link kd junk' (C 0) w coords f links A qs k i n j l Hk Hi Hn Hj Hl)).
Qed.
Print Assumptions C28_tresca_derivative.

(** ** C29 *)
Theorem C29_coulomb_derivative :
  forall (kd : kernel_data) (junk junk' : geometry) (b A : list (list R)) (C : R -> list R) (w coords : list R) (f links : nat) (qs : list nat) (W : coeffs) (Wo : nat -> coeffs) (rhs jac : kernel_fn),
    generate_contact_kernel CoulombRhs kd junk = Some rhs -> generate_contact_kernel CoulombJac kd junk' = Some jac ->
    kd_bs kd = kd_gdim kd -> (kd_gdim kd <= 3)%nat -> vector_buffers kd links b -> matrix_buffers kd links A ->
    contact_layout kd f links qs -> contact_line kd coords f C links qs W Wo -> contact_one_link kd f (C 0) links qs ->
    (forall q, In q qs -> off_coulomb_kink kd coords f (C 0) w q) ->
    let nd := kd_ndofs kd in
    let bs := kd_bs kd in
    let vec t := added_vec kd b (rhs b (C t) w coords f links qs) in
    let mat := added_mat kd A (jac A (C 0) w coords f links qs) in
    forall i n, (i < nd)%nat -> (n < bs)%nat ->
      derivable_pt_lim (fun t => vec t 0%nat i n) 0
        (apply_row nd bs (mat 0%nat i n) W + rsum links (fun k => apply_row nd bs (mat (3 * k + 1)%nat i n) (Wo k))) /\
      ((forall q, In q qs -> unit_normal kd (C 0) q) ->
       forall k, (k < links)%nat -> derivable_pt_lim (fun t => vec t (k + 1)%nat i n) 0
         (apply_row nd bs (mat (3 * k + 2)%nat i n) W + apply_row nd bs (mat (3 * k + 3)%nat i n) (Wo k))).
Proof.
  intros kd junk junk' b A C w coords f links qs W Wo rhs jac E_rhs E_jac. injection E_rhs as <-. injection E_jac as <-. intros Hbs Hdim Hb HA HL HC H1 HK nd bs vec mat i n Hi Hn. subst nd bs.
  assert (HP := fun q a Hq Ha => coulomb_multiplier kd coords f w C links qs W Wo Hbs HL HC Hdim q a Hq Ha (HK q Hq)).
  split.
  - eapply derivable_ext; [intros t; unfold vec; exact (chg_vec kd links b _ 0 i n _ Hb ltac:(lia) Hi Hn (coulomb_rhs_cell kd junk (C t) w coords f links b qs i n Hi Hn))|].
    eapply derivable_eq; [apply (cell_derivative kd coords f w C links qs W Wo Hbs HL HC Hdim _ _ _ HP i n Hn)|].
    f_equal; [|apply rsum_ext; intros k Hk]; apply apply_row_ext; intros j l Hj Hl; symmetry.
    + apply (chg_mat kd links A _ 0 i n j l _ HA ltac:(lia) Hi Hn Hj Hl (coulomb_jac_cell kd junk' (C 0) w coords f links A qs i n j l Hi Hn Hj Hl)).
    + apply (chg_mat kd links A _ (3 * k + 1) i n j l _ HA ltac:(lia) Hi Hn Hj Hl (coulomb_jac_cell_link kd junk' (C 0) w coords f links A qs k i n j l Hk Hi Hn Hj Hl)).
  - intros HU k Hk.
    eapply derivable_ext; [intros t; unfold vec; exact (chg_vec kd links b _ (k + 1) i n _ Hb ltac:(lia) Hi Hn (coulomb_rhs_link kd junk (C t) w coords f links b qs k i n Hk Hi Hn))|].
    eapply derivable_eq; [apply (link_derivative kd coords f w C links qs W Wo Hbs HL HC Hdim _ _ _ HP H1) with (k := k) (i := i) (n := n); auto|].
    + intros q k' j l Hq Hl. apply coulomb_link_normal; auto.
    + intros q k' j l a Z. unfold Do_coulomb. rewrite Jt_zero.
      * change (nth (test_index kd (offsets kd 3) (num_points kd f) q k' j l) (C 0) 0) with (contact_test kd f (C 0) q k' j l). rewrite Z. ring.
      * intros m _. unfold xo. change (nth (test_index kd (offsets kd 3) (num_points kd f) q k' j l) (C 0) 0) with (contact_test kd f (C 0) q k' j l). rewrite Z. ring.
    + f_equal; apply apply_row_ext; intros j l Hj Hl; symmetry.
      * apply (chg_mat kd links A _ (3 * k + 2) i n j l _ HA ltac:(lia) Hi Hn Hj Hl (coulomb_jac_link_cell kd junk' (C 0) w coords f links A qs k i n j l Hk Hi Hn Hj Hl)).
      * apply (chg_mat kd links A _ (3 * k + 3) i n j l _ HA ltac:(lia) Hi Hn Hj Hl (coulomb_jac_link_link kd junk' (C 0) w coords f links A qs k i n j l Hk Hi Hn Hj Hl)).
Qed.
Print Assumptions C29_coulomb_derivative.

(** ** C34: action equals reaction *)
Section Balance.
  Context (kd : kernel_data) (coords : list R) (f : nat) (c w : list R) (links : nat) (qs : list nat) (proj : nat -> list R).
  Context (Hbs : kd_bs kd = kd_gdim kd) (P : contact_partition kd coords f c links qs).
  Notation nd := (kd_ndofs kd).
  Notation bs := (kd_bs kd).
  Notation w0 q := (weight kd f q * g_detJ (geometry_at kd coords f q)).

  Lemma st_sum q n a : In q qs -> (n < bs)%nat -> (a < bs)%nat -> rsum nd (fun i => st kd c coords f q i n a) = 0.
  Proof.
    intros Hq Hn Ha. rewrite Hbs in Hn, Ha. unfold st. rewrite rsum_minus, rsum_scal_r, (basis_sign_sum kd coords f c links qs Hbs P q n Hq Hn).
    rewrite (rsum_ext nd _ (fun i => traction (kd_gdim kd) (ck_mu c) (ck_lambda c) (in_direction n (phys_grad kd coords f q i)) (g_n (geometry_at kd coords f q)) a)) by (intros; now apply sig_n_eq).
    rewrite traction_direction_sum by (first [exact Ha | intros; apply (cp_grad _ _ _ _ _ _ P); auto]). ring.
  Qed.
  Lemma friction_balance n : (n < bs)%nat ->
    rsum nd (fun i => lsum qs (fun q => 0.5 * gamma_inv_of c w * w0 q * rsum bs (fun a => nth a (proj q) 0 * tv0 kd c w coords f q i n a)
        - 0.5 * gamma_of c w * nth 1 w 0 * w0 q * rsum bs (fun a => stu kd c coords f q a * st kd c coords f q i n a)))
    + rsum links (fun k => rsum nd (fun i => lsum qs (fun q => - (0.5 * gamma_inv_of c w * w0 q * rsum bs (fun a => nth a (proj q) 0 * tvk kd c f q k i n a))))) = 0.
  Proof.
    intros Hn. rewrite <- lsum_rsum. rewrite (rsum_ext links _ (fun k => lsum qs (fun q => rsum nd (fun i => _)))) by (intros k _; now rewrite <- lsum_rsum).
    rewrite <- lsum_rsum, <- lsum_plus. apply lsum_zero. intros q Hq.
    rewrite rsum_minus, !rsum_scal.
    rewrite (rsum_swap nd bs), (rsum_swap nd bs).
    rewrite (rsum_zero bs (fun a => rsum nd (fun i => stu kd c coords f q a * st kd c coords f q i n a))) by (intros a Ha; rewrite rsum_scal, st_sum by auto; ring).
    rewrite (rsum_ext links _ (fun k => (- (0.5 * gamma_inv_of c w * w0 q)) * rsum bs (fun a => rsum nd (fun i => nth a (proj q) 0 * tvk kd c f q k i n a)))).
    2:{ intros k _. rewrite <- (rsum_swap nd bs), <- rsum_scal. apply rsum_ext. intros; ring. }
    rewrite rsum_scal, (rsum_swap links bs).
    rewrite (rsum_ext bs (fun a => rsum nd (fun i => nth a (proj q) 0 * tv0 kd c w coords f q i n a)) (fun a => nth a (proj q) 0 * (delta n a - n_surf kd c q n * n_surf kd c q a))).
    2:{ intros a Ha. rewrite rsum_scal. f_equal. unfold tv0.
        rewrite (rsum_ext nd _ (fun i => (delta n a - n_surf kd c q n * n_surf kd c q a) * kd_phi kd (kd_qp_offsets kd f + q) i - (nth 1 w 0 * gamma_of c w) * st kd c coords f q i n a)) by (intros; ring).
        rewrite rsum_minus, (rsum_scal nd _ (fun i => kd_phi kd (kd_qp_offsets kd f + q) i)), (rsum_scal nd _ (fun i => st kd c coords f q i n a)), st_sum, (cp_phi _ _ _ _ _ _ P q Hq) by auto. ring. }
    rewrite (rsum_ext bs (fun a => rsum links (fun k => rsum nd (fun i => nth a (proj q) 0 * tvk kd c f q k i n a))) (fun a => nth a (proj q) 0 * (delta n a - n_surf kd c q n * n_surf kd c q a))); [ring|].
    intros a Ha. rewrite (rsum_ext links _ (fun k => (nth a (proj q) 0 * (delta n a - n_surf kd c q n * n_surf kd c q a)) * rsum nd (fun i => contact_test kd f c q k i n))).
    - rewrite rsum_scal, (cp_test _ _ _ _ _ _ P q n Hq Hn). ring.
    - intros k _. rewrite <- rsum_scal. apply rsum_ext. intros i _. unfold tvk. fold (contact_test kd f c q k i n). unfold contact_test, test_index. ring.
  Qed.
End Balance.

Theorem C34_friction_balance :
  forall (kd : kernel_data) (junk : geometry) (b : list (list R)) (c w coords : list R) (f links : nat) (qs : list nat) (type : kernel_type) (kernel : kernel_fn),
    In type [TrescaRhs; CoulombRhs] -> generate_contact_kernel type kd junk = Some kernel ->
    kd_bs kd = kd_gdim kd -> vector_buffers kd links b -> contact_partition kd coords f c links qs ->
    let vec := added_vec kd b (kernel b c w coords f links qs) in
    forall n, (n < kd_bs kd)%nat ->
      rsum (kd_ndofs kd) (fun i => vec 0%nat i n) + rsum links (fun k => rsum (kd_ndofs kd) (fun i => vec (k + 1)%nat i n)) = 0.
Proof.
  intros kd junk b c w coords f links qs type kernel [<-|[<-|[]]] E_kernel; injection E_kernel as <-; intros Hbs Hb P vec n Hn; unfold vec.
  - rewrite (rsum_ext (kd_ndofs kd) _ (fun i => lsum qs _)) by
      (intros i Hi; apply (chg_vec kd links b _ 0 i n _ Hb ltac:(lia) Hi Hn (tresca_rhs_cell kd junk c w coords f links b qs i n Hi Hn))).
    rewrite (rsum_ext links _ (fun k => rsum (kd_ndofs kd) (fun i => lsum qs _))) by
      (intros k Hk; apply rsum_ext; intros i Hi; apply (chg_vec kd links b _ (k + 1) i n _ Hb ltac:(lia) Hi Hn (tresca_rhs_link kd junk c w coords f links b qs k i n Hk Hi Hn))).
    apply (friction_balance kd coords f c w links qs (fun q => ball_projection (Pt_u_tresca kd c w (geometry_at kd coords f q) q) _)); auto.
  - rewrite (rsum_ext (kd_ndofs kd) _ (fun i => lsum qs _)) by
      (intros i Hi; apply (chg_vec kd links b _ 0 i n _ Hb ltac:(lia) Hi Hn (coulomb_rhs_cell kd junk c w coords f links b qs i n Hi Hn))).
    rewrite (rsum_ext links _ (fun k => rsum (kd_ndofs kd) (fun i => lsum qs _))) by
      (intros k Hk; apply rsum_ext; intros i Hi; apply (chg_vec kd links b _ (k + 1) i n _ Hb ltac:(lia) Hi Hn (coulomb_rhs_link kd junk c w coords f links b qs k i n Hk Hi Hn))).
    apply (friction_balance kd coords f c w links qs (fun q => ball_projection (Pt_u_coulomb kd c w (geometry_at kd coords f q) q) (nth 2 c 0 * Pn_u_coulomb kd c w (geometry_at kd coords f q) q))); auto.
Qed.
Print Assumptions C34_friction_balance.

(** ** C35: no Coulomb friction without contact *)
Ltac zero_terms H1 H2 :=
  rewrite ?for_loop_rsum_minus;
  repeat match goal with |- context [rsum ?m ?g] => replace (rsum m g) with 0 by (symmetry; apply rsum_zero; intros; rewrite ?H1; ring) end;
  rewrite ?H1, ?H2; ring.
Theorem C35_coulomb_open :
  forall (kd : kernel_data) (junk : geometry) (b A : list (list R)) (c w coords : list R) (f links : nat) (qs : list nat) (rhs jac : kernel_fn),
    generate_contact_kernel CoulombRhs kd junk = Some rhs -> generate_contact_kernel CoulombJac kd junk = Some jac ->
    kd_bs kd = kd_gdim kd -> nth 1 w 0 = 0 -> (forall q, In q qs -> contact_indicator kd coords f c w q <= 0) ->
    rhs b c w coords f links qs = b /\ jac A c w coords f links qs = A.
Proof.
  intros kd junk b A c w coords f links qs rhs jac E_rhs E_jac. injection E_rhs as <-. injection E_jac as <-. intros Hbs Ht HI. split.
  - unfold coulomb_rhs. rewrite quadrature_loop_geometry. apply for_each_id. intros q b' Hq. cbv zeta. rewrite coulomb_radius_eq, (R_plus_open _ (HI q Hq)), Rmult_0_r by auto.
    assert (Z := fun i => proj2 (C40_zero_radius (Pt_u_coulomb kd c w (geometry_at kd coords f q) q) 0 i)). revert Z. generalize (ball_projection (Pt_u_coulomb kd c w (geometry_at kd coords f q) q) 0). intros p Z.
    unfold friction_rhs_point. cbv zeta. rewrite Ht. unchanged_by ltac:(rewrite ?Z; ring).
  - unfold coulomb_jac. rewrite quadrature_loop_geometry. apply for_each_id. intros q b' Hq. cbv zeta. rewrite coulomb_radius_eq, (R_plus_open _ (HI q Hq)), Rmult_0_r by auto.
    rewrite indicator_eq, (dR_plus_open _ (HI q Hq)), Rmult_0_l by auto.
    assert (Z := fun i => proj1 (C40_zero_radius (Pt_u_coulomb kd c w (geometry_at kd coords f q) q) (kd_bs kd) i)). revert Z. generalize (d_ball_projection (Pt_u_coulomb kd c w (geometry_at kd coords f q) q) 0 (kd_bs kd)). intros J ZJ.
    assert (Z := fun i => d_alpha_zero (Pt_u_coulomb kd c w (geometry_at kd coords f q) q) 0 i). revert Z. generalize (d_alpha_ball_projection (Pt_u_coulomb kd c w (geometry_at kd coords f q) q) 0 0). intros da Za.
    rewrite Ht. unchanged_by ltac:(zero_terms ZJ Za).
Qed.
Print Assumptions C35_coulomb_open.

(** ** C36: friction bounds *)
(** The friction law: the multiplier is the argument while that is within the
    radius, and has the argument's direction and the radius as norm otherwise. *)
Definition friction_law (kd : kernel_data) (radius : R) (argument multiplier : nat -> R) : Prop :=
  norm_of kd multiplier <= radius /\
  (norm_of kd argument <= radius -> forall a, (a < kd_gdim kd)%nat -> multiplier a = argument a) /\
  (radius < norm_of kd argument -> norm_of kd multiplier = radius /\ forall a, (a < kd_gdim kd)%nat -> multiplier a * norm_of kd argument = radius * argument a).

Lemma projection_law kd x radius : kd_bs kd = kd_gdim kd -> (kd_gdim kd <= 3)%nat -> 0 <= radius ->
  friction_law kd radius x (fun a => nth a (ball_projection (array3 kd x) radius) 0).
Proof.
  intros Hbs Hd Hr. set (p := ball_projection (array3 kd x) radius).
  assert (N : norm_of kd (fun a => nth a p 0) = normn 3 p).
  { unfold norm_of, normn, dotn. f_equal. rewrite <- Hbs. rewrite <- (rsum_array3 kd (fun a => nth a p 0) (fun _ y => y * y)) by (rewrite ?Hbs; auto; intros; ring).
    apply rsum_ext. intros a Ha. rewrite array3_nth by (rewrite Hbs; auto). destruct (Nat.ltb_spec a (kd_bs kd)) as [|G]; [reflexivity|].
    assert (nth a p 0 = 0) as ->; [|ring]. unfold p. rewrite ball_projection_nth, array3_nth by (rewrite Hbs; auto). destruct (Nat.ltb_spec a (kd_bs kd)); [lia|ring]. }
  assert (E : forall a, (a < kd_gdim kd)%nat -> nth a p 0 = (if rle (norm_of kd x) radius then 1 else radius / norm_of kd x) * x a).
  { intros a Ha. unfold p. rewrite ball_projection_nth, array3_nth, array3_length, norm_array3 by (rewrite ?Hbs; auto). destruct (Nat.ltb_spec a (kd_bs kd)); [reflexivity | rewrite Hbs in *; lia]. }
  unfold friction_law. rewrite N. split; [|split].
  - unfold p. pose proof (ball_projection_norm (array3 kd x) radius Hr) as B. rewrite array3_length in B. exact B.
  - intros L a Ha. rewrite E by auto. assert (rle (norm_of kd x) radius = true) as -> by now apply rle_spec. ring.
  - intros G. assert (B : rle (norm_of kd x) radius = false) by now apply rle_false. rewrite B in E.
    split; [|intros a Ha; rewrite E by auto; field; lra].
    rewrite <- N. unfold norm_of. rewrite (rsum_ext (kd_gdim kd) _ (fun a => (radius / norm_of kd x * (radius / norm_of kd x)) * (x a * x a))) by (intros a Ha; rewrite E by auto; ring).
    rewrite rsum_scal.
    assert (Sq : rsum (kd_gdim kd) (fun a => x a * x a) = norm_of kd x * norm_of kd x).
    { unfold norm_of. rewrite sqrt_sqrt; [reflexivity|]. apply rsum_nonneg. intros; apply Rle_0_sqr. }
    rewrite Sq. replace (radius / norm_of kd x * (radius / norm_of kd x) * (norm_of kd x * norm_of kd x)) with (radius * radius) by (field; lra). now apply sqrt_square.
Qed.

(** What the friction kernels add for multipliers [tau]. *)
Definition friction_residual (kd : kernel_data) (coords : list R) (f : nat) (c w : list R) (links : nat) (qs : list nat) (tau : nat -> nat -> R) (vec : nat -> nat -> nat -> R) : Prop :=
  forall i n, (i < kd_ndofs kd)%nat -> (n < kd_bs kd)%nat ->
    let weight q := weight kd f q * g_detJ (geometry_at kd coords f q) in
    let scale q := / 2 * (nth 0 w 0 / nth 3 c 0) * weight q in
    let basis v a := if (a =? n)%nat then v else 0 in
    let basis_traction q := tangential kd c q (traction (kd_gdim kd) (ck_mu c) (ck_lambda c) (in_direction n (phys_grad kd coords f q i)) (g_n (geometry_at kd coords f q))) in
    let dot x y := rsum (kd_gdim kd) (fun a => x a * y a) in
    vec 0%nat i n = lsum qs (fun q => scale q * dot (tau q) (fun a => tangential kd c q (basis (kd_phi kd (kd_qp_offsets kd f + q) i)) a - nth 1 w 0 * ck_gamma c w * basis_traction q a)
      - / 2 * nth 1 w 0 * ck_gamma c w * weight q * dot (tangential kd c q (ck_traction kd coords f c q)) (basis_traction q)) /\
    forall k, (k < links)%nat -> vec (k + 1)%nat i n = lsum qs (fun q => - (scale q * dot (tau q) (tangential kd c q (basis (contact_test kd f c q k i n))))).

Section Residual.
  Context (kd : kernel_data) (coords : list R) (f : nat) (c w : list R) (q : nat) (Hbs : kd_bs kd = kd_gdim kd).
  Lemma tangential_basis n v a : (n < kd_gdim kd)%nat -> tangential kd c q (fun a => if (a =? n)%nat then v else 0) a = delta n a * v - n_surf kd c q n * v * n_surf kd c q a.
  Proof.
    intros Hn. unfold tangential, along. rewrite (rsum_single (kd_gdim kd) n) by (first [exact Hn | intros a' _ N; destruct (Nat.eqb_spec a' n); [contradiction | ring]]).
    rewrite Nat.eqb_refl. unfold delta, n_surf, ck_normal. rewrite (Nat.eqb_sym n a). destruct (a =? n)%nat; ring.
  Qed.
  Lemma tangential_basis_traction i n a : (n < kd_gdim kd)%nat -> (a < kd_gdim kd)%nat ->
    tangential kd c q (traction (kd_gdim kd) (ck_mu c) (ck_lambda c) (in_direction n (phys_grad kd coords f q i)) (g_n (geometry_at kd coords f q))) a = st kd c coords f q i n a.
  Proof. intros Hn Ha. unfold tangential, st. rewrite basis_sign_eq, sig_n_eq by auto. reflexivity. Qed.
  Lemma tangential_traction a : (a < kd_gdim kd)%nat -> tangential kd c q (ck_traction kd coords f c q) a = stu kd c coords f q a.
  Proof. intros Ha. unfold tangential, stu. rewrite sign_u_eq, sig_n_u_eq by auto. reflexivity. Qed.
End Residual.

Lemma residual_intro kd coords f c w links qs (proj : nat -> list R) vec : kd_bs kd = kd_gdim kd ->
  (forall i n, (i < kd_ndofs kd)%nat -> (n < kd_bs kd)%nat ->
     vec 0%nat i n = lsum qs (fun q => 0.5 * gamma_inv_of c w * (weight kd f q * g_detJ (geometry_at kd coords f q)) * rsum (kd_bs kd) (fun a => nth a (proj q) 0 * tv0 kd c w coords f q i n a)
        - 0.5 * gamma_of c w * nth 1 w 0 * (weight kd f q * g_detJ (geometry_at kd coords f q)) * rsum (kd_bs kd) (fun a => stu kd c coords f q a * st kd c coords f q i n a)) /\
     forall k, (k < links)%nat -> vec (k + 1)%nat i n = lsum qs (fun q => - (0.5 * gamma_inv_of c w * (weight kd f q * g_detJ (geometry_at kd coords f q)) * rsum (kd_bs kd) (fun a => nth a (proj q) 0 * tvk kd c f q k i n a)))) ->
  friction_residual kd coords f c w links qs (fun q a => nth a (proj q) 0) vec.
Proof.
  intros Hbs H i n Hi Hn. destruct (H i n Hi Hn) as [E0 Ek]. assert (Hn' : (n < kd_gdim kd)%nat) by (rewrite <- Hbs; auto). cbv zeta. split.
  - rewrite E0. apply lsum_ext. intros q _. rewrite Hbs.
    rewrite (rsum_ext (kd_gdim kd) (fun a => nth a (proj q) 0 * tv0 kd c w coords f q i n a)
      (fun a => nth a (proj q) 0 * (tangential kd c q (fun a => if (a =? n)%nat then kd_phi kd (kd_qp_offsets kd f + q) i else 0) a - nth 1 w 0 * ck_gamma c w *
         tangential kd c q (traction (kd_gdim kd) (ck_mu c) (ck_lambda c) (in_direction n (phys_grad kd coords f q i)) (g_n (geometry_at kd coords f q))) a)))
      by (intros a Ha; rewrite tangential_basis, tangential_basis_traction by auto; reflexivity).
    rewrite (rsum_ext (kd_gdim kd) (fun a => stu kd c coords f q a * _) (fun a => tangential kd c q (ck_traction kd coords f c q) a *
         tangential kd c q (traction (kd_gdim kd) (ck_mu c) (ck_lambda c) (in_direction n (phys_grad kd coords f q i)) (g_n (geometry_at kd coords f q))) a))
      by (intros a Ha; rewrite tangential_basis_traction, tangential_traction by auto; reflexivity).
    unfold gamma_inv_of, gamma_of, ck_gamma. ringh.
  - intros k Hk. rewrite Ek by auto. apply lsum_ext. intros q _. rewrite Hbs.
    rewrite (rsum_ext (kd_gdim kd) (fun a => nth a (proj q) 0 * tvk kd c f q k i n a)
      (fun a => nth a (proj q) 0 * tangential kd c q (fun a => if (a =? n)%nat then contact_test kd f c q k i n else 0) a)).
    + unfold gamma_inv_of. ringh.
    + intros a Ha. rewrite tangential_basis by auto. unfold tvk, contact_test, test_index. ring.
Qed.

Theorem C36_tresca_bound :
  forall (kd : kernel_data) (junk : geometry) (b : list (list R)) (c w coords : list R) (f links : nat) (qs : list nat) (rhs : kernel_fn),
    generate_contact_kernel TrescaRhs kd junk = Some rhs ->
    kd_bs kd = kd_gdim kd -> (kd_gdim kd <= 3)%nat -> vector_buffers kd links b -> 0 <= tresca_radius c w ->
    exists tau : nat -> nat -> R,
      (forall q, friction_law kd (tresca_radius c w) (tresca_argument kd coords f c w q) (tau q)) /\
      friction_residual kd coords f c w links qs tau (added_vec kd b (rhs b c w coords f links qs)).
Proof.
  intros kd junk b c w coords f links qs rhs E_rhs. injection E_rhs as <-. intros Hbs Hd Hb Hr.
  exists (fun q a => nth a (ball_projection (Pt_u_tresca kd c w (geometry_at kd coords f q) q) (gamma_of c w * nth 2 c 0)) 0). split.
  - intros q. rewrite tresca_argument_eq by auto. now apply projection_law.
  - apply residual_intro; [auto|]. intros i n Hi Hn. split.
    + exact (chg_vec kd links b _ 0 i n _ Hb ltac:(lia) Hi Hn (tresca_rhs_cell kd junk c w coords f links b qs i n Hi Hn)).
    + intros k Hk. exact (chg_vec kd links b _ (k + 1) i n _ Hb ltac:(lia) Hi Hn (tresca_rhs_link kd junk c w coords f links b qs k i n Hk Hi Hn)).
Qed.
Print Assumptions C36_tresca_bound.

(** The Coulomb bound is the friction coefficient times the pressure of
    C36_contact_pressure. *)
Theorem C36_coulomb_bound :
  forall (kd : kernel_data) (junk : geometry) (b : list (list R)) (c w coords : list R) (f links : nat) (qs : list nat) (rhs : kernel_fn),
    generate_contact_kernel CoulombRhs kd junk = Some rhs ->
    kd_bs kd = kd_gdim kd -> (kd_gdim kd <= 3)%nat -> vector_buffers kd links b -> 0 <= ck_friction c ->
    exists tau : nat -> nat -> R,
      (forall q, friction_law kd (ck_friction c * Rmax (contact_indicator kd coords f c w q) 0) (coulomb_argument kd coords f c w q) (tau q)) /\
      friction_residual kd coords f c w links qs tau (added_vec kd b (rhs b c w coords f links qs)).
Proof.
  intros kd junk b c w coords f links qs rhs E_rhs. injection E_rhs as <-. intros Hbs Hd Hb Hr.
  exists (fun q a => nth a (ball_projection (Pt_u_coulomb kd c w (geometry_at kd coords f q) q) (nth 2 c 0 * Pn_u_coulomb kd c w (geometry_at kd coords f q) q)) 0). split.
  - intros q. rewrite coulomb_argument_eq, coulomb_radius_eq, R_plus_max by auto. apply projection_law; auto. apply Rmult_le_pos; [exact Hr | apply Rmax_r].
  - apply residual_intro; [auto|]. intros i n Hi Hn. split.
    + exact (chg_vec kd links b _ 0 i n _ Hb ltac:(lia) Hi Hn (coulomb_rhs_cell kd junk c w coords f links b qs i n Hi Hn)).
    + intros k Hk. exact (chg_vec kd links b _ (k + 1) i n _ Hb ltac:(lia) Hi Hn (coulomb_rhs_link kd junk c w coords f links b qs k i n Hk Hi Hn)).
Qed.
Print Assumptions C36_coulomb_bound.

(** ** C37: the unweighted normal term of the friction matrices *)
(** The same kernel data with all quadrature weights multiplied by [s]. *)
Definition scale_weights (s : R) (kd : kernel_data) : kernel_data :=
  {| kd_gdim := kd_gdim kd; kd_tdim := kd_tdim kd; kd_bs := kd_bs kd; kd_ndofs := kd_ndofs kd; kd_nodes := kd_nodes kd; kd_affine := kd_affine kd;
     kd_cstrides := kd_cstrides kd; kd_qp_offsets := kd_qp_offsets kd; kd_phi := kd_phi kd; kd_dphi := kd_dphi kd; kd_dphi_c := kd_dphi_c kd;
     kd_weights := fun p => s * kd_weights kd p; kd_ref_jacobian := kd_ref_jacobian kd; kd_ref_normal := kd_ref_normal kd; kd_inverse := kd_inverse kd; kd_determinant := kd_determinant kd |}.

Lemma lsum_scaled {A} (qs : list A) s g h : (forall q, In q qs -> g q = s * h q) -> lsum qs g = s * lsum qs h.
Proof. intros H. rewrite <- lsum_scal. now apply lsum_ext. Qed.

Lemma friction_matrices_scale :
  forall (kd : kernel_data) (s : R) (junk junk' : geometry) (A : list (list R)) (c w coords : list R) (f links : nat) (qs : list nat) (kernel : kernel_data -> geometry -> kernel_fn),
    In kernel [tresca_jac; coulomb_jac] ->
    kd_bs kd = kd_gdim kd -> (kd_gdim kd <= 3)%nat -> matrix_buffers kd links A -> (forall q, In q qs -> unit_normal kd c q) ->
    forall i n j l slot, (i < kd_ndofs kd)%nat -> (n < kd_bs kd)%nat -> (j < kd_ndofs kd)%nat -> (l < kd_bs kd)%nat -> (slot <= 3 * links)%nat ->
      added_mat kd A (kernel (scale_weights s kd) junk A c w coords f links qs) slot i n j l = s * added_mat kd A (kernel kd junk' A c w coords f links qs) slot i n j l.
Proof.
  intros kd s junk junk' A c w coords f links qs kernel HK Hbs Hd HA HU i n j l slot Hi Hn Hj Hl Hs. set (kd' := scale_weights s kd).
  assert (HA' : matrix_buffers kd' links A) by exact HA.
  assert (Hi' : (i < kd_ndofs kd')%nat) by exact Hi. assert (Hj' : (j < kd_ndofs kd')%nat) by exact Hj. assert (Hn' : (n < kd_bs kd')%nat) by exact Hn. assert (Hl' : (l < kd_bs kd')%nat) by exact Hl.
  change (added_mat kd A (kernel kd' junk A c w coords f links qs) slot i n j l) with (added_mat kd' A (kernel kd' junk A c w coords f links qs) slot i n j l).
  assert (HW : forall q, weight kd' f q = s * weight kd f q) by reflexivity.
  assert (Slots : slot = 0%nat \/ exists k, (k < links)%nat /\ (slot = 3 * k + 1 \/ slot = 3 * k + 2 \/ slot = 3 * k + 3)%nat).
  { destruct slot as [|m]; [now left|]. right. exists (m / 3)%nat. pose proof (Nat.div_mod m 3 ltac:(lia)). pose proof (Nat.mod_upper_bound m 3 ltac:(lia)).
    split; [apply Nat.div_lt_upper_bound; lia|]. lia. }
  destruct HK as [<-|[<-|[]]]; destruct Slots as [->|(k & Hk & [->|[->| ->]])].
  - rewrite (chg_mat kd' links A _ 0 i n j l _ HA' ltac:(lia) Hi' Hn' Hj' Hl' (tresca_jac_cell kd' junk c w coords f links A qs i n j l Hi' Hn' Hj' Hl')).
    rewrite (chg_mat kd links A _ 0 i n j l _ HA ltac:(lia) Hi Hn Hj Hl (tresca_jac_cell kd junk' c w coords f links A qs i n j l Hi Hn Hj Hl)).
    apply lsum_scaled. intros q Hq. rewrite HW. change kd' with (scale_weights s kd).
    change (D_tresca (scale_weights s kd)) with (D_tresca kd). change (tv0 (scale_weights s kd)) with (tv0 kd). change (st (scale_weights s kd)) with (st kd).
    change (geometry_at (scale_weights s kd)) with (geometry_at kd). change (kd_bs (scale_weights s kd)) with (kd_bs kd). ring.
  - rewrite (chg_mat kd' links A _ (3 * k + 1) i n j l _ HA' ltac:(lia) Hi' Hn' Hj' Hl' (tresca_jac_cell_link kd' junk c w coords f links A qs k i n j l Hk Hi' Hn' Hj' Hl')).
    rewrite (chg_mat kd links A _ (3 * k + 1) i n j l _ HA ltac:(lia) Hi Hn Hj Hl (tresca_jac_cell_link kd junk' c w coords f links A qs k i n j l Hk Hi Hn Hj Hl)).
    apply lsum_scaled. intros q Hq. rewrite HW. change kd' with (scale_weights s kd).
    change (Do_tresca (scale_weights s kd)) with (Do_tresca kd). change (tv0 (scale_weights s kd)) with (tv0 kd).
    change (geometry_at (scale_weights s kd)) with (geometry_at kd). change (kd_bs (scale_weights s kd)) with (kd_bs kd). ring.
  - rewrite (chg_mat kd' links A _ (3 * k + 2) i n j l _ HA' ltac:(lia) Hi' Hn' Hj' Hl' (tresca_jac_link_cell kd' junk c w coords f links A qs k i n j l Hk Hi' Hn' Hj' Hl')).
    rewrite (chg_mat kd links A _ (3 * k + 2) i n j l _ HA ltac:(lia) Hi Hn Hj Hl (tresca_jac_link_cell kd junk' c w coords f links A qs k i n j l Hk Hi Hn Hj Hl)).
    apply lsum_scaled. intros q Hq. rewrite HW. change kd' with (scale_weights s kd).
    change (D_tresca (scale_weights s kd)) with (D_tresca kd). change (tvk (scale_weights s kd)) with (tvk kd).
    change (geometry_at (scale_weights s kd)) with (geometry_at kd). change (kd_bs (scale_weights s kd)) with (kd_bs kd). ring.
  - rewrite (chg_mat kd' links A _ (3 * k + 3) i n j l _ HA' ltac:(lia) Hi' Hn' Hj' Hl' (tresca_jac_link_link kd' junk c w coords f links A qs k i n j l Hk Hi' Hn' Hj' Hl')).
    rewrite (chg_mat kd links A _ (3 * k + 3) i n j l _ HA ltac:(lia) Hi Hn Hj Hl (tresca_jac_link_link kd junk' c w coords f links A qs k i n j l Hk Hi Hn Hj Hl)).
    apply lsum_scaled. intros q Hq. rewrite HW. change kd' with (scale_weights s kd).
    change (Do_tresca (scale_weights s kd)) with (Do_tresca kd). change (n_surf (scale_weights s kd)) with (n_surf kd).
    change (geometry_at (scale_weights s kd)) with (geometry_at kd). change (kd_bs (scale_weights s kd)) with (kd_bs kd).
    change (test_index (scale_weights s kd)) with (test_index kd). change (offsets (scale_weights s kd)) with (offsets kd). change (num_points (scale_weights s kd)) with (num_points kd).
    rewrite tresca_link_normal by auto. ring.
  - rewrite (chg_mat kd' links A _ 0 i n j l _ HA' ltac:(lia) Hi' Hn' Hj' Hl' (coulomb_jac_cell kd' junk c w coords f links A qs i n j l Hi' Hn' Hj' Hl')).
    rewrite (chg_mat kd links A _ 0 i n j l _ HA ltac:(lia) Hi Hn Hj Hl (coulomb_jac_cell kd junk' c w coords f links A qs i n j l Hi Hn Hj Hl)).
    apply lsum_scaled. intros q Hq. rewrite HW. change kd' with (scale_weights s kd).
    change (D_coulomb (scale_weights s kd)) with (D_coulomb kd). change (tv0 (scale_weights s kd)) with (tv0 kd). change (st (scale_weights s kd)) with (st kd).
    change (geometry_at (scale_weights s kd)) with (geometry_at kd). change (kd_bs (scale_weights s kd)) with (kd_bs kd). ring.
  - rewrite (chg_mat kd' links A _ (3 * k + 1) i n j l _ HA' ltac:(lia) Hi' Hn' Hj' Hl' (coulomb_jac_cell_link kd' junk c w coords f links A qs k i n j l Hk Hi' Hn' Hj' Hl')).
    rewrite (chg_mat kd links A _ (3 * k + 1) i n j l _ HA ltac:(lia) Hi Hn Hj Hl (coulomb_jac_cell_link kd junk' c w coords f links A qs k i n j l Hk Hi Hn Hj Hl)).
    apply lsum_scaled. intros q Hq. rewrite HW. change kd' with (scale_weights s kd).
    change (Do_coulomb (scale_weights s kd)) with (Do_coulomb kd). change (tv0 (scale_weights s kd)) with (tv0 kd).
    change (geometry_at (scale_weights s kd)) with (geometry_at kd). change (kd_bs (scale_weights s kd)) with (kd_bs kd). ring.
  - rewrite (chg_mat kd' links A _ (3 * k + 2) i n j l _ HA' ltac:(lia) Hi' Hn' Hj' Hl' (coulomb_jac_link_cell kd' junk c w coords f links A qs k i n j l Hk Hi' Hn' Hj' Hl')).
    rewrite (chg_mat kd links A _ (3 * k + 2) i n j l _ HA ltac:(lia) Hi Hn Hj Hl (coulomb_jac_link_cell kd junk' c w coords f links A qs k i n j l Hk Hi Hn Hj Hl)).
    apply lsum_scaled. intros q Hq. rewrite HW. change kd' with (scale_weights s kd).
    change (D_coulomb (scale_weights s kd)) with (D_coulomb kd). change (tvk (scale_weights s kd)) with (tvk kd).
    change (geometry_at (scale_weights s kd)) with (geometry_at kd). change (kd_bs (scale_weights s kd)) with (kd_bs kd). ring.
  - rewrite (chg_mat kd' links A _ (3 * k + 3) i n j l _ HA' ltac:(lia) Hi' Hn' Hj' Hl' (coulomb_jac_link_link kd' junk c w coords f links A qs k i n j l Hk Hi' Hn' Hj' Hl')).
    rewrite (chg_mat kd links A _ (3 * k + 3) i n j l _ HA ltac:(lia) Hi Hn Hj Hl (coulomb_jac_link_link kd junk' c w coords f links A qs k i n j l Hk Hi Hn Hj Hl)).
    apply lsum_scaled. intros q Hq. rewrite HW. change kd' with (scale_weights s kd).
    change (Do_coulomb (scale_weights s kd)) with (Do_coulomb kd). change (n_surf (scale_weights s kd)) with (n_surf kd).
    change (geometry_at (scale_weights s kd)) with (geometry_at kd). change (kd_bs (scale_weights s kd)) with (kd_bs kd).
    change (test_index (scale_weights s kd)) with (test_index kd). change (offsets (scale_weights s kd)) with (offsets kd). change (num_points (scale_weights s kd)) with (num_points kd).
    rewrite coulomb_link_normal by auto. ring.
Qed.
Theorem C37_matrices_scale_with_weights :
  forall (kd : kernel_data) (s : R) (junk junk' : geometry) (A : list (list R)) (c w coords : list R) (f links : nat) (qs : list nat) (type : kernel_type) (scaled kernel : kernel_fn),
    In type [TrescaJac; CoulombJac] -> generate_contact_kernel type (scale_weights s kd) junk = Some scaled -> generate_contact_kernel type kd junk' = Some kernel ->
    kd_bs kd = kd_gdim kd -> (kd_gdim kd <= 3)%nat -> matrix_buffers kd links A -> (forall q, In q qs -> unit_normal kd c q) ->
    forall i n j l slot, (i < kd_ndofs kd)%nat -> (n < kd_bs kd)%nat -> (j < kd_ndofs kd)%nat -> (l < kd_bs kd)%nat -> (slot <= 3 * links)%nat ->
      added_mat kd A (scaled A c w coords f links qs) slot i n j l = s * added_mat kd A (kernel A c w coords f links qs) slot i n j l.
Proof.
  intros kd s junk junk' A c w coords f links qs type scaled kernel [<-|[<-|[]]] E1 E2; injection E1 as <-; injection E2 as <-; intros.
  - apply (friction_matrices_scale kd s junk junk' A c w coords f links qs tresca_jac); auto. now left.
  - apply (friction_matrices_scale kd s junk junk' A c w coords f links qs coulomb_jac); auto. right. now left.
Qed.
Print Assumptions C37_matrices_scale_with_weights.
