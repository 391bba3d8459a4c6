(** Rigid surface kernels: the matrix is the derivative of the residual (C32),
    symmetry (C33), inactive contact (C35), contact pressure (C36), buffers (C68),
    dependence on uninitialised memory (C69). *)
From Coq Require Import List Arith Lia Bool Reals Lra.
Import ListNotations.
From Verif Require Import Prelude PreludeLemmas RSum RealLemmas CropModel CandidatesProps RayModel OpsModel OpsProps AssemblyModel AssemblyProofs KernelModel KernelProofs KernelSpec
  ElasticityProps ContactKernelProofs ContactKernelProps RigidKernelModel.
Local Open Scope R_scope.

(** ** Specification *)
(** Blocks of a row, in the order of rigid_surface_kernels.cpp:35-44: mu, lambda,
    h, gap, u, grad u, normals. *)
Definition rigid_layout (kd : kernel_data) (f : nat) : Prop :=
  let np := num_points kd f in
  kd_cstrides kd = [1; 1; 1; kd_gdim kd * np; kd_gdim kd * np; kd_gdim kd * kd_gdim kd * np; kd_gdim kd * np]%nat.

(** The rows hold the displacements [U + t W] and agree in everything else. *)
Record rigid_line (kd : kernel_data) (coords : list R) (f : nat) (C : R -> list R) (U W : coeffs) : Prop := {
  rl_data : forall t p, (p < offsets kd 4)%nat \/ (offsets kd 6 <= p)%nat -> nth p (C t) 0 = nth p (C 0) 0;
  rl_u : forall t q n, (q < num_points kd f)%nat -> (n < kd_gdim kd)%nat ->
    nth (offsets kd 4 + kd_gdim kd * q + n)%nat (C t) 0 = rsum (kd_ndofs kd) (fun j => kd_phi kd (kd_qp_offsets kd f + q) j * (U j n + t * W j n));
  rl_grad : forall t q a b, (q < num_points kd f)%nat -> (a < kd_gdim kd)%nat -> (b < kd_gdim kd)%nat ->
    nth (offsets kd 5 + q * kd_gdim kd * kd_gdim kd + (a * kd_gdim kd + b))%nat (C t) 0 = rsum (kd_ndofs kd) (fun j => phys_grad kd coords f q j b * (U j a + t * W j a)) }.

Section Point.
  Context (kd : kernel_data) (coords : list R) (f : nat) (constant : bool) (c w : list R) (q : nat).
  Notation dim := (kd_gdim kd).
  (** Minus the normal of the surface, from the constants or from the row. *)
  Definition rs_normal (a : nat) : R := - (if constant then nth (a + 2)%nat w 0 else nth (offsets kd 6 + q * dim + a)%nat c 0).
  Definition rs_along (v : nat -> R) : R := rsum dim (fun a => v a * rs_normal a).
  Definition rs_gap : R := rs_along (fun a => nth (offsets kd 3 + q * dim + a)%nat c 0).
  Definition rs_u : R := rs_along (fun a => nth (offsets kd 4 + dim * q + a)%nat c 0).
  (** Normal component of the traction of the displacement. *)
  Definition rs_sigma : R := rs_along (traction dim (nth 0 c 0) (nth 1 c 0)
    (fun a b => nth (offsets kd 5 + q * dim * dim + (a * dim + b))%nat c 0) (g_n (geometry_at kd coords f q))).
  (** [gamma/h] and the contact indicator: negative means contact. *)
  Definition rs_gamma : R := nth 0 w 0 / nth 2 c 0.
  Definition rs_indicator : R := nth 2 c 0 / nth 0 w 0 * rs_sigma + (rs_gap - rs_u).
  (** Normal component of the traction of basis function [i] in direction [n]. *)
  Definition rs_test (i n : nat) : R := rs_along (traction dim (nth 0 c 0) (nth 1 c 0) (in_direction n (phys_grad kd coords f q i)) (g_n (geometry_at kd coords f q))).
  Definition rs_weight : R := weight kd f q * g_detJ (geometry_at kd coords f q).
End Point.

(** What the kernels compute does not depend on uninitialised memory. *)
Definition normals_known (kd : kernel_data) (constant : bool) : Prop := kd_affine kd = true \/ constant = false.

(** ** The kernels in closed form *)
Section Forms.
  Context (kd : kernel_data) (junk : geometry) (constant : bool) (c w coords : list R) (f : nat).
  Context (Hbs : kd_bs kd = kd_gdim kd) (HN : normals_known kd constant).
  Notation gdim := (kd_gdim kd).
  Notation bs := (kd_bs kd).
  Notation nd := (kd_ndofs kd).
  Notation geo q := (geometry_at kd coords f q).
  Notation gam := (rs_gamma c w).
  Notation gami := (nth 2 c 0 / nth 0 w 0).
  Notation theta := (nth 1 w 0).
  Notation ns q := (rs_normal kd constant c w q).
  Notation phi q i := (kd_phi kd (kd_qp_offsets kd f + q) i).
  Notation pts := (seq 0 (num_points kd f)).

  Lemma n_surf_eq q a : rigid_n_surf kd constant c w q a = ns q a.
  Proof using. unfold rigid_n_surf, rs_normal. case constant; reflexivity. Qed.
  Lemma rigid_gap_eq q : rigid_gap kd constant c w q = rs_gap kd constant c w q.
  Proof using. unfold rigid_gap. rewrite for_loop_rsum, Rplus_0_l. apply rsum_ext. intros; now rewrite n_surf_eq. Qed.
  Lemma rigid_u_n_eq q : rigid_u_n kd constant c w q = rs_u kd constant c w q.
  Proof using. unfold rigid_u_n. rewrite for_loop_rsum, Rplus_0_l. apply rsum_ext. intros; now rewrite n_surf_eq. Qed.
  Lemma rigid_sign_u_eq q : rigid_sign_u kd constant (geo q) c w q = rs_sigma kd coords f constant c w q.
  Proof using.
    unfold rigid_sign_u. rewrite for_loop_rsum, Rplus_0_l. apply rsum_ext. intros a Ha. rewrite n_surf_eq. f_equal.
    unfold rigid_sig_n_u. rewrite C41_displacement_traction by auto. rewrite Rplus_0_l. reflexivity.
  Qed.
  (** The physical normal used for [n_dot]. *)
  Lemma start_normal q : kd_affine kd = true -> start_geometry kd coords f junk = geo q.
  Proof using.
    intros E. unfold start_geometry, geometry_at. rewrite E. cbn [fst snd compute_facet_jacobian]. rewrite Rabs_Rabsolu. reflexivity.
  Qed.
  Lemma rigid_basis_sign_eq q j l : (l < gdim)%nat ->
    rigid_basis_sign kd constant (start_geometry kd coords f junk) (geo q) c w f q j l = rs_test kd coords f constant c w q j l.
  Proof using HN.
    intros Hl. unfold rigid_basis_sign. cbv zeta. unfold rigid_n_dot. rewrite for_loop_rsum, Rplus_0_l.
    assert (E : (if constant then start_geometry kd coords f junk else geo q) = geo q).
    { destruct constant; [|reflexivity]. destruct HN as [A|]; [|discriminate]. now apply start_normal. }
    rewrite E.
    pose proof (C41_strain_route kd (g_K (geo q)) (rigid_n_surf kd constant c w q) (g_n (geo q)) (nth 0 c 0) (nth 1 c 0) (kd_qp_offsets kd f + q) j l Hl) as R.
    cbv zeta in R. rewrite R. apply rsum_ext. intros a Ha. rewrite n_surf_eq. reflexivity.
  Qed.
  Lemma rigid_rhs_entry b links qs i n : (i < nd)%nat -> (n < bs)%nat ->
    chg 0 (n + i * bs) b (rigid_rhs kd junk constant b c w coords f links qs)
      (lsum pts (fun q => R_minus (rs_indicator kd coords f constant c w q) * rs_weight kd coords f q * (theta * rs_test kd coords f constant c w q i n - gam * (ns q n * phi q i))
         - theta * gami * rs_test kd coords f constant c w q i n * (rs_sigma kd coords f constant c w q * rs_weight kd coords f q))).
  Proof using All.
    intros Hi Hn. rewrite (Nat.add_comm n). unfold rigid_rhs. cbv zeta. rewrite quadrature_loop_geometry. apply chg_each. intros q b' _. cbv zeta.
    eapply chg_eq; [apply (chg_loop_one _ _ _ i); [exact Hi | apply chg_refl | | intros ? ? ? ?; chg_none ] |].
    - intros b1. cbv beta zeta. apply (chg_loop_one _ _ _ n); [exact Hn | apply chg_refl | | intros ? ? ? ?; chg_none ].
      intros b2. cbv beta zeta. apply chg_acc_hit, chg_refl.
    - rewrite rigid_basis_sign_eq by (rewrite <- Hbs; auto). rewrite rigid_sign_u_eq, rigid_gap_eq, rigid_u_n_eq, n_surf_eq.
      rewrite Rabs_pos_eq by apply facet_scale_nonneg. fold (rs_indicator kd coords f constant c w q). unfold rs_weight, rs_gamma. ring.
  Qed.
  Lemma rigid_jac_entry A links qs i n j l : (i < nd)%nat -> (n < bs)%nat -> (j < nd)%nat -> (l < bs)%nat ->
    chg 0 ((n + i * bs) * nd * bs + l + j * bs) A (rigid_jac kd junk constant A c w coords f links qs)
      (lsum pts (fun q => dR_minus (rs_sigma kd coords f constant c w q + gam * (rs_gap kd constant c w q - rs_u kd constant c w q)) * rs_weight kd coords f q
           * (gami * rs_test kd coords f constant c w q j l - ns q l * phi q j) * (theta * rs_test kd coords f constant c w q i n - gam * (ns q n * phi q i))
         - theta * gami * (rs_test kd coords f constant c w q j l * rs_weight kd coords f q) * rs_test kd coords f constant c w q i n)).
  Proof using All.
    intros Hi Hn Hj Hl. unfold rigid_jac. cbv zeta. rewrite quadrature_loop_geometry. apply chg_each. intros q A' _. cbv zeta.
    at_block j Hj l Hl i Hi n Hn.
    - apply chg_acc_hit, chg_refl.
    - rewrite !rigid_basis_sign_eq by (rewrite <- Hbs; auto). rewrite rigid_sign_u_eq, rigid_gap_eq, rigid_u_n_eq, !n_surf_eq.
      rewrite Rabs_pos_eq by apply facet_scale_nonneg. unfold rs_weight, rs_gamma. ring.
  Qed.
End Forms.

(** With [gamma/h > 0] the matrix switches where the residual does. *)
Lemma rigid_switch kd coords f constant c w q : 0 < nth 0 w 0 -> 0 < nth 2 c 0 ->
  dR_minus (rs_sigma kd coords f constant c w q + rs_gamma c w * (rs_gap kd constant c w q - rs_u kd constant c w q)) = dR_minus (rs_indicator kd coords f constant c w q).
Proof.
  intros Hw Hh. assert (G : 0 < rs_gamma c w) by (apply Rdiv_lt_0_compat; auto).
  assert (E : rs_sigma kd coords f constant c w q + rs_gamma c w * (rs_gap kd constant c w q - rs_u kd constant c w q) = rs_gamma c w * rs_indicator kd coords f constant c w q).
  { unfold rs_indicator, rs_gamma. field. lra. }
  rewrite E. unfold dR_minus. set (x := rs_indicator _ _ _ _ _ _ _). destruct (rlt x 0) eqn:R; [apply rlt_true in R | apply rlt_false in R].
  - assert (rlt (rs_gamma c w * x) 0 = true) as -> by (apply rlt_true; nra). reflexivity.
  - assert (rlt (rs_gamma c w * x) 0 = false) as -> by (apply rlt_false; nra). reflexivity.
Qed.
Lemma derivable_R_minus_affine a b : a <> 0 -> derivable_pt_lim (fun t => R_minus (a + t * b)) 0 (dR_minus a * b).
Proof.
  intros Ha. apply (derivable_pt_lim_comp (fun t => a + t * b) R_minus); [apply derivable_affine|].
  rewrite Rmult_0_l, Rplus_0_r. now apply C38_derivatives.
Qed.

(** ** Along a line of displacements *)
Section Line.
  Context (kd : kernel_data) (coords : list R) (f : nat) (constant : bool) (C : R -> list R) (w : list R) (U W : coeffs).
  Context (HL : rigid_layout kd f) (H : rigid_line kd coords f C U W).
  Notation gdim := (kd_gdim kd).
  Notation nd := (kd_ndofs kd).
  Notation np := (num_points kd f).
  Notation off := (offsets kd).
  Notation geo q := (geometry_at kd coords f q).

  Lemma rigid_offsets : off 3 = 3%nat /\ off 4 = (3 + gdim * np)%nat /\ (off 4 <= off 6)%nat.
  Proof using All. unfold offsets. rewrite HL. cbn [psums psums_from nth]. lia. Qed.
  Lemma rline_scalar t i : (i < 3)%nat -> nth i (C t) 0 = nth i (C 0) 0.
  Proof using All. intros Hi. destruct rigid_offsets as (_ & E & _). apply (rl_data _ _ _ _ _ _ H). left. lia. Qed.
  Lemma rline_normal t q a : rs_normal kd constant (C t) w q a = rs_normal kd constant (C 0) w q a.
  Proof using All. unfold rs_normal. f_equal. destruct constant; [reflexivity|]. apply (rl_data _ _ _ _ _ _ H). right. lia. Qed.
  Lemma rline_gap t q : (q < np)%nat -> rs_gap kd constant (C t) w q = rs_gap kd constant (C 0) w q.
  Proof using All.
    intros Hq. apply rsum_ext. intros a Ha. rewrite (rline_normal t). f_equal. destruct rigid_offsets as (E3 & E & _). apply (rl_data _ _ _ _ _ _ H). left. rewrite E3, E.
    assert ((q + 1) * gdim <= np * gdim)%nat by (apply Nat.mul_le_mono_r; lia). nia.
  Qed.
  Lemma rline_test t q i n : rs_test kd coords f constant (C t) w q i n = rs_test kd coords f constant (C 0) w q i n.
  Proof using All. unfold rs_test. rewrite (rline_scalar t 0), (rline_scalar t 1) by lia. apply rsum_ext. intros a Ha. now rewrite (rline_normal t). Qed.
  (** Increments of the normal displacement and of the normal traction. *)
  Definition rdu q : R := apply_row nd gdim (fun j l => rs_normal kd constant (C 0) w q l * kd_phi kd (kd_qp_offsets kd f + q) j) W.
  Definition rds q : R := apply_row nd gdim (rs_test kd coords f constant (C 0) w q) W.
  Lemma rline_u t q : (q < np)%nat -> rs_u kd constant (C t) w q = rs_u kd constant (C 0) w q + t * rdu q.
  Proof using All.
    intros Hq. unfold rdu. rewrite apply_row_components. unfold rs_u, rs_along. rewrite <- rsum_scal, <- rsum_plus. apply rsum_ext. intros a Ha. rewrite (rline_normal t).
    rewrite !(rl_u _ _ _ _ _ _ H) by auto.
    rewrite (rsum_ext nd (fun j => kd_phi kd (kd_qp_offsets kd f + q) j * (U j a + t * W j a)) (fun j => kd_phi kd (kd_qp_offsets kd f + q) j * (U j a + 0 * W j a) + t * (kd_phi kd (kd_qp_offsets kd f + q) j * W j a))) by (intros; ring).
    rewrite rsum_plus, (rsum_scal _ t (fun j => kd_phi kd (kd_qp_offsets kd f + q) j * W j a)). ring.
  Qed.
  Lemma rline_sigma t q : (q < np)%nat -> rs_sigma kd coords f constant (C t) w q = rs_sigma kd coords f constant (C 0) w q + t * rds q.
  Proof using All.
    intros Hq. unfold rds. unfold rs_sigma, rs_test, rs_along. rewrite (rline_scalar t 0), (rline_scalar t 1) by lia.
    set (mu := nth 0 (C 0) 0). set (la := nth 1 (C 0) 0).
    rewrite apply_row_sum.
    rewrite <- rsum_scal, <- rsum_plus. apply rsum_ext. intros a Ha. rewrite (rline_normal t). set (m := rs_normal kd constant (C 0) w q a).
    set (nn := g_n (geo q)).
    rewrite (apply_row_ext nd gdim _ (fun j l => m * traction gdim mu la (in_direction l (phys_grad kd coords f q j)) nn a)) by (intros; ring). rewrite apply_row_scal.
    assert (T : forall V : coeffs, traction gdim mu la (fun a b => rsum nd (fun j => phys_grad kd coords f q j b * V j a)) nn a = apply_row nd gdim (fun j l => traction gdim mu la (in_direction l (phys_grad kd coords f q j)) nn a) V).
    { intros V. now rewrite traction_expansion by auto. }
    rewrite (traction_ext gdim mu la _ (fun a b => rsum nd (fun j => phys_grad kd coords f q j b * (U j a + t * W j a))) nn a) by (try exact Ha; intros; now rewrite (rl_grad _ _ _ _ _ _ H)).
    rewrite (traction_ext gdim mu la (fun a0 b => nth (off 5 + q * gdim * gdim + (a0 * gdim + b)) (C 0) 0) (fun a b => rsum nd (fun j => phys_grad kd coords f q j b * (U j a + 0 * W j a))) nn a) by (try exact Ha; intros; now rewrite (rl_grad _ _ _ _ _ _ H)).
    rewrite (T (fun j a => U j a + t * W j a)), (T (fun j a => U j a + 0 * W j a)), !apply_row_field. ring.
  Qed.
  Lemma rline_ind t q : (q < np)%nat -> rs_indicator kd coords f constant (C t) w q = rs_indicator kd coords f constant (C 0) w q + t * (nth 2 (C 0) 0 / nth 0 w 0 * rds q - rdu q).
  Proof using All. intros Hq. unfold rs_indicator. rewrite (rline_gap t), (rline_u t), (rline_sigma t), (rline_scalar t 2) by (auto; lia). ring. Qed.
End Line.

(** ** C32 *)
Theorem C32_rigid_derivative :
  forall (kd : kernel_data) (junk junk' : geometry) (constant : bool) (b A : list (list R)) (C : R -> list R) (w coords : list R) (f links : nat) (qs : list nat) (U W : coeffs) (rhs jac : kernel_fn),
    generate_rigid_surface_kernel Rhs kd junk constant = Some rhs -> generate_rigid_surface_kernel Jac kd junk' constant = Some jac ->
    kd_bs kd = kd_gdim kd -> normals_known kd constant -> vector_buffers kd 0 b -> matrix_buffers kd 0 A ->
    rigid_layout kd f -> rigid_line kd coords f C U W -> 0 < nth 0 w 0 -> 0 < nth 2 (C 0) 0 ->
    (forall q, (q < num_points kd f)%nat -> rs_indicator kd coords f constant (C 0) w q <> 0) ->
    forall i n, (i < kd_ndofs kd)%nat -> (n < kd_bs kd)%nat ->
      derivable_pt_lim (fun t => added_vec kd b (rhs b (C t) w coords f links qs) 0 i n) 0
        (apply_row (kd_ndofs kd) (kd_bs kd) (added_mat kd A (jac A (C 0) w coords f links qs) 0 i n) W).
Proof.
  intros kd junk junk' constant b A C w coords f links qs U W rhs jac E_rhs E_jac. injection E_rhs as <-. injection E_jac as <-. intros Hbs HN Hb HA HL HC Hw Hh HI i n Hi Hn.
  eapply derivable_eq; [eapply derivable_ext; [intros t; exact (chg_vec kd 0 b _ 0 i n _ Hb ltac:(lia) Hi Hn (rigid_rhs_entry kd junk constant (C t) w coords f Hbs HN b links qs i n Hi Hn))|]|].
  - apply derivable_lsum. intros q Hq. apply in_seq in Hq. assert (Hq' : (q < num_points kd f)%nat) by lia.
    eapply derivable_ext; [intros t; unfold rs_gamma; rewrite (rline_ind kd coords f constant C w U W HL HC t q Hq'), (rline_test kd coords f constant C w U W HL HC t q i n),
      (rline_normal kd coords f constant C w U W HL HC t q n), (rline_sigma kd coords f constant C w U W HL HC t q Hq'), (rline_scalar kd coords f constant C w U W HL HC t 2 ltac:(lia)); reflexivity|].
    apply derivable_minus.
    + apply derivable_scal_r, derivable_scal_r. apply derivable_R_minus_affine. auto.
    + apply derivable_scal, derivable_scal_r. apply derivable_affine.
  - rewrite (apply_row_ext _ _ (added_mat _ _ _ 0 i n) _ W) by (intros j l Hj Hl; apply (chg_mat kd 0 A _ 0 i n j l _ HA ltac:(lia) Hi Hn Hj Hl (rigid_jac_entry kd junk' constant (C 0) w coords f Hbs HN A links qs i n j l Hi Hn Hj Hl))).
    rewrite apply_row_lsum. apply lsum_ext. intros q Hq. cbv beta. rewrite rigid_switch by auto.
    set (d := dR_minus _). set (T := rs_test kd coords f constant (C 0) w q). set (w0 := rs_weight kd coords f q). set (gam := rs_gamma (C 0) w). set (gami := nth 2 (C 0) 0 / nth 0 w 0).
    set (P := nth 1 w 0 * T i n - gam * (rs_normal kd constant (C 0) w q n * kd_phi kd (kd_qp_offsets kd f + q) i)).
    rewrite (apply_row_ext _ _ _ (fun j l => (d * w0 * P * gami - nth 1 w 0 * gami * w0 * T i n) * T j l + (- (d * w0 * P)) * (rs_normal kd constant (C 0) w q l * kd_phi kd (kd_qp_offsets kd f + q) j)) W) by (intros; ring).
    rewrite apply_row_comb. rewrite Hbs. fold (rdu kd f constant C w W q). unfold T. fold (rds kd coords f constant C w W q). fold T. unfold P, gam, rs_gamma, gami. ring.
Qed.
Print Assumptions C32_rigid_derivative.

(** ** C33 *)
Theorem C33_rigid_symmetric :
  forall (kd : kernel_data) (junk : geometry) (constant : bool) (A : list (list R)) (c w coords : list R) (f links : nat) (qs : list nat) (jac : kernel_fn),
    generate_rigid_surface_kernel Jac kd junk constant = Some jac ->
    kd_bs kd = kd_gdim kd -> normals_known kd constant -> matrix_buffers kd 0 A -> nth 1 w 0 = 1 -> nth 0 w 0 <> 0 -> nth 2 c 0 <> 0 ->
    let mat := added_mat kd A (jac A c w coords f links qs) 0 in
    forall i n j l, (i < kd_ndofs kd)%nat -> (n < kd_bs kd)%nat -> (j < kd_ndofs kd)%nat -> (l < kd_bs kd)%nat -> mat i n j l = mat j l i n.
Proof.
  intros kd junk constant A c w coords f links qs jac E_jac. injection E_jac as <-. intros Hbs HN HA Ht Hw Hh mat i n j l Hi Hn Hj Hl. unfold mat.
  rewrite (chg_mat kd 0 A _ 0 i n j l _ HA ltac:(lia) Hi Hn Hj Hl (rigid_jac_entry kd junk constant c w coords f Hbs HN A links qs i n j l Hi Hn Hj Hl)).
  rewrite (chg_mat kd 0 A _ 0 j l i n _ HA ltac:(lia) Hj Hl Hi Hn (rigid_jac_entry kd junk constant c w coords f Hbs HN A links qs j l i n Hj Hl Hi Hn)).
  apply lsum_ext. intros q _. rewrite Ht. unfold rs_gamma. set (d := dR_minus _). field. auto.
Qed.
Print Assumptions C33_rigid_symmetric.

(** ** C35: theta = 0 and a non-negative indicator at every point *)
Theorem C35_rigid_open :
  forall (kd : kernel_data) (junk : geometry) (constant : bool) (b A : list (list R)) (c w coords : list R) (f links : nat) (qs : list nat) (rhs jac : kernel_fn),
    generate_rigid_surface_kernel Rhs kd junk constant = Some rhs -> generate_rigid_surface_kernel Jac kd junk constant = Some jac ->
    nth 1 w 0 = 0 -> 0 < nth 0 w 0 -> 0 < nth 2 c 0 -> (forall q, (q < num_points kd f)%nat -> 0 <= rs_indicator kd coords f constant c w q) ->
    rhs b c w coords f links qs = b /\ jac A c w coords f links qs = A.
Proof.
  intros kd junk constant b A c w coords f links qs rhs jac E_rhs E_jac. injection E_rhs as <-. injection E_jac as <-. intros Ht Hw Hh HI. split.
  - unfold rigid_rhs. cbv zeta. rewrite quadrature_loop_geometry. apply for_each_id. intros q b' Hq. apply in_seq in Hq. cbv zeta.
    rewrite rigid_sign_u_eq, rigid_gap_eq, rigid_u_n_eq, Ht. fold (rs_indicator kd coords f constant c w q).
    assert (E : R_minus (rs_indicator kd coords f constant c w q) = 0) by (rewrite R_minus_min; apply Rmin_right; apply HI; lia). rewrite E. unchanged.
  - unfold rigid_jac. cbv zeta. rewrite quadrature_loop_geometry. apply for_each_id. intros q b' Hq. apply in_seq in Hq. cbv zeta.
    rewrite rigid_sign_u_eq, rigid_gap_eq, rigid_u_n_eq, Ht. fold (rs_gamma c w). rewrite rigid_switch by auto.
    assert (E : dR_minus (rs_indicator kd coords f constant c w q) = 0) by (unfold dR_minus; assert (rlt (rs_indicator kd coords f constant c w q) 0 = false) as -> by (apply rlt_false; apply Rle_ge, HI || apply HI; lia); reflexivity). rewrite E. unchanged.
Qed.
Print Assumptions C35_rigid_open.

(** ** C36: the surface only pushes *)
Theorem C36_rigid_pressure :
  forall (kd : kernel_data) (junk : geometry) (constant : bool) (b : list (list R)) (c w coords : list R) (f links : nat) (qs : list nat) (rhs : kernel_fn),
    generate_rigid_surface_kernel Rhs kd junk constant = Some rhs ->
    kd_bs kd = kd_gdim kd -> normals_known kd constant -> vector_buffers kd 0 b -> 0 < nth 0 w 0 -> 0 < nth 2 c 0 ->
    exists pressure : nat -> R,
      (forall q, 0 <= pressure q /\ (0 <= rs_indicator kd coords f constant c w q -> pressure q = 0) /\
         (rs_indicator kd coords f constant c w q < 0 -> pressure q = - (rs_gamma c w * rs_indicator kd coords f constant c w q))) /\
      forall i n, (i < kd_ndofs kd)%nat -> (n < kd_bs kd)%nat ->
        added_vec kd b (rhs b c w coords f links qs) 0 i n =
        lsum (seq 0 (num_points kd f)) (fun q =>
          pressure q * (kd_phi kd (kd_qp_offsets kd f + q) i * rs_normal kd constant c w q n) * rs_weight kd coords f q
          - nth 1 w 0 / rs_gamma c w * (pressure q + rs_sigma kd coords f constant c w q) * rs_test kd coords f constant c w q i n * rs_weight kd coords f q).
Proof.
  intros kd junk constant b c w coords f links qs rhs E_rhs. injection E_rhs as <-. intros Hbs HN Hb Hw Hh. assert (G : 0 < rs_gamma c w) by (apply Rdiv_lt_0_compat; auto).
  exists (fun q => - (rs_gamma c w * R_minus (rs_indicator kd coords f constant c w q))). split.
  - intros q. rewrite R_minus_min. set (x := rs_indicator _ _ _ _ _ _ _). unfold Rmin. destruct (Rle_dec x 0); repeat split; intros; nra.
  - intros i n Hi Hn. rewrite (chg_vec kd 0 b _ 0 i n _ Hb ltac:(lia) Hi Hn (rigid_rhs_entry kd junk constant c w coords f Hbs HN b links qs i n Hi Hn)).
    apply lsum_ext. intros q _. unfold rs_gamma. field. lra.
Qed.
Print Assumptions C36_rigid_pressure.

(** ** C68 *)
Theorem C68_rigid_kernels_local :
  forall (kd : kernel_data) (junk : geometry) (constant : bool) (k : kernel_type) (kernel : kernel_fn),
    generate_rigid_surface_kernel k kd junk constant = Some kernel -> kernel_local (fun _ => 1)%nat kernel.
Proof.
  intros kd junk constant k kernel E.
  destruct k; try discriminate E; injection E as <-; apply kernel_local_intro; intros;
    (unfold rigid_rhs, rigid_jac; cbv zeta; rewrite !quadrature_loop_geometry;
     first [ lazymatch goal with |- same_shape _ ?b => pose proof (same_shape_refl b) end; solve [kernel_shape] | solve [kernel_agree] ]).
Qed.
Print Assumptions C68_rigid_kernels_local.

(** ** C69: dependence on uninitialised memory *)
Theorem C69_rigid_determined_partial :
  forall (kd : kernel_data) (junk junk' : geometry) (constant : bool) (k : kernel_type) (kernel kernel' : kernel_fn) (bufs : list (list R)) (c w coords : list R) (f links : nat) (qs : list nat),
    kd_bs kd = kd_gdim kd -> normals_known kd constant ->
    generate_rigid_surface_kernel k kd junk constant = Some kernel -> generate_rigid_surface_kernel k kd junk' constant = Some kernel' ->
    kernel bufs c w coords f links qs = kernel' bufs c w coords f links qs.
Proof.
  intros kd junk junk' constant k kernel kernel' bufs c w coords f links qs Hbs HN E E'.
  assert (S : forall q j l, (l < kd_bs kd)%nat -> rigid_basis_sign kd constant (start_geometry kd coords f junk) (geometry_at kd coords f q) c w f q j l = rigid_basis_sign kd constant (start_geometry kd coords f junk') (geometry_at kd coords f q) c w f q j l)
    by (intros q j l Hl; rewrite Hbs in Hl; rewrite !rigid_basis_sign_eq by auto; reflexivity).
  destruct k; try discriminate E; injection E as <-; injection E' as <-; unfold rigid_rhs, rigid_jac; cbv zeta; rewrite !quadrature_loop_geometry; apply for_each_ext; intros q b' _; cbv zeta.
  - apply for_loop_ext. intros j b2 Hj. apply for_loop_ext. intros l b3 Hl. rewrite S by auto. reflexivity.
  - apply for_loop_ext. intros j b2 Hj. apply for_loop_ext. intros l b3 Hl. rewrite S by auto. apply for_loop_ext. intros i b4 Hi. apply for_loop_ext. intros n b5 Hn. rewrite (S q i n) by auto. reflexivity.
Qed.
Print Assumptions C69_rigid_determined_partial.
