(** Entries of the contact element vectors and matrices in closed form. *)
From Coq Require Import List Arith Lia Bool Reals Lra.
Import ListNotations.
From Verif Require Import Prelude PreludeLemmas RSum RealLemmas RayModel OpsModel AssemblyModel AssemblyProofs KernelModel KernelProofs KernelSpec MeshTieKernelModel ElasticityProps ContactKernelModel.
Local Open Scope R_scope.

Lemma for_loop_rsum_minus n f z : for_loop n (fun i acc => acc - f i) z = z - rsum n f.
Proof.
  rewrite (for_loop_ext n _ (fun i acc => acc + - f i)) by (intros; ring). rewrite for_loop_rsum.
  rewrite (rsum_opp n f). ring.
Qed.

(** Looks at the loops over dofs and components of a vector kernel. *)
Ltac at_entry i Hi n Hn :=
  eapply chg_eq; [apply (chg_loop_one _ _ _ i); [exact Hi | apply chg_refl | | intros ? ? ? ?; chg_none ] |];
  [ let b1 := fresh in intros b1; cbv beta zeta; apply (chg_loop_one _ _ _ n); [exact Hn | apply chg_refl | | intros ? ? ? ?; chg_none ];
    let b2 := fresh in intros b2; cbv beta zeta |].
(** The same for the four loops of a matrix kernel. *)
Ltac at_block j Hj l Hl i Hi b Hb :=
  eapply chg_eq; [apply (chg_loop_one _ _ _ j); [exact Hj | apply chg_refl | | intros ? ? ? ?; chg_none ] |];
  [ let b1 := fresh in intros b1; cbv beta zeta; apply (chg_loop_one _ _ _ l); [exact Hl | apply chg_refl | | intros ? ? ? ?; chg_none ];
    let b2 := fresh in intros b2; cbv beta zeta; apply (chg_loop_one _ _ _ i); [exact Hi | apply chg_refl | | intros ? ? ? ?; chg_none ];
    let b3 := fresh in intros b3; cbv beta zeta; apply (chg_loop_one _ _ _ b); [exact Hb | apply chg_refl | | intros ? ? ? ?; chg_none ];
    let b4 := fresh in intros b4; cbv beta zeta |].
(** Walks back over updates, hitting or missing. *)
Ltac chg_walk :=
  repeat first [ apply chg_refl | apply chg_acc_miss; [|left; lia] | apply chg_acc_hit ].

Section Forms.
  Context (kd : kernel_data) (junk : geometry).
  Notation gdim := (kd_gdim kd).
  Notation bs := (kd_bs kd).
  Notation nd := (kd_ndofs kd).
  Notation off := (offsets kd).
  Context (c w coords : list R) (f links : nat).
  Notation np := (num_points kd f).
  Notation pos q := (kd_qp_offsets kd f + q)%nat.
  Notation geo q := (geometry_at kd coords f q).
  Notation gam := (gamma_of c w).
  Notation gami := (gamma_inv_of c w).
  Notation theta := (nth 1 w 0).
  Notation phi q i := (kd_phi kd (pos q) i).
  Notation test q k i n := (nth (test_index kd (off 3) np q k i n) c 0).
  Notation ns q := (n_surf kd c q).
  Notation sgn_v q i n := (basis_sign kd c (geo q) f q i n).
  Notation su q := (sign_u kd c (geo q) q).
  Notation ind q := ((jump_un kd c q - normal_gap kd c q) - gam * su q).
  Notation w0 q := (weight kd f q * g_detJ (geo q)).
  Notation idx i b j l := ((b + i * bs) * nd * bs + l + j * bs)%nat.

  Lemma unbiased_rhs_cell b qs i n : (i < nd)%nat -> (n < bs)%nat ->
    chg 0 (n + i * bs) b (unbiased_rhs kd junk b c w coords f links qs)
      (lsum qs (fun q => 0.5 * gami * (R_plus (ind q) * w0 q) * (ns q n * phi q i - gam * theta * sgn_v q i n)
         - 0.5 * theta * gam * su q * sgn_v q i n * w0 q)).
  Proof.
    intros Hi Hn. unfold unbiased_rhs. rewrite quadrature_loop_geometry. apply chg_each. intros q b' _. cbv zeta.
    at_entry i Hi n Hn.
    - apply chg_loop_none; [|intros k b3 Hk; cbv zeta; chg_none]. chg_walk.
    - ring.
  Qed.
  Lemma unbiased_rhs_link b qs k i n : (k < links)%nat -> (i < nd)%nat -> (n < bs)%nat ->
    chg (k + 1) (n + i * bs) b (unbiased_rhs kd junk b c w coords f links qs)
      (lsum qs (fun q => - (0.5 * gami * (test q k i n * ns q n) * (R_plus (ind q) * w0 q)))).
  Proof.
    intros Hk Hi Hn. unfold unbiased_rhs. rewrite quadrature_loop_geometry. apply chg_each. intros q b' _. cbv zeta.
    at_entry i Hi n Hn.
    - apply (chg_loop_one _ _ links k); [exact Hk | chg_none | | intros ? ? ? ?; chg_none]. intros b3. cbv beta zeta. chg_walk.
    - ring.
  Qed.

  Lemma unbiased_jac_cell A qs i b j l : (i < nd)%nat -> (b < bs)%nat -> (j < nd)%nat -> (l < bs)%nat ->
    chg 0 (idx i b j l) A (unbiased_jac kd junk A c w coords f links qs)
      (lsum qs (fun q => 0.5 * gami * ((phi q j * ns q l - gam * sgn_v q j l) * dR_plus (ind q) * w0 q) * (ns q b * phi q i - gam * theta * sgn_v q i b)
         - 0.5 * theta * gam * (sgn_v q j l * w0 q) * sgn_v q i b)).
  Proof.
    intros Hi Hb Hj Hl. unfold unbiased_jac. rewrite quadrature_loop_geometry. apply chg_each. intros q A' _. cbv zeta.
    at_block j Hj l Hl i Hi b Hb.
    - apply chg_loop_none; [|intros k A5 Hk; cbv zeta; chg_none]. chg_walk.
    - ring.
  Qed.
  Lemma unbiased_jac_cell_link A qs k i b j l : (k < links)%nat -> (i < nd)%nat -> (b < bs)%nat -> (j < nd)%nat -> (l < bs)%nat ->
    chg (3 * k + 1) (idx i b j l) A (unbiased_jac kd junk A c w coords f links qs)
      (lsum qs (fun q => - (0.5 * gami * (test q k j l * ns q l * (w0 q * dR_plus (ind q))) * (ns q b * phi q i - gam * theta * sgn_v q i b)))).
  Proof.
    intros Hk Hi Hb Hj Hl. unfold unbiased_jac. rewrite quadrature_loop_geometry. apply chg_each. intros q A' _. cbv zeta.
    at_block j Hj l Hl i Hi b Hb.
    - apply (chg_loop_one _ _ links k); [exact Hk | chg_none | | intros ? ? ? ?; chg_none]. intros A5. cbv beta zeta. rewrite !index4_swap. chg_walk.
    - ring.
  Qed.
  Lemma unbiased_jac_link_cell A qs k i b j l : (k < links)%nat -> (i < nd)%nat -> (b < bs)%nat -> (j < nd)%nat -> (l < bs)%nat ->
    chg (3 * k + 2) (idx i b j l) A (unbiased_jac kd junk A c w coords f links qs)
      (lsum qs (fun q => - (0.5 * gami * ((phi q j * ns q l - gam * sgn_v q j l) * dR_plus (ind q) * w0 q) * (test q k i b * ns q b)))).
  Proof.
    intros Hk Hi Hb Hj Hl. unfold unbiased_jac. rewrite quadrature_loop_geometry. apply chg_each. intros q A' _. cbv zeta.
    at_block j Hj l Hl i Hi b Hb.
    - apply (chg_loop_one _ _ links k); [exact Hk | chg_none | | intros ? ? ? ?; chg_none]. intros A5. cbv beta zeta. rewrite !index4_swap. chg_walk.
    - ring.
  Qed.
  Lemma unbiased_jac_link_link A qs k i b j l : (k < links)%nat -> (i < nd)%nat -> (b < bs)%nat -> (j < nd)%nat -> (l < bs)%nat ->
    chg (3 * k + 3) (idx i b j l) A (unbiased_jac kd junk A c w coords f links qs)
      (lsum qs (fun q => 0.5 * gami * (test q k j l * ns q l * (w0 q * dR_plus (ind q))) * (test q k i b * ns q b))).
  Proof.
    intros Hk Hi Hb Hj Hl. unfold unbiased_jac. rewrite quadrature_loop_geometry. apply chg_each. intros q A' _. cbv zeta.
    at_block j Hj l Hl i Hi b Hb.
    - apply (chg_loop_one _ _ links k); [exact Hk | chg_none | | intros ? ? ? ?; chg_none]. intros A5. cbv beta zeta. rewrite !index4_swap. chg_walk.
    - ring.
  Qed.

  (** ** Friction *)
  (** Tangential traction of a basis function and of the displacement. *)
  Definition st q i n a : R := sig_n kd c (geo q) f q i n a - sgn_v q i n * ns q a.
  Definition stu q a : R := sig_n_u kd c (geo q) q a - su q * ns q a.
  (** What the multiplier is tested with: on the cell, on link [k]. *)
  Definition tv0 q i n a : R := delta n a * phi q i - ns q n * phi q i * ns q a - theta * gam * st q i n a.
  Definition tvk q k i n a : R := delta n a * test q k i n - test q k i n * ns q n * ns q a.
  (** Increment of the tangential argument for basis function (j, l) of the cell
      and of link [k]; [m] multiplies the normal component. *)
  Definition xd (m : nat -> nat -> R) q j l n : R := delta l n * phi q j - (ns q l * phi q j * m q n + gam * st q j l n).
  Definition xo (m : nat -> nat -> R) q k j l n : R := delta l n * test q k j l - test q k j l * ns q l * m q n.
  (** Transposed Jacobian of the projection applied to an increment. *)
  Definition Jt (proj : list R) (x : nat -> R) a : R := rsum bs (fun n => nth (n * bs + a) proj 0 * x n).
  Definition m_tresca q n : R := ns q n.
  Definition m_coulomb q n : R := ns q n - n_old kd c q n + ndotn kd c q * ns q n.

  Lemma Jt_split proj l x y a : (l < bs)%nat ->
    for_loop bs (fun n acc => acc - nth (n * bs + a) proj 0 * y n) (0 + nth (l * bs + a) proj 0 * x) =
    Jt proj (fun n => delta l n * x - y n) a.
  Proof.
    intros Hl. rewrite (for_loop_rsum_minus bs (fun n => nth (n * bs + a) proj 0 * y n)). unfold Jt.
    rewrite (rsum_ext bs (fun n => nth (n * bs + a) proj 0 * (delta l n * x - y n)) (fun n => (nth (n * bs + a) proj 0 * x) * delta l n - nth (n * bs + a) proj 0 * y n)) by (intros; ring).
    rewrite rsum_minus, delta_sum_r by auto. ring.
  Qed.
  Lemma Jt_ext proj x y a : (forall n, (n < bs)%nat -> x n = y n) -> Jt proj x a = Jt proj y a.
  Proof. intros H. apply rsum_ext. intros n Hn. now rewrite H. Qed.

  Lemma friction_rhs_point_cell q proj b i n : (i < nd)%nat -> (n < bs)%nat ->
    chg 0 (n + i * bs) b (friction_rhs_point kd c w f links q (geo q) proj b)
      (0.5 * gami * w0 q * rsum bs (fun a => nth a proj 0 * tv0 q i n a) - 0.5 * gam * theta * w0 q * rsum bs (fun a => stu q a * st q i n a)).
  Proof.
    intros Hi Hn. unfold friction_rhs_point. cbv zeta.
    at_entry i Hi n Hn.
    - apply chg_loop_none; [|intros k b3 Hk; cbv zeta; chg_none]. eapply chg_loop; [chg_walk|].
      intros a b3 Ha. cbv beta zeta. eapply chg_eq; [chg_walk|]. rewrite Rplus_0_l. reflexivity.
    - rewrite !Rplus_0_l. rewrite <- !rsum_scal, <- rsum_minus.
      rewrite (rsum_ext bs (fun a => 0.5 * gami * w0 q * (nth a proj 0 * tv0 q i n a) - 0.5 * gam * theta * w0 q * (stu q a * st q i n a))
        (fun a => (0.5 * gami * nth a proj 0 * phi q i * w0 q) * delta n a + (0.5 * gami * nth a proj 0 * (- (ns q n * phi q i) * ns q a - theta * gam * st q i n a) * w0 q
             - 0.5 * w0 q * gam * theta * stu q a * st q i n a))) by (intros; unfold tv0; ring).
      rewrite rsum_plus. f_equal. rewrite (delta_sum_r bs n (fun a => 0.5 * gami * nth a proj 0 * phi q i * w0 q)) by auto. reflexivity.
  Qed.
  Lemma friction_rhs_point_link q proj b k i n : (k < links)%nat -> (i < nd)%nat -> (n < bs)%nat ->
    chg (k + 1) (n + i * bs) b (friction_rhs_point kd c w f links q (geo q) proj b)
      (- (0.5 * gami * w0 q * rsum bs (fun a => nth a proj 0 * tvk q k i n a))).
  Proof.
    intros Hk Hi Hn. unfold friction_rhs_point. cbv zeta.
    at_entry i Hi n Hn.
    - apply (chg_loop_one _ _ links k); [exact Hk | chg_none | | intros ? ? ? ?; chg_none]. intros b3. cbv beta zeta.
      eapply chg_loop; [chg_walk|]. intros a b4 Ha. cbv beta zeta. eapply chg_eq; [chg_walk|]. rewrite Rplus_0_l. reflexivity.
    - rewrite !Rplus_0_l. rewrite <- rsum_scal, <- rsum_opp.
      rewrite (rsum_ext bs (fun a => - (0.5 * gami * w0 q * (nth a proj 0 * tvk q k i n a)))
        (fun a => (- (0.5 * gami * nth a proj 0 * test q k i n * w0 q)) * delta n a + 0.5 * gami * nth a proj 0 * (test q k i n * ns q n) * ns q a * w0 q)) by (intros; unfold tvk; ring).
      rewrite rsum_plus. f_equal. rewrite (delta_sum_r bs n (fun a => - (0.5 * gami * nth a proj 0 * test q k i n * w0 q))) by auto. reflexivity.
  Qed.

  Notation proj_t q := (ball_projection (Pt_u_tresca kd c w (geo q) q) (gam * nth 2 c 0)).
  Notation proj_c q := (ball_projection (Pt_u_coulomb kd c w (geo q) q) (nth 2 c 0 * Pn_u_coulomb kd c w (geo q) q)).

  Lemma tresca_rhs_cell b qs i n : (i < nd)%nat -> (n < bs)%nat ->
    chg 0 (n + i * bs) b (tresca_rhs kd junk b c w coords f links qs)
      (lsum qs (fun q => 0.5 * gami * w0 q * rsum bs (fun a => nth a (proj_t q) 0 * tv0 q i n a) - 0.5 * gam * theta * w0 q * rsum bs (fun a => stu q a * st q i n a))).
  Proof. intros Hi Hn. unfold tresca_rhs. rewrite quadrature_loop_geometry. apply chg_each. intros q b' _. cbv zeta. now apply friction_rhs_point_cell. Qed.
  Lemma tresca_rhs_link b qs k i n : (k < links)%nat -> (i < nd)%nat -> (n < bs)%nat ->
    chg (k + 1) (n + i * bs) b (tresca_rhs kd junk b c w coords f links qs)
      (lsum qs (fun q => - (0.5 * gami * w0 q * rsum bs (fun a => nth a (proj_t q) 0 * tvk q k i n a)))).
  Proof. intros Hk Hi Hn. unfold tresca_rhs. rewrite quadrature_loop_geometry. apply chg_each. intros q b' _. cbv zeta. now apply friction_rhs_point_link. Qed.
  Lemma coulomb_rhs_cell b qs i n : (i < nd)%nat -> (n < bs)%nat ->
    chg 0 (n + i * bs) b (coulomb_rhs kd junk b c w coords f links qs)
      (lsum qs (fun q => 0.5 * gami * w0 q * rsum bs (fun a => nth a (proj_c q) 0 * tv0 q i n a) - 0.5 * gam * theta * w0 q * rsum bs (fun a => stu q a * st q i n a))).
  Proof. intros Hi Hn. unfold coulomb_rhs. rewrite quadrature_loop_geometry. apply chg_each. intros q b' _. cbv zeta. now apply friction_rhs_point_cell. Qed.
  Lemma coulomb_rhs_link b qs k i n : (k < links)%nat -> (i < nd)%nat -> (n < bs)%nat ->
    chg (k + 1) (n + i * bs) b (coulomb_rhs kd junk b c w coords f links qs)
      (lsum qs (fun q => - (0.5 * gami * w0 q * rsum bs (fun a => nth a (proj_c q) 0 * tvk q k i n a)))).
  Proof. intros Hk Hi Hn. unfold coulomb_rhs. rewrite quadrature_loop_geometry. apply chg_each. intros q b' _. cbv zeta. now apply friction_rhs_point_link. Qed.

  (** Combination of the terms that test with component [b] and with all. *)
  Lemma test_sum b z (al : R) (D t : nat -> R) : (b < bs)%nat ->
    rsum bs (fun a => al * D a * t a) + al * D b * z = rsum bs (fun a => al * D a * (delta b a * z + t a)).
  Proof.
    intros Hb. rewrite (rsum_ext bs (fun a => al * D a * (delta b a * z + t a)) (fun a => al * D a * t a + al * D a * z * delta b a)) by (intros; ring).
    rewrite rsum_plus. f_equal. symmetry. apply (delta_sum_r bs b (fun a => al * D a * z)); auto.
  Qed.

  Notation Jproj_t q := (d_ball_projection (Pt_u_tresca kd c w (geo q) q) (gam * nth 2 c 0) bs).
  Definition D_tresca q j l a : R := Jt (Jproj_t q) (xd m_tresca q j l) a.
  Definition Do_tresca q k j l a : R := Jt (Jproj_t q) (xo m_tresca q k j l) a.
  Notation Jproj_c q := (d_ball_projection (Pt_u_coulomb kd c w (geo q) q) (nth 2 c 0 * Pn_u_coulomb kd c w (geo q) q) bs).
  Definition dab q : list R := d_alpha_ball_projection (Pt_u_coulomb kd c w (geo q) q) (nth 2 c 0 * Pn_u_coulomb kd c w (geo q) q) (dR_plus (ind q) * nth 2 c 0).
  Definition D_coulomb q j l a : R := Jt (Jproj_c q) (xd m_coulomb q j l) a + nth a (dab q) 0 * (phi q j * ns q l - gam * sgn_v q j l).
  Definition Do_coulomb q k j l a : R := Jt (Jproj_c q) (xo m_coulomb q k j l) a + nth a (dab q) 0 * (test q k j l * ns q l).

  (** Tresca. *)
  Lemma Pt_w_tresca q j l a : (l < bs)%nat ->
    for_loop bs (fun n acc => acc - nth (n * bs + a) (Jproj_t q) 0 * (ns q l * phi q j * ns q n + gam * (sig_n kd c (geo q) f q j l n - sgn_v q j l * ns q n))) (0 + nth (l * bs + a) (Jproj_t q) 0 * phi q j)
    = D_tresca q j l a.
  Proof. intros Hl. apply (Jt_split (Jproj_t q) l (phi q j) (fun n => ns q l * phi q j * ns q n + gam * (sig_n kd c (geo q) f q j l n - sgn_v q j l * ns q n)) a Hl). Qed.
  Lemma Pt_w_opp_tresca q k j l a : (l < bs)%nat ->
    for_loop bs (fun n acc => acc - nth (n * bs + a) (Jproj_t q) 0 * (test q k j l * ns q l) * ns q n) (0 + nth (l * bs + a) (Jproj_t q) 0 * test q k j l)
    = Do_tresca q k j l a.
  Proof.
    intros Hl. unfold Do_tresca, xo, m_tresca. rewrite <- (Jt_split (Jproj_t q) l (test q k j l) (fun n => test q k j l * ns q l * ns q n) a Hl).
    apply for_loop_ext. intros; ring.
  Qed.

  Lemma tresca_jac_cell A qs i b j l : (i < nd)%nat -> (b < bs)%nat -> (j < nd)%nat -> (l < bs)%nat ->
    chg 0 (idx i b j l) A (tresca_jac kd junk A c w coords f links qs)
      (lsum qs (fun q => 0.5 * gami * w0 q * rsum bs (fun a => D_tresca q j l a * tv0 q i b a) - 0.5 * gam * theta * w0 q * rsum bs (fun a => st q j l a * st q i b a))).
  Proof.
    intros Hi Hb Hj Hl. unfold tresca_jac. rewrite quadrature_loop_geometry. apply chg_each. intros q A' _. cbv zeta.
    at_block j Hj l Hl i Hi b Hb.
    - apply chg_loop_none; [|intros k A5 Hk; cbv zeta; chg_none]. rewrite Pt_w_tresca by auto. eapply chg_loop; [chg_walk|].
      intros a A5 Ha. cbv beta zeta. rewrite Pt_w_tresca by auto. eapply chg_eq; [chg_walk|]. rewrite Rplus_0_l. reflexivity.
    - rewrite !Rplus_0_l. rewrite <- !rsum_scal, <- rsum_minus.
      rewrite (rsum_ext bs (fun a => 0.5 * gami * w0 q * (D_tresca q j l a * tv0 q i b a) - 0.5 * gam * theta * w0 q * (st q j l a * st q i b a))
        (fun a => (0.5 * gami * D_tresca q j l a * phi q i * w0 q) * delta b a + (0.5 * gami * D_tresca q j l a * (- (ns q b * phi q i) * ns q a - theta * gam * st q i b a) * w0 q
             - 0.5 * gam * theta * w0 q * st q i b a * st q j l a))) by (intros; unfold tv0; ring).
      rewrite rsum_plus. f_equal. rewrite (delta_sum_r bs b (fun a => 0.5 * gami * D_tresca q j l a * phi q i * w0 q)) by auto. reflexivity.
  Qed.
  Lemma tresca_jac_cell_link A qs k i b j l : (k < links)%nat -> (i < nd)%nat -> (b < bs)%nat -> (j < nd)%nat -> (l < bs)%nat ->
    chg (3 * k + 1) (idx i b j l) A (tresca_jac kd junk A c w coords f links qs)
      (lsum qs (fun q => - (0.5 * gami * w0 q * rsum bs (fun a => Do_tresca q k j l a * tv0 q i b a)))).
  Proof.
    intros Hk Hi Hb Hj Hl. unfold tresca_jac. rewrite quadrature_loop_geometry. apply chg_each. intros q A' _. cbv zeta.
    at_block j Hj l Hl i Hi b Hb.
    - apply (chg_loop_one _ _ links k); [exact Hk | chg_none | | intros ? ? ? ?; chg_none]. intros A5. cbv beta zeta. rewrite !index4_swap.
      eapply chg_loop; [chg_walk|]. intros a A6 Ha. cbv beta zeta. rewrite ?index4_swap. eapply chg_eq; [chg_walk|]. rewrite Rplus_0_l, Pt_w_opp_tresca by auto. reflexivity.
    - cbv beta. rewrite Pt_w_opp_tresca by auto. rewrite !Rplus_0_l. rewrite <- rsum_scal, <- rsum_opp.
      rewrite (rsum_ext bs (fun a => - (0.5 * gami * w0 q * (Do_tresca q k j l a * tv0 q i b a)))
        (fun a => (- (0.5 * gami * Do_tresca q k j l a * phi q i * w0 q)) * delta b a + - (0.5 * gami * Do_tresca q k j l a * (- (ns q b * phi q i) * ns q a - theta * gam * st q i b a) * w0 q))) by (intros; unfold tv0; ring).
      rewrite rsum_plus. f_equal. rewrite (delta_sum_r bs b (fun a => - (0.5 * gami * Do_tresca q k j l a * phi q i * w0 q))) by auto. reflexivity.
  Qed.
  Lemma tresca_jac_link_cell A qs k i b j l : (k < links)%nat -> (i < nd)%nat -> (b < bs)%nat -> (j < nd)%nat -> (l < bs)%nat ->
    chg (3 * k + 2) (idx i b j l) A (tresca_jac kd junk A c w coords f links qs)
      (lsum qs (fun q => - (0.5 * gami * w0 q * rsum bs (fun a => D_tresca q j l a * tvk q k i b a)))).
  Proof.
    intros Hk Hi Hb Hj Hl. unfold tresca_jac. rewrite quadrature_loop_geometry. apply chg_each. intros q A' _. cbv zeta.
    at_block j Hj l Hl i Hi b Hb.
    - apply (chg_loop_one _ _ links k); [exact Hk | chg_none | | intros ? ? ? ?; chg_none]. intros A5. cbv beta zeta. rewrite !index4_swap.
      eapply chg_loop; [chg_walk|]. intros a A6 Ha. cbv beta zeta. rewrite ?index4_swap. eapply chg_eq; [chg_walk|]. rewrite Rplus_0_l, Pt_w_tresca by auto. reflexivity.
    - cbv beta. rewrite Pt_w_tresca by auto. rewrite !Rplus_0_l. rewrite <- rsum_scal, <- rsum_opp.
      rewrite (rsum_ext bs (fun a => - (0.5 * gami * w0 q * (D_tresca q j l a * tvk q k i b a)))
        (fun a => (- (0.5 * gami * D_tresca q j l a * test q k i b * w0 q)) * delta b a + 0.5 * gami * D_tresca q j l a * ns q a * (test q k i b * ns q b) * w0 q)) by (intros; unfold tvk; ring).
      rewrite rsum_plus. f_equal. rewrite (delta_sum_r bs b (fun a => - (0.5 * gami * D_tresca q j l a * test q k i b * w0 q))) by auto. reflexivity.
  Qed.
  (** The second term lacks the factor [w0]. *)
  Lemma tresca_jac_link_link A qs k i b j l : (k < links)%nat -> (i < nd)%nat -> (b < bs)%nat -> (j < nd)%nat -> (l < bs)%nat ->
    chg (3 * k + 3) (idx i b j l) A (tresca_jac kd junk A c w coords f links qs)
      (lsum qs (fun q => 0.5 * gami * w0 q * Do_tresca q k j l b * test q k i b - 0.5 * gami * (test q k i b * ns q b) * rsum bs (fun a => Do_tresca q k j l a * ns q a))).
  Proof.
    intros Hk Hi Hb Hj Hl. unfold tresca_jac. rewrite quadrature_loop_geometry. apply chg_each. intros q A' _. cbv zeta.
    at_block j Hj l Hl i Hi b Hb.
    - apply (chg_loop_one _ _ links k); [exact Hk | chg_none | | intros ? ? ? ?; chg_none]. intros A5. cbv beta zeta. rewrite !index4_swap.
      eapply chg_loop; [chg_walk|]. intros a A6 Ha. cbv beta zeta. rewrite ?index4_swap. eapply chg_eq; [chg_walk|]. rewrite Rplus_0_l, Pt_w_opp_tresca by auto. reflexivity.
    - cbv beta. rewrite Pt_w_opp_tresca by auto. rewrite !Rplus_0_l. rewrite <- rsum_scal.
      rewrite (rsum_ext bs (fun a => - (0.5 * gami * Do_tresca q k j l a * ns q a * (test q k i b * ns q b))) (fun a => - (0.5 * gami * (test q k i b * ns q b) * (Do_tresca q k j l a * ns q a)))) by (intros; ring).
      rewrite rsum_opp. ring.
  Qed.

  (** Coulomb. *)
  Lemma Pt_w_coulomb q j l a : (l < bs)%nat ->
    for_loop bs (fun n acc => acc - nth (n * bs + a) (Jproj_c q) 0 * (ns q l * phi q j * (ns q n - n_old kd c q n + ndotn kd c q * ns q n) + gam * (sig_n kd c (geo q) f q j l n - sgn_v q j l * ns q n))) (0 + nth (l * bs + a) (Jproj_c q) 0 * phi q j)
    = Jt (Jproj_c q) (xd m_coulomb q j l) a.
  Proof. intros Hl. apply (Jt_split (Jproj_c q) l (phi q j) (fun n => ns q l * phi q j * (ns q n - n_old kd c q n + ndotn kd c q * ns q n) + gam * (sig_n kd c (geo q) f q j l n - sgn_v q j l * ns q n)) a Hl). Qed.
  Lemma Pt_w_opp_coulomb q k j l a : (l < bs)%nat ->
    for_loop bs (fun n acc => acc - nth (n * bs + a) (Jproj_c q) 0 * (ns q n - n_old kd c q n + ndotn kd c q * ns q n) * (test q k j l * ns q l)) (0 + nth (l * bs + a) (Jproj_c q) 0 * test q k j l)
    = Jt (Jproj_c q) (xo m_coulomb q k j l) a.
  Proof.
    intros Hl. unfold xo, m_coulomb. rewrite <- (Jt_split (Jproj_c q) l (test q k j l) (fun n => test q k j l * ns q l * (ns q n - n_old kd c q n + ndotn kd c q * ns q n)) a Hl).
    apply for_loop_ext. intros; ring.
  Qed.

  Lemma coulomb_jac_cell A qs i b j l : (i < nd)%nat -> (b < bs)%nat -> (j < nd)%nat -> (l < bs)%nat ->
    chg 0 (idx i b j l) A (coulomb_jac kd junk A c w coords f links qs)
      (lsum qs (fun q => 0.5 * gami * w0 q * rsum bs (fun a => D_coulomb q j l a * tv0 q i b a) - 0.5 * gam * theta * w0 q * rsum bs (fun a => st q j l a * st q i b a))).
  Proof.
    intros Hi Hb Hj Hl. unfold coulomb_jac. rewrite quadrature_loop_geometry. apply chg_each. intros q A' _. cbv zeta.
    at_block j Hj l Hl i Hi b Hb.
    - apply chg_loop_none; [|intros k A5 Hk; cbv zeta; chg_none]. rewrite Pt_w_coulomb by auto. eapply chg_loop; [chg_walk|].
      intros a A5 Ha. cbv beta zeta. rewrite Pt_w_coulomb by auto. eapply chg_eq; [chg_walk|]. rewrite Rplus_0_l. reflexivity.
    - rewrite !Rplus_0_l. rewrite <- !rsum_scal, <- rsum_minus. fold (dab q).
      rewrite (rsum_ext bs (fun a => 0.5 * gami * w0 q * (D_coulomb q j l a * tv0 q i b a) - 0.5 * gam * theta * w0 q * (st q j l a * st q i b a))
        (fun a => (0.5 * gami * D_coulomb q j l a * phi q i * w0 q) * delta b a + (0.5 * gami * D_coulomb q j l a * (- (ns q b * phi q i) * ns q a - theta * gam * st q i b a) * w0 q
             - 0.5 * gam * theta * w0 q * st q i b a * st q j l a))) by (intros; unfold tv0; ring).
      rewrite (rsum_plus bs (fun a => (0.5 * gami * D_coulomb q j l a * phi q i * w0 q) * delta b a)). f_equal; [rewrite (delta_sum_r bs b (fun a => 0.5 * gami * D_coulomb q j l a * phi q i * w0 q)) by auto; unfold D_coulomb; ring|].
      apply rsum_ext. intros a Ha. unfold D_coulomb. fold (st q i b a) (st q j l a). ring.
  Qed.
  Lemma coulomb_jac_cell_link A qs k i b j l : (k < links)%nat -> (i < nd)%nat -> (b < bs)%nat -> (j < nd)%nat -> (l < bs)%nat ->
    chg (3 * k + 1) (idx i b j l) A (coulomb_jac kd junk A c w coords f links qs)
      (lsum qs (fun q => - (0.5 * gami * w0 q * rsum bs (fun a => Do_coulomb q k j l a * tv0 q i b a)))).
  Proof.
    intros Hk Hi Hb Hj Hl. unfold coulomb_jac. rewrite quadrature_loop_geometry. apply chg_each. intros q A' _. cbv zeta.
    at_block j Hj l Hl i Hi b Hb.
    - apply (chg_loop_one _ _ links k); [exact Hk | chg_none | | intros ? ? ? ?; chg_none]. intros A5. cbv beta zeta. rewrite !index4_swap.
      eapply chg_loop; [chg_walk|]. intros a A6 Ha. cbv beta zeta. rewrite ?index4_swap. eapply chg_eq; [chg_walk|]. rewrite Rplus_0_l, Pt_w_opp_coulomb by auto. reflexivity.
    - cbv beta. rewrite Pt_w_opp_coulomb by auto. rewrite !Rplus_0_l. rewrite <- rsum_scal, <- rsum_opp. fold (dab q).
      rewrite (rsum_ext bs (fun a => - (0.5 * gami * w0 q * (Do_coulomb q k j l a * tv0 q i b a)))
        (fun a => (- (0.5 * gami * Do_coulomb q k j l a * phi q i * w0 q)) * delta b a + - (0.5 * gami * Do_coulomb q k j l a * (- (ns q b * phi q i) * ns q a - theta * gam * st q i b a) * w0 q))) by (intros; unfold tv0; ring).
      rewrite (rsum_plus bs (fun a => (- (0.5 * gami * Do_coulomb q k j l a * phi q i * w0 q)) * delta b a)). f_equal; [rewrite (delta_sum_r bs b (fun a => - (0.5 * gami * Do_coulomb q k j l a * phi q i * w0 q))) by auto; unfold Do_coulomb; ring|].
      apply rsum_ext. intros a Ha. unfold Do_coulomb. fold (st q i b a). ring.
  Qed.
  Lemma coulomb_jac_link_cell A qs k i b j l : (k < links)%nat -> (i < nd)%nat -> (b < bs)%nat -> (j < nd)%nat -> (l < bs)%nat ->
    chg (3 * k + 2) (idx i b j l) A (coulomb_jac kd junk A c w coords f links qs)
      (lsum qs (fun q => - (0.5 * gami * w0 q * rsum bs (fun a => D_coulomb q j l a * tvk q k i b a)))).
  Proof.
    intros Hk Hi Hb Hj Hl. unfold coulomb_jac. rewrite quadrature_loop_geometry. apply chg_each. intros q A' _. cbv zeta.
    at_block j Hj l Hl i Hi b Hb.
    - apply (chg_loop_one _ _ links k); [exact Hk | chg_none | | intros ? ? ? ?; chg_none]. intros A5. cbv beta zeta. rewrite !index4_swap.
      eapply chg_loop; [chg_walk|]. intros a A6 Ha. cbv beta zeta. rewrite ?index4_swap. eapply chg_eq; [chg_walk|]. rewrite Rplus_0_l, Pt_w_coulomb by auto. reflexivity.
    - cbv beta. rewrite Pt_w_coulomb by auto. rewrite !Rplus_0_l. rewrite <- rsum_scal, <- rsum_opp. fold (dab q).
      rewrite (rsum_ext bs (fun a => - (0.5 * gami * w0 q * (D_coulomb q j l a * tvk q k i b a)))
        (fun a => (- (0.5 * gami * D_coulomb q j l a * test q k i b * w0 q)) * delta b a + 0.5 * gami * D_coulomb q j l a * ns q a * (test q k i b * ns q b) * w0 q)) by (intros; unfold tvk; ring).
      rewrite (rsum_plus bs (fun a => (- (0.5 * gami * D_coulomb q j l a * test q k i b * w0 q)) * delta b a)). f_equal; [rewrite (delta_sum_r bs b (fun a => - (0.5 * gami * D_coulomb q j l a * test q k i b * w0 q))) by auto; unfold D_coulomb; ring|].
      apply rsum_ext. intros a Ha. unfold D_coulomb. ring.
  Qed.
  Lemma coulomb_jac_link_link A qs k i b j l : (k < links)%nat -> (i < nd)%nat -> (b < bs)%nat -> (j < nd)%nat -> (l < bs)%nat ->
    chg (3 * k + 3) (idx i b j l) A (coulomb_jac kd junk A c w coords f links qs)
      (lsum qs (fun q => 0.5 * gami * w0 q * Do_coulomb q k j l b * test q k i b - 0.5 * gami * (test q k i b * ns q b) * rsum bs (fun a => Do_coulomb q k j l a * ns q a))).
  Proof.
    intros Hk Hi Hb Hj Hl. unfold coulomb_jac. rewrite quadrature_loop_geometry. apply chg_each. intros q A' _. cbv zeta.
    at_block j Hj l Hl i Hi b Hb.
    - apply (chg_loop_one _ _ links k); [exact Hk | chg_none | | intros ? ? ? ?; chg_none]. intros A5. cbv beta zeta. rewrite !index4_swap.
      eapply chg_loop; [chg_walk|]. intros a A6 Ha. cbv beta zeta. rewrite ?index4_swap. eapply chg_eq; [chg_walk|]. rewrite Rplus_0_l, Pt_w_opp_coulomb by auto. reflexivity.
    - cbv beta. rewrite Pt_w_opp_coulomb by auto. rewrite !Rplus_0_l. fold (dab q). rewrite <- rsum_scal.
      rewrite (rsum_ext bs (fun a => 0.5 * gami * (test q k i b * ns q b) * (Do_coulomb q k j l a * ns q a)) (fun a => - (- (0.5 * gami * Jt (Jproj_c q) (xo m_coulomb q k j l) a * ns q a * (test q k i b * ns q b)) + - (0.5 * gami * nth a (dab q) 0 * (test q k j l * ns q l) * ns q a * (test q k i b * ns q b))))) by (intros; unfold Do_coulomb; ring).
      rewrite rsum_opp. unfold Do_coulomb. ring.
  Qed.
End Forms.
