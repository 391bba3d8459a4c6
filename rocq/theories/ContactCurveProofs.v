(** The kernels' point quantities: equal to the specification's, constant or
    affine along a line of displacements. *)
From Coq Require Import List Arith Lia Bool Reals Lra.
Import ListNotations.
From Verif Require Import Prelude PreludeLemmas RSum RealLemmas RayModel OpsModel AssemblyModel AssemblyProofs KernelModel KernelProofs KernelSpec
  MeshTieKernelModel ElasticityProps ContactKernelModel ContactKernelProofs ContactKernelSpec.
Local Open Scope R_scope.

(** ** Kernel quantities are the specified ones *)
Section Same.
  Context (kd : kernel_data) (coords : list R) (f : nat) (c w : list R) (q : nat) (Hbs : kd_bs kd = kd_gdim kd).
  Notation gdim := (kd_gdim kd).
  Notation geo := (geometry_at kd coords f q).

  Lemma normal_gap_eq : normal_gap kd c q = ck_gap kd c q.
  Proof. unfold normal_gap, ck_gap, along. rewrite for_loop_rsum, Rplus_0_l. reflexivity. Qed.
  Lemma sig_n_u_eq a : (a < gdim)%nat -> sig_n_u kd c geo q a = ck_traction kd coords f c q a.
  Proof. intros Ha. unfold sig_n_u. rewrite C41_displacement_traction by auto. rewrite Rplus_0_l. reflexivity. Qed.
  Lemma sign_u_eq : sign_u kd c geo q = along kd (ck_normal kd c q) (ck_traction kd coords f c q).
  Proof. unfold sign_u, along. rewrite for_loop_rsum, Rplus_0_l. apply rsum_ext. intros a Ha. now rewrite sig_n_u_eq. Qed.
  Lemma jump_un_eq : jump_un kd c q = along kd (ck_normal kd c q) (ck_jump kd c q).
  Proof.
    unfold jump_un. rewrite !for_loop_rsum, Rplus_0_l, Hbs, <- rsum_plus. apply rsum_ext. intros a Ha. unfold u_at, u_opp, n_surf, ck_jump, ck_normal. ring.
  Qed.
  Lemma indicator_eq : (jump_un kd c q - normal_gap kd c q) - gamma_of c w * sign_u kd c geo q = contact_indicator kd coords f c w q.
  Proof. rewrite jump_un_eq, normal_gap_eq, sign_u_eq. reflexivity. Qed.
  Lemma basis_sign_eq i n : (n < gdim)%nat ->
    basis_sign kd c geo f q i n = along kd (ck_normal kd c q) (traction gdim (ck_mu c) (ck_lambda c) (in_direction n (phys_grad kd coords f q i)) (g_n geo)).
  Proof.
    intros Hn. unfold basis_sign. cbv zeta. unfold n_dot. rewrite for_loop_rsum, Rplus_0_l.
    pose proof (C41_strain_route kd (g_K geo) (n_surf kd c q) (g_n geo) (nth 0 c 0) (nth 1 c 0) (kd_qp_offsets kd f + q) i n Hn) as E. cbv zeta in E. rewrite E. reflexivity.
  Qed.
  Lemma sig_n_eq i n a : (n < gdim)%nat -> (a < gdim)%nat ->
    sig_n kd c geo f q i n a = traction gdim (ck_mu c) (ck_lambda c) (in_direction n (phys_grad kd coords f q i)) (g_n geo) a.
  Proof. intros Hn Ha. unfold sig_n. rewrite C41_basis_traction by auto. reflexivity. Qed.
  (** The normal component of the basis tractions. *)
  Lemma basis_sign_sig i n : (n < gdim)%nat -> basis_sign kd c geo f q i n = rsum gdim (fun a => sig_n kd c geo f q i n a * n_surf kd c q a).
  Proof. intros Hn. rewrite basis_sign_eq by auto. unfold along. apply rsum_ext. intros a Ha. rewrite sig_n_eq by auto. reflexivity. Qed.
  Lemma sign_u_sig : sign_u kd c geo q = rsum gdim (fun a => sig_n_u kd c geo q a * n_surf kd c q a).
  Proof. unfold sign_u. rewrite for_loop_rsum. ring. Qed.
  Lemma jump_un_sig : jump_un kd c q = rsum gdim (fun a => (u_at kd c q a - u_opp kd c q a) * n_surf kd c q a).
  Proof. rewrite jump_un_eq. reflexivity. Qed.
  Lemma ndotn_sig : ndotn kd c q = rsum gdim (fun a => n_surf kd c q a * n_old kd c q a).
  Proof. unfold ndotn. rewrite for_loop_rsum. ring. Qed.
End Same.

(** ** Offsets *)
Lemma layout_offsets kd f links qs : contact_layout kd f links qs ->
  exists ml, (links <= ml)%nat /\
    offsets kd 1 = 4%nat /\ offsets kd 2 = (4 + num_points kd f * kd_gdim kd)%nat /\
    offsets kd 3 = (offsets kd 2 + num_points kd f * kd_gdim kd)%nat /\ offsets kd 4 = (offsets kd 3 + num_points kd f * kd_ndofs kd * kd_bs kd * ml)%nat /\
    (offsets kd 4 <= offsets kd 7)%nat.
Proof.
  intros (ml & Hml & E & _). exists ml. split; [auto|]. unfold offsets. rewrite E. cbn [psums psums_from nth]. repeat split; lia.
Qed.

(** ** Along a line *)
Section Line.
  Context (kd : kernel_data) (coords : list R) (f : nat) (w : list R) (C : R -> list R) (links : nat) (qs : list nat) (W : coeffs) (Wo : nat -> coeffs).
  Context (Hbs : kd_bs kd = kd_gdim kd) (HL : contact_layout kd f links qs) (H : contact_line kd coords f C links qs W Wo).
  Notation gdim := (kd_gdim kd).
  Notation nd := (kd_ndofs kd).
  Notation bs := (kd_bs kd).
  Notation off := (offsets kd).
  Notation np := (num_points kd f).
  Notation pos q := (kd_qp_offsets kd f + q)%nat.
  Notation geo q := (geometry_at kd coords f q).
  Notation c0 := (C 0).

  Lemma line_point q : In q qs -> (q < np)%nat.
  Proof using All. destruct HL as (ml & _ & _ & HQ). auto. Qed.
  Lemma line_scalar t i : (i < 4)%nat -> nth i (C t) 0 = nth i c0 0.
  Proof using All. intros Hi. destruct (layout_offsets _ _ _ _ HL) as (ml & _ & E1 & E2 & E3 & E4 & _). destruct (H t) as [S _]. apply S. left. lia. Qed.
  Lemma line_gamma t : gamma_of (C t) w = gamma_of c0 w.
  Proof using All. unfold gamma_of. now rewrite (line_scalar t 3) by lia. Qed.
  Lemma line_gamma_inv t : gamma_inv_of (C t) w = gamma_inv_of c0 w.
  Proof using All. unfold gamma_inv_of. now rewrite (line_scalar t 3) by lia. Qed.
  Lemma line_ns t q a : In q qs -> (a < gdim)%nat -> n_surf kd (C t) q a = n_surf kd c0 q a.
  Proof using All.
    intros Hq Ha. apply line_point in Hq. destruct (layout_offsets _ _ _ _ HL) as (ml & _ & E1 & E2 & E3 & E4 & _). destruct (H t) as [S _]. unfold n_surf. f_equal. apply S. left.
    assert (q * gdim + a < np * gdim)%nat by nia. lia.
  Qed.
  Lemma line_no t q a : n_old kd (C t) q a = n_old kd c0 q a.
  Proof using All. destruct (H t) as [S _]. unfold n_old. f_equal. apply S. right. lia. Qed.
  Lemma line_gap t q : In q qs -> normal_gap kd (C t) q = normal_gap kd c0 q.
  Proof using All.
    intros Hq. unfold normal_gap. rewrite !for_loop_rsum. f_equal. apply rsum_ext. intros a Ha. rewrite (line_ns t) by auto. f_equal.
    apply line_point in Hq. destruct (layout_offsets _ _ _ _ HL) as (ml & _ & E1 & E2 & E3 & E4 & _). destruct (H t) as [S _]. apply S. left.
    assert (q * gdim + a < np * gdim)%nat by nia. lia.
  Qed.
  Lemma line_test_index t q k i n : In q qs -> (k < links)%nat -> (i < nd)%nat -> (n < bs)%nat ->
    nth (test_index kd (off 3) np q k i n) (C t) 0 = nth (test_index kd (off 3) np q k i n) c0 0.
  Proof using All.
    intros Hq Hk Hi Hn. apply line_point in Hq. destruct (layout_offsets _ _ _ _ HL) as (ml & Hml & E1 & E2 & E3 & E4 & _). destruct (H t) as [S _]. apply S. left. unfold test_index. rewrite E4.
    assert (A1 : (q * bs + n < np * bs)%nat) by nia.
    assert (A2 : (i * np * bs + q * bs + n < nd * (np * bs))%nat) by (assert ((i + 1) * (np * bs) <= nd * (np * bs))%nat by (apply Nat.mul_le_mono_r; lia); nia).
    assert (A3 : ((k + 1) * (nd * (np * bs)) <= ml * (nd * (np * bs)))%nat) by (apply Nat.mul_le_mono_r; lia).
    replace (k * np * nd * bs)%nat with (k * (nd * (np * bs)))%nat by nia. replace (np * nd * bs * ml)%nat with (ml * (nd * (np * bs)))%nat by nia. nia.
  Qed.
  Lemma line_test t q k i n : In q qs -> (k < links)%nat -> (i < nd)%nat -> (n < bs)%nat -> contact_test kd f (C t) q k i n = contact_test kd f c0 q k i n.
  Proof using All. exact (line_test_index t q k i n). Qed.
  Lemma line_sig t q i n a : sig_n kd (C t) (geo q) f q i n a = sig_n kd c0 (geo q) f q i n a.
  Proof using All. unfold sig_n. now rewrite (line_scalar t 0), (line_scalar t 1) by lia. Qed.
  Lemma line_sign t q i n : In q qs -> (n < gdim)%nat -> basis_sign kd (C t) (geo q) f q i n = basis_sign kd c0 (geo q) f q i n.
  Proof using All. intros Hq Hn. rewrite !basis_sign_sig by auto. apply rsum_ext. intros a Ha. now rewrite (line_sig t), (line_ns t) by auto. Qed.
  Lemma line_ndotn t q : In q qs -> ndotn kd (C t) q = ndotn kd c0 q.
  Proof using All. intros Hq. rewrite !ndotn_sig. apply rsum_ext. intros a Ha. now rewrite (line_ns t), (line_no t) by auto. Qed.

  (** Increments. *)
  Definition du q n : R := rsum nd (fun j => kd_phi kd (pos q) j * W j n).
  Definition duo q n : R := rsum links (fun k => rsum nd (fun j => contact_test kd f c0 q k j n * Wo k j n)).
  Definition ds q a : R := apply_row nd gdim (fun j l => sig_n kd c0 (geo q) f q j l a) W.
  Definition dsn q : R := apply_row nd gdim (basis_sign kd c0 (geo q) f q) W.
  Definition djn q : R := rsum gdim (fun a => n_surf kd c0 q a * du q a) - rsum gdim (fun a => n_surf kd c0 q a * duo q a).

  Lemma line_u t q n : In q qs -> (n < gdim)%nat -> u_at kd (C t) q n = u_at kd c0 q n + t * du q n.
  Proof using All. intros Hq Hn. destruct (H t) as [_ F]. apply (ci_u _ _ _ _ _ _ _ _ _ _ F q n Hq Hn). Qed.
  Lemma line_uo t q n : In q qs -> (n < bs)%nat -> u_opp kd (C t) q n = u_opp kd c0 q n + t * duo q n.
  Proof using All. intros Hq Hn. destruct (H t) as [_ F]. apply (ci_u_opp _ _ _ _ _ _ _ _ _ _ F q n Hq Hn). Qed.
  Lemma line_sigu t q a : In q qs -> (a < gdim)%nat -> sig_n_u kd (C t) (geo q) q a = sig_n_u kd c0 (geo q) q a + t * ds q a.
  Proof using All.
    intros Hq Ha. unfold sig_n_u. rewrite !C41_displacement_traction by auto. rewrite !Rplus_0_l. rewrite (line_scalar t 0), (line_scalar t 1) by lia.
    destruct (H t) as [_ F].
    rewrite (traction_ext gdim (nth 0 c0 0) (nth 1 c0 0) (fun a0 b => nth (off 5 + q * gdim * gdim + (a0 * gdim + b)) (C t) 0)
      (fun b b' => nth (off 5 + q * gdim * gdim + (b * gdim + b')) c0 0 + t * rsum nd (fun j => phys_grad kd coords f q j b' * W j b))); [|intros b b' Hb Hb' | auto].
    - rewrite traction_plus, traction_scal by auto. f_equal. f_equal. rewrite traction_expansion by auto. unfold ds.
      apply rsum_ext. intros j Hj. apply rsum_ext. intros l Hl. rewrite sig_n_eq by auto. reflexivity.
    - apply (ci_grad _ _ _ _ _ _ _ _ _ _ F q b b' Hq Hb Hb').
  Qed.
  Lemma dsn_eq q : dsn q = rsum gdim (fun a => ds q a * n_surf kd c0 q a).
  Proof using All.
    unfold dsn, ds. rewrite (apply_row_ext nd gdim _ (fun j l => rsum gdim (fun a => n_surf kd c0 q a * sig_n kd c0 (geo q) f q j l a))).
    - rewrite (apply_row_sum nd gdim gdim (fun a j l => n_surf kd c0 q a * sig_n kd c0 (geo q) f q j l a)). apply rsum_ext. intros a _.
      rewrite (apply_row_scal nd gdim (n_surf kd c0 q a) (fun j l => sig_n kd c0 (geo q) f q j l a)). ring.
    - intros j l _ Hl. rewrite basis_sign_sig by auto. apply rsum_ext. intros; ring.
  Qed.
  Lemma line_signu t q : In q qs -> sign_u kd (C t) (geo q) q = sign_u kd c0 (geo q) q + t * dsn q.
  Proof using All.
    intros Hq. rewrite !sign_u_sig, dsn_eq, <- rsum_scal, <- rsum_plus. apply rsum_ext. intros a Ha. rewrite (line_sigu t), (line_ns t) by auto. ring.
  Qed.
  Lemma line_jump t q : In q qs -> jump_un kd (C t) q = jump_un kd c0 q + t * djn q.
  Proof using All.
    intros Hq. rewrite !jump_un_sig by auto. unfold djn. rewrite <- rsum_minus, <- rsum_scal, <- rsum_plus. apply rsum_ext. intros a Ha.
    rewrite (line_u t), (line_uo t), (line_ns t) by (try rewrite Hbs; auto). ring.
  Qed.
  Definition dind q : R := djn q - gamma_of c0 w * dsn q.
  Lemma line_ind t q : In q qs ->
    (jump_un kd (C t) q - normal_gap kd (C t) q) - gamma_of (C t) w * sign_u kd (C t) (geo q) q =
    ((jump_un kd c0 q - normal_gap kd c0 q) - gamma_of c0 w * sign_u kd c0 (geo q) q) + t * dind q.
  Proof using All. intros Hq. rewrite (line_jump t), (line_gap t), (line_signu t), (line_gamma t) by auto. unfold dind. ring. Qed.

  (** Rows applied to the increments. *)
  Lemma row_phi_ns q : rsum gdim (fun a => n_surf kd c0 q a * du q a) = apply_row nd gdim (fun j l => kd_phi kd (pos q) j * n_surf kd c0 q l) W.
  Proof using All.
    rewrite (apply_row_ext nd gdim _ (fun j l => n_surf kd c0 q l * kd_phi kd (pos q) j)) by (intros; ring).
    rewrite (apply_row_components nd gdim (n_surf kd c0 q) (fun j _ => kd_phi kd (pos q) j)). reflexivity.
  Qed.
  Lemma row_test_ns q : rsum gdim (fun a => n_surf kd c0 q a * duo q a) = rsum links (fun k => apply_row nd gdim (fun j l => contact_test kd f c0 q k j l * n_surf kd c0 q l) (Wo k)).
  Proof using All.
    unfold duo. rewrite (rsum_ext gdim _ (fun a => rsum links (fun k => n_surf kd c0 q a * rsum nd (fun j => contact_test kd f c0 q k j a * Wo k j a)))) by (intros; now rewrite <- rsum_scal).
    rewrite rsum_swap. apply rsum_ext. intros k _.
    rewrite (apply_row_ext nd gdim _ (fun j l => n_surf kd c0 q l * contact_test kd f c0 q k j l)) by (intros; ring).
    rewrite (apply_row_components nd gdim (n_surf kd c0 q) (fun j l => contact_test kd f c0 q k j l)). reflexivity.
  Qed.
End Line.
