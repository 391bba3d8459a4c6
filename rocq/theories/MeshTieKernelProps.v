(** Mesh tie kernels for elasticity: consistency (C30), symmetry (C33), balance
    of forces (C34), buffers (C19-C21). *)
From Coq Require Import List Arith Lia Bool Reals Lra.
Import ListNotations.
From Verif Require Import Prelude PreludeLemmas RSum RealLemmas RayModel AssemblyModel AssemblyProofs KernelModel KernelProofs KernelSpec MeshTieKernelModel ElasticityProps MeshTieKernelProofs.
Local Open Scope R_scope.

(** ** Specification: the fields behind a coefficient row *)
(** Value and gradient, at point [q], of basis function [i] of linked cell [k], as
    stored in the row. *)
Definition tie_test (kd : kernel_data) (f : nat) (c : list R) (q k i n : nat) : R :=
  nth (offsets kd 1 + k * num_points kd f * kd_ndofs kd * kd_bs kd + i * num_points kd f * kd_bs kd + q * kd_bs kd + n)%nat c 0.
Definition tie_test_grad (kd : kernel_data) (f : nat) (c : list R) (q k i b : nat) : R :=
  nth (offsets kd 2 + (k * num_points kd f * kd_ndofs kd * kd_gdim kd + i * num_points kd f * kd_gdim kd + q * kd_gdim kd + b))%nat c 0.

(** Each quadrature point lies in at most one linked cell. *)
Definition one_link (kd : kernel_data) (f : nat) (c : list R) (links : nat) (qs : list nat) : Prop :=
  forall q, In q qs -> exists k0, forall k i, (k < links)%nat -> k <> k0 -> (i < kd_ndofs kd)%nat ->
    (forall n, (n < kd_bs kd)%nat -> tie_test kd f c q k i n = 0) /\ (forall b, (b < kd_gdim kd)%nat -> tie_test_grad kd f c q k i b = 0).

(** The state blocks of the row are the values and gradients of the displacement
    with coefficients [U] on the cell and [Uo k] on linked cell [k]. *)
Record tie_fields (kd : kernel_data) (coords : list R) (f : nat) (c : list R) (links : nat) (qs : list nat) (U : coeffs) (Uo : nat -> coeffs) : Prop := {
  tf_u : forall q n, In q qs -> (n < kd_bs kd)%nat ->
    nth (offsets kd 3 + q * kd_bs kd + n)%nat c 0 = rsum (kd_ndofs kd) (fun j => kd_phi kd (kd_qp_offsets kd f + q) j * U j n);
  tf_grad : forall q a b, In q qs -> (a < kd_gdim kd)%nat -> (b < kd_gdim kd)%nat ->
    nth (offsets kd 4 + q * kd_gdim kd * kd_gdim kd + (a * kd_gdim kd + b))%nat c 0 = rsum (kd_ndofs kd) (fun j => phys_grad kd coords f q j b * U j a);
  tf_u_opp : forall q n, In q qs -> (n < kd_bs kd)%nat ->
    nth (offsets kd 5 + q * kd_bs kd + n)%nat c 0 = rsum links (fun k => rsum (kd_ndofs kd) (fun j => tie_test kd f c q k j n * Uo k j n));
  tf_grad_opp : forall q a b, In q qs -> (a < kd_gdim kd)%nat -> (b < kd_gdim kd)%nat ->
    nth (offsets kd 6 + q * kd_gdim kd * kd_gdim kd + (a * kd_gdim kd + b))%nat c 0 =
    rsum links (fun k => rsum (kd_ndofs kd) (fun j => tie_test_grad kd f c q k j b * Uo k j a)) }.

(** ** One row of a block *)
Lemma block_row nd bs n (al be : R) (g S : nat -> nat -> R) (s : nat -> R) U : (n < bs)%nat ->
  apply_row nd bs (fun j l => (if (n =? l)%nat then al * g j l else 0) + (be * S j l + s l * g j l)) U =
  al * rsum nd (fun j => g j n * U j n) + be * apply_row nd bs S U + rsum bs (fun l => s l * rsum nd (fun j => g j l * U j l)).
Proof.
  intros Hn. rewrite (apply_row_plus nd bs (fun j l => if (n =? l)%nat then al * g j l else 0)), (apply_row_plus nd bs (fun j l => be * S j l)).
  rewrite (apply_row_component nd bs n (fun j l => al * g j l)) by auto. rewrite apply_row_scal, apply_row_components.
  rewrite (rsum_ext nd _ (fun j => al * (g j n * U j n))) by (intros; ringh). rewrite rsum_scal. ringh.
Qed.

Section Point.
  Context (kd : kernel_data) (coords : list R) (f : nat) (c w : list R) (links : nat) (qs : list nat) (U : coeffs) (Uo : nat -> coeffs).
  Context (Hbs : kd_bs kd = kd_gdim kd) (F : tie_fields kd coords f c links qs U Uo).
  Notation gdim := (kd_gdim kd).
  Notation nd := (kd_ndofs kd).
  Notation bs := (kd_bs kd).
  Notation off := (offsets kd).
  Notation np := (num_points kd f).
  Notation geo q := (geometry_at kd coords f q).
  Notation mu := (nth 0 c 0).
  Notation lmbda := (nth 1 c 0).
  Notation sig q i j l := (sigma_n_basis kd (g_K (geo q)) (g_n (geo q)) mu lmbda (kd_qp_offsets kd f + q) i j l).
  Notation sigo q k i j l := (sigma_n_opp gdim nd np (fun x => nth (off 2 + x)%nat c 0) (g_n (geo q)) mu lmbda q k i j l).
  Notation sigu q := (sigma_n_u gdim (fun x => nth (off 6 + q * gdim * gdim + x)%nat c 0) (g_n (geo q)) mu lmbda
      (sigma_n_u gdim (fun x => nth (off 4 + q * gdim * gdim + x)%nat c 0) (g_n (geo q)) mu lmbda (fun _ => 0))).

  Lemma sigu_fields q n : In q qs -> (n < gdim)%nat ->
    sigu q n = apply_row nd gdim (fun j l => sig q j l n) U + rsum links (fun k => apply_row nd gdim (fun j l => sigo q k j l n) (Uo k)).
  Proof.
    intros Hq Hn. rewrite !C41_displacement_traction by auto. rewrite Rplus_0_l. f_equal.
    - rewrite (traction_ext gdim mu lmbda _ (fun a b => rsum nd (fun j => phys_grad kd coords f q j b * U j a))) by (first [exact Hn | intros; apply (tf_grad _ _ _ _ _ _ _ _ F); auto]).
      rewrite traction_expansion by auto. apply rsum_ext. intros j Hj. apply rsum_ext. intros l Hl. rewrite C41_basis_traction by auto. reflexivity.
    - rewrite (traction_ext gdim mu lmbda _ (fun a b => rsum links (fun k => rsum nd (fun j => tie_test_grad kd f c q k j b * Uo k j a)))) by (first [exact Hn | intros; apply (tf_grad_opp _ _ _ _ _ _ _ _ F); auto]).
      rewrite (traction_sum gdim mu lmbda links (fun k a b => rsum nd (fun j => tie_test_grad kd f c q k j b * Uo k j a))) by auto. apply rsum_ext. intros k Hk.
      rewrite traction_expansion by auto. apply rsum_ext. intros j Hj. apply rsum_ext. intros l Hl. rewrite C41_opposite_traction by auto. reflexivity.
  Qed.
End Point.

(** ** C30 *)
Theorem C30_meshtie_consistent :
  forall (kd : kernel_data) (junk junk' : geometry) (b A : list (list R)) (c w coords : list R) (f links : nat) (qs : list nat) (U : coeffs) (Uo : nat -> coeffs) (rhs jac : kernel_fn),
    generate_meshtie_kernel MeshTieRhs kd junk = Some rhs -> generate_meshtie_kernel MeshTieJac kd junk' = Some jac ->
    kd_bs kd = kd_gdim kd -> vector_buffers kd links b -> matrix_buffers kd links A ->
    tie_fields kd coords f c links qs U Uo -> one_link kd f c links qs ->
    let nd := kd_ndofs kd in
    let bs := kd_bs kd in
    let vec := added_vec kd b (rhs b c w coords f links qs) in
    let mat := added_mat kd A (jac A c w coords f links qs) in
    forall i n, (i < nd)%nat -> (n < bs)%nat ->
      vec 0%nat i n = apply_row nd bs (mat 0%nat i n) U + rsum links (fun k => apply_row nd bs (mat (3 * k + 1)%nat i n) (Uo k)) /\
      forall k, (k < links)%nat -> vec (k + 1)%nat i n = apply_row nd bs (mat (3 * k + 2)%nat i n) U + apply_row nd bs (mat (3 * k + 3)%nat i n) (Uo k).
Proof.
  intros kd junk junk' b A c w coords f links qs U Uo rhs jac E_rhs E_jac. injection E_rhs as <-. injection E_jac as <-. intros Hbs Hb HA F HL nd bs vec mat i n Hi Hn. subst nd bs.
  assert (Hn' : (n < kd_gdim kd)%nat) by (rewrite <- Hbs; auto).
  split.
  - unfold vec. rewrite (chg_vec kd links b _ 0 i n _ Hb ltac:(lia) Hi Hn (meshtie_rhs_cell kd junk c w coords f links b qs i n Hi Hn)).
    rewrite (apply_row_ext _ _ (mat 0%nat i n) _ U) by (intros j l Hj Hl; apply (chg_mat kd links A _ 0 i n j l _ HA ltac:(lia) Hi Hn Hj Hl (meshtie_jac_cell kd junk' c w coords f links A qs i n j l Hi Hn Hj Hl))).
    rewrite apply_row_lsum.
    rewrite (rsum_ext links _ (fun k => apply_row (kd_ndofs kd) (kd_bs kd) _ (Uo k))) by
      (intros k Hk; apply apply_row_ext; intros j l Hj Hl; apply (chg_mat kd links A _ (3 * k + 1) i n j l _ HA ltac:(lia) Hi Hn Hj Hl (meshtie_jac_cell_link kd junk' c w coords f links A qs k i n j l Hk Hi Hn Hj Hl))).
    rewrite (rsum_ext links _ (fun k => lsum qs _)) by (intros k Hk; apply apply_row_lsum).
    rewrite <- lsum_rsum, <- lsum_plus. apply lsum_ext. intros q Hq. cbv beta.
    set (w0 := 0.5 * weight kd f q * g_detJ (geometry_at kd coords f q)). set (gam := nth 0 w 0 / nth 2 c 0). set (theta := nth 1 w 0).
    set (sg := sigma_n_basis kd (g_K (geometry_at kd coords f q)) (g_n (geometry_at kd coords f q)) (nth 0 c 0) (nth 1 c 0) (kd_qp_offsets kd f + q)).
    set (so := sigma_n_opp (kd_gdim kd) (kd_ndofs kd) (num_points kd f) (fun x => nth (offsets kd 2 + x)%nat c 0) (g_n (geometry_at kd coords f q)) (nth 0 c 0) (nth 1 c 0) q).
    set (ph := kd_phi kd (kd_qp_offsets kd f + q)).
    rewrite (apply_row_ext _ _ _ (fun j l => (if (n =? l)%nat then (gam * ph i * w0) * ph j else 0) + ((- 0.5 * ph i * w0) * sg j l n + (- 0.5 * theta * sg i n l * w0) * ph j)))
      by (intros j l _ _; destruct (n =? l)%nat; ringh).
    rewrite (block_row (kd_ndofs kd) (kd_bs kd) n (gam * ph i * w0) (- 0.5 * ph i * w0) (fun j _ => ph j) (fun j l => sg j l n) (fun l => - 0.5 * theta * sg i n l * w0)) by auto.
    rewrite (rsum_ext links _ (fun k => (- gam * ph i * w0) * rsum (kd_ndofs kd) (fun j => tie_test kd f c q k j n * Uo k j n) + (- 0.5 * ph i * w0) * apply_row (kd_ndofs kd) (kd_bs kd) (fun j l => so k j l n) (Uo k)
        + rsum (kd_bs kd) (fun l => (0.5 * theta * sg i n l * w0) * rsum (kd_ndofs kd) (fun j => tie_test kd f c q k j l * Uo k j l)))).
    2:{ intros k Hk.
        rewrite <- (block_row (kd_ndofs kd) (kd_bs kd) n (- gam * ph i * w0) (- 0.5 * ph i * w0) (fun j l => tie_test kd f c q k j l) (fun j l => so k j l n) (fun l => 0.5 * theta * sg i n l * w0)) by auto.
        apply apply_row_ext. intros j l _ _. unfold tie_test. fold (test_index kd (offsets kd 1) (num_points kd f) q k j l). destruct (n =? l)%nat; ringh. }
    rewrite !rsum_plus, !rsum_scal. rewrite (rsum_swap links (kd_bs kd)).
    rewrite (rsum_ext (kd_bs kd) (fun j => rsum links _) (fun l => 0.5 * theta * sg i n l * w0 * rsum links (fun k => rsum (kd_ndofs kd) (fun j => tie_test kd f c q k j l * Uo k j l)))) by (intros l _; rewrite <- rsum_scal; reflexivity).
    rewrite (sigu_fields kd coords f c links qs U Uo F q n Hq Hn').
    rewrite (tf_u _ _ _ _ _ _ _ _ F q n Hq Hn), (tf_u_opp _ _ _ _ _ _ _ _ F q n Hq Hn).
    rewrite (rsum_ext (kd_gdim kd) (fun a => _) (fun l => - 0.5 * theta * sg i n l * w0 * rsum (kd_ndofs kd) (fun j => ph j * U j l) + 0.5 * theta * sg i n l * w0 * rsum links (fun k => rsum (kd_ndofs kd) (fun j => tie_test kd f c q k j l * Uo k j l)))).
    2:{ intros l Hl. rewrite <- Hbs in Hl. rewrite (tf_u _ _ _ _ _ _ _ _ F q l Hq Hl), (tf_u_opp _ _ _ _ _ _ _ _ F q l Hq Hl). fold ph. unfold sg. ringh. }
    rewrite rsum_plus. rewrite Hbs. fold ph sg so. ringh.
  - intros k Hk. unfold vec. rewrite (chg_vec kd links b _ (k + 1) i n _ Hb ltac:(lia) Hi Hn (meshtie_rhs_link kd junk c w coords f links b qs k i n Hk Hi Hn)).
    rewrite (apply_row_ext _ _ (mat (3 * k + 2)%nat i n) _ U) by (intros j l Hj Hl; apply (chg_mat kd links A _ (3 * k + 2) i n j l _ HA ltac:(lia) Hi Hn Hj Hl (meshtie_jac_link_cell kd junk' c w coords f links A qs k i n j l Hk Hi Hn Hj Hl))).
    rewrite (apply_row_ext _ _ (mat (3 * k + 3)%nat i n) _ (Uo k)) by (intros j l Hj Hl; apply (chg_mat kd links A _ (3 * k + 3) i n j l _ HA ltac:(lia) Hi Hn Hj Hl (meshtie_jac_link_link kd junk' c w coords f links A qs k i n j l Hk Hi Hn Hj Hl))).
    rewrite !apply_row_lsum, <- lsum_plus. apply lsum_ext. intros q Hq. cbv beta.
    set (w0 := 0.5 * weight kd f q * g_detJ (geometry_at kd coords f q)). set (gam := nth 0 w 0 / nth 2 c 0). set (theta := nth 1 w 0).
    set (sg := sigma_n_basis kd (g_K (geometry_at kd coords f q)) (g_n (geometry_at kd coords f q)) (nth 0 c 0) (nth 1 c 0) (kd_qp_offsets kd f + q)).
    set (so := sigma_n_opp (kd_gdim kd) (kd_ndofs kd) (num_points kd f) (fun x => nth (offsets kd 2 + x)%nat c 0) (g_n (geometry_at kd coords f q)) (nth 0 c 0) (nth 1 c 0) q).
    set (ph := kd_phi kd (kd_qp_offsets kd f + q)).
    destruct (HL q Hq) as [k0 H0]. destruct (Nat.eq_dec k k0) as [<-|Ne].
    + rewrite (apply_row_ext _ _ _ (fun j l => (if (n =? l)%nat then (- gam * tie_test kd f c q k i n * w0) * ph j else 0) + ((0.5 * tie_test kd f c q k i n * w0) * sg j l n + (- 0.5 * theta * so k i n l * w0) * ph j)) U)
        by (intros j l _ _; unfold tie_test; fold (test_index kd (offsets kd 1) (num_points kd f) q k i n); destruct (Nat.eqb_spec n l) as [->|]; ringh).
      rewrite (apply_row_ext _ _ _ (fun j l => (if (n =? l)%nat then (gam * tie_test kd f c q k i n * w0) * tie_test kd f c q k j l else 0) + ((0.5 * tie_test kd f c q k i n * w0) * so k j l n + (0.5 * theta * so k i n l * w0) * tie_test kd f c q k j l)) (Uo k))
        by (intros j l _ _; unfold tie_test; fold (test_index kd (offsets kd 1) (num_points kd f) q k i n); fold (test_index kd (offsets kd 1) (num_points kd f) q k j l); destruct (Nat.eqb_spec n l) as [->|]; ringh).
      rewrite (block_row (kd_ndofs kd) (kd_bs kd) n _ _ (fun j _ => ph j) (fun j l => sg j l n) (fun l => - 0.5 * theta * so k i n l * w0)) by auto.
      rewrite (block_row (kd_ndofs kd) (kd_bs kd) n _ _ (fun j l => tie_test kd f c q k j l) (fun j l => so k j l n) (fun l => 0.5 * theta * so k i n l * w0)) by auto.
      assert (Zt : forall l, (l < kd_bs kd)%nat -> rsum links (fun k' => rsum (kd_ndofs kd) (fun j => tie_test kd f c q k' j l * Uo k' j l)) = rsum (kd_ndofs kd) (fun j => tie_test kd f c q k j l * Uo k j l)).
      { intros l Hl. apply (rsum_single links k); auto. intros k' Hk' N. apply rsum_zero. intros j Hj. destruct (H0 k' j Hk' N Hj) as [Z _]. rewrite Z by auto. ringh. }
      assert (Zs : rsum links (fun k' => apply_row (kd_ndofs kd) (kd_gdim kd) (fun j l => so k' j l n) (Uo k')) = apply_row (kd_ndofs kd) (kd_gdim kd) (fun j l => so k j l n) (Uo k)).
      { apply (rsum_single links k); auto. intros k' Hk' N. apply rsum_zero. intros j Hj. apply rsum_zero. intros l Hl. unfold so. rewrite C41_opposite_traction by auto.
        destruct (H0 k' j Hk' N Hj) as [_ Z]. rewrite (traction_ext _ _ _ _ (fun _ _ => 0)); [rewrite traction_zero by auto; ringh | | auto].
        intros a d _ Hd. unfold in_direction. destruct (a =? l)%nat; [|reflexivity]. apply (Z d Hd). }
      rewrite (sigu_fields kd coords f c links qs U Uo F q n Hq Hn'). fold so sg. rewrite Zs.
      rewrite (tf_u _ _ _ _ _ _ _ _ F q n Hq Hn), (tf_u_opp _ _ _ _ _ _ _ _ F q n Hq Hn), (Zt n Hn).
      rewrite (rsum_ext (kd_gdim kd) (fun a => _) (fun l => - 0.5 * theta * so k i n l * w0 * rsum (kd_ndofs kd) (fun j => ph j * U j l) + 0.5 * theta * so k i n l * w0 * rsum (kd_ndofs kd) (fun j => tie_test kd f c q k j l * Uo k j l))).
      2:{ intros l Hl. rewrite <- Hbs in Hl. rewrite (tf_u _ _ _ _ _ _ _ _ F q l Hq Hl), (tf_u_opp _ _ _ _ _ _ _ _ F q l Hq Hl), (Zt l Hl). fold ph. unfold so. ringh. }
      rewrite rsum_plus. rewrite Hbs. fold ph. change (nth (test_index kd (offsets kd 1) (num_points kd f) q k i n) c 0) with (tie_test kd f c q k i n). ringh.
    + assert (Zt : forall j l, (j < kd_ndofs kd)%nat -> (l < kd_bs kd)%nat -> nth (test_index kd (offsets kd 1) (num_points kd f) q k j l) c 0 = 0).
      { intros j l Hj Hl. destruct (H0 k j Hk Ne Hj) as [Z _]. apply (Z l Hl). }
      assert (Zs : forall j a l, (j < kd_ndofs kd)%nat -> (a < kd_gdim kd)%nat -> (l < kd_gdim kd)%nat -> so k j a l = 0).
      { intros j a l Hj Ha Hl. unfold so. rewrite C41_opposite_traction by auto. destruct (H0 k j Hk Ne Hj) as [_ Z].
        rewrite (traction_ext _ _ _ _ (fun _ _ => 0)); [now rewrite traction_zero by auto | | auto].
        intros a' d _ Hd. unfold in_direction. destruct (a' =? a)%nat; [|reflexivity]. apply (Z d Hd). }
      rewrite (Zt i n Hi Hn). rewrite (rsum_zero (kd_gdim kd)) by (intros a Ha; fold so; rewrite (Zs i n a) by auto; ringh).
      rewrite (apply_row_ext _ _ _ (fun _ _ => 0) U) by (intros j l Hj Hl; rewrite (Zt i l), (Zs i n l) by (try rewrite <- Hbs; auto); destruct (n =? l)%nat; ringh).
      rewrite (apply_row_ext _ _ _ (fun _ _ => 0) (Uo k)) by (intros j l Hj Hl; rewrite (Zt j l), (Zs i n l), (Zt i l), (Zs j l n) by (try rewrite <- Hbs; auto); destruct (n =? l)%nat; ringh).
      rewrite !apply_row_zero. ringh.
Qed.
Print Assumptions C30_meshtie_consistent.

(** ** C33: symmetric variant *)
Theorem C33_meshtie_symmetric :
  forall (kd : kernel_data) (junk : geometry) (A : list (list R)) (c w coords : list R) (f links : nat) (qs : list nat) (jac : kernel_fn),
    generate_meshtie_kernel MeshTieJac kd junk = Some jac ->
    matrix_buffers kd links A -> nth 1 w 0 = 1 ->
    let mat := added_mat kd A (jac A c w coords f links qs) in
    forall i n j l, (i < kd_ndofs kd)%nat -> (n < kd_bs kd)%nat -> (j < kd_ndofs kd)%nat -> (l < kd_bs kd)%nat ->
      mat 0%nat i n j l = mat 0%nat j l i n /\
      forall k, (k < links)%nat -> mat (3 * k + 1)%nat i n j l = mat (3 * k + 2)%nat j l i n /\ mat (3 * k + 3)%nat i n j l = mat (3 * k + 3)%nat j l i n.
Proof.
  intros kd junk A c w coords f links qs jac E_jac. injection E_jac as <-. intros HA Ht mat i n j l Hi Hn Hj Hl. unfold mat. split.
  - rewrite (chg_mat kd links A _ 0 i n j l _ HA ltac:(lia) Hi Hn Hj Hl (meshtie_jac_cell kd junk c w coords f links A qs i n j l Hi Hn Hj Hl)).
    rewrite (chg_mat kd links A _ 0 j l i n _ HA ltac:(lia) Hj Hl Hi Hn (meshtie_jac_cell kd junk c w coords f links A qs j l i n Hj Hl Hi Hn)).
    apply lsum_ext. intros q _. rewrite (Nat.eqb_sym l n), Ht. destruct (Nat.eqb_spec n l) as [->|]; ringh.
  - intros k Hk. split.
    + rewrite (chg_mat kd links A _ (3 * k + 1) i n j l _ HA ltac:(lia) Hi Hn Hj Hl (meshtie_jac_cell_link kd junk c w coords f links A qs k i n j l Hk Hi Hn Hj Hl)).
      rewrite (chg_mat kd links A _ (3 * k + 2) j l i n _ HA ltac:(lia) Hj Hl Hi Hn (meshtie_jac_link_cell kd junk c w coords f links A qs k j l i n Hk Hj Hl Hi Hn)).
      apply lsum_ext. intros q _. rewrite (Nat.eqb_sym l n), Ht. destruct (Nat.eqb_spec n l) as [->|]; ringh.
    + rewrite (chg_mat kd links A _ (3 * k + 3) i n j l _ HA ltac:(lia) Hi Hn Hj Hl (meshtie_jac_link_link kd junk c w coords f links A qs k i n j l Hk Hi Hn Hj Hl)).
      rewrite (chg_mat kd links A _ (3 * k + 3) j l i n _ HA ltac:(lia) Hj Hl Hi Hn (meshtie_jac_link_link kd junk c w coords f links A qs k j l i n Hk Hj Hl Hi Hn)).
      apply lsum_ext. intros q _. rewrite (Nat.eqb_sym l n), Ht. destruct (Nat.eqb_spec n l) as [->|]; ringh.
Qed.
Print Assumptions C33_meshtie_symmetric.

(** ** C34: action equals reaction *)
(** At the points [qs] the basis functions of the cell and of the linked cells
    sum to one and their gradients to zero. *)
Record tie_partition (kd : kernel_data) (coords : list R) (f : nat) (c : list R) (links : nat) (qs : list nat) : Prop := {
  tp_phi : forall q, In q qs -> rsum (kd_ndofs kd) (fun i => kd_phi kd (kd_qp_offsets kd f + q) i) = 1;
  tp_grad : forall q b, In q qs -> (b < kd_gdim kd)%nat -> rsum (kd_ndofs kd) (fun i => phys_grad kd coords f q i b) = 0;
  tp_test : forall q n, In q qs -> (n < kd_bs kd)%nat -> rsum links (fun k => rsum (kd_ndofs kd) (fun i => tie_test kd f c q k i n)) = 1;
  tp_test_grad : forall q b, In q qs -> (b < kd_gdim kd)%nat -> rsum links (fun k => rsum (kd_ndofs kd) (fun i => tie_test_grad kd f c q k i b)) = 0 }.

Lemma traction_direction_sum dim mu lmbda m (d : nat -> nat -> R) n j a : (a < dim)%nat ->
  (forall b, (b < dim)%nat -> rsum m (fun i => d i b) = 0) -> rsum m (fun i => traction dim mu lmbda (in_direction j (d i)) n a) = 0.
Proof.
  intros Ha H. rewrite <- (traction_sum dim mu lmbda m (fun i => in_direction j (d i))) by auto.
  rewrite (traction_ext dim mu lmbda _ (fun _ _ => 0)); [now apply traction_zero | | auto].
  intros b b' _ Hb. unfold in_direction. destruct (b =? j)%nat; [auto | apply rsum_0].
Qed.
Lemma traction_direction_sum2 dim mu lmbda m m' (d : nat -> nat -> nat -> R) n j a : (a < dim)%nat ->
  (forall b, (b < dim)%nat -> rsum m (fun k => rsum m' (fun i => d k i b)) = 0) ->
  rsum m (fun k => rsum m' (fun i => traction dim mu lmbda (in_direction j (d k i)) n a)) = 0.
Proof.
  intros Ha H.
  rewrite (rsum_ext m _ (fun k => traction dim mu lmbda (fun b b' => rsum m' (fun i => in_direction j (d k i) b b')) n a)) by (intros k _; now rewrite <- traction_sum).
  rewrite <- (traction_sum dim mu lmbda m (fun k b b' => rsum m' (fun i => in_direction j (d k i) b b'))) by auto.
  rewrite (traction_ext dim mu lmbda _ (fun _ _ => 0)); [now apply traction_zero | | auto].
  intros b b' _ Hb. unfold in_direction. destruct (b =? j)%nat; [auto | apply rsum_zero; intros; apply rsum_0].
Qed.

Theorem C34_meshtie_balance :
  forall (kd : kernel_data) (junk : geometry) (b : list (list R)) (c w coords : list R) (f links : nat) (qs : list nat) (rhs : kernel_fn),
    generate_meshtie_kernel MeshTieRhs kd junk = Some rhs ->
    kd_bs kd = kd_gdim kd -> vector_buffers kd links b -> tie_partition kd coords f c links qs ->
    let vec := added_vec kd b (rhs b c w coords f links qs) in
    forall n, (n < kd_bs kd)%nat ->
      rsum (kd_ndofs kd) (fun i => vec 0%nat i n) + rsum links (fun k => rsum (kd_ndofs kd) (fun i => vec (k + 1)%nat i n)) = 0.
Proof.
  intros kd junk b c w coords f links qs rhs E_rhs. injection E_rhs as <-. intros Hbs Hb P vec n Hn. unfold vec.
  assert (Hn' : (n < kd_gdim kd)%nat) by (rewrite <- Hbs; auto).
  rewrite (rsum_ext (kd_ndofs kd) _ (fun i => lsum qs _)) by
    (intros i Hi; apply (chg_vec kd links b _ 0 i n _ Hb ltac:(lia) Hi Hn (meshtie_rhs_cell kd junk c w coords f links b qs i n Hi Hn))).
  rewrite (rsum_ext links _ (fun k => rsum (kd_ndofs kd) (fun i => lsum qs _))) by
    (intros k Hk; apply rsum_ext; intros i Hi; apply (chg_vec kd links b _ (k + 1) i n _ Hb ltac:(lia) Hi Hn (meshtie_rhs_link kd junk c w coords f links b qs k i n Hk Hi Hn))).
  rewrite <- lsum_rsum.
  rewrite (rsum_ext links _ (fun k => lsum qs (fun q => rsum (kd_ndofs kd) (fun i => _)))) by (intros k _; now rewrite <- lsum_rsum).
  rewrite <- lsum_rsum, <- lsum_plus. apply lsum_zero. intros q Hq.
  set (w0 := 0.5 * weight kd f q * g_detJ (geometry_at kd coords f q)). set (gam := nth 0 w 0 / nth 2 c 0). set (theta := nth 1 w 0).
  match goal with |- context [gam * (?u - ?o)] => set (jn := u - o) end.
  match goal with |- context [-0.5 * sigma_n_u ?a1 ?a2 ?a3 ?a4 ?a5 ?a6 n] => set (sun := sigma_n_u a1 a2 a3 a4 a5 a6 n) end.
  rewrite (rsum_ext (kd_ndofs kd) _ (fun i => (- 0.5 * sun + gam * jn) * w0 * kd_phi kd (kd_qp_offsets kd f + q) i +
     rsum (kd_gdim kd) (fun a => (- 0.5 * theta * (nth (offsets kd 3 + q * kd_bs kd + a) c 0 - nth (offsets kd 5 + q * kd_bs kd + a) c 0) * w0) *
        traction (kd_gdim kd) (nth 0 c 0) (nth 1 c 0) (in_direction n (phys_grad kd coords f q i)) (g_n (geometry_at kd coords f q)) a))).
  2:{ intros i _. f_equal; [ringh|]. apply rsum_ext. intros a Ha. rewrite C41_basis_traction by auto. unfold phys_grad. ringh. }
  rewrite (rsum_ext links _ (fun k => rsum (kd_ndofs kd) (fun i => (0.5 * sun - gam * jn) * w0 * tie_test kd f c q k i n +
     rsum (kd_gdim kd) (fun a => (- 0.5 * theta * (nth (offsets kd 3 + q * kd_bs kd + a) c 0 - nth (offsets kd 5 + q * kd_bs kd + a) c 0) * w0) *
        traction (kd_gdim kd) (nth 0 c 0) (nth 1 c 0) (in_direction n (tie_test_grad kd f c q k i)) (g_n (geometry_at kd coords f q)) a)))).
  2:{ intros k _. apply rsum_ext. intros i _. f_equal; [unfold tie_test; fold (test_index kd (offsets kd 1) (num_points kd f) q k i n); ringh|].
      apply rsum_ext. intros a Ha. rewrite C41_opposite_traction by auto. unfold tie_test_grad. ringh. }
  pose proof (tp_phi _ _ _ _ _ _ P q Hq) as Hphi. change (rsum (kd_ndofs kd) (kd_phi kd (kd_qp_offsets kd f + q)) = 1) in Hphi.
  rewrite rsum_plus, rsum_scal, Hphi.
  rewrite (rsum_swap (kd_ndofs kd) (kd_gdim kd)).
  rewrite (rsum_zero (kd_gdim kd) (fun a => rsum (kd_ndofs kd) _)).
  2:{ intros a Ha. rewrite rsum_scal, traction_direction_sum by (first [exact Ha | intros; apply (tp_grad _ _ _ _ _ _ P); auto]). ring. }
  rewrite (rsum_ext links _ (fun k => (0.5 * sun - gam * jn) * w0 * rsum (kd_ndofs kd) (fun i => tie_test kd f c q k i n) +
     rsum (kd_gdim kd) (fun a => (- 0.5 * theta * (nth (offsets kd 3 + q * kd_bs kd + a) c 0 - nth (offsets kd 5 + q * kd_bs kd + a) c 0) * w0) *
        rsum (kd_ndofs kd) (fun i => traction (kd_gdim kd) (nth 0 c 0) (nth 1 c 0) (in_direction n (tie_test_grad kd f c q k i)) (g_n (geometry_at kd coords f q)) a)))).
  2:{ intros k _. rewrite rsum_plus, rsum_scal. f_equal. rewrite rsum_swap. apply rsum_ext. intros a _. now rewrite rsum_scal. }
  rewrite rsum_plus, rsum_scal, (tp_test _ _ _ _ _ _ P q n Hq Hn). rewrite (rsum_swap links (kd_gdim kd)).
  rewrite (rsum_zero (kd_gdim kd) (fun a => rsum links _)).
  2:{ intros a Ha. rewrite rsum_scal, (traction_direction_sum2 _ _ _ links (kd_ndofs kd) (fun k i => tie_test_grad kd f c q k i)) by (first [exact Ha | intros; apply (tp_test_grad _ _ _ _ _ _ P); auto]). ring. }
  ringh.
Qed.
Print Assumptions C34_meshtie_balance.

Theorem C34_thermo_balance :
  forall (kd : kernel_data) (junk : geometry) (b : list (list R)) (c w coords : list R) (f links : nat) (qs : list nat) (rhs : kernel_fn),
    generate_meshtie_kernel ThermoElasticRhs kd junk = Some rhs ->
    vector_buffers kd links b -> tie_partition kd coords f c links qs ->
    let vec := added_vec kd b (rhs b c w coords f links qs) in
    forall n, (n < kd_bs kd)%nat ->
      rsum (kd_ndofs kd) (fun i => vec 0%nat i n) + rsum links (fun k => rsum (kd_ndofs kd) (fun i => vec (k + 1)%nat i n)) = 0.
Proof.
  intros kd junk b c w coords f links qs rhs E_rhs. injection E_rhs as <-. intros Hb P vec n Hn. unfold vec.
  rewrite (rsum_ext (kd_ndofs kd) _ (fun i => lsum qs _)) by
    (intros i Hi; apply (chg_vec kd links b _ 0 i n _ Hb ltac:(lia) Hi Hn (thermo_rhs_cell kd junk c w coords f links b qs i n Hi Hn))).
  rewrite (rsum_ext links _ (fun k => rsum (kd_ndofs kd) (fun i => lsum qs _))) by
    (intros k Hk; apply rsum_ext; intros i Hi; apply (chg_vec kd links b _ (k + 1) i n _ Hb ltac:(lia) Hi Hn (thermo_rhs_link kd junk c w coords f links b qs k i n Hk Hi Hn))).
  rewrite <- lsum_rsum.
  rewrite (rsum_ext links _ (fun k => lsum qs (fun q => rsum (kd_ndofs kd) (fun i => _)))) by (intros k _; now rewrite <- lsum_rsum).
  rewrite <- lsum_rsum, <- lsum_plus. apply lsum_zero. intros q Hq.
  set (w0 := 0.5 * weight kd f q * g_detJ (geometry_at kd coords f q)).
  match goal with |- context [?al * ?av * g_n ?g n * kd_phi _ _ _ * w0] => set (s := al * av * g_n g n) end.
  rewrite (rsum_ext (kd_ndofs kd) _ (fun i => s * w0 * kd_phi kd (kd_qp_offsets kd f + q) i)) by (intros; ring).
  rewrite (rsum_ext links _ (fun k => (- s * w0) * rsum (kd_ndofs kd) (fun i => tie_test kd f c q k i n))).
  2:{ intros k _. rewrite <- rsum_scal. apply rsum_ext. intros i _. unfold tie_test. fold (test_index kd (offsets kd 1) (num_points kd f) q k i n). ring. }
  pose proof (tp_phi _ _ _ _ _ _ P q Hq) as Hphi. change (rsum (kd_ndofs kd) (kd_phi kd (kd_qp_offsets kd f + q)) = 1) in Hphi.
  rewrite !rsum_scal, Hphi, (tp_test _ _ _ _ _ _ P q n Hq Hn). ring.
Qed.
Print Assumptions C34_thermo_balance.

(** The residual of the thermo-elastic tie is the elastic residual with thermal
    stress: the traction of the average temperature's isotropic stress. *)
Theorem C34_thermo_stress :
  forall (kd : kernel_data) (junk : geometry) (b : list (list R)) (c w coords : list R) (f links : nat) (qs : list nat) i n (rhs : kernel_fn),
    generate_meshtie_kernel ThermoElasticRhs kd junk = Some rhs ->
    vector_buffers kd links b -> (i < kd_ndofs kd)%nat -> (n < kd_bs kd)%nat ->
    added_vec kd b (rhs b c w coords f links qs) 0 i n =
    lsum qs (fun q =>
      let avg_T := (nth (offsets kd 7 + q)%nat c 0 + nth (offsets kd 8 + q)%nat c 0) / 2 in
      let thermal_stress := nth 3 c 0 * (3 * nth 1 c 0 + 2 * nth 0 c 0) * avg_T in
      thermal_stress * g_n (geometry_at kd coords f q) n * kd_phi kd (kd_qp_offsets kd f + q) i * (weight kd f q * g_detJ (geometry_at kd coords f q) / 2)).
Proof.
  intros kd junk b c w coords f links qs i n rhs E_rhs. injection E_rhs as <-. intros Hb Hi Hn.
  rewrite (chg_vec kd links b _ 0 i n _ Hb ltac:(lia) Hi Hn (thermo_rhs_cell kd junk c w coords f links b qs i n Hi Hn)).
  apply lsum_ext. intros q _. cbv zeta. rewrite half_eq. field.
Qed.
Print Assumptions C34_thermo_stress.

(** ** Buffers (used by the assembly theorems) *)
Theorem C68_meshtie_kernels_local :
  forall (kd : kernel_data) (junk : geometry),
    (forall k, In k [MeshTieRhs; ThermoElasticRhs] -> exists kernel, generate_meshtie_kernel k kd junk = Some kernel /\ kernel_local (fun n => n + 1)%nat kernel) /\
    (exists kernel, generate_meshtie_kernel MeshTieJac kd junk = Some kernel /\ kernel_local (fun n => 3 * n + 1)%nat kernel).
Proof.
  intros kd junk.
  split; [intros k H; cbn in H; repeat (destruct H as [<-|H]); try contradiction|]; eexists; (split; [reflexivity|]); apply kernel_local_intro; intros;
    unfold meshtie_rhs, meshtie_thermo_elastic, meshtie_jac; cbv zeta; rewrite !quadrature_loop_geometry.
  all: first [ lazymatch goal with |- same_shape _ ?b => pose proof (same_shape_refl b) end; solve [kernel_shape] | solve [kernel_agree] ].
Qed.
Print Assumptions C68_meshtie_kernels_local.

(** ** A concrete facet: one point of a triangle, two linked triangles, the point
    in the first of them. *)
Definition example_kd : kernel_data :=
  {| kd_gdim := 2; kd_tdim := 2; kd_bs := 2; kd_ndofs := 3; kd_nodes := 0; kd_affine := true;
     kd_cstrides := [3; 12; 12; 2; 4; 2; 4]%nat; kd_qp_offsets := fun f => f;
     kd_phi := fun _ _ => 1 / 3;
     kd_dphi := fun k _ i => nth i (nth k [[-1; 1; 0]; [-1; 0; 1]] []) 0;
     kd_dphi_c := fun _ _ _ => 0; kd_weights := fun _ => 1 / 2;
     kd_ref_jacobian := fun _ i j => delta i j; kd_ref_normal := fun _ i => if (i =? 0)%nat then 1 else 0;
     kd_inverse := fun _ i j => delta i j; kd_determinant := fun _ => 1 |}.
Definition example_row : list R :=
  [1; 1; 1] ++ [1/3; 1/3; 1/3; 1/3; 1/3; 1/3; 0; 0; 0; 0; 0; 0] ++ [-1; -1; 1; 0; 0; 1; 0; 0; 0; 0; 0; 0]
  ++ [4/3; 1] ++ [-1; 2; 2; 1] ++ [4/3; 1] ++ [-1; 2; 2; 1].
Definition example_U : coeffs := fun j n => nth n (nth j [[1; 0]; [0; 2]; [3; 1]] []) 0.

Ltac ex_eval := cbv -[IZR Rdiv Rminus Rinv Rmult Rplus Ropp]; try lra.
Example C30_nonvacuous :
  kd_bs example_kd = kd_gdim example_kd /\ vector_buffers example_kd 2 (repeat (repeat 0 6) 3) /\ matrix_buffers example_kd 2 (repeat (repeat 0 36) 7) /\
  tie_fields example_kd [] 0 example_row 2 [0%nat] example_U (fun _ => example_U) /\ one_link example_kd 0 example_row 2 [0%nat] /\
  tie_partition example_kd [] 0 example_row 2 [0%nat].
Proof.
  split; [reflexivity|]. split; [split; [cbn; lia|]; intros s Hs; change (kd_ndofs example_kd * kd_bs example_kd)%nat with 6%nat; do 3 (destruct s; [reflexivity|]); lia|].
  split; [split; [cbn; lia|]; intros s Hs; change (kd_ndofs example_kd * kd_bs example_kd * (kd_ndofs example_kd * kd_bs example_kd))%nat with 36%nat; do 7 (destruct s; [reflexivity|]); lia|].
  split; [constructor|split; [|constructor]].
  - intros q n [<-|[]] Hn; change (kd_bs example_kd) with 2%nat in Hn; destruct n as [|[|n]]; [ex_eval | ex_eval | lia].
  - intros q a b [<-|[]] Ha Hb; change (kd_gdim example_kd) with 2%nat in Ha, Hb. destruct a as [|[|a]]; [| |lia]; (destruct b as [|[|b]]; [ex_eval | ex_eval | lia]).
  - intros q n [<-|[]] Hn; change (kd_bs example_kd) with 2%nat in Hn; destruct n as [|[|n]]; [ex_eval | ex_eval | lia].
  - intros q a b [<-|[]] Ha Hb; change (kd_gdim example_kd) with 2%nat in Ha, Hb. destruct a as [|[|a]]; [| |lia]; (destruct b as [|[|b]]; [ex_eval | ex_eval | lia]).
  - intros q [<-|[]]. exists 0%nat. intros k i Hk N Hi. assert (k = 1%nat) as -> by lia. change (kd_ndofs example_kd) with 3%nat in Hi. split.
    + intros n Hn; change (kd_bs example_kd) with 2%nat in Hn. do 3 (destruct i as [|i]; [destruct n as [|[|n]]; [reflexivity | reflexivity | lia]|]); lia.
    + intros n Hn; change (kd_gdim example_kd) with 2%nat in Hn. do 3 (destruct i as [|i]; [destruct n as [|[|n]]; [reflexivity | reflexivity | lia]|]); lia.
  - intros q [<-|[]]. ex_eval.
  - intros q b [<-|[]] Hb; change (kd_gdim example_kd) with 2%nat in Hb. destruct b as [|[|b]]; [ex_eval | ex_eval | lia].
  - intros q n [<-|[]] Hn; change (kd_bs example_kd) with 2%nat in Hn. destruct n as [|[|n]]; [ex_eval | ex_eval | lia].
  - intros q b [<-|[]] Hb; change (kd_gdim example_kd) with 2%nat in Hb. destruct b as [|[|b]]; [ex_eval | ex_eval | lia].
Qed.
