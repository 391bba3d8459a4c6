(** Entries of the Poisson tie element vectors and matrices in closed form. *)
From Coq Require Import List Arith Lia Bool Reals Lra.
Import ListNotations.
From Verif Require Import Prelude PreludeLemmas RSum RealLemmas RayModel AssemblyModel AssemblyProofs KernelModel KernelProofs MeshTieKernelModel.
Local Open Scope R_scope.

Section Forms.
  Context (kd : kernel_data) (junk : geometry).
  Notation gdim := (kd_gdim kd).
  Notation nd := (kd_ndofs kd).
  Notation off := (offsets kd).
  Context (c w coords : list R) (f links : nat).
  Notation np := (num_points kd f).
  Notation pos q := (kd_qp_offsets kd f + q)%nat.
  Notation geo q := (geometry_at kd coords f q).
  Notation gam := (nth 0 w 0 / nth 0 c 0).
  Notation theta := (nth 1 w 0).
  Notation phi q i := (kd_phi kd (pos q) i).
  Notation dn q i := (basis_normal_derivative kd (geo q) (pos q) i).
  Notation test q k i := (nth (off 1 + k * np * nd + i * np + q)%nat c 0).
  Notation gtest q k i a := (nth (off 2 + k * np * nd * gdim + i * gdim * np + q * gdim + a)%nat c 0).
  Notation jump q := (nth (off 3 + q)%nat c 0 - nth (off 5 + q)%nat c 0).
  Notation avg q := (for_loop gdim (fun j acc =>
          acc + 0.5 * (nth (off 4 + q * gdim + j)%nat c 0 + nth (off 6 + q * gdim + j)%nat c 0) * g_n (geo q) j) 0).
  Notation w0 q := (0.5 * weight kd f q * g_detJ (geo q) * nth 1 c 0).

  Lemma poisson_rhs_cell b qs i : (i < nd)%nat ->
    chg 0 i b (poisson_rhs kd junk b c w coords f links qs)
      (lsum qs (fun q => (- avg q + gam * jump q) * phi q i * w0 q - theta * 0.5 * dn q i * jump q * w0 q)).
  Proof.
    intros Hi. unfold poisson_rhs. rewrite quadrature_loop_geometry. apply chg_each. intros q b' _. cbv zeta.
    eapply chg_eq; [apply (chg_loop_one _ _ nd i); [exact Hi | apply chg_refl | | ] |].
    - intros b1. cbv beta zeta. apply chg_loop_none; [apply chg_acc_hit, chg_refl | intros k b3 Hk; cbv zeta; chg_none].
    - intros i' b1 Hi' Ne. chg_none.
    - ring.
  Qed.

  Lemma poisson_rhs_link b qs k i : (k < links)%nat -> (i < nd)%nat ->
    chg (k + 1) i b (poisson_rhs kd junk b c w coords f links qs)
      (lsum qs (fun q => (avg q - gam * jump q) * test q k i * w0 q + rsum gdim (fun a => - 0.5 * theta * gtest q k i a * g_n (geo q) a * jump q * w0 q))).
  Proof.
    intros Hk Hi. unfold poisson_rhs. rewrite quadrature_loop_geometry. apply chg_each. intros q b' _. cbv zeta.
    eapply chg_eq; [apply (chg_loop_one _ _ nd i); [exact Hi | apply chg_refl | | ] |].
    - intros b1. cbv beta zeta. apply (chg_loop_one _ _ links k); [exact Hk | chg_none | |].
      + intros b3. cbv beta zeta. eapply chg_loop; [apply chg_acc_hit, chg_refl|].
        intros a b4 Ha. cbv beta. eapply chg_eq; [apply chg_acc_hit, chg_refl|]. rewrite Rplus_0_l. reflexivity.
      + intros k' b3 Hk' Ne. chg_none.
    - intros i' b1 Hi' Ne. chg_none.
    - ring.
  Qed.

  Lemma poisson_jac_cell A qs i j : (i < nd)%nat -> (j < nd)%nat ->
    chg 0 (i * nd + j) A (poisson_jac kd junk A c w coords f links qs)
      (lsum qs (fun q => (- 0.5 * dn q j + gam * phi q j) * phi q i * w0 q - theta * 0.5 * dn q i * phi q j * w0 q)).
  Proof.
    intros Hi Hj. unfold poisson_jac. rewrite quadrature_loop_geometry. apply chg_each. intros q A' _. cbv zeta.
    eapply chg_eq; [apply (chg_loop_one _ _ nd j); [exact Hj | apply chg_refl | | ] |].
    - intros A1. cbv beta zeta. apply (chg_loop_one _ _ nd i); [exact Hi | apply chg_refl | | ].
      + intros A2. cbv beta zeta. apply chg_loop_none; [apply chg_acc_hit, chg_refl | intros k b3 Hk; cbv zeta; chg_none].
      + intros i' b1 Hi' Ne. chg_none.
    - intros j' b1 Hj' Ne. chg_none.
    - ring.
  Qed.

  Lemma poisson_jac_cell_link A qs k i j : (k < links)%nat -> (i < nd)%nat -> (j < nd)%nat ->
    chg (3 * k + 1) (i * nd + j) A (poisson_jac kd junk A c w coords f links qs)
      (lsum qs (fun q => (- gam * phi q i + theta * 0.5 * dn q i) * test q k j * w0 q
         + rsum gdim (fun a => - 0.5 * gtest q k j a * g_n (geo q) a * phi q i * w0 q))).
  Proof.
    intros Hk Hi Hj. unfold poisson_jac. rewrite quadrature_loop_geometry. apply chg_each. intros q A' _. cbv zeta.
    eapply chg_eq; [apply (chg_loop_one _ _ nd j); [exact Hj | apply chg_refl | | ] |].
    - intros A1. cbv beta zeta. apply (chg_loop_one _ _ nd i); [exact Hi | apply chg_refl | | ].
      + intros A2. cbv beta zeta. apply (chg_loop_one _ _ links k); [exact Hk | chg_none | |].
        * intros A3. cbv beta zeta. eapply chg_loop.
          -- apply chg_acc_miss; [|left; lia]. apply chg_acc_miss; [|left; lia]. apply chg_acc_hit, chg_refl.
          -- intros a b4 Ha. cbv beta zeta. apply chg_acc_miss; [|left; lia]. apply chg_acc_miss; [|left; lia]. eapply chg_eq; [apply chg_acc_hit, chg_refl|]. rewrite Rplus_0_l. reflexivity.
        * intros k' b3 Hk' Ne. chg_none.
      + intros i' b1 Hi' Ne. chg_none.
    - intros j' b1 Hj' Ne. chg_none.
    - ring.
  Qed.

  Lemma poisson_jac_link_cell A qs k i j : (k < links)%nat -> (i < nd)%nat -> (j < nd)%nat ->
    chg (3 * k + 2) (i * nd + j) A (poisson_jac kd junk A c w coords f links qs)
      (lsum qs (fun q => (0.5 * dn q j - gam * phi q j) * test q k i * w0 q
         + rsum gdim (fun a => - theta * 0.5 * gtest q k i a * g_n (geo q) a * phi q j * w0 q))).
  Proof.
    intros Hk Hi Hj. unfold poisson_jac. rewrite quadrature_loop_geometry. apply chg_each. intros q A' _. cbv zeta.
    eapply chg_eq; [apply (chg_loop_one _ _ nd j); [exact Hj | apply chg_refl | | ] |].
    - intros A1. cbv beta zeta. apply (chg_loop_one _ _ nd i); [exact Hi | apply chg_refl | | ].
      + intros A2. cbv beta zeta. apply (chg_loop_one _ _ links k); [exact Hk | chg_none | |].
        * intros A3. cbv beta zeta. eapply chg_loop.
          -- apply chg_acc_miss; [|left; lia]. apply chg_acc_hit. apply chg_acc_miss; [|left; lia]. apply chg_refl.
          -- intros a b4 Ha. cbv beta zeta. apply chg_acc_miss; [|left; lia]. eapply chg_eq; [apply chg_acc_hit; apply chg_acc_miss; [apply chg_refl | left; lia]|]. rewrite Rplus_0_l. reflexivity.
        * intros k' b3 Hk' Ne. chg_none.
      + intros i' b1 Hi' Ne. chg_none.
    - intros j' b1 Hj' Ne. chg_none.
    - ring.
  Qed.

  Lemma poisson_jac_link_link A qs k i j : (k < links)%nat -> (i < nd)%nat -> (j < nd)%nat ->
    chg (3 * k + 3) (i * nd + j) A (poisson_jac kd junk A c w coords f links qs)
      (lsum qs (fun q => gam * test q k j * test q k i * w0 q
         + rsum gdim (fun a => 0.5 * gtest q k j a * g_n (geo q) a * test q k i * w0 q + theta * 0.5 * gtest q k i a * g_n (geo q) a * test q k j * w0 q))).
  Proof.
    intros Hk Hi Hj. unfold poisson_jac. rewrite quadrature_loop_geometry. apply chg_each. intros q A' _. cbv zeta.
    eapply chg_eq; [apply (chg_loop_one _ _ nd j); [exact Hj | apply chg_refl | | ] |].
    - intros A1. cbv beta zeta. apply (chg_loop_one _ _ nd i); [exact Hi | apply chg_refl | | ].
      + intros A2. cbv beta zeta. apply (chg_loop_one _ _ links k); [exact Hk | chg_none | |].
        * intros A3. cbv beta zeta. eapply chg_loop.
          -- apply chg_acc_hit. apply chg_acc_miss; [|left; lia]. apply chg_acc_miss; [|left; lia]. apply chg_refl.
          -- intros a b4 Ha. cbv beta zeta. eapply chg_eq; [apply chg_acc_hit; apply chg_acc_miss; [apply chg_acc_miss; [apply chg_refl | left; lia] | left; lia]|]. rewrite Rplus_0_l. reflexivity.
        * intros k' b3 Hk' Ne. chg_none.
      + intros i' b1 Hi' Ne. chg_none.
    - intros j' b1 Hj' Ne. chg_none.
    - ring.
  Qed.
End Forms.
