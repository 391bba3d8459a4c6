(** Entries of the mesh tie element vectors and matrices in closed form. *)
From Coq Require Import List Arith Lia Bool Reals Lra.
Import ListNotations.
From Verif Require Import Prelude PreludeLemmas RSum RealLemmas RayModel AssemblyModel AssemblyProofs KernelModel KernelProofs MeshTieKernelModel ElasticityProps.
Local Open Scope R_scope.

Section Forms.
  Context (kd : kernel_data) (junk : geometry).
  Notation gdim := (kd_gdim kd).
  Notation tdim := (kd_tdim kd).
  Notation bs := (kd_bs kd).
  Notation nd := (kd_ndofs kd).
  Notation off := (offsets kd).
  Context (c w coords : list R) (f links : nat).
  Notation np := (num_points kd f).
  Notation pos q := (kd_qp_offsets kd f + q)%nat.
  Notation geo q := (geometry_at kd coords f q).
  Notation mu := (nth 0 c 0).
  Notation lmbda := (nth 1 c 0).
  Notation gam := (nth 0 w 0 / nth 2 c 0).
  Notation theta := (nth 1 w 0).
  Notation phi q i := (kd_phi kd (pos q) i).
  Notation test q k i n := (nth (test_index kd (off 1) np q k i n) c 0).
  Notation sig q i j l := (sigma_n_basis kd (g_K (geo q)) (g_n (geo q)) mu lmbda (pos q) i j l).
  Notation sigo q k i j l := (sigma_n_opp gdim nd np (fun x => nth (off 2 + x)%nat c 0) (g_n (geo q)) mu lmbda q k i j l).
  Notation sigu q := (sigma_n_u gdim (fun x => nth (off 6 + q * gdim * gdim + x)%nat c 0) (g_n (geo q)) mu lmbda
      (sigma_n_u gdim (fun x => nth (off 4 + q * gdim * gdim + x)%nat c 0) (g_n (geo q)) mu lmbda (fun _ => 0))).
  Notation jump q n := (nth (off 3 + q * bs + n)%nat c 0 - nth (off 5 + q * bs + n)%nat c 0).
  Notation w0 q := (0.5 * weight kd f q * g_detJ (geo q)).

  Lemma meshtie_rhs_cell b qs i n : (i < nd)%nat -> (n < bs)%nat ->
    chg 0 (n + i * bs) b (meshtie_rhs kd junk b c w coords f links qs)
      (lsum qs (fun q => (- 0.5 * sigu q n + gam * jump q n) * phi q i * w0 q + rsum gdim (fun a => - 0.5 * theta * sig q i n a * jump q a * w0 q))).
  Proof.
    intros Hi Hn. unfold meshtie_rhs. rewrite quadrature_loop_geometry. apply chg_each. intros q b' _. cbv zeta.
    eapply chg_eq; [apply (chg_loop_one _ _ nd i); [exact Hi | apply chg_refl | | ] |].
    - intros b1. cbv beta zeta. apply (chg_loop_one _ _ bs n); [exact Hn | apply chg_refl | | ].
      + intros b2. cbv beta zeta. apply chg_loop_none; [|intros k b3 Hk; cbv zeta; chg_none]. eapply chg_loop; [apply chg_acc_hit, chg_refl|].
        intros a b3 Ha. cbv beta. eapply chg_eq; [apply chg_acc_hit, chg_refl|]. rewrite Rplus_0_l. reflexivity.
      + intros n' b2 Hn' Ne. chg_none.
    - intros i' b1 Hi' Ne. chg_none.
    - ring.
  Qed.

  Lemma meshtie_rhs_link b qs k i n : (k < links)%nat -> (i < nd)%nat -> (n < bs)%nat ->
    chg (k + 1) (n + i * bs) b (meshtie_rhs kd junk b c w coords f links qs)
      (lsum qs (fun q => (0.5 * sigu q n - gam * jump q n) * test q k i n * w0 q + rsum gdim (fun a => - 0.5 * theta * sigo q k i n a * jump q a * w0 q))).
  Proof.
    intros Hk Hi Hn. unfold meshtie_rhs. rewrite quadrature_loop_geometry. apply chg_each. intros q b' _. cbv zeta.
    eapply chg_eq; [apply (chg_loop_one _ _ nd i); [exact Hi | apply chg_refl | | ] |].
    - intros b1. cbv beta zeta. apply (chg_loop_one _ _ bs n); [exact Hn | apply chg_refl | | ].
      + intros b2. cbv beta zeta. apply (chg_loop_one _ _ links k); [exact Hk | chg_none | |].
        * intros b3. cbv beta zeta. eapply chg_loop; [apply chg_acc_hit, chg_refl|].
          intros a b4 Ha. cbv beta. eapply chg_eq; [apply chg_acc_hit, chg_refl|]. rewrite Rplus_0_l. reflexivity.
        * intros k' b3 Hk' Ne. chg_none.
      + intros n' b2 Hn' Ne. chg_none.
    - intros i' b1 Hi' Ne. chg_none.
    - ring.
  Qed.

  Notation avgT q := (0.5 * (nth (off 7 + q)%nat c 0 + nth (off 8 + q)%nat c 0)).
  Notation alpha := (nth 3 c 0 * (3 * lmbda + 2 * mu)).
  Lemma thermo_rhs_cell b qs i n : (i < nd)%nat -> (n < bs)%nat ->
    chg 0 (n + i * bs) b (meshtie_thermo_elastic kd junk b c w coords f links qs)
      (lsum qs (fun q => alpha * avgT q * g_n (geo q) n * phi q i * w0 q)).
  Proof.
    intros Hi Hn. unfold meshtie_thermo_elastic. rewrite quadrature_loop_geometry. apply chg_each. intros q b' _. cbv zeta.
    eapply chg_eq; [apply (chg_loop_one _ _ nd i); [exact Hi | apply chg_refl | | ] |].
    - intros b1. cbv beta zeta. apply (chg_loop_one _ _ bs n); [exact Hn | apply chg_refl | | ].
      + intros b2. cbv beta zeta. apply chg_loop_none; [|intros k b3 Hk; cbv zeta; chg_none]. apply chg_acc_hit, chg_refl.
      + intros n' b2 Hn' Ne. chg_none.
    - intros i' b1 Hi' Ne. chg_none.
    - ring.
  Qed.
  Lemma thermo_rhs_link b qs k i n : (k < links)%nat -> (i < nd)%nat -> (n < bs)%nat ->
    chg (k + 1) (n + i * bs) b (meshtie_thermo_elastic kd junk b c w coords f links qs)
      (lsum qs (fun q => - (alpha * avgT q * g_n (geo q) n * test q k i n * w0 q))).
  Proof.
    intros Hk Hi Hn. unfold meshtie_thermo_elastic. rewrite quadrature_loop_geometry. apply chg_each. intros q b' _. cbv zeta.
    eapply chg_eq; [apply (chg_loop_one _ _ nd i); [exact Hi | apply chg_refl | | ] |].
    - intros b1. cbv beta zeta. apply (chg_loop_one _ _ bs n); [exact Hn | apply chg_refl | | ].
      + intros b2. cbv beta zeta. apply (chg_loop_one _ _ links k); [exact Hk | chg_none | |].
        * intros b3. cbv beta zeta. apply chg_acc_hit, chg_refl.
        * intros k' b3 Hk' Ne. chg_none.
      + intros n' b2 Hn' Ne. chg_none.
    - intros i' b1 Hi' Ne. chg_none.
    - ring.
  Qed.

  (** Entry in row (i, b), column (j, l). *)
  Notation idx i b j l := ((b + i * bs) * nd * bs + l + j * bs)%nat.

  Lemma meshtie_jac_cell A qs i b j l : (i < nd)%nat -> (b < bs)%nat -> (j < nd)%nat -> (l < bs)%nat ->
    chg 0 (idx i b j l) A (meshtie_jac kd junk A c w coords f links qs)
      (lsum qs (fun q => (if (b =? l)%nat then gam * phi q j * phi q i * w0 q else 0)
         + (- 0.5 * sig q j l b * phi q i - 0.5 * theta * sig q i b l * phi q j) * w0 q)).
  Proof.
    intros Hi Hb Hj Hl. unfold meshtie_jac. rewrite quadrature_loop_geometry. apply chg_each. intros q A' _. cbv zeta.
    eapply chg_eq; [apply (chg_loop_one _ _ nd j); [exact Hj | apply chg_refl | | ] |].
    - intros A1. cbv beta zeta. apply (chg_loop_one _ _ bs l); [exact Hl | apply chg_refl | | ].
      + intros A2. cbv beta zeta. apply (chg_loop_one _ _ nd i); [exact Hi | apply chg_refl | | ].
        * intros A3. cbv beta zeta. apply (chg_loop_one _ _ bs b); [exact Hb | | | ].
          -- apply chg_loop_none; [|intros k A4 Hk; cbv zeta; chg_none].
             instantiate (1 := (if (b =? l)%nat then gam * phi q j * phi q i * w0 q else 0)). destruct (Nat.eqb_spec b l) as [->|Ne].
             ++ eapply chg_eq; [apply chg_acc_hit, chg_refl|]. ring.
             ++ chg_none.
          -- intros A4. cbv beta zeta. apply chg_loop_none; [|intros k A5 Hk; cbv zeta; chg_none]. apply chg_acc_hit, chg_refl.
          -- intros b' A4 Hb' Ne. chg_none.
        * intros i' A3 Hi' Ne. chg_none.
      + intros l' A2 Hl' Ne. chg_none.
    - intros j' A1 Hj' Ne. chg_none.
    - ring.
  Qed.

  Lemma meshtie_jac_cell_link A qs k i b j l : (k < links)%nat -> (i < nd)%nat -> (b < bs)%nat -> (j < nd)%nat -> (l < bs)%nat ->
    chg (3 * k + 1) (idx i b j l) A (meshtie_jac kd junk A c w coords f links qs)
      (lsum qs (fun q => (if (b =? l)%nat then - gam * test q k j l * phi q i * w0 q else 0)
         + (- 0.5 * sigo q k j l b * phi q i + 0.5 * theta * sig q i b l * test q k j l) * w0 q)).
  Proof.
    intros Hk Hi Hb Hj Hl. unfold meshtie_jac. rewrite quadrature_loop_geometry. apply chg_each. intros q A' _. cbv zeta.
    eapply chg_eq; [apply (chg_loop_one _ _ nd j); [exact Hj | apply chg_refl | | ] |].
    - intros A1. cbv beta zeta. apply (chg_loop_one _ _ bs l); [exact Hl | apply chg_refl | | ].
      + intros A2. cbv beta zeta. apply (chg_loop_one _ _ nd i); [exact Hi | apply chg_refl | | ].
        * intros A3. cbv beta zeta. apply (chg_loop_one _ _ bs b); [exact Hb | | | ].
          -- apply (chg_loop_one _ _ links k); [exact Hk | chg_none | |].
             ++ intros A4. cbv beta zeta. apply chg_acc_miss; [|left; lia]. apply chg_acc_miss; [|left; lia].
                instantiate (1 := (if (b =? l)%nat then - gam * test q k j l * phi q i * w0 q else 0)). rewrite index4_swap. destruct (Nat.eqb_spec b l) as [->|Ne].
                ** eapply chg_eq; [apply chg_acc_hit, chg_refl|]. ring.
                ** chg_none.
             ++ intros k' A4 Hk' Ne. chg_none.
          -- intros A4. cbv beta zeta. apply (chg_loop_one _ _ links k); [exact Hk | chg_none | |].
             ++ intros A5. cbv beta zeta. apply chg_acc_miss; [|left; lia]. apply chg_acc_miss; [|left; lia]. rewrite index4_swap. apply chg_acc_hit, chg_refl.
             ++ intros k' A5 Hk' Ne. chg_none.
          -- intros b' A4 Hb' Ne. chg_none.
        * intros i' A3 Hi' Ne. chg_none.
      + intros l' A2 Hl' Ne. chg_none.
    - intros j' A1 Hj' Ne. chg_none.
    - ring.
  Qed.

  Lemma meshtie_jac_link_cell A qs k i b j l : (k < links)%nat -> (i < nd)%nat -> (b < bs)%nat -> (j < nd)%nat -> (l < bs)%nat ->
    chg (3 * k + 2) (idx i b j l) A (meshtie_jac kd junk A c w coords f links qs)
      (lsum qs (fun q => (if (b =? l)%nat then - gam * phi q j * test q k i l * w0 q else 0)
         + (0.5 * sig q j l b * test q k i b - 0.5 * theta * sigo q k i b l * phi q j) * w0 q)).
  Proof.
    intros Hk Hi Hb Hj Hl. unfold meshtie_jac. rewrite quadrature_loop_geometry. apply chg_each. intros q A' _. cbv zeta.
    eapply chg_eq; [apply (chg_loop_one _ _ nd j); [exact Hj | apply chg_refl | | ] |].
    - intros A1. cbv beta zeta. apply (chg_loop_one _ _ bs l); [exact Hl | apply chg_refl | | ].
      + intros A2. cbv beta zeta. apply (chg_loop_one _ _ nd i); [exact Hi | apply chg_refl | | ].
        * intros A3. cbv beta zeta. apply (chg_loop_one _ _ bs b); [exact Hb | | | ].
          -- apply (chg_loop_one _ _ links k); [exact Hk | chg_none | |].
             ++ intros A4. cbv beta zeta. apply chg_acc_miss; [|left; lia].
                instantiate (1 := (if (b =? l)%nat then - gam * phi q j * test q k i l * w0 q else 0)). rewrite !index4_swap. destruct (Nat.eqb_spec b l) as [->|Ne].
                ** eapply chg_eq; [apply chg_acc_hit; apply chg_acc_miss; [apply chg_refl | left; lia]|]. ring.
                ** chg_none.
             ++ intros k' A4 Hk' Ne. chg_none.
          -- intros A4. cbv beta zeta. apply (chg_loop_one _ _ links k); [exact Hk | chg_none | |].
             ++ intros A5. cbv beta zeta. apply chg_acc_miss; [|left; lia]. rewrite !index4_swap. apply chg_acc_hit. apply chg_acc_miss; [apply chg_refl | left; lia].
             ++ intros k' A5 Hk' Ne. chg_none.
          -- intros b' A4 Hb' Ne. chg_none.
        * intros i' A3 Hi' Ne. chg_none.
      + intros l' A2 Hl' Ne. chg_none.
    - intros j' A1 Hj' Ne. chg_none.
    - ring.
  Qed.

  Lemma meshtie_jac_link_link A qs k i b j l : (k < links)%nat -> (i < nd)%nat -> (b < bs)%nat -> (j < nd)%nat -> (l < bs)%nat ->
    chg (3 * k + 3) (idx i b j l) A (meshtie_jac kd junk A c w coords f links qs)
      (lsum qs (fun q => (if (b =? l)%nat then gam * test q k j l * test q k i l * w0 q else 0)
         + (0.5 * sigo q k j l b * test q k i b + 0.5 * theta * sigo q k i b l * test q k j l) * w0 q)).
  Proof.
    intros Hk Hi Hb Hj Hl. unfold meshtie_jac. rewrite quadrature_loop_geometry. apply chg_each. intros q A' _. cbv zeta.
    eapply chg_eq; [apply (chg_loop_one _ _ nd j); [exact Hj | apply chg_refl | | ] |].
    - intros A1. cbv beta zeta. apply (chg_loop_one _ _ bs l); [exact Hl | apply chg_refl | | ].
      + intros A2. cbv beta zeta. apply (chg_loop_one _ _ nd i); [exact Hi | apply chg_refl | | ].
        * intros A3. cbv beta zeta. apply (chg_loop_one _ _ bs b); [exact Hb | | | ].
          -- apply (chg_loop_one _ _ links k); [exact Hk | chg_none | |].
             ++ intros A4. cbv beta zeta.
                instantiate (1 := (if (b =? l)%nat then gam * test q k j l * test q k i l * w0 q else 0)). rewrite !index4_swap. destruct (Nat.eqb_spec b l) as [->|Ne].
                ** eapply chg_eq; [apply chg_acc_hit; apply chg_acc_miss; [apply chg_acc_miss; [apply chg_refl | left; lia] | left; lia]|]. ring.
                ** chg_none.
             ++ intros k' A4 Hk' Ne. chg_none.
          -- intros A4. cbv beta zeta. apply (chg_loop_one _ _ links k); [exact Hk | chg_none | |].
             ++ intros A5. cbv beta zeta. rewrite !index4_swap. apply chg_acc_hit. apply chg_acc_miss; [apply chg_acc_miss; [apply chg_refl | left; lia] | left; lia].
             ++ intros k' A5 Hk' Ne. chg_none.
          -- intros b' A4 Hb' Ne. chg_none.
        * intros i' A3 Hi' Ne. chg_none.
      + intros l' A2 Hl' Ne. chg_none.
    - intros j' A1 Hj' Ne. chg_none.
    - ring.
  Qed.
End Forms.
