(** Friction kernels along a line of displacements. *)
From Coq Require Import List Arith Lia Bool Reals Lra.
Import ListNotations.
From Verif Require Import Prelude PreludeLemmas RSum RealLemmas CropModel CandidatesProps RayModel OpsModel OpsProps AssemblyModel AssemblyProofs KernelModel KernelProofs KernelSpec
  MeshTieKernelModel ElasticityProps ContactKernelModel ContactKernelProofs ContactKernelSpec ContactCurveProofs ContactKernelProps.
Local Open Scope R_scope.

(** ** Vectors of length three *)
Lemma array3_length kd x : length (array3 kd x) = 3%nat.
Proof. reflexivity. Qed.
Lemma array3_nth kd x j : (kd_bs kd <= 3)%nat -> nth j (array3 kd x) 0 = if (j <? kd_bs kd)%nat then x j else 0.
Proof.
  intros Hb. destruct j as [|[|[|j]]]; try reflexivity. rewrite nth_overflow by (rewrite array3_length; lia).
  destruct (Nat.ltb_spec (S (S (S j))) (kd_bs kd)); [lia|reflexivity].
Qed.
Lemma array3_ext kd x y : (forall j, (j < kd_bs kd)%nat -> x j = y j) -> array3 kd x = array3 kd y.
Proof. intros H. unfold array3. apply map_ext. intros j. destruct (Nat.ltb_spec j (kd_bs kd)); auto. Qed.
Lemma array3_shift kd x y h t : (kd_bs kd <= 3)%nat -> (forall j, (j < kd_bs kd)%nat -> y j = x j + t * h j) -> array3 kd y = shift (array3 kd x) (array3 kd h) t.
Proof.
  intros Hb H. apply (nth_ext' _ _ 0); [now rewrite shift_length, !array3_length|]. intros j Hj. rewrite array3_length in Hj. rewrite shift_nth by (rewrite array3_length; auto).
  rewrite !array3_nth by auto. destruct (Nat.ltb_spec j (kd_bs kd)); [auto | ring].
Qed.
Lemma rsum_array3 kd (x : nat -> R) g : (kd_bs kd <= 3)%nat -> (forall a, g a 0 = 0) -> rsum 3 (fun a => g a (nth a (array3 kd x) 0)) = rsum (kd_bs kd) (fun a => g a (x a)).
Proof.
  intros Hb G. rewrite (rsum_ext 3 _ (fun a => if (a <? kd_bs kd)%nat then g a (x a) else 0)) by (intros a _; rewrite array3_nth by auto; destruct (a <? kd_bs kd)%nat; auto).
  generalize 3%nat Hb. intros m. induction m as [|m IH]; intros Hm.
  - assert (kd_bs kd = 0%nat) as -> by lia. reflexivity.
  - destruct (Nat.eq_dec (kd_bs kd) (S m)) as [E|N].
    + rewrite E in *. apply rsum_ext. intros a Ha. destruct (Nat.ltb_spec a (S m)); [auto|lia].
    + cbn [rsum]. rewrite IH by lia. destruct (Nat.ltb_spec m (kd_bs kd)); [lia|ring].
Qed.

Lemma d_alpha_linear x alpha s z a : nth a (d_alpha_ball_projection x alpha (s * z)) 0 = nth a (d_alpha_ball_projection x alpha s) 0 * z.
Proof.
  unfold d_alpha_ball_projection. destruct (rlt _ _).
  - destruct (Nat.lt_ge_cases a (length x)) as [H|H]; [|rewrite !nth_overflow by (rewrite map_length; auto); ring].
    rewrite !(nth_map_lt _ x a 0 0) by auto. unfold Rdiv. ring.
  - destruct (Nat.lt_ge_cases a (length x)) as [H|H]; [|rewrite !nth_overflow by (rewrite map_length; auto); ring].
    rewrite !(nth_map_lt _ x a 0 0) by auto. ring.
Qed.
Lemma d_alpha_zero x alpha a : nth a (d_alpha_ball_projection x alpha 0) 0 = 0.
Proof. rewrite <- (Rmult_0_r 0) at 1. rewrite d_alpha_linear. ring. Qed.
Lemma d_ball_small x alpha bs i : alpha < 1 / 10 ^ 14 -> nth i (d_ball_projection x alpha bs) 0 = 0.
Proof. intros H. unfold d_ball_projection, d_ball_projection_in. assert (rlt alpha (1 / 10 ^ 14) = true) as -> by (apply rlt_true; auto). apply nth_repeat_0. Qed.
Lemma d_ball_symmetric x alpha bs i j : (bs <= 3)%nat -> (i < bs)%nat -> (j < bs)%nat ->
  nth (i * bs + j) (d_ball_projection x alpha bs) 0 = nth (j * bs + i) (d_ball_projection x alpha bs) 0.
Proof.
  intros Hb Hi Hj. destruct (Rlt_le_dec alpha (1 / 10 ^ 14)) as [H|H]; [now rewrite !d_ball_small|].
  unfold d_ball_projection. rewrite !d_ball_entry by (auto; nia). cbv zeta. rewrite (Nat.eqb_sym j i). destruct (rlt _ _); [reflexivity|]. f_equal. unfold Rdiv. ring.
Qed.
(** The Jacobian maps the orthogonal complement of [x] to a multiple. *)
Lemma d_ball_orthogonal x alpha bs (nu : nat -> R) : (bs <= 3)%nat -> rsum bs (fun a => nth a x 0 * nu a) = 0 ->
  exists s, forall n, (n < bs)%nat -> rsum bs (fun a => nth (n * bs + a) (d_ball_projection x alpha bs) 0 * nu a) = s * nu n.
Proof.
  intros Hb H0. destruct (Rlt_le_dec alpha (1 / 10 ^ 14)) as [H|H].
  - exists 0. intros n Hn. rewrite rsum_zero; [ring|]. intros a _. rewrite d_ball_small by auto. ring.
  - exists (if rlt (normn (length x) x) alpha then 1 else alpha / normn (length x) x). intros n Hn.
    rewrite (rsum_ext bs _ (fun a => (if rlt (normn (length x) x) alpha then 1 else alpha / normn (length x) x) * nu a * delta n a
       - (if rlt (normn (length x) x) alpha then 0 else alpha * nth n x 0 / (normn (length x) x * dotn (length x) x x)) * (nth a x 0 * nu a))).
    2:{ intros a Ha. unfold d_ball_projection. rewrite d_ball_entry by (auto; nia). cbv zeta. unfold delta, Rdiv. destruct (rlt _ _), (n =? a)%nat; ring. }
    rewrite rsum_minus, rsum_scal, H0, (delta_sum_r bs n (fun a => (if rlt (normn (length x) x) alpha then 1 else alpha / normn (length x) x) * nu a)) by auto. ring.
Qed.

(** ** Along the line *)
Section Line.
  Context (kd : kernel_data) (coords : list R) (f : nat) (w : list R) (C : R -> list R) (links : nat) (qs : list nat) (W : coeffs) (Wo : nat -> coeffs).
  Context (Hbs : kd_bs kd = kd_gdim kd) (HL : contact_layout kd f links qs) (HC : contact_line kd coords f C links qs W Wo) (Hdim : (kd_gdim kd <= 3)%nat).
  Notation gdim := (kd_gdim kd).
  Notation nd := (kd_ndofs kd).
  Notation bs := (kd_bs kd).
  Notation off := (offsets kd).
  Notation np := (num_points kd f).
  Notation pos q := (kd_qp_offsets kd f + q)%nat.
  Notation geo q := (geometry_at kd coords f q).
  Notation c0 := (C 0).
  Notation w0 q := (weight kd f q * g_detJ (geo q)).
  Notation theta := (nth 1 w 0).
  Notation ns q := (n_surf kd c0 q).
  Notation gam := (gamma_of c0 w).
  Notation gami := (gamma_inv_of c0 w).
  Notation "'L' x" := (x kd coords f w C links qs W Wo Hbs HL HC) (at level 0, only parsing).
  Notation du q n := (ContactCurveProofs.du kd f W q n).
  Notation duo q n := (ContactCurveProofs.duo kd f C links Wo q n).
  Notation ds q a := (ContactCurveProofs.ds kd coords f C W q a).
  Notation dsn q := (ContactCurveProofs.dsn kd coords f C W q).
  Notation djn q := (ContactCurveProofs.djn kd f C links W Wo q).
  Notation dind q := (ContactCurveProofs.dind kd coords f w C links W Wo q).

  Lemma st_line t q i n a : In q qs -> (n < gdim)%nat -> (a < gdim)%nat -> st kd (C t) coords f q i n a = st kd c0 coords f q i n a.
  Proof using All. intros Hq Hn Ha. unfold st. rewrite (L line_sig t), (L line_sign t), (L line_ns t) by auto. reflexivity. Qed.
  Lemma tv0_line t q i n a : In q qs -> (n < gdim)%nat -> (a < gdim)%nat -> tv0 kd (C t) w coords f q i n a = tv0 kd c0 w coords f q i n a.
  Proof using All. intros Hq Hn Ha. unfold tv0. rewrite (st_line t), (L line_ns t q n), (L line_ns t q a), (L line_gamma t) by auto. reflexivity. Qed.
  Lemma tvk_line t q k i n a : In q qs -> (k < links)%nat -> (i < nd)%nat -> (n < gdim)%nat -> (a < gdim)%nat -> tvk kd (C t) f q k i n a = tvk kd c0 f q k i n a.
  Proof using All. intros Hq Hk Hi Hn Ha. unfold tvk. rewrite (L line_test_index t q k i n), (L line_ns t q n), (L line_ns t q a) by (auto; rewrite Hbs; auto). reflexivity. Qed.
  Lemma stu_line t q a : In q qs -> (a < gdim)%nat -> stu kd (C t) coords f q a = stu kd c0 coords f q a + t * (ds q a - dsn q * ns q a).
  Proof using All. intros Hq Ha. unfold stu. rewrite (L line_sigu t), (L line_signu t), (L line_ns t) by auto. ring. Qed.
  Lemma st_row q a : apply_row nd gdim (fun j l => st kd c0 coords f q j l a) W = ds q a - dsn q * ns q a.
  Proof using All.
    unfold st. rewrite (apply_row_ext nd gdim _ (fun j l => 1 * sig_n kd c0 (geo q) f q j l a + (- ns q a) * basis_sign kd c0 (geo q) f q j l)) by (intros; ring).
    rewrite apply_row_comb. unfold ContactCurveProofs.ds, ContactCurveProofs.dsn. ring.
  Qed.

  (** Increment of a tangential argument in which [m] multiplies the normal jump. *)
  Definition dx (m : nat -> nat -> R) q n : R := du q n - duo q n - djn q * m q n - gam * (ds q n - dsn q * ns q n).
  Lemma delta_row n (g : nat -> nat -> R) (V : coeffs) : (n < gdim)%nat -> apply_row nd gdim (fun j l => delta l n * g j l) V = rsum nd (fun j => g j n * V j n).
  Proof using All.
    intros Hn. rewrite (apply_row_ext nd gdim _ (fun j l => if (n =? l)%nat then g j l else 0)) by (intros j l _ _; unfold delta; rewrite (Nat.eqb_sym l n); destruct (n =? l)%nat; ring).
    now apply apply_row_component.
  Qed.
  Lemma dx_rows m q n : In q qs -> (n < gdim)%nat ->
    apply_row nd gdim (fun j l => xd kd c0 w coords f m q j l n) W - rsum links (fun k => apply_row nd gdim (fun j l => xo kd c0 f m q k j l n) (Wo k)) = dx m q n.
  Proof using All.
    intros Hq Hn. unfold xd, xo, dx.
    rewrite (apply_row_ext nd gdim _ (fun j l => delta l n * kd_phi kd (pos q) j + ((- m q n) * (kd_phi kd (pos q) j * ns q l) + (- gam) * st kd c0 coords f q j l n))) by (intros; ring).
    rewrite apply_row_plus, apply_row_comb, st_row, (delta_row n (fun j _ => kd_phi kd (pos q) j)) by auto. rewrite <- (L row_phi_ns q).
    rewrite (rsum_ext links _ (fun k => rsum nd (fun j => contact_test kd f c0 q k j n * Wo k j n) + (- m q n) * apply_row nd gdim (fun j l => contact_test kd f c0 q k j l * ns q l) (Wo k))).
    2:{ intros k Hk. rewrite <- (delta_row n (fun j l => contact_test kd f c0 q k j l)), <- apply_row_scal, <- apply_row_plus by auto. apply apply_row_ext. intros; unfold contact_test, test_index; ring. }
    rewrite rsum_plus, rsum_scal, <- (L row_test_ns q). fold (duo q n). unfold ContactCurveProofs.djn. unfold ContactCurveProofs.du. ring.
  Qed.
  Lemma dind_rows q : In q qs ->
    apply_row nd gdim (fun j l => kd_phi kd (pos q) j * ns q l - gam * basis_sign kd c0 (geo q) f q j l) W
      - rsum links (fun k => apply_row nd gdim (fun j l => contact_test kd f c0 q k j l * ns q l) (Wo k)) = dind q.
  Proof using All.
    intros Hq. rewrite (apply_row_ext nd gdim _ (fun j l => 1 * (kd_phi kd (pos q) j * ns q l) + (- gam) * basis_sign kd c0 (geo q) f q j l)) by (intros; ring).
    rewrite apply_row_comb, <- (L row_phi_ns q), <- (L row_test_ns q). unfold ContactCurveProofs.dind, ContactCurveProofs.djn. fold (dsn q). ring.
  Qed.
  Lemma Jt_row J (x : nat -> nat -> nat -> R) a V : apply_row nd gdim (fun j l => Jt kd J (x j l) a) V = rsum bs (fun n => nth (n * bs + a) J 0 * apply_row nd gdim (fun j l => x j l n) V).
  Proof using All. unfold Jt. rewrite (apply_row_sum nd gdim bs (fun n j l => nth (n * bs + a) J 0 * x j l n)). apply rsum_ext. intros n _. now rewrite apply_row_scal. Qed.
  Lemma Jt_rows J m q a : In q qs ->
    apply_row nd gdim (fun j l => Jt kd J (xd kd c0 w coords f m q j l) a) W - rsum links (fun k => apply_row nd gdim (fun j l => Jt kd J (xo kd c0 f m q k j l) a) (Wo k)) =
    rsum bs (fun n => nth (n * bs + a) J 0 * dx m q n).
  Proof using All.
    intros Hq. rewrite (Jt_row J (fun j l => xd kd c0 w coords f m q j l)).
    rewrite (rsum_ext links _ (fun k => rsum bs (fun n => nth (n * bs + a) J 0 * apply_row nd gdim (fun j l => xo kd c0 f m q k j l n) (Wo k)))) by (intros k _; apply (Jt_row J (fun j l => xo kd c0 f m q k j l))).
    rewrite (rsum_swap links bs), <- rsum_minus. apply rsum_ext. intros n Hn. rewrite rsum_scal. rewrite <- (dx_rows m q n Hq) by (rewrite <- Hbs; auto). ring.
  Qed.

  (** *** Kernels with a projected multiplier *)
  Section Multiplier.
    Context (proj : R -> nat -> list R) (D : nat -> nat -> nat -> nat -> R) (Do : nat -> nat -> nat -> nat -> nat -> R).
    Context (HP : forall q a, In q qs -> (a < bs)%nat ->
      derivable_pt_lim (fun t => nth a (proj t q) 0) 0 (apply_row nd gdim (fun j l => D q j l a) W - rsum links (fun k => apply_row nd gdim (fun j l => Do q k j l a) (Wo k)))).
    Notation DP q a := (apply_row nd gdim (fun j l => D q j l a) W - rsum links (fun k => apply_row nd gdim (fun j l => Do q k j l a) (Wo k))).

    Lemma tested_derivable q (v : nat -> R) : In q qs -> derivable_pt_lim (fun t => rsum bs (fun a => nth a (proj t q) 0 * v a)) 0 (rsum bs (fun a => DP q a * v a)).
    Proof using All. intros Hq. apply (derivable_rsum bs (fun a t => nth a (proj t q) 0 * v a)). intros a Ha. apply derivable_scal_r. auto. Qed.
    Lemma tested_row (X : nat -> nat -> nat -> R) (v : nat -> R) V : apply_row nd bs (fun j l => rsum bs (fun a => X j l a * v a)) V = rsum bs (fun a => apply_row nd gdim (fun j l => X j l a) V * v a).
    Proof using All.
      rewrite (apply_row_sum nd bs bs (fun a j l => X j l a * v a)). apply rsum_ext. intros a _. rewrite Hbs. rewrite Rmult_comm, <- apply_row_scal. apply apply_row_ext. intros; ring.
    Qed.

    Lemma cell_derivative i n : (n < bs)%nat ->
      derivable_pt_lim (fun t => lsum qs (fun q => 0.5 * gamma_inv_of (C t) w * w0 q * rsum bs (fun a => nth a (proj t q) 0 * tv0 kd (C t) w coords f q i n a)
          - 0.5 * gamma_of (C t) w * theta * w0 q * rsum bs (fun a => stu kd (C t) coords f q a * st kd (C t) coords f q i n a))) 0
        (apply_row nd bs (fun j l => lsum qs (fun q => 0.5 * gami * w0 q * rsum bs (fun a => D q j l a * tv0 kd c0 w coords f q i n a)
            - 0.5 * gam * theta * w0 q * rsum bs (fun a => st kd c0 coords f q j l a * st kd c0 coords f q i n a))) W
         + rsum links (fun k => apply_row nd bs (fun j l => lsum qs (fun q => - (0.5 * gami * w0 q * rsum bs (fun a => Do q k j l a * tv0 kd c0 w coords f q i n a)))) (Wo k))).
    Proof using All.
      intros Hn. assert (Hn' : (n < gdim)%nat) by (rewrite <- Hbs; auto).
      eapply derivable_eq.
      - apply derivable_lsum. intros q Hq. eapply derivable_ext.
        { intros t. rewrite (L line_gamma t), (L line_gamma_inv t).
          rewrite (rsum_ext bs _ (fun a => nth a (proj t q) 0 * tv0 kd c0 w coords f q i n a)) by (intros a Ha; rewrite Hbs in Ha; now rewrite (tv0_line t)).
          rewrite (rsum_ext bs (fun a => stu kd (C t) coords f q a * _) (fun a => (stu kd c0 coords f q a + t * (ds q a - dsn q * ns q a)) * st kd c0 coords f q i n a))
            by (intros a Ha; rewrite Hbs in Ha; now rewrite (st_line t), (stu_line t)). reflexivity. }
        apply derivable_minus; apply derivable_scal; [now apply tested_derivable|].
        apply (derivable_rsum bs (fun a t => (stu kd c0 coords f q a + t * (ds q a - dsn q * ns q a)) * st kd c0 coords f q i n a)).
        intros a Ha. apply derivable_scal_r. apply derivable_affine.
      - rewrite apply_row_lsum. rewrite (rsum_ext links _ (fun k => lsum qs _)) by (intros k Hk; apply apply_row_lsum).
        rewrite <- lsum_rsum, <- lsum_plus. apply lsum_ext. intros q Hq. cbv beta.
        rewrite (apply_row_ext nd bs _ (fun j l => (0.5 * gami * w0 q) * rsum bs (fun a => D q j l a * tv0 kd c0 w coords f q i n a)
           + (- (0.5 * gam * theta * w0 q)) * rsum bs (fun a => st kd c0 coords f q j l a * st kd c0 coords f q i n a))) by (intros; ring).
        rewrite apply_row_comb.
        rewrite (rsum_ext links _ (fun k => (- (0.5 * gami * w0 q)) * rsum bs (fun a => apply_row nd gdim (fun j l => Do q k j l a) (Wo k) * tv0 kd c0 w coords f q i n a))).
        2:{ intros k Hk. rewrite <- (tested_row (fun j l a => Do q k j l a)), <- apply_row_scal. apply apply_row_ext. intros; ring. }
        rewrite rsum_scal, rsum_swap.
        rewrite (tested_row (fun j l a => D q j l a)), (tested_row (fun j l a => st kd c0 coords f q j l a)).
        rewrite (rsum_ext bs (fun a => apply_row nd gdim (fun j l => st kd c0 coords f q j l a) W * st kd c0 coords f q i n a) (fun a => (ds q a - dsn q * ns q a) * st kd c0 coords f q i n a)) by (intros; now rewrite st_row).
        rewrite (rsum_ext bs (fun a => rsum links _) (fun a => rsum links (fun k => apply_row nd gdim (fun j l => Do q k j l a) (Wo k)) * tv0 kd c0 w coords f q i n a)) by (intros; now rewrite <- rsum_scal_r).
        rewrite (rsum_ext bs (fun a => DP q a * _) (fun a => apply_row nd gdim (fun j l => D q j l a) W * tv0 kd c0 w coords f q i n a
           - rsum links (fun k => apply_row nd gdim (fun j l => Do q k j l a) (Wo k)) * tv0 kd c0 w coords f q i n a)) by (intros; ring).
        rewrite rsum_minus. ring.
    Qed.

    Context (H1 : contact_one_link kd f c0 links qs)
      (HZ : forall q k j l, In q qs -> (l < bs)%nat -> rsum bs (fun a => Do q k j l a * ns q a) = 0)
      (HD0 : forall q k j l a, contact_test kd f c0 q k j l = 0 -> Do q k j l a = 0).

    Lemma link_derivative k i n : (k < links)%nat -> (i < nd)%nat -> (n < bs)%nat ->
      derivable_pt_lim (fun t => lsum qs (fun q => - (0.5 * gamma_inv_of (C t) w * w0 q * rsum bs (fun a => nth a (proj t q) 0 * tvk kd (C t) f q k i n a)))) 0
        (apply_row nd bs (fun j l => lsum qs (fun q => - (0.5 * gami * w0 q * rsum bs (fun a => D q j l a * tvk kd c0 f q k i n a)))) W
         + apply_row nd bs (fun j l => lsum qs (fun q => 0.5 * gami * w0 q * Do q k j l n * nth (test_index kd (off 3) np q k i n) c0 0
             - 0.5 * gami * (nth (test_index kd (off 3) np q k i n) c0 0 * ns q n) * rsum bs (fun a => Do q k j l a * ns q a))) (Wo k)).
    Proof using All.
      intros Hk Hi Hn. assert (Hn' : (n < gdim)%nat) by (rewrite <- Hbs; auto).
      eapply derivable_eq.
      - apply derivable_lsum. intros q Hq. eapply derivable_ext.
        { intros t. rewrite (L line_gamma_inv t).
          rewrite (rsum_ext bs _ (fun a => nth a (proj t q) 0 * tvk kd c0 f q k i n a)) by (intros a Ha; rewrite Hbs in Ha; now rewrite (tvk_line t)). reflexivity. }
        apply derivable_opp, derivable_scal. now apply tested_derivable.
      - rewrite !apply_row_lsum, <- lsum_plus. apply lsum_ext. intros q Hq. cbv beta.
        rewrite (apply_row_ext nd bs _ (fun j l => (- (0.5 * gami * w0 q)) * rsum bs (fun a => D q j l a * tvk kd c0 f q k i n a)) W) by (intros; ring).
        rewrite (apply_row_ext nd bs _ (fun j l => (0.5 * gami * w0 q) * rsum bs (fun a => Do q k j l a * tvk kd c0 f q k i n a)) (Wo k)).
        2:{ intros j l _ Hl. set (te := nth (test_index kd (off 3) np q k i n) c0 0).
            rewrite (rsum_ext bs (fun a => Do q k j l a * tvk kd c0 f q k i n a) (fun a => (Do q k j l a * te) * delta n a - (te * ns q n) * (Do q k j l a * ns q a))) by (intros; unfold tvk; fold te; ring).
            rewrite rsum_minus, rsum_scal, HZ by auto. rewrite (delta_sum_r bs n (fun a => Do q k j l a * te)) by auto. ring. }
        rewrite !apply_row_scal. destruct (H1 q Hq) as [k0 H0].
        rewrite (tested_row (fun j l a => D q j l a)), (tested_row (fun j l a => Do q k j l a)).
        destruct (Nat.eq_dec k k0) as [<-|Ne].
        + rewrite (rsum_ext bs (fun a => DP q a * _) (fun a => apply_row nd gdim (fun j l => D q j l a) W * tvk kd c0 f q k i n a
           - apply_row nd gdim (fun j l => Do q k j l a) (Wo k) * tvk kd c0 f q k i n a)); [rewrite rsum_minus; ring|].
          intros a Ha. rewrite (rsum_single links k); [ring | exact Hk |].
          intros k' Hk' N. apply rsum_zero. intros j Hj. apply rsum_zero. intros l Hl. rewrite HD0; [ring|]. apply H0; auto. rewrite Hbs. auto.
        + assert (Z : forall a, tvk kd c0 f q k i n a = 0).
          { intros a. unfold tvk. change (nth (test_index kd (off 3) np q k i n) c0 0) with (contact_test kd f c0 q k i n). rewrite H0 by auto. ring. }
          rewrite !(rsum_ext bs (fun a => _ * tvk kd c0 f q k i n a) (fun _ => 0)) by (intros; rewrite Z; ring). rewrite !rsum_0. ring.
    Qed.
  End Multiplier.
End Line.
