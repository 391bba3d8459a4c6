(** Properties C38, C39, C40: positive/negative part, ball projection. *)
From Coq Require Import List Arith Lia Bool Reals Lra.
Import ListNotations.
From Verif Require Import Prelude PreludeLemmas RSum CropModel CandidatesProps RealLemmas OpsModel.
Local Open Scope R_scope.

(** ** C38 *)
Lemma R_plus_max x : R_plus x = Rmax x 0.
Proof. unfold R_plus, Rmax. destruct (Rle_dec x 0); unfold Rabs; destruct (Rcase_abs x); lra. Qed.
Lemma R_minus_min x : R_minus x = Rmin x 0.
Proof. unfold R_minus, Rmin. destruct (Rle_dec x 0); unfold Rabs; destruct (Rcase_abs x); lra. Qed.

Theorem C38_parts :
  (forall x, R_plus x = Rmax x 0) /\ (forall x, R_minus x = Rmin x 0) /\
  (forall x, R_plus x + R_minus x = x) /\ (forall x, R_plus x * R_minus x = 0) /\
  (forall x, R_plus (R_plus x) = R_plus x) /\ (forall x, R_minus (R_minus x) = R_minus x) /\
  (forall x y, x <= y -> R_plus x <= R_plus y /\ R_minus x <= R_minus y) /\
  (forall x y, Rabs (R_plus x - R_plus y) <= Rabs (x - y) /\ Rabs (R_minus x - R_minus y) <= Rabs (x - y)).
Proof.
  split; [exact R_plus_max|]. split; [exact R_minus_min|].
  unfold R_plus, R_minus.
  repeat split; intros; unfold Rabs; repeat match goal with |- context [Rcase_abs ?z] => destruct (Rcase_abs z) end; try lra;
  try (match goal with H : 0.5 * (?a + _) < 0 |- _ => nra end); nra.
Qed.
Print Assumptions C38_parts.

Theorem C38_derivatives :
  forall x, x <> 0 -> derivable_pt_lim R_plus x (dR_plus x) /\ derivable_pt_lim R_minus x (dR_minus x).
Proof.
  intros x Hx. unfold dR_plus, dR_minus.
  assert (Ha : 0 < Rabs x) by now apply Rabs_pos_lt.
  destruct (rlt 0 x) eqn:E; [apply rlt_true in E|apply rlt_false in E].
  - assert (rlt x 0 = false) as -> by (apply rlt_false; lra). split.
    + apply (derivable_local _ (fun t => t) x 1 x); auto; [|apply derivable_pt_lim_id].
      intros y Hy. apply Rabs_def2 in Hy. rewrite R_plus_max. apply Rmax_left. lra.
    + apply (derivable_local _ (fun t => 0) x 0 x); auto; [|apply derivable_const].
      intros y Hy. apply Rabs_def2 in Hy. rewrite R_minus_min. apply Rmin_right. lra.
  - assert (rlt x 0 = true) as -> by (apply rlt_true; lra). split.
    + apply (derivable_local _ (fun t => 0) x 0 (- x)); [lra| |apply derivable_const].
      intros y Hy. apply Rabs_def2 in Hy. rewrite R_plus_max. apply Rmax_right. lra.
    + apply (derivable_local _ (fun t => t) x 1 (- x)); [lra| |apply derivable_pt_lim_id].
      intros y Hy. apply Rabs_def2 in Hy. rewrite R_minus_min. apply Rmin_left. lra.
Qed.
Print Assumptions C38_derivatives.

(** Python and C++ agree, except for the derivatives at zero (1/2 against 0). *)
Theorem C38_python_agrees :
  (forall x, py_R_plus x = R_plus x /\ py_R_minus x = R_minus x) /\
  (forall x, x <> 0 -> py_dR_plus x = dR_plus x /\ py_dR_minus x = dR_minus x) /\
  py_dR_plus 0 = 1 / 2 /\ dR_plus 0 = 0 /\ py_dR_minus 0 = 1 / 2 /\ dR_minus 0 = 0.
Proof.
  assert (Z : rlt 0 0 = false) by (apply rlt_false; lra).
  split; [intros x; unfold py_R_plus, R_plus, py_R_minus, R_minus; split; [ring|reflexivity]|].
  split.
  - intros x Hx. unfold py_dR_plus, dR_plus, py_dR_minus, dR_minus, sgn.
    destruct (rlt 0 x) eqn:E1, (rlt x 0) eqn:E2; rewrite ?rlt_true, ?rlt_false in *; lra.
  - unfold py_dR_plus, dR_plus, py_dR_minus, dR_minus, sgn. rewrite Z. lra.
Qed.
Print Assumptions C38_python_agrees.

(** ** C39 *)
Lemma map_nth_seq_R (l : list R) : map (fun i => nth i l 0) (seq 0 (length l)) = l.
Proof.
  apply (nth_ext' _ _ 0); [now rewrite map_length, seq_length|]. intros i Hi. rewrite map_length, seq_length in Hi.
  rewrite (nth_map_lt _ _ i 0 0%nat) by (now rewrite seq_length). now rewrite seq_nth.
Qed.
Lemma norm_squared_eq x : norm_squared x = dotn (length x) x x.
Proof.
  unfold norm_squared. rewrite for_each_lsum. rewrite Rplus_0_l. unfold dotn.
  rewrite <- (lsum_seq (length x) (fun i => nth i x 0 * nth i x 0)).
  rewrite <- (lsum_map (fun i => nth i x 0) (seq 0 (length x)) (fun v => v * v)). rewrite map_nth_seq_R.
  apply lsum_ext. intros. ring.
Qed.
Lemma norm_is x : sqrt (norm_squared x) = normn (length x) x.
Proof. unfold normn. now rewrite norm_squared_eq. Qed.

Lemma rle_spec a b : rle a b = true <-> a <= b.
Proof. unfold rle. destruct (rlt b a) eqn:E; cbn; [apply rlt_true in E|apply rlt_false in E]; split; intros; try discriminate; auto; lra. Qed.
Lemma rle_false a b : rle a b = false <-> b < a.
Proof. unfold rle. destruct (rlt b a) eqn:E; cbn; [apply rlt_true in E|apply rlt_false in E]; split; intros; try discriminate; auto; lra. Qed.

Lemma ball_projection_length x alpha : length (ball_projection x alpha) = length x.
Proof. unfold ball_projection. destruct (rle _ _); auto. now rewrite map_length. Qed.

(** Distance of two vectors of length n. *)
Definition distn (n : nat) (x y : list R) : R := sqrt (rsum n (fun i => (nth i x 0 - nth i y 0) * (nth i x 0 - nth i y 0))).

(** x - P x as a multiple of x. *)
Lemma ball_projection_nth x alpha i :
  nth i (ball_projection x alpha) 0 = (if rle (normn (length x) x) alpha then 1 else alpha / normn (length x) x) * nth i x 0.
Proof.
  unfold ball_projection. rewrite norm_is. destruct (rle (normn (length x) x) alpha) eqn:E; [ring|].
  destruct (Nat.lt_ge_cases i (length x)) as [Hi|Hi].
  - rewrite (nth_map_lt _ x i 0 0) by auto. unfold Rdiv. ring.
  - rewrite !nth_overflow by (rewrite ?map_length; auto). ring.
Qed.

(** <x - Px, y - Px> <= 0 for all y of the ball: P x is the projection. *)
Lemma projection_obtuse x alpha y :
  0 <= alpha -> normn (length x) y <= alpha ->
  rsum (length x) (fun i => (nth i x 0 - nth i (ball_projection x alpha) 0) * (nth i y 0 - nth i (ball_projection x alpha) 0)) <= 0.
Proof.
  intros Ha Hy. set (n := length x) in *.
  destruct (rle (normn n x) alpha) eqn:E.
  - rewrite (rsum_ext n _ (fun _ => 0)); [rewrite rsum_0; lra|]. intros i _. rewrite ball_projection_nth. fold n. rewrite E. ring.
  - apply rle_false in E. set (N := normn n x) in *. assert (HN : 0 < N) by lra.
    assert (Ef : rle N alpha = false) by (apply rle_false; auto).
    rewrite (rsum_ext n _ (fun i => (1 - alpha / N) * (nth i x 0 * nth i y 0) - (1 - alpha / N) * (alpha / N) * (nth i x 0 * nth i x 0))).
    2:{ intros i _. rewrite ball_projection_nth. fold n N. rewrite Ef. ring. }
    rewrite rsum_minus, !rsum_scal. fold (dotn n x y) (dotn n x x). rewrite <- normn_sq. fold N.
    assert (CS : dotn n x y <= N * alpha).
    { eapply Rle_trans; [apply cauchy_schwarz|]. fold N. apply Rmult_le_compat_l; lra. }
    replace ((1 - alpha / N) * (alpha / N) * (N * N)) with ((1 - alpha / N) * (alpha * N)) by (field; lra).
    assert (0 <= 1 - alpha / N). { assert (alpha / N <= 1); [|lra]. apply (Rmult_le_reg_r N); auto. unfold Rdiv. rewrite Rmult_assoc, Rinv_l; lra. }
    nra.
Qed.

Lemma ball_projection_norm x alpha : 0 <= alpha -> normn (length x) (ball_projection x alpha) <= alpha.
Proof.
  intros Ha. unfold normn at 1, dotn.
  rewrite (rsum_ext _ _ (fun i => ((if rle (normn (length x) x) alpha then 1 else alpha / normn (length x) x) * (if rle (normn (length x) x) alpha then 1 else alpha / normn (length x) x)) * (nth i x 0 * nth i x 0)))
    by (intros i _; rewrite ball_projection_nth; ring).
  rewrite rsum_scal. fold (dotn (length x) x x). rewrite <- normn_sq. set (N := normn (length x) x).
  assert (HN : 0 <= N) by apply normn_nonneg.
  destruct (rle N alpha) eqn:E; [apply rle_spec in E|apply rle_false in E].
  - replace (1 * 1 * (N * N)) with (N * N) by ring. rewrite sqrt_square by auto. auto.
  - replace (alpha / N * (alpha / N) * (N * N)) with (alpha * alpha) by (field; lra). rewrite sqrt_square by auto. lra.
Qed.

(** In the ball, nearest to x among all points of the ball, identity on the ball,
    and non-expansive.  [length x] is 3 in C++; y ranges over vectors. *)
Theorem C39_ball_projection_metric :
  forall x alpha, 0 <= alpha ->
    let n := length x in
    let p := ball_projection x alpha in
    length p = n /\ normn n p <= alpha /\
    (forall y, normn n y <= alpha -> distn n x p <= distn n x y) /\
    (normn n x <= alpha -> p = x) /\
    ball_projection p alpha = p /\
    (forall x', length x' = n -> distn n p (ball_projection x' alpha) <= distn n x x').
Proof.
  intros x alpha Ha n p. split; [apply ball_projection_length|]. split; [now apply ball_projection_norm|].
  assert (Hid : forall x, normn (length x) x <= alpha -> ball_projection x alpha = x).
  { intros z Hz. unfold ball_projection. rewrite norm_is. apply rle_spec in Hz. now rewrite Hz. }
  split; [|split; [apply Hid|split]].
  - intros y Hy. apply sqrt_le_1_alt.
    pose proof (projection_obtuse x alpha y Ha Hy) as H. fold n p in H.
    assert (Q : 0 <= rsum n (fun i => (nth i p 0 - nth i y 0) * (nth i p 0 - nth i y 0))) by (apply rsum_nonneg; intros; apply Rle_0_sqr).
    rewrite (rsum_ext n (fun i => (nth i x 0 - nth i y 0) * (nth i x 0 - nth i y 0))
       (fun i => (nth i x 0 - nth i p 0) * (nth i x 0 - nth i p 0) + ((-2) * ((nth i x 0 - nth i p 0) * (nth i y 0 - nth i p 0)) + (nth i p 0 - nth i y 0) * (nth i p 0 - nth i y 0))))
      by (intros; ring).
    rewrite !rsum_plus, rsum_scal. lra.
  - apply Hid. unfold p. rewrite ball_projection_length. now apply ball_projection_norm.
  - intros x' Hl. apply sqrt_le_1_alt.
    pose proof (projection_obtuse x alpha (ball_projection x' alpha) Ha) as H1. fold n p in H1.
    pose proof (projection_obtuse x' alpha p Ha) as H2. rewrite Hl in H2.
    set (p' := ball_projection x' alpha) in *.
    assert (B1 : normn n p' <= alpha) by (unfold p'; rewrite <- Hl; now apply ball_projection_norm).
    assert (B2 : normn n p <= alpha) by now apply ball_projection_norm.
    specialize (H1 B1). specialize (H2 B2).
    assert (Q : 0 <= rsum n (fun i => ((nth i x 0 - nth i p 0) - (nth i x' 0 - nth i p' 0)) * ((nth i x 0 - nth i p 0) - (nth i x' 0 - nth i p' 0)))) by (apply rsum_nonneg; intros; apply Rle_0_sqr).
    rewrite (rsum_ext n (fun i => (nth i x 0 - nth i x' 0) * (nth i x 0 - nth i x' 0))
       (fun i => (nth i p 0 - nth i p' 0) * (nth i p 0 - nth i p' 0) +
         (((nth i x 0 - nth i p 0) - (nth i x' 0 - nth i p' 0)) * ((nth i x 0 - nth i p 0) - (nth i x' 0 - nth i p' 0)) +
          ((-2) * ((nth i x 0 - nth i p 0) * (nth i p' 0 - nth i p 0)) + (-2) * ((nth i x' 0 - nth i p' 0) * (nth i p 0 - nth i p' 0))))))
      by (intros; ring).
    rewrite !rsum_plus, !rsum_scal. lra.
Qed.
Print Assumptions C39_ball_projection_metric.

Theorem C39_python_agrees :
  forall x s dim, length x = dim -> py_ball_projection x s dim = ball_projection x s.
Proof.
  intros x s dim H. unfold py_ball_projection, ball_projection, py_abs. rewrite norm_is, lsum_seq. unfold normn, dotn. rewrite H.
  rewrite (rsum_ext dim (fun i => nth i x 0 ^ 2) (fun i => nth i x 0 * nth i x 0)) by (intros; ring). reflexivity.
Qed.
Print Assumptions C39_python_agrees.

(** ** C40 *)

(** Entry (i, j) of the matrix the code fills, in closed form. *)
Lemma d_ball_entry len x alpha bs i j :
  (bs * bs <= len)%nat -> (i < bs)%nat -> (j < bs)%nat -> 1 / 10 ^ 14 <= alpha ->
  nth (i * bs + j) (d_ball_projection_in len x alpha bs) 0 =
  let N := normn (length x) x in
  if rlt N alpha then (if (i =? j)%nat then 1 else 0)
  else (if (i =? j)%nat then alpha / N else 0) - alpha * nth i x 0 * nth j x 0 / (N * dotn (length x) x x).
Proof.
  intros Hlen Hi Hj Ha. unfold d_ball_projection_in.
  assert (rlt alpha (1 / 10 ^ 14) = false) as -> by (apply rlt_false; auto).
  cbn zeta. rewrite norm_is, norm_squared_eq. set (N := normn (length x) x). set (n2 := dotn (length x) x x).
  assert (IJ : forall a b c d, (b < bs)%nat -> (d < bs)%nat -> (a * bs + b = c * bs + d)%nat -> a = c /\ b = d).
  { intros a b c d Hb Hd E. assert (a = c) by (destruct (Nat.lt_trichotomy a c) as [L|[L|L]]; auto; nia). subst. lia. }
  destruct (rlt N alpha).
  - assert (G : forall m, (m <= bs)%nat -> let d := for_loop m (fun j d => upd d (j * bs + j) 1) (repeat 0 len) in
       length d = len /\ nth (i * bs + j) d 0 = if (i =? j)%nat && (i <? m)%nat then 1 else 0).
    { induction m as [|m IH]; intros Hm.
      - cbn. rewrite repeat_length, nth_repeat_0, andb_false_r. auto.
      - destruct IH as [I1 I2]; [lia|]. rewrite for_loop_S. cbn zeta. rewrite upd_length. split; auto.
        rewrite nth_upd, I1. destruct (Nat.eqb_spec (m * bs + m) (i * bs + j)) as [E|E]; cbn [andb].
        + apply IJ in E; [|lia|lia]. destruct E as [<- <-]. rewrite Nat.eqb_refl.
          destruct (Nat.ltb_spec (m * bs + m) len); [|nia]. destruct (Nat.ltb_spec m (S m)); [reflexivity|lia].
        + rewrite I2. destruct (Nat.eqb_spec i j) as [<-|Hne]; cbn [andb]; auto.
          destruct (Nat.ltb_spec i m), (Nat.ltb_spec i (S m)); auto; try lia. assert (i = m) by lia. subst. lia. }
    destruct (G bs (le_n _)) as [_ ->]. destruct (Nat.ltb_spec i bs); [|lia]. now rewrite andb_true_r.
  - set (inner := fun i0 m d => for_loop m (fun j0 d => upd d (i0 * bs + j0) (nth (i0 * bs + j0) d 0 - alpha * nth i0 x 0 * nth j0 x 0 / (N * n2))) d).
    assert (GI : forall i0 d m, (i0 < bs)%nat -> (m <= bs)%nat -> length d = len ->
       length (inner i0 m d) = len /\
       nth (i * bs + j) (inner i0 m d) 0 = if (i0 =? i)%nat && (j <? m)%nat then nth (i * bs + j) d 0 - alpha * nth i x 0 * nth j x 0 / (N * n2) else nth (i * bs + j) d 0).
    { intros i0 d. induction m as [|m IH]; intros Hi0 Hm Hd; [cbn; rewrite andb_false_r; auto|].
      destruct IH as [I1 I2]; auto; [lia|]. unfold inner in *. rewrite for_loop_S, upd_length. split; auto.
      rewrite nth_upd, I1. destruct (Nat.eqb_spec (i0 * bs + m) (i * bs + j)) as [E|E]; cbn [andb].
      - apply IJ in E; [|lia|lia]. destruct E as [-> ->]. destruct (Nat.ltb_spec (i * bs + j) len); [|nia].
        rewrite I2, Nat.eqb_refl. destruct (Nat.ltb_spec j j), (Nat.ltb_spec j (S j)); try lia. cbn [andb]. reflexivity.
      - rewrite I2. destruct (Nat.eqb_spec i0 i) as [->|Hne]; cbn [andb]; auto.
        destruct (Nat.ltb_spec j m), (Nat.ltb_spec j (S m)); auto; lia. }
    assert (G : forall m, (m <= bs)%nat -> let d := for_loop m (fun i0 d => inner i0 bs (upd d (i0 * bs + i0) (nth (i0 * bs + i0) d 0 + alpha / N))) (repeat 0 len) in
       length d = len /\ (forall p, (m * bs <= p)%nat -> (p < len)%nat -> nth p d 0 = 0) /\
       nth (i * bs + j) d 0 = if (i <? m)%nat then (if (i =? j)%nat then alpha / N else 0) - alpha * nth i x 0 * nth j x 0 / (N * n2) else 0).
    { induction m as [|m IH]; intros Hm.
      - cbn. rewrite repeat_length, nth_repeat_0. repeat split; auto. intros. apply nth_repeat_0.
      - destruct IH as (I1 & I2 & I3); [lia|]. rewrite for_loop_S. cbn zeta. set (d := for_loop m _ _) in *.
        set (d1 := upd d (m * bs + m) (nth (m * bs + m) d 0 + alpha / N)).
        assert (L1 : length d1 = len) by (unfold d1; now rewrite upd_length).
        destruct (GI m d1 bs ltac:(lia) (le_n _) L1) as [J1 J2]. split; auto. split.
        + intros p Hp Hpl.
          assert (Hin : forall k, (k <= bs)%nat -> nth p (inner m k d1) 0 = nth p d1 0).
          { unfold inner. induction k as [|k IHk]; intros Hk; auto. rewrite for_loop_S, nth_upd_other by nia. apply IHk. lia. }
          rewrite Hin by auto. unfold d1. rewrite nth_upd_other by nia. apply I2; nia.
        + rewrite J2. destruct (Nat.ltb_spec j bs); [|lia]. rewrite andb_true_r.
          unfold d1. rewrite nth_upd, I1.
          destruct (Nat.eqb_spec m i) as [->|Hne].
          * destruct (Nat.ltb_spec i (S i)), (Nat.ltb_spec i i); try lia.
            destruct (Nat.eqb_spec (i * bs + i) (i * bs + j)) as [E|E]; cbn [andb].
            -- assert (i = j) by lia. subst j. rewrite Nat.eqb_refl. destruct (Nat.ltb_spec (i * bs + i) len); [|nia].
               rewrite I3. ring.
            -- destruct (Nat.eqb_spec i j) as [->|_]; [lia|]. rewrite I3. ring.
          * destruct (Nat.eqb_spec (m * bs + m) (i * bs + j)) as [E|E]; cbn [andb].
            -- apply IJ in E; lia.
            -- rewrite I3. destruct (Nat.ltb_spec i m), (Nat.ltb_spec i (S m)); auto; lia. }
    destruct (G bs (le_n _)) as (_ & _ & E). destruct (Nat.ltb_spec i bs); [|lia]. exact E.
Qed.

(** x + t h, componentwise. *)
Definition shift (x h : list R) (t : R) : list R := map (fun i => nth i x 0 + t * nth i h 0) (seq 0 (length x)).
Lemma shift_length x h t : length (shift x h t) = length x.
Proof. unfold shift. now rewrite map_length, seq_length. Qed.
Lemma shift_nth x h t i : (i < length x)%nat -> nth i (shift x h t) 0 = nth i x 0 + t * nth i h 0.
Proof. intros Hi. unfold shift. rewrite (nth_map_lt _ _ i 0 0%nat) by (now rewrite seq_length). rewrite seq_nth; auto. Qed.
Lemma shift_0 x h : shift x h 0 = x.
Proof.
  apply (nth_ext' _ _ 0); [apply shift_length|]. intros i Hi. rewrite shift_length in Hi. rewrite shift_nth by auto. ring.
Qed.

Lemma dotn_shift_derivable x h t :
  derivable_pt_lim (fun t => dotn (length x) (shift x h t) (shift x h t)) t (2 * dotn (length x) (shift x h t) h).
Proof.
  unfold dotn. apply (derivable_eq _ _ (rsum (length x) (fun i => nth i h 0 * (nth i x 0 + t * nth i h 0) + (nth i x 0 + t * nth i h 0) * nth i h 0))).
  - apply (derivable_ext _ (fun t => rsum (length x) (fun i => (nth i x 0 + t * nth i h 0) * (nth i x 0 + t * nth i h 0)))).
    + intros y. apply rsum_ext. intros i Hi. rewrite !shift_nth by auto. reflexivity.
    + apply (derivable_rsum _ (fun i t => (nth i x 0 + t * nth i h 0) * (nth i x 0 + t * nth i h 0))). intros i Hi.
      apply (derivable_mult (fun t => nth i x 0 + t * nth i h 0) (fun t => nth i x 0 + t * nth i h 0)); apply derivable_affine.
  - rewrite <- rsum_scal. apply rsum_ext. intros i Hi. rewrite shift_nth by auto. ring.
Qed.
Lemma normn_shift_derivable x h :
  0 < normn (length x) x -> derivable_pt_lim (fun t => normn (length x) (shift x h t)) 0 (dotn (length x) x h / normn (length x) x).
Proof.
  intros HN. assert (HD : 0 < dotn (length x) x x) by (rewrite <- normn_sq; nra).
  apply (derivable_eq _ _ (2 * dotn (length x) (shift x h 0) h / (2 * sqrt (dotn (length x) (shift x h 0) (shift x h 0))))).
  - apply (derivable_sqrt (fun t => dotn (length x) (shift x h t) (shift x h t))); [apply dotn_shift_derivable|]. now rewrite shift_0.
  - rewrite shift_0. fold (normn (length x) x). field. lra.
Qed.

(** Joint derivative in the vector and the radius: along x + t h, alpha + t da, each
    component of the projection has as derivative at t = 0 the matrix returned by
    d_ball_projection applied to h plus d_alpha_ball_projection.  Components from
    [bs] on (the third in 2D) are zero in x and h. *)
Theorem C40_ball_projection_derivative :
  forall (x h : list R) (alpha da : R) (bs : nat),
    length x = 3%nat -> (bs <= 3)%nat -> (forall i, (bs <= i)%nat -> nth i x 0 = 0 /\ nth i h 0 = 0) ->
    1 / 10 ^ 14 <= alpha -> normn 3 x <> alpha ->
    forall i, (i < bs)%nat ->
      derivable_pt_lim (fun t => nth i (ball_projection (shift x h t) (alpha + t * da)) 0) 0
        (rsum bs (fun j => nth (i * bs + j) (d_ball_projection x alpha bs) 0 * nth j h 0)
         + nth i (d_alpha_ball_projection x alpha da) 0).
Proof.
  intros x h alpha da bs Hl Hbs H0 Ha Hne i Hi.
  assert (HA : 0 < alpha). { eapply Rlt_le_trans; [|exact Ha]. unfold Rdiv. rewrite Rmult_1_l. apply Rinv_0_lt_compat, pow_lt. lra. }
  assert (Hil : (i < length x)%nat) by lia.
  set (N := normn (length x) x). assert (HN0 : 0 <= N) by apply normn_nonneg. assert (HNe : N <> alpha) by (unfold N; now rewrite Hl).
  unfold d_ball_projection.
  rewrite (rsum_ext bs _ (fun j => (if rlt N alpha then (if (i =? j)%nat then 1 else 0)
     else (if (i =? j)%nat then alpha / N else 0) - alpha * nth i x 0 * nth j x 0 / (N * dotn (length x) x x)) * nth j h 0)).
  2:{ intros j Hj. rewrite d_ball_entry by (auto; nia). reflexivity. }
  unfold d_alpha_ball_projection. rewrite norm_is. fold N.
  assert (DH : rsum bs (fun j => nth j x 0 * nth j h 0) = dotn (length x) x h).
  { unfold dotn. replace (length x) with (bs + (3 - bs))%nat by lia. rewrite rsum_app.
    rewrite (rsum_zero (3 - bs)); [ring|]. intros k Hk. destruct (H0 (bs + k)%nat ltac:(lia)) as [-> _]. ring. }
  assert (ID : rsum bs (fun j => (if (i =? j)%nat then 1 else 0) * nth j h 0) = nth i h 0).
  { rewrite (rsum_ext bs _ (fun j => (if (j =? i)%nat then 1 else 0) * nth j h 0)) by (intros; now rewrite Nat.eqb_sym).
    now apply rsum_delta. }
  destruct (rlt N alpha) eqn:E1; [apply rlt_true in E1|apply rlt_false in E1].
  - (* inside: the projection is the identity near t = 0 *)
    assert (rlt alpha N = false) as -> by (apply rlt_false; lra).
    rewrite ID. rewrite (nth_map_lt _ x i 0 0) by auto. rewrite Rplus_0_r.
    assert (KD : derivable_pt_lim (fun t => dotn (length x) (shift x h t) (shift x h t) - (alpha + t * da) * (alpha + t * da)) 0
        (2 * dotn (length x) (shift x h 0) h - (da * (alpha + 0 * da) + (alpha + 0 * da) * da))).
    { apply derivable_minus; [apply dotn_shift_derivable|]. apply (derivable_mult (fun t => alpha + t * da) (fun t => alpha + t * da)); apply derivable_affine. }
    destruct (stays_below _ _ _ 0 KD) as (d1 & Hd1 & K1).
    { rewrite shift_0, <- normn_sq. fold N. replace (alpha + 0 * da) with alpha by ring. nra. }
    destruct (stays_above (fun t => alpha + t * da) 0 da 0 (derivable_affine _ _ _)) as (d2 & Hd2 & K2); [lra|].
    apply (derivable_local _ (fun t => nth i x 0 + t * nth i h 0) 0 _ (Rmin d1 d2)); [now apply Rmin_pos| |apply derivable_affine].
    intros y Hy. specialize (K1 y ltac:(eapply Rlt_le_trans; [exact Hy|apply Rmin_l])). specialize (K2 y ltac:(eapply Rlt_le_trans; [exact Hy|apply Rmin_r])). cbn beta in K1, K2.
    rewrite ball_projection_nth, shift_length, shift_nth by auto.
    assert (rle (normn (length x) (shift x h y)) (alpha + y * da) = true) as ->; [|ring].
    apply rle_spec. apply Rsqr_incr_0_var; [|lra]. unfold Rsqr. rewrite normn_sq. lra.
  - assert (EN : alpha < N) by lra. assert (rlt alpha N = true) as -> by (apply rlt_true; auto).
    assert (HN : 0 < N) by lra.
    rewrite (nth_map_lt _ x i 0 0) by auto.
    rewrite (rsum_ext bs _ (fun j => alpha / N * ((if (i =? j)%nat then 1 else 0) * nth j h 0) - (alpha * nth i x 0 / (N * dotn (length x) x x)) * (nth j x 0 * nth j h 0))).
    2:{ intros j Hj. destruct (i =? j)%nat; unfold Rdiv; ring. }
    rewrite rsum_minus, !rsum_scal, ID, DH, <- normn_sq. fold N.
    pose proof (normn_shift_derivable x h HN) as DN. fold N in DN.
    destruct (stays_above (fun t => normn (length x) (shift x h t) - (alpha + t * da)) 0 (dotn (length x) x h / N - da) 0) as (d1 & Hd1 & K1).
    { apply derivable_minus; [exact DN|apply derivable_affine]. }
    { rewrite shift_0. fold N. lra. }
    apply (derivable_local _ (fun t => (alpha + t * da) / normn (length x) (shift x h t) * (nth i x 0 + t * nth i h 0)) 0 _ d1); auto.
    { intros y Hy. specialize (K1 y Hy). cbn beta in K1. rewrite ball_projection_nth, shift_length, shift_nth by auto.
      assert (rle (normn (length x) (shift x h y)) (alpha + y * da) = false) as -> by (apply rle_false; lra). reflexivity. }
    apply (derivable_eq _ _ (((da * normn (length x) (shift x h 0) - dotn (length x) x h / N * (alpha + 0 * da)) / (normn (length x) (shift x h 0) * normn (length x) (shift x h 0))) * (nth i x 0 + 0 * nth i h 0)
        + (alpha + 0 * da) / normn (length x) (shift x h 0) * nth i h 0)).
    + apply (derivable_mult (fun t => (alpha + t * da) / normn (length x) (shift x h t)) (fun t => nth i x 0 + t * nth i h 0)); [|apply derivable_affine].
      apply (derivable_div (fun t => alpha + t * da) (fun t => normn (length x) (shift x h t))); [apply derivable_affine|exact DN|].
      rewrite shift_0. fold N. lra.
    + rewrite shift_0. fold N. field. lra.
Qed.
Print Assumptions C40_ball_projection_derivative.

(** At radius zero the code's cut-off is exact: the projection is constantly zero
    away from the origin and the returned matrix is zero. *)
Theorem C40_zero_radius :
  forall (x : list R) (bs i : nat), nth i (d_ball_projection x 0 bs) 0 = 0 /\ nth i (ball_projection x 0) 0 = 0.
Proof.
  intros x bs i. split.
  - unfold d_ball_projection, d_ball_projection_in.
    assert (rlt 0 (1 / 10 ^ 14) = true) as -> by (apply rlt_true; unfold Rdiv; rewrite Rmult_1_l; apply Rinv_0_lt_compat, pow_lt; lra).
    apply nth_repeat_0.
  - rewrite ball_projection_nth. destruct (rle (normn (length x) x) 0) eqn:E; [|unfold Rdiv; ring].
    apply rle_spec in E. assert (normn (length x) x = 0) as Z by (pose proof (normn_nonneg (length x) x); lra).
    destruct (Nat.lt_ge_cases i (length x)) as [Hi|Hi]; [|rewrite nth_overflow by auto; ring].
    assert (dotn (length x) x x = 0) as D by (rewrite <- normn_sq, Z; ring).
    assert (Q : nth i x 0 * nth i x 0 = 0).
    { apply (rsum_nonneg_zero (length x) (fun i => nth i x 0 * nth i x 0)); auto. intros; apply Rle_0_sqr. }
    apply Rmult_integral in Q. lra.
Qed.
Print Assumptions C40_zero_radius.

(** The Python matrix is the C++ one wherever the derivative exists. *)
Theorem C40_python_agrees :
  forall (x : list R) (s da : R) (dim i j : nat), length x = dim -> 1 / 10 ^ 14 <= s -> normn dim x <> s -> (i < dim)%nat -> (j < dim)%nat ->
    py_d_ball_projection x s dim i j = nth (i * dim + j) (d_ball_projection_in (dim * dim) x s dim) 0 /\
    py_d_alpha_ball_projection x s da dim = d_alpha_ball_projection x s da.
Proof.
  intros x s da dim i j Hl Hs Hne Hi Hj. rewrite d_ball_entry by auto. cbn zeta. rewrite Hl.
  assert (HS : 0 < s). { eapply Rlt_le_trans; [|exact Hs]. unfold Rdiv. rewrite Rmult_1_l. apply Rinv_0_lt_compat, pow_lt. lra. }
  assert (EA : py_abs x dim = normn dim x).
  { unfold py_abs, normn, dotn. rewrite lsum_seq. f_equal. apply rsum_ext. intros; ring. }
  unfold py_d_ball_projection, py_d_alpha_ball_projection, d_alpha_ball_projection. rewrite norm_is, Hl, EA.
  rewrite <- normn_sq.
  destruct (rlt (normn dim x) s) eqn:E; [apply rlt_true in E|apply rlt_false in E].
  - assert (rle (normn dim x) s = true) as -> by (apply rle_spec; lra).
    assert (rlt s (normn dim x) = false) as -> by (apply rlt_false; lra). auto.
  - assert (rle (normn dim x) s = false) as -> by (apply rle_false; lra).
    assert (rlt s (normn dim x) = true) as -> by (apply rlt_true; lra).
    split; auto. destruct (i =? j)%nat; field; lra.
Qed.
Print Assumptions C40_python_agrees.

(** A vector outside the ball. *)
Example C39_example : ball_projection [3; 4; 0] 1 = [3 / 5; 4 / 5; 0] /\ normn 3 [3; 4; 0] <> 1.
Proof.
  assert (N : normn 3 [3; 4; 0] = 5).
  { unfold normn, dotn. cbn [rsum nth]. replace (0 + 3 * 3 + 4 * 4 + 0 * 0) with (5 * 5) by ring. apply sqrt_square. lra. }
  split; [|lra]. unfold ball_projection. rewrite norm_is. cbn [length]. rewrite N.
  assert (rle 5 1 = false) as -> by (apply rle_false; lra). cbn [map]. repeat (f_equal; try lra).
Qed.
