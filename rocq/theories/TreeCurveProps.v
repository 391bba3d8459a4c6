(** C92: the jagged curve of the Christmas tree meshes. *)
From Coq Require Import List Arith Lia Reals Lra.
Import ListNotations.
From Verif Require Import Prelude PreludeLemmas TreeMeshModel.
Local Open Scope R_scope.

(** ** Specification *)
Definition distance (p q : R * R) : R := sqrt ((fst q - fst p) * (fst q - fst p) + (snd q - snd p) * (snd q - snd p)).

(** A polygon over [0, xmax]: starts at the origin, moves strictly to the right
    by at most [dx], by at most [2*dx] in length, has its corners on the graph
    of [f], and its last corner is the first one at or beyond [xmax]. *)
Record samples (f : R -> R) (dx xmax : R) (pts : list (R * R)) : Prop := {
  smp_start : nth 0 pts (0, 1) = (0, 0);
  smp_right : forall i, (S i < length pts)%nat ->
    fst (nth i pts (0, 1)) < fst (nth (S i) pts (0, 1)) <= fst (nth i pts (0, 1)) + dx;
  smp_short : forall i, (S i < length pts)%nat -> distance (nth i pts (0, 1)) (nth (S i) pts (0, 1)) <= 2 * dx;
  smp_graph : forall i, (S i < length pts)%nat -> snd (nth (S i) pts (0, 1)) = f (fst (nth (S i) pts (0, 1)));
  smp_inside : forall i, (S i < length pts)%nat -> fst (nth i pts (0, 1)) < xmax;
  smp_end : xmax <= fst (nth (length pts - 1) pts (0, 1))
}.

(** [f] is uniformly continuous on [0, b]. *)
Definition uniform_on (f : R -> R) (b : R) : Prop :=
  forall eps, 0 < eps -> exists delta, 0 < delta /\
    forall x y, 0 <= x <= b -> 0 <= y <= b -> Rabs (y - x) <= delta -> Rabs (f y - f x) <= eps.

(** ** The inner loop *)
Lemma next_point_result f dx xlast ylast : 0 < dx -> forall fuel xp x y, 0 < xp <= dx ->
  next_point f dx fuel xlast ylast xp = Some (x, y) ->
  xlast < x <= xlast + dx /\ y = f x /\ distance (xlast, ylast) (x, y) <= 2 * dx.
Proof.
  intros Hdx. induction fuel; intros xp x y Hxp H; [discriminate|].
  cbn [next_point] in H. destruct (Rlt_dec _ _) as [L|L].
  - apply (IHfuel (xp * (8 / 10))); auto. lra.
  - injection H as Hx Hy. subst x y. split; [lra|]. split; [reflexivity|].
    apply Rnot_lt_le in L. unfold distance. cbn [fst snd].
    match goal with |- sqrt ?a <= _ => match type of L with sqrt ?b <= _ => replace a with b by ring end end. exact L.
Qed.

Lemma next_point_ends f dx xmax : 0 < dx -> forall delta, 0 < delta ->
  (forall x y, 0 <= x <= xmax + dx -> 0 <= y <= xmax + dx -> Rabs (y - x) <= delta -> Rabs (f y - f x) <= dx) ->
  exists K : nat, forall xlast, 0 <= xlast < xmax ->
    exists x y, next_point f dx (S K) xlast (f xlast) dx = Some (x, y) /\ xlast + dx * (8 / 10) ^ K <= x.
Proof.
  intros Hdx delta Hd UC.
  destruct (pow_lt_1_zero (8 / 10) ltac:(rewrite Rabs_right; lra) (delta / dx)) as [K HK].
  { apply Rdiv_lt_0_compat; auto. }
  exists K. intros xlast Hx.
  assert (P : forall k, 0 < (8 / 10) ^ k <= 1).
  { induction k; cbn [pow]; lra. }
  assert (G : forall n j, (n + j = K)%nat -> exists x y,
     next_point f dx (S n) xlast (f xlast) (dx * (8 / 10) ^ j) = Some (x, y) /\ xlast + dx * (8 / 10) ^ K <= x).
  { induction n; intros j E.
    - cbn in E. subst j. cbn [next_point].
      specialize (HK K ltac:(lia)). rewrite Rabs_right in HK by (specialize (P K); lra).
      assert (S1 : dx * (8 / 10) ^ K <= delta).
      { apply Rlt_le. apply (Rmult_lt_compat_l dx) in HK; auto. replace (dx * (delta / dx)) with delta in HK by (field; lra). exact HK. }
      specialize (P K). set (st := dx * (8 / 10) ^ K) in *.
      assert (S0 : 0 < st <= dx) by (unfold st; split; nra).
      assert (Fy : Rabs (f (xlast + st) - f xlast) <= dx).
      { apply UC; try lra. replace (xlast + st - xlast) with st by ring. rewrite Rabs_right; lra. }
      destruct (Rlt_dec _ _) as [L|L].
      + exfalso. apply Rlt_not_le in L. apply L.
        replace (xlast + st - xlast) with st by ring.
        rewrite <- (sqrt_square (2 * dx)) by lra. apply sqrt_le_1_alt.
        set (w := f (xlast + st) - f xlast) in *.
        assert (w * w <= dx * dx).
        { replace (w * w) with (Rabs w * Rabs w) by (rewrite <- Rabs_mult; apply Rabs_right; nra).
          pose proof (Rabs_pos w). nra. }
        nra.
      + eexists _, _. split; [reflexivity|]. fold st. lra.
    - change (next_point f dx (S (S n)) xlast (f xlast) (dx * (8 / 10) ^ j)) with
        (let x := xlast + dx * (8 / 10) ^ j in let y := f x in
         let ds := sqrt ((y - f xlast) * (y - f xlast) + (x - xlast) * (x - xlast)) in
         if Rlt_dec (2 * dx) ds then next_point f dx (S n) xlast (f xlast) (dx * (8 / 10) ^ j * (8 / 10))%R else Some (x, y)).
      cbv zeta. destruct (Rlt_dec _ _) as [L|L].
      + destruct (IHn (S j) ltac:(lia)) as (x & y & E' & B). exists x, y. split; auto.
        rewrite <- E'. f_equal. cbn [pow]. ring.
      + eexists _, _. split; [reflexivity|].
        assert ((8 / 10) ^ K <= (8 / 10) ^ j).
        { replace K with (S n + j)%nat by lia. rewrite pow_add. pose proof (P (S n)). pose proof (P j). nra. }
        nra. }
  destruct (G K 0%nat ltac:(lia)) as (x & y & E & B). exists x, y. split; auto.
  rewrite <- E. f_equal. cbn [pow]. ring.
Qed.

(** ** The outer loop *)
Lemma jagged_head f dx xmax fuel inner xl yl pts : jagged_loop f dx xmax fuel inner xl yl = Some pts ->
  exists rest, pts = (xl, yl) :: rest.
Proof.
  destruct fuel; [discriminate|]. cbn [jagged_loop]. destruct (Rlt_dec _ _).
  - destruct (next_point _ _ _ _ _ _) as [[x y]|]; [|discriminate].
    destruct (jagged_loop _ _ _ fuel inner x y); [|discriminate]. intros H; injection H as <-. eauto.
  - intros H; injection H as <-. eauto.
Qed.

Lemma jagged_loop_result f dx xmax : 0 < dx -> forall fuel inner xl yl pts,
  jagged_loop f dx xmax fuel inner xl yl = Some pts ->
  (forall i, (S i < length pts)%nat ->
    fst (nth i pts (0, 1)) < fst (nth (S i) pts (0, 1)) <= fst (nth i pts (0, 1)) + dx /\
    distance (nth i pts (0, 1)) (nth (S i) pts (0, 1)) <= 2 * dx /\
    snd (nth (S i) pts (0, 1)) = f (fst (nth (S i) pts (0, 1))) /\
    fst (nth i pts (0, 1)) < xmax) /\
  xmax <= fst (nth (length pts - 1) pts (0, 1)).
Proof.
  intros Hdx. induction fuel; intros inner xl yl pts H; [discriminate|].
  cbn [jagged_loop] in H. destruct (Rlt_dec xl xmax) as [L|L].
  - destruct (next_point f dx inner xl yl dx) as [[x y]|] eqn:N; [|discriminate].
    destruct (jagged_loop f dx xmax fuel inner x y) as [rest|] eqn:J; [|discriminate].
    injection H as <-. destruct (IHfuel _ _ _ _ J) as [A B].
    destruct (jagged_head _ _ _ _ _ _ _ _ J) as [tl E].
    apply next_point_result in N; auto; [|lra]. destruct N as (N1 & N2 & N3).
    split.
    + intros [|i] Hi.
      * rewrite E. cbn [nth fst snd]. auto.
      * change (nth (S i) ((xl, yl) :: rest) (0, 1)) with (nth i rest (0, 1)).
        change (nth (S (S i)) ((xl, yl) :: rest) (0, 1)) with (nth (S i) rest (0, 1)).
        apply A. cbn [length] in Hi. lia.
    + cbn [length]. rewrite Nat.sub_succ, Nat.sub_0_r. rewrite E in *. cbn [length] in *.
      rewrite Nat.sub_succ, Nat.sub_0_r in B. exact B.
  - injection H as <-. split; [cbn; intros; lia|]. cbn. lra.
Qed.

(** Whatever the loops return is a polygon as specified. *)
Theorem C92_curve_samples :
  forall (f : R -> R) (dx xmax : R) (fuel inner : nat) (pts : list (R * R)),
    0 < dx -> jagged_loop f dx xmax fuel inner 0 0 = Some pts -> samples f dx xmax pts.
Proof.
  intros f dx xmax fuel inner pts Hdx H.
  destruct (jagged_loop_result f dx xmax Hdx _ _ _ _ _ H) as [A B].
  destruct (jagged_head _ _ _ _ _ _ _ _ H) as [rest E].
  constructor; auto; try (intros i Hi; apply A; auto). rewrite E. reflexivity.
Qed.
Print Assumptions C92_curve_samples.

(** More passes change nothing: the result is a function of the input. *)
Lemma next_point_more f dx xl yl : forall n m xp r, next_point f dx n xl yl xp = Some r -> (n <= m)%nat ->
  next_point f dx m xl yl xp = Some r.
Proof.
  induction n; intros m xp r H Hm; [discriminate|]. destruct m; [lia|].
  cbn [next_point] in *. destruct (Rlt_dec _ _); [|exact H]. apply IHn; [exact H|lia].
Qed.

Theorem C92_result_unique :
  forall (f : R -> R) (dx xmax : R) (fuel inner fuel' inner' : nat) (xl yl : R) (pts pts' : list (R * R)),
    jagged_loop f dx xmax fuel inner xl yl = Some pts ->
    jagged_loop f dx xmax fuel' inner' xl yl = Some pts' -> pts = pts'.
Proof.
  intros f dx xmax. induction fuel; intros inner fuel' inner' xl yl pts pts' H H'; [discriminate|].
  destruct fuel'; [discriminate|]. cbn [jagged_loop] in *. destruct (Rlt_dec xl xmax); [|congruence].
  destruct (next_point f dx inner xl yl dx) as [[x y]|] eqn:N; [|discriminate].
  destruct (next_point f dx inner' xl yl dx) as [[x' y']|] eqn:N'; [|discriminate].
  assert ((x, y) = (x', y')).
  { apply next_point_more with (m := Nat.max inner inner') in N; [|lia].
    apply next_point_more with (m := Nat.max inner inner') in N'; [|lia]. congruence. }
  injection H0 as <- <-.
  destruct (jagged_loop f dx xmax fuel inner x y) eqn:J; [|discriminate].
  destruct (jagged_loop f dx xmax fuel' inner' x y) eqn:J'; [|discriminate].
  injection H as <-. injection H' as <-. f_equal. eapply IHfuel; eauto.
Qed.
Print Assumptions C92_result_unique.

(** Both loops end, for every curve through the origin that is uniformly
    continuous on the range visited. *)
Theorem C92_curve_terminates :
  forall (f : R -> R) (dx xmax : R),
    0 < dx -> f 0 = 0 -> uniform_on f (xmax + dx) ->
    exists fuel inner pts, jagged_loop f dx xmax fuel inner 0 0 = Some pts.
Proof.
  intros f dx xmax Hdx F0 UC.
  destruct (UC dx Hdx) as (delta & Hd & UCd).
  destruct (next_point_ends f dx xmax Hdx delta Hd UCd) as [K HK].
  set (st := dx * (8 / 10) ^ K) in *.
  assert (Hst : 0 < st) by (unfold st; apply Rmult_lt_0_compat; auto; apply pow_lt; lra).
  assert (G : forall n xl, 0 <= xl -> xmax <= xl + INR n * st ->
     exists pts, jagged_loop f dx xmax (S n) (S K) xl (f xl) = Some pts).
  { induction n; intros xl H0 Hn.
    - cbn [jagged_loop]. cbn [INR] in Hn. destruct (Rlt_dec xl xmax); [lra|eauto].
    - change (jagged_loop f dx xmax (S (S n)) (S K) xl (f xl)) with
        (if Rlt_dec xl xmax then
           match next_point f dx (S K) xl (f xl) dx with
           | None => None
           | Some (x, y) => option_map (cons (xl, f xl)) (jagged_loop f dx xmax (S n) (S K) x y)
           end
         else Some [(xl, f xl)]).
      destruct (Rlt_dec xl xmax) as [L|L]; [|eauto].
      destruct (HK xl ltac:(lra)) as (x & y & E & B). rewrite E.
      assert (y = f x) by (apply next_point_result in E; [tauto|auto|lra]). subst y.
      rewrite S_INR in Hn.
      destruct (IHn x ltac:(lra) ltac:(lra)) as [pts Ep]. rewrite Ep. cbn [option_map]. eauto. }
  assert (AR : exists n, xmax < INR n * st).
  { set (r := Rmax 0 (xmax / st)). destruct (archimed r) as [U _].
    assert (0 <= r /\ xmax / st <= r) as [R0 R1] by (unfold r; split; [apply Rmax_l|apply Rmax_r]).
    exists (Z.to_nat (up r)). rewrite INR_IZR_INZ, Z2Nat.id.
    - assert (xmax / st * st < IZR (up r) * st) by (apply Rmult_lt_compat_r; lra).
      replace (xmax / st * st) with xmax in H by (field; lra). exact H.
    - apply le_IZR. lra. }
  destruct AR as [n Hn].
  exists (S n), (S K). pose proof (G n 0 ltac:(lra) ltac:(lra)) as X. rewrite F0 in X. exact X.
Qed.
Print Assumptions C92_curve_terminates.

(** ** The curve of the code *)
Definition lipschitz_on (f : R -> R) (b L : R) : Prop :=
  0 <= L /\ forall x y, 0 <= x <= b -> 0 <= y <= b -> Rabs (f y - f x) <= L * Rabs (y - x).

Lemma lipschitz_uniform f b L : lipschitz_on f b L -> uniform_on f b.
Proof.
  intros [HL H] eps He. exists (eps / (L + 1)).
  assert (0 < eps / (L + 1)) by (apply Rdiv_lt_0_compat; lra). split; auto.
  intros x y Hx Hy D. eapply Rle_trans; [apply H; auto|].
  assert (E : eps / (L + 1) * (L + 1) = eps) by (field; lra).
  pose proof (Rabs_pos (y - x)). nra.
Qed.

Lemma bounded_derivative (f f' : R -> R) K : (forall x, derivable_pt_lim f x (f' x)) -> (forall x, Rabs (f' x) <= K) ->
  forall x y, Rabs (f y - f x) <= K * Rabs (y - x).
Proof.
  intros D B.
  assert (W : forall x y, x < y -> Rabs (f y - f x) <= K * Rabs (y - x)).
  { intros x y H. destruct (MVT_cor2 f f' x y H (fun c _ => D c)) as (c & E & _).
    rewrite E, Rabs_mult. apply Rmult_le_compat_r; [apply Rabs_pos|apply B]. }
  intros x y. destruct (Rtotal_order x y) as [H|[->|H]]; auto.
  - rewrite !Rminus_eq_0, Rabs_R0. lra.
  - rewrite (Rabs_minus_sym (f y)), (Rabs_minus_sym y). auto.
Qed.

Lemma sin_lip x y : Rabs (sin y - sin x) <= Rabs (y - x).
Proof.
  rewrite <- (Rmult_1_l (Rabs (y - x))). apply (bounded_derivative sin cos).
  - apply derivable_pt_lim_sin.
  - intros z. pose proof (COS_bound z). apply Rabs_le. lra.
Qed.
Lemma cos_lip x y : Rabs (cos y - cos x) <= Rabs (y - x).
Proof.
  rewrite <- (Rmult_1_l (Rabs (y - x))). apply (bounded_derivative cos (fun z => - sin z)).
  - apply derivable_pt_lim_cos.
  - intros z. pose proof (SIN_bound z). apply Rabs_le. lra.
Qed.
Lemma atan_lip x y : Rabs (atan y - atan x) <= Rabs (y - x).
Proof.
  rewrite <- (Rmult_1_l (Rabs (y - x))). apply (bounded_derivative atan (fun z => / (1 + z ^ 2))).
  - apply derivable_pt_lim_atan.
  - intros z. assert (1 <= 1 + z ^ 2) by (pose proof (pow2_ge_0 z); lra).
    rewrite Rabs_right; [|apply Rle_ge, Rlt_le, Rinv_0_lt_compat; lra].
    rewrite <- Rinv_1. apply Rinv_le_contravar; lra.
Qed.

Lemma lip_plus f g b L M : lipschitz_on f b L -> lipschitz_on g b M -> lipschitz_on (fun x => f x + g x) b (L + M).
Proof.
  intros [HL Hf] [HM Hg]. split; [lra|]. intros x y Hx Hy.
  replace (f y + g y - (f x + g x)) with ((f y - f x) + (g y - g x)) by ring.
  eapply Rle_trans; [apply Rabs_triang|]. specialize (Hf x y Hx Hy). specialize (Hg x y Hx Hy). lra.
Qed.

Lemma lip_mult f g b L M A B : lipschitz_on f b L -> lipschitz_on g b M ->
  (forall x, 0 <= x <= b -> Rabs (f x) <= A) -> (forall x, 0 <= x <= b -> Rabs (g x) <= B) -> 0 <= A -> 0 <= B ->
  lipschitz_on (fun x => f x * g x) b (A * M + B * L).
Proof.
  intros [HL Hf] [HM Hg] BA BB HA HB. split; [nra|]. intros x y Hx Hy.
  replace (f y * g y - f x * g x) with (f y * (g y - g x) + g x * (f y - f x)) by ring.
  eapply Rle_trans; [apply Rabs_triang|]. rewrite !Rabs_mult.
  specialize (Hf x y Hx Hy). specialize (Hg x y Hx Hy). specialize (BA y Hy). specialize (BB x Hx).
  pose proof (Rabs_pos (f y)). pose proof (Rabs_pos (g x)). pose proof (Rabs_pos (y - x)).
  pose proof (Rabs_pos (g y - g x)). pose proof (Rabs_pos (f y - f x)).
  assert (Rabs (f y) * Rabs (g y - g x) <= A * (M * Rabs (y - x))) by (apply Rmult_le_compat; auto).
  assert (Rabs (g x) * Rabs (f y - f x) <= B * (L * Rabs (y - x))) by (apply Rmult_le_compat; auto).
  lra.
Qed.

Lemma lip_bounded f b L : 0 <= b -> lipschitz_on f b L -> exists A, 0 <= A /\ forall x, 0 <= x <= b -> Rabs (f x) <= A.
Proof.
  intros Hb [HL H]. exists (Rabs (f 0) + L * b). pose proof (Rabs_pos (f 0)). split; [nra|].
  intros x Hx. specialize (H 0 x ltac:(lra) Hx). rewrite Rminus_0_r, (Rabs_right x) in H by lra.
  replace (f x) with ((f x - f 0) + f 0) by ring. eapply Rle_trans; [apply Rabs_triang|]. nra.
Qed.

Lemma lip_id b : lipschitz_on (fun x => x) b 1.
Proof. split; [lra|]. intros. lra. Qed.
Lemma lip_const c b : lipschitz_on (fun _ => c) b 0.
Proof. split; [lra|]. intros. rewrite Rminus_eq_0, Rabs_R0. lra. Qed.

(** The angle: the argument of [arctan] has a denominator of at least [1 - |t|]. *)
Lemma angle_lip t b : Rabs t < 1 ->
  exists L, lipschitz_on (fun x => atan (t * sin (PI * x) / (1 - t * cos (PI * x)))) b L.
Proof.
  intros Ht. set (m := 1 - Rabs t). assert (Hm : 0 < m) by (unfold m; lra).
  assert (Den : forall x, m <= 1 - t * cos (PI * x)).
  { intros x. unfold m. pose proof (COS_bound (PI * x)) as C. pose proof (Rle_abs (t * cos (PI * x))) as A.
    rewrite Rabs_mult in A. assert (Rabs (cos (PI * x)) <= 1) by (apply Rabs_le; lra).
    pose proof (Rabs_pos t). nra. }
  pose proof PI_RGT_0 as HPI. pose proof (Rabs_pos t) as Ht0.
  exists (2 * PI * 2 / (m * m)). split.
  { apply Rlt_le, Rdiv_lt_0_compat; nra. }
  intros x y _ _. eapply Rle_trans; [apply atan_lip|].
  pose proof (Den x) as Dx. pose proof (Den y) as Dy.
  pose proof (SIN_bound (PI * x)) as Sx. pose proof (SIN_bound (PI * y)) as Sy.
  pose proof (COS_bound (PI * x)) as Cx. pose proof (COS_bound (PI * y)) as Cy.
  assert (SL : Rabs (sin (PI * y) - sin (PI * x)) <= PI * Rabs (y - x)).
  { eapply Rle_trans; [apply sin_lip|]. replace (PI * y - PI * x) with (PI * (y - x)) by ring.
    rewrite Rabs_mult, (Rabs_right PI); lra. }
  assert (CL : Rabs (cos (PI * y) - cos (PI * x)) <= PI * Rabs (y - x)).
  { eapply Rle_trans; [apply cos_lip|]. replace (PI * y - PI * x) with (PI * (y - x)) by ring.
    rewrite Rabs_mult, (Rabs_right PI); lra. }
  set (sx := sin (PI * x)) in *. set (sy := sin (PI * y)) in *. set (cx := cos (PI * x)) in *. set (cy := cos (PI * y)) in *.
  replace (t * sy / (1 - t * cy) - t * sx / (1 - t * cx)) with
    ((t * (sy - sx) * (1 - t * cx) + t * sx * (t * (cy - cx))) / ((1 - t * cx) * (1 - t * cy))) by (field; lra).
  unfold Rdiv at 1. rewrite Rabs_mult.
  assert (Inv : Rabs (/ ((1 - t * cx) * (1 - t * cy))) <= / (m * m)).
  { assert (0 < (1 - t * cx) * (1 - t * cy)) by nra.
    rewrite Rabs_right by (apply Rle_ge, Rlt_le, Rinv_0_lt_compat; auto).
    apply Rinv_le_contravar; nra. }
  assert (T1 : Rabs t <= 1) by lra.
  assert (D2 : Rabs (1 - t * cx) <= 2).
  { assert (Rabs (t * cx) <= 1).
    { rewrite Rabs_mult. assert (Rabs cx <= 1) by (apply Rabs_le; lra). pose proof (Rabs_pos cx). nra. }
    apply Rabs_le. pose proof (Rle_abs (t * cx)). pose proof (Rle_abs (- (t * cx))) as N. rewrite Rabs_Ropp in N. lra. }
  assert (S1 : Rabs sx <= 1) by (apply Rabs_le; lra).
  assert (Num : Rabs (t * (sy - sx) * (1 - t * cx) + t * sx * (t * (cy - cx))) <= 2 * PI * 2 * Rabs (y - x)).
  { eapply Rle_trans; [apply Rabs_triang|]. rewrite !Rabs_mult.
    set (D := PI * Rabs (y - x)) in *. assert (0 <= D) by (unfold D; pose proof (Rabs_pos (y - x)); nra).
    pose proof (Rabs_pos (sy - sx)). pose proof (Rabs_pos (cy - cx)). pose proof (Rabs_pos sx). pose proof (Rabs_pos (1 - t * cx)).
    assert (A1 : Rabs t * Rabs (sy - sx) <= 1 * D) by (apply Rmult_le_compat; auto).
    assert (A2 : Rabs t * Rabs (sy - sx) * Rabs (1 - t * cx) <= 1 * D * 2) by (apply Rmult_le_compat; auto; apply Rmult_le_pos; auto).
    assert (A3 : Rabs t * Rabs sx <= 1 * 1) by (apply Rmult_le_compat; auto).
    assert (A4 : Rabs t * Rabs (cy - cx) <= 1 * D) by (apply Rmult_le_compat; auto).
    assert (A5 : Rabs t * Rabs sx * (Rabs t * Rabs (cy - cx)) <= 1 * 1 * (1 * D)) by (apply Rmult_le_compat; auto; apply Rmult_le_pos; auto).
    unfold D in *. lra. }
  eapply Rle_trans; [apply Rmult_le_compat; [apply Rabs_pos|apply Rabs_pos|exact Num|exact Inv]|].
  right. field. lra.
Qed.

(** For every number of points and every width: the curve of the code is
    produced by finitely many passes, for every parameter between -1 and 1
    (other than 0) and all radius functions that are Lipschitz continuous on
    bounded intervals, in particular the ones used (x -> 0.8*x/5 and 0.6). *)
Theorem C92_tree_curve_terminates :
  forall (npoints : nat) (t : R) (r0 r1 : R -> R) (xmax : R),
    (1 <= npoints)%nat -> 0 < xmax -> Rabs t < 1 -> t <> 0 ->
    (forall b, exists L, lipschitz_on r0 b L) -> (forall b, exists L, lipschitz_on r1 b L) ->
    exists fuel inner pts, jagged_curve fuel inner npoints t r0 r1 xmax = Some pts /\
      samples (tree_function t r0 r1) (xmax / INR npoints) xmax pts.
Proof.
  intros npoints t r0 r1 xmax Hn Hx Ht Ht0 H0 H1.
  assert (Hdx : 0 < xmax / INR npoints) by (apply Rdiv_lt_0_compat; auto; apply lt_0_INR; lia).
  set (b := xmax + xmax / INR npoints).
  destruct (C92_curve_terminates (tree_function t r0 r1) (xmax / INR npoints) xmax Hdx) as (fuel & inner & pts & E).
  - unfold tree_function. rewrite !Rmult_0_r, sin_0, Rmult_0_r. unfold Rdiv. rewrite Rmult_0_l, atan_0. ring.
  - fold b. assert (Hb : 0 <= b) by (unfold b; lra).
    destruct (H0 b) as [L0 P0]. destruct (H1 b) as [L1 P1]. destruct (angle_lip t b Ht) as [La Pa].
    destruct (lip_bounded r0 b L0 Hb P0) as (A0 & HA0 & B0).
    destruct (lip_bounded r1 b L1 Hb P1) as (A1 & HA1 & B1).
    destruct (lip_bounded _ b La Hb Pa) as (Aa & HAa & Ba).
    pose proof (lip_mult _ _ _ _ _ _ _ P0 Pa B0 Ba HA0 HAa) as M0.
    assert (Bx : forall x, 0 <= x <= b -> Rabs x <= b) by (intros x [? ?]; rewrite Rabs_right; lra).
    pose proof (lip_mult _ _ _ _ _ _ _ P1 (lip_id b) B1 Bx HA1 Hb) as M1.
    destruct (lip_bounded _ b _ Hb M0) as (Am & HAm & Bm).
    pose proof (lip_mult _ _ _ _ _ _ _ M0 (lip_const (/ t) b) Bm (fun x _ => Rle_refl (Rabs (/ t))) HAm (Rabs_pos (/ t))) as M2.
    pose proof (lip_plus _ _ _ _ _ M2 M1) as M3.
    eapply lipschitz_uniform. exact M3.
  - exists fuel, inner, pts. split; [exact E|]. eapply C92_curve_samples; eauto.
Qed.
Print Assumptions C92_tree_curve_terminates.

(** Non-vacuity: the parameters of create_christmas_tree_mesh. *)
Example C92_example :
  exists fuel inner pts,
    jagged_curve fuel inner 101 (- (95 / 100)) (fun x => 8 / 10 * x / 5) (fun _ => 6 / 10) 8 = Some pts /\
    samples (tree_function (- (95 / 100)) (fun x => 8 / 10 * x / 5) (fun _ => 6 / 10)) (8 / INR 101) 8 pts.
Proof.
  apply C92_tree_curve_terminates; try lra; try lia.
  - rewrite Rabs_left; lra.
  - intros b. exists (4 / 25). split; [lra|]. intros x y _ _.
    replace (8 / 10 * y / 5 - 8 / 10 * x / 5) with (4 / 25 * (y - x)) by field.
    rewrite Rabs_mult, (Rabs_right (4 / 25)); lra.
  - intros b. exists 0. apply lip_const.
Qed.
