(** Properties C51, C53, C54: Lamé parameters, circumradius, tangents. *)
From Coq Require Import List Arith Lia Bool Reals Lra.
Import ListNotations.
From Verif Require Import Prelude PreludeLemmas RSum CropModel CandidatesProps RealLemmas GeomModel.
Local Open Scope R_scope.

(** ** C51 *)
Theorem C51_lame_plane_strain :
  forall E nu, 0 < E -> -1 < nu < 1 / 2 ->
    let mu := lame_mu E nu in let lambda := lame_lambda true E nu in
    E = mu * (3 * lambda + 2 * mu) / (lambda + mu) /\ nu = lambda / (2 * (lambda + mu)) /\ 0 < mu /\ (0 < nu -> 0 < lambda).
Proof.
  intros E nu HE Hnu mu lambda.
  assert (H1 : 0 < 1 + nu) by lra. assert (H2 : 0 < 1 - 2 * nu) by lra.
  assert (Hmu : 0 < mu) by (unfold mu, lame_mu; apply Rdiv_lt_0_compat; lra).
  assert (Hlm : lambda + mu = E / (2 * (1 + nu) * (1 - 2 * nu))) by (unfold lambda, mu, lame_lambda, lame_mu; field; lra).
  assert (Hden : 0 < E / (2 * (1 + nu) * (1 - 2 * nu))) by (apply Rdiv_lt_0_compat; auto; nra).
  assert (H3 : 3 * lambda + 2 * mu = E / (1 - 2 * nu)) by (unfold lambda, mu, lame_lambda, lame_mu; field; lra).
  rewrite Hlm, H3. unfold mu at 1, lambda at 1, lame_mu, lame_lambda.
  split; [field; lra|]. split; [field; lra|]. split; [exact Hmu|].
  intros Hp. unfold lambda, lame_lambda. apply Rdiv_lt_0_compat; nra.
Qed.
Print Assumptions C51_lame_plane_strain.

(** Plane stress: mu is the same and lambda is the reduced plane-stress constant. *)
Theorem C51_lame_plane_stress :
  forall E nu, 0 < E -> -1 < nu < 1 / 2 ->
    let mu := lame_mu E nu in
    let lambda3 := lame_lambda true E nu in
    lame_lambda false E nu = 2 * mu * lambda3 / (lambda3 + 2 * mu) /\ (0 < nu -> 0 < lame_lambda false E nu).
Proof.
  intros E nu HE Hnu mu lambda3.
  assert (H : lambda3 + 2 * mu = E * (1 - nu) / ((1 + nu) * (1 - 2 * nu))) by (unfold lambda3, mu, lame_lambda, lame_mu; field; lra).
  rewrite H. unfold lambda3, mu, lame_lambda, lame_mu. split; [field; repeat split; lra|].
  intros Hp. apply Rdiv_lt_0_compat; nra.
Qed.
Print Assumptions C51_lame_plane_stress.

(** ** C53 *)
Definition dist2 (gdim : nat) (p q : nat -> R) : R := rsum gdim (fun i => (p i - q i) * (p i - q i)).

Lemma side2_eq gdim x v w : side2 gdim x v w = dist2 gdim (x v) (x w).
Proof. unfold side2, dist2. rewrite for_loop_rsum, Rplus_0_l. apply rsum_ext. intros; ring. Qed.

Lemma Rabs_sq x : Rabs x * Rabs x = x * x.
Proof. unfold Rabs. destruct (Rcase_abs x); ring. Qed.
Lemma sq_eq a b : 0 <= a -> 0 <= b -> a * a = b * b -> a = b.
Proof. intros. apply Rsqr_inj; auto. Qed.

(** The value is the radius of the circle through the three vertices: there is a
    centre at that distance from all of them, and any centre equidistant from
    them is at that distance. *)
Theorem C53_circumradius_triangle :
  forall x : nat -> nat -> R, jac2 x <> 0 ->
    let r := circumradius_triangle x (jac2 x) in
    (exists c : nat -> R, forall v, (v < 3)%nat -> sqrt (dist2 2 c (x v)) = r) /\
    (forall (c : nat -> R) (d : R), (forall v, (v < 3)%nat -> sqrt (dist2 2 c (x v)) = d) -> d = r).
Proof.
  intros x HD r. set (D := jac2 x) in *.
  set (ax := x 1%nat 0%nat - x 0%nat 0%nat). set (ay := x 1%nat 1%nat - x 0%nat 1%nat).
  set (bx := x 2%nat 0%nat - x 0%nat 0%nat). set (by_ := x 2%nat 1%nat - x 0%nat 1%nat).
  assert (ED : D = ax * by_ - bx * ay) by (unfold D, jac2, ax, ay, bx, by_; ring).
  set (A := ax * ax + ay * ay). set (B := bx * bx + by_ * by_). set (C := (ax - bx) * (ax - bx) + (ay - by_) * (ay - by_)).
  assert (EA : side2 2 x 0 1 = A) by (rewrite side2_eq; unfold dist2, A, ax, ay; cbn [rsum]; ring).
  assert (EC : side2 2 x 1 2 = C) by (rewrite side2_eq; unfold dist2, C, ax, ay, bx, by_; cbn [rsum]; ring).
  assert (EB : side2 2 x 2 0 = B) by (rewrite side2_eq; unfold dist2, B, bx, by_; cbn [rsum]; ring).
  assert (PA : 0 <= A) by (apply Rplus_le_le_0_compat; apply Rle_0_sqr). assert (PB : 0 <= B) by (apply Rplus_le_le_0_compat; apply Rle_0_sqr). assert (PC : 0 <= C) by (apply Rplus_le_le_0_compat; apply Rle_0_sqr).
  assert (PD : 0 < Rabs D) by now apply Rabs_pos_lt.
  assert (Hr : 0 <= r).
  { unfold r, circumradius_triangle. apply Rmult_le_pos; [repeat apply Rmult_le_pos; apply sqrt_pos|]. apply Rlt_le, Rinv_0_lt_compat. fold D. lra. }
  assert (Hr2 : r * r = A * B * C / (4 * (D * D))).
  { unfold r, circumradius_triangle. fold D. rewrite EA, EB, EC. rewrite <- (Rabs_sq D).
    replace (A * B * C) with ((sqrt A * sqrt A) * (sqrt B * sqrt B) * (sqrt C * sqrt C)) by (rewrite !sqrt_sqrt; auto).
    field. lra. }
  set (cx := (A * by_ - B * ay) / (2 * D)). set (cy := (B * ax - A * bx) / (2 * D)).
  assert (DN : ax * by_ - bx * ay <> 0) by (rewrite <- ED; auto).
  set (c := fun i : nat => if (i =? 0)%nat then x 0%nat 0%nat + cx else x 0%nat 1%nat + cy).
  assert (K : forall v, (v < 3)%nat -> dist2 2 c (x v) = r * r).
  { assert (N2 : cx * cx + cy * cy = A * B * C / (4 * (D * D))) by (unfold cx, cy, A, B, C; rewrite ED; field; auto).
    assert (La : 2 * (cx * ax + cy * ay) = A) by (unfold cx, cy, A, B; rewrite ED; field; auto).
    assert (Lb : 2 * (cx * bx + cy * by_) = B) by (unfold cx, cy, A, B; rewrite ED; field; auto).
    intros v Hv. rewrite Hr2, <- N2. unfold dist2, c. cbn [rsum Nat.eqb].
    destruct v as [|[|[|v]]]; [| | |lia].
    - ring.
    - replace (x 1%nat 0%nat) with (x 0%nat 0%nat + ax) by (unfold ax; ring). replace (x 1%nat 1%nat) with (x 0%nat 1%nat + ay) by (unfold ay; ring).
      transitivity (cx * cx + cy * cy - 2 * (cx * ax + cy * ay) + (ax * ax + ay * ay)); [ring|]. rewrite La. unfold A. ring.
    - replace (x 2%nat 0%nat) with (x 0%nat 0%nat + bx) by (unfold bx; ring). replace (x 2%nat 1%nat) with (x 0%nat 1%nat + by_) by (unfold by_; ring).
      transitivity (cx * cx + cy * cy - 2 * (cx * bx + cy * by_) + (bx * bx + by_ * by_)); [ring|]. rewrite Lb. unfold B. ring. }
  split.
  - exists c. intros v Hv. rewrite K by auto. now apply sqrt_square.
  - intros c' d Hd.
    assert (Hd0 : 0 <= d) by (rewrite <- (Hd 0%nat) by lia; apply sqrt_pos).
    assert (Hd2 : forall v, (v < 3)%nat -> dist2 2 c' (x v) = d * d).
    { intros v Hv. rewrite <- (Hd v Hv). symmetry. apply sqrt_sqrt. apply rsum_nonneg. intros; apply Rle_0_sqr. }
    (* same centre *)
    set (ex := c' 0%nat - x 0%nat 0%nat). set (ey := c' 1%nat - x 0%nat 1%nat).
    assert (E0 : ex * ex + ey * ey = d * d) by (rewrite <- (Hd2 0%nat) by lia; unfold dist2, ex, ey; cbn [rsum]; ring).
    assert (E1 : 2 * (ex * ax + ey * ay) = A).
    { assert (Q : (ex - ax) * (ex - ax) + (ey - ay) * (ey - ay) = d * d) by (rewrite <- (Hd2 1%nat) by lia; unfold dist2, ex, ey, ax, ay; cbn [rsum]; ring).
      unfold A. nra. }
    assert (E2 : 2 * (ex * bx + ey * by_) = B).
    { assert (Q : (ex - bx) * (ex - bx) + (ey - by_) * (ey - by_) = d * d) by (rewrite <- (Hd2 2%nat) by lia; unfold dist2, ex, ey, bx, by_; cbn [rsum]; ring).
      unfold B. nra. }
    assert (X : ex = cx).
    { apply (Rmult_eq_reg_l (2 * D)); [|lra]. unfold cx. rewrite <- E1, <- E2. rewrite ED. field. auto. }
    assert (Y : ey = cy).
    { apply (Rmult_eq_reg_l (2 * D)); [|lra]. unfold cy. rewrite <- E1, <- E2. rewrite ED. field. auto. }
    apply sq_eq; auto. rewrite <- E0, X, Y.
    rewrite <- (K 0%nat) by lia. unfold dist2, c. cbn [rsum Nat.eqb]. ring.
Qed.
Print Assumptions C53_circumradius_triangle.

(** Polynomial identity behind the tetrahedron formula (Crelle). *)
Lemma crelle_identity a1 a2 a3 b1 b2 b3 c1 c2 c3 :
  let A := a1 * a1 + a2 * a2 + a3 * a3 in let B := b1 * b1 + b2 * b2 + b3 * b3 in let C := c1 * c1 + c2 * c2 + c3 * c3 in
  let X := A * ((b1 - c1) * (b1 - c1) + (b2 - c2) * (b2 - c2) + (b3 - c3) * (b3 - c3)) in
  let Y := B * ((a1 - c1) * (a1 - c1) + (a2 - c2) * (a2 - c2) + (a3 - c3) * (a3 - c3)) in
  let Z := C * ((a1 - b1) * (a1 - b1) + (a2 - b2) * (a2 - b2) + (a3 - b3) * (a3 - b3)) in
  let p := A * (b2 * c3 - b3 * c2) + B * (c2 * a3 - c3 * a2) + C * (a2 * b3 - a3 * b2) in
  let q := A * (b3 * c1 - b1 * c3) + B * (c3 * a1 - c1 * a3) + C * (a3 * b1 - a1 * b3) in
  let r := A * (b1 * c2 - b2 * c1) + B * (c1 * a2 - c2 * a1) + C * (a1 * b2 - a2 * b1) in
  2 * X * Y + 2 * Y * Z + 2 * Z * X - X * X - Y * Y - Z * Z = 4 * (p * p + q * q + r * r).
Proof. cbv zeta. ring. Qed.

Theorem C53_circumradius_tetrahedron :
  forall x : nat -> nat -> R, jac3 x <> 0 ->
    let r := circumradius_tetrahedron x (jac3 x) in
    (exists c : nat -> R, forall v, (v < 4)%nat -> sqrt (dist2 3 c (x v)) = r) /\
    (forall (c : nat -> R) (d : R), (forall v, (v < 4)%nat -> sqrt (dist2 3 c (x v)) = d) -> d = r).
Proof.
  intros x HD rr. set (D := jac3 x) in *.
  set (a1 := x 1%nat 0%nat - x 0%nat 0%nat). set (a2 := x 1%nat 1%nat - x 0%nat 1%nat). set (a3 := x 1%nat 2%nat - x 0%nat 2%nat).
  set (b1 := x 2%nat 0%nat - x 0%nat 0%nat). set (b2 := x 2%nat 1%nat - x 0%nat 1%nat). set (b3 := x 2%nat 2%nat - x 0%nat 2%nat).
  set (c1 := x 3%nat 0%nat - x 0%nat 0%nat). set (c2 := x 3%nat 1%nat - x 0%nat 1%nat). set (c3 := x 3%nat 2%nat - x 0%nat 2%nat).
  assert (ED : D = a1 * (b2 * c3 - b3 * c2) + a2 * (b3 * c1 - b1 * c3) + a3 * (b1 * c2 - b2 * c1))
    by (unfold D, jac3, a1, a2, a3, b1, b2, b3, c1, c2, c3; ring).
  set (A := a1 * a1 + a2 * a2 + a3 * a3). set (B := b1 * b1 + b2 * b2 + b3 * b3). set (C := c1 * c1 + c2 * c2 + c3 * c3).
  set (A' := (b1 - c1) * (b1 - c1) + (b2 - c2) * (b2 - c2) + (b3 - c3) * (b3 - c3)).
  set (B' := (a1 - c1) * (a1 - c1) + (a2 - c2) * (a2 - c2) + (a3 - c3) * (a3 - c3)).
  set (C' := (a1 - b1) * (a1 - b1) + (a2 - b2) * (a2 - b2) + (a3 - b3) * (a3 - b3)).
  set (p := A * (b2 * c3 - b3 * c2) + B * (c2 * a3 - c3 * a2) + C * (a2 * b3 - a3 * b2)).
  set (q := A * (b3 * c1 - b1 * c3) + B * (c3 * a1 - c1 * a3) + C * (a3 * b1 - a1 * b3)).
  set (r := A * (b1 * c2 - b2 * c1) + B * (c1 * a2 - c2 * a1) + C * (a1 * b2 - a2 * b1)).
  assert (Crelle : 2 * (A * A') * (B * B') + 2 * (B * B') * (C * C') + 2 * (C * C') * (A * A')
                   - (A * A') * (A * A') - (B * B') * (B * B') - (C * C') * (C * C') = 4 * (p * p + q * q + r * r))
    by exact (crelle_identity a1 a2 a3 b1 b2 b3 c1 c2 c3).
  assert (S01 : side2 3 x 0 1 = A) by (rewrite side2_eq; unfold dist2, A, a1, a2, a3; cbn [rsum]; ring).
  assert (S02 : side2 3 x 0 2 = B) by (rewrite side2_eq; unfold dist2, B, b1, b2, b3; cbn [rsum]; ring).
  assert (S03 : side2 3 x 0 3 = C) by (rewrite side2_eq; unfold dist2, C, c1, c2, c3; cbn [rsum]; ring).
  assert (S23 : side2 3 x 2 3 = A') by (rewrite side2_eq; unfold dist2, A', b1, b2, b3, c1, c2, c3; cbn [rsum]; ring).
  assert (S13 : side2 3 x 1 3 = B') by (rewrite side2_eq; unfold dist2, B', a1, a2, a3, c1, c2, c3; cbn [rsum]; ring).
  assert (S12 : side2 3 x 1 2 = C') by (rewrite side2_eq; unfold dist2, C', a1, a2, a3, b1, b2, b3; cbn [rsum]; ring).
  assert (P3 : forall u v w : R, 0 <= u * u + v * v + w * w)
    by (intros; apply Rplus_le_le_0_compat; [apply Rplus_le_le_0_compat|]; apply Rle_0_sqr).
  assert (PA : 0 <= A) by apply P3. assert (PB : 0 <= B) by apply P3. assert (PC : 0 <= C) by apply P3.
  assert (PA' : 0 <= A') by apply P3. assert (PB' : 0 <= B') by apply P3. assert (PC' : 0 <= C') by apply P3.
  assert (PD : 0 < Rabs D) by now apply Rabs_pos_lt.
  assert (Hr2 : rr = sqrt (4 * (p * p + q * q + r * r)) / (4 * Rabs D)).
  { unfold rr, circumradius_tetrahedron. fold D. rewrite S01, S02, S03, S23, S13, S12.
    set (X := sqrt A * sqrt A'). set (Y := sqrt B * sqrt B'). set (Z := sqrt C * sqrt C').
    assert (HX : X * X = A * A') by (unfold X; transitivity ((sqrt A * sqrt A) * (sqrt A' * sqrt A')); [ring|rewrite !sqrt_sqrt; auto]).
    assert (HY : Y * Y = B * B') by (unfold Y; transitivity ((sqrt B * sqrt B) * (sqrt B' * sqrt B')); [ring|rewrite !sqrt_sqrt; auto]).
    assert (HZ : Z * Z = C * C') by (unfold Z; transitivity ((sqrt C * sqrt C) * (sqrt C' * sqrt C')); [ring|rewrite !sqrt_sqrt; auto]).
    replace ((X + Y + Z) * (X + Y - Z) * (X - Y + Z) * (- X + Y + Z))
      with (2 * (X * X) * (Y * Y) + 2 * (Y * Y) * (Z * Z) + 2 * (Z * Z) * (X * X) - (X * X) * (X * X) - (Y * Y) * (Y * Y) - (Z * Z) * (Z * Z)) by ring.
    rewrite HX, HY, HZ, Crelle. f_equal. lra. }
  assert (Hr : 0 <= rr).
  { rewrite Hr2. apply Rmult_le_pos; [apply sqrt_pos|]. apply Rlt_le, Rinv_0_lt_compat. lra. }
  assert (Hrr : rr * rr = (p * p + q * q + r * r) / (4 * (D * D))).
  { rewrite Hr2. rewrite <- (Rabs_sq D). set (N := p * p + q * q + r * r).
    assert (HN : sqrt (4 * N) * sqrt (4 * N) = 4 * N) by (apply sqrt_sqrt; assert (0 <= N) by apply P3; lra).
    transitivity ((sqrt (4 * N) * sqrt (4 * N)) / (16 * (Rabs D * Rabs D))); [field; lra|]. rewrite HN. field. lra. }
  assert (La0 : p * a1 + q * a2 + r * a3 = A * D) by (unfold p, q, r; rewrite ED; ring).
  assert (Lb0 : p * b1 + q * b2 + r * b3 = B * D) by (unfold p, q, r; rewrite ED; ring).
  assert (Lc0 : p * c1 + q * c2 + r * c3 = C * D) by (unfold p, q, r; rewrite ED; ring).
  set (cx := p / (2 * D)). set (cy := q / (2 * D)). set (cz := r / (2 * D)).
  set (c := fun i : nat => match i with 0%nat => x 0%nat 0%nat + cx | 1%nat => x 0%nat 1%nat + cy | _ => x 0%nat 2%nat + cz end).
  assert (N2 : cx * cx + cy * cy + cz * cz = rr * rr) by (rewrite Hrr; unfold cx, cy, cz; field; auto).
  assert (La : 2 * (cx * a1 + cy * a2 + cz * a3) = A).
  { transitivity ((p * a1 + q * a2 + r * a3) / D); [unfold cx, cy, cz; field; auto|]. rewrite La0. field. auto. }
  assert (Lb : 2 * (cx * b1 + cy * b2 + cz * b3) = B).
  { transitivity ((p * b1 + q * b2 + r * b3) / D); [unfold cx, cy, cz; field; auto|]. rewrite Lb0. field. auto. }
  assert (Lc : 2 * (cx * c1 + cy * c2 + cz * c3) = C).
  { transitivity ((p * c1 + q * c2 + r * c3) / D); [unfold cx, cy, cz; field; auto|]. rewrite Lc0. field. auto. }
  assert (K : forall v, (v < 4)%nat -> dist2 3 c (x v) = rr * rr).
  { intros v Hv. rewrite <- N2. unfold dist2, c. cbn [rsum].
    destruct v as [|[|[|[|v]]]]; [| | | |lia].
    - ring.
    - replace (x 1%nat 0%nat) with (x 0%nat 0%nat + a1) by (unfold a1; ring). replace (x 1%nat 1%nat) with (x 0%nat 1%nat + a2) by (unfold a2; ring).
      replace (x 1%nat 2%nat) with (x 0%nat 2%nat + a3) by (unfold a3; ring).
      transitivity (cx * cx + cy * cy + cz * cz - 2 * (cx * a1 + cy * a2 + cz * a3) + (a1 * a1 + a2 * a2 + a3 * a3)); [ring|]. rewrite La. unfold A. ring.
    - replace (x 2%nat 0%nat) with (x 0%nat 0%nat + b1) by (unfold b1; ring). replace (x 2%nat 1%nat) with (x 0%nat 1%nat + b2) by (unfold b2; ring).
      replace (x 2%nat 2%nat) with (x 0%nat 2%nat + b3) by (unfold b3; ring).
      transitivity (cx * cx + cy * cy + cz * cz - 2 * (cx * b1 + cy * b2 + cz * b3) + (b1 * b1 + b2 * b2 + b3 * b3)); [ring|]. rewrite Lb. unfold B. ring.
    - replace (x 3%nat 0%nat) with (x 0%nat 0%nat + c1) by (unfold c1; ring). replace (x 3%nat 1%nat) with (x 0%nat 1%nat + c2) by (unfold c2; ring).
      replace (x 3%nat 2%nat) with (x 0%nat 2%nat + c3) by (unfold c3; ring).
      transitivity (cx * cx + cy * cy + cz * cz - 2 * (cx * c1 + cy * c2 + cz * c3) + (c1 * c1 + c2 * c2 + c3 * c3)); [ring|]. rewrite Lc. unfold C. ring. }
  split.
  - exists c. intros v Hv. rewrite K by auto. now apply sqrt_square.
  - intros c' d Hd.
    assert (Hd0 : 0 <= d) by (rewrite <- (Hd 0%nat) by lia; apply sqrt_pos).
    assert (Hd2 : forall v, (v < 4)%nat -> dist2 3 c' (x v) = d * d).
    { intros v Hv. rewrite <- (Hd v Hv). symmetry. apply sqrt_sqrt. apply rsum_nonneg. intros; apply Rle_0_sqr. }
    set (ex := c' 0%nat - x 0%nat 0%nat). set (ey := c' 1%nat - x 0%nat 1%nat). set (ez := c' 2%nat - x 0%nat 2%nat).
    assert (E0 : ex * ex + ey * ey + ez * ez = d * d) by (rewrite <- (Hd2 0%nat) by lia; unfold dist2, ex, ey, ez; cbn [rsum]; ring).
    assert (E1 : 2 * (ex * a1 + ey * a2 + ez * a3) = A).
    { assert (Q : (ex - a1) * (ex - a1) + (ey - a2) * (ey - a2) + (ez - a3) * (ez - a3) = d * d)
        by (rewrite <- (Hd2 1%nat) by lia; unfold dist2, ex, ey, ez, a1, a2, a3; cbn [rsum]; ring).
      rewrite <- E0 in Q. unfold A. lra. }
    assert (E2 : 2 * (ex * b1 + ey * b2 + ez * b3) = B).
    { assert (Q : (ex - b1) * (ex - b1) + (ey - b2) * (ey - b2) + (ez - b3) * (ez - b3) = d * d)
        by (rewrite <- (Hd2 2%nat) by lia; unfold dist2, ex, ey, ez, b1, b2, b3; cbn [rsum]; ring).
      rewrite <- E0 in Q. unfold B. lra. }
    assert (E3 : 2 * (ex * c1 + ey * c2 + ez * c3) = C).
    { assert (Q : (ex - c1) * (ex - c1) + (ey - c2) * (ey - c2) + (ez - c3) * (ez - c3) = d * d)
        by (rewrite <- (Hd2 3%nat) by lia; unfold dist2, ex, ey, ez, c1, c2, c3; cbn [rsum]; ring).
      rewrite <- E0 in Q. unfold C. lra. }
    clearbody A B C.
    assert (X : ex = cx).
    { apply (Rmult_eq_reg_l (2 * D)); [|lra]. transitivity p; [|unfold cx; field; auto]. unfold p. rewrite <- E1, <- E2, <- E3, ED. ring. }
    assert (Y : ey = cy).
    { apply (Rmult_eq_reg_l (2 * D)); [|lra]. transitivity q; [|unfold cy; field; auto]. unfold q. rewrite <- E1, <- E2, <- E3, ED. ring. }
    assert (Z : ez = cz).
    { apply (Rmult_eq_reg_l (2 * D)); [|lra]. transitivity r; [|unfold cz; field; auto]. unfold r. rewrite <- E1, <- E2, <- E3, ED. ring. }
    apply sq_eq; auto. rewrite <- E0, X, Y, Z. exact N2.
Qed.
Print Assumptions C53_circumradius_tetrahedron.

(** The unit right triangle is non-degenerate, and so is the unit tetrahedron. *)
Example C53_triangle_nonvacuous : jac2 (fun v i => if (v =? S i)%nat then 1 else 0) <> 0.
Proof. unfold jac2. cbn. lra. Qed.
Example C53_tetrahedron_nonvacuous : jac3 (fun v i => if (v =? S i)%nat then 1 else 0) <> 0.
Proof. unfold jac3. cbn. lra. Qed.

(** ** C54 *)
Lemma max_element_from_spec l i best vbest full :
  (forall k, (k < length l)%nat -> nth (i + k) full 0 = nth k l 0) -> length full = (i + length l)%nat ->
  (best < i)%nat -> nth best full 0 = vbest -> (forall k, (k < i)%nat -> nth k full 0 * nth k full 0 <= vbest * vbest) ->
  let m := max_element_from l i best vbest in
  (m < length full)%nat /\ forall k, (k < length full)%nat -> nth k full 0 * nth k full 0 <= nth m full 0 * nth m full 0.
Proof.
  revert i best vbest. induction l as [|v rest IH]; intros i best vbest Hl Hlen Hb Hv Hmax.
  - cbn [max_element_from length] in *. rewrite Nat.add_0_r in Hlen. cbn zeta. split; [lia|]. intros k Hk. rewrite Hv. apply Hmax. lia.
  - cbn [max_element_from length] in *.
    assert (Hi : nth i full 0 = v) by (specialize (Hl 0%nat ltac:(lia)); rewrite Nat.add_0_r in Hl; exact Hl).
    assert (Hrest : forall k, (k < length rest)%nat -> nth (S i + k) full 0 = nth k rest 0)
      by (intros k Hk; specialize (Hl (S k) ltac:(lia)); rewrite Nat.add_succ_r in Hl; exact Hl).
    destruct (rlt (vbest * vbest) (v * v)) eqn:E.
    + apply rlt_true in E. apply IH; auto; [lia|]. intros k Hk. destruct (Nat.eq_dec k i) as [->|]; [rewrite Hi; lra|].
      specialize (Hmax k ltac:(lia)). lra.
    + apply rlt_false in E. apply IH; auto; [lia|]. intros k Hk. destruct (Nat.eq_dec k i) as [->|]; [rewrite Hi; lra|].
      apply Hmax. lia.
Qed.

Lemma max_element_spec n : n <> [] ->
  let m := max_element n in
  (m < length n)%nat /\ forall k, (k < length n)%nat -> nth k n 0 * nth k n 0 <= nth m n 0 * nth m n 0.
Proof.
  intros Hn. destruct n as [|v rest]; [congruence|]. apply max_element_from_spec; auto; try (cbn; lia).
  intros k Hk. assert (k = 0%nat) as -> by lia. cbn. lra.
Qed.

Lemma normalize_length v : length (normalize v) = length v.
Proof. unfold normalize. now rewrite map_length. Qed.
Lemma normalize_nth v i : (i < length v)%nat -> nth i (normalize v) 0 = nth i v 0 / normn (length v) v.
Proof.
  intros H. unfold normalize. rewrite (nth_map_lt (fun e => e / _) v i 0 0) by auto. f_equal.
  unfold normn, dotn. now rewrite for_loop_rsum, Rplus_0_l.
Qed.

Lemma dotn_normalize_l k v w : length v = k -> dotn k (normalize v) w = dotn k v w / normn k v.
Proof.
  intros H. unfold dotn at 1. rewrite (rsum_ext _ _ (fun i => nth i v 0 * nth i w 0 * / normn k v)).
  - rewrite rsum_scal_r. reflexivity.
  - intros i Hi. rewrite normalize_nth by lia. rewrite H. unfold Rdiv. ring.
Qed.
Lemma dotn_sym k v w : dotn k v w = dotn k w v.
Proof. unfold dotn. apply rsum_ext. intros; ring. Qed.
Lemma normn_normalize k v : length v = k -> 0 < dotn k v v -> normn k (normalize v) = 1.
Proof.
  intros H Hp. unfold normn at 1. rewrite dotn_normalize_l, dotn_sym, dotn_normalize_l by auto.
  assert (E : normn k v * normn k v = dotn k v v) by (apply sqrt_sqrt; lra).
  assert (N : normn k v <> 0) by (intros Z; rewrite Z in E; lra).
  rewrite <- E. replace (normn k v * normn k v / normn k v / normn k v) with 1 by (field; auto). apply sqrt_1.
Qed.

Lemma unit_tangent k v n : length v = k -> 0 < dotn k v v -> dotn k v n = 0 ->
  normn k (normalize v) = 1 /\ dotn k (normalize v) n = 0.
Proof. intros H Hp H0. split; [now apply normn_normalize|]. rewrite dotn_normalize_l, H0 by auto. unfold Rdiv. ring. Qed.

Theorem C54_tangents_2d :
  forall n : list R, length n = 2%nat -> normn 2 n = 1 ->
    exists t, compute_tangents 2 n = [t] /\ length t = 2%nat /\ normn 2 t = 1 /\ dotn 2 t n = 0.
Proof.
  intros n Hn Hu. destruct n as [|n0 [|n1 [|? ?]]]; try discriminate.
  destruct (max_element_spec [n0; n1]) as [Hm Hmax]; [discriminate|]. set (m := max_element [n0; n1]) in *.
  assert (Hsq : n0 * n0 + n1 * n1 = 1).
  { assert (E : normn 2 [n0; n1] * normn 2 [n0; n1] = dotn 2 [n0; n1] [n0; n1]) by (apply sqrt_sqrt; apply dotn_sq_nonneg).
    rewrite Hu in E. unfold dotn in E. cbn [rsum nth] in E. lra. }
  pose proof (Hmax 0%nat ltac:(cbn; lia)) as M0. pose proof (Hmax 1%nat ltac:(cbn; lia)) as M1.
  assert (Hnz : nth m [n0; n1] 0 <> 0) by (intros Z; rewrite Z in M0, M1; cbn [nth] in *; lra).
  unfold compute_tangents. fold m. cbn [Nat.eqb]. eexists. split; [reflexivity|]. rewrite normalize_length.
  cbn [length] in Hm. destruct m as [|[|m]]; [| |lia]; cbn [seq filter Nat.eqb negb repeat upd Nat.sub nth length] in *; unfold for_loop, for_range, for_each; cbn [seq fold_left upd nth length].
  all: split; [reflexivity|]; apply unit_tangent; [reflexivity| |]; unfold dotn; cbn [rsum nth]; try (field; auto; fail).
  - set (z := 0 - n1 / n0). pose proof (Rle_0_sqr z) as S. unfold Rsqr in S. lra.
  - set (z := 0 - n0 / n1). pose proof (Rle_0_sqr z) as S. unfold Rsqr in S. lra.
Qed.
Print Assumptions C54_tangents_2d.

Lemma cross_norm (a b : list R) :
  let c := [nth 1 a 0 * nth 2 b 0 - nth 2 a 0 * nth 1 b 0; nth 2 a 0 * nth 0 b 0 - nth 0 a 0 * nth 2 b 0; nth 0 a 0 * nth 1 b 0 - nth 1 a 0 * nth 0 b 0] in
  dotn 3 c c = dotn 3 a a * dotn 3 b b - dotn 3 a b * dotn 3 a b /\ dotn 3 c a = 0 /\ dotn 3 c b = 0.
Proof. unfold dotn. cbn [rsum nth]. repeat split; ring. Qed.

Theorem C54_tangents_3d :
  forall n : list R, length n = 3%nat -> normn 3 n = 1 ->
    exists t1 t2, compute_tangents 3 n = [t1; t2] /\ length t1 = 3%nat /\ length t2 = 3%nat /\
      normn 3 t1 = 1 /\ normn 3 t2 = 1 /\ dotn 3 t1 n = 0 /\ dotn 3 t2 n = 0 /\ dotn 3 t1 t2 = 0.
Proof.
  intros n Hn Hu.
  assert (Hsq : dotn 3 n n = 1).
  { assert (E : normn 3 n * normn 3 n = dotn 3 n n) by (apply sqrt_sqrt; apply dotn_sq_nonneg). rewrite Hu in E. lra. }
  destruct (max_element_spec n) as [Hm Hmax]; [intros ->; discriminate|]. set (m := max_element n) in *.
  pose proof (Hmax 0%nat ltac:(lia)) as M0. pose proof (Hmax 1%nat ltac:(lia)) as M1. pose proof (Hmax 2%nat ltac:(lia)) as M2.
  assert (Hnz : nth m n 0 <> 0) by (intros Z; rewrite Z in M0, M1, M2; unfold dotn in Hsq; cbn [rsum] in *; lra).
  unfold compute_tangents. fold m. cbn [Nat.eqb].
  set (t0 := for_loop _ _ _).
  assert (T : length t0 = 3%nat /\ 0 < dotn 3 t0 t0 /\ dotn 3 t0 n = 0).
  { unfold t0. destruct n as [|n0 [|n1 [|n2 [|? ?]]]]; try discriminate.
    cbn [length] in Hm. destruct m as [|[|[|m]]]; [| | |lia]; cbn [seq filter Nat.eqb negb repeat upd Nat.sub nth length] in *; unfold for_loop, for_range, for_each; cbn [seq fold_left upd nth length].
    all: split; [reflexivity|]; unfold dotn; cbn [rsum nth]; split; try (field; auto; fail).
    - set (z := 0 - n1 / n0 - n2 / n0). pose proof (Rle_0_sqr z) as S. unfold Rsqr in S. lra.
    - set (z := 0 - n0 / n1 - n2 / n1). pose proof (Rle_0_sqr z) as S. unfold Rsqr in S. lra.
    - set (z := 0 - n0 / n2 - n1 / n2). pose proof (Rle_0_sqr z) as S. unfold Rsqr in S. lra. }
  destruct T as (Tl & Tp & Tn). destruct (cross_norm t0 n) as (C1 & C2 & C3). set (c := [_; _; _]) in *.
  rewrite Tn, Hsq in C1. do 2 eexists. split; [reflexivity|]. rewrite !normalize_length. split; [exact Tl|]. split; [reflexivity|].
  destruct (unit_tangent 3 t0 n Tl Tp Tn) as [U1 O1].
  destruct (unit_tangent 3 c n eq_refl ltac:(lra) C3) as [U2 O2].
  repeat split; auto. rewrite dotn_normalize_l, dotn_sym, dotn_normalize_l by auto. rewrite C2. unfold Rdiv. ring.
Qed.
Print Assumptions C54_tangents_3d.

(** Unit normals exist; for the z axis the tangents are real vectors, not axes. *)
Example C54_nonvacuous : length [0; 0; 1] = 3%nat /\ normn 3 [0; 0; 1] = 1 /\ exists t1 t2, compute_tangents 3 [0; 0; 1] = [t1; t2] /\ normn 3 t1 = 1.
Proof.
  assert (U : normn 3 [0; 0; 1] = 1) by (unfold normn, dotn; cbn [rsum nth]; replace (0 + 0 * 0 + 0 * 0 + 1 * 1) with 1 by ring; apply sqrt_1).
  split; [reflexivity|]. split; [exact U|]. destruct (C54_tangents_3d [0; 0; 1] eq_refl U) as (t1 & t2 & H & _ & _ & H1 & _). eauto.
Qed.
