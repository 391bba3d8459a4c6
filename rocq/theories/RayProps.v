(** Property C55: a reported ray hit lies on the ray and in the facet. *)
From Coq Require Import List Arith ZArith Lia Bool Reals Lra.
Import ListNotations.
From Verif Require Import Prelude PreludeLemmas RSum CropModel CandidatesProps RealLemmas GeomModel GeomProps RayModel.
Local Open Scope R_scope.

(** ** Specification *)
(** Reference facet of a cell type, enlarged by [tol]. *)
Definition in_reference_facet (ct : cell_type) (tol : R) (xi : list R) : Prop :=
  match ct with
  | Triangle | Quadrilateral => - tol <= nth 0 xi 0 <= 1 + tol
  | Tetrahedron => - tol <= nth 0 xi 0 <= 1 + tol /\ - tol <= nth 1 xi 0 /\ nth 0 xi 0 + nth 1 xi 0 <= 1 + tol
  | Hexahedron => - tol <= nth 0 xi 0 <= 1 + tol /\ - tol <= nth 1 xi 0 <= 1 + tol
  | OtherCell => False
  end.
(** Squared distance of [x] from the line through [p] along the unit vector [n]. *)
Definition line_distance2 (gdim : nat) (p n x : list R) : R :=
  let v i := nth i x 0 - nth i p 0 in
  let a := rsum gdim (fun i => v i * nth i n 0) in
  rsum gdim (fun i => (v i - a * nth i n 0) * (v i - a * nth i n 0)).

(** ** Orthonormal frames *)
Lemma dist2_pythagoras gdim p n x : dotn gdim n n = 1 ->
  line_distance2 gdim p n x = rsum gdim (fun i => (nth i x 0 - nth i p 0) * (nth i x 0 - nth i p 0)) - rsum gdim (fun i => (nth i x 0 - nth i p 0) * nth i n 0) * rsum gdim (fun i => (nth i x 0 - nth i p 0) * nth i n 0).
Proof.
  intros Hn. unfold line_distance2. cbv zeta. set (a := rsum gdim (fun i => (nth i x 0 - nth i p 0) * nth i n 0)).
  transitivity (rsum gdim (fun i => (nth i x 0 - nth i p 0) * (nth i x 0 - nth i p 0) + ((- 2 * a) * ((nth i x 0 - nth i p 0) * nth i n 0) + (a * a) * (nth i n 0 * nth i n 0)))).
  - apply rsum_ext. intros. ring.
  - rewrite !rsum_plus, !rsum_scal. fold a. unfold dotn in Hn. rewrite Hn. ring.
Qed.

Lemma frame2 (a b c d u v : R) : a * a + b * b = 1 -> c * c + d * d = 1 -> a * c + b * d = 0 ->
  u * u + v * v = (u * a + v * b) * (u * a + v * b) + (u * c + v * d) * (u * c + v * d).
Proof.
  intros H1 H2 H3.
  assert (D : (a * d - b * c) * (a * d - b * c) = 1).
  { replace ((a * d - b * c) * (a * d - b * c)) with ((a * a + b * b) * (c * c + d * d) - (a * c + b * d) * (a * c + b * d)) by ring. rewrite H1, H2, H3. ring. }
  set (P := u * a + v * b). set (Q := u * c + v * d). set (D1 := a * d - b * c) in *.
  assert (U : u * D1 = P * d - Q * b) by (unfold P, Q, D1; ring).
  assert (V : v * D1 = - P * c + Q * a) by (unfold P, Q, D1; ring).
  replace (u * u + v * v) with ((u * u + v * v) * (D1 * D1)) by (rewrite D; ring).
  replace ((u * u + v * v) * (D1 * D1)) with ((u * D1) * (u * D1) + (v * D1) * (v * D1)) by ring. rewrite U, V.
  replace ((P * d - Q * b) * (P * d - Q * b) + (- P * c + Q * a) * (- P * c + Q * a)) with (P * P * (c * c + d * d) + Q * Q * (a * a + b * b) - 2 * P * Q * (a * c + b * d)) by ring.
  rewrite H1, H2, H3. ring.
Qed.
Lemma frame3 (a1 a2 a3 b1 b2 b3 c1 c2 c3 u v w : R) :
  a1 * a1 + a2 * a2 + a3 * a3 = 1 -> b1 * b1 + b2 * b2 + b3 * b3 = 1 -> c1 * c1 + c2 * c2 + c3 * c3 = 1 ->
  a1 * b1 + a2 * b2 + a3 * b3 = 0 -> a1 * c1 + a2 * c2 + a3 * c3 = 0 -> b1 * c1 + b2 * c2 + b3 * c3 = 0 ->
  u * u + v * v + w * w = (u * a1 + v * a2 + w * a3) * (u * a1 + v * a2 + w * a3) + (u * b1 + v * b2 + w * b3) * (u * b1 + v * b2 + w * b3) + (u * c1 + v * c2 + w * c3) * (u * c1 + v * c2 + w * c3).
Proof.
  intros A B C AB AC BC.
  (* cross products of the frame vectors *)
  set (x1 := b2 * c3 - b3 * c2). set (x2 := b3 * c1 - b1 * c3). set (x3 := b1 * c2 - b2 * c1).
  set (y1 := c2 * a3 - c3 * a2). set (y2 := c3 * a1 - c1 * a3). set (y3 := c1 * a2 - c2 * a1).
  set (z1 := a2 * b3 - a3 * b2). set (z2 := a3 * b1 - a1 * b3). set (z3 := a1 * b2 - a2 * b1).
  set (D := a1 * x1 + a2 * x2 + a3 * x3).
  assert (X : x1 * x1 + x2 * x2 + x3 * x3 = 1).
  { replace (x1 * x1 + x2 * x2 + x3 * x3) with ((b1 * b1 + b2 * b2 + b3 * b3) * (c1 * c1 + c2 * c2 + c3 * c3) - (b1 * c1 + b2 * c2 + b3 * c3) * (b1 * c1 + b2 * c2 + b3 * c3)) by (unfold x1, x2, x3; ring). rewrite B, C, BC. ring. }
  assert (Y : y1 * y1 + y2 * y2 + y3 * y3 = 1).
  { replace (y1 * y1 + y2 * y2 + y3 * y3) with ((a1 * a1 + a2 * a2 + a3 * a3) * (c1 * c1 + c2 * c2 + c3 * c3) - (a1 * c1 + a2 * c2 + a3 * c3) * (a1 * c1 + a2 * c2 + a3 * c3)) by (unfold y1, y2, y3; ring). rewrite A, C, AC. ring. }
  assert (Z : z1 * z1 + z2 * z2 + z3 * z3 = 1).
  { replace (z1 * z1 + z2 * z2 + z3 * z3) with ((a1 * a1 + a2 * a2 + a3 * a3) * (b1 * b1 + b2 * b2 + b3 * b3) - (a1 * b1 + a2 * b2 + a3 * b3) * (a1 * b1 + a2 * b2 + a3 * b3)) by (unfold z1, z2, z3; ring). rewrite A, B, AB. ring. }
  assert (XY : x1 * y1 + x2 * y2 + x3 * y3 = 0).
  { replace (x1 * y1 + x2 * y2 + x3 * y3) with ((b1 * c1 + b2 * c2 + b3 * c3) * (a1 * c1 + a2 * c2 + a3 * c3) - (a1 * b1 + a2 * b2 + a3 * b3) * (c1 * c1 + c2 * c2 + c3 * c3)) by (unfold x1, x2, x3, y1, y2, y3; ring). rewrite AB, BC, AC. ring. }
  assert (XZ : x1 * z1 + x2 * z2 + x3 * z3 = 0).
  { replace (x1 * z1 + x2 * z2 + x3 * z3) with ((a1 * b1 + a2 * b2 + a3 * b3) * (b1 * c1 + b2 * c2 + b3 * c3) - (b1 * b1 + b2 * b2 + b3 * b3) * (a1 * c1 + a2 * c2 + a3 * c3)) by (unfold x1, x2, x3, z1, z2, z3; ring). rewrite AB, BC, AC. ring. }
  assert (YZ : y1 * z1 + y2 * z2 + y3 * z3 = 0).
  { replace (y1 * z1 + y2 * z2 + y3 * z3) with ((a1 * b1 + a2 * b2 + a3 * b3) * (a1 * c1 + a2 * c2 + a3 * c3) - (b1 * c1 + b2 * c2 + b3 * c3) * (a1 * a1 + a2 * a2 + a3 * a3)) by (unfold z1, z2, z3, y1, y2, y3; ring). rewrite AB, BC, AC. ring. }
  set (P := u * a1 + v * a2 + w * a3). set (Q := u * b1 + v * b2 + w * b3). set (S := u * c1 + v * c2 + w * c3).
  assert (U : u * D = P * x1 + Q * y1 + S * z1) by (unfold P, Q, S, D, x1, x2, x3, y1, z1; ring).
  assert (V : v * D = P * x2 + Q * y2 + S * z2) by (unfold P, Q, S, D, x1, x2, x3, y2, z2; ring).
  assert (W : w * D = P * x3 + Q * y3 + S * z3) by (unfold P, Q, S, D, x1, x2, x3, y3, z3; ring).
  assert (N : D * D = 1).
  { (* x is parallel to a: x = D a *)
    assert (E1 : x1 = D * a1) by (replace (D * a1) with ((a1 * a1 + a2 * a2 + a3 * a3) * x1 - (y1 * 0 + a2 * (a2 * x1 - a1 * x2) + a3 * (a3 * x1 - a1 * x3))) by (unfold D; ring); rewrite A;
      replace (a2 * x1 - a1 * x2) with (c3 * (a1 * b1 + a2 * b2 + a3 * b3) - b3 * (a1 * c1 + a2 * c2 + a3 * c3)) by (unfold x1, x2; ring);
      replace (a3 * x1 - a1 * x3) with (b2 * (a1 * c1 + a2 * c2 + a3 * c3) - c2 * (a1 * b1 + a2 * b2 + a3 * b3)) by (unfold x1, x3; ring); rewrite AB, AC; ring).
    assert (E2 : x2 = D * a2) by (replace (D * a2) with ((a1 * a1 + a2 * a2 + a3 * a3) * x2 - (a1 * (a1 * x2 - a2 * x1) + a3 * (a3 * x2 - a2 * x3))) by (unfold D; ring); rewrite A;
      replace (a1 * x2 - a2 * x1) with (b3 * (a1 * c1 + a2 * c2 + a3 * c3) - c3 * (a1 * b1 + a2 * b2 + a3 * b3)) by (unfold x1, x2; ring);
      replace (a3 * x2 - a2 * x3) with (c1 * (a1 * b1 + a2 * b2 + a3 * b3) - b1 * (a1 * c1 + a2 * c2 + a3 * c3)) by (unfold x2, x3; ring); rewrite AB, AC; ring).
    assert (E3 : x3 = D * a3) by (replace (D * a3) with ((a1 * a1 + a2 * a2 + a3 * a3) * x3 - (a1 * (a1 * x3 - a3 * x1) + a2 * (a2 * x3 - a3 * x2))) by (unfold D; ring); rewrite A;
      replace (a1 * x3 - a3 * x1) with (c2 * (a1 * b1 + a2 * b2 + a3 * b3) - b2 * (a1 * c1 + a2 * c2 + a3 * c3)) by (unfold x1, x3; ring);
      replace (a2 * x3 - a3 * x2) with (b1 * (a1 * c1 + a2 * c2 + a3 * c3) - c1 * (a1 * b1 + a2 * b2 + a3 * b3)) by (unfold x2, x3; ring); rewrite AB, AC; ring).
    clearbody x1 x2 x3. rewrite E1, E2, E3 in X. replace (D * a1 * (D * a1) + D * a2 * (D * a2) + D * a3 * (D * a3)) with (D * D * (a1 * a1 + a2 * a2 + a3 * a3)) in X by ring. rewrite A in X. lra. }
  clearbody P Q S D x1 x2 x3 y1 y2 y3 z1 z2 z3.
  replace (u * u + v * v + w * w) with ((u * u + v * v + w * w) * (D * D)) by (rewrite N; ring).
  replace ((u * u + v * v + w * w) * (D * D)) with ((u * D) * (u * D) + (v * D) * (v * D) + (w * D) * (w * D)) by ring. rewrite U, V, W.
  replace ((P * x1 + Q * y1 + S * z1) * (P * x1 + Q * y1 + S * z1) + (P * x2 + Q * y2 + S * z2) * (P * x2 + Q * y2 + S * z2) + (P * x3 + Q * y3 + S * z3) * (P * x3 + Q * y3 + S * z3))
    with (P * P * (x1 * x1 + x2 * x2 + x3 * x3) + Q * Q * (y1 * y1 + y2 * y2 + y3 * y3) + S * S * (z1 * z1 + z2 * z2 + z3 * z3)
      + 2 * P * Q * (x1 * y1 + x2 * y2 + x3 * y3) + 2 * P * S * (x1 * z1 + x2 * z2 + x3 * z3) + 2 * Q * S * (y1 * z1 + y2 * z2 + y3 * z3)) by ring.
  rewrite X, Y, Z, XY, XZ, YZ. ring.
Qed.

Lemma dot1_of_norm k v : normn k v = 1 -> dotn k v v = 1.
Proof. intros H. assert (E : normn k v * normn k v = dotn k v v) by (apply sqrt_sqrt; apply dotn_sq_nonneg). rewrite H in E. lra. Qed.

(** The tangents of the code and the normal form a frame. *)
Lemma tangent_frame gdim n : (gdim = 2 \/ gdim = 3)%nat -> length n = gdim -> normn gdim n = 1 ->
  forall v : nat -> R, rsum gdim (fun i => v i * v i) =
    rsum gdim (fun i => v i * nth i n 0) * rsum gdim (fun i => v i * nth i n 0) +
    rsum (gdim - 1) (fun j => rsum gdim (fun i => v i * tangent (compute_tangents gdim n) j i) * rsum gdim (fun i => v i * tangent (compute_tangents gdim n) j i)).
Proof.
  intros [-> | ->] Hl Hn v; pose proof (dot1_of_norm _ _ Hn) as N.
  - destruct (C54_tangents_2d n Hl Hn) as (t & Et & _ & Tn & Tt). apply dot1_of_norm in Tn. unfold tangent. rewrite Et. unfold dotn in *. cbn [rsum nth Nat.sub] in *.
    pose proof (frame2 (nth 0 n 0) (nth 1 n 0) (nth 0 t 0) (nth 1 t 0) (v 0%nat) (v 1%nat) ltac:(lra) ltac:(lra) ltac:(lra)) as F. ring_simplify in F. ring_simplify. lra.
  - destruct (C54_tangents_3d n Hl Hn) as (t & t' & Et & _ & _ & Tn & Tn' & Tt & Tt' & Ttt). apply dot1_of_norm in Tn. apply dot1_of_norm in Tn'. unfold tangent. rewrite Et. unfold dotn in *. cbn [rsum nth Nat.sub] in *.
    pose proof (frame3 (nth 0 n 0) (nth 1 n 0) (nth 2 n 0) (nth 0 t 0) (nth 1 t 0) (nth 2 t 0) (nth 0 t' 0) (nth 1 t' 0) (nth 2 t' 0) (v 0%nat) (v 1%nat) (v 2%nat)
      ltac:(lra) ltac:(lra) ltac:(lra) ltac:(lra) ltac:(lra) ltac:(lra)) as F.
    rewrite !Rplus_0_l. rewrite F. ring.
Qed.

(** ** The iteration *)
Section Cell.
  Variables (tdim gdim : nat) (max_iter : nat) (tol : R) (ct : cell_type).
  Variables (refmap push : list R -> list R) (jac : list R -> matrix) (dxi : matrix) (point : list R) (tangents : list (list R)).
  Notation newton := (ray_newton tdim gdim tol refmap push jac dxi point tangents).
  Notation trace := (raytracing_cell tdim gdim max_iter tol ct refmap push jac dxi point tangents).
  Notation G := (residual gdim point tangents).
  Notation D := (residual_derivative tdim gdim jac dxi tangents).

  Lemma newton_hit n s : (rs_status s < 0)%Z -> (0 < rs_status (newton n s))%Z ->
    let r := newton n s in
    rs_status r = 1%Z /\ rs_X r = refmap (rs_xi r) /\ rs_x r = push (rs_X r) /\ ~ Rabs (derivative_det tdim gdim (D (rs_X r))) < tol /\
    rsum (tdim - 1) (fun i => nth i (newton_step tdim gdim (D (rs_X r)) (G (rs_x r))) 0 * nth i (newton_step tdim gdim (D (rs_X r)) (G (rs_x r))) 0) < tol * tol.
  Proof.
    revert s. induction n as [|n IH]; intros s Hs Hp; cbn [ray_newton] in *; cbv zeta; [lia|]. cbv zeta in Hp.
    destruct (rlt (Rabs _) tol) eqn:E1; [cbn in Hp; lia|]. destruct (rlt (rsum (tdim - 1) _) (tol * tol)) eqn:E2.
    - cbn [rs_status rs_X rs_xi rs_x]. apply rlt_true in E2. apply rlt_false in E1. repeat split; auto. lra.
    - apply IH; auto.
  Qed.

  (** C55, first part: what a positive status means, for every cell type. *)
  Theorem C55_hit_in_facet :
    forall old_X r, trace old_X = RayOk r -> (0 < rs_status r)%Z ->
      rs_X r = refmap (rs_xi r) /\ rs_x r = push (rs_X r) /\ in_reference_facet ct tol (rs_xi r).
  Proof.
    intros old_X r H Hp. unfold raytracing_cell in H. destruct (_ || _); [discriminate|]. set (s0 := {| rs_status := _ |}) in H. cbv zeta in H.
    destruct (outside tol ct (rs_xi (newton max_iter s0))) as [[]|] eqn:Eo; try discriminate; inversion H; subst r; [cbn in Hp; lia|].
    destruct (newton_hit max_iter s0 ltac:(cbn; lia) Hp) as (_ & H1 & H2 & _). split; [auto|]. split; [auto|].
    unfold outside in Eo. unfold in_reference_facet. set (xi := rs_xi _) in *. destruct ct; try discriminate; inversion Eo as [E]; clear Eo.
    - apply orb_false_iff in E as [E1 E2]. apply rlt_false in E1. apply rlt_false in E2. lra.
    - apply orb_false_iff in E as [E1 E2]. apply rlt_false in E1. apply rlt_false in E2. lra.
    - apply orb_false_iff in E as [E E4]. apply orb_false_iff in E as [E E3]. apply orb_false_iff in E as [E1 E2].
      apply rlt_false in E1. apply rlt_false in E2. apply rlt_false in E3. apply rlt_false in E4. lra.
    - apply orb_false_iff in E as [E E4]. apply orb_false_iff in E as [E E3]. apply orb_false_iff in E as [E1 E2].
      apply rlt_false in E1. apply rlt_false in E2. apply rlt_false in E3. apply rlt_false in E4. lra.
  Qed.

  Lemma trace_hit old_X r : trace old_X = RayOk r -> (0 < rs_status r)%Z ->
    rs_status r = 1%Z /\ ~ Rabs (derivative_det tdim gdim (D (rs_X r))) < tol /\
    rsum (tdim - 1) (fun i => nth i (newton_step tdim gdim (D (rs_X r)) (G (rs_x r))) 0 * nth i (newton_step tdim gdim (D (rs_X r)) (G (rs_x r))) 0) < tol * tol.
  Proof.
    intros H Hp. unfold raytracing_cell in H. destruct (_ || _); [discriminate|]. set (s0 := {| rs_status := _ |}) in H. cbv zeta in H.
    destruct (outside tol ct (rs_xi (newton max_iter s0))) as [[]|] eqn:Eo; try discriminate; inversion H; subst r; [cbn in Hp; lia|].
    destruct (newton_hit max_iter s0 ltac:(cbn; lia) Hp) as (H0 & _ & _ & H1 & H2). auto.
  Qed.
  Lemma trace_dims old_X r : trace old_X = RayOk r -> (gdim = 2 \/ gdim = 3)%nat /\ (tdim = 2 \/ tdim = 3)%nat.
  Proof.
    intros H. unfold raytracing_cell in H. destruct (Nat.eqb_spec gdim 2), (Nat.eqb_spec gdim 3), (Nat.eqb_spec tdim 2), (Nat.eqb_spec tdim 3); cbn in H; try discriminate; lia.
  Qed.

  (** The residual is the derivative times the increment, for square systems. *)
  Lemma residual_step X (g : nat -> R) : (gdim = 2 \/ gdim = 3)%nat -> tdim = gdim -> 0 < tol -> ~ Rabs (derivative_det tdim gdim (D X)) < tol ->
    forall i, (i < gdim - 1)%nat -> g i = rsum (gdim - 1) (fun j => D X i j * nth j (newton_step tdim gdim (D X) g) 0).
  Proof.
    intros Hg Ht Htol Hd i Hi. set (A := D X) in *. clearbody A. subst tdim. unfold derivative_det in Hd. rewrite Nat.eqb_refl in Hd. cbn [negb andb] in Hd.
    assert (Hz : det (gdim - 1) A <> 0) by (intros E; rewrite E, Rabs_R0 in Hd; lra). clear Hd.
    unfold newton_step, derivative_inv. rewrite Nat.eqb_refl. destruct Hg as [-> | ->]; cbn [Nat.sub] in *; unfold det in Hz; cbn [Nat.eqb] in Hz; cbn [seq map rsum nth]; unfold inv; cbn [Nat.eqb].
    - assert (i = 0%nat) by lia. subst i. field. auto.
    - assert (Ei : (i = 0 \/ i = 1)%nat) by lia. unfold det. cbn [Nat.eqb]. destruct Ei as [-> | ->]; field; auto.
  Qed.
End Cell.

Lemma rsum_le n f g : (forall i, (i < n)%nat -> f i <= g i) -> rsum n f <= rsum n g.
Proof. induction n as [|n IH]; intros H; cbn [rsum]; [lra|]. assert (rsum n f <= rsum n g) by (apply IH; intros; apply H; lia). specialize (H n ltac:(lia)). lra. Qed.
Lemma rsum_swap n m (f : nat -> nat -> R) : rsum n (fun i => rsum m (fun j => f i j)) = rsum m (fun j => rsum n (fun i => f i j)).
Proof.
  induction n as [|n IH]; cbn [rsum]; [symmetry; apply rsum_0|]. rewrite IH. rewrite rsum_plus. reflexivity.
Qed.

(** C55, second part: when the cells have the dimension of the space, the hit is on
    the ray up to [tol] times the size of the derivative of the facet
    parametrisation at the hit. *)
Theorem C55_hit_on_ray :
  forall (dim max_iter : nat) (tol : R) (ct : cell_type) (refmap push : list R -> list R) (jac : list R -> matrix) (dxi : matrix) (point normal old_X : list R) (r : ray_state),
    0 < tol -> length normal = dim -> normn dim normal = 1 ->
    raytracing_cell dim dim max_iter tol ct refmap push jac dxi point (compute_tangents dim normal) old_X = RayOk r -> (0 < rs_status r)%Z ->
    line_distance2 dim point normal (rs_x r) <=
      (tol * tol) * rsum (dim - 1) (fun j => rsum dim (fun l => rsum dim (fun k => jac (rs_X r) l k * dxi k j) * rsum dim (fun k => jac (rs_X r) l k * dxi k j))).
Proof.
  intros dim max_iter tol ct refmap push jac dxi point normal old_X r Htol Hl Hn H Hp.
  destruct (trace_dims dim dim max_iter tol ct refmap push jac dxi point _ old_X r H) as [Hd _].
  destruct (trace_hit dim dim max_iter tol ct refmap push jac dxi point _ old_X r H Hp) as (_ & H1 & H2).
  set (t := compute_tangents dim normal) in *. set (Dm := residual_derivative dim dim jac dxi t (rs_X r)) in *. set (g := residual dim point t (rs_x r)) in *.
  set (d := newton_step dim dim Dm g) in *.
  rewrite dist2_pythagoras by now apply dot1_of_norm.
  rewrite (tangent_frame dim normal Hd Hl Hn (fun i => nth i (rs_x r) 0 - nth i point 0)). fold t.
  match goal with |- ?a * ?a + ?b - ?a * ?a <= _ => replace (a * a + b - a * a) with b by ring end.
  change (rsum (dim - 1) (fun j => g j * g j) <= tol * tol * rsum (dim - 1) (fun j => rsum dim (fun l => facet_derivative dim jac dxi (rs_X r) l j * facet_derivative dim jac dxi (rs_X r) l j))).
  apply (Rle_trans _ (rsum (dim - 1) (fun i => tol * tol * rsum (dim - 1) (fun j => Dm i j * Dm i j)))).
  - apply rsum_le. intros i Hi.
    assert (E : g i = rsum (dim - 1) (fun j => Dm i j * nth j d 0)) by (apply (residual_step dim dim tol jac dxi t (rs_X r) g); auto).
    rewrite E. eapply Rle_trans; [apply cauchy_schwarz_sq|]. rewrite Rmult_comm. apply Rmult_le_compat_r; [apply rsum_nonneg; intros; apply Rle_0_sqr|lra].
  - rewrite rsum_scal. apply Rmult_le_compat_l; [apply Rle_0_sqr|]. rewrite rsum_swap. apply rsum_le. intros j Hj.
    pose proof (tangent_frame dim normal Hd Hl Hn (fun l => facet_derivative dim jac dxi (rs_X r) l j)) as F. fold t in F.
    rewrite F. match goal with |- ?b <= ?a * ?a + _ => assert (0 <= a * a) by apply Rle_0_sqr end.
    match goal with |- ?b <= _ + ?c => change b with c end. lra.
Qed.
Print Assumptions C55_hit_in_facet.
Print Assumptions C55_hit_on_ray.

(** Meaning of the status, and that a result is always returned for the
    supported cells. *)
Theorem C55_status_meaning :
  forall (tdim gdim max_iter : nat) (tol : R) (ct : cell_type) (refmap push : list R -> list R) (jac : list R -> matrix) (dxi : matrix) (point : list R) (tangents : list (list R)) (old_X : list R),
    (tdim = 2 \/ tdim = 3)%nat -> (gdim = 2 \/ gdim = 3)%nat -> ct <> OtherCell ->
    exists r, raytracing_cell tdim gdim max_iter tol ct refmap push jac dxi point tangents old_X = RayOk r /\
      (rs_status r = 1 \/ rs_status r = -1 \/ rs_status r = -2 \/ rs_status r = -3)%Z /\
      ((rs_status r = -3)%Z <-> ~ in_reference_facet ct tol (rs_xi r)) /\
      ((rs_status r = -2)%Z -> Rabs (derivative_det tdim gdim (residual_derivative tdim gdim jac dxi tangents (rs_X r))) < tol).
Proof.
  intros tdim gdim max_iter tol ct refmap push jac dxi point tangents old_X Ht Hg Hc. unfold raytracing_cell.
  replace (negb ((gdim =? 2)%nat || (gdim =? 3)%nat) || negb ((tdim =? 2)%nat || (tdim =? 3)%nat)) with false by (destruct Ht as [-> | ->], Hg as [-> | ->]; reflexivity).
  set (s0 := {| rs_status := _ |}). cbv zeta. set (r := ray_newton _ _ _ _ _ _ _ _ _ _ _).
  assert (S : (rs_status r = 1 \/ rs_status r = -1 \/ rs_status r = -2)%Z /\ ((rs_status r = -2)%Z -> Rabs (derivative_det tdim gdim (residual_derivative tdim gdim jac dxi tangents (rs_X r))) < tol)).
  { unfold r. assert (H0 : (rs_status s0 = -1)%Z) by reflexivity. clearbody s0. clear r. revert s0 H0. induction max_iter as [|n IH]; intros s H0; cbn [ray_newton].
    - rewrite H0. split; [auto|discriminate].
    - cbv zeta. destruct (rlt (Rabs _) tol) eqn:E1; [cbn [rs_status rs_X]; apply rlt_true in E1; auto|]. destruct (rlt (rsum _ _) _); [cbn [rs_status rs_X]; split; [auto|discriminate]|]. apply IH. exact H0. }
  assert (O : exists b, outside tol ct (rs_xi r) = RayOk b /\ (b = true <-> ~ in_reference_facet ct tol (rs_xi r))).
  { unfold outside, in_reference_facet. destruct ct; try congruence; (eexists; split; [reflexivity|]);
      repeat match goal with |- context [rlt ?a ?b] => let E := fresh in destruct (rlt a b) eqn:E; [apply rlt_true in E | apply rlt_false in E] end; cbn [orb]; split; intros; auto; try discriminate; try lra; exfalso; lra. }
  destruct O as (b & -> & Hb). destruct S as [S1 S2]. destruct b; eexists; (split; [reflexivity|]); cbn [rs_status rs_xi rs_X].
  - split; [auto|]. split; [split; auto; intros _; now apply Hb|]. discriminate.
  - split; [tauto|]. split; [|auto]. split; [intros E; exfalso; rewrite E in S1; lia | intros X; apply Hb in X; discriminate].
Qed.
Print Assumptions C55_status_meaning.

(** ** The first candidate that succeeds *)
Section First.
  Variables (tdim gdim max_iter : nat) (tol : R) (m : ray_mesh) (point normal : list R).
  Notation cell_hit := (ray_cell tdim gdim max_iter tol m point normal).

  Lemma ray_loop_spec : forall cells idx s r o, ray_loop tdim gdim max_iter tol m point normal idx cells s = RayOk (r, o) ->
    match o with
    | Some i => (idx <= i < idx + length cells)%nat /\ (exists oX, cell_hit oX (nth (i - idx) cells (0%nat, 0%nat)) = RayOk r) /\ (0 < rs_status r)%Z /\
        forall j, (j < i - idx)%nat -> exists oX r', cell_hit oX (nth j cells (0%nat, 0%nat)) = RayOk r' /\ (rs_status r' <= 0)%Z
    | None => (cells = [] -> r = s) /\ (cells <> [] -> (rs_status r <= 0)%Z) /\ forall j, (j < length cells)%nat -> exists oX r', cell_hit oX (nth j cells (0%nat, 0%nat)) = RayOk r' /\ (rs_status r' <= 0)%Z
    end.
  Proof.
    induction cells as [|c cells IH]; intros idx s r o H; cbn [ray_loop] in H.
    - inversion H; subst. split; [auto|]. split; [congruence|]. cbn. lia.
    - destruct (cell_hit (rs_X s) c) as [s'|] eqn:Ec; [|discriminate]. destruct (Z.ltb_spec 0 (rs_status s')) as [Hp | Hp].
      + inversion H; subst. cbn [length]. split; [lia|]. rewrite Nat.sub_diag. cbn [nth]. split; [eauto|]. split; [auto|]. lia.
      + specialize (IH (S idx) s' r o H). destruct o as [i|].
        * destruct IH as (I1 & (oX & I2) & I3 & I4). cbn [length]. split; [lia|]. split; [exists oX; replace (i - idx)%nat with (S (i - S idx)) by lia; exact I2|]. split; [auto|].
          intros [|j] Hj; cbn [nth]; [exists (rs_X s), s'; auto|]. apply I4. lia.
        * destruct IH as (I1 & I2 & I3). split; [discriminate|]. split.
          -- intros _. destruct cells as [|c' cells']; [rewrite I1 by reflexivity; exact Hp | apply I2; discriminate].
          -- intros [|j] Hj; cbn [nth length] in *; [exists (rs_X s), s'; auto|]. apply I3. lia.
  Qed.

  Theorem C55_first_candidate :
    forall cells r o, compute_ray tdim gdim max_iter tol m point normal cells = RayOk (r, o) ->
      ((0 < rs_status r)%Z <-> o <> None) /\
      match o with
      | Some i => (i < length cells)%nat /\ (exists oX, cell_hit oX (nth i cells (0%nat, 0%nat)) = RayOk r) /\
          (forall j, (j < i)%nat -> exists oX r', cell_hit oX (nth j cells (0%nat, 0%nat)) = RayOk r' /\ (rs_status r' <= 0)%Z)
      | None => forall j, (j < length cells)%nat -> exists oX r', cell_hit oX (nth j cells (0%nat, 0%nat)) = RayOk r' /\ (rs_status r' <= 0)%Z
      end.
  Proof.
    intros cells r o H. unfold compute_ray in H. destruct (_ || _); [discriminate|]. set (s0 := {| rs_status := _ |}) in H.
    assert (H' : ray_loop tdim gdim max_iter tol m point normal 0 cells s0 = RayOk (r, o)) by (destruct (rm_type m); [exact H | exact H | exact H | exact H | discriminate]).
    apply ray_loop_spec in H'. destruct o as [i|].
    - destruct H' as (I1 & I2 & I3 & I4). rewrite Nat.sub_0_r in *. split; [split; [discriminate | auto]|]. split; [lia|]. auto.
    - destruct H' as (I1 & I2 & I3). split; [|exact I3]. split; [|congruence]. intros Hp. destruct cells as [|c cells]; [rewrite I1 in Hp by reflexivity; cbn in Hp; lia|].
      specialize (I2 ltac:(discriminate)). lia.
  Qed.

  (** What is stored from the previous candidate does not influence the status. *)
  Lemma ray_newton_old n s s' : rs_status s = rs_status s' -> rs_xi s = rs_xi s' ->
    forall refmap push jac dxi tangents, let f := ray_newton tdim gdim tol refmap push jac dxi point tangents in
    rs_status (f n s) = rs_status (f n s') /\ rs_xi (f n s) = rs_xi (f n s').
  Proof.
    intros H1 H2 refmap push jac dxi tangents f. unfold f. revert s s' H1 H2. induction n as [|n IH]; intros s s' H1 H2; cbn [ray_newton]; [auto|]. rewrite <- H2. cbv zeta.
    destruct (rlt (Rabs _) tol); [auto|]. destruct (rlt (rsum _ _) _); [auto|]. apply IH; auto.
  Qed.
  Theorem C55_candidates_independent :
    forall oX oX' c, match cell_hit oX c, cell_hit oX' c with
      | RayOk r, RayOk r' => rs_status r = rs_status r' /\ rs_xi r = rs_xi r'
      | RayInvalid, RayInvalid => True
      | _, _ => False
      end.
  Proof.
    intros oX oX' c. unfold ray_cell, raytracing_cell. destruct (_ || _); [exact I|]. cbv zeta. set (xi0 := if (tdim =? 3)%nat then _ else _).
    match goal with |- context [ray_newton tdim gdim tol ?rf ?ps ?jc ?dx point ?tg max_iter ?s] => 
      destruct (ray_newton_old max_iter {| rs_status := -1; rs_xi := xi0; rs_X := oX; rs_x := repeat 0 gdim |} {| rs_status := -1; rs_xi := xi0; rs_X := oX'; rs_x := repeat 0 gdim |} eq_refl eq_refl rf ps jc dx tg) as [E1 E2] end.
    rewrite <- E2. destruct (outside _ _ _) as [[]|]; cbn [rs_status rs_xi]; auto.
  Qed.
End First.
Print Assumptions C55_first_candidate.
Print Assumptions C55_candidates_independent.

(** ** C64: on affine facets the intersection is found *)
Definition initial_parameters (dim : nat) : list R := if (dim =? 3)%nat then [1 / 2; 1 / 4] else [1 / 2].
Definition parameter_distance2 (dim : nat) (xi eta : list R) : R := rsum (dim - 1) (fun j => (nth j xi 0 - nth j eta 0) * (nth j xi 0 - nth j eta 0)).

Lemma solve_square dim (A : matrix) (e : nat -> R) : (dim = 2 \/ dim = 3)%nat -> det (dim - 1) A <> 0 ->
  forall i, (i < dim - 1)%nat -> rsum (dim - 1) (fun j => inv (dim - 1) A i j * rsum (dim - 1) (fun k => A j k * e k)) = e i.
Proof.
  intros Hd Hz i Hi. destruct Hd as [-> | ->]; cbn [Nat.sub] in *; unfold det in Hz; cbn [Nat.eqb] in Hz; cbn [rsum]; unfold inv, det; cbn [Nat.eqb].
  - assert (i = 0%nat) by lia. subst i. field. auto.
  - assert (Ei : (i = 0 \/ i = 1)%nat) by lia. destruct Ei as [-> | ->]; field; auto.
Qed.

Lemma tangents_orth dim normal i : (dim = 2 \/ dim = 3)%nat -> length normal = dim -> normn dim normal = 1 -> (i < dim - 1)%nat ->
  rsum dim (fun l => nth l normal 0 * tangent (compute_tangents dim normal) i l) = 0.
Proof.
  intros [-> | ->] Hlen Hunit Hi; unfold tangent.
  - destruct (C54_tangents_2d normal Hlen Hunit) as (t1 & -> & _ & _ & T). assert (i = 0%nat) by lia. subst i. unfold dotn in T. cbn [nth]. eapply eq_trans; [|exact T]. apply rsum_ext. intros. ring.
  - destruct (C54_tangents_3d normal Hlen Hunit) as (t1 & t2 & -> & _ & _ & _ & _ & T1 & T2 & _). unfold dotn in *. assert (Ei : (i = 0 \/ i = 1)%nat) by lia.
    destruct Ei as [-> | ->]; cbn [nth]; [eapply eq_trans; [|exact T1] | eapply eq_trans; [|exact T2]]; apply rsum_ext; intros; ring.
Qed.

Section Affine.
  Variables (dim max_iter : nat) (tol : R) (ct : cell_type) (refmap push : list R -> list R) (jac : list R -> matrix) (dxi : matrix) (point normal : list R).
  (** Origin and edge vectors of the facet in space. *)
  Variables (origin : nat -> R) (edge : nat -> nat -> R).
  Hypothesis Hdim : (dim = 2 \/ dim = 3)%nat.
  Hypothesis Hlen : length normal = dim.
  Hypothesis Hunit : normn dim normal = 1.
  Hypothesis Htol : 0 < tol.
  Hypothesis Hpush : forall xi l, (l < dim)%nat -> nth l (push (refmap xi)) 0 = origin l + rsum (dim - 1) (fun j => edge l j * nth j xi 0).
  Hypothesis Hjac : forall X l j, (l < dim)%nat -> (j < dim - 1)%nat -> rsum dim (fun k => jac X l k * dxi k j) = edge l j.
  (** The point of the facet plane on the line. *)
  Variables (eta : list R) (s : R).
  Hypothesis Heta : length eta = (dim - 1)%nat.
  Hypothesis Hhit : forall l, (l < dim)%nat -> origin l + rsum (dim - 1) (fun j => edge l j * nth j eta 0) = nth l point 0 + s * nth l normal 0.

  Notation t := (compute_tangents dim normal).
  Notation Dm X := (residual_derivative dim dim jac dxi t X).
  Notation g x := (residual dim point t x).
  Definition slope : matrix := fun i j => rsum dim (fun l => edge l j * tangent t i l).

  Lemma affine_derivative X i j : (j < dim - 1)%nat -> Dm X i j = slope i j.
  Proof. intros Hj. unfold residual_derivative, slope. apply rsum_ext. intros l Hl. f_equal. now apply Hjac. Qed.
  Lemma affine_residual xi i : (i < dim - 1)%nat -> g (push (refmap xi)) i = rsum (dim - 1) (fun k => slope i k * (nth k xi 0 - nth k eta 0)).
  Proof.
    intros Hi. unfold residual, slope.
    rewrite (rsum_ext (dim - 1) (fun k => rsum dim (fun l => edge l k * tangent t i l) * (nth k xi 0 - nth k eta 0)) (fun k => rsum dim (fun l => edge l k * (nth k xi 0 - nth k eta 0) * tangent t i l))).
    2: { intros k _. rewrite Rmult_comm, <- rsum_scal. apply rsum_ext. intros. ring. }
    rewrite <- rsum_swap.
    rewrite (rsum_ext dim (fun l => (nth l (push (refmap xi)) 0 - nth l point 0) * tangent t i l)
      (fun l => s * (nth l normal 0 * tangent t i l) + rsum (dim - 1) (fun k => edge l k * (nth k xi 0 - nth k eta 0) * tangent t i l))).
    - rewrite rsum_plus, rsum_scal, tangents_orth by auto. ring.
    - intros l Hl. rewrite Hpush by auto. specialize (Hhit l Hl).
      rewrite (rsum_ext (dim - 1) (fun k => edge l k * (nth k xi 0 - nth k eta 0) * tangent t i l) (fun k => tangent t i l * (edge l k * nth k xi 0) + (- tangent t i l) * (edge l k * nth k eta 0))) by (intros; ring).
      rewrite rsum_plus, !rsum_scal. set (p := rsum (dim - 1) (fun j => edge l j * nth j xi 0)). set (q := rsum (dim - 1) (fun j => edge l j * nth j eta 0)) in *.
      replace (nth l point 0) with (origin l + q - s * nth l normal 0) by lra. ring.
  Qed.
  Lemma affine_det X : det (dim - 1) (Dm X) = det (dim - 1) slope.
  Proof.
    unfold det. destruct (Nat.eqb_spec (dim - 1) 1); rewrite !affine_derivative by lia; reflexivity.
  Qed.
  Lemma affine_step xi i : ~ Rabs (det (dim - 1) slope) < tol -> (i < dim - 1)%nat ->
    nth i (newton_step dim dim (Dm (refmap xi)) (g (push (refmap xi)))) 0 = nth i xi 0 - nth i eta 0.
  Proof.
    intros Hd Hi. unfold newton_step. rewrite (nth_map_lt _ _ _ 0 0%nat) by (rewrite seq_length; auto). rewrite seq_nth by auto. cbn [Nat.add]. unfold derivative_inv. rewrite Nat.eqb_refl.
    assert (Hz : det (dim - 1) (Dm (refmap xi)) <> 0) by (rewrite affine_det; intros E; rewrite E, Rabs_R0 in Hd; lra).
    rewrite <- (solve_square dim (Dm (refmap xi)) (fun k => nth k xi 0 - nth k eta 0) Hdim Hz i Hi). apply rsum_ext. intros j Hj. f_equal. rewrite affine_residual by auto.
    apply rsum_ext. intros k Hk. now rewrite affine_derivative.
  Qed.

  (** If the facet is not parallel to the ray, two iterations find the
      intersection of the line with the plane of the facet; the status tells
      whether it is in the facet.  (When the initial guess is already within
      [tol] of it, the guess is returned.) *)
  Theorem C64_affine_intersection :
    forall old_X, ct <> OtherCell -> (2 <= max_iter)%nat -> ~ Rabs (det (dim - 1) slope) < tol ->
      let trace := raytracing_cell dim dim max_iter tol ct refmap push jac dxi point t old_X in
      exists r, trace = RayOk r /\ rs_X r = refmap (rs_xi r) /\ rs_x r = push (rs_X r) /\
        (rs_xi r = eta \/ (rs_xi r = initial_parameters dim /\ parameter_distance2 dim (initial_parameters dim) eta < tol * tol)) /\
        (in_reference_facet ct tol (rs_xi r) -> rs_status r = 1%Z) /\ (~ in_reference_facet ct tol (rs_xi r) -> rs_status r = (-3)%Z).
  Proof.
    intros old_X Hct Hmax Hd trace.
    destruct (C55_status_meaning dim dim max_iter tol ct refmap push jac dxi point t old_X Hdim Hdim Hct) as (r & Er & _ & Hin & _). fold trace in Er. exists r. split; [exact Er|].
    assert (Hdet : forall X, rlt (Rabs (derivative_det dim dim (Dm X))) tol = false).
    { intros X. unfold derivative_det. rewrite Nat.eqb_refl. cbn [negb andb]. rewrite affine_det. destruct (rlt _ tol) eqn:E; auto. apply rlt_true in E. contradiction. }
    unfold trace, raytracing_cell in Er. replace (negb ((dim =? 2)%nat || (dim =? 3)%nat) || negb ((dim =? 2)%nat || (dim =? 3)%nat)) with false in Er by (destruct Hdim as [-> | ->]; reflexivity).
    fold (initial_parameters dim) in Er. set (xi0 := initial_parameters dim) in *. destruct max_iter as [|[|n]]; [lia|lia|].
    assert (N : exists xi, ray_newton dim dim tol refmap push jac dxi point t (S (S n)) {| rs_status := -1; rs_xi := xi0; rs_X := old_X; rs_x := repeat 0 dim |} =
        {| rs_status := 1; rs_xi := xi; rs_X := refmap xi; rs_x := push (refmap xi) |} /\ (xi = eta \/ (xi = xi0 /\ parameter_distance2 dim xi0 eta < tol * tol))).
    { cbn [ray_newton]. cbv zeta. cbn [rs_xi rs_X rs_x rs_status]. rewrite Hdet.
      assert (E1 : rsum (dim - 1) (fun i => nth i (newton_step dim dim (Dm (refmap xi0)) (g (push (refmap xi0)))) 0 * nth i (newton_step dim dim (Dm (refmap xi0)) (g (push (refmap xi0)))) 0) = parameter_distance2 dim xi0 eta).
      { apply rsum_ext. intros i Hi. now rewrite affine_step. }
      rewrite E1. destruct (rlt (parameter_distance2 dim xi0 eta) (tol * tol)) eqn:E2.
      - apply rlt_true in E2. exists xi0. auto.
      - assert (E3 : map (fun i => nth i xi0 0 - nth i (newton_step dim dim (Dm (refmap xi0)) (g (push (refmap xi0)))) 0) (seq 0 (dim - 1)) = eta).
        { apply (nth_ext _ _ 0 0); [now rewrite map_length, seq_length|]. intros i Hi. rewrite map_length, seq_length in Hi.
          rewrite (nth_map_lt _ _ _ 0 0%nat) by (rewrite seq_length; auto). rewrite seq_nth by auto. cbn [Nat.add]. rewrite affine_step by auto. ring. }
        rewrite E3, Hdet.
        assert (E4 : rsum (dim - 1) (fun i => nth i (newton_step dim dim (Dm (refmap eta)) (g (push (refmap eta)))) 0 * nth i (newton_step dim dim (Dm (refmap eta)) (g (push (refmap eta)))) 0) = 0).
        { rewrite (rsum_ext _ _ (fun _ => 0)); [apply rsum_0|]. intros i Hi. rewrite affine_step by auto. ring. }
        rewrite E4. replace (rlt 0 (tol * tol)) with true by (symmetry; apply rlt_true; nra). exists eta. auto. }
    destruct N as (xi & N1 & N2). rewrite N1 in Er. cbv zeta in Er. cbn [rs_xi rs_X rs_x] in Er.
    destruct (outside tol ct xi) as [[]|]; try discriminate; inversion Er; subst r; cbn [rs_X rs_xi rs_x rs_status] in *; (split; [auto|]; split; [auto|]; split; [auto|]).
    - split; intros H; [exfalso; now apply Hin | reflexivity].
    - split; intros H; [reflexivity | apply Hin in H; discriminate].
  Qed.
End Affine.
Print Assumptions C64_affine_intersection.

(** The hypotheses are met: the edge from (0,0) to (1,0), hit from (1/4, 1)
    downwards. *)
Example C64_nonvacuous :
  exists r, raytracing_cell 2 2 25 (1 / 100) Triangle (fun xi => [nth 0 xi 0; 0]) (fun X => X) (fun _ l k => if (l =? k)%nat then 1 else 0)
      (fun k _ => if (k =? 0)%nat then 1 else 0) [1 / 4; 1] (compute_tangents 2 [0; 1]) [] = RayOk r /\ rs_status r = 1%Z /\ rs_xi r = [1 / 4] /\ rs_x r = [1 / 4; 0].
Proof.
  assert (U : normn 2 [0; 1] = 1) by (unfold normn, dotn; cbn [rsum nth]; replace (0 + 0 * 0 + 1 * 1) with 1 by ring; apply sqrt_1).
  destruct (C64_affine_intersection 2 25 (1 / 100) Triangle (fun xi => [nth 0 xi 0; 0]) (fun X => X) (fun _ l k => if (l =? k)%nat then 1 else 0)
      (fun k _ => if (k =? 0)%nat then 1 else 0) [1 / 4; 1] [0; 1] (fun _ => 0) (fun l _ => if (l =? 0)%nat then 1 else 0)) with (eta := [1 / 4]) (s := -1) (old_X := @nil R)
    as (r & Er & HX & Hx & Hxi & Hin & _); auto; try discriminate; try lra; try lia.
  - intros xi l Hl. cbn [Nat.sub rsum]. destruct l as [|[|l]]; [| |lia]; cbn [nth Nat.eqb]; ring.
  - intros X l j Hl Hj. cbn [rsum]. destruct l as [|[|l]]; [| |lia]; cbn [nth Nat.eqb]; ring.
  - intros l Hl. cbn [Nat.sub rsum]. destruct l as [|[|l]]; [| |lia]; cbn [nth Nat.eqb]; lra.
  - unfold det, slope. cbn [Nat.sub Nat.eqb].
    pose proof (tangent_frame 2 [0; 1] (or_introl eq_refl) eq_refl U (fun l => if (l =? 0)%nat then 1 else 0)) as F. cbn [Nat.sub] in F. set (z := rsum 2 (fun l => (if (l =? 0)%nat then 1 else 0) * tangent _ 0 l)) in *.
    assert (F' : rsum 1 (fun j => rsum 2 (fun i => (if (i =? 0)%nat then 1 else 0) * tangent (compute_tangents 2 [0; 1]) j i) * rsum 2 (fun i => (if (i =? 0)%nat then 1 else 0) * tangent (compute_tangents 2 [0; 1]) j i)) = z * z) by (cbn [rsum]; fold z; unfold z; cbn [rsum]; ring).
    rewrite F' in F. cbn [rsum Nat.eqb nth] in F. intros H. apply Rabs_def2 in H. nra.
  - exists r. split; [exact Er|]. destruct Hxi as [Hxi | [_ Hxi]].
    + rewrite Hxi in *. split; [apply Hin; cbn; lra|]. split; [auto|]. rewrite Hx, HX. reflexivity.
    + exfalso. unfold parameter_distance2, initial_parameters in Hxi. cbn [rsum nth Nat.sub Nat.eqb] in Hxi. lra.
Qed.

(** ** Surface meshes (tdim = 2, gdim = 3): the facets are curves *)
Lemma tangent_frame_polar gdim n : (gdim = 2 \/ gdim = 3)%nat -> length n = gdim -> normn gdim n = 1 ->
  forall v w : nat -> R, rsum gdim (fun i => v i * w i) =
    rsum gdim (fun i => v i * nth i n 0) * rsum gdim (fun i => w i * nth i n 0) +
    rsum (gdim - 1) (fun j => rsum gdim (fun i => v i * tangent (compute_tangents gdim n) j i) * rsum gdim (fun i => w i * tangent (compute_tangents gdim n) j i)).
Proof.
  intros Hg Hl Hn v w. set (t := compute_tangents gdim n).
  pose proof (tangent_frame gdim n Hg Hl Hn v) as Fv. pose proof (tangent_frame gdim n Hg Hl Hn w) as Fw. pose proof (tangent_frame gdim n Hg Hl Hn (fun i => v i + w i)) as F. fold t in Fv, Fw, F.
  clearbody t. destruct Hg as [-> | ->]; cbn [Nat.sub rsum] in *; lra.
Qed.

(** On surface meshes a hit is a point of the facet that is closest to the ray in
    the direction of the facet: the offset from the ray has almost no component
    along the facet. *)
Theorem C55_surface_hit_partial :
  forall (max_iter : nat) (tol : R) (ct : cell_type) (refmap push : list R -> list R) (jac : list R -> matrix) (dxi : matrix) (point normal old_X : list R) (r : ray_state),
    0 < tol -> length normal = 3%nat -> normn 3 normal = 1 ->
    raytracing_cell 2 3 max_iter tol ct refmap push jac dxi point (compute_tangents 3 normal) old_X = RayOk r -> (0 < rs_status r)%Z ->
    let d l := rsum 2 (fun k => jac (rs_X r) l k * dxi k 0%nat) in
    let v l := nth l (rs_x r) 0 - nth l point 0 in
    let dot a b := rsum 3 (fun l => a l * b l) in
    let n l := nth l normal 0 in
    Rabs (dot v d - dot v n * dot d n) <= tol * (dot d d - dot d n * dot d n).
Proof.
  intros max_iter tol ct refmap push jac dxi point normal old_X r Htol Hl Hn H Hp d v dot n.
  destruct (trace_hit 2 3 max_iter tol ct refmap push jac dxi point _ old_X r H Hp) as (_ & H1 & H2).
  set (t := compute_tangents 3 normal) in *. set (Dm := residual_derivative 2 3 jac dxi t (rs_X r)) in *. set (g := residual 3 point t (rs_x r)) in *.
  assert (P1 : dot v d - dot v n * dot d n = g 0%nat * Dm 0%nat 0%nat + g 1%nat * Dm 1%nat 0%nat).
  { unfold dot, n. rewrite (tangent_frame_polar 3 normal (or_intror eq_refl) Hl Hn v d). fold t. 
    assert (E : rsum (3 - 1) (fun j => rsum 3 (fun i => v i * tangent t j i) * rsum 3 (fun i => d i * tangent t j i)) = g 0%nat * Dm 0%nat 0%nat + g 1%nat * Dm 1%nat 0%nat).
    { change (3 - 1)%nat with 2%nat. change (0 + g 0%nat * Dm 0%nat 0%nat + g 1%nat * Dm 1%nat 0%nat = g 0%nat * Dm 0%nat 0%nat + g 1%nat * Dm 1%nat 0%nat). ring. }
    rewrite E. ring. }
  assert (P2 : dot d d - dot d n * dot d n = Dm 0%nat 0%nat * Dm 0%nat 0%nat + Dm 1%nat 0%nat * Dm 1%nat 0%nat).
  { unfold dot, n. rewrite (tangent_frame 3 normal (or_intror eq_refl) Hl Hn d). fold t.
    assert (E : rsum (3 - 1) (fun j => rsum 3 (fun i => d i * tangent t j i) * rsum 3 (fun i => d i * tangent t j i)) = Dm 0%nat 0%nat * Dm 0%nat 0%nat + Dm 1%nat 0%nat * Dm 1%nat 0%nat).
    { change (3 - 1)%nat with 2%nat. change (0 + Dm 0%nat 0%nat * Dm 0%nat 0%nat + Dm 1%nat 0%nat * Dm 1%nat 0%nat = Dm 0%nat 0%nat * Dm 0%nat 0%nat + Dm 1%nat 0%nat * Dm 1%nat 0%nat). ring. }
    rewrite E. ring. }
  rewrite P1, P2. clearbody Dm g. unfold newton_step, derivative_inv, pinv in H2. cbn [Nat.sub Nat.eqb seq map rsum nth] in H2.
  unfold derivative_det in H1. cbn [Nat.eqb negb andb] in H1.
  set (a := Dm 0%nat 0%nat) in *. set (b := Dm 1%nat 0%nat) in *. set (S := a * a + b * b) in *.
  assert (HS : 0 < S).
  { destruct (Rle_lt_dec S 0) as [Hs | Hs]; auto. rewrite (sqrt_neg_0 S Hs), Rabs_R0 in H1. lra. }
  set (q := g 0%nat * a + g 1%nat * b). replace (0 + 1 / S * a * g 0%nat + 1 / S * b * g 1%nat) with (q / S) in H2 by (unfold q; field; lra).
  assert (Hq : Rabs (q / S) < tol).
  { destruct (Rlt_le_dec (Rabs (q / S)) tol) as [Hs | Hs]; auto. exfalso. assert (0 + q / S * (q / S) = Rabs (q / S) * Rabs (q / S)) by (rewrite <- Rabs_mult, Rabs_right; [ring | apply Rle_ge, Rle_0_sqr]). nra. }
  replace q with (q / S * S) by (field; lra). rewrite Rabs_mult, (Rabs_right S) by lra. apply Rmult_le_compat_r; lra.
Qed.
Print Assumptions C55_surface_hit_partial.

(** It need not be on the ray: a hit is reported for an edge five units away. *)
Theorem C55_surface_off_ray_refuted :
  exists (ct : cell_type) (refmap push : list R -> list R) (jac : list R -> matrix) (dxi : matrix) (point normal : list R) (r : ray_state),
    length normal = 3%nat /\ normn 3 normal = 1 /\
    raytracing_cell 2 3 25 (1 / 100000000) ct refmap push jac dxi point (compute_tangents 3 normal) [] = RayOk r /\ rs_status r = 1%Z /\
    line_distance2 3 point normal (rs_x r) = 25 /\
    rsum 1 (fun j => rsum 3 (fun l => rsum 2 (fun k => jac (rs_X r) l k * dxi k j) * rsum 2 (fun k => jac (rs_X r) l k * dxi k j))) = 1.
Proof.
  set (refmap := fun xi : list R => [nth 0 xi 0; 0]). set (push := fun X : list R => [nth 0 X 0; nth 1 X 0; 0]).
  set (jac := fun (_ : list R) l k => if (l =? k)%nat then 1 else 0). set (dxi := fun k (_ : nat) => if (k =? 0)%nat then 1 else 0). set (point := [1 / 2; 5; 0]). set (normal := [0; 0; 1]).
  assert (U : normn 3 normal = 1) by (unfold normn, dotn, normal; cbn [rsum nth]; replace (0 + 0 * 0 + 0 * 0 + 1 * 1) with 1 by ring; apply sqrt_1).
  exists Triangle, refmap, push, jac, dxi, point, normal, {| rs_status := 1%Z; rs_xi := [1 / 2]; rs_X := [1 / 2; 0]; rs_x := [1 / 2; 0; 0] |}.
  split; [reflexivity|]. split; [exact U|]. split; [|split; [reflexivity|split]].
  - set (t := compute_tangents 3 normal). set (tol := 1 / 100000000). assert (Htol : 0 < tol < 1 / 10) by (unfold tol; lra). clearbody tol.
    set (Dm := residual_derivative 2 3 jac dxi t [1 / 2; 0]). set (g := residual 3 point t [1 / 2; 0; 0]).
    assert (P1 : g 0%nat * Dm 0%nat 0%nat + g 1%nat * Dm 1%nat 0%nat = 0).
    { pose proof (tangent_frame_polar 3 normal (or_intror eq_refl) eq_refl U (fun l => nth l [1 / 2; 0; 0] 0 - nth l point 0) (fun l => rsum 2 (fun k => jac [1 / 2; 0] l k * dxi k 0%nat))) as F. fold t in F.
      change (3 - 1)%nat with 2%nat in F. cbv beta in F.
      match type of F with _ = _ + ?x => assert (E : x = g 0%nat * Dm 0%nat 0%nat + g 1%nat * Dm 1%nat 0%nat) by (change (0 + g 0%nat * Dm 0%nat 0%nat + g 1%nat * Dm 1%nat 0%nat = g 0%nat * Dm 0%nat 0%nat + g 1%nat * Dm 1%nat 0%nat); ring) end.
      rewrite E in F. unfold jac, dxi, point, normal in F. cbn [rsum nth Nat.eqb] in F. lra. }
    assert (P2 : Dm 0%nat 0%nat * Dm 0%nat 0%nat + Dm 1%nat 0%nat * Dm 1%nat 0%nat = 1).
    { pose proof (tangent_frame 3 normal (or_intror eq_refl) eq_refl U (fun l => rsum 2 (fun k => jac [1 / 2; 0] l k * dxi k 0%nat))) as F. fold t in F.
      change (3 - 1)%nat with 2%nat in F. cbv beta in F.
      match type of F with _ = _ + ?x => assert (E : x = Dm 0%nat 0%nat * Dm 0%nat 0%nat + Dm 1%nat 0%nat * Dm 1%nat 0%nat) by (change (0 + Dm 0%nat 0%nat * Dm 0%nat 0%nat + Dm 1%nat 0%nat * Dm 1%nat 0%nat = Dm 0%nat 0%nat * Dm 0%nat 0%nat + Dm 1%nat 0%nat * Dm 1%nat 0%nat); ring) end.
      rewrite E in F. unfold jac, dxi, point, normal in F. cbn [rsum nth Nat.eqb] in F. lra. }
    change 25%nat with (S 24). generalize 24%nat. intros k. unfold raytracing_cell. cbn [Nat.eqb orb negb ray_newton rs_xi]. cbv zeta. change (refmap [1 / 2]) with [1 / 2; 0]. change (push [1 / 2; 0]) with [1 / 2; 0; 0]. fold Dm g.
    unfold derivative_det. cbn [Nat.eqb orb andb negb]. rewrite P2, sqrt_1, Rabs_R1.
    replace (rlt 1 tol) with false by (symmetry; apply rlt_false; lra).
    unfold newton_step, derivative_inv, pinv. cbn [Nat.sub Nat.eqb seq map rsum nth]. rewrite P2.
    match goal with |- context [rlt ?e (tol * tol)] => replace e with 0 end.
    2: { replace (0 + 1 / 1 * Dm 0%nat 0%nat * g 0%nat + 1 / 1 * Dm 1%nat 0%nat * g 1%nat) with (g 0%nat * Dm 0%nat 0%nat + g 1%nat * Dm 1%nat 0%nat) by field. rewrite P1. ring. }
    replace (rlt 0 (tol * tol)) with true by (symmetry; apply rlt_true; nra).
    unfold outside. cbn [rs_xi nth]. replace (rlt (1 / 2) (- tol)) with false by (symmetry; apply rlt_false; lra). replace (rlt (1 + tol) (1 / 2)) with false by (symmetry; apply rlt_false; lra). reflexivity.
  - unfold line_distance2, point, normal. cbn [rsum nth rs_x]. lra.
  - unfold jac, dxi. cbn [rsum nth Nat.eqb rs_X]. lra.
Qed.
Print Assumptions C55_surface_off_ray_refuted.
