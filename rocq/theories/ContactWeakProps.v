(** C99: the contact kernels integrate consistent Nitsche forms of the contact and
    friction conditions. *)
From Coq Require Import List Arith Lia Bool Reals Lra.
Import ListNotations.
From Verif Require Import Prelude PreludeLemmas RSum RealLemmas RayModel OpsModel OpsProps AssemblyModel AssemblyProofs KernelModel KernelProofs KernelSpec
  ElasticityProps ContactKernelModel ContactKernelProofs ContactKernelSpec ContactCurveProofs ContactKernelProps FrictionKernelProofs FrictionKernelProps MeshTieKernelModel TieWeakProps ContactExamples.
Local Open Scope R_scope.

(** ** Specification *)
Section Tests.
  Context (kd : kernel_data) (coords : list R) (f : nat) (c : list R) (links : nat).
  (** Jump across the surfaces and traction of a test function with coefficients [V] on
      the cell, [Vo k] on linked cell [k]. *)
  Definition test_jump (q : nat) (V : coeffs) (Vo : nat -> coeffs) (a : nat) : R :=
    own kd f q V a - rsum links (fun k => rsum (kd_ndofs kd) (fun j => contact_test kd f c q k j a * Vo k j a)).
  Definition test_traction (q : nat) (V : coeffs) (a : nat) : R :=
    traction (kd_gdim kd) (ck_mu c) (ck_lambda c) (own_grad kd coords f q V) (g_n (geometry_at kd coords f q)) a.
  Definition inner (x y : nat -> R) : R := rsum (kd_gdim kd) (fun a => x a * y a).
End Tests.

(** Signorini's conditions at a point: no penetration, no tension, no traction without
    contact. *)
Definition signorini (penetration normal_traction : R) : Prop :=
  penetration <= 0 /\ normal_traction <= 0 /\ penetration * normal_traction = 0.
Definition signorini_at kd coords f c q : Prop :=
  signorini (along kd (ck_normal kd c q) (ck_jump kd c q) - ck_gap kd c q) (along kd (ck_normal kd c q) (ck_traction kd coords f c q)).

(** Friction with bound [F]: the tangential traction stays within the bound, and where
    the surfaces slip it has the size of the bound and opposes the slip. *)
Definition size (dim : nat) (x : nat -> R) : R := sqrt (rsum dim (fun a => x a * x a)).
Definition friction_at (dim : nat) (F : R) (slip tau : nat -> R) : Prop :=
  size dim tau <= F /\ (size dim slip <> 0 -> forall a, (a < dim)%nat -> tau a = - (F * (slip a / size dim slip))).
Definition tresca_at kd coords f c q : Prop :=
  friction_at (kd_gdim kd) (ck_friction c) (tangential kd c q (ck_jump kd c q)) (tangential kd c q (ck_traction kd coords f c q)).
(** Coulomb: the bound is the friction coefficient times the contact pressure. *)
Definition coulomb_at kd coords f c q : Prop :=
  friction_at (kd_gdim kd) (ck_friction c * - along kd (ck_normal kd c q) (ck_traction kd coords f c q)) (tangential kd c q (ck_jump kd c q)) (tangential kd c q (ck_traction kd coords f c q)).

(** ** Lemmas *)
Lemma signorini_plus g d s : 0 < g -> (s = - (/ g * Rmax (d - g * s) 0) <-> signorini d s).
Proof.
  intros Hg. assert (Hi : 0 < / g) by now apply Rinv_0_lt_compat. assert (E : g * / g = 1) by (apply Rinv_r; lra). split.
  - intros H. unfold Rmax in H. destruct (Rle_dec (d - g * s) 0) as [L|L].
    + assert (s = 0) by lra. subst s. repeat split; lra.
    + assert (d = 0) as -> by (assert (g * s = - (g * / g * (d - g * s))) by (rewrite H at 1; ring); rewrite E in H0; lra).
      repeat split; [lra| |lra]. nra.
  - intros (H1 & H2 & H3). unfold Rmax. destruct (Rle_dec (d - g * s) 0) as [L|L].
    + destruct (Rmult_integral _ _ H3) as [Z|Z]; [|lra]. subst d. assert (0 <= g * s) by lra. assert (g * s <= 0) by nra. assert (g * s = 0) by lra. destruct (Rmult_integral _ _ H4); lra.
    + destruct (Rmult_integral _ _ H3) as [Z|Z]; subst; [|lra]. transitivity (g * / g * s); [rewrite E; ring|ring].
Qed.

Lemma apply_row_outer nd bs (A : nat -> R) (nu : nat -> R) V : apply_row nd bs (fun i n => A i * nu n) V = rsum bs (fun n => rsum nd (fun i => A i * V i n) * nu n).
Proof.
  unfold apply_row. rewrite rsum_swap. apply rsum_ext. intros n _. rewrite <- rsum_scal_r. apply rsum_ext. intros; ring.
Qed.
Lemma rsum_along kd nu m (g : nat -> nat -> R) : along kd nu (fun a => rsum m (fun j => g j a)) = rsum m (fun j => along kd nu (g j)).
Proof. unfold along. rewrite rsum_swap. apply rsum_ext. intros a _. now rewrite rsum_scal_r. Qed.

Lemma tested_lsum nd bs links (qs : list nat) vec (X : nat -> nat -> nat -> R) (Y : nat -> nat -> nat -> nat -> R) V Vo :
  (forall i n, (i < nd)%nat -> (n < bs)%nat -> vec 0%nat i n = lsum qs (fun q => X q i n) /\ forall k, (k < links)%nat -> vec (k + 1)%nat i n = lsum qs (fun q => Y q k i n)) ->
  tested nd bs links vec V Vo = lsum qs (fun q => apply_row nd bs (X q) V + rsum links (fun k => apply_row nd bs (Y q k) (Vo k))).
Proof.
  intros H. unfold tested.
  rewrite (apply_row_ext nd bs (vec 0%nat) (fun i n => lsum qs (fun q => X q i n))) by (intros i n Hi Hn; apply (H i n Hi Hn)).
  rewrite apply_row_lsum.
  rewrite (rsum_ext links _ (fun k => lsum qs (fun q => apply_row nd bs (Y q k) (Vo k)))).
  - rewrite <- lsum_rsum, <- lsum_plus. reflexivity.
  - intros k Hk. rewrite <- apply_row_lsum. apply apply_row_ext. intros i n Hi Hn. now apply (H i n Hi Hn).
Qed.
(** Traction of a discrete function from those of its basis functions. *)
Lemma test_traction_expansion kd coords f c q V a : (a < kd_gdim kd)%nat -> kd_bs kd = kd_gdim kd ->
  test_traction kd coords f c q V a =
  apply_row (kd_ndofs kd) (kd_bs kd) (fun i n => traction (kd_gdim kd) (ck_mu c) (ck_lambda c) (in_direction n (phys_grad kd coords f q i)) (g_n (geometry_at kd coords f q)) a) V.
Proof. intros Ha Hbs. unfold test_traction, own_grad. rewrite traction_expansion by auto. unfold apply_row. now rewrite Hbs. Qed.
Lemma apply_row_along kd nu (T : nat -> nat -> nat -> R) nd bs V : apply_row nd bs (fun i n => along kd nu (T i n)) V = along kd nu (fun a => apply_row nd bs (fun i n => T i n a) V).
Proof.
  unfold along. rewrite (apply_row_ext nd bs _ (fun i n => rsum (kd_gdim kd) (fun a => nu a * T i n a))) by (intros; apply rsum_ext; intros; ring).
  rewrite apply_row_sum. apply rsum_ext. intros a _. rewrite apply_row_scal. ring.
Qed.
Lemma along_ext kd nu x y : (forall a, (a < kd_gdim kd)%nat -> x a = y a) -> along kd nu x = along kd nu y.
Proof. intros H. apply rsum_ext. intros a Ha. now rewrite H. Qed.
Lemma along_test_jump kd f c links q nu V Vo : kd_bs kd = kd_gdim kd ->
  along kd nu (test_jump kd f c links q V Vo) =
  apply_row (kd_ndofs kd) (kd_bs kd) (fun i n => kd_phi kd (kd_qp_offsets kd f + q) i * nu n) V
  - rsum links (fun k => apply_row (kd_ndofs kd) (kd_bs kd) (fun i n => contact_test kd f c q k i n * nu n) (Vo k)).
Proof.
  intros Hbs. rewrite apply_row_outer. unfold along, test_jump, own. rewrite Hbs.
  rewrite (rsum_ext (kd_gdim kd) _ (fun a => rsum (kd_ndofs kd) (fun j => kd_phi kd (kd_qp_offsets kd f + q) j * V j a) * nu a - rsum links (fun k => rsum (kd_ndofs kd) (fun j => contact_test kd f c q k j a * Vo k j a) * nu a)))
    by (intros; rewrite rsum_scal_r; ring).
  rewrite rsum_minus. f_equal. rewrite rsum_swap. apply rsum_ext. intros k _. unfold apply_row. rewrite rsum_swap. apply rsum_ext. intros a _. rewrite <- rsum_scal_r. apply rsum_ext. intros; ring.
Qed.

(** ** C99: normal contact *)
Theorem C99_contact_weak_form :
  forall (kd : kernel_data) (junk : geometry) (b : list (list R)) (c w coords : list R) (f links : nat) (qs : list nat) (V : coeffs) (Vo : nat -> coeffs) (rhs : kernel_fn),
    generate_contact_kernel Rhs kd junk = Some rhs ->
    kd_bs kd = kd_gdim kd -> vector_buffers kd links b ->
    let theta := nth 1 w 0 in
    let gamma := ck_gamma c w in
    let inverse := nth 0 w 0 / nth 3 c 0 in
    let n q := along kd (ck_normal kd c q) in
    tested (kd_ndofs kd) (kd_bs kd) links (added_vec kd b (rhs b c w coords f links qs)) V Vo =
    lsum qs (fun q => surface_weight kd coords f q / 2 *
      (inverse * Rmax (n q (ck_jump kd c q) - ck_gap kd c q - gamma * n q (ck_traction kd coords f c q)) 0 *
         (n q (test_jump kd f c links q V Vo) - theta * gamma * n q (test_traction kd coords f c q V))
       - theta * gamma * n q (ck_traction kd coords f c q) * n q (test_traction kd coords f c q V))).
Proof.
  intros kd junk b c w coords f links qs V Vo rhs E Hbs Hb theta gamma inverse n.
  destruct (C36_contact_pressure kd junk b c w coords f links qs rhs E Hbs Hb) as (p & Hp & H). cbv zeta in H.
  rewrite (tested_lsum (kd_ndofs kd) (kd_bs kd) links qs _ _ _ V Vo H). apply lsum_ext. intros q _. cbv beta.
  assert (P : p q = Rmax (n q (ck_jump kd c q) - ck_gap kd c q - gamma * n q (ck_traction kd coords f c q)) 0).
  { destruct (Hp q) as (_ & P1 & P2). fold (contact_indicator kd coords f c w q).
    change (n q (ck_jump kd c q) - ck_gap kd c q - gamma * n q (ck_traction kd coords f c q)) with (contact_indicator kd coords f c w q).
    unfold Rmax. destruct (Rle_dec _ 0) as [L|L]; [now apply P1 | apply P2; lra]. }
  rewrite <- P. clear P Hp H. set (sigma := n q (ck_traction kd coords f c q)).
  rewrite (along_ext kd _ _ _ (fun a Ha => test_traction_expansion kd coords f c q V a Ha Hbs) : n q (test_traction kd coords f c q V) = _).
  rewrite <- apply_row_along. unfold n at 1. rewrite along_test_jump by auto.
  change (along kd (ck_normal kd c q) (ck_traction kd coords f c q)) with sigma.
  fold theta gamma inverse. set (W := surface_weight kd coords f q). fold (surface_weight kd coords f q). fold W.
  rewrite (apply_row_ext _ _ (fun i n => _ - _) (fun i n0 => (/ 2 * inverse * W * p q) * (kd_phi kd (kd_qp_offsets kd f + q) i * ck_normal kd c q n0)
     + (- (/ 2 * inverse * W * p q * gamma * theta + / 2 * theta * gamma * sigma * W)) * along kd (ck_normal kd c q) (fun a => traction (kd_gdim kd) (ck_mu c) (ck_lambda c) (in_direction n0 (phys_grad kd coords f q i)) (g_n (geometry_at kd coords f q)) a))) by
    (intros i n0 _ _; change (fun a => traction (kd_gdim kd) (ck_mu c) (ck_lambda c) (in_direction n0 (phys_grad kd coords f q i)) (g_n (geometry_at kd coords f q)) a) with (traction (kd_gdim kd) (ck_mu c) (ck_lambda c) (in_direction n0 (phys_grad kd coords f q i)) (g_n (geometry_at kd coords f q))); ring).
  rewrite apply_row_plus, !apply_row_scal.
  rewrite (rsum_ext links _ (fun k => (- (/ 2 * inverse * W * p q)) * apply_row (kd_ndofs kd) (kd_bs kd) (fun i n => contact_test kd f c q k i n * ck_normal kd c q n) (Vo k))).
  2:{ intros k _. rewrite <- apply_row_scal. apply apply_row_ext. intros; ring. }
  rewrite rsum_scal. field.
Qed.
Print Assumptions C99_contact_weak_form.

(** Where the displacement meets Signorini's conditions, the residual is the work of its
    normal traction on the jump of the test function: the Nitsche terms cancel, whatever
    gamma and theta are. *)
Theorem C99_contact_consistent :
  forall (kd : kernel_data) (junk : geometry) (b : list (list R)) (c w coords : list R) (f links : nat) (qs : list nat) (V : coeffs) (Vo : nat -> coeffs) (rhs : kernel_fn),
    generate_contact_kernel Rhs kd junk = Some rhs ->
    kd_bs kd = kd_gdim kd -> vector_buffers kd links b -> 0 < nth 0 w 0 -> 0 < nth 3 c 0 ->
    (forall q, In q qs -> signorini_at kd coords f c q) ->
    let n q := along kd (ck_normal kd c q) in
    tested (kd_ndofs kd) (kd_bs kd) links (added_vec kd b (rhs b c w coords f links qs)) V Vo =
    lsum qs (fun q => - (surface_weight kd coords f q / 2 * (n q (ck_traction kd coords f c q) * n q (test_jump kd f c links q V Vo)))).
Proof.
  intros kd junk b c w coords f links qs V Vo rhs E Hbs Hb Hw Hc S n.
  rewrite (C99_contact_weak_form kd junk b c w coords f links qs V Vo rhs E Hbs Hb). apply lsum_ext. intros q Hq. cbv beta. fold (n q).
  assert (Hg : 0 < ck_gamma c w) by (unfold ck_gamma; apply Rdiv_lt_0_compat; auto).
  pose proof (proj2 (signorini_plus _ _ _ Hg) (S q Hq)) as P. fold (n q) in P.
  replace (nth 0 w 0 / nth 3 c 0) with (/ ck_gamma c w) by (unfold ck_gamma; field; lra).
  set (R := Rmax _ 0) in *. set (sigma := n q (ck_traction kd coords f c q)) in *.
  replace (/ ck_gamma c w * R) with (- sigma) by lra. field.
Qed.
Print Assumptions C99_contact_consistent.
(** And only there: the contact pressure of the kernel is the normal traction exactly if
    the conditions hold. *)
Theorem C99_contact_condition :
  forall (kd : kernel_data) (c w coords : list R) (f q : nat), 0 < nth 0 w 0 -> 0 < nth 3 c 0 ->
    (along kd (ck_normal kd c q) (ck_traction kd coords f c q) = - (/ ck_gamma c w * Rmax (contact_indicator kd coords f c w q) 0) <-> signorini_at kd coords f c q).
Proof.
  intros kd c w coords f q Hw Hc. apply signorini_plus. unfold ck_gamma. apply Rdiv_lt_0_compat; auto.
Qed.
Print Assumptions C99_contact_condition.

(** ** C99: friction *)
Lemma inner_tangential kd c q x y : inner kd x (tangential kd c q y) = along kd (tangential kd c q x) y.
Proof.
  unfold inner, tangential. set (nu := ck_normal kd c q).
  rewrite (rsum_ext (kd_gdim kd) _ (fun a => x a * y a - along kd nu y * (x a * nu a))) by (intros; ring). rewrite rsum_minus, rsum_scal.
  unfold along at 2. rewrite (rsum_ext (kd_gdim kd) (fun a => y a * _) (fun a => x a * y a - along kd nu x * (y a * nu a))) by (intros; ring). rewrite rsum_minus, rsum_scal.
  fold (along kd nu y). fold (along kd nu x). ring.
Qed.
Lemma inner_ext kd x x' y y' : (forall a, (a < kd_gdim kd)%nat -> x a = x' a) -> (forall a, (a < kd_gdim kd)%nat -> y a = y' a) -> inner kd x y = inner kd x' y'.
Proof. intros H H'. apply rsum_ext. intros a Ha. now rewrite H, H'. Qed.
Lemma along_component kd nu n v : (n < kd_gdim kd)%nat -> along kd nu (fun a => if (a =? n)%nat then v else 0) = v * nu n.
Proof.
  intros Hn. unfold along. rewrite (rsum_single (kd_gdim kd) n); [now rewrite Nat.eqb_refl|exact Hn|]. intros a _ N. destruct (Nat.eqb_spec a n); [contradiction|ring].
Qed.
Lemma inner_minus kd x y z k : inner kd x (fun a => y a - k * z a) = inner kd x y - k * inner kd x z.
Proof. unfold inner. rewrite <- rsum_scal, <- rsum_minus. apply rsum_ext. intros; ring. Qed.

Lemma friction_tested kd coords f c w links qs tau vec V Vo : kd_bs kd = kd_gdim kd -> friction_residual kd coords f c w links qs tau vec ->
  let theta := nth 1 w 0 in
  let gamma := ck_gamma c w in
  let inverse := nth 0 w 0 / nth 3 c 0 in
  let t q := tangential kd c q in
  tested (kd_ndofs kd) (kd_bs kd) links vec V Vo =
  lsum qs (fun q => surface_weight kd coords f q / 2 *
    (inverse * inner kd (tau q) (fun a => t q (test_jump kd f c links q V Vo) a - theta * gamma * t q (test_traction kd coords f c q V) a)
     - theta * gamma * inner kd (t q (ck_traction kd coords f c q)) (t q (test_traction kd coords f c q V)))).
Proof.
  intros Hbs H theta gamma inverse t.
  rewrite (tested_lsum (kd_ndofs kd) (kd_bs kd) links qs vec _ _ V Vo H). apply lsum_ext. intros q _. cbv beta.
  fold theta gamma inverse. fold (t q). fold (surface_weight kd coords f q). set (W := surface_weight kd coords f q).
  rewrite inner_minus. unfold t. rewrite !inner_tangential. set (m := tangential kd c q (tau q)). set (s := tangential kd c q (tangential kd c q (ck_traction kd coords f c q))).
  rewrite along_test_jump by auto.
  rewrite !(along_ext kd _ _ _ (fun a Ha => test_traction_expansion kd coords f c q V a Ha Hbs)).
  rewrite <- !apply_row_along.
  set (T := fun i n a => traction (kd_gdim kd) (ck_mu c) (ck_lambda c) (in_direction n (phys_grad kd coords f q i)) (g_n (geometry_at kd coords f q)) a).
  rewrite (apply_row_ext _ _ (fun i n => _ - _) (fun i n => (/ 2 * inverse * W) * (kd_phi kd (kd_qp_offsets kd f + q) i * m n)
     + ((- (/ 2 * inverse * W * (theta * gamma))) * along kd m (T i n) + (- (/ 2 * theta * gamma * W)) * along kd s (T i n)))).
  2:{ intros i n Hi Hn. rewrite Hbs in Hn.
      match goal with |- context [rsum (kd_gdim kd) (fun a => tau q a * (tangential kd c q ?y a - theta * gamma * tangential kd c q ?z a))] =>
        change (rsum (kd_gdim kd) (fun a => tau q a * (tangential kd c q y a - theta * gamma * tangential kd c q z a))) with (inner kd (tau q) (fun a => tangential kd c q y a - theta * gamma * tangential kd c q z a)) end.
      match goal with |- context [rsum (kd_gdim kd) (fun a => ?x a * tangential kd c q ?z a)] =>
        change (rsum (kd_gdim kd) (fun a => x a * tangential kd c q z a)) with (inner kd x (tangential kd c q z)) end.
      rewrite inner_minus, !inner_tangential. fold m s. rewrite along_component by auto.
      change (traction (kd_gdim kd) (ck_mu c) (ck_lambda c) (in_direction n (phys_grad kd coords f q i)) (g_n (geometry_at kd coords f q))) with (T i n). ring. }
  rewrite !apply_row_plus, !apply_row_scal.
  rewrite (rsum_ext links _ (fun k => (- (/ 2 * inverse * W)) * apply_row (kd_ndofs kd) (kd_bs kd) (fun i n => contact_test kd f c q k i n * m n) (Vo k))).
  2:{ intros k _. rewrite <- apply_row_scal. apply apply_row_ext. intros i n Hi Hn. rewrite Hbs in Hn.
      match goal with |- context [rsum (kd_gdim kd) (fun a => ?x a * tangential kd c q ?z a)] =>
        change (rsum (kd_gdim kd) (fun a => x a * tangential kd c q z a)) with (inner kd x (tangential kd c q z)) end.
      rewrite inner_tangential. fold m. rewrite along_component by auto. ring. }
  rewrite rsum_scal.
  repeat match goal with |- context [fun i n => along kd ?m (fun a => traction (kd_gdim kd) (ck_mu c) (ck_lambda c) (in_direction n (phys_grad kd coords f q i)) (g_n (geometry_at kd coords f q)) a)] =>
    change (fun i n => along kd m (fun a => traction (kd_gdim kd) (ck_mu c) (ck_lambda c) (in_direction n (phys_grad kd coords f q i)) (g_n (geometry_at kd coords f q)) a)) with (fun i n => along kd m (T i n)) end.
  match goal with |- context [apply_row _ _ (fun i n => along kd s (T i n)) V] => set (B := apply_row _ _ (fun i n => along kd s (T i n)) V) end.
  match goal with |- context [apply_row _ _ (fun i n => along kd m (T i n)) V] => set (A := apply_row _ _ (fun i n => along kd m (T i n)) V) end.
  field.
Qed.

Lemma size_scal dim k x : size dim (fun a => k * x a) = Rabs k * size dim x.
Proof.
  unfold size. rewrite (rsum_ext dim _ (fun a => k * k * (x a * x a))) by (intros; ring). rewrite rsum_scal, sqrt_mult_alt by apply Rle_0_sqr.
  f_equal. change (k * k) with (Rsqr k). apply sqrt_Rsqr_abs.
Qed.
Lemma size_ext dim x y : (forall a, (a < dim)%nat -> x a = y a) -> size dim x = size dim y.
Proof. intros H. unfold size. f_equal. apply rsum_ext. intros a Ha. now rewrite H. Qed.
Lemma size_nonneg dim x : 0 <= size dim x.
Proof. apply sqrt_pos. Qed.
Lemma size_zero dim x : size dim x = 0 -> forall a, (a < dim)%nat -> x a = 0.
Proof.
  intros H a Ha. unfold size in H. apply sqrt_eq_0 in H; [|apply rsum_nonneg; intros; apply Rle_0_sqr].
  assert (L : x a * x a <= rsum dim (fun a => x a * x a)).
  { clear H. induction dim as [|d IH]; [lia|]. cbn [rsum]. destruct (Nat.eq_dec a d) as [->|N].
    - assert (0 <= rsum d (fun a => x a * x a)) by (apply rsum_nonneg; intros; apply Rle_0_sqr). lra.
    - specialize (IH ltac:(lia)). pose proof (Rle_0_sqr (x d)) as Q. unfold Rsqr in Q. lra. }
  pose proof (Rle_0_sqr (x a)) as Q. unfold Rsqr in Q. nra.
Qed.

(** The projection of slip minus scaled traction is the scaled traction exactly if the
    friction conditions hold. *)
Lemma friction_projection kd F g slip tau arg mult : 0 < g -> 0 <= F -> (forall a, (a < kd_gdim kd)%nat -> arg a = slip a - g * tau a) -> friction_law kd (g * F) arg mult ->
  ((forall a, (a < kd_gdim kd)%nat -> mult a = - g * tau a) <-> friction_at (kd_gdim kd) F slip tau).
Proof.
  intros Hg HF Ha (L1 & L2 & L3). set (d := kd_gdim kd) in *.
  change (norm_of kd) with (size d) in *. split.
  - intros Hm. assert (Nm : size d mult = g * size d tau).
    { rewrite (size_ext d mult (fun a => - g * tau a)) by auto. rewrite size_scal, Rabs_left by lra. ring. }
    split; [rewrite Nm in L1; nra|]. intros Hs a Hd.
    destruct (Rle_lt_dec (size d arg) (g * F)) as [C|C].
    + exfalso. apply Hs. rewrite (size_ext d slip (fun _ => 0 * 0)).
      * rewrite (size_scal d 0 (fun _ => 0)), Rabs_R0. ring.
      * intros b Hb. specialize (L2 C b Hb). rewrite Hm, Ha in L2 by auto. lra.
    + destruct (L3 C) as [E1 E2]. rewrite Nm in E1. assert (Et : size d tau = F) by nra.
      set (k := size d arg - g * F). assert (K : 0 < k) by (unfold k; lra).
      assert (E : forall b, (b < d)%nat -> k * tau b = - F * slip b).
      { intros b Hb. specialize (E2 b Hb). rewrite Hm, Ha in E2 by auto. unfold k. nra. }
      assert (Es : k * F = F * size d slip).
      { rewrite <- Et at 1. transitivity (size d (fun b => k * tau b)); [rewrite size_scal, Rabs_right by lra; reflexivity|].
        rewrite (size_ext d _ (fun b => - F * slip b)) by auto. rewrite size_scal, Rabs_Ropp, Rabs_right by lra. reflexivity. }
      destruct (Req_dec F 0) as [Z|Z].
      * rewrite Z in *. rewrite (size_zero d tau Et a Hd). ring.
      * assert (size d slip = k) as -> by nra. specialize (E a Hd). apply (Rmult_eq_reg_l k); [|lra]. rewrite E. field. lra.
  - intros [F1 F2] a Hd. destruct (Req_dec (size d slip) 0) as [Z|Z].
    + assert (A : forall b, (b < d)%nat -> arg b = - g * tau b) by (intros b Hb; rewrite Ha, (size_zero d slip Z b Hb) by auto; ring).
      rewrite <- A by auto. apply L2; [|exact Hd]. rewrite (size_ext d arg _ A), size_scal, Rabs_left by lra. nra.
    + assert (Ps : 0 < size d slip) by (pose proof (size_nonneg d slip); lra). set (s := size d slip) in *.
      assert (A : forall b, (b < d)%nat -> arg b = (1 + g * F / s) * slip b) by (intros b Hb; rewrite Ha, (F2 Z b Hb) by auto; field; lra).
      assert (Q : 0 <= g * F / s) by (apply Rmult_le_pos; [nra|left; now apply Rinv_0_lt_compat]).
      assert (N : size d arg = s + g * F) by (rewrite (size_ext d arg _ A), size_scal, Rabs_right by lra; fold s; field; lra).
      destruct (L3 ltac:(lra)) as [_ E2]. specialize (E2 a Hd). rewrite N, A in E2 by auto. rewrite (F2 Z a Hd).
      apply (Rmult_eq_reg_r (s + g * F)); [|nra]. rewrite E2. field. lra.
Qed.

(** What the friction kernels integrate: a multiplier that obeys the friction law of the
    projection, tested in the Nitsche way. *)
Theorem C99_friction_weak_form :
  forall (kd : kernel_data) (junk : geometry) (b : list (list R)) (c w coords : list R) (f links : nat) (qs : list nat) (V : coeffs) (Vo : nat -> coeffs) (type : kernel_type) (rhs : kernel_fn),
    In type [TrescaRhs; CoulombRhs] -> generate_contact_kernel type kd junk = Some rhs ->
    kd_bs kd = kd_gdim kd -> (kd_gdim kd <= 3)%nat -> vector_buffers kd links b -> 0 <= ck_friction c -> 0 < nth 0 w 0 -> 0 < nth 3 c 0 ->
    let theta := nth 1 w 0 in
    let gamma := ck_gamma c w in
    let t q := tangential kd c q in
    exists tau : nat -> nat -> R,
      (forall q, match type with
                 | TrescaRhs => friction_law kd (tresca_radius c w) (tresca_argument kd coords f c w q) (tau q)
                 | _ => friction_law kd (ck_friction c * Rmax (contact_indicator kd coords f c w q) 0) (coulomb_argument kd coords f c w q) (tau q)
                 end) /\
      tested (kd_ndofs kd) (kd_bs kd) links (added_vec kd b (rhs b c w coords f links qs)) V Vo =
      lsum qs (fun q => surface_weight kd coords f q / 2 *
        (/ gamma * inner kd (tau q) (fun a => t q (test_jump kd f c links q V Vo) a - theta * gamma * t q (test_traction kd coords f c q V) a)
         - theta * gamma * inner kd (t q (ck_traction kd coords f c q)) (t q (test_traction kd coords f c q V)))).
Proof.
  intros kd junk b c w coords f links qs V Vo type rhs T E Hbs Hd Hb Hf Hw Hc theta gamma t.
  assert (G : nth 0 w 0 / nth 3 c 0 = / gamma) by (unfold gamma, ck_gamma; field; lra).
  assert (Hg : 0 < gamma) by (apply Rdiv_lt_0_compat; auto).
  destruct T as [<-|[<-|[]]].
  - destruct (C36_tresca_bound kd junk b c w coords f links qs rhs E Hbs Hd Hb) as (tau & L & H); [unfold tresca_radius; fold gamma; nra|].
    exists tau. split; [exact L|]. pose proof (friction_tested kd coords f c w links qs tau _ V Vo Hbs H) as P. cbv zeta in P. rewrite P, G. reflexivity.
  - destruct (C36_coulomb_bound kd junk b c w coords f links qs rhs E Hbs Hd Hb Hf) as (tau & L & H).
    exists tau. split; [exact L|]. pose proof (friction_tested kd coords f c w links qs tau _ V Vo Hbs H) as P. cbv zeta in P. rewrite P, G. reflexivity.
Qed.
Print Assumptions C99_friction_weak_form.

(** Where the friction conditions hold (for Coulomb: with those of contact) the residual
    is the work of the tangential traction on the jump of the test function. *)
Theorem C99_friction_consistent :
  forall (kd : kernel_data) (junk : geometry) (b : list (list R)) (c w coords : list R) (f links : nat) (qs : list nat) (V : coeffs) (Vo : nat -> coeffs) (type : kernel_type) (rhs : kernel_fn),
    In type [TrescaRhs; CoulombRhs] -> generate_contact_kernel type kd junk = Some rhs ->
    kd_bs kd = kd_gdim kd -> (kd_gdim kd <= 3)%nat -> vector_buffers kd links b -> 0 <= ck_friction c -> 0 < nth 0 w 0 -> 0 < nth 3 c 0 ->
    (forall q, In q qs -> match type with TrescaRhs => tresca_at kd coords f c q | _ => signorini_at kd coords f c q /\ coulomb_at kd coords f c q end) ->
    let t q := tangential kd c q in
    tested (kd_ndofs kd) (kd_bs kd) links (added_vec kd b (rhs b c w coords f links qs)) V Vo =
    lsum qs (fun q => - (surface_weight kd coords f q / 2 * inner kd (t q (ck_traction kd coords f c q)) (t q (test_jump kd f c links q V Vo)))).
Proof.
  intros kd junk b c w coords f links qs V Vo type rhs T E Hbs Hd Hb Hf Hw Hc H t.
  destruct (C99_friction_weak_form kd junk b c w coords f links qs V Vo type rhs T E Hbs Hd Hb Hf Hw Hc) as (tau & L & W). cbv zeta in W.
  assert (Hg : 0 < ck_gamma c w) by (apply Rdiv_lt_0_compat; auto).
  assert (M : forall q, In q qs -> forall a, (a < kd_gdim kd)%nat -> tau q a = - ck_gamma c w * t q (ck_traction kd coords f c q) a).
  { intros q Hq. specialize (L q). specialize (H q Hq). destruct T as [<-|[<-|[]]].
    - apply (proj2 (friction_projection kd (ck_friction c) (ck_gamma c w) (t q (ck_jump kd c q)) (t q (ck_traction kd coords f c q)) _ _ Hg Hf (fun a _ => eq_refl) L)). exact H.
    - destruct H as [Sg H]. pose proof Sg as (S1 & S2 & S3). set (s := along kd (ck_normal kd c q) (ck_traction kd coords f c q)) in *.
      pose proof (proj2 (C99_contact_condition kd c w coords f q Hw Hc) Sg) as P. fold s in P.
      assert (R : ck_friction c * Rmax (contact_indicator kd coords f c w q) 0 = ck_gamma c w * (ck_friction c * - s)).
      { rewrite P. field. lra. }
      rewrite R in L. assert (F0 : 0 <= ck_friction c * - s) by (apply Rmult_le_pos; lra).
      destruct (Rmult_integral _ _ S3) as [Z|Z].
      + assert (A : forall a, (a < kd_gdim kd)%nat -> coulomb_argument kd coords f c w q a = t q (ck_jump kd c q) a - ck_gamma c w * t q (ck_traction kd coords f c q) a).
        { intros a _. unfold coulomb_argument, t. replace (ck_gap kd c q - along kd (ck_normal kd c q) (ck_jump kd c q)) with 0 by lra. ring. }
        apply (proj2 (friction_projection kd (ck_friction c * - s) (ck_gamma c w) _ _ _ _ Hg F0 A L)). exact H.
      + (* no traction at all *)
        intros a Ha. unfold s in Z. destruct H as [H _]. unfold s in *. rewrite Z in *. rewrite Ropp_0, Rmult_0_r in *. destruct L as [L _].
        rewrite Rmult_0_r in L. change (norm_of kd) with (size (kd_gdim kd)) in L.
        assert (A1 : size (kd_gdim kd) (tau q) = 0) by (pose proof (size_nonneg (kd_gdim kd) (tau q)); lra).
        assert (A2 : size (kd_gdim kd) (t q (ck_traction kd coords f c q)) = 0) by (pose proof (size_nonneg (kd_gdim kd) (t q (ck_traction kd coords f c q))); unfold t in *; lra).
        rewrite (size_zero _ _ A1 a Ha), (size_zero _ _ A2 a Ha). ring. }
  rewrite W. apply lsum_ext. intros q Hq. cbv beta. fold (t q).
  rewrite (inner_ext kd (tau q) (fun a => - ck_gamma c w * t q (ck_traction kd coords f c q) a) _ _ (M q Hq) (fun a _ => eq_refl)).
  rewrite (inner_minus kd _ (t q (test_jump kd f c links q V Vo)) (t q (test_traction kd coords f c q V))).
  set (s := t q (ck_traction kd coords f c q)).
  assert (Sc : forall y, inner kd (fun a => - ck_gamma c w * s a) y = - ck_gamma c w * inner kd s y) by (intros y; unfold inner; rewrite <- rsum_scal; apply rsum_ext; intros; ring).
  rewrite !Sc. field. lra.
Qed.
Print Assumptions C99_friction_consistent.

(** Contact with friction, unit normals: together the kernels give the work of the whole
    traction. *)
Theorem C99_consistent :
  forall (kd : kernel_data) (junk : geometry) (b : list (list R)) (c w coords : list R) (f links : nat) (qs : list nat) (V : coeffs) (Vo : nat -> coeffs) (type : kernel_type) (normal friction : kernel_fn),
    In type [TrescaRhs; CoulombRhs] -> generate_contact_kernel Rhs kd junk = Some normal -> generate_contact_kernel type kd junk = Some friction ->
    kd_bs kd = kd_gdim kd -> (kd_gdim kd <= 3)%nat -> vector_buffers kd links b -> 0 <= ck_friction c -> 0 < nth 0 w 0 -> 0 < nth 3 c 0 ->
    (forall q, In q qs -> unit_normal kd c q /\ signorini_at kd coords f c q /\ match type with TrescaRhs => tresca_at kd coords f c q | _ => coulomb_at kd coords f c q end) ->
    tested (kd_ndofs kd) (kd_bs kd) links (added_vec kd b (normal b c w coords f links qs)) V Vo +
    tested (kd_ndofs kd) (kd_bs kd) links (added_vec kd b (friction b c w coords f links qs)) V Vo =
    lsum qs (fun q => - (surface_weight kd coords f q / 2 * inner kd (ck_traction kd coords f c q) (test_jump kd f c links q V Vo))).
Proof.
  intros kd junk b c w coords f links qs V Vo type normal friction T En Ef Hbs Hd Hb Hf Hw Hc H.
  rewrite (C99_contact_consistent kd junk b c w coords f links qs V Vo normal En Hbs Hb Hw Hc) by (intros q Hq; apply (H q Hq)).
  rewrite (C99_friction_consistent kd junk b c w coords f links qs V Vo type friction T Ef Hbs Hd Hb Hf Hw Hc)
    by (intros q Hq; destruct (H q Hq) as (_ & S & C); destruct T as [<-|[<-|[]]]; auto).
  rewrite <- lsum_plus. apply lsum_ext. intros q Hq. cbv beta. destruct (H q Hq) as (U & _).
  rewrite inner_tangential. set (x := ck_traction kd coords f c q). set (y := test_jump kd f c links q V Vo). set (nu := ck_normal kd c q) in *.
  assert (N : along kd nu nu = 1) by exact U.
  assert (TT : along kd (tangential kd c q (tangential kd c q x)) y = inner kd x y - along kd nu x * along kd nu y).
  { rewrite <- inner_tangential. unfold inner, tangential. fold nu.
    rewrite (rsum_ext (kd_gdim kd) _ (fun a => (x a * y a - along kd nu y * (x a * nu a)) - (along kd nu x * (y a * nu a) - along kd nu x * along kd nu y * (nu a * nu a)))) by (intros; ring).
    rewrite !rsum_minus, !rsum_scal. fold (along kd nu x). fold (along kd nu y). fold (along kd nu nu). rewrite N. ring. }
  rewrite TT. ring.
Qed.
Print Assumptions C99_consistent.

(** A closed, slipping point under pressure 1 with friction coefficient 1. *)
Definition sliding_row : list R :=
  [1; 0; 1; 1] ++ [1/2; 0] ++ [-1; 0] ++ [1/3; 1/3; 1/3; 1/3; 1/3; 1/3; 0; 0; 0; 0; 0; 0] ++ [1/2; 1] ++ [-1/2; -1; 0; 0] ++ [0; 0] ++ [-1; 0].
Lemma sliding_traction a : (a < 2)%nat -> ck_traction contact_kd [] 0 sliding_row 0 a = -1.
Proof. intros Ha. destruct a as [|[|a]]; [| |lia]; ex_eval; ex_sqrt; lra. Qed.
Lemma sliding_normal_traction : along contact_kd (ck_normal contact_kd sliding_row 0) (ck_traction contact_kd [] 0 sliding_row 0) = -1.
Proof.
  unfold along. change (kd_gdim contact_kd) with 2%nat. rewrite (rsum_ext 2 _ (fun a => -1 * ck_normal contact_kd sliding_row 0 a)) by (intros a Ha; now rewrite sliding_traction). ex_eval.
Qed.
Example C99_example :
  0 <= ck_friction sliding_row /\ 0 < nth 0 contact_w 0 /\ 0 < nth 3 sliding_row 0 /\
  unit_normal contact_kd sliding_row 0 /\ signorini_at contact_kd [] 0 sliding_row 0 /\ tresca_at contact_kd [] 0 sliding_row 0 /\ coulomb_at contact_kd [] 0 sliding_row 0 /\
  size 2 (tangential contact_kd sliding_row 0 (ck_jump contact_kd sliding_row 0)) = 1.
Proof.
  assert (J : forall a, (a < 2)%nat -> tangential contact_kd sliding_row 0 (ck_jump contact_kd sliding_row 0) a = INR a) by (intros a Ha; destruct a as [|[|a]]; [| |lia]; ex_eval).
  assert (Tt : forall a, (a < 2)%nat -> tangential contact_kd sliding_row 0 (ck_traction contact_kd [] 0 sliding_row 0) a = - INR a).
  { intros a Ha. unfold tangential. rewrite sliding_normal_traction, sliding_traction by auto. destruct a as [|[|a]]; [| |lia]; ex_eval. }
  assert (S1 : size 2 (tangential contact_kd sliding_row 0 (ck_jump contact_kd sliding_row 0)) = 1).
  { rewrite (size_ext 2 _ _ J). unfold size. cbn [rsum INR]. replace (0 + 0 * 0 + 1 * 1) with 1 by ring. apply sqrt_1. }
  assert (S2 : size 2 (tangential contact_kd sliding_row 0 (ck_traction contact_kd [] 0 sliding_row 0)) = 1).
  { rewrite (size_ext 2 _ _ Tt). unfold size. cbn [rsum INR]. replace (0 + -0 * -0 + - (1) * - (1)) with 1 by ring. apply sqrt_1. }
  assert (Fr : ck_friction sliding_row = 1) by reflexivity.
  split; [rewrite Fr; lra|]. split; [cbn; lra|]. split; [cbn; lra|]. split; [ex_eval|].
  split; [|split; [|split]]; [| | |exact S1].
  - unfold signorini_at. rewrite sliding_normal_traction. replace (along _ _ _ - _) with 0 by ex_eval. repeat split; lra.
  - unfold tresca_at, friction_at. change (kd_gdim contact_kd) with 2%nat. rewrite S1, S2, Fr. split; [lra|]. intros _ a Ha. rewrite J, Tt by auto. field.
  - unfold coulomb_at, friction_at. change (kd_gdim contact_kd) with 2%nat. rewrite S1, S2, Fr, sliding_normal_traction. split; [lra|]. intros _ a Ha. rewrite J, Tt by auto. field.
Qed.
