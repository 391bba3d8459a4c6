(** C106: while no quadrature point changes its contact status, the assembled contact
    residual is an affine function of the displacement and the assembled matrix is its
    slope; a Newton step that keeps the status of all points ends at a root. *)
From Coq Require Import List Arith ZArith Lia Bool Reals Lra.
Import ListNotations.
From Verif Require Import Prelude PreludeLemmas RSum RealLemmas LayoutModel LayoutProps ContactProblemModel ContactProblemProps.
From Verif Require Import EntitiesModel PackingModel PackUProps AssemblyModel AssemblyProofs AssemblyProps RayModel KernelModel KernelProofs KernelSpec
  ElasticityProps ContactKernelModel ContactKernelProofs ContactKernelSpec ContactCurveProofs ContactKernelProps FrictionKernelProofs FrictionKernelProps CoefficientsModel CoefficientsProps SystemSpec TieSystemModel TieSystemProofs TieSystemProps
  TieWeakProps ContactWeakProps ContactSystemModel ContactSystemSpec ContactSystemProofs ContactSystemProps SystemWeakProps BasisProps MonotoneProps.
Local Open Scope R_scope.

(** ** Specification *)
(** Point [q] has the same status in the rows [c] and [c']: closed or open in both and, with
    friction, no bound on the traction to reach or sticking in both.  In [c] it is not at a
    switch between two states. *)
Definition keeps_status (law : friction_law) (kd : kernel_data) (coords : list R) (f : nat) (c c' constants : list R) (q : nat) : Prop :=
  let ind c := contact_indicator kd coords f c constants q in
  ((0 < ind c /\ 0 <= ind c') \/ (ind c < 0 /\ ind c' <= 0)) /\
  match law with
  | Frictionless => True
  | Tresca => unit_normal kd c q /\
      (ck_friction c = 0 \/
       (1 / 10 ^ 14 <= tresca_radius c constants /\
        norm_of kd (tresca_argument kd coords f c constants q) < tresca_radius c constants /\
        norm_of kd (tresca_argument kd coords f c' constants q) <= tresca_radius c' constants))
  | Coulomb => unit_normal kd c q /\
      (ind c < 0 \/ ck_friction c = 0 \/
       (1 / 10 ^ 14 <= coulomb_radius kd coords f c constants q /\
        norm_of kd (coulomb_argument kd coords f c constants q) < coulomb_radius kd coords f c constants q /\
        norm_of kd (coulomb_argument kd coords f c' constants q) <= coulomb_radius kd coords f c' constants q))
  end.

(** ** Lemmas *)
(** Affine on [0, 1]. *)
Definition affine (phi : R -> R) : Prop := forall t, 0 <= t <= 1 -> phi t = (1 - t) * phi 0 + t * phi 1.
Lemma affine_lsum {A} (l : list A) (g : A -> R -> R) : (forall x, In x l -> affine (g x)) -> affine (fun t => lsum l (fun x => g x t)).
Proof.
  induction l as [|x l IH]; intros H t Ht; cbn [lsum]; [ring|]. rewrite (H x ltac:(now left) t Ht), (IH ltac:(intros; apply H; now right) t Ht). ring.
Qed.
Lemma affine_rsum n (g : nat -> R -> R) : (forall i, (i < n)%nat -> affine (g i)) -> affine (fun t => rsum n (fun i => g i t)).
Proof.
  induction n as [|n IH]; intros H t Ht; cbn [rsum]; [ring|]. rewrite (H n ltac:(lia) t Ht), (IH ltac:(intros; apply H; lia) t Ht). ring.
Qed.
Lemma affine_plus_const k phi : affine phi -> affine (fun t => k + phi t).
Proof. intros H t Ht. rewrite (H t Ht). ring. Qed.
Lemma affine_slope phi l : affine phi -> derivable_pt_lim phi 0 l -> forall t, 0 <= t <= 1 -> phi t = phi 0 + t * l.
Proof.
  intros HA D. assert (E : phi 1 - phi 0 = l).
  { destruct (Req_dec (phi 1 - phi 0) l) as [|N]; [assumption|exfalso].
    destruct (D (Rabs (phi 1 - phi 0 - l)) ltac:(apply Rabs_pos_lt; lra)) as [dl H]. pose proof (cond_pos dl) as Pd.
    set (h := Rmin (dl / 2) 1). assert (Hh : 0 < h <= 1 /\ h < dl).
    { unfold h. repeat split; [apply Rmin_glb_lt; lra|apply Rmin_r|apply (Rle_lt_trans _ (dl / 2)); [apply Rmin_l|lra]]. }
    specialize (H h ltac:(lra) ltac:(rewrite Rabs_pos_eq; lra)). rewrite Rplus_0_l, (HA h ltac:(lra)) in H.
    replace (((1 - h) * phi 0 + h * phi 1 - phi 0) / h - l) with (phi 1 - phi 0 - l) in H by (field; lra). lra. }
  intros t Ht. rewrite (HA t Ht), <- E. ring.
Qed.
Lemma plus_affine P0 P1 t : (0 < P0 /\ 0 <= P1) \/ (P0 < 0 /\ P1 <= 0) -> 0 <= t <= 1 -> Rmax ((1 - t) * P0 + t * P1) 0 = (1 - t) * Rmax P0 0 + t * Rmax P1 0.
Proof. intros [[H0 H1] | [H0 H1]] Ht; [rewrite !Rmax_left by nra | rewrite !Rmax_right by nra]; ring. Qed.

Section Norm.
  Context (kd : kernel_data).
  Lemma norm_convex x0 x1 x t r0 r1 : 0 <= t <= 1 -> (forall a, (a < kd_gdim kd)%nat -> x a = (1 - t) * x0 a + t * x1 a) -> norm_of kd x0 <= r0 -> norm_of kd x1 <= r1 ->
    norm_of kd x <= (1 - t) * r0 + t * r1.
  Proof.
    intros Ht E H0 H1. apply (Rle_trans _ ((1 - t) * norm_of kd x0 + t * norm_of kd x1)); [|nra].
    pose proof (norm_nonneg kd x0) as N0. pose proof (norm_nonneg kd x1) as N1.
    apply Rsqr_incr_0_var; [|nra]. unfold Rsqr. rewrite norm_sq.
    assert (X : inner kd x x = (1 - t) * (1 - t) * inner kd x0 x0 + 2 * ((1 - t) * t) * inner kd x0 x1 + t * t * inner kd x1 x1).
    { unfold inner. rewrite <- !rsum_scal, <- !rsum_plus. apply rsum_ext. intros a Ha. rewrite (E a Ha). ring. }
    rewrite X, <- !norm_sq. pose proof (inner_norms kd x0 x1) as CS. assert (0 <= (1 - t) * t) by nra. nra.
  Qed.
  Lemma law_zero r x p : FrictionKernelProps.friction_law kd r x p -> r = 0 -> forall a, (a < kd_gdim kd)%nat -> p a = 0.
  Proof. intros (L & _) -> a Ha. apply (size_zero (kd_gdim kd) p); [|exact Ha]. pose proof (norm_nonneg kd p). unfold norm_of in *. unfold size. lra. Qed.
  (** The multiplier is affine if there is no bound to reach, or in the ball. *)
  Lemma law_affine r0 r1 r x0 x1 x p0 p1 p t : 0 <= t <= 1 -> (forall a, (a < kd_gdim kd)%nat -> x a = (1 - t) * x0 a + t * x1 a) -> r = (1 - t) * r0 + t * r1 ->
    FrictionKernelProps.friction_law kd r0 x0 p0 -> FrictionKernelProps.friction_law kd r1 x1 p1 -> FrictionKernelProps.friction_law kd r x p ->
    (r0 = 0 /\ r1 = 0) \/ (norm_of kd x0 <= r0 /\ norm_of kd x1 <= r1) -> forall a, (a < kd_gdim kd)%nat -> p a = (1 - t) * p0 a + t * p1 a.
  Proof.
    intros Ht E Er L0 L1 L [[Z0 Z1] | [S0 S1]] a Ha.
    - rewrite (law_zero _ _ _ L0 Z0 a Ha), (law_zero _ _ _ L1 Z1 a Ha), (law_zero _ _ _ L ltac:(rewrite Er, Z0, Z1; ring) a Ha). ring.
    - rewrite (proj1 (proj2 L0) S0 a Ha), (proj1 (proj2 L1) S1 a Ha), <- E by auto. apply (proj1 (proj2 L)); [|exact Ha]. rewrite Er. now apply (norm_convex x0 x1).
  Qed.
End Norm.

(** ** One facet: rows along a line of displacements *)
Section Facet.
  Context (kd : kernel_data) (coords : list R) (f : nat) (w : list R) (C : R -> list R) (links : nat) (qs : list nat) (W : coeffs) (Wo : nat -> coeffs).
  Context (Hbs : kd_bs kd = kd_gdim kd) (HL : contact_layout kd f links qs) (H : contact_line kd coords f C links qs W Wo) (V : coeffs) (Vo : nat -> coeffs).
  Notation gdim := (kd_gdim kd).
  Notation theta := (nth 1 w 0).
  Notation gamma := (ck_gamma (C 0) w).
  Notation nu q := (along kd (ck_normal kd (C 0) q)).
  Notation tang q := (tangential kd (C 0) q).
  Notation J q := (test_jump kd f (C 0) links q W Wo).
  Notation Tr q := (test_traction kd coords f (C 0) q W).
  Notation JV q := (test_jump kd f (C 0) links q V Vo).
  Notation TV q := (test_traction kd coords f (C 0) q V).

  Lemma a_normal t q a : In q qs -> (a < gdim)%nat -> ck_normal kd (C t) q a = ck_normal kd (C 0) q a.
  Proof using All. intros. exact (line_ns kd coords f w C links qs W Wo Hbs HL H t q a H0 H1). Qed.
  Lemma a_scalar t i : (i < 4)%nat -> nth i (C t) 0 = nth i (C 0) 0.
  Proof using All. exact (line_scalar kd coords f w C links qs W Wo Hbs HL H t i). Qed.
  Lemma a_along t q x y : In q qs -> (forall a, (a < gdim)%nat -> x a = y a) -> along kd (ck_normal kd (C t) q) x = along kd (ck_normal kd (C 0) q) y.
  Proof using All. intros Hq E. apply rsum_ext. intros a Ha. now rewrite a_normal, E by auto. Qed.
  Lemma a_tangential t q x y a : In q qs -> (a < gdim)%nat -> (forall a, (a < gdim)%nat -> x a = y a) -> tangential kd (C t) q x a = tangential kd (C 0) q y a.
  Proof using All. intros Hq Ha E. unfold tangential. rewrite (a_along t q x y) by auto. now rewrite a_normal, E by auto. Qed.
  Lemma a_gap t q : In q qs -> ck_gap kd (C t) q = ck_gap kd (C 0) q.
  Proof using All. intros Hq. rewrite <- !normal_gap_eq. exact (line_gap kd coords f w C links qs W Wo Hbs HL H t q Hq). Qed.
  Lemma a_gamma t : ck_gamma (C t) w = gamma.
  Proof using All. unfold ck_gamma. now rewrite a_scalar by lia. Qed.
  Lemma a_friction t : ck_friction (C t) = ck_friction (C 0).
  Proof using All. apply a_scalar. lia. Qed.
  Lemma a_old t q a : ck_old_normal kd (C t) q a = ck_old_normal kd (C 0) q a.
  Proof using All. exact (line_no kd coords f w C links qs W Wo Hbs HL H t q a). Qed.
  Lemma a_jump t q a : In q qs -> (a < gdim)%nat -> ck_jump kd (C t) q a = ck_jump kd (C 0) q a + t * J q a.
  Proof using All.
    intros Hq Ha. destruct (H t) as [_ I]. unfold ck_jump, test_jump, own.
    rewrite (ci_u _ _ _ _ _ _ _ _ _ _ I q a Hq Ha), (ci_u_opp _ _ _ _ _ _ _ _ _ _ I q a Hq) by (now rewrite Hbs). ring.
  Qed.
  Lemma a_traction t q a : In q qs -> (a < gdim)%nat -> ck_traction kd coords f (C t) q a = ck_traction kd coords f (C 0) q a + t * Tr q a.
  Proof using All.
    intros Hq Ha. destruct (H t) as [_ I]. unfold ck_traction, test_traction, traction, ck_mu, ck_lambda. rewrite (a_scalar t 0), (a_scalar t 1) by lia.
    rewrite <- rsum_scal, <- rsum_plus. apply rsum_ext. intros b Hb. unfold stress, own_grad.
    rewrite (rsum_ext gdim _ (fun c => nth (offsets kd 5 + q * gdim * gdim + (c * gdim + c)) (C 0) 0 + t * rsum (kd_ndofs kd) (fun j => phys_grad kd coords f q j c * W j c))).
    2:{ intros c Hc. rewrite (ci_grad _ _ _ _ _ _ _ _ _ _ I q c c Hq Hc Hc). ring. }
    rewrite rsum_plus, rsum_scal.
    rewrite (ci_grad _ _ _ _ _ _ _ _ _ _ I q a b Hq Ha Hb), (ci_grad _ _ _ _ _ _ _ _ _ _ I q b a Hq Hb Ha). ring.
  Qed.
  Lemma a_test_jump t q a : In q qs -> (a < gdim)%nat -> test_jump kd f (C t) links q V Vo a = JV q a.
  Proof using All.
    intros Hq Ha. unfold test_jump. f_equal. apply rsum_ext. intros k Hk. apply rsum_ext. intros j Hj.
    now rewrite (line_test kd coords f w C links qs W Wo Hbs HL H t q k j a Hq Hk Hj) by (now rewrite Hbs).
  Qed.
  Lemma a_test_traction t q a : test_traction kd coords f (C t) q V a = TV q a.
  Proof using All. unfold test_traction, ck_mu, ck_lambda. now rewrite (a_scalar t 0), (a_scalar t 1) by lia. Qed.
  Lemma along_line n x y t : along kd n (fun a => x a + t * y a) = along kd n x + t * along kd n y.
  Proof. unfold along. rewrite <- rsum_scal, <- rsum_plus. apply rsum_ext. intros; ring. Qed.
  Lemma tangential_line q x y t a : tang q (fun a => x a + t * y a) a = tang q x a + t * tang q y a.
  Proof. unfold tangential. rewrite along_line. ring. Qed.

  Lemma a_along_jump t q : In q qs -> along kd (ck_normal kd (C t) q) (ck_jump kd (C t) q) = nu q (ck_jump kd (C 0) q) + t * nu q (J q).
  Proof using All. intros Hq. rewrite (a_along t q _ (fun a => ck_jump kd (C 0) q a + t * J q a)) by (auto using a_jump). apply along_line. Qed.
  Lemma a_along_traction t q : In q qs -> along kd (ck_normal kd (C t) q) (ck_traction kd coords f (C t) q) = nu q (ck_traction kd coords f (C 0) q) + t * nu q (Tr q).
  Proof using All. intros Hq. rewrite (a_along t q _ (fun a => ck_traction kd coords f (C 0) q a + t * Tr q a)) by (auto using a_traction). apply along_line. Qed.
  Lemma a_indicator t q : In q qs -> contact_indicator kd coords f (C t) w q = contact_indicator kd coords f (C 0) w q + t * (nu q (J q) - gamma * nu q (Tr q)).
  Proof using All. intros Hq. unfold contact_indicator. rewrite a_along_jump, a_along_traction, a_gap, a_gamma by auto. ring. Qed.
  Lemma indicator_affine q : In q qs -> affine (fun t => contact_indicator kd coords f (C t) w q).
  Proof using All. intros Hq t _. rewrite (a_indicator t), (a_indicator 1) by auto. ring. Qed.
  Lemma a_tang_jump t q a : In q qs -> (a < gdim)%nat -> tangential kd (C t) q (ck_jump kd (C t) q) a = tang q (ck_jump kd (C 0) q) a + t * tang q (J q) a.
  Proof using All. intros Hq Ha. rewrite (a_tangential t q _ (fun a => ck_jump kd (C 0) q a + t * J q a) a Hq Ha) by (intros; now apply a_jump). apply tangential_line. Qed.
  Lemma a_tang_traction t q a : In q qs -> (a < gdim)%nat -> tangential kd (C t) q (ck_traction kd coords f (C t) q) a = tang q (ck_traction kd coords f (C 0) q) a + t * tang q (Tr q) a.
  Proof using All. intros Hq Ha. rewrite (a_tangential t q _ (fun a => ck_traction kd coords f (C 0) q a + t * Tr q a) a Hq Ha) by (intros; now apply a_traction). apply tangential_line. Qed.
  Lemma tresca_argument_affine q a : In q qs -> (a < gdim)%nat -> affine (fun t => tresca_argument kd coords f (C t) w q a).
  Proof using All. intros Hq Ha t _. unfold tresca_argument. rewrite (a_tang_jump t), (a_tang_traction t), (a_tang_jump 1), (a_tang_traction 1), !(a_gamma t), !(a_gamma 1) by auto. ring. Qed.
  Lemma coulomb_argument_affine q a : In q qs -> (a < gdim)%nat -> affine (fun t => coulomb_argument kd coords f (C t) w q a).
  Proof using All.
    intros Hq Ha t _. unfold coulomb_argument. rewrite (a_tangential t q (ck_old_normal kd (C t) q) (ck_old_normal kd (C 0) q) a Hq Ha) by (intros; apply a_old).
    rewrite (a_tangential 1 q (ck_old_normal kd (C 1) q) (ck_old_normal kd (C 0) q) a Hq Ha) by (intros; apply a_old).
    rewrite (a_tang_jump t), (a_tang_traction t), (a_tang_jump 1), (a_tang_traction 1), (a_along_jump t), (a_along_jump 1), (a_gap t), (a_gap 1), (a_gamma t), (a_gamma 1) by auto. ring.
  Qed.

  Lemma contact_affine junk b rhs : generate_contact_kernel Rhs kd junk = Some rhs -> vector_buffers kd links b ->
    (forall q, In q qs -> keeps_status Frictionless kd coords f (C 0) (C 1) w q) ->
    affine (fun t => tested (kd_ndofs kd) (kd_bs kd) links (added_vec kd b (rhs b (C t) w coords f links qs)) V Vo).
  Proof using All.
    intros E Hb HK t Ht. rewrite !(C99_contact_weak_form kd junk b _ w coords f links qs V Vo rhs E Hbs Hb). cbv zeta.
    rewrite <- !lsum_scal, <- lsum_plus. apply lsum_ext. intros q Hq. cbv beta.
    destruct (HK q Hq) as [HI _]. cbv zeta in HI.
    change (along kd (ck_normal kd (C t) q) (ck_jump kd (C t) q) - ck_gap kd (C t) q - ck_gamma (C t) w * along kd (ck_normal kd (C t) q) (ck_traction kd coords f (C t) q)) with (contact_indicator kd coords f (C t) w q).
    change (along kd (ck_normal kd (C 0) q) (ck_jump kd (C 0) q) - ck_gap kd (C 0) q - ck_gamma (C 0) w * along kd (ck_normal kd (C 0) q) (ck_traction kd coords f (C 0) q)) with (contact_indicator kd coords f (C 0) w q).
    change (along kd (ck_normal kd (C 1) q) (ck_jump kd (C 1) q) - ck_gap kd (C 1) q - ck_gamma (C 1) w * along kd (ck_normal kd (C 1) q) (ck_traction kd coords f (C 1) q)) with (contact_indicator kd coords f (C 1) w q).
    rewrite (indicator_affine q Hq t Ht), (plus_affine _ _ t HI Ht).
    rewrite (a_along t q (test_jump kd f (C t) links q V Vo) (JV q)), (a_along t q (test_traction kd coords f (C t) q V) (TV q)) by (auto using a_test_jump, a_test_traction).
    rewrite (a_along 1 q (test_jump kd f (C 1) links q V Vo) (JV q)), (a_along 1 q (test_traction kd coords f (C 1) q V) (TV q)) by (auto using a_test_jump, a_test_traction).
    rewrite (a_along_traction t), (a_along_traction 1), (a_gamma t), (a_gamma 1), (a_scalar t 3), (a_scalar 1 3) by (auto; lia). ring.
  Qed.

  Lemma inner_line x0 x1 x y t : (forall a, (a < gdim)%nat -> x a = (1 - t) * x0 a + t * x1 a) -> inner kd x y = (1 - t) * inner kd x0 y + t * inner kd x1 y.
  Proof. intros E. unfold inner. rewrite <- !rsum_scal, <- rsum_plus. apply rsum_ext. intros a Ha. rewrite (E a Ha). ring. Qed.

  Lemma friction_affine law type junk b rhs : (law = Tresca /\ type = TrescaRhs) \/ (law = Coulomb /\ type = CoulombRhs) ->
    generate_contact_kernel type kd junk = Some rhs -> (gdim <= 3)%nat -> vector_buffers kd links b ->
    0 <= ck_friction (C 0) -> 0 < nth 0 w 0 -> 0 < nth 3 (C 0) 0 ->
    (forall q, In q qs -> keeps_status law kd coords f (C 0) (C 1) w q) ->
    affine (fun t => tested (kd_ndofs kd) (kd_bs kd) links (added_vec kd b (rhs b (C t) w coords f links qs)) V Vo).
  Proof using All.
    intros Hlt E Hd Hb Hf Hw Hh HK t Ht. assert (Hty : In type [TrescaRhs; CoulombRhs]) by (destruct Hlt as [[_ ->] | [_ ->]]; cbn [In]; auto).
    assert (WF := fun s => C99_friction_weak_form kd junk b (C s) w coords f links qs V Vo type rhs Hty E Hbs Hd Hb ltac:(rewrite a_friction; exact Hf) Hw ltac:(rewrite a_scalar by lia; exact Hh)).
    destruct (WF t) as (p & L & T). destruct (WF 0) as (p0 & L0 & T0). destruct (WF 1) as (p1 & L1 & T1). cbv zeta in T, T0, T1. rewrite T, T0, T1. clear T T0 T1 WF.
    rewrite <- !lsum_scal, <- lsum_plus. apply lsum_ext. intros q Hq. cbv beta.
    assert (EP : forall a, (a < gdim)%nat -> p q a = (1 - t) * p0 q a + t * p1 q a).
    { specialize (L q). specialize (L0 q). specialize (L1 q). destruct (HK q Hq) as [HI HS]. cbv zeta in HI, HS.
      assert (Rt : forall s, tresca_radius (C s) w = tresca_radius (C 0) w) by (intros s; unfold tresca_radius; now rewrite a_gamma, a_friction).
      destruct Hlt as [[-> ->] | [-> ->]].
      - refine (law_affine kd _ _ _ _ _ _ _ _ _ t Ht (fun a Ha => tresca_argument_affine q a Hq Ha t Ht) _ L0 L1 L _); [rewrite (Rt t), (Rt 1); ring|].
        destruct HS as [_ [Z | (_ & S0 & S1)]]; [left; rewrite (Rt 1); unfold tresca_radius; rewrite Z; split; ring | right; split; [apply Rlt_le; exact S0 | exact S1]].
      - refine (law_affine kd _ _ _ _ _ _ _ _ _ t Ht (fun a Ha => coulomb_argument_affine q a Hq Ha t Ht) _ L0 L1 L _).
        + rewrite (indicator_affine q Hq t Ht), (plus_affine _ _ t HI Ht), !(a_friction t), !(a_friction 1). ring.
        + rewrite (a_friction 1). destruct HS as [_ [Z | [Z | (R0 & S0 & S1)]]].
          * left. rewrite !Rmax_right by lra. split; ring.
          * left. rewrite Z. split; ring.
          * right. unfold coulomb_radius in *. rewrite (a_friction 1) in S1. assert (1 / 10 ^ 14 > 0) by (apply Rlt_gt; lra). destruct HI as [[I0 I1] | [I0 I1]]; [rewrite !Rmax_left by lra; split; [apply Rlt_le; exact S0 | exact S1]|].
            exfalso. assert (ck_friction (C 0) * contact_indicator kd coords f (C 0) w q <= 0) by nra. lra. }
    assert (D : forall s x, inner kd x (fun a => tangential kd (C s) q (test_jump kd f (C s) links q V Vo) a - theta * ck_gamma (C s) w * tangential kd (C s) q (test_traction kd coords f (C s) q V) a) =
      inner kd x (fun a => tang q (JV q) a - theta * gamma * tang q (TV q) a)).
    { intros s x. apply inner_ext; [reflexivity|]. intros a Ha. rewrite a_gamma.
      rewrite (a_tangential s q (test_jump kd f (C s) links q V Vo) (JV q) a Hq Ha) by (intros; now apply a_test_jump).
      now rewrite (a_tangential s q (test_traction kd coords f (C s) q V) (TV q) a Hq Ha) by (intros; now apply a_test_traction). }
    assert (D2 : forall s x, inner kd x (tangential kd (C s) q (test_traction kd coords f (C s) q V)) = inner kd x (tang q (TV q))).
    { intros s x. apply inner_ext; [reflexivity|]. intros a Ha. now rewrite (a_tangential s q (test_traction kd coords f (C s) q V) (TV q) a Hq Ha) by (intros; now apply a_test_traction). }
    rewrite (D t), (D 1), (D2 t), (D2 1), (a_gamma t), (a_gamma 1). rewrite (inner_line (p0 q) (p1 q) (p q) _ t EP).
    rewrite (inner_line (tang q (ck_traction kd coords f (C 0) q)) (tangential kd (C 1) q (ck_traction kd coords f (C 1) q)) (tangential kd (C t) q (ck_traction kd coords f (C t) q)) _ t); [ring|].
    intros a Ha. rewrite (a_tang_traction t), (a_tang_traction 1) by auto. ring.
  Qed.
End Facet.

(** ** The assembled residual *)
Lemma keeps_off_kinks law kd coords f c c' w q : 0 <= ck_friction c -> keeps_status law kd coords f c c' w q -> off_kinks law kd coords f c w q.
Proof.
  intros Hf [HI HS]. cbv zeta in HI, HS. split; [lra|]. destruct law; [exact I| |].
  - destruct HS as [HU HS]. split; [|exact HU]. destruct HS as [Z | [Z | (R0 & S0 & _)]]; [now left | right; now left | right; right].
    assert (1 / 10 ^ 14 > 0) by (apply Rlt_gt; lra). split; [|split; [exact R0|apply Rlt_not_eq; exact S0]].
    destruct HI as [[HI _] | [HI _]]; [exact HI|exfalso]. unfold coulomb_radius in R0. assert (ck_friction c * contact_indicator kd coords f c w q <= 0) by nra. lra.
  - destruct HS as [HU HS]. split; [|exact HU]. destruct HS as [Z | (R0 & S0 & _)]; [left; unfold tresca_radius; rewrite Z; ring | right]. split; [exact R0|apply Rlt_not_eq; exact S0].
Qed.
Lemma keeps_frictionless law kd coords f c c' w q : keeps_status law kd coords f c c' w q -> keeps_status Frictionless kd coords f c c' w q.
Proof. intros [HI _]. now split. Qed.

Definition unit_vector (n d : nat) : list R := map (fun k => if (k =? d)%nat then 1 else 0) (seq 0 n).
Lemma unit_length n d : length (unit_vector n d) = n.
Proof. unfold unit_vector. now rewrite map_length, seq_length. Qed.
Lemma applied_unit b d : (d < length b)%nat -> applied b (unit_vector (length b) d) = nth d b 0.
Proof.
  intros Hd. unfold applied. rewrite (rsum_ext _ _ (fun k => if (k =? d)%nat then nth d b 0 else 0)).
  - rewrite (rsum_ext _ _ (fun k => (if (k =? d)%nat then 1 else 0) * nth d b 0)) by (intros k _; destruct (k =? d)%nat; ring).
    clear - Hd. assert (X : forall n, rsum n (fun k => (if (k =? d)%nat then 1 else 0) * nth d b 0) = if (d <? n)%nat then nth d b 0 else 0).
    { induction n as [|n IH]; [reflexivity|]. cbn [rsum]. rewrite IH. destruct (Nat.eqb_spec n d) as [-> | Hn].
      - rewrite Nat.ltb_irrefl. replace (d <? S d)%nat with true by (symmetry; apply Nat.ltb_lt; lia). ring.
      - destruct (Nat.ltb_spec d n), (Nat.ltb_spec d (S n)); try lia; ring. }
    rewrite X. now replace (d <? length b)%nat with true by (symmetry; now apply Nat.ltb_lt).
  - intros k Hk. unfold unit_vector. rewrite (nth_map_lt _ (seq 0 (length b)) k 0 0%nat) by now rewrite seq_length. rewrite seq_nth by exact Hk. cbn [plus].
    destruct (Nat.eqb_spec k d) as [-> | _]; ring.
Qed.

Section Object.
  Context {G : Type} (pd : pack_data) (kd : kernel_data) (num_pairs : nat) (surfaces : nat -> tie_pair) (basis : G -> (nat -> list Z) -> nat -> nat -> nat -> R)
    (num_rows : nat -> nat) (move : G -> list R -> G) (detect : G -> nat -> list Z) (pack_gap pack_normals : nat -> G -> (nat -> list Z) -> list (list R))
    (pack_param : nat -> list R -> list (list R)) (pack_h : nat -> list (list R)).
  Notation nq := (pd_nq pd).
  Notation nd := (pd_functions pd).
  Notation bs := (pd_bs pd).
  Notation gdim := (pd_gdim pd).
  Notation after := (contact_after pd num_pairs surfaces basis num_rows move detect pack_gap pack_normals pack_param pack_h).
  Notation updated := (contact_updated pd num_pairs surfaces basis num_rows).
  Notation pairs s := (pair_at pd surfaces basis (cp_geom s) (cp_map s)).
  Notation strides := (contact_kernel_strides nq nd gdim gdim nq).
  Notation kd' := (with_strides kd strides).
  Notation NC := (stride pd).
  Notation row s i e := (slice (concat (nth i (cp_coeffs s) [])) (e * NC) NC).
  Notation cell_of asm e := (nth (2 * e) (a_active asm) 0%nat).
  Notation facet_of asm e := (nth (2 * e + 1) (a_active asm) 0%nat).
  Notation buffers asm := (repeat (repeat 0 (a_bs asm * a_ndofs asm)) (a_max_links asm + 1)).

  (** No point of any pair changes its status from displacement [u] to [u'], and the packed
      friction coefficients and mesh sizes make sense. *)
  Definition status_kept (law : friction_law) (s : cp_state) (u u' : list R) : Prop :=
    forall i e, (i < num_pairs)%nat -> let asm := pr_asm (pairs s i) in (e < a_local asm)%nat ->
      0 <= ck_friction (row (updated u s) i e) /\ 0 < nth 3 (row (updated u s) i e) 0 /\
      forall q, In q (points_of asm e) ->
        keeps_status law kd' (coordinates_of asm (cell_of asm e)) (facet_of asm e) (row (updated u s) i e) (row (updated u' s) i e) (constants_of s) q.

  Lemma residual_affine law g calls u w v b kernels : let s := after g calls in
    Forall no_crop calls -> cp_ready s = true -> (forall i, (num_local surfaces i <= num_rows i)%nat) ->
    tie_setting pd kd num_pairs (pairs s) nq -> bs = gdim -> length w = length u -> length v = length b ->
    generated kd' (vector_kinds law) kernels -> 0 < nth 0 (constants_of s) 0 ->
    status_kept law s u (moved u w 1) ->
    affine (fun t => applied (contact_vector pd num_pairs surfaces basis kernels (updated (moved u w t) s) b) v).
  Proof.
    intros s HC HR HL TS Hg Huw Hvb HK Hw H. assert (T := ts_tables _ _ _ _ _ TS).
    assert (E0 : moved u w 0 = u).
    { apply (nth_ext _ _ 0 0); [apply moved_length|]. intros n _. rewrite nth_moved by auto. ring. }
    assert (EV := fun t => applied_contact_vector pd kd num_pairs surfaces basis num_rows move detect pack_gap pack_normals pack_param pack_h law g calls (moved u w t) v b kernels HR TS Hvb HK). cbv zeta in EV. fold s in EV.
    intros t Ht. rewrite (EV t), (EV 0), (EV 1). revert t Ht. change (affine (fun t => applied b v +
      rsum num_pairs (fun i => let asm := pr_asm (pairs s i) in rsum (a_local asm) (fun e => lsum kernels (fun kernel =>
        tested (kd_ndofs kd') (kd_bs kd') (length (links_of asm e))
          (added_vec kd' (buffers asm) (kernel (buffers asm) (row (updated (moved u w t) s) i e) (constants_of s) (coordinates_of asm (cell_of asm e)) (facet_of asm e) (length (links_of asm e)) (points_of asm e)))
          (restrict asm v (cell_of asm e)) (fun k => restrict asm v (nth k (links_of asm e) 0%nat))))))).
    apply affine_plus_const.
    apply (affine_rsum num_pairs (fun i t => let asm := pr_asm (pairs s i) in rsum (a_local asm) (fun e => lsum kernels (fun kernel =>
        tested (kd_ndofs kd') (kd_bs kd') (length (links_of asm e))
          (added_vec kd' (buffers asm) (kernel (buffers asm) (row (updated (moved u w t) s) i e) (constants_of s) (coordinates_of asm (cell_of asm e)) (facet_of asm e) (length (links_of asm e)) (points_of asm e)))
          (restrict asm v (cell_of asm e)) (fun k => restrict asm v (nth k (links_of asm e) 0%nat)))))).
    intros i Hi. cbv zeta. set (asm := pr_asm (pairs s i)) in *.
    apply (affine_rsum (a_local asm) (fun e t => lsum kernels (fun kernel =>
        tested (kd_ndofs kd') (kd_bs kd') (length (links_of asm e))
          (added_vec kd' (buffers asm) (kernel (buffers asm) (row (updated (moved u w t) s) i e) (constants_of s) (coordinates_of asm (cell_of asm e)) (facet_of asm e) (length (links_of asm e)) (points_of asm e)))
          (restrict asm v (cell_of asm e)) (fun k => restrict asm v (nth k (links_of asm e) 0%nat))))).
    intros e He. apply (affine_lsum kernels (fun kernel t =>
        tested (kd_ndofs kd') (kd_bs kd') (length (links_of asm e))
          (added_vec kd' (buffers asm) (kernel (buffers asm) (row (updated (moved u w t) s) i e) (constants_of s) (coordinates_of asm (cell_of asm e)) (facet_of asm e) (length (links_of asm e)) (points_of asm e)))
          (restrict asm v (cell_of asm e)) (fun k => restrict asm v (nth k (links_of asm e) 0%nat)))).
    destruct (H i e Hi He) as (Hf & Hh & HS). cbv zeta in HS. fold asm in HS.
    pose proof (ts_pairs _ _ _ _ _ TS i Hi) as PS.
    assert (G3 : (kd_gdim kd' <= 3)%nat) by (cbn [with_strides kd_gdim]; rewrite (st_gdim _ _ T); apply (se_gdim3 _ _ _ PS)).
    assert (Hnd : a_ndofs asm = kd_ndofs kd') by (cbn [with_strides kd_ndofs]; rewrite (st_ndofs _ _ T); apply (se_ndofs _ _ _ PS)).
    assert (Hbs : a_bs asm = kd_bs kd') by (cbn [with_strides kd_bs]; rewrite (st_bs _ _ T); apply (se_bs _ _ _ PS)).
    assert (Hgk : kd_bs kd' = kd_gdim kd') by (cbn [with_strides kd_bs kd_gdim]; now rewrite (st_bs _ _ T), (st_gdim _ _ T)).
    assert (Hll : (length (links_of asm e) <= a_max_links asm)%nat) by (now apply (pair_well_formed pd kd num_pairs (pairs s) nq TS i Hi)).
    assert (HB : vector_buffers kd' (length (links_of asm e)) (buffers asm)) by (apply vector_bufs; auto).
    pose proof (object_layout pd kd num_pairs surfaces basis num_rows move detect pack_gap pack_normals pack_param pack_h g calls TS Hg i Hi e He) as HLay.
    pose proof (object_line pd kd num_pairs surfaces basis num_rows move detect pack_gap pack_normals pack_param pack_h g calls HC HR HL TS Hg i Hi e He u w Huw) as HLine.
    fold s asm in HLay, HLine.
    assert (R0 : row (updated u s) i e = row (updated (moved u w 0) s) i e) by (now rewrite E0).
    rewrite R0 in *.
    match type of HLine with contact_line _ _ _ ?C _ _ _ _ => set (CC := C) in * end.
    change (row (updated (moved u w 0) s) i e) with (CC 0) in *. change (row (updated (moved u w 1) s) i e) with (CC 1) in *.
    intros kernel Hin. change (affine (fun t => tested (kd_ndofs kd') (kd_bs kd') (length (links_of asm e))
          (added_vec kd' (buffers asm) (kernel (buffers asm) (CC t) (constants_of s) (coordinates_of asm (cell_of asm e)) (facet_of asm e) (length (links_of asm e)) (points_of asm e)))
          (restrict asm v (cell_of asm e)) (fun k => restrict asm v (nth k (links_of asm e) 0%nat)))).
    unfold generated, vector_kinds in HK. cbn [app] in HK. inversion HK as [|k1 r1 ks rs [j1 F1] HK1]; subst.
    destruct Hin as [<- | Hin].
    - apply (contact_affine kd' _ _ (constants_of s) CC _ _ _ _ Hgk HLay HLine _ _ j1 (buffers asm) r1 F1 HB). intros q Hq. now apply (keeps_frictionless law), HS.
    - destruct law; cbn [app] in HK1; [inversion HK1; subst; contradiction| |]; inversion HK1 as [|k2 r2 ks2 rs2 [j2 F2] HK2]; subst; inversion HK2; subst; destruct Hin as [<- | []].
      + apply (friction_affine kd' _ _ (constants_of s) CC _ _ _ _ Hgk HLay HLine _ _ Coulomb CoulombRhs j2 (buffers asm) r2); auto.
      + apply (friction_affine kd' _ _ (constants_of s) CC _ _ _ _ Hgk HLay HLine _ _ Tresca TrescaRhs j2 (buffers asm) r2); auto.
  Qed.

  (** On the way from [u] to [u + w] the residual follows its tangent at [u]. *)
  Theorem C106_residual_follows_tangent :
    forall (law : friction_law) (g : G) (calls : list (@call (list R) (nat -> list Z))) (u w b : list R) (vector_kernels matrix_kernels : list kernel_fn),
    let s := after g calls in
    Forall no_crop calls -> cp_ready s = true -> (forall i, (num_local surfaces i <= num_rows i)%nat) ->
    tie_setting pd kd num_pairs (pairs s) nq -> bs = gdim -> length w = length u ->
    generated kd' (vector_kinds law) vector_kernels -> generated kd' (matrix_kinds law) matrix_kernels -> 0 < nth 0 (constants_of s) 0 ->
    status_kept law s u (moved u w 1) ->
    forall t d, 0 <= t <= 1 -> (d < length b)%nat ->
      nth d (contact_vector pd num_pairs surfaces basis vector_kernels (updated (moved u w t) s) b) 0 =
      nth d (contact_vector pd num_pairs surfaces basis vector_kernels (updated u s) b) 0 +
      t * matrix_times gdim (contact_matrix pd num_pairs surfaces basis matrix_kernels (updated u s)) w d.
  Proof.
    intros law g calls u w b vks mks s HC HR HL TS Hg Huw Hv Hm Hw H t d Ht Hd.
    assert (E0 : moved u w 0 = u).
    { apply (nth_ext _ _ 0 0); [apply moved_length|]. intros n _. rewrite nth_moved by auto. ring. }
    pose proof (residual_affine law g calls u w (unit_vector (length b) d) b vks HC HR HL TS Hg Huw (unit_length _ _) Hv Hw H) as A. fold s in A.
    assert (LF : forall v, length (contact_vector pd num_pairs surfaces basis vks (updated v s) b) = length b).
    { intros v. apply (contact_vector_length pd kd num_pairs surfaces basis num_rows move detect pack_gap pack_normals pack_param pack_h law g calls v b vks HR TS Hv). }
    assert (EA : forall v, applied (contact_vector pd num_pairs surfaces basis vks (updated v s) b) (unit_vector (length b) d) = nth d (contact_vector pd num_pairs surfaces basis vks (updated v s) b) 0).
    { intros v. rewrite <- (applied_unit (contact_vector pd num_pairs surfaces basis vks (updated v s) b) d) by now rewrite LF. now rewrite LF. }
    pose proof (C78_matrix_is_derivative pd kd num_pairs surfaces basis num_rows move detect pack_gap pack_normals pack_param pack_h law g calls u w b vks mks d HC HR HL TS Hg Huw Hv Hm
      ltac:(intros i e q Hi asm He Hq; destruct (H i e Hi He) as (Hf & _ & HS); exact (keeps_off_kinks law _ _ _ _ _ _ q Hf (HS q Hq))) Hd) as D. cbv zeta in D. fold s in D.
    set (phi := fun t => nth d (contact_vector pd num_pairs surfaces basis vks (updated (moved u w t) s) b) 0) in *.
    assert (AF : affine phi) by (intros t' Ht'; specialize (A t' Ht'); cbv beta in A; rewrite !EA in A; exact A).
    pose proof (affine_slope phi _ AF D t Ht) as X. change (phi t = nth d (contact_vector pd num_pairs surfaces basis vks (updated u s) b) 0 + t * matrix_times gdim (contact_matrix pd num_pairs surfaces basis mks (updated u s)) w d). 
    pose proof (f_equal (fun v => nth d (contact_vector pd num_pairs surfaces basis vks (updated v s) b) 0) E0) as P0. cbv beta in P0.
    exact (eq_trans X (f_equal (fun x => x + t * matrix_times gdim (contact_matrix pd num_pairs surfaces basis mks (updated u s)) w d) P0)).
  Qed.

  (** A full Newton step: a linear remainder of the residual [bulk] with matrix action [A];
      the step solves the linear system; no point changes its status.  Then the residual
      after the step is zero. *)
  Theorem C106_newton_step_exact :
    forall (law : friction_law) (g : G) (calls : list (@call (list R) (nat -> list Z))) (u w : list R) (vector_kernels matrix_kernels : list kernel_fn) (bulk A : list R -> list R),
    let s := after g calls in
    Forall no_crop calls -> cp_ready s = true -> (forall i, (num_local surfaces i <= num_rows i)%nat) ->
    tie_setting pd kd num_pairs (pairs s) nq -> bs = gdim -> length w = length u ->
    generated kd' (vector_kinds law) vector_kernels -> generated kd' (matrix_kinds law) matrix_kernels -> 0 < nth 0 (constants_of s) 0 ->
    status_kept law s u (moved u w 1) ->
    let F v := contact_vector pd num_pairs surfaces basis vector_kernels (updated v s) (bulk v) in
    let K := contact_matrix pd num_pairs surfaces basis matrix_kernels (updated u s) in
    length (A w) = length (bulk u) -> bulk (moved u w 1) = moved (bulk u) (A w) 1 ->
    (forall d, (d < length (bulk u))%nat -> nth d (A w) 0 + matrix_times gdim K w d = - nth d (F u) 0) ->
    forall d, (d < length (bulk u))%nat -> nth d (F (moved u w 1)) 0 = 0.
  Proof.
    intros law g calls u w vks mks bulk A s HC HR HL TS Hg Huw Hv Hm Hw H F K LA EB Hsolve d Hd.
    pose proof (C106_residual_follows_tangent law g calls u w (bulk (moved u w 1)) vks mks HC HR HL TS Hg Huw Hv Hm Hw H 1 d ltac:(lra) ltac:(rewrite EB, moved_length; exact Hd)) as X. cbv zeta in X. fold s in X.
    unfold F at 1. rewrite X. fold K. specialize (Hsolve d Hd).
    assert (Y : forall b b', length b = length b' -> (d < length b)%nat -> nth d (contact_vector pd num_pairs surfaces basis vks (updated u s) b) 0 - nth d b 0 = nth d (contact_vector pd num_pairs surfaces basis vks (updated u s) b') 0 - nth d b' 0).
    { intros b b' Lb Hb. assert (LF : forall b, length (contact_vector pd num_pairs surfaces basis vks (updated u s) b) = length b).
      { intros b0. apply (contact_vector_length pd kd num_pairs surfaces basis num_rows move detect pack_gap pack_normals pack_param pack_h law g calls u b0 vks HR TS Hv). }
      assert (Z := fun b Lb => applied_contact_vector pd kd num_pairs surfaces basis num_rows move detect pack_gap pack_normals pack_param pack_h law g calls u (unit_vector (length b') d) b vks HR TS Lb Hv). cbv zeta in Z. fold s in Z.
      assert (EA : forall b0, length b0 = length b' -> applied (contact_vector pd num_pairs surfaces basis vks (updated u s) b0) (unit_vector (length b') d) = nth d (contact_vector pd num_pairs surfaces basis vks (updated u s) b0) 0).
      { intros b0 L0. rewrite <- (applied_unit (contact_vector pd num_pairs surfaces basis vks (updated u s) b0) d) by (rewrite LF; lia). now rewrite LF, L0. }
      assert (EA' : forall b0, length b0 = length b' -> applied b0 (unit_vector (length b') d) = nth d b0 0) by (intros b0 L0; rewrite <- L0; apply applied_unit; lia).
      pose proof (Z b ltac:(rewrite unit_length; now symmetry)) as Z1. pose proof (Z b' ltac:(now rewrite unit_length)) as Z2.
      rewrite EA, EA' in Z1, Z2 by auto. rewrite Z1, Z2. ring. }
    specialize (Y (bulk (moved u w 1)) (bulk u) ltac:(rewrite EB; apply moved_length) ltac:(rewrite EB, moved_length; exact Hd)).
    rewrite EB in Y at 2. rewrite nth_moved in Y by exact LA. fold (F u) in Y. lra.
  Qed.
End Object.
Print Assumptions C106_residual_follows_tangent.
Print Assumptions C106_newton_step_exact.
