(** C104: the contact residual is a monotone operator for theta = -1 and any penalty, and
    misses monotonicity by a multiple of the squared boundary traction otherwise. *)
From Coq Require Import List Arith ZArith Lia Bool Reals Lra.
Import ListNotations.
From Verif Require Import Prelude PreludeLemmas RSum RealLemmas LayoutModel LayoutProps ContactProblemModel ContactProblemProps.
From Verif Require Import EntitiesModel PackingModel PackUProps AssemblyModel AssemblyProofs AssemblyProps RayModel KernelModel KernelProofs KernelSpec
  ElasticityProps ContactKernelModel ContactKernelProofs ContactKernelSpec ContactCurveProofs ContactKernelProps FrictionKernelProofs FrictionKernelProps CoefficientsModel CoefficientsProps SystemSpec TieSystemModel TieSystemProofs TieSystemProps
  TieWeakProps ContactWeakProps ContactSystemModel ContactSystemSpec ContactSystemProofs ContactSystemProps SystemWeakProps BasisProps.
Local Open Scope R_scope.

(** ** Lemmas *)
(** The positive part is firmly nonexpansive. *)
Lemma plus_firm P P' : (Rmax P 0 - Rmax P' 0) * (Rmax P 0 - Rmax P' 0) <= (Rmax P 0 - Rmax P' 0) * (P - P').
Proof. unfold Rmax. destruct (Rle_dec P 0), (Rle_dec P' 0); nra. Qed.

Lemma plus_step g th x y P P' : 0 < g -> P - P' = x - g * y ->
  - ((1 + th) * (1 + th) / 4 * (g * (y * y))) <= / g * (Rmax P 0 - Rmax P' 0) * (x - th * g * y) - th * g * y * y.
Proof.
  intros Hg E. pose proof (plus_firm P P') as F. rewrite E in F. set (p := Rmax P 0 - Rmax P' 0) in *.
  assert (K : 0 <= / g * (p + (1 - th) / 2 * (g * y)) * (p + (1 - th) / 2 * (g * y))) by (rewrite Rmult_assoc; apply Rmult_le_pos; [left; now apply Rinv_0_lt_compat|apply Rle_0_sqr]).
  assert (K2 : 0 <= / g * (p * (x - g * y) - p * p)) by (apply Rmult_le_pos; [left; now apply Rinv_0_lt_compat|lra]).
  apply Rminus_le. 
  replace (- ((1 + th) * (1 + th) / 4 * (g * (y * y))) - (/ g * p * (x - th * g * y) - th * g * y * y)) with
    (- (/ g * (p + (1 - th) / 2 * (g * y)) * (p + (1 - th) / 2 * (g * y))) - / g * (p * (x - g * y) - p * p)) by (field; lra).
  lra.
Qed.

(** The projection onto the ball is firmly nonexpansive. *)
Section Ball.
  Context (kd : kernel_data).
  Notation dot := (inner kd).
  Lemma inner_sym x y : dot x y = dot y x.
  Proof. apply rsum_ext. intros; ring. Qed.
  Lemma inner_sub_l x y z : dot (fun a => x a - y a) z = dot x z - dot y z.
  Proof. unfold inner. rewrite <- rsum_minus. apply rsum_ext. intros; ring. Qed.
  Lemma inner_scal_l k x z : dot (fun a => k * x a) z = k * dot x z.
  Proof. unfold inner. rewrite <- rsum_scal. apply rsum_ext. intros; ring. Qed.
  Lemma inner_nonneg x : 0 <= dot x x.
  Proof. apply rsum_nonneg. intros. apply Rle_0_sqr. Qed.
  Lemma norm_sq x : norm_of kd x * norm_of kd x = dot x x.
  Proof. apply sqrt_sqrt, inner_nonneg. Qed.
  Lemma norm_nonneg x : 0 <= norm_of kd x.
  Proof. apply sqrt_pos. Qed.
  Lemma inner_norms x y : dot x y <= norm_of kd x * norm_of kd y.
  Proof.
    apply Rsqr_incr_0_var; [|apply Rmult_le_pos; apply norm_nonneg]. unfold Rsqr.
    replace (norm_of kd x * norm_of kd y * (norm_of kd x * norm_of kd y)) with ((norm_of kd x * norm_of kd x) * (norm_of kd y * norm_of kd y)) by ring.
    rewrite !norm_sq. apply (cauchy_schwarz_sq (kd_gdim kd) x y).
  Qed.
  Lemma law_variational r x p z : FrictionKernelProps.friction_law kd r x p -> 0 <= r -> norm_of kd z <= r -> dot (fun a => x a - p a) (fun a => z a - p a) <= 0.
  Proof.
    intros (L0 & L1 & L2) Hr Hz. destruct (Rle_lt_dec (norm_of kd x) r) as [H|H].
    - specialize (L1 H). unfold inner. rewrite (rsum_ext (kd_gdim kd) _ (fun _ => 0)) by (intros a Ha; rewrite (L1 a Ha); ring). rewrite rsum_0. lra.
    - destruct (L2 H) as [_ E]. set (N := norm_of kd x) in *. assert (HN : 0 < N) by lra.
      assert (Ep : forall a, (a < kd_gdim kd)%nat -> p a = r / N * x a) by (intros a Ha; specialize (E a Ha); apply (Rmult_eq_reg_r N); [rewrite E; field; lra|lra]).
      unfold inner. rewrite (rsum_ext (kd_gdim kd) _ (fun a => (1 - r / N) * (x a * z a) + - ((1 - r / N) * (r / N)) * (x a * x a))) by (intros a Ha; rewrite (Ep a Ha); ring).
      rewrite rsum_plus, !rsum_scal. change (rsum (kd_gdim kd) (fun a => x a * z a)) with (dot x z). change (rsum (kd_gdim kd) (fun a => x a * x a)) with (dot x x).
      rewrite <- norm_sq. fold N. pose proof (inner_norms x z) as CS. fold N in CS.
      replace ((1 - r / N) * dot x z + - ((1 - r / N) * (r / N)) * (N * N)) with ((1 - r / N) * (dot x z - r * N)) by (field; lra).
      assert (0 <= 1 - r / N) by (assert (r / N <= 1) by (apply (Rmult_le_reg_r N); [lra|]; unfold Rdiv; rewrite Rmult_assoc, Rinv_l by lra; lra); lra).
      assert (dot x z - r * N <= 0) by nra. nra.
  Qed.
  Lemma law_firm r x x' p p' : 0 <= r -> FrictionKernelProps.friction_law kd r x p -> FrictionKernelProps.friction_law kd r x' p' ->
    dot (fun a => p a - p' a) (fun a => p a - p' a) <= dot (fun a => p a - p' a) (fun a => x a - x' a).
  Proof.
    intros Hr L L'. pose proof (law_variational r x p p' L Hr (proj1 L')) as A. pose proof (law_variational r x' p' p L' Hr (proj1 L)) as B.
    enough (X : dot (fun a => p a - p' a) (fun a => p a - p' a) - dot (fun a => p a - p' a) (fun a => x a - x' a) =
      dot (fun a => x a - p a) (fun a => p' a - p a) + dot (fun a => x' a - p' a) (fun a => p a - p' a)) by lra.
    unfold inner. rewrite <- rsum_minus, <- rsum_plus. apply rsum_ext. intros; ring.
  Qed.
  Lemma ball_step g th r x y arg arg' p p' : 0 < g -> 0 <= r -> FrictionKernelProps.friction_law kd r arg p -> FrictionKernelProps.friction_law kd r arg' p' ->
    (forall a, (a < kd_gdim kd)%nat -> arg a - arg' a = x a - g * y a) ->
    - ((1 + th) * (1 + th) / 4 * (g * dot y y)) <= / g * dot (fun a => p a - p' a) (fun a => x a - th * g * y a) - th * g * dot y y.
  Proof.
    intros Hg Hr L L' E. pose proof (law_firm r arg arg' p p' Hr L L') as F. set (q := fun a => p a - p' a) in *.
    rewrite (inner_ext kd q q _ (fun a => x a - g * y a) (fun a _ => eq_refl) E) in F.
    rewrite (inner_minus kd q x y g) in F. rewrite (inner_minus kd q x y (th * g)).
    pose proof (inner_nonneg (fun a => q a - - ((1 - th) / 2 * g) * y a)) as K. rewrite inner_minus, inner_sub_l in K.
    rewrite (inner_sym (fun a => q a - _)) in K. 
    assert (K' : dot y (fun a => q a - - ((1 - th) / 2 * g) * y a) = dot q y + (1 - th) / 2 * g * dot y y) by (rewrite inner_minus, (inner_sym y q); ring).
    assert (K0 : 0 <= dot q q + (1 - th) * g * dot q y + ((1 - th) / 2 * g) * ((1 - th) / 2 * g) * dot y y).
    { pose proof (inner_nonneg (fun a => q a - - ((1 - th) / 2 * g) * y a)) as K1. rewrite inner_minus in K1. rewrite (inner_sym _ y), K', (inner_sym _ q), inner_minus in K1. lra. }
    clear K K'. assert (Hi : 0 < / g) by now apply Rinv_0_lt_compat.
    apply Rminus_le.
    replace (- ((1 + th) * (1 + th) / 4 * (g * dot y y)) - (/ g * (dot q x - th * g * dot q y) - th * g * dot y y)) with
      (- (/ g * (dot q q + (1 - th) * g * dot q y + ((1 - th) / 2 * g) * ((1 - th) / 2 * g) * dot y y)) - / g * (dot q x - g * dot q y - dot q q)) by (field; lra).
    assert (0 <= / g * (dot q q + (1 - th) * g * dot q y + ((1 - th) / 2 * g) * ((1 - th) / 2 * g) * dot y y)) by (apply Rmult_le_pos; lra).
    assert (0 <= / g * (dot q x - g * dot q y - dot q q)) by (apply Rmult_le_pos; lra). lra.
  Qed.
End Ball.

(** ** One facet: rows of two displacements *)
Section Facet.
  Context (kd : kernel_data) (coords : list R) (f : nat) (w : list R) (C : R -> list R) (links : nat) (qs : list nat) (W : coeffs) (Wo : nat -> coeffs).
  Context (Hbs : kd_bs kd = kd_gdim kd) (HL : contact_layout kd f links qs) (H : contact_line kd coords f C links qs W Wo).
  Notation gdim := (kd_gdim kd).
  Notation theta := (nth 1 w 0).
  Notation gamma := (ck_gamma (C 0) w).
  Notation nu q := (along kd (ck_normal kd (C 0) q)).
  Notation tang q := (tangential kd (C 0) q).
  Notation J q := (test_jump kd f (C 0) links q W Wo).
  Notation Tr q := (test_traction kd coords f (C 0) q W).

  Lemma m_normal q a : In q qs -> (a < gdim)%nat -> ck_normal kd (C 1) q a = ck_normal kd (C 0) q a.
  Proof using All. intros. exact (line_ns kd coords f w C links qs W Wo Hbs HL H 1 q a H0 H1). Qed.
  Lemma m_scalar i : (i < 4)%nat -> nth i (C 1) 0 = nth i (C 0) 0.
  Proof using All. exact (line_scalar kd coords f w C links qs W Wo Hbs HL H 1 i). Qed.
  Lemma m_along q x y : In q qs -> (forall a, (a < gdim)%nat -> x a = y a) -> along kd (ck_normal kd (C 1) q) x = along kd (ck_normal kd (C 0) q) y.
  Proof using All. intros Hq E. apply rsum_ext. intros a Ha. now rewrite m_normal, E by auto. Qed.
  Lemma m_tangential q x y a : In q qs -> (a < gdim)%nat -> (forall a, (a < gdim)%nat -> x a = y a) -> tangential kd (C 1) q x a = tangential kd (C 0) q y a.
  Proof using All. intros Hq Ha E. unfold tangential. rewrite (m_along q x y) by auto. now rewrite m_normal, E by auto. Qed.
  Lemma m_gap q : In q qs -> ck_gap kd (C 1) q = ck_gap kd (C 0) q.
  Proof using All. intros Hq. rewrite <- !normal_gap_eq. exact (line_gap kd coords f w C links qs W Wo Hbs HL H 1 q Hq). Qed.
  Lemma m_gamma : ck_gamma (C 1) w = gamma.
  Proof using All. unfold ck_gamma. now rewrite m_scalar by lia. Qed.
  Lemma m_jump q a : In q qs -> (a < gdim)%nat -> ck_jump kd (C 1) q a = ck_jump kd (C 0) q a + J q a.
  Proof using All.
    intros Hq Ha. destruct (H 1) as [_ I]. unfold ck_jump, test_jump, own.
    rewrite (ci_u _ _ _ _ _ _ _ _ _ _ I q a Hq Ha), (ci_u_opp _ _ _ _ _ _ _ _ _ _ I q a Hq) by (now rewrite Hbs). ring.
  Qed.
  Lemma m_traction q a : In q qs -> (a < gdim)%nat -> ck_traction kd coords f (C 1) q a = ck_traction kd coords f (C 0) q a + Tr q a.
  Proof using All.
    intros Hq Ha. destruct (H 1) as [_ I]. unfold ck_traction, test_traction, traction, ck_mu, ck_lambda. rewrite !m_scalar by lia.
    rewrite <- rsum_plus. apply rsum_ext. intros b Hb. unfold stress, own_grad.
    rewrite (rsum_ext gdim _ (fun c => nth (offsets kd 5 + q * gdim * gdim + (c * gdim + c)) (C 0) 0 + rsum (kd_ndofs kd) (fun j => phys_grad kd coords f q j c * W j c))).
    2:{ intros c Hc. rewrite (ci_grad _ _ _ _ _ _ _ _ _ _ I q c c Hq Hc Hc). ring. }
    rewrite rsum_plus.
    rewrite (ci_grad _ _ _ _ _ _ _ _ _ _ I q a b Hq Ha Hb), (ci_grad _ _ _ _ _ _ _ _ _ _ I q b a Hq Hb Ha). ring.
  Qed.
  Lemma m_test_jump q a : In q qs -> (a < gdim)%nat -> test_jump kd f (C 1) links q W Wo a = J q a.
  Proof using All.
    intros Hq Ha. unfold test_jump. f_equal. apply rsum_ext. intros k Hk. apply rsum_ext. intros j Hj.
    now rewrite (line_test kd coords f w C links qs W Wo Hbs HL H 1 q k j a Hq Hk Hj) by (now rewrite Hbs).
  Qed.
  Lemma m_test_traction q a : test_traction kd coords f (C 1) q W a = Tr q a.
  Proof using All. unfold test_traction, ck_mu, ck_lambda. now rewrite !m_scalar by lia. Qed.

  Lemma along_plus' n x y : along kd n (fun a => x a + y a) = along kd n x + along kd n y.
  Proof. unfold along. rewrite <- rsum_plus. apply rsum_ext. intros; ring. Qed.
  Lemma lsum_le {A} (l : list A) g h : (forall x, In x l -> g x <= h x) -> lsum l g <= lsum l h.
  Proof. induction l as [|x l IH]; intros K; cbn [lsum]; [lra|]. apply Rplus_le_compat; [apply K; now left|apply IH; intros; apply K; now right]. Qed.
  Lemma lsum_sub {A} (l : list A) g h : lsum l g - lsum l h = lsum l (fun x => g x - h x).
  Proof. induction l as [|x l IH]; cbn [lsum]; [ring|]. rewrite <- IH. ring. Qed.

  (** Change of the contact residual from the first displacement to the second, tested with
      the difference of the displacements. *)
  Lemma contact_change junk b rhs : generate_contact_kernel Rhs kd junk = Some rhs -> vector_buffers kd links b ->
    0 < nth 0 w 0 -> 0 < nth 3 (C 0) 0 -> (forall q, In q qs -> 0 <= surface_weight kd coords f q) ->
    - ((1 + theta) * (1 + theta) / 4 * lsum qs (fun q => surface_weight kd coords f q / 2 * (gamma * (nu q (Tr q) * nu q (Tr q))))) <=
    tested (kd_ndofs kd) (kd_bs kd) links (added_vec kd b (rhs b (C 1) w coords f links qs)) W Wo -
    tested (kd_ndofs kd) (kd_bs kd) links (added_vec kd b (rhs b (C 0) w coords f links qs)) W Wo.
  Proof using All.
    intros E Hb Hw Hh HW. assert (Hg : 0 < gamma) by (apply Rdiv_lt_0_compat; auto).
    assert (G : nth 0 w 0 / nth 3 (C 0) 0 = / gamma) by (unfold ck_gamma; field; lra).
    rewrite !(C99_contact_weak_form kd junk b _ w coords f links qs W Wo rhs E Hbs Hb). cbv zeta. rewrite m_gamma, (m_scalar 3) by lia. rewrite G.
    rewrite lsum_sub, <- lsum_scal, <- lsum_opp. apply lsum_le. intros q Hq. cbv beta.
    rewrite (m_along q (test_jump kd f (C 1) links q W Wo) (J q)), (m_along q (test_traction kd coords f (C 1) q W) (Tr q)) by (auto using m_test_jump, m_test_traction).
    rewrite (m_along q (ck_jump kd (C 1) q) (fun a => ck_jump kd (C 0) q a + J q a)) by (auto using m_jump).
    rewrite (m_along q (ck_traction kd coords f (C 1) q) (fun a => ck_traction kd coords f (C 0) q a + Tr q a)) by (auto using m_traction).
    rewrite m_gap by auto. rewrite !along_plus'.
    set (x := nu q (J q)). set (y := nu q (Tr q)). set (s := nu q (ck_traction kd coords f (C 0) q)). set (j := nu q (ck_jump kd (C 0) q)).
    set (P := j + x - ck_gap kd (C 0) q - gamma * (s + y)). set (P' := j - ck_gap kd (C 0) q - gamma * s).
    pose proof (plus_step gamma theta x y P P' Hg ltac:(unfold P, P'; ring)) as K. specialize (HW q Hq).
    replace (surface_weight kd coords f q / 2 * (/ gamma * Rmax P 0 * (x - theta * gamma * y) - theta * gamma * (s + y) * y) - surface_weight kd coords f q / 2 * (/ gamma * Rmax P' 0 * (x - theta * gamma * y) - theta * gamma * s * y))
      with (surface_weight kd coords f q / 2 * (/ gamma * (Rmax P 0 - Rmax P' 0) * (x - theta * gamma * y) - theta * gamma * y * y)) by ring.
    replace (- ((1 + theta) * (1 + theta) / 4 * (surface_weight kd coords f q / 2 * (gamma * (y * y))))) with (surface_weight kd coords f q / 2 * - ((1 + theta) * (1 + theta) / 4 * (gamma * (y * y)))) by ring.
    apply Rmult_le_compat_l; [lra|exact K].
  Qed.

  Lemma tangential_plus q x y a : tang q (fun a => x a + y a) a = tang q x a + tang q y a.
  Proof. unfold tangential. rewrite along_plus'. ring. Qed.

  (** The same for friction with a given bound. *)
  Lemma tresca_change junk b rhs : generate_contact_kernel TrescaRhs kd junk = Some rhs -> (gdim <= 3)%nat -> vector_buffers kd links b ->
    0 <= ck_friction (C 0) -> 0 < nth 0 w 0 -> 0 < nth 3 (C 0) 0 -> (forall q, In q qs -> 0 <= surface_weight kd coords f q) ->
    - ((1 + theta) * (1 + theta) / 4 * lsum qs (fun q => surface_weight kd coords f q / 2 * (gamma * inner kd (tang q (Tr q)) (tang q (Tr q))))) <=
    tested (kd_ndofs kd) (kd_bs kd) links (added_vec kd b (rhs b (C 1) w coords f links qs)) W Wo -
    tested (kd_ndofs kd) (kd_bs kd) links (added_vec kd b (rhs b (C 0) w coords f links qs)) W Wo.
  Proof using All.
    intros E Hd Hb Hf Hw Hh HW. assert (Hg : 0 < gamma) by (apply Rdiv_lt_0_compat; auto).
    assert (F1 : ck_friction (C 1) = ck_friction (C 0)) by (apply m_scalar; lia).
    destruct (C99_friction_weak_form kd junk b (C 1) w coords f links qs W Wo TrescaRhs rhs (or_introl eq_refl) E Hbs Hd Hb ltac:(rewrite F1; exact Hf) Hw ltac:(rewrite m_scalar by lia; exact Hh)) as (p & L & T).
    destruct (C99_friction_weak_form kd junk b (C 0) w coords f links qs W Wo TrescaRhs rhs (or_introl eq_refl) E Hbs Hd Hb Hf Hw Hh) as (p' & L' & T').
    cbv zeta in T, T'. rewrite T, T', m_gamma. clear T T'.
    rewrite lsum_sub, <- lsum_scal, <- lsum_opp. apply lsum_le. intros q Hq. cbv beta.
    specialize (L q). specialize (L' q). specialize (HW q Hq). cbv beta iota in L, L'.
    assert (R1 : tresca_radius (C 1) w = tresca_radius (C 0) w) by (unfold tresca_radius; now rewrite m_gamma, F1). rewrite R1 in L.
    assert (R0 : 0 <= tresca_radius (C 0) w) by (unfold tresca_radius; apply Rmult_le_pos; lra).
    set (x := tang q (J q)). set (y := tang q (Tr q)). set (s := tang q (ck_traction kd coords f (C 0) q)).
    assert (A : forall a, (a < gdim)%nat -> tresca_argument kd coords f (C 1) w q a - tresca_argument kd coords f (C 0) w q a = x a - gamma * y a).
    { intros a Ha. unfold tresca_argument. rewrite m_gamma.
      rewrite (m_tangential q _ (fun a => ck_jump kd (C 0) q a + J q a) a Hq Ha) by (intros; now apply m_jump).
      rewrite (m_tangential q _ (fun a => ck_traction kd coords f (C 0) q a + Tr q a) a Hq Ha) by (intros; now apply m_traction).
      rewrite !tangential_plus. unfold x, y. ring. }
    pose proof (ball_step kd gamma theta (tresca_radius (C 0) w) x y _ _ (p q) (p' q) Hg R0 L L' A) as K.
    rewrite (inner_ext kd (p q) (p q) (fun a => tangential kd (C 1) q (test_jump kd f (C 1) links q W Wo) a - theta * gamma * tangential kd (C 1) q (test_traction kd coords f (C 1) q W) a) (fun a => x a - theta * gamma * y a)).
    2: reflexivity.
    2:{ intros a Ha. rewrite (m_tangential q (test_jump kd f (C 1) links q W Wo) (J q) a Hq Ha) by (intros; now apply m_test_jump).
        rewrite (m_tangential q (test_traction kd coords f (C 1) q W) (Tr q) a Hq Ha) by (intros; now apply m_test_traction). reflexivity. }
    rewrite (inner_ext kd (tangential kd (C 1) q (ck_traction kd coords f (C 1) q)) (fun a => s a - - 1 * y a) (tangential kd (C 1) q (test_traction kd coords f (C 1) q W)) y).
    2:{ intros a Ha. rewrite (m_tangential q _ (fun a => ck_traction kd coords f (C 0) q a + Tr q a) a Hq Ha) by (intros; now apply m_traction). rewrite tangential_plus. unfold s, y. ring. }
    2:{ intros a Ha. apply (m_tangential q _ (Tr q) a Hq Ha). intros; now apply m_test_traction. }
    rewrite (inner_sym kd (fun a => s a - - 1 * y a) y), (inner_minus kd y s y (- 1)), (inner_sym kd y s).
    rewrite inner_sub_l in K.
    replace (surface_weight kd coords f q / 2 * (/ gamma * inner kd (p q) (fun a => x a - theta * gamma * y a) - theta * gamma * (inner kd s y - - 1 * inner kd y y)) -
             surface_weight kd coords f q / 2 * (/ gamma * inner kd (p' q) (fun a => x a - theta * gamma * y a) - theta * gamma * inner kd s y))
      with (surface_weight kd coords f q / 2 * (/ gamma * (inner kd (p q) (fun a => x a - theta * gamma * y a) - inner kd (p' q) (fun a => x a - theta * gamma * y a)) - theta * gamma * inner kd y y)) by ring.
    replace (- ((1 + theta) * (1 + theta) / 4 * (surface_weight kd coords f q / 2 * (gamma * inner kd y y)))) with (surface_weight kd coords f q / 2 * - ((1 + theta) * (1 + theta) / 4 * (gamma * inner kd y y))) by ring.
    apply Rmult_le_compat_l; [lra|exact K].
  Qed.
End Facet.

(** ** The assembled residual *)
(** Squared traction that contact with this law acts on: its normal part without friction,
    normal and tangential part with friction. *)
Definition acting (law : friction_law) (kd : kernel_data) (c : list R) (q : nat) (tau : nat -> R) : R :=
  let n := along kd (ck_normal kd c q) tau in
  match law with Frictionless => n * n | _ => n * n + inner kd (tangential kd c q tau) (tangential kd c q tau) end.

Section Object.
  Context {G : Type} (pd : pack_data) (kd : kernel_data) (num_pairs : nat) (surfaces : nat -> tie_pair) (basis : G -> (nat -> list Z) -> nat -> nat -> nat -> R)
    (num_rows : nat -> nat) (move : G -> list R -> G) (detect : G -> nat -> list Z) (pack_gap pack_normals : nat -> G -> (nat -> list Z) -> list (list R))
    (pack_param : nat -> list R -> list (list R)) (pack_h : nat -> list (list R)).
  Notation nq := (pd_nq pd).
  Notation nd := (pd_functions pd).
  Notation bs := (pd_bs pd).
  Notation gdim := (pd_gdim pd).
  Notation after := (contact_after pd num_pairs surfaces basis num_rows move detect pack_gap pack_normals pack_param pack_h).
  Notation updated := (contact_updated pd num_pairs surfaces basis num_rows).
  Notation pairs s := (pair_at pd surfaces basis (cp_geom s) (cp_map s)).
  Notation strides := (contact_kernel_strides nq nd gdim gdim nq).
  Notation kd' := (with_strides kd strides).
  Notation NC := (stride pd).
  Notation row s i e := (slice (concat (nth i (cp_coeffs s) [])) (e * NC) NC).
  Notation cell_of asm e := (nth (2 * e) (a_active asm) 0%nat).
  Notation facet_of asm e := (nth (2 * e + 1) (a_active asm) 0%nat).
  Notation buffers asm := (repeat (repeat 0 (a_bs asm * a_ndofs asm)) (a_max_links asm + 1)).

  (** The assembled residual tested with [v], facet by facet. *)
  Lemma applied_contact_vector law g calls u v b kernels : let s := after g calls in
    cp_ready s = true -> tie_setting pd kd num_pairs (pairs s) nq -> length v = length b -> generated kd' (vector_kinds law) kernels ->
    applied (contact_vector pd num_pairs surfaces basis kernels (updated u s) b) v = applied b v +
    rsum num_pairs (fun i => let asm := pr_asm (pairs s i) in rsum (a_local asm) (fun e => lsum kernels (fun kernel =>
      tested (kd_ndofs kd') (kd_bs kd') (length (links_of asm e))
        (added_vec kd' (buffers asm) (kernel (buffers asm) (row (updated u s) i e) (constants_of s) (coordinates_of asm (cell_of asm e)) (facet_of asm e) (length (links_of asm e)) (points_of asm e)))
        (restrict asm v (cell_of asm e)) (fun k => restrict asm v (nth k (links_of asm e) 0%nat))))).
  Proof.
    intros s HR TS Hv HK.
    assert (U : cp_geom (updated u s) = cp_geom s /\ cp_map (updated u s) = cp_map s /\ constants_of (updated u s) = constants_of s).
    { unfold constants_of, contact_updated, update_data. rewrite HR. auto. }
    destruct U as (U1 & U2 & U3). unfold contact_vector. rewrite U1, U2, U3. clear U1 U2 U3.
    assert (LR : Forall (kernel_local (fun n => n + 1)%nat) kernels).
    { assert (X : forall k r, In k [Rhs; TrescaRhs; CoulombRhs] -> (exists junk, generate_contact_kernel k kd' junk = Some r) -> kernel_local (fun n => n + 1)%nat r).
      { intros k r Hk [junk E]. destruct (C68_contact_kernels_local kd' junk) as [X _]. destruct (X k Hk) as (r' & E' & L). congruence. }
      unfold generated in HK. apply Forall_forall. intros r Hr.
      assert (Y : Forall (fun k => In k [Rhs; TrescaRhs; CoulombRhs]) (vector_kinds law)) by (destruct law; repeat constructor; cbn [In]; auto).
      clear - HK Hr X Y. induction HK as [|k r' ks rs E HK IH]; [contradiction|]. inversion Y; subst. destruct Hr as [<-|Hr]; [now apply (X k)|auto]. }
    assert (T := ts_tables _ _ _ _ _ TS).
    assert (P : forall n, (n <= num_pairs)%nat ->
      let r := for_loop n (fun i b => for_each kernels (fun kernel b => assemble_vector (pr_asm (pairs s i)) kernel (concat (nth i (cp_coeffs (updated u s)) [])) NC (constants_of s) b) b) b in
      length r = length b /\ applied r v = applied b v +
        rsum n (fun i => let asm := pr_asm (pairs s i) in rsum (a_local asm) (fun e => lsum kernels (fun kernel =>
      tested (kd_ndofs kd') (kd_bs kd') (length (links_of asm e))
        (added_vec kd' (buffers asm) (kernel (buffers asm) (row (updated u s) i e) (constants_of s) (coordinates_of asm (cell_of asm e)) (facet_of asm e) (length (links_of asm e)) (points_of asm e)))
        (restrict asm v (cell_of asm e)) (fun k => restrict asm v (nth k (links_of asm e) 0%nat)))))).
    { induction n as [|n IH]; intros Hn; cbv zeta.
      - split; [reflexivity|]. change (applied b v = applied b v + 0). now rewrite Rplus_0_r.
      - rewrite for_loop_S. set (r := for_loop n _ b). destruct (IH ltac:(lia)) as [L E]. fold r in L, E. cbv beta.
        destruct (applied_kernels (pr_asm (pairs s n)) (concat (nth n (cp_coeffs (updated u s)) [])) NC (constants_of s) v kernels
          (pair_well_formed pd kd num_pairs (pairs s) nq TS n Hn) LR r ltac:(congruence)) as [L' E'].
        split; [congruence|]. rewrite E', E. cbn [rsum]. cbv zeta. rewrite Rplus_assoc. f_equal. f_equal.
        pose proof (ts_pairs _ _ _ _ _ TS n Hn) as PS.
        assert (Hnd : a_ndofs (pr_asm (pairs s n)) = kd_ndofs kd') by (cbn [with_strides kd_ndofs]; rewrite (st_ndofs _ _ T); apply (se_ndofs _ _ _ PS)).
        assert (Hbs : a_bs (pr_asm (pairs s n)) = kd_bs kd') by (cbn [with_strides kd_bs]; rewrite (st_bs _ _ T); apply (se_bs _ _ _ PS)).
        apply rsum_ext. intros e He. apply lsum_ext. intros kernel _. rewrite Hnd, Hbs.
        apply tested_ext. intros s' i' n' _ _ _. unfold added_vec. rewrite nth_zeros, Rminus_0_r. reflexivity. }
    destruct (P num_pairs (le_n _)) as [_ E]. exact E.
  Qed.

  (** Change of the residual between the displacements [u] and [u + w], tested with [w]:
      bounded below by the squared traction of [w] on the contact surfaces, times
      (1 + theta)^2 / 4. *)
  Theorem C104_residual_change :
    forall (law : friction_law) (g : G) (calls : list (@call (list R) (nat -> list Z))) (u w b : list R) (kernels : list kernel_fn),
    let s := after g calls in
    let theta := nth 1 (constants_of s) 0 in
    law <> Coulomb ->
    Forall no_crop calls -> cp_ready s = true -> (forall i, (num_local surfaces i <= num_rows i)%nat) ->
    tie_setting pd kd num_pairs (pairs s) nq -> bs = gdim -> length w = length u -> length w = length b ->
    generated kd' (vector_kinds law) kernels -> 0 < nth 0 (constants_of s) 0 ->
    (forall i e, (i < num_pairs)%nat -> let asm := pr_asm (pairs s i) in (e < a_local asm)%nat ->
       0 <= ck_friction (row (updated u s) i e) /\ 0 < nth 3 (row (updated u s) i e) 0 /\
       forall q, In q (points_of asm e) -> 0 <= surface_weight kd' (coordinates_of asm (cell_of asm e)) (facet_of asm e) q) ->
    - ((1 + theta) * (1 + theta) / 4 *
       rsum num_pairs (fun i => let asm := pr_asm (pairs s i) in rsum (a_local asm) (fun e => lsum (points_of asm e) (fun q =>
         let c := row (updated u s) i e in
         surface_weight kd' (coordinates_of asm (cell_of asm e)) (facet_of asm e) q / 2 *
         (ck_gamma c (constants_of s) * acting law kd' c q (test_traction kd' (coordinates_of asm (cell_of asm e)) (facet_of asm e) c q (restrict asm w (cell_of asm e)))))))) <=
    applied (contact_vector pd num_pairs surfaces basis kernels (updated (moved u w 1) s) b) w -
    applied (contact_vector pd num_pairs surfaces basis kernels (updated u s) b) w.
  Proof.
    intros law g calls u w b kernels s theta HNC HC HR HL TS Hg Huw Hwb HK Hw H. assert (T := ts_tables _ _ _ _ _ TS).
    assert (E0 : moved u w 0 = u).
    { apply (nth_ext _ _ 0 0); [apply moved_length|]. intros n _. rewrite nth_moved by auto. ring. }
    pose proof (applied_contact_vector law g calls (moved u w 1) w b kernels HR TS Hwb HK) as E1. pose proof (applied_contact_vector law g calls u w b kernels HR TS Hwb HK) as E2.
    cbv zeta in E1, E2. fold s in E1, E2. rewrite E1, E2. clear E1 E2.
    match goal with |- _ <= ?x + ?y - (?x + ?z) => replace (x + y - (x + z)) with (y - z) by ring end.
    rewrite <- rsum_minus, <- rsum_scal, <- rsum_opp. apply rsum_le. intros i Hi. cbv zeta beta.
    rewrite <- rsum_minus, <- rsum_scal, <- rsum_opp. apply rsum_le. intros e He.
    destruct (H i e Hi He) as (Hf & Hh & HW). cbv zeta in HW. set (asm := pr_asm (pairs s i)) in *.
    pose proof (ts_pairs _ _ _ _ _ TS i Hi) as PS.
    assert (G3 : (kd_gdim kd' <= 3)%nat) by (cbn [with_strides kd_gdim]; rewrite (st_gdim _ _ T); apply (se_gdim3 _ _ _ PS)).
    assert (Hnd : a_ndofs asm = kd_ndofs kd') by (cbn [with_strides kd_ndofs]; rewrite (st_ndofs _ _ T); apply (se_ndofs _ _ _ PS)).
    assert (Hbs : a_bs asm = kd_bs kd') by (cbn [with_strides kd_bs]; rewrite (st_bs _ _ T); apply (se_bs _ _ _ PS)).
    assert (Hgk : kd_bs kd' = kd_gdim kd') by (cbn [with_strides kd_bs kd_gdim]; now rewrite (st_bs _ _ T), (st_gdim _ _ T)).
    assert (Hll : (length (links_of asm e) <= a_max_links asm)%nat) by (now apply (pair_well_formed pd kd num_pairs (pairs s) nq TS i Hi)).
    assert (HB : vector_buffers kd' (length (links_of asm e)) (buffers asm)) by (apply vector_bufs; auto).
    pose proof (object_layout pd kd num_pairs surfaces basis num_rows move detect pack_gap pack_normals pack_param pack_h g calls TS Hg i Hi e He) as HLay.
    pose proof (object_line pd kd num_pairs surfaces basis num_rows move detect pack_gap pack_normals pack_param pack_h g calls HC HR HL TS Hg i Hi e He u w Huw) as HLine.
    fold s asm in HLay, HLine.
    assert (R0 : row (updated u s) i e = row (updated (moved u w 0) s) i e) by (now rewrite E0).
    rewrite R0 in *.
    match type of HLine with contact_line _ _ _ ?C _ _ _ _ => set (CC := C) in * end.
    change (row (updated (moved u w 0) s) i e) with (CC 0) in *. change (row (updated (moved u w 1) s) i e) with (CC 1).
    pose proof (fun junk rhs E => contact_change kd' _ _ (constants_of s) CC _ _ _ _ Hgk HLay HLine junk (buffers asm) rhs E HB Hw Hh HW) as K1.
    pose proof (fun junk rhs E => tresca_change kd' _ _ (constants_of s) CC _ _ _ _ Hgk HLay HLine junk (buffers asm) rhs E G3 HB Hf Hw Hh HW) as K2.
    fold theta in K1, K2.
    unfold generated, vector_kinds in HK. cbn [app] in HK. inversion HK as [|k1 r1 ks rs [j1 F1] HK1]; subst. cbn [lsum]. specialize (K1 j1 r1 F1).
    destruct law; [| congruence |].
    - inversion HK1; subst. cbn [lsum]. unfold acting. rewrite !Rplus_0_r. exact K1.
    - cbn [app] in HK1. inversion HK1 as [|k2 r2 ks2 rs2 [j2 F2] HK2]; subst. inversion HK2; subst. cbn [lsum]. specialize (K2 j2 r2 F2).
      unfold acting.
      match type of K1 with - (_ * lsum _ ?f1) <= _ => match type of K2 with - (_ * lsum _ ?f2) <= _ =>
        rewrite (lsum_ext _ _ (fun q => f1 q + f2 q)) by (intros q _; ring) end end.
      rewrite lsum_plus. lra.
  Qed.

  (** theta = -1: the residual is monotone, whatever the penalty and the mesh size. *)
  Theorem C104_monotone :
    forall (law : friction_law) (g : G) (calls : list (@call (list R) (nat -> list Z))) (u u' b : list R) (kernels : list kernel_fn),
    let s := after g calls in
    law <> Coulomb -> nth 1 (constants_of s) 0 = -1 ->
    Forall no_crop calls -> cp_ready s = true -> (forall i, (num_local surfaces i <= num_rows i)%nat) ->
    tie_setting pd kd num_pairs (pairs s) nq -> bs = gdim -> length u' = length u -> length u = length b ->
    generated kd' (vector_kinds law) kernels -> 0 < nth 0 (constants_of s) 0 ->
    (forall i e, (i < num_pairs)%nat -> let asm := pr_asm (pairs s i) in (e < a_local asm)%nat ->
       0 <= ck_friction (row (updated u s) i e) /\ 0 < nth 3 (row (updated u s) i e) 0 /\
       forall q, In q (points_of asm e) -> 0 <= surface_weight kd' (coordinates_of asm (cell_of asm e)) (facet_of asm e) q) ->
    let F v := contact_vector pd num_pairs surfaces basis kernels (updated v s) b in
    0 <= applied (F u') (moved u' u (-1)) - applied (F u) (moved u' u (-1)).
  Proof.
    intros law g calls u u' b kernels s HNC Hth HC HR HL TS Hg Huu Hub HK Hw H F.
    assert (Lw : length (moved u' u (-1)) = length u) by (unfold moved; rewrite map_length, seq_length; exact Huu).
    pose proof (C104_residual_change law g calls u (moved u' u (-1)) b kernels HNC HC HR HL TS Hg Lw (eq_trans Lw Hub) HK Hw H) as K.
    cbv zeta in K. fold s in K. rewrite Hth in K.
    assert (M : moved u (moved u' u (-1)) 1 = u').
    { apply (nth_ext _ _ 0 0); [rewrite moved_length; congruence|]. intros n _. rewrite nth_moved by auto. rewrite nth_moved by auto. ring. }
    rewrite M in K. fold (F u') (F u) in K. match type of K with - (?k * _) <= _ => replace k with 0 in K by field end. lra.
  Qed.

  Lemma vector_kernels_local law kernels : generated kd' (vector_kinds law) kernels -> Forall (kernel_local (fun n => n + 1)%nat) kernels.
  Proof.
    intros HK. assert (X : forall k r, In k [Rhs; TrescaRhs; CoulombRhs] -> (exists junk, generate_contact_kernel k kd' junk = Some r) -> kernel_local (fun n => n + 1)%nat r).
    { intros k r Hk [junk E]. destruct (C68_contact_kernels_local kd' junk) as [X _]. destruct (X k Hk) as (r' & E' & L). congruence. }
    unfold generated in HK. apply Forall_forall. intros r Hr.
    assert (Y : Forall (fun k => In k [Rhs; TrescaRhs; CoulombRhs]) (vector_kinds law)) by (destruct law; repeat constructor; cbn [In]; auto).
    clear - HK Hr X Y. induction HK as [|k r' ks rs E HK IH]; [contradiction|]. inversion Y; subst. destruct Hr as [<-|Hr]; [now apply (X k)|auto].
  Qed.

  Lemma contact_vector_length law g calls u b kernels : let s := after g calls in
    cp_ready s = true -> tie_setting pd kd num_pairs (pairs s) nq -> generated kd' (vector_kinds law) kernels ->
    length (contact_vector pd num_pairs surfaces basis kernels (updated u s) b) = length b.
  Proof.
    intros s HR TS HK. set (v := repeat 0 (length b)). assert (Hv : length v = length b) by apply repeat_length.
    assert (LR : Forall (kernel_local (fun n => n + 1)%nat) kernels) by (now apply (vector_kernels_local law)).
    assert (U : cp_geom (updated u s) = cp_geom s /\ cp_map (updated u s) = cp_map s /\ constants_of (updated u s) = constants_of s).
    { unfold constants_of, contact_updated, update_data. rewrite HR. auto. }
    destruct U as (U1 & U2 & U3). unfold contact_vector. rewrite U1, U2, U3. clear U1 U2 U3.
    assert (P : forall n, (n <= num_pairs)%nat ->
      length (for_loop n (fun i b => for_each kernels (fun kernel b => assemble_vector (pr_asm (pairs s i)) kernel (concat (nth i (cp_coeffs (updated u s)) [])) NC (constants_of s) b) b) b) = length b).
    { induction n as [|n IH]; intros Hn; [reflexivity|]. rewrite for_loop_S. specialize (IH ltac:(lia)). cbv beta.
      destruct (applied_kernels (pr_asm (pairs s n)) (concat (nth n (cp_coeffs (updated u s)) [])) NC (constants_of s) v kernels
          (pair_well_formed pd kd num_pairs (pairs s) nq TS n Hn) LR _ (eq_trans Hv (eq_sym IH))) as [L' _]. rewrite L'. exact IH. }
    now apply P.
  Qed.

  (** The assembled matrix is positive semidefinite for theta = -1 (not symmetric), away from
      the switches between open and closed, stick and slip. *)
  Theorem C104_matrix_positive :
    forall (law : friction_law) (g : G) (calls : list (@call (list R) (nat -> list Z))) (u w : list R) (vector_kernels matrix_kernels : list kernel_fn),
    let s := after g calls in
    law <> Coulomb -> nth 1 (constants_of s) 0 = -1 ->
    Forall no_crop calls -> cp_ready s = true -> (forall i, (num_local surfaces i <= num_rows i)%nat) ->
    tie_setting pd kd num_pairs (pairs s) nq -> bs = gdim -> length w = length u ->
    generated kd' (vector_kinds law) vector_kernels -> generated kd' (matrix_kinds law) matrix_kernels -> 0 < nth 0 (constants_of s) 0 ->
    (forall i e, (i < num_pairs)%nat -> let asm := pr_asm (pairs s i) in (e < a_local asm)%nat ->
       0 <= ck_friction (row (updated u s) i e) /\ 0 < nth 3 (row (updated u s) i e) 0 /\
       forall q, In q (points_of asm e) ->
         0 <= surface_weight kd' (coordinates_of asm (cell_of asm e)) (facet_of asm e) q /\
         off_kinks law kd' (coordinates_of asm (cell_of asm e)) (facet_of asm e) (row (updated u s) i e) (constants_of s) q) ->
    0 <= rsum (length w) (fun d => matrix_times gdim (contact_matrix pd num_pairs surfaces basis matrix_kernels (updated u s)) w d * nth d w 0).
  Proof.
    intros law g calls u w vks mks s HNC Hth HC HR HL TS Hg Huw Hv Hm Hw H.
    set (b := repeat 0 (length w)). assert (Lb : length b = length w) by apply repeat_length.
    set (F v := contact_vector pd num_pairs surfaces basis vks (updated v s) b).
    assert (D : derivable_pt_lim (fun t => rsum (length w) (fun d => nth d (F (moved u w t)) 0 * nth d w 0)) 0
      (rsum (length w) (fun d => matrix_times gdim (contact_matrix pd num_pairs surfaces basis mks (updated u s)) w d * nth d w 0))).
    { apply (derivable_rsum (length w) (fun d t => nth d (F (moved u w t)) 0 * nth d w 0) (fun d => matrix_times gdim (contact_matrix pd num_pairs surfaces basis mks (updated u s)) w d * nth d w 0)).
      intros d Hd. apply derivable_scal_r.
      apply (C78_matrix_is_derivative pd kd num_pairs surfaces basis num_rows move detect pack_gap pack_normals pack_param pack_h law g calls u w b vks mks d HC HR HL TS Hg Huw Hv Hm).
      - intros i e q Hi asm He Hq. now apply (H i e Hi He).
      - lia. }
    assert (LF : forall v, length (F v) = length w).
    { intros v. unfold F. rewrite <- Lb.
      apply (contact_vector_length law g calls v b vks HR TS Hv). }
    assert (M : forall t, 0 < t -> 0 <= rsum (length w) (fun d => nth d (F (moved u w t)) 0 * nth d w 0) - rsum (length w) (fun d => nth d (F (moved u w 0)) 0 * nth d w 0)).
    { intros t Ht. assert (E0 : moved u w 0 = u) by (apply (nth_ext _ _ 0 0); [apply moved_length|]; intros n _; rewrite nth_moved by auto; ring). rewrite E0.
      assert (Lt : length (moved u w t) = length u) by apply moved_length.
      pose proof (C104_monotone law g calls u (moved u w t) b vks HNC Hth HC HR HL TS Hg Lt ltac:(congruence) Hv Hw
        ltac:(intros i e Hi asm He; destruct (H i e Hi He) as (A & B & C); split; [exact A|]; split; [exact B|]; intros q Hq; now apply C)) as K.
      cbv beta zeta in K. fold s in K. fold (F (moved u w t)) (F u) in K. unfold applied in K. rewrite !LF in K.
      rewrite (rsum_ext _ _ (fun d => t * (nth d (F (moved u w t)) 0 * nth d w 0))) in K by (intros d _; rewrite nth_moved by congruence; rewrite nth_moved by auto; ring).
      rewrite (rsum_ext _ (fun d => nth d (F u) 0 * _) (fun d => t * (nth d (F u) 0 * nth d w 0))) in K by (intros d _; rewrite nth_moved by congruence; rewrite nth_moved by auto; ring).
      rewrite !rsum_scal in K. nra. }
    set (phi := fun t => rsum (length w) (fun d => nth d (F (moved u w t)) 0 * nth d w 0)) in *.
    match type of D with derivable_pt_lim _ _ ?l => set (L := l) in * end.
    destruct (Rle_lt_dec 0 L) as [P|P]; [exact P|exfalso].
    destruct (D (- L / 2) ltac:(lra)) as [dl Hdl]. specialize (Hdl (dl / 2)). pose proof (cond_pos dl) as Pd.
    specialize (Hdl ltac:(lra)). rewrite (Rabs_pos_eq (dl / 2)) in Hdl by lra. specialize (Hdl ltac:(lra)). apply Rabs_def2 in Hdl. rewrite Rplus_0_l in Hdl.
    specialize (M (dl / 2) ltac:(lra)). change (0 <= phi (dl / 2) - phi 0) in M.
    assert (0 <= (phi (dl / 2) - phi 0) / (dl / 2)) by (apply Rmult_le_pos; [exact M|left; apply Rinv_0_lt_compat; lra]). lra.
  Qed.
End Object.
Print Assumptions C104_residual_change.
Print Assumptions C104_monotone.
Print Assumptions C104_matrix_positive.
