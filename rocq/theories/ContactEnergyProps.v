(** Property C109: for theta = 1 the residuals of frictionless contact and of contact with
    Tresca friction derive from an energy. *)
From Coq Require Import List Arith ZArith Lia Bool Reals Lra.
Import ListNotations.
From Verif Require Import Prelude PreludeLemmas RSum RealLemmas LayoutModel LayoutProps ContactProblemModel ContactProblemProps.
From Verif Require Import EntitiesModel PackingModel PackingProps PackUProps AssemblyModel AssemblyProofs AssemblyProps RayModel KernelModel KernelProofs KernelSpec
  ElasticityProps ContactKernelModel ContactKernelProofs ContactKernelSpec ContactKernelProps FrictionKernelProps CoefficientsModel CoefficientsProps SystemSpec TieSystemModel TieSystemProofs TieSystemProps
  TieWeakProps ContactWeakProps ContactSystemModel ContactSystemSpec ContactSystemProofs ContactSystemProps SystemWeakProps MonotoneProps TieFormProps ContactFormProps.
Local Open Scope R_scope.

(** ** Specification *)
Section Energy.
  Context (dim : nat).
  (** Half the square inside the ball of radius [r], linear growth outside. *)
  Definition slip_energy (r : R) (x : nat -> R) : R :=
    if Rle_dec (vector_norm dim x) r then scalar_product dim x x / 2 else r * vector_norm dim x - r * r / 2.
  (** Energy of a point; the names are those of [contact_functional]. *)
  Definition contact_energy (law : friction_law) (n : nat -> R) (gap friction g : R) (Ju Su : nat -> R) : R :=
    let N x := scalar_product dim x n in
    let T := tangent dim n in
    let pressure := Rmax (N Ju - gap - g * N Su) 0 in
    pressure * pressure / (2 * g) - g / 2 * (N Su * N Su) +
    match law with
    | Tresca => slip_energy (g * friction) (fun a => T Ju a - g * T Su a) / g - g / 2 * scalar_product dim (T Su) (T Su)
    | _ => 0
    end.
End Energy.
Definition contact_potential {G : Type} (pd : pack_data) (kd : kernel_data) (num_pairs : nat) (pair : nat -> tie_pair) (law : friction_law) (gamma : R) (s : @cp_state G (nat -> list Z)) (u : list R) : R :=
  over_interface num_pairs pair (fun i e q => interface_weight kd (pair i) e q / 2 *
    contact_energy (pd_gdim pd) law (stored_normal pd s i e q) (stored_gap pd s i e q) (stored_friction pd s i e) (stored_h pd s i e / gamma)
      (interface_jump pd (pair i) e q u)
      (traction (pd_gdim pd) (stored_mu pd s i e) (stored_lambda pd s i e) (fun a b => gradient_own pd (pair i) e q u a b + stored_gradient pd s i e q a b) (interface_normal kd (pair i) e q))).

(** ** Lemmas *)
(** First order expansion with a quadratic remainder. *)
Definition expands (f : R -> R) (l : R) : Prop := exists C, forall t, Rabs (f t - f 0 - t * l) <= C * (t * t).
Lemma expands_derivable f l : expands f l -> derivable_pt_lim f 0 l.
Proof.
  intros (C & H) eps Heps. assert (HC : 0 < Rabs C + 1) by (pose proof (Rabs_pos C); lra). exists (mkposreal (eps / (Rabs C + 1)) (Rdiv_lt_0_compat _ _ Heps HC)). intros h Hh Hd. cbn [pos] in Hd.
  rewrite Rplus_0_l. replace ((f h - f 0) / h - l) with ((f h - f 0 - h * l) / h) by (field; exact Hh). unfold Rdiv. rewrite Rabs_mult, Rabs_inv.
  assert (Ph : 0 < Rabs h) by (now apply Rabs_pos_lt). apply (Rmult_lt_reg_r (Rabs h)); [exact Ph|]. rewrite Rmult_assoc, Rinv_l, Rmult_1_r by lra.
  assert (E : h * h = Rabs h * Rabs h) by (rewrite <- Rabs_mult; symmetry; apply Rabs_right; nra).
  apply (Rle_lt_trans _ (C * (h * h))); [apply H|]. rewrite E. pose proof (Rle_abs C).
  apply (Rmult_lt_compat_r (Rabs C + 1)) in Hd; [|exact HC]. unfold Rdiv in Hd. rewrite Rmult_assoc, Rinv_l, Rmult_1_r in Hd by lra.
  apply (Rle_lt_trans _ (Rabs h * (Rabs C + 1) * Rabs h)); [nra|]. now apply Rmult_lt_compat_r.
Qed.
Lemma expands_ext f f' l : (forall t, f t = f' t) -> expands f l -> expands f' l.
Proof. intros E (C & H). exists C. intros t. rewrite <- !E. apply H. Qed.
Lemma expands_const c : expands (fun _ => c) 0.
Proof. exists 0. intros t. replace (c - c - t * 0) with 0 by ring. rewrite Rabs_R0. lra. Qed.
Lemma expands_plus f g l m : expands f l -> expands g m -> expands (fun t => f t + g t) (l + m).
Proof.
  intros (C & H) (D & K). exists (C + D). intros t. specialize (H t). specialize (K t). replace (f t + g t - (f 0 + g 0) - t * (l + m)) with ((f t - f 0 - t * l) + (g t - g 0 - t * m)) by ring.
  eapply Rle_trans; [apply Rabs_triang|]. lra.
Qed.
Lemma expands_scal c f l : expands f l -> expands (fun t => c * f t) (c * l).
Proof.
  intros (C & H). exists (Rabs c * C). intros t. replace (c * f t - c * f 0 - t * (c * l)) with (c * (f t - f 0 - t * l)) by ring. rewrite Rabs_mult, Rmult_assoc. apply Rmult_le_compat_l; [apply Rabs_pos|apply H].
Qed.
Lemma expands_rsum n (f : nat -> R -> R) l : (forall i, (i < n)%nat -> expands (f i) (l i)) -> expands (fun t => rsum n (fun i => f i t)) (rsum n l).
Proof.
  induction n as [|n IH]; intros H; cbn [rsum]; [apply expands_const|]. apply (expands_plus (fun t => rsum n (fun i => f i t)) (f n)); [apply IH; intros; apply H; lia|apply H; lia].
Qed.
Lemma expands_lsum {A} (as_ : list A) (f : A -> R -> R) l : (forall a, In a as_ -> expands (f a) (l a)) -> expands (fun t => lsum as_ (fun a => f a t)) (lsum as_ l).
Proof.
  induction as_ as [|a as_ IH]; intros H; cbn [lsum]; [apply expands_const|]. apply (expands_plus (f a) (fun t => lsum as_ (fun a => f a t))); [apply H; now left|apply IH; intros; apply H; now right].
Qed.
(** Squares of the positive part and of affine functions. *)
Lemma expands_plus_part P p : expands (fun t => Rmax (P + t * p) 0 * Rmax (P + t * p) 0 / 2) (Rmax P 0 * p).
Proof.
  exists (p * p). intros t. rewrite Rmult_0_l, Rplus_0_r. apply Rabs_le. unfold Rmax. destruct (Rle_dec (P + t * p) 0), (Rle_dec P 0); split; nra.
Qed.
Lemma expands_square N y : expands (fun t => (N + t * y) * (N + t * y) / 2) (N * y).
Proof. exists (y * y / 2). intros t. replace ((N + t * y) * (N + t * y) / 2 - (N + 0 * y) * (N + 0 * y) / 2 - t * (N * y)) with (y * y / 2 * (t * t)) by field. rewrite Rabs_right; nra. Qed.

Section Slip.
  Context (dim : nat).
  Notation dot := (scalar_product dim).
  Lemma product_sym x y : dot x y = dot y x.
  Proof. apply rsum_ext. intros; ring. Qed.
  Lemma product_nonneg x : 0 <= dot x x.
  Proof. apply rsum_nonneg. intros. apply Rle_0_sqr. Qed.
  Lemma product_plus x y z : dot (fun a => x a + y a) z = dot x z + dot y z.
  Proof. unfold scalar_product. rewrite <- rsum_plus. apply rsum_ext. intros; ring. Qed.
  Lemma product_minus x y z : dot (fun a => x a - y a) z = dot x z - dot y z.
  Proof. unfold scalar_product. rewrite <- rsum_minus. apply rsum_ext. intros; ring. Qed.
  Lemma product_scal k x z : dot (fun a => k * x a) z = k * dot x z.
  Proof. unfold scalar_product. rewrite <- rsum_scal. apply rsum_ext. intros; ring. Qed.
  Lemma vector_norm_sq x : vector_norm dim x * vector_norm dim x = dot x x.
  Proof. apply sqrt_sqrt, product_nonneg. Qed.
  Lemma product_norms x y : dot x y <= vector_norm dim x * vector_norm dim y.
  Proof.
    apply Rsqr_incr_0_var; [|apply Rmult_le_pos; apply sqrt_pos]. unfold Rsqr.
    replace (vector_norm dim x * vector_norm dim y * (vector_norm dim x * vector_norm dim y)) with ((vector_norm dim x * vector_norm dim x) * (vector_norm dim y * vector_norm dim y)) by ring.
    rewrite !vector_norm_sq. apply (cauchy_schwarz_sq dim x y).
  Qed.
  Lemma slip_energy_value r x : 0 <= r -> slip_energy dim r x = dot (onto_ball dim r x) x - dot (onto_ball dim r x) (onto_ball dim r x) / 2 /\ dot (onto_ball dim r x) (onto_ball dim r x) <= r * r.
  Proof.
    intros Hr. unfold slip_energy. destruct (Rle_dec (vector_norm dim x) r) as [H|H].
    - assert (E : forall y, dot (onto_ball dim r x) y = dot x y) by (intros y; apply rsum_ext; intros a Ha; unfold onto_ball; destruct (Rle_dec (vector_norm dim x) r); [ring|contradiction]).
      rewrite !E, (product_sym x (onto_ball dim r x)), E. split; [lra|]. rewrite <- vector_norm_sq. assert (0 <= vector_norm dim x) by apply sqrt_pos. nra.
    - set (N := vector_norm dim x) in *. assert (HN : 0 < N) by lra.
      assert (E : forall y, dot (onto_ball dim r x) y = r / N * dot x y) by (intros y; rewrite <- product_scal; apply rsum_ext; intros a Ha; unfold onto_ball; fold N; destruct (Rle_dec N r); [contradiction|ring]).
      rewrite !E, (product_sym x (onto_ball dim r x)), E, <- vector_norm_sq. fold N. split; [field; lra|]. replace (r / N * (r / N * (N * N))) with (r * r) by (field; lra). lra.
  Qed.
  Lemma onto_ball_variational r x z : 0 <= r -> dot z z <= r * r -> dot x z - dot x (onto_ball dim r x) - dot (onto_ball dim r x) z + dot (onto_ball dim r x) (onto_ball dim r x) <= 0.
  Proof.
    intros Hr Hz. destruct (Rle_dec (vector_norm dim x) r) as [H|H].
    - assert (E : forall y, dot (onto_ball dim r x) y = dot x y) by (intros y; apply rsum_ext; intros a Ha; unfold onto_ball; destruct (Rle_dec (vector_norm dim x) r); [ring|contradiction]).
      rewrite !E. lra.
    - set (N := vector_norm dim x) in *. assert (HN : 0 < N) by lra.
      assert (E : forall y, dot (onto_ball dim r x) y = r / N * dot x y) by (intros y; rewrite <- product_scal; apply rsum_ext; intros a Ha; unfold onto_ball; fold N; destruct (Rle_dec N r); [contradiction|ring]).
      rewrite !E, !(product_sym x (onto_ball dim r x)), !E, <- (vector_norm_sq x). fold N. pose proof (product_norms x z) as CS. fold N in CS.
      assert (Z : vector_norm dim z <= r) by (apply Rsqr_incr_0_var; [unfold Rsqr; now rewrite vector_norm_sq|exact Hr]).
      replace (dot x z - r / N * (N * N) - r / N * dot x z + r / N * (r / N * (N * N))) with ((1 - r / N) * (dot x z - r * N)) by (field; lra).
      assert (0 <= 1 - r / N) by (assert (r / N <= 1) by (apply (Rmult_le_reg_r N); [lra|]; unfold Rdiv; rewrite Rmult_assoc, Rinv_l by lra; lra); lra).
      assert (dot x z - r * N <= 0) by nra. nra.
  Qed.
  (** The energy lies above its tangents. *)
  Lemma slip_energy_support r x y : 0 <= r -> slip_energy dim r x + dot (onto_ball dim r x) (fun a => y a - x a) <= slip_energy dim r y.
  Proof.
    intros Hr. destruct (slip_energy_value r x Hr) as [-> Bx]. destruct (slip_energy_value r y Hr) as [-> By]. pose proof (onto_ball_variational r y (onto_ball dim r x) Hr Bx) as V.
    set (p := onto_ball dim r x) in *. set (q := onto_ball dim r y) in *. rewrite (product_sym p (fun a => y a - x a)), product_minus, !(product_sym y), !(product_sym x) in *.
    assert (S : 0 <= dot (fun a => q a - p a) (fun a => q a - p a)) by apply product_nonneg. rewrite product_minus, !(product_sym _ (fun a => q a - p a)), !product_minus, (product_sym q p) in S. rewrite (product_sym q p) in V. lra.
  Qed.
  Lemma expands_slip r x d : 0 <= r -> expands (fun t => slip_energy dim r (fun a => x a + t * d a)) (dot (onto_ball dim r x) d).
  Proof.
    intros Hr. exists (dot d d). intros t. set (y := fun a => x a + t * d a).
    assert (E0 : slip_energy dim r (fun a => x a + 0 * d a) = slip_energy dim r x).
    { assert (Z : dot (fun a => x a + 0 * d a) (fun a => x a + 0 * d a) = dot x x) by (apply rsum_ext; intros; ring). unfold slip_energy, vector_norm. now rewrite Z. }
    rewrite E0. pose proof (slip_energy_support r x y Hr) as A. pose proof (slip_energy_support r y x Hr) as B.
    assert (D : forall p, dot p (fun a => y a - x a) = t * dot p d) by (intros p; unfold scalar_product; rewrite <- rsum_scal; apply rsum_ext; intros a _; unfold y; ring).
    assert (D' : forall p, dot p (fun a => x a - y a) = - (t * dot p d)) by (intros p; rewrite <- D; unfold scalar_product; rewrite <- rsum_opp; apply rsum_ext; intros a _; ring).
    rewrite D in A. rewrite D' in B. set (p := onto_ball dim r x) in *. set (q := onto_ball dim r y) in *.
    destruct (slip_energy_value r x Hr) as [_ Bx]. destruct (slip_energy_value r y Hr) as [_ By]. fold p in Bx. fold q in By.
    pose proof (onto_ball_variational r x q Hr By) as V1. pose proof (onto_ball_variational r y p Hr Bx) as V2. fold p q in V1, V2.
    (* firmly nonexpansive, hence nonexpansive *)
    assert (Q : dot (fun a => q a - p a) (fun a => q a - p a) = dot q q - 2 * dot p q + dot p p).
    { rewrite product_minus, !(product_sym _ (fun a => q a - p a)), !product_minus, (product_sym q p). ring. }
    assert (F : dot q q - 2 * dot p q + dot p p <= t * (dot q d - dot p d)).
    { assert (Y : forall z, dot y z = dot x z + t * dot d z) by (intros z; unfold y; rewrite product_plus, product_scal; reflexivity). rewrite !Y in V2. rewrite !(product_sym d) in V2. rewrite (product_sym q p) in V2. lra. }
    pose proof (cauchy_schwarz_sq dim (fun a => q a - p a) d) as CS. change (dot (fun a => q a - p a) d * dot (fun a => q a - p a) d <= dot (fun a => q a - p a) (fun a => q a - p a) * dot d d) in CS. rewrite Q, product_minus in CS.
    set (m := dot q q - 2 * dot p q + dot p p) in *. assert (M : 0 <= m) by (rewrite <- Q; apply product_nonneg). assert (Dn : 0 <= dot d d) by apply product_nonneg.
    set (k := dot q d - dot p d) in *.
    assert (K : t * k <= dot d d * (t * t)).
    { destruct (Rle_lt_dec (t * k) 0) as [H|H]; [assert (0 <= t * t) by apply Rle_0_sqr; nra|]. apply (Rmult_le_reg_l (t * k)); [exact H|].
      apply (Rle_trans _ (t * t * (m * dot d d))); [assert (0 <= t * t) by apply Rle_0_sqr; replace (t * k * (t * k)) with (t * t * (k * k)) by ring; now apply Rmult_le_compat_l|].
      replace (t * k * (dot d d * (t * t))) with (t * t * ((t * k) * dot d d)) by ring. apply Rmult_le_compat_l; [apply Rle_0_sqr|]. now apply Rmult_le_compat_r. }
    apply Rabs_le. unfold k in K. split; [assert (0 <= dot d d * (t * t)) by (apply Rmult_le_pos; [exact Dn|apply Rle_0_sqr]); lra|lra].
  Qed.
End Slip.

(** The functional at a point is the derivative of its energy. *)
Lemma energy_ext dim law n gap fr g Ju Ju' Su Su' : (forall a, (a < dim)%nat -> Ju a = Ju' a) -> (forall a, (a < dim)%nat -> Su a = Su' a) ->
  contact_energy dim law n gap fr g Ju Su = contact_energy dim law n gap fr g Ju' Su'.
Proof.
  intros HJ HS. unfold contact_energy. cbv zeta. rewrite (product_ext dim Ju Ju' n n), (product_ext dim Su Su' n n) by auto. f_equal. destruct law; auto.
  assert (T : forall a, (a < dim)%nat -> tangent dim n Su a = tangent dim n Su' a) by (intros a Ha; apply tangent_ext; auto). rewrite (product_ext dim (tangent dim n Su) (tangent dim n Su') (tangent dim n Su) (tangent dim n Su')) by auto. f_equal. f_equal.
  assert (X : forall a, (a < dim)%nat -> tangent dim n Ju a - g * tangent dim n Su a = tangent dim n Ju' a - g * tangent dim n Su' a) by (intros a Ha; rewrite T by auto; f_equal; apply tangent_ext; auto).
  unfold slip_energy, vector_norm. now rewrite (product_ext dim _ (fun a => tangent dim n Ju' a - g * tangent dim n Su' a) _ (fun a => tangent dim n Ju' a - g * tangent dim n Su' a) X X).
Qed.
Lemma tangent_move dim n x d t a : tangent dim n (fun b => x b + t * d b) a = tangent dim n x a + t * tangent dim n d a.
Proof. unfold tangent. rewrite product_plus, product_scal. ring. Qed.
Lemma energy_expands dim law n o gap fr g Ju Su Jw Sw : law <> Coulomb -> 0 <= fr -> 0 < g ->
  expands (fun t => contact_energy dim law n gap fr g (fun a => Ju a + t * Jw a) (fun a => Su a + t * Sw a)) (contact_functional dim law n o gap fr g 1 Ju Su Jw Sw).
Proof.
  intros HL Hf Hg. unfold contact_energy, contact_functional. cbv zeta.
  set (N := fun x => scalar_product dim x n). set (T := tangent dim n).
  assert (A : expands (fun t => / g * (Rmax ((N Ju - gap - g * N Su) + t * (N Jw - g * N Sw)) 0 * Rmax ((N Ju - gap - g * N Su) + t * (N Jw - g * N Sw)) 0 / 2) + (- g) * ((N Su + t * N Sw) * (N Su + t * N Sw) / 2))
    (/ g * (Rmax (N Ju - gap - g * N Su) 0 * (N Jw - g * N Sw)) + (- g) * (N Su * N Sw))).
  { apply (expands_plus (fun t => / g * _) (fun t => - g * _)); apply (expands_scal _ (fun t => _)); [apply expands_plus_part|apply expands_square]. }
  assert (EA : forall t, / g * (Rmax ((N Ju - gap - g * N Su) + t * (N Jw - g * N Sw)) 0 * Rmax ((N Ju - gap - g * N Su) + t * (N Jw - g * N Sw)) 0 / 2) + (- g) * ((N Su + t * N Sw) * (N Su + t * N Sw) / 2) =
    Rmax (N (fun a => Ju a + t * Jw a) - gap - g * N (fun a => Su a + t * Sw a)) 0 * Rmax (N (fun a => Ju a + t * Jw a) - gap - g * N (fun a => Su a + t * Sw a)) 0 / (2 * g) - g / 2 * (N (fun a => Su a + t * Sw a) * N (fun a => Su a + t * Sw a))).
  { intros t. unfold N. rewrite !product_plus, !product_scal. fold (N Ju) (N Jw) (N Su) (N Sw). replace (N Ju + t * N Jw - gap - g * (N Su + t * N Sw)) with ((N Ju - gap - g * N Su) + t * (N Jw - g * N Sw)) by ring. field. lra. }
  assert (B : forall C c, expands C c -> expands (fun t => Rmax (N (fun a => Ju a + t * Jw a) - gap - g * N (fun a => Su a + t * Sw a)) 0 * Rmax (N (fun a => Ju a + t * Jw a) - gap - g * N (fun a => Su a + t * Sw a)) 0 / (2 * g) -
      g / 2 * (N (fun a => Su a + t * Sw a) * N (fun a => Su a + t * Sw a)) + C t) (/ g * Rmax (N Ju - gap - g * N Su) 0 * (N Jw - 1 * g * N Sw) - 1 * g * N Su * N Sw + c)).
  { intros C c HC. replace (/ g * Rmax (N Ju - gap - g * N Su) 0 * (N Jw - 1 * g * N Sw) - 1 * g * N Su * N Sw) with (/ g * (Rmax (N Ju - gap - g * N Su) 0 * (N Jw - g * N Sw)) + (- g) * (N Su * N Sw)) by ring.
    apply (expands_plus (fun t => _) C); [|exact HC]. eapply expands_ext; [exact EA|exact A]. }
  destruct law; [apply (B (fun _ => 0)); apply expands_const|contradiction|].
  apply (B (fun t => _)). set (x := fun a => T Ju a - g * T Su a). set (d := fun a => T Jw a - g * T Sw a).
  assert (S1 : expands (fun t => / g * slip_energy dim (g * fr) (fun a => x a + t * d a) + (- g) * rsum dim (fun a => (T Su a + t * T Sw a) * (T Su a + t * T Sw a) / 2))
    (/ g * scalar_product dim (onto_ball dim (g * fr) x) d + (- g) * rsum dim (fun a => T Su a * T Sw a))).
  { apply (expands_plus (fun t => / g * _) (fun t => - g * _)); apply (expands_scal _ (fun t => _)).
    - apply expands_slip. nra.
    - apply (expands_rsum dim (fun a t => (T Su a + t * T Sw a) * (T Su a + t * T Sw a) / 2)). intros a _. apply expands_square. }
  replace (/ g * scalar_product dim (onto_ball dim (g * fr) x) (fun a => T Jw a - 1 * g * T Sw a) - 1 * g * scalar_product dim (T Su) (T Sw)) with
    (/ g * scalar_product dim (onto_ball dim (g * fr) x) d + (- g) * rsum dim (fun a => T Su a * T Sw a)).
  - refine (expands_ext _ _ _ _ S1). intros t.
    assert (ET : forall y z a, T (fun b => y b + t * z b) a = T y a + t * T z a) by (intros; apply tangent_move).
    assert (X : forall a, (a < dim)%nat -> T (fun b => Ju b + t * Jw b) a - g * T (fun b => Su b + t * Sw b) a = x a + t * d a) by (intros a _; rewrite !ET; unfold x, d; ring).
    assert (SE : slip_energy dim (g * fr) (fun a => T (fun b => Ju b + t * Jw b) a - g * T (fun b => Su b + t * Sw b) a) = slip_energy dim (g * fr) (fun a => x a + t * d a)) by (unfold slip_energy, vector_norm; now rewrite (product_ext dim _ _ _ _ X X)).
    rewrite SE. generalize (slip_energy dim (g * fr) (fun a => x a + t * d a)). intros E.
    replace (scalar_product dim (T (fun a => Su a + t * Sw a)) (T (fun a => Su a + t * Sw a))) with (2 * rsum dim (fun a => (T Su a + t * T Sw a) * (T Su a + t * T Sw a) / 2)).
    + generalize (rsum dim (fun a => (T Su a + t * T Sw a) * (T Su a + t * T Sw a) / 2)). intros E'. field. lra.
    + rewrite <- rsum_scal. apply rsum_ext. intros a _. rewrite !ET. field.
  - replace (scalar_product dim (onto_ball dim (g * fr) x) (fun a => T Jw a - 1 * g * T Sw a)) with (scalar_product dim (onto_ball dim (g * fr) x) d) by (apply rsum_ext; intros a _; unfold d; ring).
    fold (scalar_product dim (T Su) (T Sw)). unfold x. ring.
Qed.

(** Traces along a segment. *)
Section Moves.
  Context (pd : pack_data) (p : tie_pair) (e q : nat) (u w : list R) (L : length w = length u).
  Lemma coefficient_move t cell j n : coefficient pd (moved u w t) cell j n = coefficient pd u cell j n + t * coefficient pd w cell j n.
  Proof using L. unfold coefficient, dof_value. now apply nth_moved. Qed.
  Lemma jump_move t a : interface_jump pd p e q (moved u w t) a = interface_jump pd p e q u a + t * interface_jump pd p e q w a.
  Proof using L.
    unfold interface_jump, value_own, value_tied. rewrite (rsum_ext _ _ (fun j => pd_basis pd 0 (pd_q_offsets pd (own_facet p e) + q) j 0 * coefficient pd u (own_cell p e) j a + t * (pd_basis pd 0 (pd_q_offsets pd (own_facet p e) + q) j 0 * coefficient pd w (own_cell p e) j a))) by (intros j _; rewrite coefficient_move; ring).
    rewrite (rsum_ext _ (fun j => pr_basis p _ j * coefficient pd (moved u w t) _ j a) (fun j => pr_basis p (e * pd_nq pd + q)%nat j * coefficient pd u (tied_cell pd p e q) j a + t * (pr_basis p (e * pd_nq pd + q)%nat j * coefficient pd w (tied_cell pd p e q) j a))) by (intros j _; rewrite coefficient_move; ring).
    rewrite !rsum_plus, !rsum_scal. ring.
  Qed.
  Lemma gradient_move t a b : gradient_own pd p e q (moved u w t) a b = gradient_own pd p e q u a b + t * gradient_own pd p e q w a b.
  Proof using L.
    unfold gradient_own. rewrite <- rsum_scal, <- rsum_plus. apply rsum_ext. intros j _. rewrite coefficient_move. ring.
  Qed.
End Moves.
Lemma traction_move dim mu lm G H n t a : traction dim mu lm (fun x y => G x y + t * H x y) n a = traction dim mu lm G n a + t * traction dim mu lm H n a.
Proof.
  unfold traction. rewrite <- (rsum_scal dim t), <- (rsum_plus dim). apply rsum_ext. intros b _. unfold stress. rewrite rsum_plus, rsum_scal. ring.
Qed.

Section Object.
  Context {G : Type} (pd : pack_data) (kd : kernel_data) (num_pairs : nat) (surfaces : nat -> tie_pair) (basis : G -> (nat -> list Z) -> nat -> nat -> nat -> R)
    (num_rows : nat -> nat) (move : G -> list R -> G) (detect : G -> nat -> list Z) (pack_gap pack_normals : nat -> G -> (nat -> list Z) -> list (list R))
    (pack_param : nat -> list R -> list (list R)) (pack_h : nat -> list (list R)).
  Notation nq := (pd_nq pd).
  Notation nd := (pd_functions pd).
  Notation bs := (pd_bs pd).
  Notation gdim := (pd_gdim pd).
  Notation after := (contact_after pd num_pairs surfaces basis num_rows move detect pack_gap pack_normals pack_param pack_h).
  Notation updated := (contact_updated pd num_pairs surfaces basis num_rows).
  Notation pairs s := (pair_at pd surfaces basis (cp_geom s) (cp_map s)).
  Notation strides := (contact_kernel_strides nq nd gdim gdim nq).
  Notation kd' := (with_strides kd strides).

  Lemma potential_expands law gamma s u w : law <> Coulomb -> 0 < gamma -> length w = length u ->
    (forall i e, (i < num_pairs)%nat -> (e < num_local surfaces i)%nat -> 0 <= stored_friction pd s i e /\ 0 < stored_h pd s i e) ->
    expands (fun t => contact_potential pd kd num_pairs (pairs s) law gamma s (moved u w t)) (contact_form pd kd num_pairs (pairs s) law gamma 1 s u w).
  Proof.
    intros HL Hg L H. unfold contact_potential, contact_form, over_interface.
    apply (expands_rsum num_pairs (fun i t => _)). intros i Hi. apply (expands_rsum _ (fun e t => _)). intros e He. apply (expands_lsum _ (fun q t => _)). intros q Hq. apply (expands_scal _ (fun t => _)). cbv zeta.
    destruct (H i e Hi He) as [Hf Hh]. refine (expands_ext _ _ _ _ (energy_expands gdim law _ _ _ _ _ _ _ _ _ HL Hf (Rdiv_lt_0_compat _ _ Hh Hg))). intros t. apply energy_ext; intros a Ha.
    - symmetry. now apply jump_move.
    - rewrite <- traction_move. apply traction_ext; auto. intros x y _ _. rewrite gradient_move by auto. ring.
  Qed.

  (** ** C109 *)
  (** For theta = 1, without friction or with Tresca friction, the assembled contact residual
      at any displacement is the derivative of the contact energy. *)
  Theorem C109_residual_is_gradient :
    forall (law : friction_law) (g : G) (calls : list (@call (list R) (nat -> list Z))) (u w : list R) (kernels : list kernel_fn),
    let s := after g calls in
    law <> Coulomb -> nth 1 (constants_of s) 0 = 1 ->
    Forall no_crop calls -> cp_ready s = true -> (forall i, (num_local surfaces i <= num_rows i)%nat) ->
    tie_setting pd kd num_pairs (pairs s) nq -> bs = gdim -> length w = length u ->
    generated kd' (vector_kinds law) kernels -> 0 < nth 0 (constants_of s) 0 ->
    (forall i e, (i < num_pairs)%nat -> (e < num_local surfaces i)%nat -> 0 <= stored_friction pd s i e /\ 0 < stored_h pd s i e) ->
    derivable_pt_lim (fun t => contact_potential pd kd num_pairs (pairs s) law (nth 0 (constants_of s) 0) s (moved u w t)) 0
      (applied (contact_vector pd num_pairs surfaces basis kernels (updated u s) (repeat 0 (length u))) w).
  Proof.
    intros law g calls u w kernels s HL Hth HC HR HB TS Hg L HK Hw H. apply expands_derivable.
    pose proof (C107_residual_is_functional pd kd num_pairs surfaces basis num_rows move detect pack_gap pack_normals pack_param pack_h law g calls u w (repeat 0 (length u)) kernels HC HR HB TS Hg ltac:(now rewrite repeat_length) HK Hw H) as E.
    cbv zeta in E. fold s in E. rewrite E, Hth. replace (applied (repeat 0 (length u)) w) with 0 by (symmetry; apply rsum_zero; intros d _; rewrite nth_repeat; ring). rewrite Rplus_0_l. now apply potential_expands.
  Qed.

  (** Hence the residual vanishes together with that of the bodies exactly at the stationary
      points of the total energy. *)
  Theorem C109_equilibrium_is_stationary :
    forall (law : friction_law) (g : G) (calls : list (@call (list R) (nat -> list Z))) (u : list R) (kernels : list kernel_fn) (energy : list R -> R) (bulk : list R -> list R),
    let s := after g calls in
    law <> Coulomb -> nth 1 (constants_of s) 0 = 1 ->
    Forall no_crop calls -> cp_ready s = true -> (forall i, (num_local surfaces i <= num_rows i)%nat) ->
    tie_setting pd kd num_pairs (pairs s) nq -> bs = gdim ->
    generated kd' (vector_kinds law) kernels -> 0 < nth 0 (constants_of s) 0 ->
    (forall i e, (i < num_pairs)%nat -> (e < num_local surfaces i)%nat -> 0 <= stored_friction pd s i e /\ 0 < stored_h pd s i e) ->
    length (bulk u) = length u -> (forall w, length w = length u -> derivable_pt_lim (fun t => energy (moved u w t)) 0 (applied (bulk u) w)) ->
    (forall d, (d < length u)%nat -> nth d (contact_vector pd num_pairs surfaces basis kernels (updated u s) (bulk u)) 0 = 0) <->
    (forall w, length w = length u -> derivable_pt_lim (fun t => energy (moved u w t) + contact_potential pd kd num_pairs (pairs s) law (nth 0 (constants_of s) 0) s (moved u w t)) 0 0).
  Proof.
    intros law g calls u kernels energy bulk s HL Hth HC HR HB TS Hg HK Hw H LB HE.
    set (F := contact_vector pd num_pairs surfaces basis kernels (updated u s) (bulk u)).
    assert (LF : length F = length u) by (rewrite <- LB; apply (contact_vector_length pd kd num_pairs surfaces basis num_rows move detect pack_gap pack_normals pack_param pack_h law g calls u (bulk u) kernels HR TS HK)).
    assert (D : forall w, length w = length u -> derivable_pt_lim (fun t => energy (moved u w t) + contact_potential pd kd num_pairs (pairs s) law (nth 0 (constants_of s) 0) s (moved u w t)) 0 (applied F w)).
    { intros w L. pose proof (C107_residual_is_functional pd kd num_pairs surfaces basis num_rows move detect pack_gap pack_normals pack_param pack_h law g calls u w (bulk u) kernels HC HR HB TS Hg ltac:(congruence) HK Hw H) as E.
      cbv zeta in E. fold s in E. fold F in E. rewrite E, Hth. apply (derivable_pt_lim_plus (fun t => energy (moved u w t)) (fun t => contact_potential pd kd num_pairs (pairs s) law (nth 0 (constants_of s) 0) s (moved u w t))); [now apply HE|].
      apply expands_derivable. now apply potential_expands. }
    split.
    - intros Z w L. replace 0 with (applied F w) at 2; [now apply D|]. unfold applied. rewrite LF. apply rsum_zero. intros d Hd. rewrite Z by exact Hd. ring.
    - intros Z d Hd. rewrite <- LF in Hd. rewrite <- (applied_unit F d Hd). assert (LU : length (unit_vector (length F) d) = length u) by (unfold unit_vector; now rewrite map_length, seq_length).
      exact (uniqueness_limite _ _ _ _ (D _ LU) (Z _ LU)).
  Qed.
End Object.
Print Assumptions C109_residual_is_gradient.
Print Assumptions C109_equilibrium_is_stationary.
