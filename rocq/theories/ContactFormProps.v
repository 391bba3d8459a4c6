(** Property C107: the assembled contact residual is the Nitsche functional of contact and
    friction, evaluated with the values and gradients of the discrete functions. *)
From Coq Require Import List Arith ZArith Lia Bool Reals Lra.
Import ListNotations.
From Verif Require Import Prelude PreludeLemmas RSum RealLemmas LayoutModel LayoutProps ContactProblemModel ContactProblemProps.
From Verif Require Import EntitiesModel PackingModel PackUProps AssemblyModel AssemblyProofs AssemblyProps RayModel KernelModel KernelProofs KernelSpec
  ElasticityProps ContactKernelModel ContactKernelProofs ContactKernelSpec ContactCurveProofs ContactKernelProps FrictionKernelProofs FrictionKernelProps CoefficientsModel CoefficientsProps SystemSpec TieSystemModel TieSystemProofs TieSystemProps
  TieWeakProps ContactWeakProps ContactSystemModel ContactSystemSpec ContactSystemProofs ContactSystemProps SystemWeakProps BasisProps MonotoneProps TieFormProps.
Local Open Scope R_scope.

(** ** Specification *)
Section Vectors.
  Context (dim : nat).
  Definition scalar_product (x y : nat -> R) : R := rsum dim (fun a => x a * y a).
  Definition vector_norm (x : nat -> R) : R := sqrt (scalar_product x x).
  Definition tangent (n x : nat -> R) (a : nat) : R := x a - scalar_product x n * n a.
  (** Projection onto the ball of radius [r]. *)
  Definition onto_ball (r : R) (x : nat -> R) (a : nat) : R := if Rle_dec (vector_norm x) r then x a else r / vector_norm x * x a.

  (** Nitsche functional at a point.  [n], [n_old]: normal of the opposite surface, now and
      at the last step; [g]: mesh size over penalty; [Ju], [Su]: jump and traction of the
      displacement; [Jv], [Sv]: those of the test function. *)
  Definition contact_functional (law : friction_law) (n n_old : nat -> R) (gap friction g theta : R) (Ju Su Jv Sv : nat -> R) : R :=
    let N x := scalar_product x n in
    let T := tangent n in
    let penetration := N Ju - gap in
    let pressure := Rmax (penetration - g * N Su) 0 in
    let slip_part r x := / g * scalar_product (onto_ball r x) (fun a => T Jv a - theta * g * T Sv a) - theta * g * scalar_product (T Su) (T Sv) in
    / g * pressure * (N Jv - theta * g * N Sv) - theta * g * N Su * N Sv +
    match law with
    | Frictionless => 0
    | Tresca => slip_part (g * friction) (fun a => T Ju a - g * T Su a)
    | Coulomb => slip_part (friction * pressure) (fun a => T Ju a + penetration * T n_old a - g * T Su a)
    end.
End Vectors.

(** Data of a facet held by the object: block [k] of its row. *)
Section Stored.
  Context {G : Type} (pd : pack_data) (s : @cp_state G (nat -> list Z)) (i e q : nat).
  Notation gdim := (pd_gdim pd).
  Notation block k x := (ContactProblemProps.entry s i e (column (pd_nq pd) (pd_functions pd) gdim k x)).
  Definition stored_mu : R := block 0%nat 0%nat.
  Definition stored_lambda : R := block 0%nat 1%nat.
  Definition stored_friction : R := block 0%nat 2%nat.
  Definition stored_h : R := block 0%nat 3%nat.
  (** The stored normals point the other way. *)
  Definition stored_normal (a : nat) : R := - block 2%nat (q * gdim + a)%nat.
  Definition stored_old_normal (a : nat) : R := - block 7%nat (q * gdim + a)%nat.
  Definition stored_gap : R := scalar_product gdim (fun a => block 1%nat (q * gdim + a)%nat) stored_normal.
  (** Displacement gradient of the steps before the last detection. *)
  Definition stored_gradient (a b : nat) : R := at2 (nth i (ContactProblemModel.cp_grad s) []) e (q * gdim * gdim + (a * gdim + b)).
End Stored.

Definition contact_form {G : Type} (pd : pack_data) (kd : kernel_data) (num_pairs : nat) (pair : nat -> tie_pair) (law : friction_law) (gamma theta : R) (s : @cp_state G (nat -> list Z)) (u v : list R) : R :=
  over_interface num_pairs pair (fun i e q => interface_weight kd (pair i) e q / 2 *
    let stress_vector grad := traction (pd_gdim pd) (stored_mu pd s i e) (stored_lambda pd s i e) grad (interface_normal kd (pair i) e q) in
    contact_functional (pd_gdim pd) law (stored_normal pd s i e q) (stored_old_normal pd s i e q) (stored_gap pd s i e q) (stored_friction pd s i e) (stored_h pd s i e / gamma) theta
      (interface_jump pd (pair i) e q u) (stress_vector (fun a b => gradient_own pd (pair i) e q u a b + stored_gradient pd s i e q a b))
      (interface_jump pd (pair i) e q v) (stress_vector (gradient_own pd (pair i) e q v))).

(** ** Lemmas *)
Section VectorLemmas.
  Context (dim : nat).
  Lemma product_ext x x' y y' : (forall a, (a < dim)%nat -> x a = x' a) -> (forall a, (a < dim)%nat -> y a = y' a) -> scalar_product dim x y = scalar_product dim x' y'.
  Proof. intros H1 H2. apply rsum_ext. intros a Ha. now rewrite H1, H2. Qed.
  Lemma tangent_ext n n' x x' a : (a < dim)%nat -> (forall a, (a < dim)%nat -> n a = n' a) -> (forall a, (a < dim)%nat -> x a = x' a) -> tangent dim n x a = tangent dim n' x' a.
  Proof. intros Ha H1 H2. unfold tangent. rewrite (product_ext x x' n n') by auto. now rewrite H1, H2. Qed.
  Lemma onto_ball_ext r r' x x' a : (a < dim)%nat -> r = r' -> (forall a, (a < dim)%nat -> x a = x' a) -> onto_ball dim r x a = onto_ball dim r' x' a.
  Proof. intros Ha -> H. unfold onto_ball. assert (E : vector_norm dim x = vector_norm dim x') by (unfold vector_norm; now rewrite (product_ext x x' x x')). rewrite E, H by auto. reflexivity. Qed.
  Lemma functional_ext law n n' o o' gap gap' fr fr' g g' th Ju Ju' Su Su' Jv Jv' Sv Sv' :
    (forall a, (a < dim)%nat -> n a = n' a) -> (forall a, (a < dim)%nat -> o a = o' a) -> gap = gap' -> fr = fr' -> g = g' ->
    (forall a, (a < dim)%nat -> Ju a = Ju' a) -> (forall a, (a < dim)%nat -> Su a = Su' a) -> (forall a, (a < dim)%nat -> Jv a = Jv' a) -> (forall a, (a < dim)%nat -> Sv a = Sv' a) ->
    contact_functional dim law n o gap fr g th Ju Su Jv Sv = contact_functional dim law n' o' gap' fr' g' th Ju' Su' Jv' Sv'.
  Proof.
    intros Hn Ho -> -> -> HJu HSu HJv HSv. unfold contact_functional. cbv zeta.
    rewrite (product_ext Ju Ju' n n'), (product_ext Su Su' n n'), (product_ext Jv Jv' n n'), (product_ext Sv Sv' n n') by auto. f_equal.
    assert (X : forall r x x', (forall a, (a < dim)%nat -> x a = x' a) ->
      / g' * scalar_product dim (onto_ball dim r x) (fun a => tangent dim n Jv a - th * g' * tangent dim n Sv a) - th * g' * scalar_product dim (tangent dim n Su) (tangent dim n Sv) =
      / g' * scalar_product dim (onto_ball dim r x') (fun a => tangent dim n' Jv' a - th * g' * tangent dim n' Sv' a) - th * g' * scalar_product dim (tangent dim n' Su') (tangent dim n' Sv')).
    { intros r x x' Hx. f_equal; f_equal; apply product_ext; intros a Ha; try (apply tangent_ext; auto); try (apply onto_ball_ext; auto).
      now rewrite (tangent_ext n n' Jv Jv'), (tangent_ext n n' Sv Sv') by auto. }
    destruct law; [reflexivity| |]; apply X; intros a Ha; rewrite (tangent_ext n n' Ju Ju'), (tangent_ext n n' Su Su') by auto; [|reflexivity]. now rewrite (tangent_ext n n' o o') by auto.
  Qed.
End VectorLemmas.

(** The law of friction has one solution. *)
Lemma law_is_projection kd r x p a : FrictionKernelProps.friction_law kd r x p -> 0 <= r -> (a < kd_gdim kd)%nat -> p a = onto_ball (kd_gdim kd) r x a.
Proof.
  intros (L0 & L1 & L2) Hr Ha. unfold onto_ball. change (vector_norm (kd_gdim kd) x) with (norm_of kd x). destruct (Rle_dec (norm_of kd x) r) as [H|H].
  - now apply L1.
  - destruct (L2 ltac:(lra)) as [_ E]. specialize (E a Ha). apply (Rmult_eq_reg_r (norm_of kd x)); [|lra]. rewrite E. field. lra.
Qed.

(** A vector tested with a unit vector. *)
Definition unit_vector (n d : nat) : list R := map (fun k => if (k =? d)%nat then 1 else 0) (seq 0 n).
Lemma nth_unit n d k : (k < n)%nat -> nth k (unit_vector n d) 0 = if (k =? d)%nat then 1 else 0.
Proof. intros H. unfold unit_vector. rewrite (nth_map_lt _ _ _ 0 0%nat) by (now rewrite seq_length). now rewrite seq_nth. Qed.
Lemma applied_unit r d : (d < length r)%nat -> applied r (unit_vector (length r) d) = nth d r 0.
Proof.
  intros H. unfold applied. rewrite (rsum_single _ d); [|exact H|].
  - rewrite nth_unit, Nat.eqb_refl by exact H. ring.
  - intros k Hk Hne. rewrite nth_unit by exact Hk. destruct (Nat.eqb_spec k d); [contradiction|ring].
Qed.

(** No pressure and no friction bound: nothing is left for theta = 0. *)
Lemma functional_open dim law n o gap fr g Ju Su Jv Sv : law <> Tresca -> scalar_product dim Ju n - gap - g * scalar_product dim Su n <= 0 -> contact_functional dim law n o gap fr g 0 Ju Su Jv Sv = 0.
Proof.
  intros HT H. unfold contact_functional. cbv zeta. rewrite (Rmax_right _ 0) by exact H.
  assert (Z : forall x a, (a < dim)%nat -> onto_ball dim (fr * 0) x a = 0).
  { intros x a Ha. unfold onto_ball. rewrite Rmult_0_r. destruct (Rle_dec (vector_norm dim x) 0) as [L|L]; [|unfold Rdiv; ring].
    assert (E : scalar_product dim x x = 0). { apply sqrt_eq_0; [apply rsum_nonneg; intros; apply Rle_0_sqr|]. apply Rle_antisym; [exact L|apply sqrt_pos]. }
    pose proof (rsum_nonneg_zero dim _ (fun i _ => Rle_0_sqr (x i)) E a Ha) as X. now apply Rsqr_0_uniq. }
  destruct law; [ring| |congruence].
  rewrite (product_ext dim (onto_ball dim (fr * 0) _) (fun _ => 0) _ (fun a => tangent dim n Jv a - 0 * g * tangent dim n Sv a)) by (auto; intros a Ha; now apply Z).
  assert (Z2 : forall y, scalar_product dim (fun _ => 0) y = 0) by (intros y; apply rsum_zero; intros; ring). rewrite Z2. ring.
Qed.

(** A facet: the kernels of a law, tested. *)
Lemma kernels_functional law kd c w coords f links qs V Vo b kernels :
  generated kd (vector_kinds law) kernels -> kd_bs kd = kd_gdim kd -> (kd_gdim kd <= 3)%nat -> vector_buffers kd links b -> 0 <= ck_friction c -> 0 < nth 0 w 0 -> 0 < nth 3 c 0 ->
  lsum kernels (fun kernel => tested (kd_ndofs kd) (kd_bs kd) links (added_vec kd b (kernel b c w coords f links qs)) V Vo) =
  lsum qs (fun q => surface_weight kd coords f q / 2 *
    contact_functional (kd_gdim kd) law (ck_normal kd c q) (ck_old_normal kd c q) (ck_gap kd c q) (ck_friction c) (ck_gamma c w) (nth 1 w 0)
      (ck_jump kd c q) (ck_traction kd coords f c q) (test_jump kd f c links q V Vo) (test_traction kd coords f c q V)).
Proof.
  intros HK Hbs Hd Hb Hf Hw Hc.
  assert (G : nth 0 w 0 / nth 3 c 0 = / ck_gamma c w) by (unfold ck_gamma; field; lra).
  assert (Hg : 0 < ck_gamma c w) by (apply Rdiv_lt_0_compat; auto).
  unfold generated, vector_kinds in HK. cbn [app] in HK. inversion HK as [|k1 r1 ks rs [j1 E1] HK1]; subst. cbn [lsum].
  rewrite (C99_contact_weak_form kd j1 b c w coords f links qs V Vo r1 E1 Hbs Hb). cbv zeta. rewrite G.
  assert (F : forall type j2 r2, In type [TrescaRhs; CoulombRhs] -> generate_contact_kernel type kd j2 = Some r2 ->
    let slip_part q r x := / ck_gamma c w * scalar_product (kd_gdim kd) (onto_ball (kd_gdim kd) r x)
        (fun a => tangent (kd_gdim kd) (ck_normal kd c q) (test_jump kd f c links q V Vo) a - nth 1 w 0 * ck_gamma c w * tangent (kd_gdim kd) (ck_normal kd c q) (test_traction kd coords f c q V) a)
      - nth 1 w 0 * ck_gamma c w * scalar_product (kd_gdim kd) (tangent (kd_gdim kd) (ck_normal kd c q) (ck_traction kd coords f c q)) (tangent (kd_gdim kd) (ck_normal kd c q) (test_traction kd coords f c q V)) in
    tested (kd_ndofs kd) (kd_bs kd) links (added_vec kd b (r2 b c w coords f links qs)) V Vo =
    lsum qs (fun q => surface_weight kd coords f q / 2 * match type with
      | TrescaRhs => slip_part q (ck_gamma c w * ck_friction c) (tresca_argument kd coords f c w q)
      | _ => slip_part q (ck_friction c * Rmax (contact_indicator kd coords f c w q) 0) (coulomb_argument kd coords f c w q) end)).
  { intros type j2 r2 Ht E2 slip_part.
    destruct (C99_friction_weak_form kd j2 b c w coords f links qs V Vo type r2 Ht E2 Hbs Hd Hb Hf Hw Hc) as (tau & L & X). cbv zeta in X. rewrite X. apply lsum_ext. intros q _. f_equal. specialize (L q).
    destruct Ht as [<- | [<- | []]]; unfold slip_part; (apply f_equal2; [|reflexivity]); (apply f_equal2; [reflexivity|]); apply rsum_ext; intros a Ha; (apply f_equal2; [|reflexivity]); apply law_is_projection; auto.
    - unfold tresca_radius. apply Rmult_le_pos; lra.
    - apply Rmult_le_pos; [exact Hf|apply Rmax_r]. }
  assert (CA : forall q, coulomb_argument kd coords f c w q = (fun a => tangential kd c q (ck_jump kd c q) a - (ck_gap kd c q - along kd (ck_normal kd c q) (ck_jump kd c q)) * tangential kd c q (ck_old_normal kd c q) a - ck_gamma c w * tangential kd c q (ck_traction kd coords f c q) a)) by reflexivity.
  destruct law; cbn [app] in HK1.
  - inversion HK1; subst. cbn [lsum]. rewrite Rplus_0_r. apply lsum_ext. intros q _. unfold contact_functional. cbv zeta. rewrite Rplus_0_r. reflexivity.
  - inversion HK1 as [|k2 r2 ks2 rs2 [j2 E2] HK2]; subst. inversion HK2; subst. cbn [lsum].
    rewrite (F CoulombRhs j2 r2 ltac:(right; now left) E2), Rplus_0_r, <- lsum_plus. apply lsum_ext. intros q _. rewrite <- Rmult_plus_distr_l. f_equal. unfold contact_functional. cbv zeta. f_equal.
    f_equal. f_equal. apply product_ext; [|reflexivity]. intros a Ha. apply onto_ball_ext; [exact Ha|reflexivity|]. intros a' Ha'. rewrite CA. unfold tangential, tangent. change (along kd ?n ?x) with (scalar_product (kd_gdim kd) x n). ring.
  - inversion HK1 as [|k2 r2 ks2 rs2 [j2 E2] HK2]; subst. inversion HK2; subst. cbn [lsum].
    rewrite (F TrescaRhs j2 r2 ltac:(now left) E2), Rplus_0_r, <- lsum_plus. apply lsum_ext. intros q _. rewrite <- Rmult_plus_distr_l. f_equal.
Qed.

Section Object.
  Context {G : Type} (pd : pack_data) (kd : kernel_data) (num_pairs : nat) (surfaces : nat -> tie_pair) (basis : G -> (nat -> list Z) -> nat -> nat -> nat -> R)
    (num_rows : nat -> nat) (move : G -> list R -> G) (detect : G -> nat -> list Z) (pack_gap pack_normals : nat -> G -> (nat -> list Z) -> list (list R))
    (pack_param : nat -> list R -> list (list R)) (pack_h : nat -> list (list R)).
  Notation nq := (pd_nq pd).
  Notation nd := (pd_functions pd).
  Notation bs := (pd_bs pd).
  Notation gdim := (pd_gdim pd).
  Notation after := (contact_after pd num_pairs surfaces basis num_rows move detect pack_gap pack_normals pack_param pack_h).
  Notation updated := (contact_updated pd num_pairs surfaces basis num_rows).
  Notation pairs s := (pair_at pd surfaces basis (cp_geom s) (cp_map s)).
  Notation strides := (contact_kernel_strides nq nd gdim gdim nq).
  Notation kd' := (with_strides kd strides).
  Notation NC := (stride pd).
  Notation row s i e := (slice (concat (nth i (cp_coeffs s) [])) (e * NC) NC).
  Notation cell_of asm e := (nth (2 * e) (a_active asm) 0%nat).
  Notation facet_of asm e := (nth (2 * e + 1) (a_active asm) 0%nat).
  Notation buffers asm := (repeat (repeat 0 (a_bs asm * a_ndofs asm)) (a_max_links asm + 1)).

  (** ** C107 *)
  Theorem C107_residual_is_functional :
    forall (law : friction_law) (g : G) (calls : list (@call (list R) (nat -> list Z))) (u v b : list R) (kernels : list kernel_fn),
    let s := after g calls in
    Forall no_crop calls -> cp_ready s = true -> (forall i, (num_local surfaces i <= num_rows i)%nat) ->
    tie_setting pd kd num_pairs (pairs s) nq -> bs = gdim -> length v = length b ->
    generated kd' (vector_kinds law) kernels -> 0 < nth 0 (constants_of s) 0 ->
    (forall i e, (i < num_pairs)%nat -> (e < num_local surfaces i)%nat -> 0 <= stored_friction pd s i e /\ 0 < stored_h pd s i e) ->
    applied (contact_vector pd num_pairs surfaces basis kernels (updated u s) b) v =
    applied b v + contact_form pd kd num_pairs (pairs s) law (nth 0 (constants_of s) 0) (nth 1 (constants_of s) 0) s u v.
  Proof.
    intros law g calls u v b kernels s HC HR HL TS Hg Hv HK Hw H. assert (T := ts_tables _ _ _ _ _ TS).
    pose proof (applied_contact_vector pd kd num_pairs surfaces basis num_rows move detect pack_gap pack_normals pack_param pack_h law g calls u v b kernels HR TS Hv HK) as E. cbv zeta in E. fold s in E. rewrite E. clear E.
    f_equal. apply rsum_ext. intros i Hi. cbv zeta. apply rsum_ext. intros e He. destruct (H i e Hi He) as [Hf Hh]. pose proof (ts_pairs _ _ _ _ _ TS i Hi) as PS.
    assert (G3 : (kd_gdim kd' <= 3)%nat) by (cbn [with_strides kd_gdim]; rewrite (st_gdim _ _ T); apply (se_gdim3 _ _ _ PS)).
    assert (Hnd : a_ndofs (pr_asm (pairs s i)) = kd_ndofs kd') by (cbn [with_strides kd_ndofs]; rewrite (st_ndofs _ _ T); apply (se_ndofs _ _ _ PS)).
    assert (Hbs : a_bs (pr_asm (pairs s i)) = kd_bs kd') by (cbn [with_strides kd_bs]; rewrite (st_bs _ _ T); apply (se_bs _ _ _ PS)).
    assert (Hgk : kd_bs kd' = kd_gdim kd') by (cbn [with_strides kd_bs kd_gdim]; now rewrite (st_bs _ _ T), (st_gdim _ _ T)).
    assert (Hll : (length (links_of (pr_asm (pairs s i)) e) <= a_max_links (pr_asm (pairs s i)))%nat) by (now apply (pair_well_formed pd kd num_pairs (pairs s) nq TS i Hi)).
    assert (HB : vector_buffers kd' (length (links_of (pr_asm (pairs s i)) e)) (buffers (pr_asm (pairs s i)))) by (apply vector_bufs; auto).
    assert (Gd : kd_gdim kd' = gdim) by (cbn [with_strides kd_gdim]; apply (st_gdim _ _ T)).
    pose proof (column_bound pd num_pairs surfaces basis num_rows move detect pack_gap pack_normals pack_param pack_h g calls Hg i Hi e He) as CB.
    (* stored blocks in the updated row *)
    assert (FR : forall k x, (k < 4)%nat \/ k = 7%nat -> (x < nth k strides 0)%nat -> nth (offsets kd' k + x) (row (updated u s) i e) 0 = ContactProblemProps.entry s i e (column nq nd gdim k x)).
    { intros k x Hk Hx.
      pose proof (row_frame pd kd num_pairs surfaces basis num_rows move detect pack_gap pack_normals pack_param pack_h g calls HR HL Hg i Hi e He u (column nq nd gdim k x)) as RF. fold s in RF.
      apply RF; [|apply CB; [lia|exact Hx]]. unfold column, kernel_block, kernel_offsets. cbn [fst]. unfold offsets. cbn [with_strides kd_cstrides].
      destruct Hk as [Hk | ->]; [left|right; lia].
      pose proof (psums_step strides k ltac:(cbn [length contact_kernel_strides]; lia)). pose proof (psums_mono strides (S k) 4 ltac:(lia) ltac:(cbn [length contact_kernel_strides]; lia)). lia. }
    assert (SC : forall x, (x < 4)%nat -> nth x (row (updated u s) i e) 0 = ContactProblemProps.entry s i e (column nq nd gdim 0 x)) by (intros x Hx; apply (FR 0%nat x); [lia|exact Hx]).
    set (c := row (updated u s) i e) in *. set (asm := pr_asm (pairs s i)) in *.
    rewrite (kernels_functional law kd' c (constants_of s) (coordinates_of asm (cell_of asm e)) (facet_of asm e) (length (links_of asm e)) (points_of asm e) _ _ (buffers asm) kernels HK Hgk G3 HB).
    2:{ unfold ck_friction. rewrite SC by lia. exact Hf. }
    2: exact Hw.
    2:{ rewrite SC by lia. exact Hh. }
    apply lsum_ext. intros q Hq. change (surface_weight kd' (coordinates_of asm (cell_of asm e)) (facet_of asm e) q) with (interface_weight kd (pairs s i) e q). f_equal. cbv zeta.
    destruct (row_links pd kd num_pairs surfaces basis num_rows move detect pack_gap pack_normals pack_param pack_h g calls TS i Hi e He q Hq) as [Hq' Hl]. fold s asm in Hl.
    assert (JJ : forall w a, (a < gdim)%nat -> test_jump kd' (facet_of asm e) c (length (links_of asm e)) q (restrict asm w (cell_of asm e)) (fun k => restrict asm w (nth k (links_of asm e) 0%nat)) a = interface_jump pd (pairs s i) e q w a).
    { intros w a Ha. unfold test_jump, interface_jump, own. f_equal.
      - exact (own_value pd kd num_pairs (pairs s) nq TS i Hi e q strides w a).
      - rewrite <- (tied_value pd kd num_pairs (pairs s) nq TS i Hi e He q Hq w a) by (now rewrite Hg). apply rsum_ext. intros k Hk. cbn [with_strides kd_ndofs]. rewrite (st_ndofs _ _ T).
        apply rsum_ext. intros j Hj. f_equal. fold asm in Hk.
        apply (row_test pd kd num_pairs surfaces basis num_rows move detect pack_gap pack_normals pack_param pack_h g calls HC HR HL TS Hg i Hi e He u q k j a); auto. lia. }
    assert (JG : forall a, (a < gdim)%nat -> ck_jump kd' c q a = interface_jump pd (pairs s i) e q u a).
    { intros a Ha. destruct (C100_jump_of_displacement pd kd num_pairs surfaces basis num_rows move detect pack_gap pack_normals pack_param pack_h g calls u i e q a HC HR HL TS Hg Hi He Hq Ha) as [J _]. fold s asm c in J. rewrite J. now apply JJ. }
    assert (GG : forall a b', (a < gdim)%nat -> (b' < gdim)%nat -> nth (offsets kd' 5 + q * gdim * gdim + (a * gdim + b')) c 0 = gradient_own pd (pairs s i) e q u a b' + stored_gradient pd s i e q a b').
    { intros a b' Ha Hb. destruct (C100_jump_of_displacement pd kd num_pairs surfaces basis num_rows move detect pack_gap pack_normals pack_param pack_h g calls u i e q a HC HR HL TS Hg Hi He Hq Ha) as [_ J]. fold s asm c in J. rewrite (J b' Hb). f_equal.
      unfold own_grad. exact (own_gradient pd kd num_pairs (pairs s) nq TS i Hi e q strides u a b' Hb). }
    assert (QB : forall a, (a < gdim)%nat -> (q * gdim + a < nq * gdim)%nat) by (intros a Ha; nia).
    assert (NN : forall a, (a < gdim)%nat -> ck_normal kd' c q a = stored_normal pd s i e q a).
    { intros a Ha. unfold ck_normal, stored_normal. rewrite Gd. f_equal. rewrite <- Nat.add_assoc. apply FR; [lia|]. cbn [nth contact_kernel_strides]. now apply QB. }
    rewrite Gd. apply functional_ext.
    - exact NN.
    - intros a Ha. unfold ck_old_normal, stored_old_normal. rewrite Gd. f_equal. rewrite <- Nat.add_assoc. apply FR; [lia|]. cbn [nth contact_kernel_strides]. now apply QB.
    - unfold ck_gap, along, stored_gap. rewrite Gd. apply rsum_ext. intros a Ha. rewrite NN by auto. f_equal. rewrite <- Nat.add_assoc. apply FR; [lia|]. cbn [nth contact_kernel_strides]. now apply QB.
    - unfold ck_friction. apply SC. lia.
    - unfold ck_gamma. now rewrite SC by lia.
    - exact JG.
    - intros a Ha. unfold ck_traction, ck_mu, ck_lambda. rewrite !SC by lia. rewrite Gd. apply (traction_ext gdim); [|exact Ha]. intros x y Hx Hy. now apply GG.
    - intros a Ha. now apply JJ.
    - intros a Ha. unfold test_traction, ck_mu, ck_lambda. rewrite !SC by lia. rewrite Gd. apply (traction_ext gdim); [|exact Ha]. intros x y Hx Hy.
      exact (own_gradient pd kd num_pairs (pairs s) nq TS i Hi e q strides v x y Hy).
  Qed.

  (** The residual sees a displacement only through its jump and its gradient on the contact
      surfaces: displacements that agree there, such as those differing by a common
      translation, have the same residual. *)
  Theorem C107_depends_on_jump_and_gradient :
    forall (law : friction_law) (g : G) (calls : list (@call (list R) (nat -> list Z))) (u u' b : list R) (kernels : list kernel_fn),
    let s := after g calls in
    Forall no_crop calls -> cp_ready s = true -> (forall i, (num_local surfaces i <= num_rows i)%nat) ->
    tie_setting pd kd num_pairs (pairs s) nq -> bs = gdim ->
    generated kd' (vector_kinds law) kernels -> 0 < nth 0 (constants_of s) 0 ->
    (forall i e, (i < num_pairs)%nat -> (e < num_local surfaces i)%nat -> 0 <= stored_friction pd s i e /\ 0 < stored_h pd s i e) ->
    (forall i e q, (i < num_pairs)%nat -> (e < num_local surfaces i)%nat -> In q (points_of (pr_asm (pairs s i)) e) -> forall a, (a < gdim)%nat ->
       interface_jump pd (pairs s i) e q u a = interface_jump pd (pairs s i) e q u' a /\ forall b, (b < gdim)%nat -> gradient_own pd (pairs s i) e q u a b = gradient_own pd (pairs s i) e q u' a b) ->
    contact_vector pd num_pairs surfaces basis kernels (updated u s) b = contact_vector pd num_pairs surfaces basis kernels (updated u' s) b.
  Proof.
    intros law g calls u u' b kernels s HC HR HL TS Hg HK Hw H HJ.
    pose proof (contact_vector_length pd kd num_pairs surfaces basis num_rows move detect pack_gap pack_normals pack_param pack_h law g calls) as CL. cbv zeta in CL. fold s in CL.
    pose proof (CL u b kernels HR TS HK) as L. pose proof (CL u' b kernels HR TS HK) as L'. clear CL.
    assert (F : forall v, length v = length b -> applied (contact_vector pd num_pairs surfaces basis kernels (updated u s) b) v = applied (contact_vector pd num_pairs surfaces basis kernels (updated u' s) b) v).
    { intros v Hv. pose proof (fun w => C107_residual_is_functional law g calls w v b kernels HC HR HL TS Hg Hv HK Hw H) as X. cbv zeta in X. fold s in X.
      refine (eq_trans (X u) (eq_trans _ (eq_sym (X u')))). f_equal. apply over_interface_ext. intros i e q Hi He Hq. f_equal. cbv zeta. specialize (HJ i e q Hi He Hq). apply functional_ext; auto.
      - intros a Ha. apply (HJ a Ha).
      - intros a Ha. apply traction_ext; [|exact Ha]. intros x y Hx Hy. f_equal. now apply (HJ x Hx). }
    set (r := contact_vector pd num_pairs surfaces basis kernels (updated u s) b) in *. set (r' := contact_vector pd num_pairs surfaces basis kernels (updated u' s) b) in *.
    apply (nth_ext r r' 0 0); [congruence|]. intros d Hd. specialize (F (unit_vector (length r) d)). rewrite applied_unit in F by exact Hd.
    rewrite F; [|unfold unit_vector; now rewrite map_length, seq_length]. rewrite L, <- L'. apply applied_unit. congruence.
  Qed.

  (** theta = 0: bodies that do not touch, or pull at each other, exert no forces on each other. *)
  Theorem C107_open_contact_is_free :
    forall (law : friction_law) (g : G) (calls : list (@call (list R) (nat -> list Z))) (u b : list R) (kernels : list kernel_fn),
    let s := after g calls in
    let gamma := nth 0 (constants_of s) 0 in
    law <> Tresca -> nth 1 (constants_of s) 0 = 0 ->
    Forall no_crop calls -> cp_ready s = true -> (forall i, (num_local surfaces i <= num_rows i)%nat) ->
    tie_setting pd kd num_pairs (pairs s) nq -> bs = gdim ->
    generated kd' (vector_kinds law) kernels -> 0 < gamma ->
    (forall i e, (i < num_pairs)%nat -> (e < num_local surfaces i)%nat -> 0 <= stored_friction pd s i e /\ 0 < stored_h pd s i e) ->
    (forall i e q, (i < num_pairs)%nat -> (e < num_local surfaces i)%nat -> In q (points_of (pr_asm (pairs s i)) e) ->
       let n := stored_normal pd s i e q in
       let sigma := traction gdim (stored_mu pd s i e) (stored_lambda pd s i e) (fun a b => gradient_own pd (pairs s i) e q u a b + stored_gradient pd s i e q a b) (interface_normal kd (pairs s i) e q) in
       scalar_product gdim (interface_jump pd (pairs s i) e q u) n - stored_gap pd s i e q <= stored_h pd s i e / gamma * scalar_product gdim sigma n) ->
    contact_vector pd num_pairs surfaces basis kernels (updated u s) b = b.
  Proof.
    intros law g calls u b kernels s gamma HT Hth HC HR HL TS Hg HK Hw H HO.
    pose proof (contact_vector_length pd kd num_pairs surfaces basis num_rows move detect pack_gap pack_normals pack_param pack_h law g calls u b kernels HR TS HK) as L. fold s in L.
    assert (F : forall v, length v = length b -> applied (contact_vector pd num_pairs surfaces basis kernels (updated u s) b) v = applied b v).
    { intros v Hv. pose proof (C107_residual_is_functional law g calls u v b kernels HC HR HL TS Hg Hv HK Hw H) as X. cbv zeta in X. fold s in X. refine (eq_trans X _). rewrite <- (Rplus_0_r (applied b v)) at 2. f_equal.
      unfold contact_form, over_interface. apply rsum_zero. intros i Hi. apply rsum_zero. intros e He. apply lsum_zero. intros q Hq. rewrite Hth, functional_open; [ring|exact HT|]. specialize (HO i e q Hi He Hq). cbv zeta in HO. fold gamma. lra. }
    set (r := contact_vector pd num_pairs surfaces basis kernels (updated u s) b) in *.
    apply (nth_ext r b 0 0); [exact L|]. intros d Hd. specialize (F (unit_vector (length r) d)). rewrite applied_unit in F by exact Hd.
    rewrite F; [|unfold unit_vector; now rewrite map_length, seq_length]. rewrite L. apply applied_unit. congruence.
  Qed.
End Object.
Print Assumptions C107_residual_is_functional.
Print Assumptions C107_depends_on_jump_and_gradient.
Print Assumptions C107_open_contact_is_free.
