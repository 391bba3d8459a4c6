(** Property C112: rigid motions and the assembled systems.  Contact forces have no resultant,
    and no moment where the contact needs no lever; a common rigid motion does not change them;
    rigid motions (constant temperatures) are in both kernels of the mesh tie matrices. *)
From Coq Require Import List Arith ZArith Lia Bool Reals Lra.
Import ListNotations.
From Verif Require Import Prelude PreludeLemmas RSum RealLemmas LayoutModel LayoutProps ContactProblemModel ContactProblemProps.
From Verif Require Import MeshTieModel MeshTieProps MeshTieHistoryProps MeshTieKernelModel MeshTieKernelProps PoissonKernelProps.
From Verif Require Import EntitiesModel PackingModel PackUProps AssemblyModel AssemblyProofs AssemblyProps RayModel KernelModel KernelProofs KernelSpec
  ElasticityProps ContactKernelModel ContactKernelProofs ContactKernelSpec ContactCurveProofs ContactKernelProps FrictionKernelProofs FrictionKernelProps CoefficientsModel CoefficientsProps SystemSpec TieSystemModel TieSystemProofs TieSystemProps
  TieWeakProps ContactWeakProps ContactSystemModel ContactSystemSpec ContactSystemProofs ContactSystemProps SystemWeakProps BasisProps MonotoneProps TieFormProps ContactFormProps.
Local Open Scope R_scope.

(** ** Specification *)
(** Small rigid motion [x -> c + W x], with [W] skew. *)
Definition skew (dim : nat) (W : nat -> nat -> R) : Prop := forall a b, (a < dim)%nat -> (b < dim)%nat -> W a b = - W b a.
Definition turn (dim : nat) (W : nat -> nat -> R) (x : nat -> R) (a : nat) : R := rsum dim (fun k => W a k * x k).
Definition motion_at (dim : nat) (c : nat -> R) (W : nat -> nat -> R) (x : nat -> R) (a : nat) : R := c a + turn dim W x a.

Section Traces.
  Context (pd : pack_data) (p : tie_pair) (e q : nat) (node : nat -> nat -> nat -> R).
  Notation gdim := (pd_gdim pd).
  Notation nd := (pd_functions pd).
  Notation own_basis j := (pd_basis pd 0 (pd_q_offsets pd (own_facet p e) + q) j 0).
  Notation tied_basis j := (pr_basis p (e * pd_nq pd + q)%nat j).
  Notation cell := (own_cell p e).
  Notation other := (tied_cell pd p e q).
  (** The finite element contains the affine functions: at the point [x] of the own facet and
      at the point [y] it is paired with, the basis functions add up to one, and weighted with
      the positions [node cell j] of the degrees of freedom to the point; likewise the
      derivatives. *)
  Record affine_at (x y : nat -> R) : Prop := {
    af_own_one : rsum nd (fun j => own_basis j) = 1;
    af_own_point : forall k, (k < gdim)%nat -> rsum nd (fun j => own_basis j * node cell j k) = x k;
    af_tied_one : rsum nd (fun j => tied_basis j) = 1;
    af_tied_point : forall k, (k < gdim)%nat -> rsum nd (fun j => tied_basis j * node other j k) = y k;
    af_grad_one : forall b, (b < gdim)%nat -> rsum nd (fun j => basis_derivative pd cell (own_facet p e) q b j 0) = 0;
    af_grad_point : forall b k, (b < gdim)%nat -> (k < gdim)%nat -> rsum nd (fun j => basis_derivative pd cell (own_facet p e) q b j 0 * node cell j k) = delta k b }.
  Record affine_gradient_tied : Prop := {
    at_grad_one : forall b, (b < gdim)%nat -> rsum nd (fun j => pr_grad p other (e * pd_nq pd + q)%nat j b) = 0;
    at_grad_point : forall b k, (b < gdim)%nat -> (k < gdim)%nat -> rsum nd (fun j => pr_grad p other (e * pd_nq pd + q)%nat j b * node other j k) = delta k b }.
  (** [u'] differs from [u] by the rigid motion in all degrees of freedom of the two cells. *)
  Definition moved_by (c : nat -> R) (W : nat -> nat -> R) (u u' : list R) : Prop :=
    forall m j n, m = cell \/ m = other -> (j < nd)%nat -> (n < pd_bs pd)%nat -> coefficient pd u' m j n = coefficient pd u m j n + motion_at gdim c W (node m j) n.
  (** The values of [v] are those of the rigid motion. *)
  Definition moves_as (c : nat -> R) (W : nat -> nat -> R) (v : list R) : Prop :=
    forall m j n, m = cell \/ m = other -> (j < nd)%nat -> (n < pd_bs pd)%nat -> coefficient pd v m j n = motion_at gdim c W (node m j) n.
End Traces.

(** Force that the opposite surface exerts at a point, in the notation of [contact_functional]. *)
Definition contact_force (dim : nat) (law : friction_law) (n n_old : nat -> R) (gap friction g : R) (Ju Su : nat -> R) (a : nat) : R :=
  let penetration := scalar_product dim Ju n - gap in
  let pressure := Rmax (penetration - g * scalar_product dim Su n) 0 in
  let T := tangent dim n in
  / g * (pressure * n a + match law with
                          | Frictionless => 0
                          | Tresca => T (onto_ball dim (g * friction) (fun a => T Ju a - g * T Su a)) a
                          | Coulomb => T (onto_ball dim (friction * pressure) (fun a => T Ju a + penetration * T n_old a - g * T Su a)) a
                          end).

(** Gap vector held by the object: from the point to the point it is paired with. *)
Definition stored_gap_vector {G : Type} (pd : pack_data) (s : @cp_state G (nat -> list Z)) (i e q a : nat) : R :=
  ContactProblemProps.entry s i e (column (pd_nq pd) (pd_functions pd) (pd_gdim pd) 1 (q * pd_gdim pd + a)).

(** ** Lemmas *)
Lemma skew_product dim W x : skew dim W -> scalar_product dim x (turn dim W x) = 0.
Proof.
  intros HW. set (z := scalar_product dim x (turn dim W x)).
  assert (E : z = - z); [|lra]. unfold z at 1. unfold scalar_product, turn.
  rewrite (rsum_ext dim _ (fun a => rsum dim (fun k => x a * (W a k * x k)))) by (intros a _; now rewrite rsum_scal).
  rewrite rsum_swap. unfold z, scalar_product, turn. rewrite <- rsum_opp. apply rsum_ext. intros k Hk. rewrite <- rsum_scal, <- rsum_opp. apply rsum_ext. intros a Ha. rewrite (HW a k) by auto. ring.
Qed.
Lemma skew_traction dim mu lm W n a : skew dim W -> (a < dim)%nat -> traction dim mu lm W n a = 0.
Proof.
  intros HW Ha. rewrite traction_eq by auto.
  rewrite (rsum_zero dim (fun b => (W a b + W b a) * n b)) by (intros b Hb; rewrite (HW a b) by auto; ring).
  rewrite (rsum_zero dim (fun b => W b b)) by (intros b Hb; specialize (HW b b Hb Hb); lra). ring.
Qed.
Lemma moved_sum nd dim (phi : nat -> R) (u0 : nat -> R) (nodes : nat -> nat -> R) c W x a : rsum nd phi = 1 -> (forall k, (k < dim)%nat -> rsum nd (fun j => phi j * nodes j k) = x k) ->
  rsum nd (fun j => phi j * (u0 j + motion_at dim c W (nodes j) a)) = rsum nd (fun j => phi j * u0 j) + motion_at dim c W x a.
Proof.
  intros H1 H2. unfold motion_at, turn.
  rewrite (rsum_ext nd _ (fun j => phi j * u0 j + (c a * phi j + rsum dim (fun k => W a k * (phi j * nodes j k))))).
  2:{ intros j _. rewrite !Rmult_plus_distr_l, <- rsum_scal. f_equal. rewrite (Rmult_comm (phi j)). f_equal. apply rsum_ext. intros k _. ring. }
  rewrite !rsum_plus, rsum_scal, H1, rsum_swap, Rmult_1_r. do 2 f_equal. apply rsum_ext. intros k Hk. now rewrite rsum_scal, H2.
Qed.
Lemma moved_grad nd dim (dphi : nat -> nat -> R) (u0 : nat -> R) (nodes : nat -> nat -> R) c W a b : (b < dim)%nat -> rsum nd (dphi b) = 0 -> (forall k, (k < dim)%nat -> rsum nd (fun j => dphi b j * nodes j k) = delta k b) ->
  rsum nd (fun j => dphi b j * (u0 j + motion_at dim c W (nodes j) a)) = rsum nd (fun j => dphi b j * u0 j) + W a b.
Proof.
  intros Hb H1 H2. unfold motion_at, turn.
  rewrite (rsum_ext nd _ (fun j => dphi b j * u0 j + (c a * dphi b j + rsum dim (fun k => W a k * (dphi b j * nodes j k))))).
  2:{ intros j _. rewrite !Rmult_plus_distr_l, <- rsum_scal. f_equal. rewrite (Rmult_comm (dphi b j)). f_equal. apply rsum_ext. intros k _. ring. }
  rewrite !rsum_plus, rsum_scal, H1, rsum_swap, Rmult_0_r, Rplus_0_l. f_equal.
  rewrite (rsum_ext dim _ (fun k => W a k * delta k b)) by (intros k Hk; now rewrite rsum_scal, H2).
  rewrite (rsum_ext dim _ (fun k => W a k * delta b k)) by (intros k Hk; unfold delta; now rewrite Nat.eqb_sym). now apply delta_sum_r.
Qed.

Section TraceLemmas.
  Context (pd : pack_data) (p : tie_pair) (e q : nat) (node : nat -> nat -> nat -> R) (c : nat -> R) (W : nat -> nat -> R) (x y : nat -> R).
  Notation gdim := (pd_gdim pd).
  Context (Hg : pd_bs pd = gdim) (A : affine_at pd p e q node x y).
  Lemma turn_sub z z' a : turn gdim W (fun k => z k - z' k) a = turn gdim W z a - turn gdim W z' a.
  Proof using. unfold turn. rewrite (rsum_ext gdim _ (fun k => W a k * z k - W a k * z' k)) by (intros; ring). apply rsum_minus. Qed.
  Lemma moved_jump u u' a : moved_by pd p e q node c W u u' -> (a < gdim)%nat -> interface_jump pd p e q u' a = interface_jump pd p e q u a + turn gdim W (fun k => x k - y k) a.
  Proof using All.
    intros M Ha. unfold interface_jump, value_own, value_tied.
    rewrite (rsum_ext _ (fun j => pd_basis pd 0 _ j 0 * coefficient pd u' _ j a) _ (fun j Hj => f_equal (Rmult _) (M (own_cell p e) j a (or_introl eq_refl) Hj ltac:(lia)))).
    rewrite (rsum_ext _ (fun j => pr_basis p _ j * coefficient pd u' _ j a) _ (fun j Hj => f_equal (Rmult _) (M (tied_cell pd p e q) j a (or_intror eq_refl) Hj ltac:(lia)))).
    rewrite (moved_sum _ gdim _ _ _ c W x a (af_own_one _ _ _ _ _ _ _ A) (af_own_point _ _ _ _ _ _ _ A)), (moved_sum _ gdim _ _ _ c W y a (af_tied_one _ _ _ _ _ _ _ A) (af_tied_point _ _ _ _ _ _ _ A)).
    rewrite turn_sub. unfold motion_at. ring.
  Qed.
  Lemma moved_gradient u u' a b : moved_by pd p e q node c W u u' -> (a < gdim)%nat -> (b < gdim)%nat -> gradient_own pd p e q u' a b = gradient_own pd p e q u a b + W a b.
  Proof using All.
    intros M Ha Hb. unfold gradient_own.
    rewrite (rsum_ext _ _ _ (fun j Hj => f_equal (Rmult _) (M (own_cell p e) j a (or_introl eq_refl) Hj ltac:(lia)))).
    apply (moved_grad _ gdim (fun b j => basis_derivative pd (own_cell p e) (own_facet p e) q b j 0)); [exact Hb|now apply (af_grad_one _ _ _ _ _ _ _ A)|intros k Hk; now apply (af_grad_point _ _ _ _ _ _ _ A)].
  Qed.
  Lemma moved_gradient_tied u u' a b : affine_gradient_tied pd p e q node -> moved_by pd p e q node c W u u' -> (a < gdim)%nat -> (b < gdim)%nat -> gradient_tied pd p e q u' a b = gradient_tied pd p e q u a b + W a b.
  Proof using All.
    intros B M Ha Hb. unfold gradient_tied.
    rewrite (rsum_ext _ _ _ (fun j Hj => f_equal (Rmult _) (M (tied_cell pd p e q) j a (or_intror eq_refl) Hj ltac:(lia)))).
    apply (moved_grad _ gdim (fun b j => pr_grad p (tied_cell pd p e q) (e * pd_nq pd + q)%nat j b)); [exact Hb|now apply (at_grad_one _ _ _ _ _ B)|intros k Hk; now apply (at_grad_point _ _ _ _ _ B)].
  Qed.
End TraceLemmas.
Lemma coefficient_nil pd m j n : coefficient pd [] m j n = 0.
Proof. unfold coefficient, dof_value. now destruct (pd_bs pd * nth j (pd_dofs pd m) 0 + n)%nat. Qed.
Lemma moves_moved pd p e q node c W v : moves_as pd p e q node c W v -> moved_by pd p e q node c W [] v.
Proof. intros M m j n Hm Hj Hn. rewrite coefficient_nil, Rplus_0_l. now apply M. Qed.
Lemma jump_nil pd p e q a : interface_jump pd p e q [] a = 0.
Proof. unfold interface_jump, value_own, value_tied. rewrite !rsum_zero; [ring| |]; intros j _; rewrite coefficient_nil; ring. Qed.
Lemma gradient_nil pd p e q a b : gradient_own pd p e q [] a b = 0 /\ gradient_tied pd p e q [] a b = 0.
Proof. unfold gradient_own, gradient_tied. rewrite !rsum_zero; [tauto| |]; intros j _; rewrite coefficient_nil; ring. Qed.

(** Functional for a test function without traction. *)
Lemma force_functional dim law n o gap fr g th Ju Su Jv Sv : (forall a, (a < dim)%nat -> Sv a = 0) ->
  contact_functional dim law n o gap fr g th Ju Su Jv Sv = scalar_product dim (contact_force dim law n o gap fr g Ju Su) Jv.
Proof.
  intros HS. rewrite (functional_ext dim law n n o o gap gap fr fr g g th Ju Ju Su Su Jv Jv Sv (fun _ => 0)) by auto.
  assert (Z : forall x, scalar_product dim (fun _ => 0) x = 0) by (intros x; apply rsum_zero; intros; ring).
  assert (Z' : forall x, scalar_product dim x (tangent dim n (fun _ => 0)) = 0) by (intros x; apply rsum_zero; intros; unfold tangent; rewrite Z; ring).
  assert (S1 : forall x, scalar_product dim x (fun a => tangent dim n Jv a - th * g * tangent dim n (fun _ => 0) a) = scalar_product dim (tangent dim n x) Jv).
  { intros x. unfold scalar_product at 1. rewrite (rsum_ext dim _ (fun a => x a * Jv a - scalar_product dim Jv n * (x a * n a))) by (intros; unfold tangent; rewrite Z; ring).
    rewrite rsum_minus, rsum_scal. unfold scalar_product at 2. unfold tangent.
    rewrite (rsum_ext dim (fun a => (x a - scalar_product dim x n * n a) * Jv a) (fun a => x a * Jv a - scalar_product dim x n * (Jv a * n a))) by (intros; ring).
    rewrite rsum_minus, rsum_scal. unfold scalar_product. ring. }
  assert (S2 : forall k p f, / k * p * scalar_product dim Jv n + / k * scalar_product dim f Jv = scalar_product dim (fun a => / k * (p * n a + f a)) Jv).
  { intros k p f. unfold scalar_product. rewrite (rsum_ext dim (fun a => / k * (p * n a + f a) * Jv a) (fun a => / k * p * (Jv a * n a) + / k * (f a * Jv a))) by (intros; ring).
    now rewrite rsum_plus, !rsum_scal. }
  unfold contact_functional. cbv zeta. rewrite !Z. destruct law; rewrite ?S1, ?Z'; unfold contact_force; cbv zeta.
  - rewrite <- S2, Z. ring.
  - rewrite <- S2. ring.
  - rewrite <- S2. ring.
Qed.
Lemma over_interface_zero n pair g : (forall i e q, (i < n)%nat -> (e < a_local (pr_asm (pair i)))%nat -> In q (points_of (pr_asm (pair i)) e) -> g i e q = 0) -> over_interface n pair g = 0.
Proof.
  intros H. apply rsum_zero. intros i Hi. apply rsum_zero. intros e He. rewrite (lsum_ext _ _ (fun _ => 0 * 0)) by (intros q Hq; rewrite H by auto; ring). rewrite lsum_scal. ring.
Qed.
Lemma tested_zero (f : nat -> R) : (forall v : list R, rsum (length v) (fun d => f d * nth d v 0) = 0) -> forall d, f d = 0.
Proof.
  intros H d. specialize (H (unit_vector (S d) d)). unfold unit_vector in H at 1. rewrite map_length, seq_length in H.
  pose proof (applied_unit (map f (seq 0 (S d))) d) as U. unfold applied in U. rewrite map_length, seq_length in U. specialize (U ltac:(lia)).
  rewrite (nth_map_lt f (seq 0 (S d)) d 0 0%nat) in U by (rewrite seq_length; lia). rewrite seq_nth in U by lia. cbn [Nat.add] in U. rewrite <- U. refine (eq_trans _ H). apply rsum_ext. intros k Hk.
  rewrite (nth_map_lt f (seq 0 (S d)) k 0 0%nat) by now rewrite seq_length. now rewrite seq_nth.
Qed.

Section Object.
  Context {G : Type} (pd : pack_data) (kd : kernel_data) (num_pairs : nat) (surfaces : nat -> tie_pair) (basis : G -> (nat -> list Z) -> nat -> nat -> nat -> R)
    (num_rows : nat -> nat) (move : G -> list R -> G) (detect : G -> nat -> list Z) (pack_gap pack_normals : nat -> G -> (nat -> list Z) -> list (list R))
    (pack_param : nat -> list R -> list (list R)) (pack_h : nat -> list (list R)).
  Notation nq := (pd_nq pd).
  Notation nd := (pd_functions pd).
  Notation bs := (pd_bs pd).
  Notation gdim := (pd_gdim pd).
  Notation after := (contact_after pd num_pairs surfaces basis num_rows move detect pack_gap pack_normals pack_param pack_h).
  Notation updated := (contact_updated pd num_pairs surfaces basis num_rows).
  Notation pairs s := (pair_at pd surfaces basis (cp_geom s) (cp_map s)).
  Notation strides := (contact_kernel_strides nq nd gdim gdim nq).
  Notation kd' := (with_strides kd strides).
  (** Force at a point of the contact surfaces for the displacement [u]. *)
  Notation force law s u i e q := (contact_force gdim law (stored_normal pd s i e q) (stored_old_normal pd s i e q) (stored_gap pd s i e q) (stored_friction pd s i e) (stored_h pd s i e / nth 0 (constants_of s) 0)
    (interface_jump pd (pairs s i) e q u)
    (traction gdim (stored_mu pd s i e) (stored_lambda pd s i e) (fun a b => gradient_own pd (pairs s i) e q u a b + stored_gradient pd s i e q a b) (interface_normal kd (pairs s i) e q))).
  Notation at_points s P := (forall i e q, (i < num_pairs)%nat -> (e < num_local surfaces i)%nat -> In q (points_of (pr_asm (pairs s i)) e) -> P i e q).

  (** ** C112: contact *)
  (** Work of the contact forces on a rigid motion [v] of everything: only the lever arms
      between the points [x] and the points [y] they are paired with contribute. *)
  Theorem C112_work_of_rigid_motion :
    forall (law : friction_law) (g : G) (calls : list (@call (list R) (nat -> list Z))) (u v b : list R) (kernels : list kernel_fn)
      (node : nat -> nat -> nat -> R) (c : nat -> R) (W : nat -> nat -> R) (x y : nat -> nat -> nat -> nat -> R),
    let s := after g calls in
    Forall no_crop calls -> cp_ready s = true -> (forall i, (num_local surfaces i <= num_rows i)%nat) ->
    tie_setting pd kd num_pairs (pairs s) nq -> bs = gdim -> length v = length b ->
    generated kd' (vector_kinds law) kernels -> 0 < nth 0 (constants_of s) 0 ->
    (forall i e, (i < num_pairs)%nat -> (e < num_local surfaces i)%nat -> 0 <= stored_friction pd s i e /\ 0 < stored_h pd s i e) ->
    skew gdim W -> at_points s (fun i e q => affine_at pd (pairs s i) e q node (x i e q) (y i e q)) -> at_points s (fun i e q => moves_as pd (pairs s i) e q node c W v) ->
    applied (contact_vector pd num_pairs surfaces basis kernels (updated u s) b) v =
    applied b v + over_interface num_pairs (pairs s) (fun i e q => interface_weight kd (pairs s i) e q / 2 *
      scalar_product gdim (force law s u i e q) (turn gdim W (fun k => x i e q k - y i e q k))).
  Proof.
    intros law g calls u v b kernels node c W x y s HC HR HL TS Hg Hv HK Hw H HW HA HM.
    pose proof (C107_residual_is_functional pd kd num_pairs surfaces basis num_rows move detect pack_gap pack_normals pack_param pack_h law g calls u v b kernels HC HR HL TS Hg Hv HK Hw H) as X. cbv zeta in X. fold s in X. rewrite X. clear X.
    f_equal. apply over_interface_ext. intros i e q Hi He Hq. f_equal. cbv zeta.
    pose proof (moves_moved _ _ _ _ _ _ _ _ (HM i e q Hi He Hq)) as M. pose proof (HA i e q Hi He Hq) as A. rewrite force_functional.
    - apply product_ext; [reflexivity|]. intros a Ha. rewrite (moved_jump pd _ e q node c W (x i e q) (y i e q) Hg A [] v a M Ha), jump_nil. ring.
    - intros a Ha. rewrite (traction_ext gdim _ _ _ W); [now apply skew_traction| |exact Ha]. intros a' b' Ha' Hb'.
      rewrite (moved_gradient pd _ e q node c W (x i e q) (y i e q) Hg A [] v a' b' M Ha' Hb'). rewrite (proj1 (gradient_nil _ _ _ _ _ _)). ring.
  Qed.

  (** Balance of forces and moments: no net work on any rigid motion if contact is without
      friction and every gap vector is along the normal it is measured with, or, for every law,
      if the gap vectors are zero.  The gap vector leads from a point to its partner. *)
  Theorem C112_balance :
    forall (law : friction_law) (g : G) (calls : list (@call (list R) (nat -> list Z))) (u v b : list R) (kernels : list kernel_fn)
      (node : nat -> nat -> nat -> R) (c : nat -> R) (W : nat -> nat -> R) (x : nat -> nat -> nat -> nat -> R),
    let s := after g calls in
    Forall no_crop calls -> cp_ready s = true -> (forall i, (num_local surfaces i <= num_rows i)%nat) ->
    tie_setting pd kd num_pairs (pairs s) nq -> bs = gdim -> length v = length b ->
    generated kd' (vector_kinds law) kernels -> 0 < nth 0 (constants_of s) 0 ->
    (forall i e, (i < num_pairs)%nat -> (e < num_local surfaces i)%nat -> 0 <= stored_friction pd s i e /\ 0 < stored_h pd s i e) ->
    skew gdim W -> at_points s (fun i e q => affine_at pd (pairs s i) e q node (x i e q) (fun k => x i e q k + stored_gap_vector pd s i e q k)) -> at_points s (fun i e q => moves_as pd (pairs s i) e q node c W v) ->
    at_points s (fun i e q => exists d, (law = Frictionless \/ d = 0) /\ forall k, (k < gdim)%nat -> stored_gap_vector pd s i e q k = d * stored_normal pd s i e q k) ->
    applied (contact_vector pd num_pairs surfaces basis kernels (updated u s) b) v = applied b v.
  Proof.
    intros law g calls u v b kernels node c W x s HC HR HL TS Hg Hv HK Hw H HW HA HM HD.
    pose proof (C112_work_of_rigid_motion law g calls u v b kernels node c W x (fun i e q k => x i e q k + stored_gap_vector pd s i e q k) HC HR HL TS Hg Hv HK Hw H HW HA HM) as X. cbv zeta in X. fold s in X. rewrite X.
    rewrite over_interface_zero; [ring|]. intros i e q Hi He Hq. destruct (HD i e q Hi He Hq) as (d & Hl & Hd). set (n := stored_normal pd s i e q) in *.
    rewrite (product_ext gdim _ (force law s u i e q) _ (fun a => - d * turn gdim W n a)); [|reflexivity|].
    2:{ intros a Ha. unfold turn. rewrite <- rsum_scal. apply rsum_ext. intros k Hk. rewrite Hd by auto. ring. }
    destruct Hl as [-> | ->]; [|unfold scalar_product; rewrite (rsum_zero gdim) by (intros; ring); ring].
    rewrite (product_ext gdim _ (fun a => / (stored_h pd s i e / nth 0 (constants_of s) 0) * Rmax (scalar_product gdim (interface_jump pd (pairs s i) e q u) n - stored_gap pd s i e q -
       stored_h pd s i e / nth 0 (constants_of s) 0 * scalar_product gdim (traction gdim (stored_mu pd s i e) (stored_lambda pd s i e) (fun a b => gradient_own pd (pairs s i) e q u a b + stored_gradient pd s i e q a b) (interface_normal kd (pairs s i) e q)) n) 0 * n a)
       _ (fun a => - d * turn gdim W n a)) by (intros; first [reflexivity | unfold contact_force; cbv zeta; fold n; ring]).
    set (P := / _ * _). unfold scalar_product. rewrite (rsum_ext gdim _ (fun a => P * (- d) * (n a * turn gdim W n a))) by (intros; ring). rewrite rsum_scal.
    change (rsum gdim (fun a => n a * turn gdim W n a)) with (scalar_product gdim n (turn gdim W n)). rewrite skew_product by exact HW. ring.
  Qed.

  (** A common small rigid motion of the bodies leaves the residual as it is, under the same conditions. *)
  Theorem C112_unchanged_by_rigid_motion :
    forall (law : friction_law) (g : G) (calls : list (@call (list R) (nat -> list Z))) (u u' b : list R) (kernels : list kernel_fn)
      (node : nat -> nat -> nat -> R) (c : nat -> R) (W : nat -> nat -> R) (x : nat -> nat -> nat -> nat -> R),
    let s := after g calls in
    Forall no_crop calls -> cp_ready s = true -> (forall i, (num_local surfaces i <= num_rows i)%nat) ->
    tie_setting pd kd num_pairs (pairs s) nq -> bs = gdim ->
    generated kd' (vector_kinds law) kernels -> 0 < nth 0 (constants_of s) 0 ->
    (forall i e, (i < num_pairs)%nat -> (e < num_local surfaces i)%nat -> 0 <= stored_friction pd s i e /\ 0 < stored_h pd s i e) ->
    skew gdim W -> at_points s (fun i e q => affine_at pd (pairs s i) e q node (x i e q) (fun k => x i e q k + stored_gap_vector pd s i e q k)) -> at_points s (fun i e q => moved_by pd (pairs s i) e q node c W u u') ->
    at_points s (fun i e q => exists d, (law = Frictionless \/ d = 0) /\ forall k, (k < gdim)%nat -> stored_gap_vector pd s i e q k = d * stored_normal pd s i e q k) ->
    contact_vector pd num_pairs surfaces basis kernels (updated u' s) b = contact_vector pd num_pairs surfaces basis kernels (updated u s) b.
  Proof.
    intros law g calls u u' b kernels node c W x s HC HR HL TS Hg HK Hw H HW HA HM HD.
    pose proof (contact_vector_length pd kd num_pairs surfaces basis num_rows move detect pack_gap pack_normals pack_param pack_h law g calls) as CL. cbv zeta in CL. fold s in CL.
    pose proof (CL u b kernels HR TS HK) as L. pose proof (CL u' b kernels HR TS HK) as L'. clear CL.
    assert (F : forall v, length v = length b -> applied (contact_vector pd num_pairs surfaces basis kernels (updated u' s) b) v = applied (contact_vector pd num_pairs surfaces basis kernels (updated u s) b) v).
    { intros v Hv. pose proof (fun w => C107_residual_is_functional pd kd num_pairs surfaces basis num_rows move detect pack_gap pack_normals pack_param pack_h law g calls w v b kernels HC HR HL TS Hg Hv HK Hw H) as X. cbv zeta in X. fold s in X.
      refine (eq_trans (X u') (eq_trans _ (eq_sym (X u)))). f_equal. apply over_interface_ext. intros i e q Hi He Hq. f_equal. cbv zeta.
      pose proof (HM i e q Hi He Hq) as M. pose proof (HA i e q Hi He Hq) as A. destruct (HD i e q Hi He Hq) as (d & Hl & Hd). set (n := stored_normal pd s i e q) in *.
      assert (EJ : forall a, (a < gdim)%nat -> interface_jump pd (pairs s i) e q u' a = interface_jump pd (pairs s i) e q u a - d * turn gdim W n a).
      { intros a Ha. rewrite (moved_jump pd _ e q node c W _ _ Hg A u u' a M Ha). unfold Rminus at 2. rewrite Ropp_mult_distr_l. unfold turn. rewrite <- rsum_scal. f_equal. apply rsum_ext. intros k Hk. rewrite Hd by auto. ring. }
      assert (ES : forall a, (a < gdim)%nat -> traction gdim (stored_mu pd s i e) (stored_lambda pd s i e) (fun a b => gradient_own pd (pairs s i) e q u' a b + stored_gradient pd s i e q a b) (interface_normal kd (pairs s i) e q) a =
        traction gdim (stored_mu pd s i e) (stored_lambda pd s i e) (fun a b => gradient_own pd (pairs s i) e q u a b + stored_gradient pd s i e q a b) (interface_normal kd (pairs s i) e q) a).
      { intros a Ha. rewrite (traction_ext gdim _ _ _ (fun a b => (gradient_own pd (pairs s i) e q u a b + stored_gradient pd s i e q a b) + W a b)); [|intros a' b' Ha' Hb'; rewrite (moved_gradient pd _ e q node c W _ _ Hg A u u' a' b' M Ha' Hb'); ring|exact Ha].
        rewrite traction_plus by exact Ha. rewrite (skew_traction gdim _ _ W) by assumption. ring. }
      destruct Hl as [-> | ->].
      - unfold contact_functional. cbv zeta. f_equal.
        rewrite (product_ext gdim (interface_jump pd (pairs s i) e q u') (fun a => interface_jump pd (pairs s i) e q u a - d * turn gdim W n a) n n) by auto.
        rewrite (product_ext gdim _ _ n n ES) by reflexivity.
        assert (Z : scalar_product gdim (fun a => interface_jump pd (pairs s i) e q u a - d * turn gdim W n a) n = scalar_product gdim (interface_jump pd (pairs s i) e q u) n); [|now rewrite Z].
        pose proof (skew_product gdim W n HW) as Z. unfold scalar_product in *. rewrite (rsum_ext gdim _ (fun a => interface_jump pd (pairs s i) e q u a * n a - d * (n a * turn gdim W n a))) by (intros; ring). rewrite rsum_minus, rsum_scal, Z. ring.
      - apply functional_ext; auto. intros a Ha. rewrite EJ by exact Ha. ring. }
    set (r := contact_vector pd num_pairs surfaces basis kernels (updated u s) b) in *. set (r' := contact_vector pd num_pairs surfaces basis kernels (updated u' s) b) in *.
    apply (nth_ext r' r 0 0); [congruence|]. intros d Hd. specialize (F (unit_vector (length r') d)). rewrite applied_unit in F by exact Hd.
    rewrite F; [|unfold unit_vector; now rewrite map_length, seq_length]. rewrite L', <- L. apply applied_unit. congruence.
  Qed.
End Object.

Section Tie.
  Context (pd : bool -> pack_data) (num_pairs : nat) (pair : bool -> nat -> tie_pair) (num_facets : nat -> nat) (nq nd gdim ml : nat)
    (pack_h : nat -> list R) (pack_coeff0 : nat -> field -> list R * nat).
  Notation after := (tie_after pd num_pairs pair num_facets nq nd gdim ml pack_h pack_coeff0).
  Notation asm vec := (fun i : nat => pr_asm (pair vec i)).
  Notation setting := (object_setting pd num_pairs pair num_facets nq nd gdim ml pack_coeff0).
  Notation at_points pairs P := (forall i e q, (i < num_pairs)%nat -> (e < a_local (pr_asm (pairs i)))%nat -> In q (points_of (pr_asm (pairs i)) e) -> P i e q).

  (** ** C112: mesh tie *)
  (** A rigid motion of both bodies that does not separate the tied points — every translation,
      and every rotation if the tied points coincide — needs no force and feels none. *)
  Theorem C112_tie_rigid_kernel :
    forall (kd : kernel_data) (rhs thermo jac jac_p : list nat -> kernel_fn) (calls : list tie_call) (p : elastic_input)
      (node : nat -> nat -> nat -> R) (c : nat -> R) (W : nat -> nat -> R) (x y : nat -> nat -> nat -> nat -> R) (r : list R),
      setting true kd -> elastic_kernels kd rhs thermo jac -> Forall fields_given calls -> Forall (fun k => call_type k <> ThermoElasticity) calls -> fold_left elastic_step calls None = Some p ->
      skew gdim W -> at_points (pair true) (fun i e q => affine_at (pd true) (pair true i) e q node (x i e q) (y i e q) /\ affine_gradient_tied (pd true) (pair true i) e q node) ->
      at_points (pair true) (fun i e q => moves_as (pd true) (pair true i) e q node c W r) ->
      at_points (pair true) (fun i e q => forall a, (a < gdim)%nat -> turn gdim W (x i e q) a = turn gdim W (y i e q) a) ->
      exists M, tie_matrix (asm true) num_pairs jac jac_p Elasticity (after calls) = Some M /\
        (forall d, matrix_times gdim M r d = 0) /\
        (forall w, rsum (length r) (fun d => matrix_times gdim M w d * nth d r 0) = 0).
  Proof.
    intros kd rhs thermo jac jac_p calls p node c W x y r OS HK Hf Ht Ep HW HA HM HD.
    destruct (C105_elastic_matrix_is_form pd num_pairs pair num_facets nq nd gdim ml pack_h pack_coeff0 kd rhs thermo jac jac_p calls p OS HK Hf Ht Ep) as (M & EM & X).
    destruct (shapes pd num_pairs pair num_facets nq nd gdim ml pack_coeff0 kd OS) as (H1 & H2 & H3 & H4).
    assert (Z : at_points (pair true) (fun i e q => (forall a, (a < gdim)%nat -> interface_jump (pd true) (pair true i) e q r a = 0) /\ forall mu lm a, (a < gdim)%nat -> mean_traction (pd true) kd (pair true i) e q mu lm r a = 0)).
    { intros i e q Hi He Hq. destruct (HA i e q Hi He Hq) as [A B]. pose proof (moves_moved _ _ _ _ _ _ _ _ (HM i e q Hi He Hq)) as MM.
      assert (Hg : pd_bs (pd true) = pd_gdim (pd true)) by congruence. split.
      - intros a Ha. rewrite (moved_jump _ _ e q node c W _ _ Hg A [] r a MM) by congruence. rewrite jump_nil, turn_sub. replace (pd_gdim (pd true)) with gdim by congruence. rewrite HD by auto. ring.
      - intros mu lm a Ha. unfold mean_traction. replace (pd_gdim (pd true)) with gdim by congruence.
        rewrite (traction_ext gdim mu lm (gradient_own (pd true) (pair true i) e q r) W), (traction_ext gdim mu lm (gradient_tied (pd true) (pair true i) e q r) W), (skew_traction gdim mu lm W) by
          (try assumption; intros a' b' Ha' Hb'; first [rewrite (moved_gradient _ _ e q node c W _ _ Hg A [] r a' b' MM) by congruence | rewrite (moved_gradient_tied _ _ e q node c W _ _ Hg A [] r a' b' B MM) by congruence];
           rewrite ?(proj1 (gradient_nil _ _ _ _ _ _)), ?(proj2 (gradient_nil _ _ _ _ _ _)); ring).
        field. }
    exists M. split; [exact EM|]. split.
    - apply tested_zero. intros v. rewrite X.
      apply over_interface_zero. intros i e q Hi He Hq. destruct (Z i e q Hi He Hq) as [Z1 Z2]. rewrite (rsum_zero (pd_gdim (pd true))); [ring|]. intros a Ha. cbv beta zeta. rewrite Z1, Z2 by congruence. ring.
    - intros w. rewrite X. apply over_interface_zero. intros i e q Hi He Hq. destruct (Z i e q Hi He Hq) as [Z1 Z2]. rewrite (rsum_zero (pd_gdim (pd true))); [ring|]. intros a Ha. cbv beta zeta. rewrite Z1, Z2 by congruence. ring.
  Qed.

  (** Nor does a constant temperature of both bodies: no flux, and no work. *)
  Theorem C112_tie_constant_kernel :
    forall (kd : kernel_data) (rhs_p jac jac_p : list nat -> kernel_fn) (calls : list tie_call) (p : poisson_input) (T0 : R) (r : list R),
      setting false kd -> poisson_kernels kd rhs_p jac_p -> Forall fields_given calls -> fold_left poisson_step calls None = Some p ->
      at_points (pair false) (fun i e q =>
        rsum nd (fun j => pd_basis (pd false) 0 (pd_q_offsets (pd false) (own_facet (pair false i) e) + q) j 0) = 1 /\ rsum nd (fun j => pr_basis (pair false i) (e * nq + q)%nat j) = 1 /\
        forall b, (b < gdim)%nat -> rsum nd (fun j => basis_derivative (pd false) (own_cell (pair false i) e) (own_facet (pair false i) e) q b j 0) = 0 /\
          rsum nd (fun j => pr_grad (pair false i) (tied_cell (pd false) (pair false i) e q) (e * nq + q)%nat j b) = 0) ->
      at_points (pair false) (fun i e q => forall m j, m = own_cell (pair false i) e \/ m = tied_cell (pd false) (pair false i) e q -> (j < nd)%nat -> coefficient (pd false) r m j 0 = T0) ->
      exists M, tie_matrix (asm false) num_pairs jac jac_p Poisson (after calls) = Some M /\
        (forall d, matrix_times 1 M r d = 0) /\
        (forall w, rsum (length r) (fun d => matrix_times 1 M w d * nth d r 0) = 0).
  Proof.
    intros kd rhs_p jac jac_p calls p T0 r OS HK Hf Ep HA HM.
    destruct (C105_poisson_matrix_is_form pd num_pairs pair num_facets nq nd gdim ml pack_h pack_coeff0 kd rhs_p jac jac_p calls p OS HK Hf Ep) as (M & EM & X).
    destruct (shapes1 pd num_pairs pair num_facets nq nd gdim ml pack_coeff0 kd OS) as (H1 & H2 & H3 & H4).
    assert (Z : at_points (pair false) (fun i e q => interface_jump (pd false) (pair false i) e q r 0 = 0 /\ mean_flux (pd false) kd (pair false i) e q r = 0)).
    { intros i e q Hi He Hq. destruct (HA i e q Hi He Hq) as (A1 & A2 & A3). pose proof (HM i e q Hi He Hq) as MM.
      assert (SC : forall m (f : nat -> R), m = own_cell (pair false i) e \/ m = tied_cell (pd false) (pair false i) e q -> rsum (pd_functions (pd false)) (fun j => f j * coefficient (pd false) r m j 0) = T0 * rsum nd f).
      { intros m f Hm. rewrite <- rsum_scal. replace (pd_functions (pd false)) with nd by congruence. apply rsum_ext. intros j Hj. rewrite MM by auto. ring. }
      split.
      - unfold interface_jump, value_own, value_tied. rewrite (SC _ (fun j => pd_basis (pd false) 0 (pd_q_offsets (pd false) (own_facet (pair false i) e) + q) j 0)) by auto.
        rewrite (SC _ (fun j => pr_basis (pair false i) (e * pd_nq (pd false) + q)%nat j)) by auto. replace (pd_nq (pd false)) with nq by congruence. rewrite A1, A2. ring.
      - unfold mean_flux. apply rsum_zero. intros b Hb. assert (Hb' : (b < gdim)%nat) by congruence. destruct (A3 b Hb') as [B1 B2]. unfold gradient_own, gradient_tied.
        rewrite (SC _ (fun j => basis_derivative (pd false) (own_cell (pair false i) e) (own_facet (pair false i) e) q b j 0)) by auto.
        rewrite (SC _ (fun j => pr_grad (pair false i) (tied_cell (pd false) (pair false i) e q) (e * pd_nq (pd false) + q)%nat j b)) by auto. replace (pd_nq (pd false)) with nq by congruence. rewrite B1, B2. field. }
    exists M. split; [exact EM|]. split.
    - apply tested_zero. intros v. rewrite X. apply over_interface_zero. intros i e q Hi He Hq. destruct (Z i e q Hi He Hq) as [Z1 Z2]. cbv beta zeta. rewrite Z1, Z2. ring.
    - intros w. rewrite X. apply over_interface_zero. intros i e q Hi He Hq. destruct (Z i e q Hi He Hq) as [Z1 Z2]. cbv beta zeta. rewrite Z1, Z2. ring.
  Qed.
End Tie.
Print Assumptions C112_work_of_rigid_motion.
Print Assumptions C112_balance.
Print Assumptions C112_unchanged_by_rigid_motion.
Print Assumptions C112_tie_rigid_kernel.
Print Assumptions C112_tie_constant_kernel.
