(** Property C114, preparations: turning vectors, gradients, meshes and fields by an
    orthogonal matrix. *)
From Coq Require Import List Arith ZArith Lia Bool Reals Lra.
Import ListNotations.
From Verif Require Import Prelude PreludeLemmas RSum RealLemmas LayoutModel LayoutProps ContactProblemModel ContactProblemProps.
From Verif Require Import EntitiesModel PackingModel PackUProps AssemblyModel AssemblyProofs AssemblyProps RayModel KernelModel KernelProofs KernelSpec
  ElasticityProps ContactKernelModel ContactKernelProofs ContactKernelSpec ContactCurveProofs ContactKernelProps FrictionKernelProofs FrictionKernelProps CoefficientsModel CoefficientsProps SystemSpec TieSystemModel TieSystemProofs TieSystemProps
  TieWeakProps ContactWeakProps ContactSystemModel ContactSystemSpec ContactSystemProofs ContactSystemProps SystemWeakProps BasisProps MonotoneProps TieFormProps ContactFormProps RigidBalanceProps.
Local Open Scope R_scope.

(** ** Specification *)
(** Rows and columns of [O] are orthonormal: rotations and reflections. *)
Definition orthogonal (dim : nat) (O : nat -> nat -> R) : Prop := forall a b, (a < dim)%nat -> (b < dim)%nat ->
  rsum dim (fun k => O k a * O k b) = delta a b /\ rsum dim (fun k => O a k * O b k) = delta a b.
Definition turn_matrix (dim : nat) (O G : nat -> nat -> R) (a b : nat) : R := rsum dim (fun c => rsum dim (fun d => O a c * (O b d * G c d))).
(** A vector of degrees of freedom, [dim] per node, each node's vector turned. *)
Definition turned_field (dim : nat) (O : nat -> nat -> R) (u : list R) : list R :=
  map (fun d => rsum dim (fun k => O (d mod dim)%nat k * nth (d / dim * dim + k) u 0)) (seq 0 ((length u + dim - 1) / dim * dim)).
(** Geometry nodes, three numbers each, turned and shifted. *)
Definition turned_points (dim : nat) (O : nat -> nat -> R) (t : nat -> R) (x : list R) : list R :=
  map (fun d => if (d mod 3 <? dim)%nat then rsum dim (fun k => O (d mod 3)%nat k * nth (d / 3 * 3 + k) x 0) + t (d mod 3)%nat else nth d x 0) (seq 0 (length x)).
(** The same space on the turned mesh. *)
Definition turned_space (O : nat -> nat -> R) (t : nat -> R) (pd : pack_data) : pack_data :=
  {| pd_gdim := pd_gdim pd; pd_tdim := pd_tdim pd; pd_bs := pd_bs pd; pd_vs := pd_vs pd; pd_dofmap_bs := pd_dofmap_bs pd; pd_nq := pd_nq pd; pd_q_offsets := pd_q_offsets pd; pd_basis := pd_basis pd;
     pd_functions := pd_functions pd; pd_dofs := pd_dofs pd; pd_affine := pd_affine pd; pd_nodes := pd_nodes pd; pd_x_dofmap := pd_x_dofmap pd; pd_x := turned_points (pd_gdim pd) O t (pd_x pd);
     pd_dphi_c := pd_dphi_c pd; pd_inverse := pd_inverse pd; pd_determinant := pd_determinant pd; pd_transforms := pd_transforms pd; pd_transform := pd_transform pd; pd_push_forward := pd_push_forward pd |}.
Definition turned_assembly (O : nat -> nat -> R) (t : nat -> R) (a : assembly) : assembly :=
  {| a_max_links := a_max_links a; a_ndofs := a_ndofs a; a_bs := a_bs a; a_gdim := a_gdim a; a_num_dofs_g := a_num_dofs_g a; a_x_dofmap := a_x_dofmap a; a_x := turned_points (a_gdim a) O t (a_x a);
     a_dofs := a_dofs a; a_active := a_active a; a_local := a_local a; a_map := a_map a; a_facet_map := a_facet_map a; a_parent := a_parent a |}.
Definition turned_pair (O : nat -> nat -> R) (t : nat -> R) (p : tie_pair) : tie_pair :=
  {| pr_asm := turned_assembly O t (pr_asm p); pr_n_sub := pr_n_sub p; pr_nds := pr_nds p; pr_f_to_c := pr_f_to_c p; pr_dofs_sub := pr_dofs_sub p; pr_facets := pr_facets p; pr_basis := pr_basis p; pr_grad := pr_grad p |}.
Definition two_sided (dim : nat) (J K : nat -> nat -> R) : Prop := forall a b, (a < dim)%nat -> (b < dim)%nat ->
  rsum dim (fun k => K a k * J k b) = delta a b /\ rsum dim (fun k => J a k * K k b) = delta a b.
(** compute_jacobian_inverse inverts what can be inverted. *)
Definition inverts (dim : nat) (inverse : (nat -> nat -> R) -> nat -> nat -> R) : Prop := forall J K, two_sided dim J K -> two_sided dim J (inverse J).
(** The area element is that of the lengths of the columns and the angles between them. *)
Definition area_element (rows cols : nat) (determinant : (nat -> nat -> R) -> R) : Prop := forall M M',
  (forall i j, (i < cols)%nat -> (j < cols)%nat -> rsum rows (fun a => M a i * M a j) = rsum rows (fun a => M' a i * M' a j)) -> Rabs (determinant M) = Rabs (determinant M').
(** The mesh's nodes exist, cells are not degenerate at the points of the facet, the geometry's basis adds up to a constant. *)
Record turnable (pd : pack_data) (cell facet : nat) : Prop := {
  tu_nodes : forall j, (j < pd_nodes pd)%nat -> (3 * nth j (pd_x_dofmap pd cell) 0 + 2 < length (pd_x pd))%nat;
  tu_constant : forall k q, (k < pd_gdim pd)%nat -> (q < pd_nq pd)%nat -> rsum (pd_nodes pd) (pd_dphi_c pd k (pd_q_offsets pd facet + q)) = 0;
  tu_regular : forall q, (q < pd_nq pd)%nat -> exists K, two_sided (pd_gdim pd) (pack_jacobian pd cell (pd_q_offsets pd facet + q)) K }.

(** ** Vectors *)
Section Turning.
  Context (dim : nat) (O : nat -> nat -> R) (HO : orthogonal dim O).
  Notation turn := (turn dim O).
  Lemma turn_ext x y a : (forall k, (k < dim)%nat -> x k = y k) -> turn x a = turn y a.
  Proof using. intros H. apply rsum_ext. intros k Hk. now rewrite H. Qed.
  Lemma turn_minus x y a : turn (fun k => x k - y k) a = turn x a - turn y a.
  Proof using. unfold RigidBalanceProps.turn. rewrite <- rsum_minus. apply rsum_ext. intros. ring. Qed.
  Lemma turn_plus x y a : turn (fun k => x k + y k) a = turn x a + turn y a.
  Proof using. unfold RigidBalanceProps.turn. rewrite <- rsum_plus. apply rsum_ext. intros. ring. Qed.
  Lemma turn_scal c x a : turn (fun k => c * x k) a = c * turn x a.
  Proof using. unfold RigidBalanceProps.turn. rewrite <- rsum_scal. apply rsum_ext. intros. ring. Qed.
  Lemma turn_opp x a : turn (fun k => - x k) a = - turn x a.
  Proof using. unfold RigidBalanceProps.turn. rewrite <- rsum_opp. apply rsum_ext. intros. ring. Qed.
  Lemma turn_sum n (f : nat -> nat -> R) a : turn (fun k => rsum n (fun j => f j k)) a = rsum n (fun j => turn (f j) a).
  Proof using. unfold RigidBalanceProps.turn. rewrite rsum_swap. apply rsum_ext. intros k _. now rewrite rsum_scal. Qed.
  (** Contraction of two turned indices. *)
  Lemma contract x y : rsum dim (fun a => turn x a * turn y a) = rsum dim (fun a => x a * y a).
  Proof using HO.
    unfold RigidBalanceProps.turn.
    rewrite (rsum_ext dim _ (fun a => rsum dim (fun k => rsum dim (fun l => x k * y l * (O a k * O a l))))).
    2:{ intros a Ha. rewrite <- rsum_scal_r. apply rsum_ext. intros k Hk. rewrite <- rsum_scal. apply rsum_ext. intros. ring. }
    rewrite rsum_swap. apply rsum_ext. intros k Hk. rewrite rsum_swap.
    rewrite (rsum_ext dim _ (fun l => (x k * y l) * delta k l)) by (intros l Hl; now rewrite rsum_scal, (proj1 (HO k l Hk Hl))).
    now rewrite delta_sum_r.
  Qed.
  Lemma product_turn x y : scalar_product dim (turn x) (turn y) = scalar_product dim x y.
  Proof using HO. exact (contract x y). Qed.
  Lemma norm_turn x : vector_norm dim (turn x) = vector_norm dim x.
  Proof using HO. unfold vector_norm. now rewrite product_turn. Qed.
  Lemma tangent_turn n x a : tangent dim (turn n) (turn x) a = turn (tangent dim n x) a.
  Proof using HO. unfold tangent. rewrite product_turn, turn_minus, turn_scal. reflexivity. Qed.
  Lemma onto_ball_turn r x a : onto_ball dim r (turn x) a = turn (onto_ball dim r x) a.
  Proof using HO. unfold onto_ball. rewrite norm_turn. destruct (Rle_dec _ _); [reflexivity|]. now rewrite turn_scal. Qed.
  Lemma functional_turn law n o gap fr g th Ju Su Jv Sv :
    contact_functional dim law (turn n) (turn o) gap fr g th (turn Ju) (turn Su) (turn Jv) (turn Sv) = contact_functional dim law n o gap fr g th Ju Su Jv Sv.
  Proof using HO.
    unfold contact_functional. cbv zeta. rewrite !product_turn. f_equal.
    assert (B : forall r x y, (forall a, x a = turn y a) -> forall a, onto_ball dim r x a = turn (onto_ball dim r y) a).
    { intros r x y E a. rewrite <- onto_ball_turn. unfold onto_ball, vector_norm, scalar_product. rewrite (rsum_ext dim (fun a => x a * x a) (fun a => turn y a * turn y a)) by (intros; now rewrite E). now rewrite E. }
    assert (P : forall x y x' y', (forall a, x a = turn x' a) -> (forall a, y a = turn y' a) -> scalar_product dim x y = scalar_product dim x' y').
    { intros x y x' y' E E'. rewrite <- (product_turn x' y'). unfold scalar_product. apply rsum_ext. intros. now rewrite E, E'. }
    destruct law; [reflexivity| |].
    - f_equal; [f_equal|f_equal]; [|now apply P; intros; apply tangent_turn]. apply P.
      + apply B. intros a. rewrite !tangent_turn. rewrite turn_minus, turn_plus, !turn_scal. reflexivity.
      + intros a. rewrite !tangent_turn, turn_minus, turn_scal. reflexivity.
    - f_equal; [f_equal|f_equal]; [|now apply P; intros; apply tangent_turn]. apply P.
      + apply B. intros a. rewrite !tangent_turn. rewrite turn_minus, !turn_scal. reflexivity.
      + intros a. rewrite !tangent_turn, turn_minus, turn_scal. reflexivity.
  Qed.

  (** ** Gradients *)
  Lemma turn_matrix_alt G a b : turn_matrix dim O G a b = turn (fun c => turn (fun d => G c d) b) a.
  Proof using. unfold turn_matrix, RigidBalanceProps.turn. apply rsum_ext. intros c Hc. now rewrite rsum_scal. Qed.
  Lemma turn_matrix_transposed G a b : turn_matrix dim O G a b = turn (fun d => turn (fun c => G c d) a) b.
  Proof using.
    unfold turn_matrix, RigidBalanceProps.turn. rewrite rsum_swap. apply rsum_ext. intros d Hd. rewrite <- rsum_scal. apply rsum_ext. intros. ring.
  Qed.
  Lemma turn_matrix_ext G G' a b : (forall c d, (c < dim)%nat -> (d < dim)%nat -> G c d = G' c d) -> turn_matrix dim O G a b = turn_matrix dim O G' a b.
  Proof using. intros H. unfold turn_matrix. apply rsum_ext. intros c Hc. apply rsum_ext. intros d Hd. now rewrite H. Qed.
  Lemma turn_matrix_plus G G' a b : turn_matrix dim O (fun c d => G c d + G' c d) a b = turn_matrix dim O G a b + turn_matrix dim O G' a b.
  Proof using. rewrite !turn_matrix_alt. rewrite <- turn_plus. apply turn_ext. intros c Hc. apply turn_plus. Qed.
  Lemma turn_delta a : (a < dim)%nat -> forall x, turn x a = rsum dim (fun k => O a k * x k).
  Proof using. reflexivity. Qed.
  Lemma trace_turn G : rsum dim (fun c => turn_matrix dim O G c c) = rsum dim (fun c => G c c).
  Proof using HO.
    unfold turn_matrix. rewrite rsum_swap. apply rsum_ext. intros c Hc. rewrite rsum_swap.
    rewrite (rsum_ext dim _ (fun d => G c d * delta c d)).
    2:{ intros d Hd. rewrite <- (proj1 (HO c d Hc Hd)), <- rsum_scal. apply rsum_ext. intros. ring. }
    now apply delta_sum_r.
  Qed.
  Lemma traction_turn mu lm G n a : (a < dim)%nat -> traction dim mu lm (turn_matrix dim O G) (turn n) a = turn (traction dim mu lm G n) a.
  Proof using HO.
    intros Ha. unfold traction at 1, stress. rewrite trace_turn.
    rewrite (rsum_ext dim _ (fun b => (mu * (turn_matrix dim O G a b * turn n b) + mu * (turn_matrix dim O G b a * turn n b)) + lm * rsum dim (fun c => G c c) * (turn n b * delta a b))) by (intros; ring).
    rewrite !rsum_plus, !rsum_scal, delta_sum_r by exact Ha.
    rewrite (rsum_ext dim (fun b => turn_matrix dim O G a b * turn n b) (fun b => turn (fun d => turn (fun c => G c d) a) b * turn n b)) by (intros; now rewrite turn_matrix_transposed).
    rewrite (rsum_ext dim (fun b => turn_matrix dim O G b a * turn n b) (fun b => turn (fun c => turn (fun d => G c d) a) b * turn n b)) by (intros; now rewrite turn_matrix_alt).
    rewrite !contract.
    assert (E : forall (H : nat -> nat -> R), rsum dim (fun d => turn (fun c => H c d) a * n d) = turn (fun c => rsum dim (fun d => H c d * n d)) a).
    { intros H. rewrite turn_sum. apply rsum_ext. intros d Hd. unfold RigidBalanceProps.turn. rewrite <- rsum_scal_r. apply rsum_ext. intros. ring. }
    rewrite (E G). rewrite (E (fun c d => G d c)). rewrite <- !turn_scal, <- !turn_plus. apply turn_ext. intros k Hk. unfold traction, stress.
    rewrite (rsum_ext dim (fun b => (mu * (G k b + G b k) + lm * rsum dim (fun c => G c c) * delta k b) * n b) (fun b => (mu * (G k b * n b) + mu * (G b k * n b)) + lm * rsum dim (fun c => G c c) * (n b * delta k b))) by (intros; ring).
    rewrite !rsum_plus, !rsum_scal, delta_sum_r by exact Hk. ring.
  Qed.

  (** ** Inverses *)
  Lemma inverse_unique J K K' : two_sided dim J K -> two_sided dim J K' -> forall a b, (a < dim)%nat -> (b < dim)%nat -> K a b = K' a b.
  Proof using.
    intros H H' a b Ha Hb.
    assert (E : rsum dim (fun k => rsum dim (fun l => K a k * J k l * K' l b)) = K a b).
    { rewrite (rsum_ext dim _ (fun k => K a k * delta b k)); [now apply delta_sum_r|]. intros k Hk. assert (D : delta b k = delta k b) by (unfold delta; now rewrite Nat.eqb_sym).
      rewrite D, <- (proj2 (H' k b Hk Hb)), <- rsum_scal. apply rsum_ext. intros. ring. }
    rewrite <- E, rsum_swap. rewrite (rsum_ext dim _ (fun l => K' l b * delta a l)); [now apply (delta_sum_r dim a (fun l => K' l b))|]. intros l Hl. rewrite <- (proj1 (H a l Ha Hl)), <- rsum_scal. apply rsum_ext. intros. ring.
  Qed.
  (** The inverse of the turned Jacobian. *)
  Lemma turned_inverse J K : two_sided dim J K -> two_sided dim (fun a j => turn (fun c => J c j) a) (fun k b => turn (fun c => K k c) b).
  Proof using HO.
    intros H a b Ha Hb. split.
    - rewrite contract. apply H; auto.
    - unfold RigidBalanceProps.turn.
      rewrite (rsum_ext dim _ (fun k => rsum dim (fun c => rsum dim (fun d => O a c * O b d * (J c k * K k d))))).
      2:{ intros k Hk. rewrite <- rsum_scal_r. apply rsum_ext. intros c Hc. rewrite <- rsum_scal. apply rsum_ext. intros. ring. }
      rewrite rsum_swap. rewrite (rsum_ext dim _ (fun c => O a c * O b c)); [apply HO; auto|]. intros c Hc. rewrite rsum_swap.
      rewrite (rsum_ext dim _ (fun d => (O a c * O b d) * delta c d)) by (intros d Hd; now rewrite rsum_scal, (proj2 (H c d Hc Hd))). now apply (delta_sum_r dim c (fun d => O a c * O b d)).
  Qed.

  (** ** Fields *)
  Lemma field_value u D a : (0 < dim)%nat -> (a < dim)%nat -> nth (dim * D + a) (turned_field dim O u) 0 = turn (fun k => nth (dim * D + k) u 0) a.
  Proof using.
    intros Hd Ha. unfold turned_field. set (n := ((length u + dim - 1) / dim)%nat).
    assert (E1 : ((dim * D + a) / dim = D)%nat) by (symmetry; apply (Nat.div_unique _ _ D a); lia). assert (E2 : ((dim * D + a) mod dim = a)%nat) by (symmetry; apply (Nat.mod_unique _ _ D a); lia).
    destruct (Nat.lt_ge_cases D n) as [L|L].
    - rewrite (nth_map_lt _ _ _ 0 0%nat) by (rewrite seq_length; nia). rewrite seq_nth by nia. cbn [Nat.add]. rewrite E1, E2. apply rsum_ext. intros k Hk. now rewrite (Nat.mul_comm D dim).
    - rewrite nth_overflow by (rewrite map_length, seq_length; nia). symmetry. apply rsum_zero. intros k Hk. rewrite nth_overflow; [ring|].
      pose proof (Nat.div_mod (length u + dim - 1) dim ltac:(lia)). pose proof (Nat.mod_upper_bound (length u + dim - 1) dim ltac:(lia)). fold n in H. nia.
  Qed.
  Lemma field_length u n : (0 < dim)%nat -> length u = (n * dim)%nat -> length (turned_field dim O u) = length u.
  Proof using.
    intros Hd E. unfold turned_field. rewrite map_length, seq_length, E. f_equal. destruct n as [|n]; [apply Nat.div_small; lia|].
    symmetry. apply (Nat.div_unique _ _ (S n) (dim - 1)); lia.
  Qed.
End Turning.

(** ** Meshes *)
Lemma points_value dim O t x m k : (k < dim)%nat -> (dim <= 3)%nat -> (3 * m + 2 < length x)%nat -> nth (3 * m + k) (turned_points dim O t x) 0 = turn dim O (fun k => nth (3 * m + k) x 0) k + t k.
Proof.
  intros Hk Hd L. unfold turned_points. rewrite (nth_map_lt _ _ _ 0 0%nat) by (rewrite seq_length; lia). rewrite seq_nth by lia. cbn [Nat.add].
  assert (E1 : ((3 * m + k) / 3 = m)%nat) by (symmetry; apply (Nat.div_unique _ _ m k); lia). assert (E2 : ((3 * m + k) mod 3 = k)%nat) by (symmetry; apply (Nat.mod_unique _ _ m k); lia).
  rewrite E1, E2. destruct (Nat.ltb_spec k dim); [|lia]. f_equal. apply rsum_ext. intros l Hl. now rewrite (Nat.mul_comm m 3).
Qed.

Section Cells.
  Context (O : nat -> nat -> R) (t : nat -> R) (pd : pack_data) (cell facet : nat).
  Notation gdim := (pd_gdim pd).
  Context (HO : orthogonal gdim O) (T : turnable pd cell facet) (Hd : pd_tdim pd = gdim) (H3 : (gdim <= 3)%nat) (HI : inverts gdim (pd_inverse pd)).
  Notation pd' := (turned_space O t pd).

  Lemma jacobian_turned q i j : (q < pd_nq pd)%nat -> (i < gdim)%nat -> (j < gdim)%nat ->
    pack_jacobian pd' cell (pd_q_offsets pd facet + q) i j = turn gdim O (fun c => pack_jacobian pd cell (pd_q_offsets pd facet + q) c j) i.
  Proof using T H3.
    intros Hq Hi Hj. unfold pack_jacobian, coordinate_dofs. cbn [turned_space pd_nodes pd_x_dofmap pd_x pd_dphi_c]. rewrite for_loop_rsum.
    rewrite (turn_ext gdim O _ (fun c => rsum (pd_nodes pd) (fun a => nth (3 * nth a (pd_x_dofmap pd cell) 0 + c)%nat (pd_x pd) 0 * pd_dphi_c pd j (pd_q_offsets pd facet + q) a))) by (intros k Hk; now rewrite for_loop_rsum, Rplus_0_l).
    rewrite Rplus_0_l, turn_sum.
    rewrite (rsum_ext (pd_nodes pd) _ (fun a => turn gdim O (fun c => nth (3 * nth a (pd_x_dofmap pd cell) 0 + c)%nat (pd_x pd) 0 * pd_dphi_c pd j (pd_q_offsets pd facet + q) a) i + t i * pd_dphi_c pd j (pd_q_offsets pd facet + q) a)).
    - rewrite rsum_plus, rsum_scal. rewrite (tu_constant _ _ _ T j q Hj Hq). ring.
    - intros a Ha. rewrite points_value by (auto; apply (tu_nodes _ _ _ T a Ha)). unfold turn. rewrite Rmult_plus_distr_r, <- rsum_scal_r. f_equal. apply rsum_ext. intros. ring.
  Qed.
  Lemma inverse_turned q k b : (q < pd_nq pd)%nat -> (k < gdim)%nat -> (b < gdim)%nat ->
    pd_inverse pd (pack_jacobian pd' cell (pd_q_offsets pd facet + q)) k b = turn gdim O (fun c => pd_inverse pd (pack_jacobian pd cell (pd_q_offsets pd facet + q)) k c) b.
  Proof using HO T H3 HI.
    intros Hq Hk Hb. set (J := pack_jacobian pd cell _). set (J' := pack_jacobian pd' cell _).
    destruct (tu_regular _ _ _ T q Hq) as [K0 HK]. pose proof (HI _ _ HK) as HK1. fold J in HK1.
    assert (R : two_sided gdim J' (fun k b => turn gdim O (fun c => pd_inverse pd J k c) b)).
    { intros a c Ha Hc. destruct (turned_inverse gdim O HO _ _ HK1 a c Ha Hc) as [A B]. split.
      - rewrite <- A. apply rsum_ext. intros l Hl. f_equal. now apply jacobian_turned.
      - rewrite <- B. apply rsum_ext. intros l Hl. f_equal. now apply jacobian_turned. }
    exact (inverse_unique gdim J' _ _ (HI _ _ R) R k b Hk Hb).
  Qed.
  Lemma derivative_turned q b m l : (q < pd_nq pd)%nat -> (b < gdim)%nat -> basis_derivative pd' cell facet q b m l = turn gdim O (fun d => basis_derivative pd cell facet q d m l) b.
  Proof using HO T H3 HI Hd.
    intros Hq Hb. unfold basis_derivative. cbn [turned_space pd_q_offsets pd_inverse pd_tdim pd_basis]. cbv zeta. rewrite turn_sum, Hd. apply rsum_ext. intros k Hk.
    rewrite inverse_turned by auto. unfold turn. rewrite <- rsum_scal_r. apply rsum_ext. intros. ring.
  Qed.
End Cells.
