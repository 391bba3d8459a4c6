(** C112: the two-triangle object of C78, the second triangle half a unit to the right of the
    first, so that the stored gap vectors lead from the points to their partners. *)
From Coq Require Import List Arith ZArith Lia Bool Reals Lra.
Import ListNotations.
From Verif Require Import Prelude PreludeLemmas RSum RealLemmas LayoutModel LayoutProps ContactProblemModel ContactProblemProps.
From Verif Require Import MeshTieModel MeshTieProps MeshTieHistoryProps MeshTieKernelModel MeshTieKernelProps PoissonKernelProps.
From Verif Require Import EntitiesModel PackingModel PackUProps AssemblyModel AssemblyProofs AssemblyProps RayModel KernelModel KernelProofs KernelSpec
  ElasticityProps ContactKernelModel ContactKernelSpec ContactKernelProps FrictionKernelProps CoefficientsModel CoefficientsProps SystemSpec TieSystemModel TieSystemProofs TieSystemProps
  TieWeakProps ContactWeakProps ContactSystemModel ContactSystemSpec ContactSystemProofs ContactSystemProps TieSystemExamples ContactSystemExamples SystemWeakProps TieFormProps ContactFormProps ContactFormExamples TieFormExamples RigidBalanceProps.
Local Open Scope R_scope.

(** Positions of the degrees of freedom; [shift]: how far the second triangle is moved to the right. *)
Definition tri_node (shift : R) (cell j k : nat) : R := nth k (nth j (if (cell =? 0)%nat then [[0; 0]; [1; 0]; [0; 1]] else [[1 + shift; 1]; [shift; 1]; [1 + shift; 0]]) []) 0.
Definition spin (a b : nat) : R := if (a =? b)%nat then 0 else if (a =? 0)%nat then -1 else 1.
Definition spin_c (a : nat) : R := if (a =? 0)%nat then 3 else -7.
(** Rotation about the origin and translation by (3, -7). *)
Definition tri_spin (shift : R) : list R := [3; -7; 3; -6; 2; -7; 2; -6 + shift; 2; -7 + shift; 3; -6 + shift].
Definition tri_spun : list R := [2 + 3; 1 + -7; 2 + 3; 1 + -6; 2 + 2; 1 + -7; 0 + 2; 0 + (-6 + 1/2); 0 + 2; 0 + (-7 + 1/2); 0 + 3; 0 + (-6 + 1/2)].
Definition tri_x0 (shift : R) (i e q k : nat) : R := if (k =? 0)%nat then if (i =? 0)%nat then 1/2 else 1/2 + shift else 1/2.

Lemma spin_skew : skew 2 spin.
Proof. intros a b Ha Hb. destruct a as [|[|a]]; [| |lia]; (destruct b as [|[|b]]; [| |lia]); cbn; lra. Qed.
Ltac index2 a := destruct a as [|[|a]]; [| |lia].
Ltac real_numbers := numbers; try field; repeat split; try (apply Rgt_not_eq; lra).

Lemma two_affine i : (i < 2)%nat -> affine_at (tri_pd true) (two_pairs i) 0 0 (tri_node (1/2)) (tri_x0 (1/2) i 0 0) (fun k => tri_x0 (1/2) i 0 0 k + stored_gap_vector (tri_pd true) two_s i 0 0 k).
Proof.
  intros Hi. index2 i; split.
  1, 3, 7, 9: real_numbers.
  4, 8: intros b k Hb Hk; change (b < 2)%nat in Hb; change (k < 2)%nat in Hk; index2 b; index2 k; real_numbers.
  all: intros k Hk; change (k < 2)%nat in Hk; index2 k; real_numbers.
Qed.
Lemma two_moves i : (i < 2)%nat -> moves_as (tri_pd true) (two_pairs i) 0 0 (tri_node (1/2)) spin_c spin (tri_spin (1/2)).
Proof.
  intros Hi m j n Hm Hj Hn. change (j < 3)%nat in Hj. change (n < 2)%nat in Hn.
  destruct Hm as [-> | ->]; index2 i; (destruct j as [|[|[|j]]]; [| | |lia]); index2 n; numbers; field.
Qed.
Lemma two_moved i : (i < 2)%nat -> moved_by (tri_pd true) (two_pairs i) 0 0 (tri_node (1/2)) spin_c spin two_u tri_spun.
Proof.
  intros Hi m j n Hm Hj Hn. change (j < 3)%nat in Hj. change (n < 2)%nat in Hn.
  destruct Hm as [-> | ->]; index2 i; (destruct j as [|[|[|j]]]; [| | |lia]); index2 n; numbers; field.
Qed.
Lemma two_along i : (i < 2)%nat -> exists d, (Frictionless = Frictionless \/ d = 0) /\ forall k, (k < 2)%nat -> stored_gap_vector (tri_pd true) two_s i 0 0 k = d * stored_normal (tri_pd true) two_s i 0 0 k.
Proof. intros Hi. exists (1/2). split; [now left|]. intros k Hk. index2 i; index2 k; numbers; field. Qed.

(** Without friction the rotated and shifted object feels no net force or moment, and a common
    rotation of the displacement leaves the residual as it is. *)
Example C112_contact_nonvacuous : exists kernels, generated two_kd (vector_kinds Frictionless) kernels /\
  (forall b, length b = 12%nat -> applied (contact_vector (tri_pd true) 2 (tri_pair true) two_basis kernels (two_updated two_u two_s) b) (tri_spin (1/2)) = applied b (tri_spin (1/2))) /\
  (forall b, contact_vector (tri_pd true) 2 (tri_pair true) two_basis kernels (two_updated tri_spun two_s) b = contact_vector (tri_pd true) 2 (tri_pair true) two_basis kernels (two_updated two_u two_s) b).
Proof.
  destruct (two_kernels Frictionless) as (kernels & HK). exists kernels. split; [exact HK|]. split.
  - intros b Hb. apply (C112_balance (tri_pd true) (tri_kd true) 2 (tri_pair true) two_basis (fun _ => 1%nat) (fun g _ => g) two_detect
      (fun i _ _ => [[- two_axis i * (1/2); 0]]) (fun i _ _ => [[two_axis i; 0]]) (fun _ f => [f]) (fun _ => [[1]]) Frictionless tt two_calls two_u (tri_spin (1/2)) b kernels (tri_node (1/2)) spin_c spin (tri_x0 (1/2))); auto.
    + repeat constructor.
    + exact two_setting.
    + change (0 < 2). lra.
    + intros i e Hi He. apply (two_stored i e Hi He).
    + exact spin_skew.
    + intros i e q Hi He Hq. destruct (two_stored i e Hi He) as [-> _]. rewrite (two_point i q Hi Hq). now apply two_affine.
    + intros i e q Hi He Hq. destruct (two_stored i e Hi He) as [-> _]. rewrite (two_point i q Hi Hq). now apply two_moves.
    + intros i e q Hi He Hq. destruct (two_stored i e Hi He) as [-> _]. rewrite (two_point i q Hi Hq). now apply two_along.
  - intros b. apply (C112_unchanged_by_rigid_motion (tri_pd true) (tri_kd true) 2 (tri_pair true) two_basis (fun _ => 1%nat) (fun g _ => g) two_detect
      (fun i _ _ => [[- two_axis i * (1/2); 0]]) (fun i _ _ => [[two_axis i; 0]]) (fun _ f => [f]) (fun _ => [[1]]) Frictionless tt two_calls two_u tri_spun b kernels (tri_node (1/2)) spin_c spin (tri_x0 (1/2))); auto.
    + repeat constructor.
    + exact two_setting.
    + change (0 < 2). lra.
    + intros i e Hi He. apply (two_stored i e Hi He).
    + exact spin_skew.
    + intros i e q Hi He Hq. destruct (two_stored i e Hi He) as [-> _]. rewrite (two_point i q Hi Hq). now apply two_affine.
    + intros i e q Hi He Hq. destruct (two_stored i e Hi He) as [-> _]. rewrite (two_point i q Hi Hq). now apply two_moved.
    + intros i e q Hi He Hq. destruct (two_stored i e Hi He) as [-> _]. rewrite (two_point i q Hi Hq). now apply two_along.
Qed.

(** With friction the moment is not balanced: the friction forces of the two surfaces act half a
    unit apart.  Here the first triangle is pushed into the second one and slides along it. *)
Definition vec2 (x y : R) (a : nat) : R := nth a [x; y] 0.
Lemma sliding_work law s o0 o1 gap : law <> Frictionless -> s * s = 1 -> o1 = 0 -> gap = 1/2 ->
  contact_functional 2 law (vec2 s 0) (vec2 o0 o1) gap 1 (1 / 2) 0 (vec2 (2 * s) s) (fun _ => 0) (vec2 0 (- (s / 2))) (fun _ => 0) <= - (1 / 2).
Proof.
  intros HL Hs -> ->.
  assert (NJ : forall x y, scalar_product 2 (vec2 x y) (vec2 s 0) = x * s) by (intros; cbv [scalar_product rsum vec2 nth]; ring).
  assert (TJ : forall x y a, (a < 2)%nat -> tangent 2 (vec2 s 0) (vec2 x y) a = vec2 0 y a).
  { intros x y a Ha. unfold tangent. rewrite NJ. index2 a; cbv [vec2 nth]; [|ring]. replace (x - x * s * s) with (x * (1 - s * s)) by ring. rewrite Hs. ring. }
  assert (Z : forall x, scalar_product 2 (fun _ => 0) x = 0) by (intros x; apply rsum_zero; intros; ring).
  assert (NX : forall f, f 0%nat = 0 -> f 1%nat = s -> vector_norm 2 f = 1) by (intros f E0 E1; unfold vector_norm, scalar_product, rsum; rewrite E0, E1; replace (0 + 0 * 0 + s * s) with (s * s) by ring; rewrite Hs; apply sqrt_1).
  assert (T0 : forall a, tangent 2 (vec2 s 0) (fun _ => 0) a = 0) by (intros a; unfold tangent; rewrite Z; ring).
  unfold contact_functional. cbv zeta. rewrite !Z, !NJ. replace (2 * s * s) with 2 by (replace (2 * s * s) with (2 * (s * s)) by ring; rewrite Hs; ring).
  rewrite Rmax_left by lra. destruct law; [contradiction| |].
  - unfold scalar_product at 1 2, onto_ball, rsum. rewrite NX by (cbv beta; rewrite !TJ, T0 by lia; cbv beta iota delta [vec2 nth]; ring).
    destruct (Rle_dec 1 (1 * _)) as [_|C]; [|exfalso; apply C; lra]. rewrite !TJ, !T0 by lia. cbv [vec2 nth].
    apply Rle_trans with (-1 * (s * s)); [apply Req_le; field|rewrite Hs; lra].
  - unfold scalar_product at 1 2, onto_ball, rsum. rewrite NX by (cbv beta; rewrite TJ, T0 by lia; cbv beta iota delta [vec2 nth]; ring).
    destruct (Rle_dec 1 (1 / 2 * 1)) as [C|_]; [lra|]. rewrite !TJ, !T0 by lia. cbv [vec2 nth].
    apply Req_le. replace (- (1/2)) with (- (1/2) * (s * s)) by (rewrite Hs; ring). field.
Qed.
Theorem C112_moment_refuted : forall law, law <> Frictionless -> exists kernels, generated two_kd (vector_kinds law) kernels /\
  forall b, length b = 12%nat -> applied (contact_vector (tri_pd true) 2 (tri_pair true) two_basis kernels (two_updated two_u two_s) b) (tri_spin (1/2)) < applied b (tri_spin (1/2)).
Proof.
  intros law HL. destruct (two_kernels law) as (kernels & HK). exists kernels. split; [exact HK|]. intros b Hb.
  assert (Hb' : length (tri_spin (1/2)) = length b) by (rewrite Hb; reflexivity).
  pose proof (C112_work_of_rigid_motion (tri_pd true) (tri_kd true) 2 (tri_pair true) two_basis (fun _ => 1%nat) (fun g _ => g) two_detect
    (fun i _ _ => [[- two_axis i * (1/2); 0]]) (fun i _ _ => [[two_axis i; 0]]) (fun _ f => [f]) (fun _ => [[1]]) law tt two_calls two_u (tri_spin (1/2)) b kernels (tri_node (1/2)) spin_c spin (tri_x0 (1/2))
    (fun i e q k => tri_x0 (1/2) i e q k + stored_gap_vector (tri_pd true) two_s i e q k)) as X. cbv zeta in X.
  unfold two_updated. refine (eq_ind_r (fun z => z < _) _ (X _ _ _ _ _ _ _ _ _ _ _ _)); clear X.
  - match goal with |- _ + ?z < _ => assert (N : z < 0); [|lra] end.
    assert (P : forall i, (i < 2)%nat -> 0 < interface_weight (tri_kd true) (two_pairs i) 0 0 / 2).
    { intros i Hi. pose proof (tri_positive true i 0%nat 0%nat Hi ltac:(cbn; lia) ltac:(index2 i; cbn; now left)) as [Q _]. index2 i; (apply Rmult_lt_0_compat; [exact Q|lra]). }
    unfold over_interface. fold two_after. change (two_after tt two_calls) with two_s.
    assert (F : forall i, (i < 2)%nat -> scalar_product 2 (contact_force 2 law (stored_normal (tri_pd true) two_s i 0 0) (stored_old_normal (tri_pd true) two_s i 0 0) (stored_gap (tri_pd true) two_s i 0 0) (stored_friction (tri_pd true) two_s i 0)
       (stored_h (tri_pd true) two_s i 0 / nth 0 (constants_of two_s) 0) (interface_jump (tri_pd true) (two_pairs i) 0 0 two_u)
       (traction 2 (stored_mu (tri_pd true) two_s i 0) (stored_lambda (tri_pd true) two_s i 0) (fun a b => gradient_own (tri_pd true) (two_pairs i) 0 0 two_u a b + stored_gradient (tri_pd true) two_s i 0 0 a b) (interface_normal (tri_kd true) (two_pairs i) 0 0)))
       (turn 2 spin (fun k => tri_x0 (1/2) i 0 0 k - (tri_x0 (1/2) i 0 0 k + stored_gap_vector (tri_pd true) two_s i 0 0 k))) <= - (1/2)).
    { intros i Hi. rewrite <- (force_functional 2 law _ _ _ _ _ 0 _ _ _ (fun _ => 0)) by reflexivity.
      rewrite (functional_ext 2 law _ (vec2 (- two_axis i) 0) _ (vec2 (stored_old_normal (tri_pd true) two_s i 0 0 0%nat) 0) _ (1/2) _ 1 _ (1/2) 0 _ (vec2 (2 * - two_axis i) (- two_axis i)) _ (fun _ => 0) _ (vec2 0 (- (- two_axis i / 2))) _ (fun _ => 0)).
      - apply sliding_work; auto. index2 i; cbn; lra.
      - intros a Ha. index2 i; index2 a; numbers; field.
      - intros a Ha. index2 i; index2 a; numbers; field.
      - index2 i; numbers; field.
      - index2 i; numbers; field.
      - index2 i; numbers; field.
      - intros a Ha. index2 i; index2 a; numbers; field.
      - intros a Ha. apply zero_traction; [|exact Ha]. intros y z Hy Hz. index2 i; index2 y; index2 z; real_numbers.
      - intros a Ha. index2 i; index2 a; numbers; field.
      - reflexivity. }
    pose proof (P 0%nat ltac:(lia)) as P0. pose proof (P 1%nat ltac:(lia)) as P1. pose proof (F 0%nat ltac:(lia)) as F0. pose proof (F 1%nat ltac:(lia)) as F1. clear P F.
    cbn [rsum]. change (a_local (pr_asm (two_pairs 0%nat))) with 1%nat. change (a_local (pr_asm (two_pairs 1%nat))) with 1%nat. cbn [rsum].
    change (points_of (pr_asm (two_pairs 0%nat)) 0) with [0%nat]. change (points_of (pr_asm (two_pairs 1%nat)) 0) with [0%nat]. cbn [lsum].
    change (pd_gdim (tri_pd true)) with 2%nat.
    match goal with |- 0 + (0 + (?w0 * ?f0 + 0)) + (0 + (?w1 * ?f1 + 0)) < 0 => change f0 with f0 in F0; assert (w0 * f0 < 0) by (apply Ropp_lt_cancel; rewrite Ropp_0, Ropp_mult_distr_r; apply Rmult_lt_0_compat; [exact P0|generalize F0; intros G0; apply Rlt_le_trans with (1/2); [lra|apply Ropp_le_cancel; rewrite Ropp_involutive; exact G0]]);
      assert (w1 * f1 < 0) by (apply Ropp_lt_cancel; rewrite Ropp_0, Ropp_mult_distr_r; apply Rmult_lt_0_compat; [exact P1|apply Rlt_le_trans with (1/2); [lra|apply Ropp_le_cancel; rewrite Ropp_involutive; exact F1]]); lra end.
  - repeat constructor.
  - reflexivity.
  - auto.
  - exact two_setting.
  - reflexivity.
  - exact Hb'.
  - exact HK.
  - change (0 < 2). lra.
  - intros i e Hi He. apply (two_stored i e Hi He).
  - exact spin_skew.
  - intros i e q Hi He Hq. destruct (two_stored i e Hi He) as [-> _]. rewrite (two_point i q Hi Hq). now apply two_affine.
  - intros i e q Hi He Hq. destruct (two_stored i e Hi He) as [-> _]. rewrite (two_point i q Hi Hq). now apply two_moves.
Qed.

(** Mesh tie of the triangles where they are: the tied points coincide. *)
Lemma tri_affine i : (i < 2)%nat -> affine_at (tri_pd true) (tri_pair true i) 0 0 (tri_node 0) (tri_x0 0 i 0 0) (tri_x0 0 i 0 0) /\ affine_gradient_tied (tri_pd true) (tri_pair true i) 0 0 (tri_node 0).
Proof.
  intros Hi. split; (index2 i; split).
  1, 3, 7, 9: real_numbers.
  4, 8, 10, 12: intros b k Hb Hk; change (b < 2)%nat in Hb; change (k < 2)%nat in Hk; index2 b; index2 k; real_numbers.
  all: intros k Hk; change (k < 2)%nat in Hk; index2 k; real_numbers.
Qed.
Lemma tri_moves i : (i < 2)%nat -> moves_as (tri_pd true) (tri_pair true i) 0 0 (tri_node 0) spin_c spin (tri_spin 0).
Proof.
  intros Hi m j n Hm Hj Hn. change (j < 3)%nat in Hj. change (n < 2)%nat in Hn.
  destruct Hm as [-> | ->]; index2 i; (destruct j as [|[|[|j]]]; [| | |lia]); index2 n; numbers; field.
Qed.
Example C112_tie_nonvacuous :
  let thermo st := meshtie_thermo_elastic (with_strides (tri_kd true) st) no_geometry in
  let rhs st := meshtie_rhs (with_strides (tri_kd true) st) no_geometry in
  let jac st := meshtie_jac (with_strides (tri_kd true) st) no_geometry in
  exists M, tie_matrix (fun i => pr_asm (tri_pair true i)) 2 jac jac Elasticity (tri_after tri_history_skew) = Some M /\ forall d, matrix_times 2 M (tri_spin 0) d = 0.
Proof.
  intros thermo rhs jac.
  destruct (C112_tie_rigid_kernel tri_pd 2 tri_pair (fun _ => 1%nat) 1 3 2 1 (fun _ => [1]) (fun _ _ => ([1], 1%nat))
      (tri_kd true) rhs thermo jac jac tri_history_skew {| e_mu := (false, [1]); e_lambda := (false, [2]); e_gamma := 2; e_theta := -1; e_u := Some (true, [1]) |}
      (tri_node 0) spin_c spin (tri_x0 0) (tri_x0 0) (tri_spin 0) (tri_object true)) as (M & EM & X & _); try reflexivity.
  - intros st. repeat split; exists no_geometry; reflexivity.
  - exact tri_fields_skew.
  - repeat (apply Forall_cons || apply Forall_nil); discriminate.
  - exact spin_skew.
  - intros i e q Hi He Hq. destruct (tri_tied true i e Hi He q Hq) as [-> ->]. now apply tri_affine.
  - intros i e q Hi He Hq. destruct (tri_tied true i e Hi He q Hq) as [-> ->]. now apply tri_moves.
  - exists M. now split.
Qed.
Example C112_tie_constant_nonvacuous :
  let rhs st := poisson_rhs (with_strides (tri_kd false) st) no_geometry in
  let jac st := poisson_jac (with_strides (tri_kd false) st) no_geometry in
  exists M, tie_matrix (fun i => pr_asm (tri_pair false i)) 2 jac jac Poisson (tri_after tri_history_skew) = Some M /\ forall d, matrix_times 1 M (repeat 20 6) d = 0.
Proof.
  intros rhs jac.
  destruct (C112_tie_constant_kernel tri_pd 2 tri_pair (fun _ => 1%nat) 1 3 2 1 (fun _ => [1]) (fun _ _ => ([1], 1%nat))
      (tri_kd false) rhs jac jac tri_history_skew {| p_kdt := (false, [3]); p_gamma := 3; p_theta := -1; p_T := None |} 20 (repeat 20 6) (tri_object false)) as (M & EM & X & _); try reflexivity.
  - intros st. repeat split; exists no_geometry; reflexivity.
  - exact tri_fields_skew.
  - intros i e q Hi He Hq. destruct (tri_tied false i e Hi He q Hq) as [-> ->]. split; [index2 i; real_numbers|]. split; [index2 i; real_numbers|]. intros b Hb. index2 i; index2 b; split; real_numbers.
  - intros i e q Hi He Hq m j Hm Hj. destruct (tri_tied false i e Hi He q Hq) as [-> ->]. destruct Hm as [-> | ->]; index2 i; (destruct j as [|[|[|j]]]; [| | |lia]); numbers; reflexivity.
  - exists M. now split.
Qed.
Print Assumptions C112_moment_refuted.
