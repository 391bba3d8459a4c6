(** C94: the weakly imposed Dirichlet condition. *)
From Coq Require Import List Arith Lia Reals Lra.
Import ListNotations.
From Verif Require Import Prelude PreludeLemmas RSum WeakDirichletModel.
Local Open Scope R_scope.

(** ** Specification *)
(** Traction of a displacement at a boundary point: the Cauchy stress applied to
    the normal, written out. *)
Definition traction (d : nat) (mu lmbda : R) (u : field) (n : nat -> R) (i : nat) : R :=
  rsum d (fun j => mu * (grad u i j + grad u j i) * n j) + lmbda * rsum d (fun k => grad u k k) * n i.
Definition dot (d : nat) (a b : nat -> R) : R := rsum d (fun i => a i * b i).
(** Sum over the boundary of a density. *)
Definition boundary_sum (ds : list bpoint) (g : bpoint -> R) : R := lsum ds (fun p => bp_weight p * g p).
Definition zero_field : field := {| val := fun _ => 0; grad := fun _ _ => 0 |}.
Definition sub_field (u w : field) : field :=
  {| val := fun i => val u i - val w i; grad := fun i j => grad u i j - grad w i j |}.

Lemma stress_traction d mu lmbda u n i : (i < d)%nat ->
  apply_matrix d (sigma_func d mu lmbda u) n i = traction d mu lmbda u n i.
Proof.
  intros Hi. unfold apply_matrix, traction, sigma_func.
  transitivity (rsum d (fun j => mu * (grad u i j + grad u j i) * n j)
                + rsum d (fun j => (if (j =? i)%nat then 1 else 0) * (lmbda * rsum d (fun k => epsilon u k k) * n j))).
  { rewrite <- rsum_plus. apply rsum_ext. intros j _. rewrite (Nat.eqb_sym j i). unfold epsilon. destruct (i =? j)%nat; field. }
  rewrite rsum_delta by exact Hi. f_equal. f_equal. f_equal. apply rsum_ext. intros k _. unfold epsilon. field.
Qed.

Lemma inner_dot d a b : inner d a b = dot d a b. Proof. reflexivity. Qed.
Lemma dot_ext d a a' b b' : (forall i, (i < d)%nat -> a i = a' i) -> (forall i, (i < d)%nat -> b i = b' i) -> dot d a b = dot d a' b'.
Proof. intros H1 H2. apply rsum_ext. intros i Hi. rewrite H1, H2; auto. Qed.
Lemma dot_sub_l d a b c : dot d (fun i => a i - b i) c = dot d a c - dot d b c.
Proof. unfold dot. rewrite <- rsum_minus. apply rsum_ext. intros. ring. Qed.
Lemma dot_sub_r d a b c : dot d c (fun i => a i - b i) = dot d c a - dot d c b.
Proof. unfold dot. rewrite <- rsum_minus. apply rsum_ext. intros. ring. Qed.
Lemma dot_comm d a b : dot d a b = dot d b a.
Proof. apply rsum_ext. intros. ring. Qed.
Lemma dot_0_r d a : dot d a (fun _ => 0) = 0.
Proof. apply rsum_zero. intros. ring. Qed.
Lemma dot_0_l d a : dot d (fun _ => 0) a = 0.
Proof. apply rsum_zero. intros. ring. Qed.
Lemma dot_nonneg d a : 0 <= dot d a a.
Proof. apply rsum_nonneg. intros i _. nra. Qed.

Lemma traction_sub d mu lmbda u w n i :
  traction d mu lmbda (sub_field u w) n i = traction d mu lmbda u n i - traction d mu lmbda w n i.
Proof.
  unfold traction. cbn [grad sub_field].
  replace (rsum d (fun j => mu * (grad u i j - grad w i j + (grad u j i - grad w j i)) * n j))
    with (rsum d (fun j => mu * (grad u i j + grad u j i) * n j) - rsum d (fun j => mu * (grad w i j + grad w j i) * n j))
    by (rewrite <- rsum_minus; apply rsum_ext; intros; ring).
  rewrite rsum_minus. ring.
Qed.
Lemma traction_zero d mu lmbda n i : traction d mu lmbda zero_field n i = 0.
Proof. unfold traction. cbn [grad zero_field]. rewrite !rsum_zero by (intros; ring). ring. Qed.

(** Normal form of the terms at a point. *)
Lemma terms_eq d mu lmbda gamma theta h p u v f :
  boundary_terms d (sigma_func d mu lmbda) gamma theta h p u v f =
    - dot d (traction d mu lmbda u (bp_normal p)) (val v)
    - theta * dot d (traction d mu lmbda v (bp_normal p)) (fun i => val u i - f i)
    + gamma / nth (bp_cell p) h 0 * dot d (fun i => val u i - f i) (val v).
Proof.
  unfold boundary_terms. rewrite !inner_dot. repeat (f_equal; try (apply dot_ext; intros; auto using stress_traction)).
Qed.

(** Consistency: a displacement that takes the prescribed values on the boundary
    adds minus the work of its boundary traction, whatever gamma, theta and h;
    if the given form is balanced by that work (the equations hold inside), the
    residual vanishes for every test function. *)
Theorem C94_consistent :
  forall (d : nat) (mu lmbda gamma theta : R) (h : list R) (ds : list bpoint) (F : R)
         (u v : nat -> field) (f : nat -> nat -> R),
    (forall p, In p ds -> forall i, (i < d)%nat -> val (u (bp_id p)) i = f (bp_id p) i) ->
    weak_dirichlet d (sigma_func d mu lmbda) gamma theta h ds F u v f =
      F - boundary_sum ds (fun p => dot d (traction d mu lmbda (u (bp_id p)) (bp_normal p)) (val (v (bp_id p)))) /\
    (F = boundary_sum ds (fun p => dot d (traction d mu lmbda (u (bp_id p)) (bp_normal p)) (val (v (bp_id p)))) ->
     weak_dirichlet d (sigma_func d mu lmbda) gamma theta h ds F u v f = 0).
Proof.
  intros d mu lmbda gamma theta h ds F u v f BC.
  assert (E : weak_dirichlet d (sigma_func d mu lmbda) gamma theta h ds F u v f =
      F - boundary_sum ds (fun p => dot d (traction d mu lmbda (u (bp_id p)) (bp_normal p)) (val (v (bp_id p))))).
  { unfold weak_dirichlet, boundary_sum.
    replace (lsum ds _) with (-1 * lsum ds (fun p => bp_weight p * dot d (traction d mu lmbda (u (bp_id p)) (bp_normal p)) (val (v (bp_id p)))));
      [ring|]. rewrite <- lsum_scal. apply lsum_ext. intros p Hp. rewrite terms_eq.
    rewrite (dot_ext d _ (traction d mu lmbda (v (bp_id p)) (bp_normal p)) (fun i => val (u (bp_id p)) i - f (bp_id p) i) (fun _ => 0)), dot_0_r.
    2: reflexivity. 2: { intros i Hi. rewrite (BC p Hp i Hi). ring. }
    rewrite (dot_ext d (fun i => val (u (bp_id p)) i - f (bp_id p) i) (fun _ => 0) (val (v (bp_id p))) (val (v (bp_id p)))), dot_0_l.
    2: { intros i Hi. rewrite (BC p Hp i Hi). ring. } 2: reflexivity. ring. }
  split; [exact E|]. intros ->. rewrite E. ring.
Qed.
Print Assumptions C94_consistent.

(** The change of the added terms with the displacement. *)
Definition added (d : nat) (mu lmbda gamma theta : R) (h : list R) (ds : list bpoint) (u v : nat -> field) (f : nat -> nat -> R) : R :=
  weak_dirichlet d (sigma_func d mu lmbda) gamma theta h ds 0 u v f.

(** The terms are affine in the displacement: the difference for two of them is
    the value for their difference with the homogeneous condition; hence the
    Jacobian does not depend on the displacement or on the prescribed values. *)
Theorem C94_affine :
  forall (d : nat) (mu lmbda gamma theta : R) (h : list R) (ds : list bpoint) (u w v : nat -> field) (f : nat -> nat -> R),
    added d mu lmbda gamma theta h ds u v f - added d mu lmbda gamma theta h ds w v f =
    added d mu lmbda gamma theta h ds (fun q => sub_field (u q) (w q)) v (fun _ _ => 0).
Proof.
  intros. unfold added, weak_dirichlet. rewrite !Rplus_0_l, <- lsum_minus. apply lsum_ext. intros p _.
  rewrite !terms_eq. cbn [val sub_field].
  rewrite (dot_ext d (traction d mu lmbda (sub_field (u (bp_id p)) (w (bp_id p))) (bp_normal p))
             (fun i => traction d mu lmbda (u (bp_id p)) (bp_normal p) i - traction d mu lmbda (w (bp_id p)) (bp_normal p) i)
             (val (v (bp_id p))) (val (v (bp_id p)))) by (intros; auto using traction_sub).
  rewrite ?dot_sub_l, ?dot_sub_r, ?dot_0_l, ?dot_0_r. ring.
Qed.
Print Assumptions C94_affine.

(** theta = 1 keeps the system symmetric. *)
Theorem C94_symmetric :
  forall (d : nat) (mu lmbda gamma : R) (h : list R) (ds : list bpoint) (u v : nat -> field),
    added d mu lmbda gamma 1 h ds u v (fun _ _ => 0) = added d mu lmbda gamma 1 h ds v u (fun _ _ => 0).
Proof.
  intros. unfold added, weak_dirichlet. f_equal. apply lsum_ext. intros p _. rewrite !terms_eq.
  rewrite ?dot_sub_l, ?dot_sub_r, ?dot_0_l, ?dot_0_r. rewrite (dot_comm d (val (v (bp_id p))) (val (u (bp_id p)))). ring.
Qed.
Print Assumptions C94_symmetric.

(** theta = -1 adds the penalty alone to the energy of every displacement. *)
Theorem C94_skew :
  forall (d : nat) (mu lmbda gamma : R) (h : list R) (ds : list bpoint) (v : nat -> field),
    added d mu lmbda gamma (-1) h ds v v (fun _ _ => 0) =
    boundary_sum ds (fun p => gamma / nth (bp_cell p) h 0 * dot d (val (v (bp_id p))) (val (v (bp_id p)))).
Proof.
  intros. unfold added, weak_dirichlet, boundary_sum. rewrite Rplus_0_l. apply lsum_ext. intros p _. rewrite terms_eq.
  rewrite ?dot_sub_l, ?dot_sub_r, ?dot_0_l, ?dot_0_r. ring.
Qed.
Print Assumptions C94_skew.

(** For every theta the form is stable once gamma is large against the constant
    of the trace inequality: half of the elastic energy and half of the penalty
    remain. *)
Lemma young d s v a : 0 < a -> 2 * dot d s v <= a * dot d s s + / a * dot d v v.
Proof.
  intros Ha.
  assert (H : 0 <= dot d (fun i => a * s i - v i) (fun i => a * s i - v i)) by apply dot_nonneg.
  assert (E : dot d (fun i => a * s i - v i) (fun i => a * s i - v i) = a * (a * dot d s s) - 2 * a * dot d s v + dot d v v).
  { unfold dot. rewrite <- !rsum_scal, <- rsum_minus, <- rsum_plus. apply rsum_ext. intros. ring. }
  rewrite E in H. apply Rmult_le_reg_l with a; [exact Ha|].
  replace (a * (a * dot d s s + / a * dot d v v)) with (a * (a * dot d s s) + dot d v v) by (field; lra). lra.
Qed.

Lemma lsum_le {A} (l : list A) f g : (forall a, In a l -> f a <= g a) -> lsum l f <= lsum l g.
Proof.
  induction l as [|a l IH]; intros H; cbn [lsum]; [lra|].
  apply Rplus_le_compat; [apply H; left; reflexivity|apply IH; intros; apply H; right; auto].
Qed.

Theorem C94_coercive :
  forall (d : nat) (mu lmbda gamma theta : R) (h : list R) (ds : list bpoint) (v : nat -> field) (energy C : R),
    (forall p, In p ds -> 0 <= bp_weight p /\ 0 < nth (bp_cell p) h 0) ->
    0 <= energy ->
    boundary_sum ds (fun p => nth (bp_cell p) h 0 *
       dot d (traction d mu lmbda (v (bp_id p)) (bp_normal p)) (traction d mu lmbda (v (bp_id p)) (bp_normal p))) <= C * energy ->
    0 < gamma -> (1 + theta) * (1 + theta) * C <= gamma ->
    energy / 2 + boundary_sum ds (fun p => gamma / nth (bp_cell p) h 0 * dot d (val (v (bp_id p))) (val (v (bp_id p)))) / 2
    <= energy + added d mu lmbda gamma theta h ds v v (fun _ _ => 0).
Proof.
  intros d mu lmbda gamma theta h ds v energy C HP HE HT Hg HC.
  set (T := boundary_sum ds _) in HT. set (P := boundary_sum ds _).
  assert (K : P / 2 - (1 + theta) * (1 + theta) / (2 * gamma) * T <= added d mu lmbda gamma theta h ds v v (fun _ _ => 0)).
  { unfold P, T, added, weak_dirichlet, boundary_sum. rewrite Rplus_0_l. unfold Rdiv at 1. rewrite <- lsum_scal_r, <- lsum_scal, <- lsum_minus.
    apply lsum_le. intros p Hp. destruct (HP p Hp) as [Hw Hh]. rewrite terms_eq.
    rewrite ?dot_sub_l, ?dot_sub_r, ?dot_0_l, ?dot_0_r.
    set (s := traction _ _ _ _ _). set (x := val _). set (hh := nth _ _ _) in *.
    pose proof (young d (fun i => (1 + theta) * s i) x (hh / gamma) ltac:(apply Rdiv_lt_0_compat; lra)) as Y.
    assert (E1 : dot d (fun i => (1 + theta) * s i) x = (1 + theta) * dot d s x)
      by (unfold dot; rewrite <- rsum_scal; apply rsum_ext; intros; ring).
    assert (E2 : dot d (fun i => (1 + theta) * s i) (fun i => (1 + theta) * s i) = (1 + theta) * (1 + theta) * dot d s s)
      by (unfold dot; rewrite <- rsum_scal; apply rsum_ext; intros; ring).
    rewrite E1, E2 in Y. replace (/ (hh / gamma)) with (gamma / hh) in Y by (field; lra).
    replace ((1 + theta) * (1 + theta) / (2 * gamma) * (bp_weight p * (hh * dot d s s)))
      with (bp_weight p * (hh / gamma * ((1 + theta) * (1 + theta) * dot d s s) / 2)) by (field; lra).
    replace (bp_weight p * (gamma / hh * dot d x x) * / 2) with (bp_weight p * (gamma / hh * dot d x x / 2)) by (field; lra).
    rewrite <- Rmult_minus_distr_l. apply Rmult_le_compat_l; [exact Hw|]. lra. }
  assert (B : (1 + theta) * (1 + theta) / (2 * gamma) * T <= energy / 2).
  { apply Rle_trans with ((1 + theta) * (1 + theta) / (2 * gamma) * (C * energy)).
    - apply Rmult_le_compat_l; [|exact HT]. apply Rmult_le_pos; [exact (Rle_0_sqr (1 + theta))|]. left. apply Rinv_0_lt_compat. lra.
    - apply Rmult_le_reg_l with (2 * gamma); [lra|].
      replace (2 * gamma * ((1 + theta) * (1 + theta) / (2 * gamma) * (C * energy))) with ((1 + theta) * (1 + theta) * C * energy) by (field; lra).
      replace (2 * gamma * (energy / 2)) with (gamma * energy) by field. apply Rmult_le_compat_r; auto. }
  lra.
Qed.
Print Assumptions C94_coercive.

(** The sizes the penalty is divided by: those of the owned cells, zero on ghosts. *)
Theorem C94_cell_sizes :
  forall (ncells nall : nat) (h_vals : list R), (ncells <= nall)%nat ->
    length (cell_sizes ncells nall h_vals) = nall /\
    forall c, (c < nall)%nat -> nth c (cell_sizes ncells nall h_vals) 0 = if (c <? ncells)%nat then nth c h_vals 0 else 0.
Proof.
  intros ncells nall h_vals. unfold cell_sizes. induction ncells as [|k IH]; intros Hk.
  - cbn [for_loop]. split; [apply repeat_length|]. intros c Hc. cbn. apply nth_repeat.
  - rewrite for_loop_S. destruct (IH ltac:(lia)) as [L N]. split; [rewrite upd_length; exact L|].
    intros c Hc. destruct (Nat.eq_dec c k) as [->|Hne].
    + rewrite nth_upd_same by (rewrite L; lia). destruct (Nat.ltb_spec k (S k)); [reflexivity|lia].
    + rewrite nth_upd_other by auto. rewrite N by exact Hc.
      destruct (Nat.ltb_spec c k); destruct (Nat.ltb_spec c (S k)); try lia; reflexivity.
Qed.
Print Assumptions C94_cell_sizes.

(** Non-vacuity: a unit square edge with two points, linear displacement u = (x, 0),
    mu = lmbda = 1, h = 1/2: the trace inequality holds with C = 10 for its energy
    (2 mu + lmbda) / 1 = 3 and gamma = 40 suffices for theta = 1. *)
Definition example_point (q : nat) : bpoint :=
  {| bp_id := q; bp_cell := 0; bp_weight := 1 / 2; bp_normal := fun i => if (i =? 0)%nat then 1 else 0 |}.
Definition example_field (q : nat) : field :=
  {| val := fun i => if (i =? 0)%nat then 1 else 0; grad := fun i j => if andb (i =? 0)%nat (j =? 0)%nat then 1 else 0 |}.
Example C94_example :
  let ds := [example_point 0; example_point 1] in let h := cell_sizes 1 2 [1 / 2] in
  3 / 2 + 80 / 2 <= 3 + added 2 1 1 40 1 h ds example_field example_field (fun _ _ => 0) /\
  added 2 1 1 40 1 h ds example_field example_field (fun _ _ => 0) = 74.
Proof.
  intros ds h. 
  assert (V : added 2 1 1 40 1 h ds example_field example_field (fun _ _ => 0) = 74).
  { unfold added, weak_dirichlet, boundary_terms, inner, apply_matrix, sigma_func, epsilon, h, cell_sizes, ds. cbn. field. }
  split; [|exact V]. 
  refine (Rle_trans _ _ _ _ (C94_coercive 2 1 1 40 1 h ds example_field 3 10 _ _ _ _ _)); try lra.
  - unfold boundary_sum, dot, h, cell_sizes, ds. cbn. lra.
  - intros p [<-|[<-|[]]]; unfold h, cell_sizes; cbn; lra.
  - unfold boundary_sum, dot, traction, h, cell_sizes, ds. cbn. lra.
Qed.
