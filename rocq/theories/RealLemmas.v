(** Vectors as lists of reals, Cauchy-Schwarz, and directional derivatives. *)
From Coq Require Import List Arith Lia Bool Reals Lra.
Import ListNotations.
From Verif Require Import Prelude PreludeLemmas RSum CropModel CandidatesProps.
Local Open Scope R_scope.

Definition dotn (n : nat) (x y : list R) : R := rsum n (fun i => nth i x 0 * nth i y 0).
Definition normn (n : nat) (x : list R) : R := sqrt (dotn n x x).

Lemma dotn_sq_nonneg n x : 0 <= dotn n x x.
Proof. apply rsum_nonneg. intros i _. apply Rle_0_sqr. Qed.
Lemma normn_nonneg n x : 0 <= normn n x.
Proof. apply sqrt_pos. Qed.
Lemma normn_sq n x : normn n x * normn n x = dotn n x x.
Proof. apply sqrt_sqrt, dotn_sq_nonneg. Qed.
Lemma dotn_sym n x y : dotn n x y = dotn n y x.
Proof. apply rsum_ext. intros. ring. Qed.

Lemma rsum_nonneg_zero n f : (forall i, (i < n)%nat -> 0 <= f i) -> rsum n f = 0 -> forall i, (i < n)%nat -> f i = 0.
Proof.
  induction n as [|n IH]; intros H E i Hi; [lia|]. cbn [rsum] in E.
  assert (0 <= rsum n f) by (apply rsum_nonneg; intros; apply H; lia). assert (0 <= f n) by (apply H; lia).
  destruct (Nat.eq_dec i n) as [->|Hne]; [lra|]. apply IH; [intros; apply H; lia|lra|lia].
Qed.

(** (Σ ab)² ≤ (Σ a²)(Σ b²) *)
Lemma cauchy_schwarz_sq n (a b : nat -> R) :
  rsum n (fun i => a i * b i) * rsum n (fun i => a i * b i) <= rsum n (fun i => a i * a i) * rsum n (fun i => b i * b i).
Proof.
  set (A := rsum n (fun i => a i * a i)). set (B := rsum n (fun i => b i * b i)). set (C := rsum n (fun i => a i * b i)).
  assert (HB : 0 <= B) by (apply rsum_nonneg; intros; apply Rle_0_sqr).
  assert (H : 0 <= rsum n (fun i => (B * a i - C * b i) * (B * a i - C * b i))) by (apply rsum_nonneg; intros; apply Rle_0_sqr).
  assert (E : rsum n (fun i => (B * a i - C * b i) * (B * a i - C * b i)) = B * B * A - 2 * B * C * C + C * C * B).
  { rewrite (rsum_ext n _ (fun i => (B * B) * (a i * a i) + ((- (2 * B * C)) * (a i * b i) + (C * C) * (b i * b i)))) by (intros; ring).
    rewrite !rsum_plus, !rsum_scal. fold A B C. ring. }
  rewrite E in H.
  destruct (Req_dec B 0) as [Z|NZ].
  - assert (Hb : forall i, (i < n)%nat -> b i = 0).
    { intros i Hi. assert (b i * b i = 0) as Q by (apply (rsum_nonneg_zero n (fun i => b i * b i)); auto; intros; apply Rle_0_sqr).
      apply Rmult_integral in Q. tauto. }
    assert (C = 0) as ->. { unfold C. rewrite (rsum_ext n _ (fun _ => 0)) by (intros i Hi; rewrite Hb by auto; ring). apply rsum_0. }
    rewrite Z. lra.
  - assert (0 < B) by lra. nra.
Qed.

Lemma cauchy_schwarz n x y : dotn n x y <= normn n x * normn n y.
Proof.
  apply Rsqr_incr_0_var; [|apply Rmult_le_pos; apply normn_nonneg]. unfold Rsqr.
  replace (normn n x * normn n y * (normn n x * normn n y)) with ((normn n x * normn n x) * (normn n y * normn n y)) by ring.
  rewrite !normn_sq. apply (cauchy_schwarz_sq n (fun i => nth i x 0) (fun i => nth i y 0)).
Qed.

(** ** Derivatives *)
Lemma derivable_local f g x l (delta : R) :
  0 < delta -> (forall y, Rabs (y - x) < delta -> f y = g y) -> derivable_pt_lim g x l -> derivable_pt_lim f x l.
Proof.
  intros Hd E H eps Heps. destruct (H eps Heps) as [d Hdd].
  assert (Hm : 0 < Rmin d delta) by (apply Rmin_pos; auto; apply cond_pos).
  exists (mkposreal _ Hm). intros h Hh Hlt. cbn in Hlt.
  rewrite !E.
  - apply Hdd; auto. eapply Rlt_le_trans; [exact Hlt|apply Rmin_l].
  - replace (x - x) with 0 by ring. rewrite Rabs_R0. auto.
  - replace (x + h - x) with h by ring. eapply Rlt_le_trans; [exact Hlt|apply Rmin_r].
Qed.

Lemma derivable_ext f g x l : (forall y, f y = g y) -> derivable_pt_lim g x l -> derivable_pt_lim f x l.
Proof. intros E. apply (derivable_local f g x l 1); [lra|auto]. Qed.

Lemma derivable_eq f x l l' : derivable_pt_lim f x l -> l = l' -> derivable_pt_lim f x l'.
Proof. now intros H <-. Qed.

Lemma derivable_const c x : derivable_pt_lim (fun _ => c) x 0.
Proof. apply derivable_pt_lim_const. Qed.
Lemma derivable_affine a b x : derivable_pt_lim (fun t => a + t * b) x b.
Proof.
  apply (derivable_eq _ _ (0 + (1 * b + x * 0))); [|ring].
  apply (derivable_pt_lim_plus (fun _ => a) (fun t => t * b)); [apply derivable_const|].
  apply (derivable_pt_lim_mult (fun t => t) (fun _ => b)); [apply derivable_pt_lim_id|apply derivable_const].
Qed.
Lemma derivable_plus f g x a b : derivable_pt_lim f x a -> derivable_pt_lim g x b -> derivable_pt_lim (fun t => f t + g t) x (a + b).
Proof. apply derivable_pt_lim_plus. Qed.
Lemma derivable_minus f g x a b : derivable_pt_lim f x a -> derivable_pt_lim g x b -> derivable_pt_lim (fun t => f t - g t) x (a - b).
Proof. apply derivable_pt_lim_minus. Qed.
Lemma derivable_mult f g x a b : derivable_pt_lim f x a -> derivable_pt_lim g x b -> derivable_pt_lim (fun t => f t * g t) x (a * g x + f x * b).
Proof. apply derivable_pt_lim_mult. Qed.
Lemma derivable_scal c f x a : derivable_pt_lim f x a -> derivable_pt_lim (fun t => c * f t) x (c * a).
Proof. intros H. apply (derivable_eq _ _ (0 * f x + c * a)); [|ring]. apply (derivable_mult (fun _ => c)); [apply derivable_const|auto]. Qed.
Lemma derivable_scal_r c f x a : derivable_pt_lim f x a -> derivable_pt_lim (fun t => f t * c) x (a * c).
Proof. intros H. apply (derivable_ext _ (fun t => c * f t)); [intros; ring|]. rewrite (Rmult_comm a c). now apply derivable_scal. Qed.
Lemma derivable_opp f x a : derivable_pt_lim f x a -> derivable_pt_lim (fun t => - f t) x (- a).
Proof. apply derivable_pt_lim_opp. Qed.
Lemma derivable_div f g x a b : derivable_pt_lim f x a -> derivable_pt_lim g x b -> g x <> 0 ->
  derivable_pt_lim (fun t => f t / g t) x ((a * g x - b * f x) / (g x * g x)).
Proof. intros. apply (derivable_pt_lim_div f g x a b); auto. Qed.
Lemma derivable_sqrt f x a : derivable_pt_lim f x a -> 0 < f x -> derivable_pt_lim (fun t => sqrt (f t)) x (a / (2 * sqrt (f x))).
Proof.
  intros H Hp. apply (derivable_eq _ _ (/ (2 * sqrt (f x)) * a)); [|unfold Rdiv; ring].
  apply (derivable_pt_lim_comp f sqrt); auto. now apply derivable_pt_lim_sqrt.
Qed.
Lemma derivable_rsum n (f : nat -> R -> R) x (a : nat -> R) :
  (forall i, (i < n)%nat -> derivable_pt_lim (f i) x (a i)) -> derivable_pt_lim (fun t => rsum n (fun i => f i t)) x (rsum n a).
Proof.
  induction n as [|n IH]; intros H; cbn [rsum]; [apply derivable_const|].
  apply derivable_plus; [apply IH; intros; apply H; lia|apply H; lia].
Qed.
Lemma derivable_lsum {A} (l : list A) (f : A -> R -> R) x (a : A -> R) :
  (forall i, In i l -> derivable_pt_lim (f i) x (a i)) -> derivable_pt_lim (fun t => lsum l (fun i => f i t)) x (lsum l a).
Proof.
  induction l as [|i l IH]; intros H; cbn [lsum]; [apply derivable_const|].
  apply derivable_plus; [apply H; left; auto|apply IH; intros; apply H; right; auto].
Qed.

Lemma derivable_continuous f x a : derivable_pt_lim f x a -> forall eps, 0 < eps -> exists delta, 0 < delta /\ forall y, Rabs (y - x) < delta -> Rabs (f y - f x) < eps.
Proof.
  intros H eps Heps. destruct (derivable_continuous_pt f x (exist _ a H) eps Heps) as (d & Hd & C).
  exists d. split; auto. intros y Hy. destruct (Req_dec x y) as [->|Hne].
  - replace (f y - f y) with 0 by ring. rewrite Rabs_R0. auto.
  - apply C. split; [split; [exact I|auto]|exact Hy].
Qed.

(** A function continuous at [x] stays on the side of [c] where it is. *)
Lemma stays_below f x a c : derivable_pt_lim f x a -> f x < c -> exists delta, 0 < delta /\ forall y, Rabs (y - x) < delta -> f y < c.
Proof.
  intros H Hc. destruct (derivable_continuous f x a H (c - f x)) as (d & Hd & K); [lra|]. exists d. split; auto.
  intros y Hy. specialize (K y Hy). apply Rabs_def2 in K. lra.
Qed.
Lemma stays_above f x a c : derivable_pt_lim f x a -> c < f x -> exists delta, 0 < delta /\ forall y, Rabs (y - x) < delta -> c < f y.
Proof.
  intros H Hc. destruct (derivable_continuous f x a H (f x - c)) as (d & Hd & K); [lra|]. exists d. split; auto.
  intros y Hy. specialize (K y Hy). apply Rabs_def2 in K. lra.
Qed.
