(** Finite sums of reals and loops that accumulate. *)
From Coq Require Import List Arith Lia Reals Lra Bool.
Import ListNotations.
From Verif Require Import Prelude PreludeLemmas.
Local Open Scope R_scope.

(** sum of [f 0 .. f (n-1)] *)
Fixpoint rsum (n : nat) (f : nat -> R) : R :=
  match n with
  | O => 0
  | S m => rsum m f + f m
  end.

Lemma rsum_ext n f g : (forall i, (i < n)%nat -> f i = g i) -> rsum n f = rsum n g.
Proof.
  induction n as [|n IH]; intros H; cbn; auto. rewrite IH by auto. now rewrite H by lia.
Qed.

Lemma rsum_0 n : rsum n (fun _ => 0) = 0.
Proof. induction n; cbn; lra. Qed.

Lemma rsum_zero n f : (forall i, (i < n)%nat -> f i = 0) -> rsum n f = 0.
Proof. intros H. rewrite (rsum_ext n f (fun _ => 0)) by auto. apply rsum_0. Qed.

Lemma rsum_plus n f g : rsum n (fun i => f i + g i) = rsum n f + rsum n g.
Proof. induction n; cbn; lra. Qed.

Lemma rsum_minus n f g : rsum n (fun i => f i - g i) = rsum n f - rsum n g.
Proof. induction n; cbn; lra. Qed.

Lemma rsum_opp n f : rsum n (fun i => - f i) = - rsum n f.
Proof. induction n; cbn; lra. Qed.

Lemma rsum_scal n c f : rsum n (fun i => c * f i) = c * rsum n f.
Proof. induction n; cbn; [lra|]. rewrite IHn. lra. Qed.

Lemma rsum_scal_r n c f : rsum n (fun i => f i * c) = rsum n f * c.
Proof. induction n; cbn; [lra|]. rewrite IHn. lra. Qed.

Lemma rsum_const n c : rsum n (fun _ => c) = INR n * c.
Proof. induction n; cbn [rsum]; [cbn; lra|]. rewrite S_INR, IHn. lra. Qed.

Lemma rsum_swap n m (f : nat -> nat -> R) :
  rsum n (fun i => rsum m (fun j => f i j)) = rsum m (fun j => rsum n (fun i => f i j)).
Proof.
  induction n as [|n IH]; cbn; [now rewrite rsum_0|]. rewrite IH, <- rsum_plus. reflexivity.
Qed.

Lemma rsum_S_l n f : rsum (S n) f = f O + rsum n (fun i => f (S i)).
Proof. induction n as [|n IH]; cbn in *; [lra|]. rewrite IH. lra. Qed.

Lemma rsum_nonneg n f : (forall i, (i < n)%nat -> 0 <= f i) -> 0 <= rsum n f.
Proof.
  induction n as [|n IH]; intros H; cbn; [lra|].
  pose proof (IH ltac:(intros; apply H; lia)). pose proof (H n ltac:(lia)). lra.
Qed.

Lemma rsum_le n f g : (forall i, (i < n)%nat -> f i <= g i) -> rsum n f <= rsum n g.
Proof.
  induction n as [|n IH]; intros H; cbn; [lra|].
  pose proof (IH ltac:(intros; apply H; lia)). pose proof (H n ltac:(lia)). lra.
Qed.

(** Only one index contributes. *)
Lemma rsum_single n k f : (k < n)%nat -> (forall i, (i < n)%nat -> i <> k -> f i = 0) -> rsum n f = f k.
Proof.
  induction n as [|n IH]; intros Hk H; [lia|]. cbn.
  destruct (Nat.eq_dec k n) as [->|Hne].
  - rewrite rsum_zero; [lra|]. intros i Hi. apply H; lia.
  - rewrite IH by (auto; lia). rewrite (H n) by lia. lra.
Qed.

Lemma rsum_delta n k f : (k < n)%nat -> rsum n (fun i => (if (i =? k)%nat then 1 else 0) * f i) = f k.
Proof.
  intros Hk. rewrite (rsum_single n k); auto.
  - rewrite Nat.eqb_refl. lra.
  - intros i _ Hne. destruct (Nat.eqb_spec i k); [congruence|lra].
Qed.

Lemma rsum_app n m f : rsum (n + m) f = rsum n f + rsum m (fun i => f (n + i)%nat).
Proof.
  induction m as [|m IH]; cbn [rsum].
  - rewrite Nat.add_0_r. lra.
  - rewrite Nat.add_succ_r. cbn [rsum]. rewrite IH. lra.
Qed.

(** Sum over a list. *)
Fixpoint lsum {A} (l : list A) (f : A -> R) : R :=
  match l with
  | [] => 0
  | a :: t => f a + lsum t f
  end.

Lemma lsum_ext {A} (l : list A) f g : (forall a, In a l -> f a = g a) -> lsum l f = lsum l g.
Proof.
  induction l as [|a l IH]; intros H; cbn; auto. rewrite H by (left; auto).
  rewrite IH; auto. intros; apply H; right; auto.
Qed.
Lemma lsum_plus {A} (l : list A) f g : lsum l (fun a => f a + g a) = lsum l f + lsum l g.
Proof. induction l; cbn; lra. Qed.
Lemma lsum_minus {A} (l : list A) f g : lsum l (fun a => f a - g a) = lsum l f - lsum l g.
Proof. induction l; cbn; lra. Qed.
Lemma lsum_scal {A} (l : list A) c f : lsum l (fun a => c * f a) = c * lsum l f.
Proof. induction l as [|a l IH]; cbn; [lra|]. rewrite IH. lra. Qed.
Lemma lsum_scal_r {A} (l : list A) c f : lsum l (fun a => f a * c) = lsum l f * c.
Proof. induction l as [|a l IH]; cbn; [lra|]. rewrite IH. lra. Qed.
Lemma lsum_zero {A} (l : list A) f : (forall a, In a l -> f a = 0) -> lsum l f = 0.
Proof.
  induction l as [|a l IH]; intros H; cbn; auto. rewrite H by (left; auto).
  rewrite IH; [lra|]. intros; apply H; right; auto.
Qed.
Lemma lsum_app {A} (l1 l2 : list A) f : lsum (l1 ++ l2) f = lsum l1 f + lsum l2 f.
Proof. induction l1; cbn; lra. Qed.
Lemma lsum_rsum {A} (l : list A) n (f : A -> nat -> R) :
  lsum l (fun a => rsum n (f a)) = rsum n (fun i => lsum l (fun a => f a i)).
Proof.
  induction l as [|a l IH]; cbn; [now rewrite rsum_0|]. rewrite IH, <- rsum_plus. reflexivity.
Qed.
Lemma lsum_seq n f : lsum (seq 0 n) f = rsum n f.
Proof. induction n; cbn [rsum]; auto. rewrite seq_S, lsum_app, IHn. cbn. lra. Qed.
Lemma lsum_map {A B} (g : A -> B) l f : lsum (map g l) f = lsum l (fun a => f (g a)).
Proof. induction l; cbn; auto. now rewrite IHl. Qed.
Lemma lsum_flat_map {A B} (g : A -> list B) l f : lsum (flat_map g l) f = lsum l (fun a => lsum (g a) f).
Proof. induction l; cbn; auto. rewrite lsum_app. now rewrite IHl. Qed.

(** [for (i...) acc += f(i)] *)
Lemma for_loop_rsum n (f : nat -> R) a : for_loop n (fun i acc => acc + f i) a = a + rsum n f.
Proof.
  induction n as [|n IH]; [cbn; lra|]. rewrite for_loop_S, IH. cbn. lra.
Qed.

Lemma for_each_lsum {A} (l : list A) (f : A -> R) a : for_each l (fun i acc => acc + f i) a = a + lsum l f.
Proof.
  revert a. induction l as [|x l IH]; intros a; [cbn; lra|].
  change (for_each (x :: l) (fun i acc => acc + f i) a) with (for_each l (fun i acc => acc + f i) (a + f x)).
  rewrite IH. cbn. lra.
Qed.

(** ** Arrays that are accumulated into: [a[k] += v]. *)
Definition addto (a : list R) (k : nat) (v : R) : list R := upd a k (nth k a 0 + v).

Definition accs (ws : list (nat * R)) (a : list R) : list R :=
  for_each ws (fun kv a => addto a (fst kv) (snd kv)) a.

Lemma addto_length a k v : length (addto a k v) = length a.
Proof. apply upd_length. Qed.

Lemma accs_app w1 w2 a : accs (w1 ++ w2) a = accs w2 (accs w1 a).
Proof. apply for_each_app. Qed.

Lemma accs_length ws a : length (accs ws a) = length a.
Proof.
  unfold accs. apply (for_each_inv (fun _ s => length s = length a)); auto.
  intros done kv rest s _ H. now rewrite addto_length.
Qed.

(** Contribution of the writes to entry [k]. *)
Definition contrib (ws : list (nat * R)) (k : nat) : R :=
  lsum ws (fun kv => if (fst kv =? k)%nat then snd kv else 0).

Lemma nth_accs ws a k : (k < length a)%nat -> nth k (accs ws a) 0 = nth k a 0 + contrib ws k.
Proof.
  unfold contrib. revert a. induction ws as [|[k' v] ws IH]; intros a Hk; [cbn; lra|].
  change (accs ((k', v) :: ws) a) with (accs ws (addto a k' v)).
  rewrite IH by (now rewrite addto_length). cbn [lsum fst snd]. unfold addto. rewrite nth_upd.
  destruct (Nat.eqb_spec k' k) as [->|]; cbn [andb]; [|lra].
  destruct (Nat.ltb_spec k (length a)); [lra|lia].
Qed.

Lemma for_each_accs {B} (l : list B) (body : B -> list R -> list R) (f : B -> list (nat * R)) a :
  (forall b s, In b l -> body b s = accs (f b) s) ->
  for_each l body a = accs (flat_map f l) a.
Proof.
  revert a. induction l as [|b l IH]; intros a H; auto.
  cbn [flat_map]. rewrite accs_app. change (for_each (b :: l) body a) with (for_each l body (body b a)).
  rewrite H by (left; auto). apply IH. intros; apply H; right; auto.
Qed.

Lemma for_loop_accs n (body : nat -> list R -> list R) (f : nat -> list (nat * R)) a :
  (forall i s, (i < n)%nat -> body i s = accs (f i) s) ->
  for_loop n body a = accs (flat_map f (seq 0 n)) a.
Proof.
  intros H. apply for_each_accs. intros b s Hb. apply in_seq in Hb. apply H. lia.
Qed.

Lemma contrib_app w1 w2 k : contrib (w1 ++ w2) k = contrib w1 k + contrib w2 k.
Proof. apply lsum_app. Qed.

Lemma contrib_flat_map {B} (f : B -> list (nat * R)) l k :
  contrib (flat_map f l) k = lsum l (fun b => contrib (f b) k).
Proof. apply lsum_flat_map. Qed.

Lemma contrib_seq (f : nat -> list (nat * R)) n k :
  contrib (flat_map f (seq 0 n)) k = rsum n (fun i => contrib (f i) k).
Proof. rewrite contrib_flat_map. apply lsum_seq. Qed.

Lemma contrib_miss ws k : (forall v, ~ In (k, v) ws) -> contrib ws k = 0.
Proof.
  intros H. apply lsum_zero. intros [k' v] Hin. cbn. destruct (Nat.eqb_spec k' k); auto. subst.
  exfalso. exact (H v Hin).
Qed.
