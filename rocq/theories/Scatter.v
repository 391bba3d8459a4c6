(** Lemmas on loops that write into arrays ([a[k] = v]). *)
From Coq Require Import List Arith Lia Bool.
Import ListNotations.
From Verif Require Import Prelude PreludeLemmas.

Section Writes.
Context {A : Type}.

(** A sequence of array writes. *)
Definition writes (ws : list (nat * A)) (a : list A) : list A :=
  for_each ws (fun kv a => upd a (fst kv) (snd kv)) a.

Lemma writes_app ws1 ws2 a : writes (ws1 ++ ws2) a = writes ws2 (writes ws1 a).
Proof. apply for_each_app. Qed.

Lemma writes_length ws a : length (writes ws a) = length a.
Proof.
  unfold writes. apply (for_each_inv (fun _ s => length s = length a)); auto.
  intros done kv rest s _ H. now rewrite upd_length.
Qed.

Lemma writes_miss ws a k d : (forall v, ~ In (k, v) ws) -> nth k (writes ws a) d = nth k a d.
Proof.
  intros H. unfold writes.
  apply (for_each_inv (fun _ s => nth k s d = nth k a d)); auto.
  intros done [k' v] rest s E Hs. cbn [fst snd]. rewrite nth_upd_other; auto.
  intros <-. apply (H v). rewrite E. apply in_app_iff. right. left. auto.
Qed.

Lemma writes_last w1 k v w2 a d :
  k < length a -> (forall v', ~ In (k, v') w2) -> nth k (writes (w1 ++ (k, v) :: w2) a) d = v.
Proof.
  intros Hk Hm. rewrite writes_app. change ((k, v) :: w2) with ([(k, v)] ++ w2). rewrite writes_app.
  rewrite writes_miss by auto. cbn. apply nth_upd_same. now rewrite writes_length.
Qed.

(** Every written key ends with the value of some write to it. *)
Lemma writes_some ws a k v0 d :
  k < length a -> In (k, v0) ws ->
  exists w1 v w2, ws = w1 ++ (k, v) :: w2 /\ (forall v', ~ In (k, v') w2) /\ nth k (writes ws a) d = v.
Proof.
  intros Hk. induction ws as [|[k' v'] ws IH] using rev_ind; intros Hin; [contradiction|].
  apply in_app_iff in Hin.
  destruct (Nat.eq_dec k' k) as [->|Hne].
  - exists ws, v', []. split; auto. split; [tauto|]. apply writes_last; auto.
  - destruct Hin as [Hin|[E|[]]]; [|congruence].
    destruct (IH Hin) as (w1 & v & w2 & E & Hm & Hv).
    exists w1, v, (w2 ++ [(k', v')]). split; [rewrite E, <- app_assoc; auto|]. split.
    + intros v'' Hi. apply in_app_iff in Hi. destruct Hi as [Hi|[Ei|[]]]; [eapply Hm; eauto|congruence].
    + rewrite writes_app. cbn. rewrite nth_upd_other; auto.
Qed.

Lemma writes_consistent ws a k v d :
  k < length a -> In (k, v) ws -> (forall v', In (k, v') ws -> v' = v) -> nth k (writes ws a) d = v.
Proof.
  intros Hk Hin Hc. destruct (writes_some ws a k v d Hk Hin) as (w1 & v' & w2 & E & _ & Hv).
  rewrite Hv. apply Hc. rewrite E. apply in_app_iff. right. left. auto.
Qed.

(** Loops as write sequences. *)
Lemma for_each_writes {B} (l : list B) (body : B -> list A -> list A) (f : B -> list (nat * A)) a :
  (forall b s, In b l -> body b s = writes (f b) s) ->
  for_each l body a = writes (flat_map f l) a.
Proof.
  revert a. induction l as [|b l IH]; intros a H; auto.
  cbn [flat_map]. rewrite writes_app. change (for_each (b :: l) body a) with (for_each l body (body b a)).
  rewrite H by (left; auto). apply IH. intros; apply H; right; auto.
Qed.

Lemma for_loop_writes n (body : nat -> list A -> list A) (f : nat -> list (nat * A)) a :
  (forall i s, i < n -> body i s = writes (f i) s) ->
  for_loop n body a = writes (flat_map f (seq 0 n)) a.
Proof.
  intros H. apply for_each_writes. intros b s Hb. apply in_seq in Hb. apply H. lia.
Qed.

Lemma upd_writes (a : list A) k v : upd a k v = writes [(k, v)] a.
Proof. reflexivity. Qed.

End Writes.

(** In-place mapping of an array: entry by entry. *)
Lemma in_flat_map_seq {A} (f : nat -> list A) n x :
  In x (flat_map f (seq 0 n)) <-> exists i, i < n /\ In x (f i).
Proof.
  rewrite in_flat_map. split.
  - intros (i & Hi & Hx). apply in_seq in Hi. exists i. split; auto. lia.
  - intros (i & Hi & Hx). exists i. split; auto. apply in_seq. lia.
Qed.
