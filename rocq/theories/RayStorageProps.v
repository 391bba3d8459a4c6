(** C90: the working quantities of the ray tracing solver never overlap. *)
From Coq Require Import List Arith Lia.
Import ListNotations.
From Verif Require Import Prelude PreludeLemmas RayStorageModel.

(** Specification: a store with independent variables is a function from
    (quantity, row, column) to values; the documented shapes
    (RayTracing.h:96-107) say which entries exist. *)
Definition documented_shape (tdim gdim : nat) (q : quantity) : nat * nat :=
  match q with
  | q_dxi => (tdim, tdim - 1)
  | q_X_k => (tdim, 1)
  | q_x_k => (gdim, 1)
  | q_xi_k | q_dxi_k => (tdim - 1, 1)
  | q_J => (gdim, tdim)
  | q_dGk_tmp => (gdim, tdim - 1)
  | q_dGk => (gdim - 1, tdim - 1)
  | q_dGk_inv => (tdim - 1, gdim - 1)
  | q_Gk => (gdim - 1, 1)
  | q_tangents => (gdim - 1, gdim)
  | q_point => (gdim, 1)
  end.
Definition has_entry (tdim gdim : nat) (e : quantity * nat * nat) : Prop :=
  snd (fst e) < fst (documented_shape tdim gdim (fst (fst e))) /\
  snd e < snd (documented_shape tdim gdim (fst (fst e))).

Definition read_entry {A} (zero : A) tdim gdim (w : list A) (e : quantity * nat * nat) : A :=
  storage_read zero tdim gdim w (fst (fst e)) (snd (fst e)) (snd e).
(** A sequence of writes through the views, in program order. *)
Definition run_writes {A} tdim gdim (w : list A) (l : list (quantity * nat * nat * A)) : list A :=
  fold_left (fun w' e => storage_write tdim gdim w' (fst (fst (fst e))) (snd (fst (fst e))) (snd (fst e)) (snd e)) l w.
Lemma shape_eq tdim gdim q : accessor_shape tdim gdim q = documented_shape tdim gdim q.
Proof. destruct q; reflexivity. Qed.

Lemma slot_size tdim gdim q :
  nth (accessor_slot q) (storage_distribution tdim gdim) 0 =
  fst (accessor_shape tdim gdim q) * snd (accessor_shape tdim gdim q).
Proof. destruct q; cbn [accessor_slot storage_distribution nth accessor_shape fst snd]; lia. Qed.

Lemma slot_lt q : accessor_slot q < 12.
Proof. destruct q; cbn; lia. Qed.

Lemma slot_inj q q' : accessor_slot q = accessor_slot q' -> q = q'.
Proof. destruct q, q'; cbn; intros; congruence || lia. Qed.

Lemma in_view i j a b : i < a -> j < b -> i * b + j < a * b.
Proof. intros. nia. Qed.

Lemma position_range tdim gdim q i j : has_entry tdim gdim (q, i, j) ->
  nth (accessor_slot q) (storage_offsets tdim gdim) 0 <= entry_position tdim gdim q i j <
  nth (S (accessor_slot q)) (storage_offsets tdim gdim) 0.
Proof.
  intros [Hi Hj]; cbn [fst snd] in *. rewrite <- !shape_eq in *.
  unfold storage_offsets. rewrite psums_step by (change (accessor_slot q < 12); apply slot_lt).
  rewrite slot_size. unfold entry_position, storage_offsets.
  pose proof (in_view _ _ _ _ Hi Hj). lia.
Qed.

Lemma position_inj tdim gdim q i j q' i' j' :
  has_entry tdim gdim (q, i, j) -> has_entry tdim gdim (q', i', j') ->
  entry_position tdim gdim q i j = entry_position tdim gdim q' i' j' -> (q, i, j) = (q', i', j').
Proof.
  intros H H' E.
  pose proof (position_range _ _ _ _ _ H) as R. pose proof (position_range _ _ _ _ _ H') as R'.
  pose proof (slot_lt q). pose proof (slot_lt q').
  assert (L : length (storage_distribution tdim gdim) = 12) by reflexivity.
  assert (Q : q = q').
  { apply slot_inj. destruct (lt_eq_lt_dec (accessor_slot q) (accessor_slot q')) as [[D|D]|D]; auto; exfalso.
    - pose proof (psums_mono (storage_distribution tdim gdim) (S (accessor_slot q)) (accessor_slot q')) as M.
      fold (storage_offsets tdim gdim) in M. lia.
    - pose proof (psums_mono (storage_distribution tdim gdim) (S (accessor_slot q')) (accessor_slot q)) as M.
      fold (storage_offsets tdim gdim) in M. lia. }
  subst q'. destruct H as [Hi Hj], H' as [Hi' Hj']; cbn [fst snd] in *.
  unfold entry_position in E. rewrite shape_eq in E.
  assert (i = i') by nia. subst i'. assert (j = j') by lia. subst; reflexivity.
Qed.

Lemma init_length {A} (zero : A) tdim gdim :
  length (storage_init zero tdim gdim) = nth 12 (storage_offsets tdim gdim) 0.
Proof. unfold storage_init. rewrite repeat_length. reflexivity. Qed.

(** Every view has the documented shape and every one of its entries lies inside
    the work array; two entries share a place only if they are the same entry;
    and the array holds nothing else. *)
Theorem C90_views_disjoint_in_bounds :
  forall (tdim gdim : nat),
    (forall q, accessor_shape tdim gdim q = documented_shape tdim gdim q) /\
    (forall A (zero : A) q i j, has_entry tdim gdim (q, i, j) ->
       entry_position tdim gdim q i j < length (storage_init zero tdim gdim)) /\
    (forall q i j q' i' j', has_entry tdim gdim (q, i, j) -> has_entry tdim gdim (q', i', j') ->
       entry_position tdim gdim q i j = entry_position tdim gdim q' i' j' -> q = q' /\ i = i' /\ j = j') /\
    (forall A (zero : A) p, p < length (storage_init zero tdim gdim) ->
       exists q i j, has_entry tdim gdim (q, i, j) /\ entry_position tdim gdim q i j = p).
Proof.
  intros tdim gdim. split; [apply shape_eq|]. split; [|split].
  - intros A zero q i j H. rewrite init_length.
    pose proof (position_range _ _ _ _ _ H). pose proof (slot_lt q).
    pose proof (psums_mono (storage_distribution tdim gdim) (S (accessor_slot q)) 12) as M.
    fold (storage_offsets tdim gdim) in M. assert (length (storage_distribution tdim gdim) = 12) by reflexivity. lia.
  - intros q i j q' i' j' H H' E. pose proof (position_inj _ _ _ _ _ _ _ _ H H' E) as X. injection X; auto.
  - intros A zero p Hp. rewrite init_length in Hp.
    assert (Z : nth 0 (storage_offsets tdim gdim) 0 <= p) by (cbn [storage_offsets psums psums_from storage_distribution nth]; lia).
    assert (K : forall k, k <= 12 -> nth k (storage_offsets tdim gdim) 0 <= p \/
       exists q i j, has_entry tdim gdim (q, i, j) /\ entry_position tdim gdim q i j = p).
    { induction k; intros Hk; [left; exact Z|].
      destruct (IHk ltac:(lia)) as [L|R]; [|right; exact R].
      destruct (le_lt_dec (nth (S k) (storage_offsets tdim gdim) 0) p) as [|Lt]; [left; auto|right].
      assert (Q : exists q, accessor_slot q = k).
      { destruct k as [|[|[|[|[|[|[|[|[|[|[|[|k]]]]]]]]]]]];
          [exists q_dxi|exists q_X_k|exists q_x_k|exists q_xi_k|exists q_dxi_k|exists q_J|exists q_dGk_tmp
          |exists q_dGk|exists q_dGk_inv|exists q_Gk|exists q_tangents|exists q_point|lia]; reflexivity. }
      destruct Q as [q Q].
      unfold storage_offsets in Lt. rewrite psums_step in Lt by (change (k < 12); lia).
      fold (storage_offsets tdim gdim) in Lt. rewrite <- Q in Lt at 2. rewrite slot_size, shape_eq in Lt.
      set (b := snd (documented_shape tdim gdim q)) in *.
      set (a := fst (documented_shape tdim gdim q)) in *.
      set (d := p - nth k (storage_offsets tdim gdim) 0).
      assert (Hd : d < a * b) by lia.
      assert (Hb : b <> 0) by (intros Z0; rewrite Z0, Nat.mul_0_r in Hd; lia).
      exists q, (d / b), (d mod b). split.
      - split; cbn [fst snd]; fold a b; [apply Nat.div_lt_upper_bound; lia|apply Nat.mod_upper_bound; auto].
      - unfold entry_position. rewrite shape_eq. fold b. rewrite Q.
        pose proof (Nat.div_mod d b Hb). nia. }
    destruct (K 12 (le_n _)) as [L|R]; [lia|exact R].
Qed.
Print Assumptions C90_views_disjoint_in_bounds.

Lemma write_length {A} tdim gdim (w : list A) q i j v : length (storage_write tdim gdim w q i j v) = length w.
Proof. apply upd_length. Qed.

(** After any sequence of writes through the views, every entry has the value
    written to it last, or its initial value zero if it was never written: the
    storage behaves as twelve independent variables. *)
Theorem C90_storage_behaves_as_variables :
  forall (A : Type) (zero : A) (tdim gdim : nat) (writes : list (quantity * nat * nat * A)) (e : quantity * nat * nat),
    Forall (fun wr => has_entry tdim gdim (fst wr)) writes -> has_entry tdim gdim e ->
    (forall v before after, writes = before ++ (e, v) :: after -> ~ In e (map fst after) ->
       read_entry zero tdim gdim (run_writes tdim gdim (storage_init zero tdim gdim) writes) e = v) /\
    (~ In e (map fst writes) ->
       read_entry zero tdim gdim (run_writes tdim gdim (storage_init zero tdim gdim) writes) e = zero).
Proof.
  intros A zero tdim gdim writes e HW HE.
  assert (Len : forall l (w : list A), length (run_writes tdim gdim w l) = length w).
  { induction l as [|h t IH]; intros w; [reflexivity|]. cbn. unfold run_writes in IH. rewrite IH. apply upd_length. }
  assert (Keep : forall l (w : list A), Forall (fun wr => has_entry tdim gdim (fst wr)) l -> ~ In e (map fst l) ->
     read_entry zero tdim gdim (run_writes tdim gdim w l) e = read_entry zero tdim gdim w e).
  { induction l as [|[[[q i] j] v] t IH]; intros w HF HN; [reflexivity|].
    inversion HF as [|? ? H1 H2]; subst. cbn [map fst snd] in HN. cbn [run_writes fold_left fst snd].
    change (read_entry zero tdim gdim (run_writes tdim gdim (storage_write tdim gdim w q i j v) t) e =
            read_entry zero tdim gdim w e).
    rewrite IH; auto; [|intros C; apply HN; right; auto].
    unfold read_entry, storage_read, storage_write. apply nth_upd_other.
    intros C. apply HN; left. cbn [fst] in H1. destruct e as [[q' i'] j']. cbn [fst snd] in *.
    apply (position_inj tdim gdim); auto. }
  split.
  - intros v before after -> HN. unfold run_writes. rewrite fold_left_app. cbn [fold_left].
    fold (run_writes tdim gdim (storage_init zero tdim gdim) before).
    apply Forall_app in HW as [_ HA]. inversion HA; subst.
    match goal with |- read_entry _ _ _ (fold_left _ after ?w) _ = _ =>
      change (read_entry zero tdim gdim (run_writes tdim gdim w after) e = v) end.
    rewrite Keep; auto. cbn [fst snd].
    unfold read_entry, storage_read, storage_write. apply nth_upd_same. rewrite Len.
    destruct (C90_views_disjoint_in_bounds tdim gdim) as (_ & B & _). destruct e as [[q i] j]. apply B; auto.
  - intros HN. rewrite Keep; auto. unfold read_entry, storage_read, storage_init.
    rewrite nth_repeat. reflexivity.
Qed.
Print Assumptions C90_storage_behaves_as_variables.

(** Non-vacuity: three dimensions, a write to the Jacobian between two writes to
    its neighbours. *)
Example C90_example :
  has_entry 3 3 (q_J, 2, 2) /\ has_entry 3 3 (q_dGk_tmp, 0, 0) /\ has_entry 3 3 (q_dxi_k, 1, 0) /\
  entry_position 3 3 q_J 2 2 = 24 /\ entry_position 3 3 q_dGk_tmp 0 0 = 25 /\
  read_entry 0 3 3 (run_writes 3 3 (storage_init 0 3 3)
    [((q_dxi_k, 1, 0), 7); ((q_J, 2, 2), 8); ((q_dGk_tmp, 0, 0), 9)]) (q_J, 2, 2) = 8.
Proof. repeat split; cbn; lia. Qed.
