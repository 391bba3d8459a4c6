(** Reasoning about kernels: geometry seen by a point, change of one buffer
    entry, buffers a kernel may touch. *)
From Coq Require Import List Arith Lia Bool Reals Lra.
Import ListNotations.
From Verif Require Import Prelude PreludeLemmas RSum RayModel AssemblyModel AssemblyProofs KernelModel.
Local Open Scope R_scope.

(** ** Geometry at a point *)
(** The geometry a kernel should use at point [q]: that of the point, or of the
    facet's first point on affine meshes. *)
Definition geometry_at (kd : kernel_data) (coords : list R) (f q : nat) : geometry :=
  let q_pos := (if kd_affine kd then kd_qp_offsets kd f else kd_qp_offsets kd f + q)%nat in
  let K := fst (compute_facet_jacobian kd coords f q_pos) in
  mkGeometry K (snd (compute_facet_jacobian kd coords f q_pos))
    (physical_facet_normal (kd_tdim kd) (kd_gdim kd) K (kd_ref_normal kd f)).

Lemma facet_scale_nonneg kd coords f q : 0 <= g_detJ (geometry_at kd coords f q).
Proof. cbn. apply Rabs_pos. Qed.

Lemma quadrature_loop_geometry kd coords f junk qs body bufs :
  quadrature_loop kd coords f junk qs body bufs = for_each qs (fun q b => body q (geometry_at kd coords f q) b) bufs.
Proof.
  unfold quadrature_loop. destruct (kd_affine kd) eqn:E.
  - assert (S : start_geometry kd coords f junk = geometry_at kd coords f 0).
    { unfold start_geometry, geometry_at. rewrite E. cbn [fst snd compute_facet_jacobian]. rewrite Rabs_Rabsolu. reflexivity. }
    assert (A : forall q, geometry_at kd coords f q = geometry_at kd coords f 0) by (intros q; unfold geometry_at; rewrite E; reflexivity).
    assert (U : forall q g, update_geometry kd coords f q g = g) by (intros q g; unfold update_geometry; rewrite E; reflexivity).
    rewrite S. revert bufs. induction qs as [|q qs IH]; intros bufs; [reflexivity|].
    unfold for_each in *. cbn [fold_left fst snd]. cbv zeta. rewrite U, (A q). apply IH.
  - assert (G : forall g, snd (for_each qs (fun q st => let g := update_geometry kd coords f q (fst st) in (g, body q g (snd st))) (g, bufs)) =
      for_each qs (fun q b => body q (geometry_at kd coords f q) b) bufs); [|apply G].
    revert bufs. induction qs as [|q qs IH]; intros bufs g; [reflexivity|].
    unfold for_each in *. cbn [fold_left fst snd]. rewrite IH. f_equal.
    unfold update_geometry, geometry_at. rewrite E. reflexivity.
Qed.

(** ** Change of one entry *)
Definition entry (bufs : list (list R)) (s i : nat) : R := nth i (nth s bufs []) 0.
Definition valid (bufs : list (list R)) (s i : nat) : Prop := (s < length bufs)%nat /\ (i < length (nth s bufs []))%nat.
(** [out] is [bufs] with [v] added to entry [i] of buffer [s]. *)
Definition chg (s i : nat) (bufs out : list (list R)) (v : R) : Prop :=
  valid bufs s i -> valid out s i /\ entry out s i = entry bufs s i + v.

Lemma chg_refl s i bufs : chg s i bufs bufs 0.
Proof. intros H. split; auto. ring. Qed.

Lemma chg_trans s i b1 b2 b3 v w : chg s i b1 b2 v -> chg s i b2 b3 w -> chg s i b1 b3 (v + w).
Proof. intros H1 H2 V. destruct (H1 V) as [V2 E2]. destruct (H2 V2) as [V3 E3]. split; auto. rewrite E3, E2. ring. Qed.

Lemma chg_eq s i b1 b2 v w : chg s i b1 b2 v -> v = w -> chg s i b1 b2 w.
Proof. now intros H <-. Qed.

Lemma acc_length bufs s i v : length (acc bufs s i v) = length bufs.
Proof. apply upd_length. Qed.

Lemma acc_nth bufs s i v j : nth j (acc bufs s i v) [] = if ((s =? j)%nat && (s <? length bufs)%nat)%bool then addto (nth s bufs []) i v else nth j bufs [].
Proof. unfold acc. rewrite nth_upd. reflexivity. Qed.

Lemma acc_row_length bufs s i v j : length (nth j (acc bufs s i v) []) = length (nth j bufs []).
Proof.
  rewrite acc_nth. destruct (Nat.eqb_spec s j) as [->|]; cbn [andb]; auto. destruct (j <? length bufs)%nat; auto. apply addto_length.
Qed.

Lemma chg_acc_hit s i bufs out v w : chg s i bufs out v -> chg s i bufs (acc out s i w) (v + w).
Proof.
  intros H. eapply chg_trans; [exact H|]. intros [V1 V2]. split; [split; [rewrite acc_length; auto | rewrite acc_row_length; auto]|].
  unfold entry. rewrite acc_nth, Nat.eqb_refl. apply Nat.ltb_lt in V1. rewrite V1. cbn [andb]. unfold addto. rewrite nth_upd, Nat.eqb_refl. apply Nat.ltb_lt in V2. rewrite V2. reflexivity.
Qed.

Lemma chg_acc_miss s i bufs out v s' i' w : chg s i bufs out v -> s' <> s \/ i' <> i -> chg s i bufs (acc out s' i' w) v.
Proof.
  intros H N. replace v with (v + 0) by ring. eapply chg_trans; [exact H|]. intros [V1 V2]. split; [split; [rewrite acc_length; auto | rewrite acc_row_length; auto]|].
  unfold entry. rewrite acc_nth. destruct (Nat.eqb_spec s' s) as [->|]; cbn [andb]; [|ring]. destruct (s <? length out)%nat; [|ring].
  unfold addto. rewrite nth_upd. destruct (Nat.eqb_spec i' i) as [->|]; cbn [andb]; [|ring]. destruct N; contradiction.
Qed.

Lemma chg_loop s i n body f bufs out v :
  chg s i bufs out v -> (forall k b, (k < n)%nat -> chg s i b (body k b) (f k)) -> chg s i bufs (for_loop n body out) (v + rsum n f).
Proof.
  intros H B. eapply chg_trans; [exact H|]. clear H. induction n as [|n IH]; [apply chg_refl|].
  rewrite for_loop_S. cbn [rsum]. eapply chg_trans; [apply IH; intros; apply B; lia | apply B; lia].
Qed.

Lemma chg_loop_none s i n body bufs out v :
  chg s i bufs out v -> (forall k b, (k < n)%nat -> chg s i b (body k b) 0) -> chg s i bufs (for_loop n body out) v.
Proof. intros H B. eapply chg_eq; [apply (chg_loop s i n body (fun _ => 0) _ _ _ H B)|]. rewrite rsum_0. ring. Qed.

Lemma chg_loop_one s i n k body bufs out v w :
  (k < n)%nat -> chg s i bufs out v -> (forall b, chg s i b (body k b) w) -> (forall j b, (j < n)%nat -> j <> k -> chg s i b (body j b) 0) ->
  chg s i bufs (for_loop n body out) (v + w).
Proof.
  intros Hk H B1 B0. eapply chg_eq; [apply (chg_loop s i n body (fun j => if (j =? k)%nat then w else 0) _ _ _ H)|].
  - intros j b Hj. destruct (Nat.eqb_spec j k) as [->|N]; auto.
  - rewrite (rsum_single n k) by (auto; intros j Hj N; now apply Nat.eqb_neq in N as ->). rewrite Nat.eqb_refl. reflexivity.
Qed.

Lemma chg_each {A} s i (l : list A) body f bufs :
  (forall q b, In q l -> chg s i b (body q b) (f q)) -> chg s i bufs (for_each l body bufs) (lsum l f).
Proof.
  intros B. revert bufs. induction l as [|q l IH]; intros bufs; [apply chg_refl|].
  change (for_each (q :: l) body bufs) with (for_each l body (body q bufs)). cbn [lsum].
  eapply chg_trans; [apply B; left; auto|]. apply IH. intros; apply B; right; auto.
Qed.

(** ** Index arithmetic *)
Lemma index2_inj bs n i n' i' : (n < bs)%nat -> (n' < bs)%nat -> (n + i * bs)%nat = (n' + i' * bs)%nat -> n = n' /\ i = i'.
Proof.
  intros H H' E. assert (i = i').
  { destruct (Nat.lt_trichotomy i i') as [L|[L|L]]; auto; exfalso; nia. }
  subst. lia.
Qed.

Lemma index2_inj' bs n i n' i' : (n < bs)%nat -> (n' < bs)%nat -> (i * bs + n)%nat = (i' * bs + n')%nat -> n = n' /\ i = i'.
Proof. intros H H' E. apply (index2_inj bs); auto. lia. Qed.

Lemma index4_inj bs nd b i l j b' i' l' j' : (b < bs)%nat -> (b' < bs)%nat -> (l < bs)%nat -> (l' < bs)%nat -> (j < nd)%nat -> (j' < nd)%nat ->
  ((b + i * bs) * nd * bs + l + j * bs)%nat = ((b' + i' * bs) * nd * bs + l' + j' * bs)%nat -> b = b' /\ i = i' /\ l = l' /\ j = j'.
Proof.
  intros Hb Hb' Hl Hl' Hj Hj' E.
  assert (B1 : (l + j * bs < nd * bs)%nat) by nia. assert (B2 : (l' + j' * bs < nd * bs)%nat) by nia.
  assert (E' : ((l + j * bs) + (b + i * bs) * (nd * bs))%nat = ((l' + j' * bs) + (b' + i' * bs) * (nd * bs))%nat) by nia.
  apply index2_inj in E'; auto. destruct E' as [E1 E2].
  apply index2_inj in E1; auto. apply index2_inj in E2; auto. intuition.
Qed.

(** The tables write the same position with the factors swapped. *)
Lemma index4_swap bs nd b i l j : ((b + i * bs) * bs * nd + l + j * bs)%nat = ((b + i * bs) * nd * bs + l + j * bs)%nat.
Proof. nia. Qed.

(** Discharges "this update is elsewhere". *)
Ltac elsewhere :=
  first [ left; lia
        | right; rewrite ?index4_swap; let E := fresh "E" in intros E;
          first [ apply index4_inj in E; [intuition congruence | lia ..]
                | apply index2_inj in E; [intuition congruence | lia ..]
                | apply index2_inj' in E; [intuition congruence | lia ..]
                | apply index4_inj in E; [intuition lia | lia ..]
                | lia ] ].
Ltac chg_none :=
  cbv zeta;
  repeat first [ apply chg_refl
               | apply chg_acc_miss; [|elsewhere]
               | apply chg_loop_none; [|intros ? ? ?; cbv zeta] ].

(** ** Buffers a kernel touches *)
(** [out] has the shape of [bufs], and its buffers below [m] depend only on
    buffers below [m] of [bufs]. *)
Definition same_shape (b1 b2 : list (list R)) : Prop := length b1 = length b2 /\ forall j, length (nth j b1 []) = length (nth j b2 []).
Definition agree (m : nat) (b1 b2 : list (list R)) : Prop := length b1 = length b2 /\ forall j, (j < m)%nat -> nth j b1 [] = nth j b2 [].

Lemma same_shape_refl b : same_shape b b. Proof. split; auto. Qed.
Lemma same_shape_trans b1 b2 b3 : same_shape b1 b2 -> same_shape b2 b3 -> same_shape b1 b3.
Proof. intros [H1 H2] [H3 H4]. split; [congruence|]. intros j. now rewrite H2. Qed.

Lemma shape_acc b0 b s i v : same_shape b b0 -> same_shape (acc b s i v) b0.
Proof. intros H. eapply same_shape_trans; [|exact H]. split; [apply acc_length | apply acc_row_length]. Qed.
Lemma shape_loop b0 n body b : (forall k c, (k < n)%nat -> same_shape c b0 -> same_shape (body k c) b0) -> same_shape b b0 -> same_shape (for_loop n body b) b0.
Proof. intros H H0. apply (for_loop_inv (fun _ c => same_shape c b0)); auto. Qed.
Lemma shape_each {A} b0 (l : list A) body b : (forall k c, same_shape c b0 -> same_shape (body k c) b0) -> same_shape b b0 -> same_shape (for_each l body b) b0.
Proof. intros H. revert b. induction l as [|a l IH]; intros b H0; [auto|]. apply IH. auto. Qed.

Lemma agree_acc m b b' s i v : (s < m)%nat -> agree m b b' -> agree m (acc b s i v) (acc b' s i v).
Proof.
  intros Hs [H1 H2]. split; [rewrite !acc_length; auto|]. intros j Hj. rewrite !acc_nth, H1, (H2 s Hs), (H2 j Hj). reflexivity.
Qed.
Lemma agree_loop m n body b b' : (forall k c c', (k < n)%nat -> agree m c c' -> agree m (body k c) (body k c')) -> agree m b b' -> agree m (for_loop n body b) (for_loop n body b').
Proof.
  intros H H0. induction n as [|n IH]; [auto|]. rewrite !for_loop_S. apply H; [lia|]. apply IH. intros; apply H; auto.
Qed.
Lemma agree_each {A} m (l : list A) body b b' : (forall k c c', agree m c c' -> agree m (body k c) (body k c')) -> agree m b b' -> agree m (for_each l body b) (for_each l body b').
Proof. intros H. revert b b'. induction l as [|a l IH]; intros b b' H0; [auto|]. apply IH. auto. Qed.

Ltac kernel_shape :=
  cbv zeta;
  repeat first [ assumption
               | apply shape_acc
               | apply shape_loop; [intros ? ? ? ?; cbv zeta|]
               | apply shape_each; [intros ? ? ?; cbv zeta|] ].
Ltac kernel_agree :=
  cbv zeta;
  repeat first [ assumption
               | apply agree_acc; [lia|]
               | apply agree_loop; [intros ? ? ? ? ?; cbv zeta|]
               | apply agree_each; [intros ? ? ? ?; cbv zeta|] ].

Lemma kernel_local_intro slots (kernel : kernel_fn) :
  (forall bufs row cst cd lf n qs, same_shape (kernel bufs row cst cd lf n qs) bufs) ->
  (forall bufs bufs' row cst cd lf n qs, agree (slots n) bufs bufs' -> agree (slots n) (kernel bufs row cst cd lf n qs) (kernel bufs' row cst cd lf n qs)) ->
  kernel_local slots kernel.
Proof.
  intros H1 H2. split.
  - intros. apply H1.
  - intros bufs bufs' row cst cd lf n qs Hl Heq. apply H2. split; auto.
Qed.

(** ** Runs that change nothing *)
Lemma upd_same {A} (l : list A) i d : upd l i (nth i l d) = l.
Proof. revert i. induction l as [|x l IH]; intros [|i]; cbn [upd nth]; auto. now rewrite IH. Qed.
Lemma acc_zero bufs s i v : v = 0 -> acc bufs s i v = bufs.
Proof. intros ->. unfold acc, addto. rewrite Rplus_0_r, (upd_same (nth s bufs [])). apply upd_same. Qed.
Lemma for_loop_id {A} n (body : nat -> A -> A) s : (forall i s, (i < n)%nat -> body i s = s) -> for_loop n body s = s.
Proof. intros H. induction n as [|n IH]; [reflexivity|]. rewrite for_loop_S. rewrite IH by (intros; apply H; lia). apply H. lia. Qed.
Lemma for_each_id {A B} (l : list A) (body : A -> B -> B) s : (forall x s, In x l -> body x s = s) -> for_each l body s = s.
Proof.
  intros H. revert s. induction l as [|x l IH]; intros s; [reflexivity|]. unfold for_each in *. cbn [fold_left]. rewrite H by (left; auto). apply IH. intros; apply H; right; auto.
Qed.
Lemma acc_zero' bufs s i v out : v = 0 -> bufs = out -> acc bufs s i v = out.
Proof. intros Hv <-. now apply acc_zero. Qed.
Lemma for_loop_id' {A} n (body : nat -> A -> A) s out : s = out -> (forall i s, (i < n)%nat -> body i s = s) -> for_loop n body s = out.
Proof. intros <-. apply for_loop_id. Qed.
Ltac unchanged_by tac :=
  cbv beta zeta; lazymatch goal with
  | |- acc _ _ _ _ = _ => apply acc_zero'; [tac | unchanged_by tac]
  | |- for_loop _ _ _ = _ => apply for_loop_id'; [unchanged_by tac | intros ? ? _; unchanged_by tac]
  | |- _ => reflexivity
  end.
Ltac unchanged := unchanged_by ltac:(ring).
