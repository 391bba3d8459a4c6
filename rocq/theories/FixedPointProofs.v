(** Equations with a strongly monotone, Lipschitz map on lists of reals: the relaxed
    iteration converges to a solution.  Used for C120. *)
From Coq Require Import List Arith Lia Bool Reals Lra.
Import ListNotations.
From Verif Require Import Prelude PreludeLemmas RSum RealLemmas.
Local Open Scope R_scope.

(** Squared distance of two vectors with [n] entries. *)
Definition distance2 (n : nat) (x y : list R) : R := rsum n (fun d => (nth d x 0 - nth d y 0) * (nth d x 0 - nth d y 0)).

Lemma geometric_zero (c E q : R) : 0 <= q < 1 -> 0 <= c -> (forall k, c <= E * q ^ k) -> c = 0.
Proof.
  intros Hq Hc H. destruct (Rle_lt_or_eq_dec 0 c Hc) as [P|P]; [|now symmetry]. exfalso.
  assert (HE : 0 < E) by (specialize (H 0%nat); cbn in H; lra).
  destruct (pow_lt_1_zero q ltac:(rewrite Rabs_right; lra) (c / E) ltac:(now apply Rdiv_lt_0_compat)) as (N & HN). specialize (HN N (le_n N)).
  rewrite Rabs_right in HN by (apply Rle_ge, pow_le; lra). specialize (H N).
  apply (Rmult_lt_compat_l E) in HN; [|exact HE]. replace (E * (c / E)) with c in HN by (field; lra). lra.
Qed.

Lemma geometric_limit (a : nat -> R) (C r : R) : 0 <= r < 1 -> 0 <= C -> (forall k, Rabs (a (S k) - a k) <= C * r ^ k) ->
  { l | forall k, Rabs (a k - l) <= C / (1 - r) * r ^ k }.
Proof.
  intros Hr HC H.
  assert (PW : forall k, 0 <= r ^ k) by (intros; apply pow_le; lra).
  assert (T : forall j k, Rabs (a (k + j)%nat - a k) <= C / (1 - r) * r ^ k * (1 - r ^ j)).
  { induction j as [|j IH]; intros k; [rewrite Nat.add_0_r, Rminus_eq_0, Rabs_R0; cbn; lra|].
    replace (a (k + S j)%nat - a k) with ((a (S (k + j)) - a (k + j)%nat) + (a (k + j)%nat - a k)) by (rewrite Nat.add_succ_r; ring).
    eapply Rle_trans; [apply Rabs_triang|]. eapply Rle_trans; [apply Rplus_le_compat; [apply H|apply IH]|]. right. rewrite pow_add. cbn [pow]. field. lra. }
  assert (T' : forall j k, Rabs (a (k + j)%nat - a k) <= C / (1 - r) * r ^ k).
  { intros j k. eapply Rle_trans; [apply T|]. rewrite <- (Rmult_1_r (C / (1 - r) * r ^ k)) at 2. apply Rmult_le_compat_l; [|specialize (PW j); lra].
    apply Rmult_le_pos; [|apply PW]. apply Rmult_le_pos; [exact HC|]. left. apply Rinv_0_lt_compat. lra. }
  set (D := C / (1 - r)) in *. assert (HD : 0 <= D) by (apply Rmult_le_pos; [exact HC|]; left; apply Rinv_0_lt_compat; lra).
  destruct (R_complete a) as (l & Hl).
  - intros eps He. destruct (pow_lt_1_zero r ltac:(rewrite Rabs_right; lra) (eps / (2 * (D + 1))) ltac:(apply Rdiv_lt_0_compat; lra)) as (N & HN).
    exists N. intros m k Hm Hk. unfold R_dist. specialize (HN N (le_n N)). rewrite Rabs_right in HN by (apply Rle_ge, PW).
    pose proof (T' (m - N)%nat N) as A. pose proof (T' (k - N)%nat N) as B. replace (N + (m - N))%nat with m in A by lia. replace (N + (k - N))%nat with k in B by lia.
    replace (a m - a k) with ((a m - a N) - (a k - a N)) by ring. eapply Rle_lt_trans; [apply Rabs_triang|]. rewrite Rabs_Ropp.
    assert (S1 : D * r ^ N < eps / 2).
    { apply (Rle_lt_trans _ ((D + 1) * r ^ N)); [specialize (PW N); nra|]. apply (Rmult_lt_compat_l (D + 1)) in HN; [|lra]. replace ((D + 1) * (eps / (2 * (D + 1)))) with (eps / 2) in HN by (field; lra). exact HN. }
    lra.
  - exists l. intros k. destruct (Rle_dec (Rabs (a k - l)) (D * r ^ k)) as [L|L]; [exact L|]. exfalso. apply Rnot_le_lt in L.
    destruct (Hl (Rabs (a k - l) - D * r ^ k) ltac:(lra)) as (N & HN). specialize (HN (k + N)%nat ltac:(lia)). unfold R_dist in HN. specialize (T' N k).
    assert (Rabs (a k - l) <= Rabs (a (k + N)%nat - l) + Rabs (a (k + N)%nat - a k)).
    { replace (a k - l) with ((a (k + N)%nat - l) - (a (k + N)%nat - a k)) by ring. eapply Rle_trans; [apply Rabs_triang|]. rewrite Rabs_Ropp. lra. }
    lra.
Qed.

Section Iteration.
  Context (n : nat) (fixed : nat -> bool) (F : list R -> list R) (f : list R) (alpha L : R).
  (** Vectors with the same values where they are prescribed. *)
  Definition agree (x y : list R) : Prop := length x = n /\ length y = n /\ forall d, (d < n)%nat -> fixed d = true -> nth d x 0 = nth d y 0.
  Context (Ha : 0 < alpha) (HL : 0 <= L)
    (mono : forall u v, agree u v -> alpha * distance2 n v u <= rsum n (fun d => (nth d (F v) 0 - nth d (F u) 0) * (nth d v 0 - nth d u 0)))
    (lip : forall u v, agree u v -> distance2 n (F v) (F u) <= L * distance2 n v u).

  (** One step of the relaxed iteration. *)
  Definition relax (rho : R) (x : list R) : list R :=
    map (fun d => if fixed d then nth d x 0 else nth d x 0 - rho * (nth d (F x) 0 - nth d f 0)) (seq 0 n).
  Definition rho : R := alpha / (L + alpha * alpha).
  Definition rate : R := L / (L + alpha * alpha).
  Lemma rate_range : 0 <= rate < 1.
  Proof.
    unfold rate. assert (0 < L + alpha * alpha) by nra. split; [apply Rmult_le_pos; [exact HL|]; left; now apply Rinv_0_lt_compat|].
    apply (Rmult_lt_reg_r (L + alpha * alpha)); [assumption|]. unfold Rdiv. rewrite Rmult_assoc, Rinv_l by lra. nra.
  Qed.
  Lemma rho_pos : 0 < rho.
  Proof. unfold rho. apply Rdiv_lt_0_compat; nra. Qed.
  Lemma relax_length p x : length (relax p x) = n.
  Proof. unfold relax. now rewrite map_length, seq_length. Qed.
  Lemma relax_nth p x d : (d < n)%nat -> nth d (relax p x) 0 = if fixed d then nth d x 0 else nth d x 0 - p * (nth d (F x) 0 - nth d f 0).
  Proof. intros H. unfold relax. rewrite (nth_map_lt _ _ _ _ 0%nat) by (now rewrite seq_length). now rewrite seq_nth. Qed.
  Lemma distance2_pos x y : 0 <= distance2 n x y.
  Proof. apply rsum_nonneg. intros. apply Rle_0_sqr. Qed.
  Lemma distance2_entry x y d : (d < n)%nat -> (nth d x 0 - nth d y 0) * (nth d x 0 - nth d y 0) <= distance2 n x y.
  Proof.
    intros H. unfold distance2. pose proof (rsum_delta n d (fun i => (nth i x 0 - nth i y 0) * (nth i x 0 - nth i y 0)) H) as E. rewrite <- E.
    apply rsum_le. intros i _. assert (0 <= (nth i x 0 - nth i y 0) * (nth i x 0 - nth i y 0)) by apply Rle_0_sqr. destruct (i =? d)%nat; lra.
  Qed.
  Lemma relax_agree p x y : agree x y -> agree (relax p x) y.
  Proof. intros (Lx & Ly & H). split; [apply relax_length|]. split; [exact Ly|]. intros d Hd Hf. rewrite relax_nth, Hf by exact Hd. now apply H. Qed.

  Lemma contraction u v : agree u v -> distance2 n (relax rho v) (relax rho u) <= rate * distance2 n v u.
  Proof using Ha HL mono lip.
    intros A. pose proof (mono u v A) as M. pose proof (lip u v A) as P. destruct A as (Lu & Lv & A).
    set (dF := fun d => nth d (F v) 0 - nth d (F u) 0) in *. set (dx := fun d => nth d v 0 - nth d u 0).
    assert (S : distance2 n (relax rho v) (relax rho u) <= distance2 n v u - 2 * rho * rsum n (fun d => dF d * dx d) + rho * rho * distance2 n (F v) (F u)).
    { unfold distance2. rewrite <- !rsum_scal, <- rsum_minus, <- rsum_plus. apply rsum_le. intros d Hd. rewrite !relax_nth by exact Hd. fold (dF d). fold (dx d).
      destruct (fixed d) eqn:E.
      - assert (Z : dx d = 0) by (unfold dx; rewrite (A d Hd E); ring). fold (dx d). rewrite Z. assert (0 <= rho * rho * (dF d * dF d)) by (apply Rmult_le_pos; apply Rle_0_sqr). lra.
      - replace (nth d v 0 - rho * (nth d (F v) 0 - nth d f 0) - (nth d u 0 - rho * (nth d (F u) 0 - nth d f 0))) with (dx d - rho * dF d) by (unfold dx, dF; ring). right. ring. }
    eapply Rle_trans; [exact S|]. change (alpha * distance2 n v u <= rsum n (fun d => dF d * dx d)) in M.
    pose proof rho_pos as R0. set (X := rsum n (fun d => dF d * dx d)) in *. pose proof (distance2_pos v u) as D0. set (D := distance2 n v u) in *. set (Y := distance2 n (F v) (F u)) in *.
    assert (S1 : rho * (alpha * D) <= rho * X) by (apply Rmult_le_compat_l; lra). assert (S2 : rho * rho * Y <= rho * rho * (L * D)) by (apply Rmult_le_compat_l; [apply Rle_0_sqr|exact P]).
    assert (E1 : rate = 1 - rho * alpha) by (unfold rate, rho; field; nra). assert (E2 : rho * rho * L <= rho * alpha).
    { replace (rho * alpha) with (rho * rho * (L + alpha * alpha)) by (unfold rho; field; nra). apply Rmult_le_compat_l; [apply Rle_0_sqr|nra]. }
    apply (Rmult_le_compat_r D) in E2; [|exact D0]. rewrite E1. lra.
  Qed.

  Fixpoint iterate (k : nat) (x : list R) : list R := match k with O => x | S k => relax rho (iterate k x) end.
  Lemma iterate_agree x0 : length x0 = n -> forall k, agree (iterate k x0) x0.
  Proof. intros H. induction k as [|k IH]; [split; [exact H|split; [exact H|reflexivity]]|]. cbn [iterate]. now apply relax_agree. Qed.
  Lemma agree_sym x y : agree x y -> agree y x.
  Proof. intros (A & B & C). split; [exact B|split; [exact A|]]. intros d H E. symmetry. now apply C. Qed.
  Lemma agree_trans x y z : agree x y -> agree y z -> agree x z.
  Proof. intros (A & B & C) (A' & B' & C'). split; [exact A|split; [exact B'|]]. intros d H E. rewrite C by auto. now apply C'. Qed.

  Lemma steps_shrink x0 : length x0 = n -> forall k, distance2 n (iterate (S k) x0) (iterate k x0) <= rate ^ k * distance2 n (iterate 1 x0) x0.
  Proof using Ha HL mono lip.
    intros H. induction k as [|k IH]; [cbn [pow iterate]; lra|]. change (iterate (S (S k)) x0) with (relax rho (iterate (S k) x0)). change (iterate (S k) x0) with (relax rho (iterate k x0)) at 2.
    eapply Rle_trans; [apply contraction; apply (agree_trans _ x0); [|apply agree_sym]; now apply iterate_agree|].
    cbn [pow]. rewrite Rmult_assoc. apply Rmult_le_compat_l; [apply rate_range|exact IH].
  Qed.

  Theorem iteration_converges x0 : length x0 = n ->
    exists u, agree u x0 /\ (forall d, (d < n)%nat -> fixed d = false -> nth d (F u) 0 = nth d f 0).
  Proof using Ha HL mono lip.
    intros H. pose proof rate_range as RR. set (r := sqrt rate). assert (Er : r * r = rate) by (apply sqrt_sqrt; lra). assert (R0 : 0 <= r) by apply sqrt_pos. assert (R1 : r < 1) by nra.
    set (D0 := distance2 n (iterate 1 x0) x0). set (C := sqrt D0). assert (D0p : 0 <= D0) by apply distance2_pos. assert (EC : C * C = D0) by (now apply sqrt_sqrt). assert (C0 : 0 <= C) by apply sqrt_pos.
    assert (PR : forall k, rate ^ k = r ^ k * r ^ k) by (intros k; rewrite <- Er; apply Rpow_mult_distr).
    assert (PK : forall k, 0 <= r ^ k) by (intros; now apply pow_le).
    assert (ST : forall d, (d < n)%nat -> forall k, Rabs (nth d (iterate (S k) x0) 0 - nth d (iterate k x0) 0) <= C * r ^ k).
    { intros d Hd k. pose proof (distance2_entry (iterate (S k) x0) (iterate k x0) d Hd) as E. pose proof (steps_shrink x0 H k) as SS. fold D0 in SS. rewrite PR, <- EC in SS.
      assert (B : 0 <= C * r ^ k) by (apply Rmult_le_pos; auto). set (y := nth d (iterate (S k) x0) 0 - nth d (iterate k x0) 0) in *.
      assert (Q : y * y <= (C * r ^ k) * (C * r ^ k)) by nra.
      rewrite <- (Rabs_right (C * r ^ k)) by lra. apply Rsqr_le_abs_0. exact Q. }
    set (E := C / (1 - r)). assert (E0 : 0 <= E) by (apply Rmult_le_pos; [exact C0|]; left; apply Rinv_0_lt_compat; lra).
    assert (LIM : forall d, { l | (d < n)%nat -> forall k, Rabs (nth d (iterate k x0) 0 - l) <= E * r ^ k }).
    { intros d. destruct (lt_dec d n) as [Hd|Hd]; [|exists 0; intros; contradiction].
      destruct (geometric_limit (fun k => nth d (iterate k x0) 0) C r ltac:(lra) C0 (ST d Hd)) as (l & Hl). exists l. intros _. exact Hl. }
    set (u := map (fun d => proj1_sig (LIM d)) (seq 0 n)). assert (Lu : length u = n) by (unfold u; now rewrite map_length, seq_length).
    assert (CV : forall d, (d < n)%nat -> forall k, Rabs (nth d (iterate k x0) 0 - nth d u 0) <= E * r ^ k).
    { intros d Hd k. unfold u. rewrite (nth_map_lt _ _ _ _ 0%nat) by (now rewrite seq_length). rewrite seq_nth by exact Hd. cbn [Nat.add]. exact (proj2_sig (LIM d) Hd k). }
    clearbody u. clear LIM ST.
    assert (CV2 : forall d, (d < n)%nat -> forall k, (nth d (iterate k x0) 0 - nth d u 0) * (nth d (iterate k x0) 0 - nth d u 0) <= E * E * rate ^ k).
    { intros d Hd k. specialize (CV d Hd k). set (y := nth d (iterate k x0) 0 - nth d u 0) in *. replace (y * y) with (Rabs y * Rabs y) by (rewrite <- Rabs_mult; apply Rabs_right, Rle_ge, Rle_0_sqr).
      replace (E * E * rate ^ k) with (E * r ^ k * (E * r ^ k)) by (rewrite PR; ring). apply Rmult_le_compat; auto using Rabs_pos. }
    assert (DK : forall k, distance2 n (iterate k x0) u <= INR n * (E * E) * rate ^ k).
    { intros k. unfold distance2. eapply Rle_trans; [apply (rsum_le n _ (fun _ => E * E * rate ^ k)); intros d Hd; now apply CV2|]. right. rewrite rsum_const. ring. }
    assert (AG : agree u x0).
    { split; [exact Lu|split; [exact H|]]. intros d Hd Hf.
      assert (Z : (nth d u 0 - nth d x0 0) * (nth d u 0 - nth d x0 0) = 0).
      { apply (geometric_zero _ (E * E) rate RR); [apply Rle_0_sqr|]. intros k. eapply Rle_trans; [|apply (CV2 d Hd k)]. destruct (iterate_agree x0 H k) as (_ & _ & A). rewrite (A d Hd Hf). right. ring. }
      apply Rmult_integral in Z. destruct Z; lra. }
    exists u. split; [exact AG|]. intros d Hd Hf.
    assert (Z : (nth d (relax rho u) 0 - nth d u 0) * (nth d (relax rho u) 0 - nth d u 0) = 0).
    { apply (geometric_zero _ (2 * (INR n * (E * E)) + 2 * (E * E)) rate RR); [apply Rle_0_sqr|]. intros k.
      pose proof (contraction u (iterate k x0) (agree_trans _ _ _ AG (agree_sym _ _ (iterate_agree x0 H k)))) as K.
      pose proof (distance2_entry (iterate (S k) x0) (relax rho u) d Hd) as A. pose proof (CV2 d Hd (S k)) as B. pose proof (DK k) as D. change (relax rho (iterate k x0)) with (iterate (S k) x0) in K.
      set (a := nth d (iterate (S k) x0) 0) in *. set (b := nth d (relax rho u) 0) in *. set (c := nth d u 0) in *.
      assert (P0 : 0 <= rate ^ k) by (apply pow_le; lra). cbn [pow] in B. pose proof (distance2_pos (iterate k x0) u) as DP.
      assert (K1 : (a - b) * (a - b) <= INR n * (E * E) * rate ^ k) by nra.
      assert (B1 : (a - c) * (a - c) <= E * E * rate ^ k).
      { eapply Rle_trans; [exact B|]. assert (0 <= E * E * rate ^ k) by (apply Rmult_le_pos; [apply Rle_0_sqr|exact P0]). nra. }
      assert (0 <= (a - b + (a - c)) * (a - b + (a - c))) by apply Rle_0_sqr. nra. }
    apply Rmult_integral in Z. assert (Z' : nth d (relax rho u) 0 - nth d u 0 = 0) by (destruct Z; assumption). rewrite relax_nth, Hf in Z' by exact Hd. pose proof rho_pos. assert (M : rho * (nth d (F u) 0 - nth d f 0) = 0) by lra.
    apply Rmult_integral in M. destruct M; lra.
  Qed.

  (** Any solution attracts all iterates, and is the only one with its prescribed values. *)
  Theorem iteration_rate u x0 : agree x0 u -> (forall d, (d < n)%nat -> fixed d = false -> nth d (F u) 0 = nth d f 0) ->
    forall k, distance2 n (iterate k x0) u <= rate ^ k * distance2 n x0 u.
  Proof using Ha HL mono lip.
    intros A S. assert (FX : distance2 n (relax rho u) u = 0).
    { apply rsum_zero. intros d Hd. rewrite relax_nth by exact Hd. destruct (fixed d) eqn:E; [ring|]. rewrite (S d Hd E). ring. }
    assert (FE : forall x, distance2 n x (relax rho u) = distance2 n x u).
    { intros x. apply rsum_ext. intros d Hd. assert (nth d (relax rho u) 0 = nth d u 0); [|congruence]. pose proof (distance2_entry (relax rho u) u d Hd) as Q. rewrite FX in Q.
      assert (P : 0 <= (nth d (relax rho u) 0 - nth d u 0) * (nth d (relax rho u) 0 - nth d u 0)) by apply Rle_0_sqr. assert (Z : (nth d (relax rho u) 0 - nth d u 0) * (nth d (relax rho u) 0 - nth d u 0) = 0) by lra. apply Rmult_integral in Z. destruct Z; lra. }
    induction k as [|k IH]; [cbn [pow iterate]; lra|]. cbn [iterate pow]. rewrite <- FE.
    eapply Rle_trans; [apply contraction|].
    - apply (agree_trans _ x0); [now apply agree_sym|]. apply agree_sym, iterate_agree. apply A.
    - rewrite Rmult_assoc. apply Rmult_le_compat_l; [apply rate_range|exact IH].
  Qed.
  Theorem iteration_unique u v : agree v u -> (forall d, (d < n)%nat -> fixed d = false -> nth d (F u) 0 = nth d f 0) -> (forall d, (d < n)%nat -> fixed d = false -> nth d (F v) 0 = nth d f 0) -> u = v.
  Proof using Ha mono.
    intros A Su Sv. pose proof (mono u v (agree_sym _ _ A)) as M. destruct A as (Lv & Lu & A).
    assert (Z : rsum n (fun d => (nth d (F v) 0 - nth d (F u) 0) * (nth d v 0 - nth d u 0)) = 0).
    { apply rsum_zero. intros d Hd. destruct (fixed d) eqn:E; [rewrite (A d Hd E); ring|]. rewrite (Su d Hd E), (Sv d Hd E). ring. }
    rewrite Z in M. pose proof (distance2_pos v u) as P. assert (D0 : distance2 n v u = 0) by nra.
    apply (nth_ext _ _ 0 0); [congruence|]. intros d Hd. rewrite Lu in Hd. pose proof (distance2_entry v u d Hd) as Q. rewrite D0 in Q.
    assert (P' : 0 <= (nth d v 0 - nth d u 0) * (nth d v 0 - nth d u 0)) by apply Rle_0_sqr. assert (Z' : (nth d v 0 - nth d u 0) * (nth d v 0 - nth d u 0) = 0) by lra. apply Rmult_integral in Z'. destruct Z'; lra.
  Qed.
End Iteration.
