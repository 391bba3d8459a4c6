(** Property C111: the near-nullspace handed to PETSc is an orthonormal basis of the fields
    that are a rigid motion on every body; exactly when it can be built. *)
From Coq Require Import List Arith Lia Bool Reals Lra String Permutation.
Import ListNotations.
From Verif Require Import Prelude PreludeLemmas RSum RealLemmas NullspaceModel NullspaceProps OrthoModel OrthoProofs.
Local Open Scope R_scope.

(** ** Gram-Schmidt *)
Theorem C111_orthonormalisation :
  forall owned N eps basis,
    0 < eps -> (forall j, (j < List.length basis)%nat -> List.length (nth j basis []) = N) ->
    (forall out, orthonormalize owned eps basis = Some out ->
       List.length out = List.length basis /\
       orthonormal owned (List.length basis) out /\
       (exists C, forall j k, (j < List.length basis)%nat -> vec out j k = combination (S j) (C j) basis k) /\
       (exists D, forall j k, (j < List.length basis)%nat -> vec basis j k = combination (S j) (D j) out k)) /\
    (orthonormalize owned eps basis <> None <->
     forall i c, (i < List.length basis)%nat -> eps <= dot owned (fun k => vec basis i k - combination i c basis k) (fun k => vec basis i k - combination i c basis k)).
Proof.
  intros owned N eps basis He HN. pose proof (orthonormalize_spec owned N eps basis He HN) as K. split.
  - intros out E. rewrite E in K. destruct K as [K1 _ _ K2 K3 K4 _]. auto.
  - destruct (orthonormalize owned eps basis) as [b|].
    + destruct K as [_ _ _ _ _ _ K]. split; [auto|discriminate].
    + destruct K as (i & c & Hi & K). split; [contradiction|]. intros H. specialize (H i c Hi). lra.
Qed.

(** ** The check before the vectors are handed over *)
(** Accepted exactly when all norms and products are within the tolerance, and nothing is
    handed to PETSc without it. *)
Theorem C111_check_exact :
  forall owned eps tol basis,
    (is_orthonormal owned tol basis = true <->
     forall i j, (i < List.length basis)%nat -> (j < List.length basis)%nat -> Rabs ((if (i =? j)%nat then 1 else 0) - dot owned (vec basis i) (vec basis j)) <= tol) /\
    (forall vs, finish_nullspace owned eps tol basis = NullSpace vs <->
       exists b, orthonormalize owned eps basis = Some b /\ is_orthonormal owned tol b = true /\ vs = map (fun v => map (fun k => nth k v 0) owned) b).
Proof.
  intros owned eps tol basis. split.
  - unfold is_orthonormal. rewrite forallb_forall. split.
    + assert (W : (forall i, In i (seq 0 (List.length basis)) -> forallb (fun j => if Rlt_dec tol (Rabs ((if (i =? j)%nat then 1 else 0) - inner_product owned (nth i basis []) (nth j basis []))) then false else true) (seq i (List.length basis - i)) = true) ->
        forall i j, (i <= j)%nat -> (j < List.length basis)%nat -> Rabs ((if (i =? j)%nat then 1 else 0) - dot owned (vec basis i) (vec basis j)) <= tol).
      { intros H i j Hij Hj. specialize (H i ltac:(apply in_seq; lia)). rewrite forallb_forall in H. specialize (H j ltac:(apply in_seq; lia)).
        destruct (Rlt_dec _ _) as [L|L]; [discriminate|]. rewrite inner_dot in L. now apply Rnot_lt_le. }
      intros H i j Hi Hj. destruct (Nat.le_ge_cases i j) as [L|L]; [now apply W|]. rewrite Nat.eqb_sym. unfold dot. rewrite (lsum_ext owned _ (fun k => vec basis j k * vec basis i k)) by (intros; ring). now apply (W H).
    + intros H i Hi. apply in_seq in Hi. apply forallb_forall. intros j Hj. apply in_seq in Hj. rewrite inner_dot. destruct (Rlt_dec _ _) as [L|L]; [|reflexivity]. exfalso. apply (Rlt_not_le _ _ L). apply H; lia.
  - intros vs. unfold finish_nullspace. destruct (orthonormalize owned eps basis) as [b|].
    + split.
      * destruct (is_orthonormal owned tol b) eqn:E; [|discriminate]. intros H. injection H as <-. exists b. auto.
      * intros (b' & Eb & Ho & ->). injection Eb as <-. now rewrite Ho.
    + split; [discriminate|]. intros (b & Eb & _). discriminate.
Qed.
Print Assumptions C111_check_exact.

(** ** Lemmas *)
(** Vectors of different classes are orthogonal: the result mixes no classes. *)
Lemma combination_class owned N eps a b (cls : nat -> nat) :
  0 < eps -> ortho_state owned N eps a b (List.length a) ->
  (forall i j, (i < List.length a)%nat -> (j < List.length a)%nat -> cls i <> cls j -> dot owned (vec a i) (vec a j) = 0) ->
  exists C, forall j k, (j < List.length a)%nat -> vec b j k = rsum (List.length a) (fun l => C j l * vec a l k) /\ forall l, cls l <> cls j -> C j l = 0.
Proof.
  intros He [_ _ _ HO (C0 & HC0) (D & HD) HF] HA.
  assert (X : forall n, (n <= List.length a)%nat -> exists C : nat -> nat -> R, forall j, (j < n)%nat -> (forall k, vec b j k = rsum (List.length a) (fun l => C j l * vec a l k)) /\ forall l, cls l <> cls j -> C j l = 0).
  { induction n as [|n IH]; intros Hn; [exists (fun _ _ => 0); lia|]. destruct IH as (C & HC); [lia|].
    assert (Dd : forall l, (l < S n)%nat -> D n l = dot owned (vec a n) (vec b l)).
    { intros l Hl. rewrite (dot_ext owned (vec a n) (vec b l) (fun k => rsum (S n) (fun i => D n i * vec b i k)) (vec b l)) by (intros; auto; rewrite HD by lia; reflexivity).
      rewrite dot_combination; auto. intros i' j' Hi' Hj'. apply HO; lia. }
    assert (Z : forall l, (l < n)%nat -> cls l <> cls n -> D n l = 0).
    { intros l Hl Hc. rewrite Dd by lia. destruct (HC l Hl) as [E1 E2].
      rewrite dot_sym, (dot_ext owned (vec b l) (vec a n) (fun k => rsum (List.length a) (fun i => C l i * vec a i k)) (vec a n)) by auto.
      rewrite (dot_rsum owned (List.length a) (fun i k => C l i * vec a i k)). apply rsum_zero. intros i Hi. rewrite dot_scal.
      destruct (Nat.eq_dec (cls i) (cls l)) as [Ec|Ec]; [rewrite HA by (auto; congruence); ring|rewrite E2 by auto; ring]. }
    assert (Dn : D n n <> 0).
    { intros E. destruct (combination_trans n (D n) b a C0) as (c & Hc); [intros; apply HC0; lia|].
      specialize (HF n c ltac:(lia)). rewrite (dot_ext owned _ _ (fun _ => 0) (fun _ => 0)) in HF.
      - unfold dot in HF. rewrite lsum_zero in HF; [lra|intros; ring].
      - intros k _. rewrite HD by lia. unfold combination at 1. cbn [rsum]. rewrite E, <- Hc. unfold combination. ring.
      - intros k _. rewrite HD by lia. unfold combination at 1. cbn [rsum]. rewrite E, <- Hc. unfold combination. ring. }
    exists (fun j l => if (j =? n)%nat then / D n n * ((if (l =? n)%nat then 1 else 0) - rsum n (fun i => D n i * C i l)) else C j l).
    intros j Hj. destruct (Nat.eqb_spec j n) as [->|Hne]; [|apply HC; lia]. split.
    - intros k. assert (E : vec a n k = rsum n (fun i => D n i * vec b i k) + D n n * vec b n k) by (rewrite (HD n k) by lia; reflexivity).
      assert (E' : vec b n k = / D n n * (vec a n k - rsum n (fun i => D n i * vec b i k))) by (rewrite E; field; exact Dn). rewrite E'.
      rewrite (rsum_ext (List.length a) _ (fun l => / D n n * ((if (l =? n)%nat then 1 else 0) * vec a l k - rsum n (fun i => D n i * C i l * vec a l k)))).
      2:{ intros l Hl. rewrite rsum_scal_r. ring. }
      rewrite rsum_scal, rsum_minus, rsum_delta by lia. f_equal. f_equal. rewrite rsum_swap. apply rsum_ext. intros i Hi.
      destruct (HC i Hi) as [-> _]. rewrite <- rsum_scal. apply rsum_ext. intros; ring.
    - intros l Hc. destruct (Nat.eqb_spec l n) as [->|]; [contradiction|]. rewrite (rsum_zero n); [ring|]. intros i Hi.
      destruct (Nat.eq_dec (cls i) (cls n)) as [Ec|Ec]; [destruct (HC i Hi) as [_ ->]; [ring|congruence]|rewrite Z by auto; ring]. }
  destruct (X (List.length a)) as (C & HC); [lia|]. exists C. intros j k Hj. destruct (HC j Hj). auto.
Qed.

Lemma dot_owned_entries gdim blocks f g : dot (owned_entries gdim blocks) f g = lsum blocks (fun d => rsum gdim (fun i => f (gdim * d + i)%nat * g (gdim * d + i)%nat)).
Proof. unfold dot, owned_entries. rewrite lsum_flat_map. apply lsum_ext. intros d _. rewrite lsum_map, lsum_seq. reflexivity. Qed.
Lemma owned_entries_length gdim blocks : List.length (owned_entries gdim blocks) = (gdim * List.length blocks)%nat.
Proof. unfold owned_entries. induction blocks as [|d l IH]; cbn [flat_map List.length]; [lia|]. rewrite app_length, IH, map_length, seq_length. lia. Qed.
Lemma nth_owned_entries gdim blocks p i : (p < List.length blocks)%nat -> (i < gdim)%nat ->
  nth (gdim * p + i) (owned_entries gdim blocks) 0%nat = (gdim * nth p blocks 0 + i)%nat.
Proof.
  revert p. induction blocks as [|d l IH]; intros p Hp Hi; [cbn in Hp; lia|]. unfold owned_entries. cbn [flat_map]. fold (owned_entries gdim l).
  destruct p as [|p].
  - rewrite app_nth1 by (rewrite map_length, seq_length; lia). rewrite (nth_map_lt _ _ _ _ 0%nat) by (rewrite seq_length; lia). rewrite seq_nth by lia. cbn [nth]. lia.
  - rewrite app_nth2 by (rewrite map_length, seq_length; lia). rewrite map_length, seq_length. replace (gdim * S p + i - gdim)%nat with (gdim * p + i)%nat by lia.
    rewrite IH by (cbn in Hp; lia). reflexivity.
Qed.
Lemma is_orthonormal_true owned tol b : 0 <= tol -> orthonormal owned (List.length b) b -> is_orthonormal owned tol b = true.
Proof.
  intros Ht O. unfold is_orthonormal. apply forallb_forall. intros i Hi. apply in_seq in Hi. apply forallb_forall. intros j Hj. apply in_seq in Hj.
  rewrite inner_dot. change (dot owned (fun p => nth p (nth i b []) 0) (fun q => nth q (nth j b []) 0)) with (dot owned (vec b i) (vec b j)).
  rewrite O by lia. destruct (Rlt_dec tol _) as [K|]; [|reflexivity]. exfalso. rewrite Rminus_diag_eq in K by reflexivity. rewrite Rabs_R0 in K. lra.
Qed.
(** In exact arithmetic the check after the orthonormalisation never fails. *)
Lemma finish_nullspace_cases owned N eps tol basis : 0 < eps -> 0 <= tol -> (forall j, (j < List.length basis)%nat -> List.length (nth j basis []) = N) ->
  finish_nullspace owned eps tol basis = match orthonormalize owned eps basis with
    | None => NullError "Linear dependency detected. Cannot orthogonalize."
    | Some b => NullSpace (map (fun v => map (fun k => nth k v 0) owned) b) end.
Proof.
  intros He Ht HN. unfold finish_nullspace. pose proof (orthonormalize_spec owned N eps basis He HN) as K. destruct (orthonormalize owned eps basis) as [b|]; [|reflexivity].
  destruct K as [L _ _ O _ _ _]. rewrite is_orthonormal_true; [reflexivity|exact Ht|]. now rewrite L.
Qed.
Lemma nth_restricted owned v p : (p < List.length owned)%nat -> nth p (map (fun k => nth k v 0) owned) 0 = nth (nth p owned 0%nat) v 0.
Proof. intros H. now rewrite (nth_map_lt _ _ _ _ 0%nat). Qed.
Lemma lsum_positions {A} (l : list A) d f : lsum l f = rsum (List.length l) (fun p => f (nth p l d)).
Proof.
  induction l as [|a l IH]; [reflexivity|]. cbn [List.length]. rewrite rsum_S_l. cbn [nth lsum]. now rewrite IH.
Qed.

(** ** Bodies *)
Section bodies.
  Variables (gdim n : nat) (tags : list nat) (find : nat -> list nat) (cell_dofs : nat -> list nat) (x : list R) (blocks : list nat).
  Hypothesis (Hg : gdim = 2%nat \/ gdim = 3%nat).
  Hypothesis (Hn : forall tag c d, In tag tags -> In c (find tag) -> In d (cell_dofs c) -> (d < n)%nat).
  Definition on_body (j d : nat) : Prop := exists cell, In cell (find (nth j tags 0%nat)) /\ In d (cell_dofs cell).
  Hypothesis (Hdisj : forall j j' d, (j < List.length tags)%nat -> (j' < List.length tags)%nat -> on_body j d -> on_body j' d -> j = j').

  Notation dim := (nullspace_dim gdim).
  Notation basis := (build_nullspace_multibody gdim n tags find cell_dofs x).
  Notation owned := (owned_entries gdim blocks).
  Notation at_ d := (fun k => nth (3 * d + k) x 0).
  Notation base m d i := (motion gdim (base_c gdim m) (base_W gdim m) (at_ d) i).

  Lemma on_body_dec j d : {on_body j d} + {~ on_body j d}.
  Proof.
    destruct (in_dec Nat.eq_dec d (body_dofs (find (nth j tags 0%nat)) cell_dofs)) as [H|H]; [left|right]; unfold on_body; now rewrite <- body_dofs_in.
  Qed.
  Lemma dim_pos : (0 < dim)%nat.
  Proof. unfold nullspace_dim. destruct (gdim =? 2)%nat; lia. Qed.
  Lemma basis_length : List.length basis = (List.length tags * dim)%nat.
  Proof. rewrite multibody_ops, run_length, repeat_length. lia. Qed.
  Lemma run_row_length ops b v : List.length (nth v (run ops b) []) = List.length (nth v b []).
  Proof. revert b. induction ops as [|op ops IH]; intros b; [reflexivity|]. cbn. rewrite IH. apply setb_row_length. Qed.
  Lemma basis_rows v : (v < List.length basis)%nat -> List.length (nth v basis []) = (gdim * n)%nat.
  Proof.
    intros Hv. rewrite basis_length in Hv. rewrite multibody_ops, run_row_length, repeat_rows by lia. apply repeat_length.
  Qed.
  Lemma basis_entry j m d i : (j < List.length tags)%nat -> (m < dim)%nat -> (i < gdim)%nat ->
    vec basis (j * dim + m) (gdim * d + i) = if on_body_dec j d then base m d i else 0.
  Proof using Hg Hn.
    intros Hj Hm Hi. unfold vec. rewrite multibody_ops.
    rewrite (run_motion gdim n (List.length tags) (List.length tags) (fun j => body_dofs (find (nth j tags 0%nat)) cell_dofs) x); auto.
    - destruct (in_dec _ _ _) as [H|H], (on_body_dec j d) as [H'|H']; auto; exfalso; unfold on_body in H'; rewrite body_dofs_in in H; contradiction.
    - intros j' d' Hj' Hd'. apply body_dofs_in in Hd'. destruct Hd' as (c & Hc & Hd'). apply (Hn (nth j' tags 0%nat) c); auto. apply nth_In; auto.
    - intros o. rewrite in_flat_map. split; intros (j' & H1 & H2); exists j'; (split; [|exact H2]); [apply in_seq in H1|apply in_seq]; lia.
  Qed.
  Lemma index_split v : (v < List.length basis)%nat -> (v / dim < List.length tags)%nat /\ (v mod dim < dim)%nat /\ v = (v / dim * dim + v mod dim)%nat.
  Proof.
    intros Hv. rewrite basis_length in Hv. pose proof dim_pos. split; [apply Nat.div_lt_upper_bound; lia|]. split; [apply Nat.mod_upper_bound; lia|].
    rewrite (Nat.div_mod v dim) at 1 by lia. lia.
  Qed.
  Lemma index_class j m : (m < dim)%nat -> ((j * dim + m) / dim = j)%nat.
  Proof. intros Hm. rewrite Nat.div_add_l by lia. rewrite Nat.div_small by auto. lia. Qed.
  Lemma basis_orthogonal v w : (v < List.length basis)%nat -> (w < List.length basis)%nat -> (v / dim <> w / dim)%nat -> dot owned (vec basis v) (vec basis w) = 0.
  Proof using Hg Hn Hdisj.
    intros Hv Hw Hne. destruct (index_split v Hv) as (V1 & V2 & V3), (index_split w Hw) as (W1 & W2 & W3).
    rewrite dot_owned_entries. apply lsum_zero. intros d _. apply rsum_zero. intros i Hi. rewrite V3, W3, !basis_entry by auto.
    destruct (on_body_dec _ d) as [A|A]; [|ring]. destruct (on_body_dec _ d) as [B|B]; [|ring]. exfalso. apply Hne. eapply Hdisj; eauto.
  Qed.
  (** Combinations of the vectors of one body. *)
  Lemma body_combination C j d i : (j < List.length tags)%nat -> (i < gdim)%nat -> (forall l, (l / dim)%nat <> j -> C l = 0) ->
    rsum (List.length basis) (fun l => C l * vec basis l (gdim * d + i)) = if on_body_dec j d then rsum dim (fun m => C (j * dim + m)%nat * base m d i) else 0.
  Proof using Hg Hn.
    intros Hj Hi HC. rewrite basis_length, rsum_prod, (rsum_single _ j); auto.
    - destruct (on_body_dec j d) eqn:E.
      + apply rsum_ext. intros m Hm. rewrite basis_entry, E by auto. reflexivity.
      + apply rsum_zero. intros m Hm. rewrite basis_entry, E by auto. ring.
    - intros j' Hj' Hne. apply rsum_zero. intros m Hm. rewrite HC; [ring|]. now rewrite index_class.
  Qed.
  Lemma base_combination c d i : rsum dim (fun m => c m * base m d i) =
    motion gdim (fun i => rsum dim (fun m => c m * base_c gdim m i)) (fun i k => rsum dim (fun m => c m * base_W gdim m i k)) (at_ d) i.
  Proof.
    unfold motion. rewrite (rsum_ext dim _ (fun m => c m * base_c gdim m i + rsum gdim (fun k => c m * base_W gdim m i k * nth (3 * d + k) x 0))).
    - rewrite rsum_plus. f_equal. rewrite rsum_swap. apply rsum_ext. intros k Hk. now rewrite rsum_scal_r.
    - intros m Hm. rewrite Rmult_plus_distr_l. f_equal. rewrite <- rsum_scal. apply rsum_ext. intros; ring.
  Qed.
  Lemma combination_skew c : skew gdim (fun i k => rsum dim (fun m => c m * base_W gdim m i k)).
  Proof. intros i k Hi Hk. rewrite <- rsum_opp. apply rsum_ext. intros m Hm. rewrite (base_W_skew gdim m i k Hi Hk). ring. Qed.
  (** Every rigid motion is a combination of the base motions. *)
  Lemma motion_base c W : skew gdim W -> exists e, forall d i, (i < gdim)%nat -> motion gdim c W (at_ d) i = rsum dim (fun m => e m * base m d i).
  Proof using Hg.
    intros HW. destruct Hg as [G|G].
    - exists (fun m => match m with 0%nat => c 0%nat | 1%nat => c 1%nat | _ => W 1%nat 0%nat end). intros d i Hi. rewrite G in *.
      pose proof (HW 0%nat 0%nat ltac:(lia) ltac:(lia)). pose proof (HW 1%nat 1%nat ltac:(lia) ltac:(lia)). pose proof (HW 0%nat 1%nat ltac:(lia) ltac:(lia)).
      assert (W 0%nat 0%nat = 0) as E0 by lra. assert (W 1%nat 1%nat = 0) as E1 by lra. unfold motion.
      destruct i as [|[|i]]; [| |lia]; cbn [nullspace_dim Nat.eqb rsum base_c base_W Nat.ltb Nat.leb Nat.sub Nat.add]; rewrite ?E0, ?E1, ?H1; ring.
    - exists (fun m => match m with 0%nat => c 0%nat | 1%nat => c 1%nat | 2%nat => c 2%nat | 3%nat => W 1%nat 0%nat | 4%nat => W 0%nat 2%nat | _ => W 2%nat 1%nat end). intros d i Hi. rewrite G in *.
      pose proof (HW 0%nat 0%nat ltac:(lia) ltac:(lia)). pose proof (HW 1%nat 1%nat ltac:(lia) ltac:(lia)). pose proof (HW 2%nat 2%nat ltac:(lia) ltac:(lia)).
      pose proof (HW 0%nat 1%nat ltac:(lia) ltac:(lia)) as A. pose proof (HW 2%nat 0%nat ltac:(lia) ltac:(lia)) as B. pose proof (HW 1%nat 2%nat ltac:(lia) ltac:(lia)) as F.
      assert (W 0%nat 0%nat = 0) as E0 by lra. assert (W 1%nat 1%nat = 0) as E1 by lra. assert (W 2%nat 2%nat = 0) as E2 by lra. unfold motion.
      destruct i as [|[|[|i]]]; [| | |lia]; cbn [nullspace_dim Nat.eqb rsum base_c base_W Nat.ltb Nat.leb Nat.sub Nat.add]; rewrite ?E0, ?E1, ?E2, ?A, ?B, ?F; ring.
  Qed.

  (** The vectors PETSc receives, position by position: entry gdim * p + i of a vector is
      component i at the p-th owned block. *)
  Theorem C111_rigid_motion_basis :
    forall eps tol vs, 0 < eps -> 0 <= tol ->
    multibody_nullspace gdim n tags find cell_dofs x blocks eps tol = NullSpace vs ->
    let entry v p i := nth (gdim * p + i) (nth v vs []) 0 in
    List.length vs = (List.length tags * dim)%nat /\
    (forall v w, (v < List.length vs)%nat -> (w < List.length vs)%nat ->
       rsum (List.length blocks) (fun p => rsum gdim (fun i => entry v p i * entry w p i)) = if (v =? w)%nat then 1 else 0) /\
    (forall j m, (j < List.length tags)%nat -> (m < dim)%nat -> exists c W, skew gdim W /\
       forall p i, (p < List.length blocks)%nat -> (i < gdim)%nat ->
         (on_body j (nth p blocks 0%nat) -> entry (j * dim + m)%nat p i = motion gdim c W (at_ (nth p blocks 0%nat)) i) /\
         (~ on_body j (nth p blocks 0%nat) -> entry (j * dim + m)%nat p i = 0)) /\
    (forall (c : nat -> nat -> R) (W : nat -> nat -> nat -> R), (forall j, (j < List.length tags)%nat -> skew gdim (W j)) ->
       exists coef, forall p i, (p < List.length blocks)%nat -> (i < gdim)%nat ->
         (forall j, (j < List.length tags)%nat -> on_body j (nth p blocks 0%nat) ->
            rsum (List.length vs) (fun v => coef v * entry v p i) = motion gdim (c j) (W j) (at_ (nth p blocks 0%nat)) i) /\
         ((forall j, (j < List.length tags)%nat -> ~ on_body j (nth p blocks 0%nat)) -> rsum (List.length vs) (fun v => coef v * entry v p i) = 0)).
  Proof using Hg Hn Hdisj.
    intros eps tol vs He Ht E entry. unfold multibody_nullspace in E. rewrite (finish_nullspace_cases _ (gdim * n)) in E by (auto using basis_rows).
    pose proof (orthonormalize_spec owned (gdim * n) eps basis He basis_rows) as K. destruct (orthonormalize owned eps basis) as [b|]; [|discriminate].
    injection E as <-. destruct (combination_class owned _ eps basis b (fun v => (v / dim)%nat) He K basis_orthogonal) as (C & HC).
    destruct K as [L LR _ O _ (D & HD) _].
    assert (EN : forall v p i, (v < List.length basis)%nat -> (p < List.length blocks)%nat -> (i < gdim)%nat -> entry v p i = vec b v (gdim * nth p blocks 0%nat + i)%nat).
    { intros v p i Hv Hp Hi. unfold entry, vec. rewrite (nth_map_lt _ _ _ _ []) by lia. rewrite nth_restricted by (rewrite owned_entries_length; nia).
      now rewrite nth_owned_entries. }
    rewrite map_length, L. split; [apply basis_length|]. split; [|split].
    - intros v w Hv Hw. rewrite <- (O v w) by auto. rewrite dot_owned_entries, (lsum_positions blocks 0%nat). apply rsum_ext. intros p Hp. apply rsum_ext. intros i Hi. now rewrite !EN.
    - intros j m Hj Hm. set (v := (j * dim + m)%nat). assert (Hv : (v < List.length basis)%nat) by (rewrite basis_length; unfold v; nia).
      exists (fun i => rsum dim (fun l => C v (j * dim + l)%nat * base_c gdim l i)), (fun i k => rsum dim (fun l => C v (j * dim + l)%nat * base_W gdim l i k)).
      split; [apply (combination_skew (fun l => C v (j * dim + l)%nat))|]. intros p i Hp Hi. rewrite EN by auto. set (d := nth p blocks 0%nat).
      destruct (HC v (gdim * d + i)%nat Hv) as [-> Z]. rewrite (body_combination (C v) j) by (auto; intros l Hl; apply Z; unfold v; rewrite index_class by auto; exact Hl).
      split; intros B; destruct (on_body_dec j d); try contradiction; [|reflexivity]. apply base_combination.
    - intros c W HW.
      assert (CH : forall N, exists e : nat -> nat -> R, forall j, (j < N)%nat -> (j < List.length tags)%nat -> forall d i, (i < gdim)%nat -> motion gdim (c j) (W j) (at_ d) i = rsum dim (fun m => e j m * base m d i)).
      { induction N as [|N (e & IH)]; [exists (fun _ _ => 0); lia|]. destruct (Nat.lt_ge_cases N (List.length tags)) as [HN|HN].
        - destruct (motion_base (c N) (W N) (HW N HN)) as (f & Hf). exists (fun j => if (j =? N)%nat then f else e j). intros j Hj Hj' d i Hi.
          destruct (Nat.eqb_spec j N) as [->|]; [auto|apply IH; auto; lia].
        - exists e. intros j Hj Hj'. apply IH; lia. }
      destruct (CH (List.length tags)) as (e & He').
      destruct (combination_trans (List.length basis) (fun l => e (l / dim)%nat (l mod dim)%nat) basis b D HD) as (coef & Hcoef).
      exists coef. intros p i Hp Hi. set (d := nth p blocks 0%nat).
      assert (S0 : rsum (List.length basis) (fun v => coef v * entry v p i) = rsum (List.length tags) (fun j => if on_body_dec j d then motion gdim (c j) (W j) (at_ d) i else 0)).
      { rewrite (rsum_ext _ _ (fun v => coef v * vec b v (gdim * d + i)%nat)) by (intros v Hv; now rewrite EN).
        change (rsum (List.length basis) (fun v => coef v * vec b v (gdim * d + i)%nat)) with (combination (List.length basis) coef b (gdim * d + i)%nat).
        rewrite <- Hcoef. unfold combination. rewrite basis_length, rsum_prod. apply rsum_ext. intros j Hj.
        destruct (on_body_dec j d) eqn:B; [rewrite He' by auto; apply rsum_ext|apply rsum_zero]; intros m Hm; rewrite basis_entry, B by auto; [|ring].
        rewrite index_class by auto. rewrite Nat.add_comm, Nat.mod_add, Nat.mod_small by (pose proof dim_pos; lia). reflexivity. }
      rewrite S0. split.
      + intros j Hj B. rewrite (rsum_single _ j); auto; [destruct (on_body_dec j d); [reflexivity|contradiction]|].
        intros j' Hj' Hne. destruct (on_body_dec j' d); [|reflexivity]. exfalso. apply Hne. eapply Hdisj; eauto.
      + intros B. apply rsum_zero. intros j Hj. destruct (on_body_dec j d) as [H|]; [exfalso; exact (B j Hj H)|reflexivity].
  Qed.

  (** ** When it can be built *)
  (** [nodes j]: the owned blocks of body j, each once. *)
  Variable nodes : nat -> list nat.
  Hypothesis (HB : NoDup blocks).
  Hypothesis (Hnd : forall j, (j < List.length tags)%nat -> NoDup (nodes j)).
  Hypothesis (Hin : forall j d, (j < List.length tags)%nat -> (In d (nodes j) <-> In d blocks /\ on_body j d)).

  Lemma lsum_nodes j f : (j < List.length tags)%nat -> lsum blocks (fun d => if on_body_dec j d then f d else 0) = lsum (nodes j) f.
  Proof using HB Hnd Hin.
    intros Hj. assert (P : Permutation (filter (fun d => if on_body_dec j d then true else false) blocks) (nodes j)).
    { apply NoDup_Permutation; [now apply NoDup_filter|auto|]. intros d. rewrite filter_In, Hin by auto. destruct (on_body_dec j d); split; intros [? ?]; auto; discriminate. }
    transitivity (lsum (filter (fun d => if on_body_dec j d then true else false) blocks) f).
    - clear. induction blocks as [|d l IH]; [reflexivity|]. cbn [lsum filter]. destruct (on_body_dec j d); cbn [lsum]; rewrite IH; ring.
    - clear - P. induction P; cbn [lsum]; lra.
  Qed.

  Definition misfit (j m : nat) (c : nat -> R) : R :=
    lsum (nodes j) (fun d => rsum gdim (fun i => (base m d i - rsum m (fun l => c l * base l d i)) * (base m d i - rsum m (fun l => c l * base l d i)))).

  Lemma builds_iff_misfit eps tol : 0 < eps -> 0 <= tol ->
    ((exists vs, multibody_nullspace gdim n tags find cell_dofs x blocks eps tol = NullSpace vs) <->
     forall j m c, (j < List.length tags)%nat -> (m < dim)%nat -> eps <= misfit j m c).
  Proof using Hg Hn Hdisj HB Hnd Hin.
    intros He Ht. unfold multibody_nullspace. rewrite (finish_nullspace_cases _ (gdim * n)) by (auto using basis_rows).
    destruct (C111_orthonormalisation owned (gdim * n) eps basis He basis_rows) as [_ K].
    assert (S0 : (exists vs, match orthonormalize owned eps basis with None => NullError "Linear dependency detected. Cannot orthogonalize." | Some b => NullSpace (map (fun v => map (fun k => nth k v 0) owned) b) end = NullSpace vs)
       <-> orthonormalize owned eps basis <> None).
    { destruct (orthonormalize owned eps basis); split; eauto; try discriminate; [intros [vs E]; discriminate|congruence]. }
    rewrite S0, K. clear S0 K.
    assert (ON : forall j m c d i, (j < List.length tags)%nat -> (m < dim)%nat -> (i < gdim)%nat -> on_body j d ->
       vec basis (j * dim + m) (gdim * d + i) - combination (j * dim + m) c basis (gdim * d + i) = base m d i - rsum m (fun l => c (j * dim + l)%nat * base l d i)).
    { intros j m c d i Hj Hm Hi B. rewrite basis_entry by auto. destruct (on_body_dec j d); [|contradiction]. f_equal. unfold combination. rewrite rsum_app.
      rewrite (rsum_prod j dim), (rsum_zero j).
      - rewrite Rplus_0_l. apply rsum_ext. intros l Hl. rewrite basis_entry by (auto; lia). destruct (on_body_dec j d); [reflexivity|contradiction].
      - intros j' Hj'. apply rsum_zero. intros l Hl. rewrite basis_entry by (auto; lia). destruct (on_body_dec j' d) as [B'|]; [|ring].
        exfalso. assert (j' = j) by (eapply Hdisj; eauto; lia). lia. }
    split.
    - intros H j m c Hj Hm. specialize (H (j * dim + m)%nat (fun l => if (l <? j * dim)%nat then 0 else c (l - j * dim)%nat) ltac:(rewrite basis_length; nia)).
      refine (Rle_trans _ _ _ H _). apply Req_le. rewrite dot_owned_entries. unfold misfit. rewrite <- lsum_nodes by auto. apply lsum_ext. intros d _.
      destruct (on_body_dec j d) as [B|B].
      + apply rsum_ext. intros i Hi. rewrite ON by auto.
        rewrite (rsum_ext m _ (fun l => c l * base l d i)); [reflexivity|]. intros l Hl. destruct (Nat.ltb_spec (j * dim + l) (j * dim)); [lia|]. do 2 f_equal. lia.
      + apply rsum_zero. intros i Hi.
        assert (Z : forall l, (l < dim)%nat -> vec basis (j * dim + l) (gdim * d + i) = 0) by (intros l Hl; rewrite basis_entry by auto; destruct (on_body_dec j d); [contradiction|reflexivity]).
        rewrite Z by auto. unfold combination. rewrite rsum_app, (rsum_zero (j * dim)), (rsum_zero m).
        * ring.
        * intros l Hl. rewrite Z by lia. ring.
        * intros l Hl. destruct (Nat.ltb_spec l (j * dim)); [ring|lia].
    - intros H v c Hv. destruct (index_split v Hv) as (V1 & V2 & V3). set (j := (v / dim)%nat) in *. set (m := (v mod dim)%nat) in *.
      specialize (H j m (fun l => c (j * dim + l)%nat) V1 V2). refine (Rle_trans _ _ _ H _). unfold misfit. rewrite <- lsum_nodes by auto.
      rewrite dot_owned_entries, V3. apply Rge_le, Rminus_ge, Rle_ge. rewrite <- lsum_minus.
      clear - ON V1 V2. induction blocks as [|d l IH]; cbn [lsum]; [lra|]. apply Rplus_le_le_0_compat; [|exact IH].
      destruct (on_body_dec j d) as [B|B].
      + apply Req_le. symmetry. apply Rminus_diag_eq. apply rsum_ext. intros i Hi. rewrite ON by auto. reflexivity.
      + rewrite Rminus_0_r. apply rsum_nonneg. intros i _. apply Rle_0_sqr.
  Qed.
End bodies.

(** ** Exact conditions *)
Lemma lsum_nonneg {A} (l : list A) f : (forall a, In a l -> 0 <= f a) -> 0 <= lsum l f.
Proof. induction l as [|a l IH]; intros H; cbn [lsum]; [lra|]. apply Rplus_le_le_0_compat; [apply H; now left|apply IH; intros; apply H; now right]. Qed.
Lemma lsum_at_least {A} (l : list A) f : l <> [] -> (forall a, In a l -> 1 <= f a) -> 1 <= lsum l f.
Proof.
  destruct l as [|a l]; [congruence|]. intros _ H. cbn [lsum]. pose proof (H a ltac:(now left)). assert (0 <= lsum l f); [|lra].
  apply lsum_nonneg. intros b Hb. pose proof (H b ltac:(now right)). lra.
Qed.
(** The mean has the least squared distance. *)
Lemma mean_least {A} (l : list A) (f : A -> R) c : l <> [] ->
  let m := lsum l f / INR (List.length l) in lsum l (fun a => (f a - m) * (f a - m)) <= lsum l (fun a => (f a - c) * (f a - c)).
Proof.
  intros Hl m. set (N := INR (List.length l)). assert (HN : 0 < N) by (unfold N; destruct l; [congruence|apply lt_0_INR; cbn; lia]).
  assert (E : forall c, lsum l (fun a => (f a - c) * (f a - c)) = lsum l (fun a => f a * f a) - 2 * c * lsum l f + N * (c * c)).
  { intros c'. unfold N. clear. induction l as [|a l IH]; [cbn; ring|]. cbn [lsum List.length]. rewrite IH, S_INR. ring. }
  rewrite !E. assert (F : lsum l f = N * m) by (unfold m; fold N; field; lra). rewrite F. assert (0 <= N * ((m - c) * (m - c))); [|nra].
  apply Rmult_le_pos; [lra|apply Rle_0_sqr].
Qed.

(** Planar bodies: every body has an owned node, and the squared distances of its nodes to
    any point add up to at least eps. *)
Theorem C111_planar_exact :
  forall n tags find cell_dofs x blocks nodes eps tol,
    (forall tag c d, In tag tags -> In c (find tag) -> In d (cell_dofs c) -> (d < n)%nat) ->
    (forall j j' d, (j < List.length tags)%nat -> (j' < List.length tags)%nat -> on_body tags find cell_dofs j d -> on_body tags find cell_dofs j' d -> j = j') ->
    NoDup blocks -> (forall j, (j < List.length tags)%nat -> NoDup (nodes j)) ->
    (forall j d, (j < List.length tags)%nat -> (In d (nodes j) <-> In d blocks /\ on_body tags find cell_dofs j d)) ->
    0 < eps <= 1 -> 0 <= tol ->
    let coordinate d k := nth (3 * d + k) x 0 in
    (exists vs, multibody_nullspace 2 n tags find cell_dofs x blocks eps tol = NullSpace vs) <->
    forall j, (j < List.length tags)%nat -> nodes j <> [] /\
      forall p q, eps <= lsum (nodes j) (fun d => (coordinate d 0%nat - p) ^ 2 + (coordinate d 1%nat - q) ^ 2).
Proof.
  intros n tags find cell_dofs x blocks nodes eps tol Hn Hdisj HB Hnd Hin He Ht coordinate.
  rewrite (builds_iff_misfit 2 n tags find cell_dofs x blocks (or_introl eq_refl) Hn Hdisj nodes HB Hnd Hin eps tol) by lra. split.
  - intros H j Hj. split.
    + intros E. specialize (H j 0%nat (fun _ => 0) Hj ltac:(cbn; lia)). unfold misfit in H. rewrite E in H. cbn in H. lra.
    + intros p q. specialize (H j 2%nat (fun l => match l with 0%nat => - q | _ => p end) Hj ltac:(cbn; lia)). refine (Rle_trans _ _ _ H _). apply Req_le. unfold misfit. apply lsum_ext. intros d _.
      unfold motion. cbn [rsum base_c base_W Nat.ltb Nat.leb Nat.sub Nat.eqb]. unfold coordinate. ring.
  - intros H j m c Hj Hm. destruct (H j Hj) as [NE K]. destruct m as [|[|[|m]]]; [| | |cbn in Hm; lia].
    + apply (Rle_trans _ 1); [lra|]. unfold misfit. apply lsum_at_least; [exact NE|]. intros d _. unfold motion. cbn [rsum base_c base_W Nat.ltb Nat.leb Nat.sub Nat.eqb]. lra.
    + apply (Rle_trans _ 1); [lra|]. unfold misfit. apply lsum_at_least; [exact NE|]. intros d _. unfold motion. cbn [rsum base_c base_W Nat.ltb Nat.leb Nat.sub Nat.eqb]. pose proof (Rle_0_sqr (c 0%nat)) as Z. unfold Rsqr in Z. nra.
    + refine (Rle_trans _ _ _ (K (c 1%nat) (- c 0%nat)) _). apply Req_le. unfold misfit. apply lsum_ext. intros d _.
      unfold motion. cbn [rsum base_c base_W Nat.ltb Nat.leb Nat.sub Nat.eqb]. unfold coordinate. ring.
Qed.

(** Squared distance of y to the axis through p with direction w, times |w|^2. *)
Definition axis_moment (w p y : nat -> R) : R :=
  let a k := y k - p k in
  (w 1%nat * a 2%nat - w 2%nat * a 1%nat) ^ 2 + (w 2%nat * a 0%nat - w 0%nat * a 2%nat) ^ 2 + (w 0%nat * a 1%nat - w 1%nat * a 0%nat) ^ 2.
Definition vec3 (a b c : R) (k : nat) : R := match k with 0%nat => a | 1%nat => b | _ => c end.

(** Bodies in space: every body has an owned node, and its moments about the axes with
    directions (0,0,1), (0,1,s), (1,s,t) are at least eps. *)
Theorem C111_spatial_exact :
  forall n tags find cell_dofs x blocks nodes eps tol,
    (forall tag c d, In tag tags -> In c (find tag) -> In d (cell_dofs c) -> (d < n)%nat) ->
    (forall j j' d, (j < List.length tags)%nat -> (j' < List.length tags)%nat -> on_body tags find cell_dofs j d -> on_body tags find cell_dofs j' d -> j = j') ->
    NoDup blocks -> (forall j, (j < List.length tags)%nat -> NoDup (nodes j)) ->
    (forall j d, (j < List.length tags)%nat -> (In d (nodes j) <-> In d blocks /\ on_body tags find cell_dofs j d)) ->
    0 < eps <= 1 -> 0 <= tol ->
    let moment j w p := lsum (nodes j) (fun d => axis_moment w p (fun k => nth (3 * d + k) x 0)) in
    (exists vs, multibody_nullspace 3 n tags find cell_dofs x blocks eps tol = NullSpace vs) <->
    forall j, (j < List.length tags)%nat -> nodes j <> [] /\
      forall p s t, eps <= moment j (vec3 0 0 1) p /\ eps <= moment j (vec3 0 1 s) p /\ eps <= moment j (vec3 1 s t) p.
Proof.
  intros n tags find cell_dofs x blocks nodes eps tol Hn Hdisj HB Hnd Hin He Ht moment.
  rewrite (builds_iff_misfit 3 n tags find cell_dofs x blocks (or_intror eq_refl) Hn Hdisj nodes HB Hnd Hin eps tol) by lra. split.
  - intros H j Hj. split.
    + intros E. specialize (H j 0%nat (fun _ => 0) Hj ltac:(cbn; lia)). unfold misfit in H. rewrite E in H. cbn in H. lra.
    + intros p s t. split; [|split].
      * specialize (H j 3%nat (fun l => match l with 0%nat => - p 1%nat | 1%nat => p 0%nat | _ => 0 end) Hj ltac:(cbn; lia)).
        refine (Rle_trans _ _ _ H _). apply Req_le. unfold misfit, moment. apply lsum_ext. intros d _.
        unfold motion, axis_moment, vec3. cbn [rsum base_c base_W Nat.ltb Nat.leb Nat.sub Nat.eqb]. ring.
      * specialize (H j 4%nat (fun l => match l with 0%nat => p 2%nat - s * p 1%nat | 1%nat => s * p 0%nat | 2%nat => - p 0%nat | _ => - s end) Hj ltac:(cbn; lia)).
        refine (Rle_trans _ _ _ H _). apply Req_le. unfold misfit, moment. apply lsum_ext. intros d _.
        unfold motion, axis_moment, vec3. cbn [rsum base_c base_W Nat.ltb Nat.leb Nat.sub Nat.eqb]. ring.
      * specialize (H j 5%nat (fun l => match l with 0%nat => s * p 2%nat - t * p 1%nat | 1%nat => t * p 0%nat - p 2%nat | 2%nat => p 1%nat - s * p 0%nat | 3%nat => - t | _ => - s end) Hj ltac:(cbn; lia)).
        refine (Rle_trans _ _ _ H _). apply Req_le. unfold misfit, moment. apply lsum_ext. intros d _.
        unfold motion, axis_moment, vec3. cbn [rsum base_c base_W Nat.ltb Nat.leb Nat.sub Nat.eqb]. ring.
  - intros H j m c Hj Hm. destruct (H j Hj) as [NE K].
    set (X := fun d k => nth (3 * d + k) x 0). set (mean := fun k => lsum (nodes j) (fun d => X d k) / INR (List.length (nodes j))).
    assert (HN : INR (List.length (nodes j)) <> 0) by (apply not_0_INR; destruct (nodes j); [congruence|cbn; lia]).
    assert (MM : forall w v, moment j w mean <= lsum (nodes j) (fun d => (w 1%nat * X d 2%nat - w 2%nat * X d 1%nat - v 0%nat) ^ 2 + (w 2%nat * X d 0%nat - w 0%nat * X d 2%nat - v 1%nat) ^ 2 + (w 0%nat * X d 1%nat - w 1%nat * X d 0%nat - v 2%nat) ^ 2)).
    { intros w v. unfold moment, axis_moment. cbv zeta. rewrite !lsum_plus.
      assert (ML : forall a b k l cc, lsum (nodes j) (fun d => (a * (X d k - mean k) - b * (X d l - mean l)) ^ 2) <= lsum (nodes j) (fun d => (a * X d k - b * X d l - cc) ^ 2)).
      { intros a b k l cc. pose proof (mean_least (nodes j) (fun d => a * X d k - b * X d l) cc NE) as M. cbv zeta in M.
        assert (Em : lsum (nodes j) (fun d => a * X d k - b * X d l) / INR (List.length (nodes j)) = a * mean k - b * mean l) by (rewrite lsum_minus, !lsum_scal; unfold mean; field; exact HN).
        rewrite Em in M.
        rewrite (lsum_ext (nodes j) (fun d => (a * (X d k - mean k) - b * (X d l - mean l)) ^ 2) (fun d => (a * X d k - b * X d l - (a * mean k - b * mean l)) * (a * X d k - b * X d l - (a * mean k - b * mean l)))) by (intros; ring).
        rewrite (lsum_ext (nodes j) (fun d => (a * X d k - b * X d l - cc) ^ 2) (fun d => (a * X d k - b * X d l - cc) * (a * X d k - b * X d l - cc))) by (intros; ring). exact M. }
      apply Rplus_le_compat; [apply Rplus_le_compat|]; apply ML. }
    destruct m as [|[|[|[|[|[|m]]]]]]; [| | | | | |cbn in Hm; lia].
    1-3: apply (Rle_trans _ 1); [lra|]; unfold misfit; apply lsum_at_least; [exact NE|]; intros d _; unfold motion; cbn [rsum base_c base_W Nat.ltb Nat.leb Nat.sub Nat.eqb];
      pose proof (Rle_0_sqr (c 0%nat)) as Z; pose proof (Rle_0_sqr (c 1%nat)) as Z'; unfold Rsqr in Z, Z'; nra.
    + refine (Rle_trans _ _ _ (proj1 (K mean 0 0)) (Rle_trans _ _ _ (MM (vec3 0 0 1) (vec3 (c 0%nat) (c 1%nat) (c 2%nat))) _)). apply Req_le. unfold misfit. apply lsum_ext. intros d _.
      unfold motion, vec3, X. cbn [rsum base_c base_W Nat.ltb Nat.leb Nat.sub Nat.eqb]. ring.
    + refine (Rle_trans _ _ _ (proj1 (proj2 (K mean (- c 3%nat) 0))) (Rle_trans _ _ _ (MM (vec3 0 1 (- c 3%nat)) (vec3 (c 0%nat) (c 1%nat) (c 2%nat))) _)). apply Req_le. unfold misfit. apply lsum_ext. intros d _.
      unfold motion, vec3, X. cbn [rsum base_c base_W Nat.ltb Nat.leb Nat.sub Nat.eqb]. ring.
    + refine (Rle_trans _ _ _ (proj2 (proj2 (K mean (- c 4%nat) (- c 3%nat)))) (Rle_trans _ _ _ (MM (vec3 1 (- c 4%nat) (- c 3%nat)) (vec3 (c 0%nat) (c 1%nat) (c 2%nat))) _)). apply Req_le. unfold misfit. apply lsum_ext. intros d _.
      unfold motion, vec3, X. cbn [rsum base_c base_W Nat.ltb Nat.leb Nat.sub Nat.eqb]. ring.
Qed.

(** ** Python builder *)
Lemma py_rows gdim n num_domains tags find cell_dofs x v : (v < nullspace_dim gdim * num_domains)%nat ->
  List.length (rigid_motions_nullspace_subdomains gdim n num_domains tags find cell_dofs x) = (nullspace_dim gdim * num_domains)%nat /\
  List.length (nth v (rigid_motions_nullspace_subdomains gdim n num_domains tags find cell_dofs x) []) = (gdim * n)%nat.
Proof.
  intros Hv. rewrite py_subdomains_ops, run_length, run_row_length, repeat_length, repeat_rows by auto. now rewrite repeat_length.
Qed.

(** With as many domains as tags and cells of every tag on every process it is the C++
    builder. *)
Theorem C111_py_same :
  forall gdim n tags procs cell_dofs x blocks eps tol,
    gdim = 2%nat \/ gdim = 3%nat ->
    let find tag := flat_map (fun find => find tag) procs in
    (forall tag c d, In tag tags -> In c (find tag) -> In d (cell_dofs c) -> (d < n)%nat) ->
    (forall tag find, In tag tags -> In find procs -> find tag <> []) ->
    subdomains_nullspace gdim n (List.length tags) tags procs cell_dofs x blocks eps tol = multibody_nullspace gdim n tags find cell_dofs x blocks eps tol.
Proof.
  intros gdim n tags procs cell_dofs x blocks eps tol Hg find Hn HP. unfold subdomains_nullspace.
  replace (existsb _ tags) with false.
  - rewrite Nat.ltb_irrefl. unfold multibody_nullspace. f_equal. fold find.
    assert (Hlen : List.length (rigid_motions_nullspace_subdomains gdim n (List.length tags) tags find cell_dofs x) = List.length (build_nullspace_multibody gdim n tags find cell_dofs x))
      by (rewrite py_subdomains_ops, multibody_ops, !run_length, !repeat_length; reflexivity).
    apply (nth_ext _ _ [] []); [exact Hlen|]. intros v Hv. rewrite Hlen, basis_length in Hv by exact Hg.
    destruct (py_rows gdim n (List.length tags) tags find cell_dofs x v ltac:(lia)) as [_ Hr].
    assert (Hr' : List.length (nth v (build_nullspace_multibody gdim n tags find cell_dofs x) []) = (gdim * n)%nat) by (apply basis_rows; try exact Hg; rewrite basis_length by exact Hg; lia).
    apply (nth_ext _ _ 0 0); [congruence|]. intros k _. assert (G0 : gdim <> 0%nat) by (destruct Hg; lia).
    rewrite (Nat.div_mod k gdim G0). apply C52_builders_agree; auto; [lia|apply Nat.mod_upper_bound; exact G0].
  - symmetry. apply not_true_is_false. intros E. apply existsb_exists in E. destruct E as (tag & Ht & E). apply existsb_exists in E. destruct E as (f & Hf & E).
    apply Nat.eqb_eq in E. apply length_zero_iff_nil in E. exact (HP tag f Ht Hf E).
Qed.

(** It fails whenever fewer tags than domains are given (the default is two domains), or
    some process has no cell of some tag. *)
Theorem C111_py_fails :
  forall gdim n num_domains tags procs cell_dofs x blocks eps tol,
    gdim = 2%nat \/ gdim = 3%nat -> 0 < eps ->
    (forall tag c d, In tag tags -> In c (flat_map (fun find => find tag) procs) -> In d (cell_dofs c) -> (d < n)%nat) ->
    (List.length tags < num_domains)%nat \/ (exists tag find, In tag tags /\ In find procs /\ find tag = []) ->
    exists message, subdomains_nullspace gdim n num_domains tags procs cell_dofs x blocks eps tol = NullError message.
Proof.
  intros gdim n nd tags procs cell_dofs x blocks eps tol Hg He Hn H. unfold subdomains_nullspace. destruct (existsb _ tags) eqn:EX; [eauto|].
  destruct H as [H|(tag & f & Ht & Hf & E)].
  2:{ exfalso. apply not_true_iff_false in EX. apply EX. apply existsb_exists. exists tag. split; [exact Ht|]. apply existsb_exists. exists f. now rewrite E. }
  destruct (nd <? List.length tags)%nat; [eauto|]. unfold finish_nullspace.
  set (find := fun tag => flat_map (fun find => find tag) procs) in *. set (basis := rigid_motions_nullspace_subdomains gdim n nd tags find cell_dofs x).
  set (dim := nullspace_dim gdim). set (v := (List.length tags * dim)%nat). assert (Dp : (0 < dim)%nat) by (unfold dim, nullspace_dim; destruct (gdim =? 2)%nat; lia).
  assert (Hv : (v < dim * nd)%nat) by (unfold v; nia). destruct (py_rows gdim n nd tags find cell_dofs x v Hv) as [HL _]. fold basis in HL.
  assert (HR : forall j, (j < List.length basis)%nat -> List.length (nth j basis []) = (gdim * n)%nat) by (intros j Hj; apply py_rows; rewrite HL in Hj; exact Hj).
  pose proof (orthonormalize_spec (owned_entries gdim blocks) (gdim * n) eps basis He HR) as K. destruct (orthonormalize _ eps basis) as [b|]; [|eauto]. exfalso.
  destruct K as [_ _ _ _ _ _ K]. fold dim in HL. specialize (K v (fun _ => 0) ltac:(lia)).
  assert (Z : forall k, vec basis v k = 0).
  { intros k. unfold vec, basis. rewrite py_subdomains_ops.
    assert (F : forall ops b, (forall o, In o ops -> fst (fst o) <> v) -> nth v (run ops b) [] = nth v b []).
    { induction ops as [|o ops IH]; intros b0 Ho; [reflexivity|]. change (run (o :: ops) b0) with (run ops (setb b0 (fst (fst o)) (snd (fst o)) (snd o))). rewrite IH by (intros; apply Ho; now right).
      unfold setb. apply nth_upd_other. apply Ho. now left. }
    rewrite F; [apply repeat_entry|]. intros [[v' k'] val] Ho. cbn [fst]. apply in_flat_map in Ho. destruct Ho as (j & Hj & Ho). apply in_seq in Hj.
    apply py_motion_ops_in in Ho; auto. apply motion_ops_sound in Ho; auto. destruct Ho as (m & d & i & Hm & _ & _ & -> & _). fold dim in Hm |- *. unfold v. nia. }
  rewrite (dot_ext _ _ _ (fun _ => 0) (fun _ => 0)) in K.
  - unfold dot in K. rewrite lsum_zero in K; [lra|intros; ring].
  - intros k _. rewrite Z. unfold combination. rewrite rsum_zero; [ring|intros; ring].
  - intros k _. rewrite Z. unfold combination. rewrite rsum_zero; [ring|intros; ring].
Qed.

Print Assumptions C111_orthonormalisation.
Print Assumptions C111_rigid_motion_basis.
Print Assumptions C111_planar_exact.
Print Assumptions C111_spatial_exact.
Print Assumptions C111_py_same.
Print Assumptions C111_py_fails.

(** ** Examples *)
(** Two triangles with three nodes each, scaled with s; machine epsilon 2^-52: built for
    s = 1, not for s = 2^-27. *)
Definition ex_find (t : nat) : list nat := [(t - 1)%nat].
Definition ex_dofs (c : nat) : list nat := [3 * c; 3 * c + 1; 3 * c + 2]%nat.
Definition ex_x (s : R) : list R := [0; 0; 0;  s; 0; 0;  0; s; 0;  0; 2 * s; 0;  s; 2 * s; 0;  0; 3 * s; 0].
Definition ex_nodes (j : nat) : list nat := ex_dofs j.
Lemma ex_bound : forall tag c d, In tag [1; 2]%nat -> In c (ex_find tag) -> In d (ex_dofs c) -> (d < 6)%nat.
Proof. intros tag c d [<-|[<-|[]]] [<-|[]]; cbn; lia. Qed.
Lemma ex_on_body j d : (j < 2)%nat -> on_body [1; 2]%nat ex_find ex_dofs j d <-> In d (ex_dofs j).
Proof.
  intros Hj. unfold on_body. destruct j as [|[|j]]; [| |lia]; cbn; (split; [intros (c & [<-|[]] & H); cbn in H; exact H|]).
  - intros H. exists 0%nat. cbn. auto.
  - intros H. exists 1%nat. cbn. auto.
Qed.
Lemma ex_disjoint : forall j j' d, (j < 2)%nat -> (j' < 2)%nat -> on_body [1; 2]%nat ex_find ex_dofs j d -> on_body [1; 2]%nat ex_find ex_dofs j' d -> j = j'.
Proof. intros j j' d Hj Hj'. rewrite !ex_on_body by auto. unfold ex_dofs. cbn [In]. lia. Qed.
Lemma ex_nodes_in : forall j d, (j < 2)%nat -> (In d (ex_nodes j) <-> In d (seq 0 6) /\ on_body [1; 2]%nat ex_find ex_dofs j d).
Proof. intros j d Hj. rewrite ex_on_body by auto. rewrite in_seq. unfold ex_nodes, ex_dofs. cbn [In]. lia. Qed.
Lemma ex_nodes_nodup : forall j, (j < 2)%nat -> NoDup (ex_nodes j).
Proof. intros j _. unfold ex_nodes, ex_dofs. repeat constructor; cbn [In]; lia. Qed.
Definition ex_eps : R := / 2 ^ 52.
Lemma ex_eps_range : 0 < ex_eps <= 1.
Proof. unfold ex_eps. split; [apply Rinv_0_lt_compat; apply pow_lt; lra|]. rewrite <- Rinv_1. apply Rinv_le_contravar; [lra|]. apply pow_R1_Rle. lra. Qed.

Example C111_planar_nonvacuous : exists vs, multibody_nullspace 2 6 [1; 2]%nat ex_find ex_dofs (ex_x 1) (seq 0 6) ex_eps ex_eps = NullSpace vs /\ List.length vs = 6%nat.
Proof.
  pose proof ex_eps_range as [E1 E2].
  destruct (proj2 (C111_planar_exact 6 [1; 2]%nat ex_find ex_dofs (ex_x 1) (seq 0 6) ex_nodes ex_eps ex_eps ex_bound ex_disjoint (seq_NoDup 6 0) ex_nodes_nodup ex_nodes_in (conj E1 E2) (Rlt_le _ _ E1))) as (vs & E).
  - intros j Hj. split; [discriminate|]. intros p q.
    apply (Rle_trans _ (1 / 2)).
    + unfold ex_eps. replace (1 / 2) with (/ 2 ^ 1) by (simpl; lra). apply Rinv_le_contravar; [lra|]. apply Rle_pow; [lra|lia].
    + destruct j as [|[|j]]; [| |cbn in Hj; lia]; unfold ex_nodes, ex_dofs, ex_x; cbn [lsum nth Nat.mul Nat.add];
        (assert (0 <= (p - 1 / 2) ^ 2) by (apply pow2_ge_0)); (assert (0 <= p ^ 2) by (apply pow2_ge_0)); pose proof (pow2_ge_0 q); pose proof (pow2_ge_0 (1 - q)); pose proof (pow2_ge_0 (2 - q)); pose proof (pow2_ge_0 (3 - q)); nra.
  - exists vs. split; [exact E|]. apply (C111_rigid_motion_basis 2 6 [1; 2]%nat ex_find ex_dofs (ex_x 1) (seq 0 6) (or_introl eq_refl) ex_bound ex_disjoint ex_eps ex_eps vs E1 (Rlt_le _ _ E1) E).
Qed.
Example C111_small_body : ~ exists vs, multibody_nullspace 2 6 [1; 2]%nat ex_find ex_dofs (ex_x (/ 2 ^ 27)) (seq 0 6) ex_eps ex_eps = NullSpace vs.
Proof.
  pose proof ex_eps_range as [E1 E2].
  rewrite (C111_planar_exact 6 [1; 2]%nat ex_find ex_dofs (ex_x (/ 2 ^ 27)) (seq 0 6) ex_nodes ex_eps ex_eps ex_bound ex_disjoint (seq_NoDup 6 0) ex_nodes_nodup ex_nodes_in (conj E1 E2) (Rlt_le _ _ E1)).
  intros H. destruct (H 0%nat ltac:(cbn; lia)) as [_ K]. specialize (K 0 0). unfold ex_nodes, ex_dofs, ex_x in K. cbn [lsum nth Nat.mul Nat.add] in K.
  assert (F : (/ 2 ^ 27) ^ 2 = ex_eps / 4).
  { unfold ex_eps. rewrite pow_inv by (apply pow_nonzero; lra). rewrite <- pow_mult. replace (27 * 2)%nat with (52 + 2)%nat by reflexivity. rewrite pow_add. simpl (2 ^ 2). field; try (apply pow_nonzero; lra). }
  rewrite !Rminus_0_r, F in K. simpl (0 ^ 2) in K. lra.
Qed.

(** A unit tetrahedron. *)
Definition tet_x : list R := [0; 0; 0;  1; 0; 0;  0; 1; 0;  0; 0; 1].
Example C111_spatial_nonvacuous : exists vs, multibody_nullspace 3 4 [7]%nat (fun _ => [0%nat]) (fun _ => [0; 1; 2; 3]%nat) tet_x (seq 0 4) ex_eps ex_eps = NullSpace vs /\ List.length vs = 6%nat.
Proof.
  pose proof ex_eps_range as [E1 E2].
  assert (B : forall tag c d : nat, In tag [7]%nat -> In c [0%nat] -> In d [0; 1; 2; 3]%nat -> (d < 4)%nat) by (intros tag c d _ _; cbn; lia).
  assert (DJ : forall j j' d, (j < 1)%nat -> (j' < 1)%nat -> on_body [7]%nat (fun _ => [0%nat]) (fun _ => [0; 1; 2; 3]%nat) j d -> on_body [7]%nat (fun _ => [0%nat]) (fun _ => [0; 1; 2; 3]%nat) j' d -> j = j') by (intros; lia).
  destruct (proj2 (C111_spatial_exact 4 [7]%nat (fun _ => [0%nat]) (fun _ => [0; 1; 2; 3]%nat) tet_x (seq 0 4) (fun _ => seq 0 4) ex_eps ex_eps B DJ (seq_NoDup 4 0) (fun _ _ => seq_NoDup 4 0)
     ltac:(intros j d Hj; split; [intros H; split; [exact H|exists 0%nat; split; [now left|exact H]]|intros [H _]; exact H]) (conj E1 E2) (Rlt_le _ _ E1))) as (vs & E).
  - intros j Hj. split; [discriminate|]. intros p s t. cbv zeta.
    assert (H2 : ex_eps <= 1 / 2) by (unfold ex_eps; replace (1 / 2) with (/ 2 ^ 1) by (simpl; lra); apply Rinv_le_contravar; [lra|]; apply Rle_pow; [lra|lia]).
    assert (P : forall w y, 0 <= axis_moment w p y) by (intros w y; unfold axis_moment; cbv zeta; repeat apply Rplus_le_le_0_compat; apply pow2_ge_0).
    assert (D2 : forall a b c, (a - b) ^ 2 / 2 <= (a - c) ^ 2 + (b - c) ^ 2) by (intros a b c; pose proof (pow2_ge_0 (a + b - 2 * c)); nra).
    cbn [lsum seq]. set (X := fun d k => nth (3 * d + k) tet_x 0).
    change (fun k => nth (3 * 0 + k) tet_x 0) with (X 0%nat). change (fun k => nth (3 * 1 + k) tet_x 0) with (X 1%nat). change (fun k => nth (3 * 2 + k) tet_x 0) with (X 2%nat). change (fun k => nth (3 * 3 + k) tet_x 0) with (X 3%nat).
    assert (M : forall w a b, ((w 1%nat * (X a 2%nat - X b 2%nat) - w 2%nat * (X a 1%nat - X b 1%nat)) ^ 2 + (w 2%nat * (X a 0%nat - X b 0%nat) - w 0%nat * (X a 2%nat - X b 2%nat)) ^ 2 + (w 0%nat * (X a 1%nat - X b 1%nat) - w 1%nat * (X a 0%nat - X b 0%nat)) ^ 2) / 2
       <= axis_moment w p (X a) + axis_moment w p (X b)).
    { intros w a b. unfold axis_moment. cbv zeta.
      pose proof (D2 (w 1%nat * X a 2%nat - w 2%nat * X a 1%nat) (w 1%nat * X b 2%nat - w 2%nat * X b 1%nat) (w 1%nat * p 2%nat - w 2%nat * p 1%nat)).
      pose proof (D2 (w 2%nat * X a 0%nat - w 0%nat * X a 2%nat) (w 2%nat * X b 0%nat - w 0%nat * X b 2%nat) (w 2%nat * p 0%nat - w 0%nat * p 2%nat)).
      pose proof (D2 (w 0%nat * X a 1%nat - w 1%nat * X a 0%nat) (w 0%nat * X b 1%nat - w 1%nat * X b 0%nat) (w 0%nat * p 1%nat - w 1%nat * p 0%nat)). nra. }
    repeat split.
    + pose proof (M (vec3 0 0 1) 0%nat 1%nat) as K. pose proof (P (vec3 0 0 1) (X 2%nat)). pose proof (P (vec3 0 0 1) (X 3%nat)).
      unfold X at 1 2 3 4 5 6 7 8 9 10 11 12, tet_x in K. cbn [vec3 nth Nat.mul Nat.add] in K. simpl pow in K. lra.
    + pose proof (M (vec3 0 1 s) 0%nat 1%nat) as K. pose proof (P (vec3 0 1 s) (X 2%nat)). pose proof (P (vec3 0 1 s) (X 3%nat)).
      unfold X at 1 2 3 4 5 6 7 8 9 10 11 12, tet_x in K. cbn [vec3 nth Nat.mul Nat.add] in K. simpl pow in K. pose proof (Rle_0_sqr s) as Z. unfold Rsqr in Z. nra.
    + pose proof (M (vec3 1 s t) 0%nat 2%nat) as K. pose proof (P (vec3 1 s t) (X 1%nat)). pose proof (P (vec3 1 s t) (X 3%nat)).
      unfold X at 1 2 3 4 5 6 7 8 9 10 11 12, tet_x in K. cbn [vec3 nth Nat.mul Nat.add] in K. simpl pow in K. pose proof (Rle_0_sqr t) as Z. unfold Rsqr in Z. nra.
  - exists vs. split; [exact E|]. apply (C111_rigid_motion_basis 3 4 [7]%nat (fun _ => [0%nat]) (fun _ => [0; 1; 2; 3]%nat) tet_x (seq 0 4) (or_intror eq_refl) B DJ ex_eps ex_eps vs E1 (Rlt_le _ _ E1) E).
Qed.
(** One body with the default of two domains. *)
Example C111_py_default_fails : exists message, subdomains_nullspace 3 4 2 [7]%nat [fun _ => [0%nat]] (fun _ => [0; 1; 2; 3]%nat) tet_x (seq 0 4) ex_eps ex_eps = NullError message.
Proof.
  apply C111_py_fails; [now right|apply ex_eps_range| |left; cbn; lia]. intros tag c d _ _. cbn; lia.
Qed.
