(** Gram-Schmidt in exact arithmetic. *)
From Coq Require Import List Arith Lia Bool Reals Lra String.
Import ListNotations.
From Verif Require Import Prelude PreludeLemmas RSum RealLemmas NullspaceModel OrthoModel.
Local Open Scope R_scope.

(** ** Specification *)
(** Inner product of two fields over the owned entries, and a linear combination of the
    first [n] vectors of a list. *)
Definition dot (owned : list nat) (f g : nat -> R) : R := lsum owned (fun k => f k * g k).
Definition vec (b : list (list R)) (i : nat) (k : nat) : R := nth k (nth i b []) 0.
Definition combination (n : nat) (c : nat -> R) (b : list (list R)) (k : nat) : R := rsum n (fun j => c j * vec b j k).

Lemma inner_dot owned x y : inner_product owned x y = dot owned (fun k => nth k x 0) (fun k => nth k y 0).
Proof. unfold inner_product. rewrite for_each_lsum. apply Rplus_0_l. Qed.
Lemma dot_ext owned f g f' g' : (forall k, In k owned -> f k = f' k) -> (forall k, In k owned -> g k = g' k) -> dot owned f g = dot owned f' g'.
Proof. intros E E'. apply lsum_ext. intros k Hk. now rewrite E, E'. Qed.
Lemma dot_sym owned f g : dot owned f g = dot owned g f.
Proof. apply lsum_ext. intros; ring. Qed.
Lemma dot_nonneg owned f : 0 <= dot owned f f.
Proof. unfold dot. induction owned as [|a l IH]; cbn [lsum]; [lra|]. pose proof (Rle_0_sqr (f a)) as S0. unfold Rsqr in S0. lra. Qed.
Lemma dot_minus owned f g h : dot owned (fun k => f k - g k) h = dot owned f h - dot owned g h.
Proof. unfold dot. rewrite <- lsum_minus. apply lsum_ext. intros; ring. Qed.
Lemma dot_plus owned f g h : dot owned (fun k => f k + g k) h = dot owned f h + dot owned g h.
Proof. unfold dot. rewrite <- lsum_plus. apply lsum_ext. intros; ring. Qed.
Lemma dot_scal owned c f h : dot owned (fun k => c * f k) h = c * dot owned f h.
Proof. unfold dot. rewrite <- lsum_scal. apply lsum_ext. intros; ring. Qed.
Lemma dot_rsum owned n (f : nat -> nat -> R) h : dot owned (fun k => rsum n (fun j => f j k)) h = rsum n (fun j => dot owned (f j) h).
Proof.
  unfold dot. rewrite <- lsum_rsum. apply lsum_ext. intros k _. now rewrite <- rsum_scal_r.
Qed.

Lemma nth_subtract c bj bi k : List.length bj = List.length bi -> nth k (subtract c bj bi) 0 = nth k bi 0 - c * nth k bj 0.
Proof.
  intros L. unfold subtract. destruct (Nat.lt_ge_cases k (List.length bi)) as [H|H].
  - rewrite (nth_map_lt _ _ _ _ 0%nat) by (now rewrite seq_length). now rewrite seq_nth.
  - rewrite !nth_overflow; [ring|lia|lia|rewrite map_length, seq_length; lia].
Qed.
Lemma subtract_length c bj bi : List.length (subtract c bj bi) = List.length bi.
Proof. unfold subtract. now rewrite map_length, seq_length. Qed.

(** Orthonormal first [i] vectors. *)
Definition orthonormal (owned : list nat) (n : nat) (b : list (list R)) : Prop :=
  forall i j, (i < n)%nat -> (j < n)%nat -> dot owned (vec b i) (vec b j) = if (i =? j)%nat then 1 else 0.

Lemma dot_combination owned n b c j : orthonormal owned n b -> (j < n)%nat -> dot owned (fun k => rsum n (fun i => c i * vec b i k)) (vec b j) = c j.
Proof.
  intros O Hj. rewrite (dot_rsum owned n (fun i k => c i * vec b i k)). rewrite (rsum_single n j).
  - rewrite dot_scal, O by auto. rewrite Nat.eqb_refl. ring.
  - exact Hj.
  - intros i Hi Hne. rewrite dot_scal, O by auto. destruct (Nat.eqb_spec i j); [contradiction|ring].
Qed.

Section inner.
  Variables (owned : list nat) (N : nat) (b : list (list R)) (x : list R).
  Hypothesis (Lx : List.length x = N).

  Definition projected (i : nat) : list R :=
    for_loop i (fun j bi => subtract (inner_product owned bi (nth j b [])) (nth j b []) bi) x.

  Lemma projected_value i : (forall j, (j < i)%nat -> List.length (nth j b []) = N) -> orthonormal owned i b ->
    List.length (projected i) = N /\
    forall k, nth k (projected i) 0 = nth k x 0 - rsum i (fun j => dot owned (fun k => nth k x 0) (vec b j) * vec b j k).
  Proof using Lx.
    induction i as [|i IH]; intros HL O.
    - split; [exact Lx|]. intros k. cbn [rsum]. unfold projected, for_loop, for_range. cbn. ring.
    - destruct IH as [L E]; [intros; apply HL; lia|intros i' j' Hi' Hj'; apply O; lia|].
      unfold projected in *. rewrite for_loop_S. set (y := for_loop i _ x) in *. split; [now rewrite subtract_length|].
      intros k. rewrite nth_subtract by (rewrite L; apply HL; lia). rewrite inner_dot. cbn [rsum].
      rewrite (dot_ext owned (fun k => nth k y 0) (fun k => nth k (nth i b []) 0)
                 (fun k => nth k x 0 - rsum i (fun j => dot owned (fun k => nth k x 0) (vec b j) * vec b j k)) (vec b i)) by (intros; auto).
      rewrite dot_minus. rewrite (dot_rsum owned i (fun j k => dot owned (fun k => nth k x 0) (vec b j) * vec b j k)).
      rewrite (rsum_zero i (fun j => dot owned _ (vec b i))).
      + rewrite E. unfold vec. ring.
      + intros j Hj. rewrite dot_scal, O by lia. destruct (Nat.eqb_spec j i); [lia|ring].
  Qed.
  Lemma projected_orthogonal i j : (forall j, (j < i)%nat -> List.length (nth j b []) = N) -> orthonormal owned i b -> (j < i)%nat ->
    dot owned (fun k => nth k (projected i) 0) (vec b j) = 0.
  Proof using Lx.
    intros HL O Hj. destruct (projected_value i HL O) as [_ E].
    rewrite (dot_ext owned _ (vec b j) (fun k => nth k x 0 - rsum i (fun j => dot owned (fun k => nth k x 0) (vec b j) * vec b j k)) (vec b j)) by auto.
    rewrite dot_minus, (dot_combination owned i b (fun j => dot owned (fun k => nth k x 0) (vec b j))) by auto. ring.
  Qed.
  (** The projected vector is the shortest difference of [x] to a combination. *)
  Lemma projected_shortest i d : (forall j, (j < i)%nat -> List.length (nth j b []) = N) -> orthonormal owned i b ->
    dot owned (fun k => nth k (projected i) 0) (fun k => nth k (projected i) 0) <=
    dot owned (fun k => nth k x 0 - rsum i (fun j => d j * vec b j k)) (fun k => nth k x 0 - rsum i (fun j => d j * vec b j k)).
  Proof using Lx.
    intros HL O. set (r := fun k => nth k (projected i) 0). set (e := fun j => dot owned (fun k => nth k x 0) (vec b j) - d j).
    set (s := fun k => rsum i (fun j => e j * vec b j k)).
    assert (E : forall k, nth k x 0 - rsum i (fun j => d j * vec b j k) = r k + s k).
    { intros k. unfold r, s, e. destruct (projected_value i HL O) as [_ ->].
      rewrite (rsum_ext i (fun j => (dot owned (fun k => nth k x 0) (vec b j) - d j) * vec b j k) (fun j => dot owned (fun k => nth k x 0) (vec b j) * vec b j k - d j * vec b j k)) by (intros; ring).
      rewrite rsum_minus. ring. }
    rewrite (dot_ext owned (fun k => nth k x 0 - _) (fun k => nth k x 0 - _) (fun k => r k + s k) (fun k => r k + s k)) by auto.
    rewrite dot_plus, (dot_sym owned r (fun k => r k + s k)), (dot_sym owned s (fun k => r k + s k)), !dot_plus.
    assert (Z : dot owned s r = 0).
    { unfold s. rewrite (dot_rsum owned i (fun j k => e j * vec b j k)). apply rsum_zero. intros j Hj. rewrite dot_scal, dot_sym. unfold r. rewrite projected_orthogonal by auto. ring. }
    rewrite (dot_sym owned r s), Z. pose proof (dot_nonneg owned s). lra.
  Qed.
End inner.

Lemma nth_divided norm l k : nth k (map (fun x => x / norm) l) 0 = / norm * nth k l 0.
Proof.
  revert k. induction l as [|a l IH]; intros [|k]; cbn; try ring; [unfold Rdiv; ring|apply IH].
Qed.

(** State of the loop after [i] vectors. *)
Record ortho_state (owned : list nat) (N : nat) (eps : R) (a b : list (list R)) (i : nat) : Prop := {
  os_length : List.length b = List.length a;
  os_rows : forall j, (j < List.length a)%nat -> List.length (nth j b []) = N;
  os_rest : forall j, (i <= j)%nat -> nth j b [] = nth j a [];
  os_ortho : orthonormal owned i b;
  os_span : exists C, forall j k, (j < i)%nat -> vec b j k = combination (S j) (C j) a k;
  os_back : exists D, forall j k, (j < i)%nat -> vec a j k = combination (S j) (D j) b k;
  os_far : forall j c, (j < i)%nat -> eps <= dot owned (fun k => vec a j k - combination j c a k) (fun k => vec a j k - combination j c a k)
}.

Lemma rsum_triangle n (c : nat -> R) (D : nat -> nat -> R) (g : nat -> R) :
  rsum n (fun j => c j * rsum (S j) (fun l => D j l * g l)) = rsum n (fun l => rsum n (fun j => if (l <=? j)%nat then c j * D j l else 0) * g l).
Proof.
  transitivity (rsum n (fun j => rsum n (fun l => (if (l <=? j)%nat then c j * D j l else 0) * g l))).
  - apply rsum_ext. intros j Hj. rewrite <- rsum_scal. replace n with (S j + (n - S j))%nat by lia. rewrite rsum_app.
    rewrite (rsum_zero (n - S j)) by (intros l _; destruct (Nat.leb_spec (S j + l) j); [lia|ring]). rewrite Rplus_0_r.
    apply rsum_ext. intros l Hl. destruct (Nat.leb_spec l j); [ring|lia].
  - rewrite rsum_swap. apply rsum_ext. intros l _. now rewrite rsum_scal_r.
Qed.
(** A combination of vectors each of which is a combination of the first ones. *)
Lemma combination_trans n c (b a : list (list R)) (C : nat -> nat -> R) :
  (forall j k, (j < n)%nat -> vec b j k = combination (S j) (C j) a k) ->
  exists c', forall k, combination n c b k = combination n c' a k.
Proof.
  intros H. exists (fun l => rsum n (fun j => if (l <=? j)%nat then c j * C j l else 0)). intros k. unfold combination at 1.
  rewrite (rsum_ext n _ (fun j => c j * rsum (S j) (fun l => C j l * vec a l k))) by (intros j Hj; rewrite H by auto; reflexivity).
  apply rsum_triangle.
Qed.

Lemma orthonormalize_step owned N eps a b i : 0 < eps -> (forall j, (j < List.length a)%nat -> List.length (nth j a []) = N) -> (i < List.length a)%nat ->
  ortho_state owned N eps a b i ->
  let bi := projected owned b (nth i b []) i in
  let norm := sqrt (inner_product owned bi bi) in
  if Rlt_dec (norm * norm) eps
  then exists c, dot owned (fun k => vec a i k - combination i c a k) (fun k => vec a i k - combination i c a k) < eps
  else ortho_state owned N eps a (upd b i (map (fun x => x / norm) bi)) (S i).
Proof.
  intros He Ha Hi [HL HR HN HO (C & HC) (D & HD) HF]. cbv zeta.
  set (bi := projected owned b (nth i b []) i). assert (E0 : nth i b [] = nth i a []) by (apply HN; lia).
  assert (Lx : List.length (nth i b []) = N) by (rewrite E0; now apply Ha).
  assert (HR' : forall j, (j < i)%nat -> List.length (nth j b []) = N) by (intros; apply HR; lia).
  destruct (projected_value owned N b (nth i b []) Lx i HR' HO) as [Lb Eb]. fold bi in Lb, Eb.
  set (e := fun j => dot owned (fun k => nth k (nth i b []) 0) (vec b j)) in Eb.
  assert (NN : sqrt (inner_product owned bi bi) * sqrt (inner_product owned bi bi) = dot owned (fun k => nth k bi 0) (fun k => nth k bi 0)).
  { rewrite sqrt_sqrt; rewrite inner_dot; [reflexivity|apply dot_nonneg]. }
  set (norm := sqrt (inner_product owned bi bi)) in *.
  destruct (combination_trans i e b a C HC) as (c' & Hc').
  assert (Ebi : forall k, nth k bi 0 = vec a i k - combination i c' a k).
  { intros k. rewrite Eb, <- Hc'. change (vec a i k) with (nth k (nth i a []) 0). rewrite <- E0. reflexivity. }
  destruct (Rlt_dec (norm * norm) eps) as [LT|GE].
  - exists c'. rewrite NN in LT. rewrite (dot_ext owned _ _ (fun k => nth k bi 0) (fun k => nth k bi 0)); auto.
  - apply Rnot_lt_le in GE. assert (Pn : 0 < norm).
    { destruct (sqrt_pos (inner_product owned bi bi)) as [P|P]; [exact P|]. fold norm in P. rewrite <- P in GE. lra. }
    assert (Q : forall k, vec (upd b i (map (fun x => x / norm) bi)) i k = / norm * nth k bi 0).
    { intros k. unfold vec. rewrite nth_upd_same by lia. apply nth_divided. }
    assert (Q' : forall j k, j <> i -> vec (upd b i (map (fun x => x / norm) bi)) j k = vec b j k) by (intros j k Hj; unfold vec; rewrite nth_upd_other by auto; reflexivity).
    constructor.
    + now rewrite upd_length.
    + intros j Hj. destruct (Nat.eq_dec j i) as [->|Hne]; [rewrite nth_upd_same by lia; now rewrite map_length|rewrite nth_upd_other by auto; auto].
    + intros j Hj. rewrite nth_upd_other by lia. apply HN. lia.
    + assert (OO : forall j, (j < i)%nat -> dot owned (vec (upd b i (map (fun x => x / norm) bi)) i) (vec (upd b i (map (fun x => x / norm) bi)) j) = 0).
      { intros j Hj. rewrite (dot_ext owned _ _ (fun k => / norm * nth k bi 0) (vec b j)) by (intros; rewrite ?Q, ?Q' by lia; reflexivity).
        rewrite dot_scal. unfold bi. rewrite (projected_orthogonal owned N b (nth i b []) Lx) by auto. ring. }
      intros j l Hj Hl. destruct (Nat.eqb_spec j l) as [->|Hne].
      * destruct (Nat.eq_dec l i) as [->|Hli].
        -- rewrite (dot_ext owned _ _ (fun k => / norm * nth k bi 0) (fun k => / norm * nth k bi 0)) by auto.
           rewrite dot_scal, dot_sym, dot_scal, <- NN. field. lra.
        -- rewrite (dot_ext owned _ _ (vec b l) (vec b l)) by auto. rewrite HO by lia. now rewrite Nat.eqb_refl.
      * destruct (Nat.eq_dec j i) as [->|Hji]; [apply OO; lia|]. destruct (Nat.eq_dec l i) as [->|Hli]; [rewrite dot_sym; apply OO; lia|].
        rewrite (dot_ext owned _ _ (vec b j) (vec b l)) by auto. rewrite HO by lia. destruct (Nat.eqb_spec j l); [contradiction|reflexivity].
    + exists (fun j => if (j =? i)%nat then (fun l => if (l =? i)%nat then / norm else - / norm * c' l) else C j). intros j k Hj.
      destruct (Nat.eqb_spec j i) as [->|Hne]; [|rewrite Q' by auto; apply HC; lia].
      rewrite Q, Ebi. unfold combination at 2. cbn [rsum]. rewrite Nat.eqb_refl.
      rewrite (rsum_ext i _ (fun l => - / norm * (c' l * vec a l k))) by (intros l Hl; destruct (Nat.eqb_spec l i); [lia|ring]).
      rewrite rsum_scal. unfold combination. ring.
    + exists (fun j => if (j =? i)%nat then (fun l => if (l =? i)%nat then norm else e l) else D j). intros j k Hj.
      destruct (Nat.eqb_spec j i) as [->|Hne].
      * unfold combination. cbn [rsum]. rewrite Nat.eqb_refl, Q, Eb.
        rewrite (rsum_ext i _ (fun l => e l * vec b l k)) by (intros l Hl; destruct (Nat.eqb_spec l i); [lia|rewrite Q' by auto; reflexivity]).
        change (vec a i k) with (nth k (nth i a []) 0). rewrite <- E0. unfold e. field. lra.
      * rewrite HD by lia. unfold combination. apply rsum_ext. intros l Hl. rewrite Q' by lia. reflexivity.
    + intros j c Hj. destruct (Nat.eq_dec j i) as [->|Hne]; [|apply HF; lia].
      refine (Rle_trans _ _ _ GE _). rewrite NN.
      destruct (combination_trans i c a b D HD) as (d & Hd). unfold bi.
      refine (Rle_trans _ _ _ (projected_shortest owned N b (nth i b []) Lx i d HR' HO) _).
      apply Req_le. apply dot_ext; intros k _; rewrite Hd, E0; reflexivity.
Qed.

Lemma orthonormalize_spec owned N eps a : 0 < eps -> (forall j, (j < List.length a)%nat -> List.length (nth j a []) = N) ->
  match orthonormalize owned eps a with
  | Some b => ortho_state owned N eps a b (List.length a)
  | None => exists i c, (i < List.length a)%nat /\ dot owned (fun k => vec a i k - combination i c a k) (fun k => vec a i k - combination i c a k) < eps
  end.
Proof.
  intros He Ha. unfold orthonormalize.
  apply (for_loop_inv (fun n state => (n <= List.length a)%nat -> match state with
    | Some b => ortho_state owned N eps a b n
    | None => exists i c, (i < List.length a)%nat /\ dot owned (fun k => vec a i k - combination i c a k) (fun k => vec a i k - combination i c a k) < eps end) (List.length a)); [| |lia].
  - intros _. constructor; auto; try lia; try (exists (fun _ _ => 0); lia). intros i j Hi; lia.
  - intros i [b|] Hi IH Hn; [|apply IH; lia].
    pose proof (orthonormalize_step owned N eps a b i He Ha Hi (IH ltac:(lia))) as K. cbv zeta in K. unfold projected in K. cbv zeta.
    destruct (Rlt_dec _ eps); [|exact K]. destruct K as (c & K). exists i, c. auto.
Qed.
