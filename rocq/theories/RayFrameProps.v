(** Property C115, part 1: raytracing is objective.  If the mesh, the point and the normal
    are turned (or reflected) and shifted together, the same facet is hit at the same
    reference point.  The tangents are computed from the normal by a rule that does not turn
    with it (it depends on the largest component), so this is not immediate. *)
From Coq Require Import List Arith ZArith Lia Bool Reals Lra.
Import ListNotations.
From Verif Require Import Prelude PreludeLemmas RSum CropModel CandidatesProps RealLemmas GeomModel GeomProps RayModel RayProps ElasticityProps RigidBalanceProps FrameProofs.
Local Open Scope R_scope.

(** ** Specification *)
(** [x'] is [x] turned (a vector), or turned and shifted (a point). *)
Definition turned_vector (dim : nat) (O : nat -> nat -> R) (v v' : list R) : Prop := forall a, (a < dim)%nat -> nth a v' 0 = turn dim O (fun k => nth k v 0) a.
Definition turned_position (dim : nat) (O : nat -> nat -> R) (t : nat -> R) (x x' : list R) : Prop := forall a, (a < dim)%nat -> nth a x' 0 = turn dim O (fun k => nth k x 0) a + t a.
(** The same mesh in another frame: reference cell and facets are the same, the images of
    reference points are turned and shifted, the Jacobians turned. *)
Record turned_mesh (dim : nat) (O : nat -> nat -> R) (t : nat -> R) (m m' : ray_mesh) : Prop := {
  tm_tdim : rm_tdim m' = rm_tdim m; tm_gdim : rm_gdim m' = rm_gdim m; tm_type : rm_type m' = rm_type m;
  tm_vertex : forall f, rm_vertex m' f = rm_vertex m f; tm_facet : forall f, rm_facet_jac m' f = rm_facet_jac m f;
  tm_push : forall c X, turned_position dim O t (rm_push m c X) (rm_push m' c X);
  tm_jac : forall c X a k, (a < dim)%nat -> (k < rm_tdim m)%nat -> rm_jac m' c X a k = turn dim O (fun b => rm_jac m c X b k) a }.
(** The same answer: status, facet parameters, reference point and position in the list of
    candidates; for a hit, the point in space is turned and shifted. *)
Definition same_hit (dim : nat) (O : nat -> nat -> R) (t : nat -> R) (r r' : ray_result (ray_state * option nat)) : Prop :=
  match r, r' with
  | RayOk (s, o), RayOk (s', o') => o' = o /\ rs_status s' = rs_status s /\ rs_xi s' = rs_xi s /\ rs_X s' = rs_X s /\ (o <> None -> turned_position dim O t (rs_x s) (rs_x s'))
  | RayInvalid, RayInvalid => True
  | _, _ => False
  end.

(** ** Tangents *)
Lemma tangents_unit dim n i j : (dim = 2 \/ dim = 3)%nat -> length n = dim -> normn dim n = 1 -> (i < dim - 1)%nat -> (j < dim - 1)%nat ->
  rsum dim (fun l => tangent (compute_tangents dim n) i l * tangent (compute_tangents dim n) j l) = delta i j.
Proof.
  intros [-> | ->] Hl Hn Hi Hj; unfold tangent.
  - destruct (C54_tangents_2d n Hl Hn) as (t & -> & _ & Tn & _). apply dot1_of_norm in Tn. assert (i = 0%nat) by lia. assert (j = 0%nat) by lia. subst. exact Tn.
  - destruct (C54_tangents_3d n Hl Hn) as (t & t' & -> & _ & _ & Tn & Tn' & _ & _ & Ttt). apply dot1_of_norm in Tn. apply dot1_of_norm in Tn'.
    assert (Ei : (i = 0 \/ i = 1)%nat) by lia. assert (Ej : (j = 0 \/ j = 1)%nat) by lia. destruct Ei as [-> | ->], Ej as [-> | ->]; cbn [nth]; [exact Tn|exact Ttt| |exact Tn']. rewrite dotn_sym in Ttt. exact Ttt.
Qed.

Section Frames.
  Context (dim : nat) (O : nat -> nat -> R) (HO : orthogonal dim O) (n n' : list R).
  Context (Hdim : (dim = 2 \/ dim = 3)%nat) (Hl : length n = dim) (Hl' : length n' = dim) (Hn : normn dim n = 1) (Hn' : turned_vector dim O n n').
  Notation T := (tangent (compute_tangents dim n)).
  Notation T' := (tangent (compute_tangents dim n')).
  Lemma turned_unit : normn dim n' = 1.
  Proof using HO Hn Hn'.
    rewrite <- Hn. unfold normn. f_equal. unfold dotn. rewrite <- (contract dim O HO (fun k => nth k n 0) (fun k => nth k n 0)). apply rsum_ext. intros a Ha. now rewrite (Hn' a Ha).
  Qed.
  (** The new tangents in terms of the old ones. *)
  Definition change (i j : nat) : R := rsum dim (fun a => turn dim O (T j) a * T' i a).
  Lemma turned_normal_part v : rsum dim (fun a => turn dim O v a * nth a n' 0) = rsum dim (fun a => v a * nth a n 0).
  Proof using HO Hn'. rewrite <- (contract dim O HO v (fun k => nth k n 0)). apply rsum_ext. intros a Ha. now rewrite (Hn' a Ha). Qed.
  Lemma turned_product v i : (i < dim - 1)%nat -> rsum dim (fun a => turn dim O v a * T' i a) = rsum (dim - 1) (fun j => change i j * rsum dim (fun l => v l * T j l)).
  Proof using All.
    intros Hi.
    (* T' i turned back *)
    set (S := turn dim (fun a b => O b a) (T' i)).
    assert (E : forall w, rsum dim (fun a => turn dim O w a * T' i a) = rsum dim (fun l => w l * S l)).
    { intros w. unfold S, turn. rewrite (rsum_ext dim _ (fun a => rsum dim (fun k => O a k * w k * T' i a))) by (intros; now rewrite rsum_scal_r). rewrite rsum_swap. apply rsum_ext. intros l _. rewrite <- rsum_scal. apply rsum_ext. intros. ring. }
    rewrite E, (tangent_frame_polar dim n Hdim Hl Hn v S).
    assert (Z : rsum dim (fun l => S l * nth l n 0) = 0).
    { rewrite (rsum_ext dim _ (fun l => nth l n 0 * S l)) by (intros; ring). rewrite <- (E (fun l => nth l n 0)).
      rewrite (rsum_ext dim _ (fun a => nth a n' 0 * T' i a)) by (intros a Ha; now rewrite (Hn' a Ha)). apply tangents_orth; auto using turned_unit. }
    rewrite Z, Rmult_0_r, Rplus_0_l. apply rsum_ext. intros j Hj. rewrite Rmult_comm. f_equal. unfold change. rewrite E. apply rsum_ext. intros. ring.
  Qed.
  Lemma change_columns i j : (i < dim - 1)%nat -> (j < dim - 1)%nat -> rsum (dim - 1) (fun k => change k i * change k j) = delta i j.
  Proof using All.
    intros Hi Hj. rewrite <- (tangents_unit dim n i j Hdim Hl Hn Hi Hj). rewrite <- (contract dim O HO (T i) (T j)).
    rewrite (tangent_frame_polar dim n' Hdim Hl' turned_unit (turn dim O (T i)) (turn dim O (T j))). rewrite !turned_normal_part.
    assert (Z : forall k, (k < dim - 1)%nat -> rsum dim (fun a => T k a * nth a n 0) = 0).
    { intros k Hk. rewrite (rsum_ext dim _ (fun a => nth a n 0 * T k a)) by (intros; ring). now apply tangents_orth. }
    rewrite !Z by auto. rewrite Rmult_0_l, Rplus_0_l. reflexivity.
  Qed.
End Frames.

(** ** One Newton step *)
Section Step.
  Context (tdim gdim : nat) (Hg : (gdim = 2 \/ gdim = 3)%nat) (Ht : (tdim = gdim \/ (tdim = 2 /\ gdim = 3))%nat).
  Context (W : nat -> nat -> R) (HW : forall i j, (i < gdim - 1)%nat -> (j < gdim - 1)%nat -> rsum (gdim - 1) (fun k => W k i * W k j) = delta i j).
  Context (D D' : matrix) (G G' : nat -> R).
  Context (ED : forall i j, (i < gdim - 1)%nat -> (j < tdim - 1)%nat -> D' i j = rsum (gdim - 1) (fun k => W i k * D k j)).
  Context (EG : forall i, (i < gdim - 1)%nat -> G' i = rsum (gdim - 1) (fun k => W i k * G k)).
  Lemma det_step : Rabs (derivative_det tdim gdim D') = Rabs (derivative_det tdim gdim D).
  Proof using Hg Ht HW ED.
    clear EG G G'. unfold derivative_det. destruct Hg as [Eg | Eg], Ht as [Et | [Et Et3]]; try lia; rewrite Et, ?Eg in *; cbn [Nat.eqb negb andb Nat.sub] in *.
    - unfold det. cbn [Nat.eqb]. rewrite ED by lia. specialize (HW 0 0 ltac:(lia) ltac:(lia))%nat. unfold delta in HW. cbn [rsum Nat.eqb] in *. rewrite !Rplus_0_l in *. rewrite Rabs_mult.
      assert (Rabs (W 0%nat 0%nat) = 1); [|rewrite H; ring]. assert (E : Rsqr (W 0%nat 0%nat) = Rsqr 1) by (unfold Rsqr; lra). apply Rsqr_eq_abs_0 in E. now rewrite Rabs_R1 in E.
    - unfold det. cbn [Nat.eqb]. rewrite !ED by lia. pose proof (HW 0 0 ltac:(lia) ltac:(lia))%nat as H00. pose proof (HW 0 1 ltac:(lia) ltac:(lia))%nat as H01. pose proof (HW 1 1 ltac:(lia) ltac:(lia))%nat as H11. unfold delta in *. cbn [rsum Nat.eqb] in *. rewrite !Rplus_0_l in *.
      set (w := W 0%nat 0%nat * W 1%nat 1%nat - W 0%nat 1%nat * W 1%nat 0%nat).
      assert (Ew : Rsqr w = Rsqr 1).
      { unfold Rsqr. transitivity ((W 0%nat 0%nat * W 0%nat 0%nat + W 1%nat 0%nat * W 1%nat 0%nat) * (W 0%nat 1%nat * W 0%nat 1%nat + W 1%nat 1%nat * W 1%nat 1%nat) - (W 0%nat 0%nat * W 0%nat 1%nat + W 1%nat 0%nat * W 1%nat 1%nat) * (W 0%nat 0%nat * W 0%nat 1%nat + W 1%nat 0%nat * W 1%nat 1%nat)); [unfold w; ring|]. rewrite H00, H01, H11. ring. }
      apply Rsqr_eq_abs_0 in Ew. rewrite Rabs_R1 in Ew.
      match goal with |- Rabs ?x = Rabs ?y => replace x with (w * y) by (unfold w; ring) end. rewrite Rabs_mult, Ew. ring.
    - f_equal. f_equal. rewrite !ED by lia. pose proof (HW 0 0 ltac:(lia) ltac:(lia))%nat as H00. pose proof (HW 0 1 ltac:(lia) ltac:(lia))%nat as H01. pose proof (HW 1 1 ltac:(lia) ltac:(lia))%nat as H11. unfold delta in *. cbn [rsum Nat.eqb] in *. rewrite !Rplus_0_l in *.
      set (x := D 0%nat 0%nat). set (y := D 1%nat 0%nat).
      transitivity ((W 0%nat 0%nat * W 0%nat 0%nat + W 1%nat 0%nat * W 1%nat 0%nat) * (x * x) + 2 * (W 0%nat 0%nat * W 0%nat 1%nat + W 1%nat 0%nat * W 1%nat 1%nat) * (x * y) + (W 0%nat 1%nat * W 0%nat 1%nat + W 1%nat 1%nat * W 1%nat 1%nat) * (y * y)); [ring|]. rewrite H00, H01, H11. ring.
  Qed.
  Lemma step_step : derivative_det tdim gdim D <> 0 -> newton_step tdim gdim D' G' = newton_step tdim gdim D G.
  Proof using All.
    intros Hz. pose proof det_step as HD. unfold newton_step. apply map_ext_in. intros i Hi. apply in_seq in Hi. unfold derivative_inv, derivative_det in *.
    destruct Hg as [Eg | Eg], Ht as [Et | [Et Et3]]; try lia; rewrite Et, ?Eg in *; cbn [Nat.eqb negb andb Nat.sub] in *.
    - unfold inv, det in *. cbn [Nat.eqb rsum] in *. rewrite EG, ED by lia. specialize (HW 0 0 ltac:(lia) ltac:(lia))%nat. unfold delta in HW. cbn [rsum Nat.eqb] in *. rewrite !Rplus_0_l in *. field. split; [exact Hz|intros E; rewrite E in HW; lra].
    - assert (Hz' : det 2 D' <> 0). { intros E. rewrite E, Rabs_R0 in HD. symmetry in HD. revert HD. now apply Rabs_no_R0. }
      unfold inv. cbn [Nat.eqb]. unfold det in *. cbn [Nat.eqb rsum] in *. rewrite !EG, !ED by lia. rewrite !ED in Hz' by lia. cbn [rsum Nat.eqb] in *. rewrite !Rplus_0_l in *.
      set (w00 := W 0%nat 0%nat) in *. set (w01 := W 0%nat 1%nat) in *. set (w10 := W 1%nat 0%nat) in *. set (w11 := W 1%nat 1%nat) in *. set (a := D 0%nat 0%nat) in *. set (b := D 0%nat 1%nat) in *. set (c := D 1%nat 0%nat) in *. set (d := D 1%nat 1%nat) in *.
      assert (Ei : (i = 0 \/ i = 1)%nat) by lia. destruct Ei as [-> | ->]; field; auto.
    - assert (i = 0%nat) by lia. subst i. unfold pinv. cbn [rsum]. rewrite !EG, !ED by lia.
      pose proof (HW 0 0 ltac:(lia) ltac:(lia))%nat as H00. pose proof (HW 0 1 ltac:(lia) ltac:(lia))%nat as H01. pose proof (HW 1 1 ltac:(lia) ltac:(lia))%nat as H11. unfold delta in *. cbn [rsum Nat.eqb] in *. rewrite !Rplus_0_l in *.
      set (x := D 0%nat 0%nat) in *. set (y := D 1%nat 0%nat) in *. set (w00 := W 0%nat 0%nat) in *. set (w01 := W 0%nat 1%nat) in *. set (w10 := W 1%nat 0%nat) in *. set (w11 := W 1%nat 1%nat) in *.
      assert (EQ : (w00 * x + w01 * y) * (w00 * x + w01 * y) + (w10 * x + w11 * y) * (w10 * x + w11 * y) = x * x + y * y).
      { transitivity ((w00 * w00 + w10 * w10) * (x * x) + 2 * (w00 * w01 + w10 * w11) * (x * y) + (w01 * w01 + w11 * w11) * (y * y)); [ring|]. rewrite H00, H01, H11. ring. }
      rewrite EQ, !Rmult_assoc, <- !Rmult_plus_distr_l. f_equal.
      transitivity ((w00 * w00 + w10 * w10) * (x * G 0%nat) + (w00 * w01 + w10 * w11) * (x * G 1%nat + y * G 0%nat) + (w01 * w01 + w11 * w11) * (y * G 1%nat)); [ring|]. rewrite H00, H01, H11. ring.
  Qed.
End Step.

(** ** One cell, all candidates *)
Section Ray.
  Context (tdim gdim max_iter : nat) (tol : R) (O : nat -> nat -> R) (t : nat -> R) (m m' : ray_mesh) (point point' n n' : list R).
  Context (Hg : (gdim = 2 \/ gdim = 3)%nat) (Ht : (tdim = gdim \/ (tdim = 2 /\ gdim = 3))%nat) (Htol : 0 < tol) (HO : orthogonal gdim O) (TM : turned_mesh gdim O t m m') (Htm : tdim = rm_tdim m).
  Context (HP : turned_position gdim O t point point') (Hl : length n = gdim) (Hl' : length n' = gdim) (Hn : normn gdim n = 1) (Hn' : turned_vector gdim O n n').
  Notation T := (compute_tangents gdim n).
  Notation T' := (compute_tangents gdim n').
  Notation W := (change gdim O n n').
  Definition same_state (s s' : ray_state) : Prop := rs_status s' = rs_status s /\ rs_xi s' = rs_xi s /\ rs_X s' = rs_X s /\ ((0 < rs_status s)%Z -> turned_position gdim O t (rs_x s) (rs_x s')).
  Lemma newton_same c k : forall s s', (rs_status s < 0)%Z -> same_state s s' ->
    let rf := reference_map tdim (rm_vertex m (snd c)) in
    same_state (ray_newton tdim gdim tol rf (rm_push m (fst c)) (rm_jac m (fst c)) (rm_facet_jac m (snd c)) point T k s)
      (ray_newton tdim gdim tol rf (rm_push m' (fst c)) (rm_jac m' (fst c)) (rm_facet_jac m (snd c)) point' T' k s').
  Proof using All.
    cbv zeta. set (rf := reference_map tdim (rm_vertex m (snd c))). induction k as [|k IH]; intros s s' Hs (E1 & E2 & E3 & E4); cbn [ray_newton]; [repeat split; auto|]. rewrite E2.
    set (X := rf (rs_xi s)). cbv zeta. pose proof (tm_push _ _ _ _ _ TM (fst c) X) as PX.
    set (G := residual gdim point T (rm_push m (fst c) X)). set (G' := residual gdim point' T' (rm_push m' (fst c) X)).
    set (D := residual_derivative tdim gdim (rm_jac m (fst c)) (rm_facet_jac m (snd c)) T X). set (D' := residual_derivative tdim gdim (rm_jac m' (fst c)) (rm_facet_jac m (snd c)) T' X).
    assert (EG : forall i, (i < gdim - 1)%nat -> G' i = rsum (gdim - 1) (fun k => W i k * G k)).
    { intros i Hi. unfold G', G, residual.
      rewrite <- (turned_product gdim O HO n n' Hg Hl Hl' Hn Hn' (fun l => nth l (rm_push m (fst c) X) 0 - nth l point 0) i Hi).
      apply rsum_ext. intros a Ha. rewrite (PX a Ha), (HP a Ha), turn_minus. ring. }
    assert (ED : forall i j, (i < gdim - 1)%nat -> (j < tdim - 1)%nat -> D' i j = rsum (gdim - 1) (fun k => W i k * D k j)).
    { intros i j Hi Hj. unfold D', D, residual_derivative.
      rewrite <- (turned_product gdim O HO n n' Hg Hl Hl' Hn Hn' (fun l => facet_derivative tdim (rm_jac m (fst c)) (rm_facet_jac m (snd c)) X l j) i Hi).
      apply rsum_ext. intros a Ha. f_equal. unfold facet_derivative. rewrite turn_sum. apply rsum_ext. intros b Hb. rewrite (tm_jac _ _ _ _ _ TM) by (auto; lia). unfold turn. rewrite <- rsum_scal_r. apply rsum_ext. intros. ring. }
    pose proof (change_columns gdim O HO n n' Hg Hl Hl' Hn Hn') as HW.
    rewrite (det_step tdim gdim Hg Ht W HW D D' ED). destruct (rlt (Rabs (derivative_det tdim gdim D)) tol) eqn:Er; [repeat split; intros; cbn [rs_status] in *; lia|].
    assert (Hz : derivative_det tdim gdim D <> 0). { intros E. rewrite E, Rabs_R0 in Er. apply rlt_false in Er. lra. }
    rewrite (step_step tdim gdim Hg Ht W HW D D' G G' ED EG Hz). destruct (rlt (rsum _ _) _); [repeat split; auto|].
    apply IH; [exact Hs|]. repeat split; cbn [rs_status rs_xi rs_X rs_x]; auto. 
  Qed.
  Lemma cell_same c X : match ray_cell tdim gdim max_iter tol m point n X c, ray_cell tdim gdim max_iter tol m' point' n' X c with
    | RayOk s, RayOk s' => same_state s s' | RayInvalid, RayInvalid => True | _, _ => False end.
  Proof using All.
    unfold ray_cell. rewrite (tm_type _ _ _ _ _ TM), (tm_vertex _ _ _ _ _ TM), (tm_facet _ _ _ _ _ TM). unfold raytracing_cell. destruct (_ || _); [exact I|]. cbv zeta.
    set (s0 := {| rs_status := _ |}).
    pose proof (newton_same c max_iter s0 s0 ltac:(cbn; lia) ltac:(repeat split; cbn [s0 rs_status]; lia)) as N. cbv zeta in N. fold T T'.
    set (s := ray_newton _ _ _ _ (rm_push m (fst c)) _ _ _ _ _ _) in *. set (s' := ray_newton _ _ _ _ (rm_push m' (fst c)) _ _ _ _ _ _) in *. destruct N as (E1 & E2 & E3 & E4). rewrite E2.
    destruct (outside tol (rm_type m) (rs_xi s)) as [[]|]; [|repeat split; auto|exact I]. repeat split; cbn [rs_status rs_X rs_x]; auto. lia.
  Qed.
  Lemma loop_same cells : forall idx s s', same_state s s' -> (rs_status s <= 0)%Z -> same_hit gdim O t (ray_loop tdim gdim max_iter tol m point n idx cells s) (ray_loop tdim gdim max_iter tol m' point' n' idx cells s').
  Proof using All.
    induction cells as [|c cells IH]; intros idx s s' (E1 & E2 & E3 & E4) Hs; cbn [ray_loop].
    - cbn [same_hit]. repeat split; auto. congruence.
    - rewrite E3. pose proof (cell_same c (rs_X s)) as C. destruct (ray_cell tdim gdim max_iter tol m point n (rs_X s) c) as [r|], (ray_cell tdim gdim max_iter tol m' point' n' (rs_X s) c) as [r'|]; try contradiction; [|exact I].
      pose proof C as (F1 & F2 & F3 & F4). rewrite F1. destruct (Z.ltb_spec 0 (rs_status r)) as [L|L].
      + cbn [same_hit]. repeat split; auto.
      + apply IH; auto.
  Qed.
End Ray.

Theorem C115_raytracing :
  forall (max_iter : nat) (tol : R) (O : nat -> nat -> R) (t : nat -> R) (m m' : ray_mesh) (point point' n n' : list R) (cells : list (nat * nat)),
    let dim := rm_gdim m in
    0 < tol -> (dim = 2 \/ dim = 3)%nat -> (rm_tdim m <= dim)%nat -> orthogonal dim O -> turned_mesh dim O t m m' ->
    turned_position dim O t point point' -> turned_vector dim O n n' -> length n = dim -> length n' = dim -> normn dim n = 1 ->
    match raytracing max_iter tol m point n cells, raytracing max_iter tol m' point' n' cells with
    | Some r, Some r' => same_hit dim O t r r'
    | None, None => True
    | _, _ => False
    end.
Proof.
  intros max_iter tol O t m m' point point' n n' cells dim Htol Hd Htd HO TM HP Hn Hl Hl' Hu.
  assert (K : forall td gd, td = rm_tdim m -> gd = dim -> (td = gd \/ (td = 2 /\ gd = 3))%nat -> same_hit dim O t (compute_ray td gd max_iter tol m point n cells) (compute_ray td gd max_iter tol m' point' n' cells)).
  { intros td gd Et Eg H. unfold compute_ray. rewrite (tm_tdim _ _ _ _ _ TM), (tm_gdim _ _ _ _ _ TM), (tm_type _ _ _ _ _ TM). destruct (_ || _); [exact I|]. subst gd.
    assert (L : forall s0, (rs_status s0 < 0)%Z -> same_hit dim O t (ray_loop td dim max_iter tol m point n 0 cells s0) (ray_loop td dim max_iter tol m' point' n' 0 cells s0)).
    { intros s0 Hs. apply (loop_same td dim max_iter tol O t m m' point point' n n'); auto; [|lia]. repeat split; lia. }
    destruct (rm_type m); try (apply L; cbn; lia). exact I. }
  unfold raytracing. rewrite (tm_tdim _ _ _ _ _ TM), (tm_gdim _ _ _ _ _ TM). fold dim.
  destruct (Nat.eqb_spec (rm_tdim m) 2) as [E|E]; [destruct Hd as [E'|E']; rewrite E'; cbn [Nat.eqb]; rewrite <- E'; apply K; auto; lia|].
  destruct (Nat.eqb_spec (rm_tdim m) 3) as [E3|E3]; [|exact I]. apply K; auto; lia.
Qed.
Print Assumptions C115_raytracing.
