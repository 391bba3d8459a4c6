(** C75: pulling back inverts the map of the cell. *)
From Coq Require Import List Arith ZArith Lia Bool Reals Lra.
Import ListNotations.
From Verif Require Import Prelude PreludeLemmas RSum CropModel RealLemmas CandidatesProps RayModel KernelModel KernelSpec DistanceModel GapSpec DistanceProofs.
Local Open Scope R_scope.

(** Straight simplices: every point of the image of the cell's map is pulled back
    to the reference point it came from, with the derivative of the map and a left
    inverse of it. *)
Theorem C75_affine_pull_back :
  forall (m : mesh_data) (cell : nat) (Ys xs : list (list R)),
    linear_simplices m -> nonsingular m (geometry_jacobian m cell (repeat 0 (m_tdim m))) ->
    length xs = length Ys ->
    (forall i, (i < length Ys)%nat -> length (nth i Ys []) = m_tdim m /\
       forall k, (k < m_gdim m)%nat -> nth k (nth i xs []) 0 = geometry_map m cell (nth i Ys []) k) ->
    let r := pull_back m (cell_coordinates m cell) xs in
    map p_X r = Ys /\
    forall p, In p r -> (forall i j, (j < m_tdim m)%nat -> p_J p i j = geometry_jacobian m cell (p_X p) i j) /\
      forall i j, (i < m_tdim m)%nat -> (j < m_tdim m)%nat -> rsum (m_gdim m) (fun k => p_K p i k * p_J p k j) = if (i =? j)%nat then 1 else 0.
Proof.
  intros m cell Ys xs LS NS HL H r. unfold r, pull_back. rewrite (ls_affine _ LS). split.
  - rewrite map_map. cbn [p_X]. apply (nth_ext _ _ [] []); [now rewrite map_length|]. intros i Hi. rewrite map_length in Hi.
    rewrite (nth_map_lt _ xs i [] []) by auto. destruct (H i ltac:(lia)) as [H1 H2]. now apply (pull_back_point m LS cell NS).
  - intros p Hp. apply in_map_iff in Hp. destruct Hp as (x & <- & _). cbn [p_J p_K p_X]. split.
    + intros i j Hj. rewrite jacobian_map, !(linear_jacobian m LS) by auto. reflexivity.
    + intros i j Hi Hj. set (J := geometry_jacobian m cell (repeat 0 (m_tdim m))) in *.
      rewrite <- (inverse_left m J (ls_dims _ LS) NS i j) by auto. apply rsum_ext. intros k Hk.
      rewrite jacobian_map. fold J. f_equal. apply (inverse_ext m _ J (ls_dims _ LS)); auto. intros. apply jacobian_map.
Qed.
Print Assumptions C75_affine_pull_back.

(** If the cells have the dimension of the space, every point is in the image, and
    the pulled-back point maps to it. *)
Theorem C75_affine_onto :
  forall (m : mesh_data) (cell : nat) (x : list R),
    linear_simplices m -> m_gdim m = m_tdim m -> nonsingular m (geometry_jacobian m cell (repeat 0 (m_tdim m))) ->
    exists p, pull_back m (cell_coordinates m cell) [x] = [p] /\ forall k, (k < m_gdim m)%nat -> geometry_map m cell (p_X p) k = nth k x 0.
Proof.
  intros m cell x LS Sq NS. set (J := geometry_jacobian m cell (repeat 0 (m_tdim m))) in *. set (K := jacobian_inverse (m_gdim m) (m_tdim m) J).
  set (Y := map (fun i => rsum (m_gdim m) (fun j => K i j * (nth j x 0 - node m cell 0 j))) (seq 0 (m_tdim m))).
  assert (LY : length Y = m_tdim m) by (unfold Y; now rewrite map_length, seq_length).
  assert (HY : forall k, (k < m_gdim m)%nat -> nth k x 0 = geometry_map m cell Y k).
  { intros k Hk. rewrite (linear_map m LS).
    rewrite (rsum_ext (m_tdim m) _ (fun l => rsum (m_gdim m) (fun j => J k l * K l j * (nth j x 0 - node m cell 0 j)))).
    2:{ intros l Hl. unfold Y. rewrite (nth_map_lt _ _ l 0 0%nat) by (rewrite seq_length; auto). rewrite seq_nth by auto. cbn [Nat.add].
        rewrite <- (linear_jacobian m LS cell (repeat 0 (m_tdim m))) by auto. fold J. rewrite <- rsum_scal_r. apply rsum_ext. intros; ring. }
    rewrite rsum_swap. rewrite (rsum_ext (m_gdim m) _ (fun j => (if (j =? k)%nat then 1 else 0) * (nth j x 0 - node m cell 0 j))).
    - rewrite (rsum_delta (m_gdim m) k (fun j => nth j x 0 - node m cell 0 j)) by auto. ring.
    - intros j Hj. rewrite rsum_scal_r. unfold K. rewrite (inverse_right m J (ls_dims _ LS) Sq NS k j) by auto. now rewrite Nat.eqb_sym. }
  destruct (C75_affine_pull_back m cell [Y] [x] LS NS eq_refl) as [E _].
  { intros i Hi. cbn [length] in Hi. replace i with 0%nat by lia. cbn [nth]. auto. }
  destruct (pull_back m (cell_coordinates m cell) [x]) as [|p [|]]; try discriminate. exists p. split; auto.
  cbn [map] in E. injection E as ->. intros k Hk. now rewrite HY.
Qed.
Print Assumptions C75_affine_onto.

(** ** The Newton iteration *)
Section Newton.
  Context (m : mesh_data) (cell : nat) (x : list R) (tol : R).
  Notation tdim := (m_tdim m).
  Notation gdim := (m_gdim m).
  (** One step of Newton's method for F(X) = x. *)
  Definition newton_increment (X : list R) (i : nat) : R :=
    rsum gdim (fun j => jacobian_inverse gdim tdim (geometry_jacobian m cell X) i j * (nth j x 0 - geometry_map m cell X j)).
  Definition newton_step (X : list R) : list R := map (fun i => newton_increment X i + nth i X 0) (seq 0 tdim).
  Definition increment_norm (X : list R) : R := sqrt (rsum tdim (fun i => newton_increment X i * newton_increment X i)).
  Definition iterate (k : nat) : list R := Nat.iter k newton_step (repeat 0 tdim).

  Lemma newton_code (D : dimensions m) n X :
    nonaffine_newton m tol (cell_coordinates m cell) x (S n) X =
    if rlt (increment_norm X) tol then Some (newton_step X) else nonaffine_newton m tol (cell_coordinates m cell) x n (newton_step X).
  Proof.
    cbn [nonaffine_newton]. cbv zeta.
    assert (E : forall i, (i < tdim)%nat ->
      for_loop gdim (fun j acc => acc + jacobian_inverse gdim tdim (cell_jacobian m X (cell_coordinates m cell)) i j *
        (nth j x 0 - for_loop (m_nodes m) (fun j0 acc0 => acc0 + cell_coordinates m cell j0 j * m_phi m X j0) 0)) 0 = newton_increment X i).
    { intros i Hi. rewrite for_loop_rsum, Rplus_0_l. apply rsum_ext. intros j Hj. f_equal.
      - apply (inverse_ext m _ _ D); auto. intros. apply jacobian_map.
      - f_equal. rewrite for_loop_rsum, Rplus_0_l. apply rsum_ext. intros. unfold cell_coordinates, node. ring. }
    replace (map _ (seq 0 tdim)) with (newton_step X).
    2:{ apply map_ext_in. intros i Hi. apply in_seq in Hi. rewrite E by lia. reflexivity. }
    replace (for_loop tdim _ 0) with (rsum tdim (fun i => newton_increment X i * newton_increment X i)); [reflexivity|].
    rewrite for_loop_rsum, Rplus_0_l. apply rsum_ext. intros i Hi. now rewrite !E.
  Qed.
  Lemma iterate_S k : iterate (S k) = newton_step (iterate k).
  Proof. reflexivity. Qed.
  Lemma newton_run (D : dimensions m) n k :
    match nonaffine_newton m tol (cell_coordinates m cell) x n (iterate k) with
    | Some X => exists j, (k <= j < k + n)%nat /\ increment_norm (iterate j) < tol /\ X = iterate (S j) /\ forall l, (k <= l < j)%nat -> tol <= increment_norm (iterate l)
    | None => forall l, (k <= l < k + n)%nat -> tol <= increment_norm (iterate l)
    end.
  Proof.
    revert k. induction n as [|n IH]; intros k; [cbn [nonaffine_newton]; intros; lia|]. rewrite newton_code by auto. rewrite <- iterate_S.
    destruct (rlt (increment_norm (iterate k)) tol) eqn:E.
    - apply rlt_true in E. exists k. repeat split; auto; lia.
    - apply rlt_false in E. specialize (IH (S k)). destruct (nonaffine_newton m tol (cell_coordinates m cell) x n (iterate (S k))) as [X|].
      + destruct IH as (j & Hj & A & B & C). exists j. repeat split; auto; try lia. intros l Hl. destruct (Nat.eq_dec l k) as [->|]; auto. apply C. lia.
      + intros l Hl. destruct (Nat.eq_dec l k) as [->|]; auto. apply IH. lia.
  Qed.
End Newton.

(** Curved cells.  The result is the first Newton iterate whose last step is below
    the tolerance; an error means no step was within the allowed number. *)
Theorem C75_newton :
  forall (m : mesh_data) (cell : nat) (x : list R) (tol : R) (max_it : nat), dimensions m ->
    match pull_back_nonaffine m tol max_it (cell_coordinates m cell) x with
    | Some X => exists j, (j < max_it)%nat /\ increment_norm m cell x (iterate m cell x j) < tol /\ X = iterate m cell x (S j) /\
        forall l, (l < j)%nat -> tol <= increment_norm m cell x (iterate m cell x l)
    | None => forall l, (l < max_it)%nat -> tol <= increment_norm m cell x (iterate m cell x l)
    end.
Proof.
  intros m cell x tol max_it D. unfold pull_back_nonaffine. pose proof (newton_run m cell x tol D max_it 0) as H. change (iterate m cell x 0) with (repeat 0 (m_tdim m)) in H.
  destruct (nonaffine_newton _ _ _ _ _ _) as [X|].
  - destruct H as (j & Hj & A & B & C). exists j. repeat split; auto; try lia. intros; apply C; lia.
  - intros; apply H; lia.
Qed.
Print Assumptions C75_newton.

(** Where the iteration rests the equation holds: a zero step on a cell of full
    dimension means the point is mapped to [x]. *)
Theorem C75_newton_fixed_point :
  forall (m : mesh_data) (cell : nat) (x X : list R), dimensions m -> m_gdim m = m_tdim m -> nonsingular m (geometry_jacobian m cell X) ->
    (increment_norm m cell x X = 0 <-> forall k, (k < m_gdim m)%nat -> geometry_map m cell X k = nth k x 0).
Proof.
  intros m cell x X D Sq NS. set (J := geometry_jacobian m cell X) in *. split.
  - intros E k Hk. assert (P : 0 <= rsum (m_tdim m) (fun i => newton_increment m cell x X i * newton_increment m cell x X i)) by (apply rsum_nonneg; intros; apply Rle_0_sqr).
    apply sqrt_eq_0 in E; auto.
    assert (Z : forall i, (i < m_tdim m)%nat -> newton_increment m cell x X i = 0).
    { intros i Hi. assert (Q : newton_increment m cell x X i * newton_increment m cell x X i = 0).
      { apply (rsum_nonneg_zero (m_tdim m) (fun i => newton_increment m cell x X i * newton_increment m cell x X i)); auto. intros; apply Rle_0_sqr. }
      destruct (Rmult_integral _ _ Q); auto. }
    assert (S : rsum (m_tdim m) (fun l => J k l * newton_increment m cell x X l) = nth k x 0 - geometry_map m cell X k).
    { rewrite (rsum_ext (m_tdim m) _ (fun l => rsum (m_gdim m) (fun j => J k l * jacobian_inverse (m_gdim m) (m_tdim m) J l j * (nth j x 0 - geometry_map m cell X j)))).
      2:{ intros l Hl. unfold newton_increment. fold J. rewrite <- rsum_scal. apply rsum_ext. intros; ring. }
      rewrite rsum_swap. rewrite (rsum_ext (m_gdim m) _ (fun j => (if (j =? k)%nat then 1 else 0) * (nth j x 0 - geometry_map m cell X j))).
      - now apply (rsum_delta (m_gdim m) k (fun j => nth j x 0 - geometry_map m cell X j)).
      - intros j Hj. rewrite rsum_scal_r. rewrite (inverse_right m J D Sq NS k j) by auto. now rewrite Nat.eqb_sym. }
    rewrite rsum_zero in S; [lra|]. intros l Hl. rewrite Z by auto. ring.
  - intros E. unfold increment_norm. rewrite rsum_zero; [apply sqrt_0|]. intros i Hi. unfold newton_increment. rewrite rsum_zero; [ring|]. intros j Hj. rewrite E by auto. ring.
Qed.
Print Assumptions C75_newton_fixed_point.

(** Cells whose map happens to be affine (parallelograms, straight cells of higher
    order): two iterations return the exact point, whatever the tolerance. *)
Theorem C75_newton_exact :
  forall (m : mesh_data) (cell : nat) (Y x : list R) (tol : R) (max_it : nat) (x0 : nat -> R) (B : matrix),
    dimensions m -> nonsingular m B -> 0 < tol -> (2 <= max_it)%nat -> length Y = m_tdim m ->
    (forall X k, length X = m_tdim m -> (k < m_gdim m)%nat -> geometry_map m cell X k = x0 k + rsum (m_tdim m) (fun j => B k j * nth j X 0)) ->
    (forall X i j, length X = m_tdim m -> (i < m_gdim m)%nat -> (j < m_tdim m)%nat -> geometry_jacobian m cell X i j = B i j) ->
    (forall k, (k < m_gdim m)%nat -> nth k x 0 = geometry_map m cell Y k) ->
    pull_back_nonaffine m tol max_it (cell_coordinates m cell) x = Some Y.
Proof.
  intros m cell Y x tol max_it x0 B D NS Ht Hm LY HF HJ Hx.
  assert (I : forall X i, length X = m_tdim m -> (i < m_tdim m)%nat -> newton_increment m cell x X i = nth i Y 0 - nth i X 0).
  { intros X i LX Hi. unfold newton_increment.
    rewrite (rsum_ext (m_gdim m) _ (fun j => rsum (m_tdim m) (fun l => jacobian_inverse (m_gdim m) (m_tdim m) B i j * B j l * (nth l Y 0 - nth l X 0)))).
    2:{ intros j Hj. rewrite (inverse_ext m _ B D) by auto. rewrite Hx, !HF by auto.
        replace (x0 j + _ - _) with (rsum (m_tdim m) (fun l => B j l * nth l Y 0) - rsum (m_tdim m) (fun l => B j l * nth l X 0)) by ring.
        rewrite <- rsum_minus, <- rsum_scal. apply rsum_ext. intros; ring. }
    rewrite rsum_swap. rewrite (rsum_ext (m_tdim m) _ (fun l => (if (l =? i)%nat then 1 else 0) * (nth l Y 0 - nth l X 0))).
    - now apply (rsum_delta (m_tdim m) i (fun l => nth l Y 0 - nth l X 0)).
    - intros l Hl. rewrite rsum_scal_r, (inverse_left m B D NS i l) by auto. now rewrite Nat.eqb_sym. }
  assert (St : forall X, length X = m_tdim m -> newton_step m cell x X = Y).
  { intros X LX. unfold newton_step. apply (nth_ext _ _ 0 0); [now rewrite map_length, seq_length|]. intros i Hi. rewrite map_length, seq_length in Hi.
    rewrite (nth_map_lt _ _ i 0 0%nat) by (rewrite seq_length; auto). rewrite seq_nth by auto. cbn [Nat.add]. rewrite I by auto. ring. }
  unfold pull_back_nonaffine. destruct max_it as [|[|n]]; [lia|lia|]. rewrite newton_code, St by (auto; apply repeat_length).
  destruct (rlt _ tol); auto. rewrite newton_code, St by auto.
  assert (Z : increment_norm m cell x Y = 0). { unfold increment_norm. rewrite rsum_zero; [apply sqrt_0|]. intros i Hi. rewrite I by auto. ring. }
  rewrite Z. destruct (rlt 0 tol) eqn:E; auto. apply rlt_false in E. lra.
Qed.
Print Assumptions C75_newton_exact.

(** ** Concrete meshes *)
(** The triangle (1,1), (3,1), (1,2). *)
Definition one_triangle : mesh_data :=
  {| m_gdim := 2; m_tdim := 2; m_nodes := 3; m_affine := true; m_x := [1; 1; 0; 3; 1; 0; 1; 2; 0]; m_x_dofmap := fun _ => [0; 1; 2]%nat;
     m_phi := fun X j => match j with O => 1 - nth 0 X 0 - nth 1 X 0 | S j => nth j X 0 end;
     m_dphi := fun _ d j => match j with O => - 1 | S j => if (j =? d)%nat then 1 else 0 end;
     m_determinant := det 2; m_cmap_pull_back := fun _ _ => []; m_ref_normal := fun _ _ => 0; m_f_to_c := fun _ => []; m_c_to_f := fun _ => []; m_closure := fun _ => [] |}.
Lemma one_triangle_linear : linear_simplices one_triangle.
Proof.
  split; cbn [one_triangle m_gdim m_tdim m_nodes m_affine m_phi m_dphi]; auto.
  - left; auto.
  - intros. cbn [rsum]. ring.
Qed.
Example C75_affine_nonvacuous :
  nonsingular one_triangle (geometry_jacobian one_triangle 0 (repeat 0 2)) /\
  map p_X (pull_back one_triangle (cell_coordinates one_triangle 0) [[2; 3/2]; [3; 2]]) = [[1/2; 1/2]; [1; 1]].
Proof.
  assert (NS : nonsingular one_triangle (geometry_jacobian one_triangle 0 (repeat 0 2))).
  { unfold nonsingular, geometry_jacobian, node, det. cbn [one_triangle m_gdim m_tdim m_nodes m_x m_x_dofmap m_dphi Nat.eqb rsum nth Nat.mul Nat.add]. lra. }
  split; auto. apply (C75_affine_pull_back one_triangle 0 [[1/2; 1/2]; [1; 1]] [[2; 3/2]; [3; 2]] one_triangle_linear NS eq_refl).
  intros i Hi. cbn [length] in Hi. assert (E : (i = 0 \/ i = 1)%nat) by lia.
  destruct E as [-> | ->]; (split; [reflexivity|]); intros k Hk; cbn [one_triangle m_gdim] in Hk; assert (E : (k = 0 \/ k = 1)%nat) by lia; destruct E as [-> | ->];
    unfold geometry_map, node; cbn [one_triangle m_nodes m_phi m_x m_x_dofmap rsum nth Nat.mul Nat.add]; lra.
Qed.

(** The parallelogram (0,0), (2,0), (1,1), (3,1), with bilinear basis functions. *)
Definition one_quadrilateral : mesh_data :=
  {| m_gdim := 2; m_tdim := 2; m_nodes := 4; m_affine := false; m_x := [0; 0; 0; 2; 0; 0; 1; 1; 0; 3; 1; 0]; m_x_dofmap := fun _ => [0; 1; 2; 3]%nat;
     m_phi := fun X j => (if Nat.even j then 1 - nth 0 X 0 else nth 0 X 0) * (if (j <? 2)%nat then 1 - nth 1 X 0 else nth 1 X 0);
     m_dphi := fun X d j => if (d =? 0)%nat then (if Nat.even j then - 1 else 1) * (if (j <? 2)%nat then 1 - nth 1 X 0 else nth 1 X 0)
                            else (if Nat.even j then 1 - nth 0 X 0 else nth 0 X 0) * (if (j <? 2)%nat then - 1 else 1);
     m_determinant := det 2; m_cmap_pull_back := fun _ _ => []; m_ref_normal := fun _ _ => 0; m_f_to_c := fun _ => []; m_c_to_f := fun _ => []; m_closure := fun _ => [] |}.
Example C75_newton_nonvacuous : pull_back_nonaffine one_quadrilateral (1 / 10 ^ 8) 10 (cell_coordinates one_quadrilateral 0) [1; 1/2] = Some [1/4; 1/2].
Proof.
  apply (C75_newton_exact one_quadrilateral 0 [1/4; 1/2] [1; 1/2] (1 / 10 ^ 8) 10 (fun _ => 0) (fun i j => match i, j with O, O => 2 | O, _ => 1 | _, O => 0 | _, _ => 1 end)).
  - left; auto.
  - unfold nonsingular, det. cbn [one_quadrilateral m_gdim m_tdim Nat.eqb]. lra.
  - apply Rdiv_lt_0_compat; [lra|]. apply pow_lt. lra.
  - lia.
  - reflexivity.
  - intros X k LX Hk. cbn [one_quadrilateral m_gdim] in Hk. assert (E : (k = 0 \/ k = 1)%nat) by lia.
    destruct E as [-> | ->]; unfold geometry_map, node; cbn [one_quadrilateral m_nodes m_tdim m_phi m_x m_x_dofmap rsum nth Nat.mul Nat.add Nat.even Nat.ltb Nat.leb]; ring.
  - intros X i j LX Hi Hj. cbn [one_quadrilateral m_gdim m_tdim] in Hi, Hj. assert (E : (i = 0 \/ i = 1)%nat) by lia. assert (E' : (j = 0 \/ j = 1)%nat) by lia.
    destruct E as [-> | ->], E' as [-> | ->]; unfold geometry_jacobian, node;
      cbn [one_quadrilateral m_nodes m_tdim m_dphi m_x m_x_dofmap rsum nth Nat.mul Nat.add Nat.even Nat.ltb Nat.leb Nat.eqb]; ring.
  - intros k Hk. cbn [one_quadrilateral m_gdim] in Hk. assert (E : (k = 0 \/ k = 1)%nat) by lia.
    destruct E as [-> | ->]; unfold geometry_map, node; cbn [one_quadrilateral m_nodes m_tdim m_phi m_x m_x_dofmap rsum nth Nat.mul Nat.add Nat.even Nat.ltb Nat.leb]; lra.
Qed.
