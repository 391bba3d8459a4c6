(** Property C115: the searches do not depend on the frame. *)
From Coq Require Import List Arith ZArith Lia Bool Reals Lra.
Import ListNotations.
From Verif Require Import AssemblyProofs Prelude PreludeLemmas RSum CropModel CandidatesModel CandidatesProps RealLemmas SubMeshModel SubMeshProofs EntitiesModel EntitiesProofs GeomModel GeomProps RayModel RayProps KernelModel KernelSpec DistanceModel GapModel GapSpec
  DistanceProofs GapProps PullBackProps ContactNormalProps RayMapModel RayMapProps RaySearchModel ElasticityProps RigidBalanceProps FrameProofs RayFrameProps MeshFrameProofs.
Local Open Scope R_scope.

(** ** Three coordinates *)
(** Geometry nodes have three coordinates; those beyond the dimension stay. *)
Definition extend (dim : nat) (O : nat -> nat -> R) (a b : nat) : R := if (a <? dim)%nat && (b <? dim)%nat then O a b else delta a b.
Definition extend_shift (dim : nat) (t : nat -> R) (a : nat) : R := if (a <? dim)%nat then t a else 0.
Lemma extend_orthogonal dim O : (dim = 2 \/ dim = 3)%nat -> orthogonal dim O -> orthogonal 3 (extend dim O).
Proof.
  intros [-> | ->] H a b Ha Hb.
  - assert (Ea : (a = 0 \/ a = 1 \/ a = 2)%nat) by lia. assert (Eb : (b = 0 \/ b = 1 \/ b = 2)%nat) by lia.
    destruct Ea as [-> | [-> | ->]], Eb as [-> | [-> | ->]]; unfold extend, delta; cbn [rsum Nat.ltb Nat.leb Nat.eqb andb];
      try (split; ring);
      match goal with |- context [O 0%nat ?i * O 0%nat ?j] => pose proof (H i j ltac:(lia) ltac:(lia)) as [H1 H2]; unfold delta in H1, H2; cbn [rsum Nat.eqb] in H1, H2; split; [etransitivity; [|exact H1]; ring|etransitivity; [|exact H2]; ring] end.
  - destruct (H a b Ha Hb) as [H1 H2]. split; [rewrite <- H1|rewrite <- H2]; apply rsum_ext; intros k Hk; unfold extend; rewrite !(proj2 (Nat.ltb_lt _ 3)) by lia; reflexivity.
Qed.
Lemma extend_turn dim O v k : (dim = 2 \/ dim = 3)%nat -> (k < 3)%nat -> turn 3 (extend dim O) v k = if (k <? dim)%nat then turn dim O v k else v k.
Proof.
  intros [-> | ->] Hk; unfold turn, extend, delta.
  - assert (Ek : (k = 0 \/ k = 1 \/ k = 2)%nat) by lia. destruct Ek as [-> | [-> | ->]]; cbn [rsum Nat.ltb Nat.leb Nat.eqb andb]; ring.
  - destruct (Nat.ltb_spec k 3); [|lia]. apply rsum_ext. intros j Hj. destruct (Nat.ltb_spec j 3); [|lia]. reflexivity.
Qed.
Lemma extend_points dim O t x m : (dim = 2 \/ dim = 3)%nat -> (3 * m + 2 < length x)%nat -> forall k, (k < 3)%nat ->
  nth (3 * m + k) (turned_points dim O t x) 0 = turn 3 (extend dim O) (fun k => nth (3 * m + k) x 0) k + extend_shift dim t k.
Proof.
  intros Hd L k Hk. rewrite extend_turn by auto. unfold extend_shift. destruct (Nat.ltb_spec k dim).
  - apply points_value; auto. lia.
  - unfold turned_points. rewrite (nth_map_lt _ _ _ 0 0%nat) by (rewrite seq_length; lia). rewrite seq_nth by lia. cbn [Nat.add].
    assert (E2 : ((3 * m + k) mod 3 = k)%nat) by (symmetry; apply (Nat.mod_unique _ _ m k); lia). rewrite E2. destruct (Nat.ltb_spec k dim); [lia|]. ring.
Qed.
Lemma position_restrict dim O t x x' : (dim = 2 \/ dim = 3)%nat -> turned_position 3 (extend dim O) (extend_shift dim t) x x' -> turned_position dim O t x x'.
Proof. intros Hd H a Ha. rewrite (H a ltac:(lia)), extend_turn by lia. unfold extend_shift. destruct (Nat.ltb_spec a dim); [reflexivity|lia]. Qed.

(** Distances. *)
Lemma distance_turned O t x x' y y' : orthogonal 3 O -> turned_position 3 O t x x' -> turned_position 3 O t y y' -> distance2 x' y' = distance2 x y.
Proof.
  intros HO Hx Hy. unfold distance2. rewrite <- (contract 3 O HO (fun k => nth k y 0 - nth k x 0) (fun k => nth k y 0 - nth k x 0)).
  apply rsum_ext. intros k Hk. rewrite (Hx k Hk), (Hy k Hk), turn_minus. ring.
Qed.

(** ** Nearest points of convex hulls *)
Definition position3 (O : nat -> nat -> R) (t : nat -> R) (x : list R) : list R := map (fun k => turn 3 O (fun k => nth k x 0) k + t k) (seq 0 3).
Lemma position3_turned O t x : turned_position 3 O t x (position3 O t x).
Proof. intros a Ha. unfold position3. rewrite (nth_map_lt _ _ a 0 0%nat) by (rewrite seq_length; auto). rewrite seq_nth by auto. reflexivity. Qed.
Definition position3_back (O : nat -> nat -> R) (t : nat -> R) (x : list R) : list R := map (fun k => turn 3 (fun a b => O b a) (fun k => nth k x 0 - t k) k) (seq 0 3).
Lemma position3_back_turned O t x : orthogonal 3 O -> turned_position 3 O t (position3_back O t x) x.
Proof.
  intros HO a Ha. rewrite (turn_ext 3 O _ (turn 3 (fun a b => O b a) (fun k => nth k x 0 - t k))).
  2:{ intros k Hk. unfold position3_back. rewrite (nth_map_lt _ _ k 0 0%nat) by (rewrite seq_length; auto). now rewrite seq_nth by auto. }
  assert (E : turn 3 O (turn 3 (fun a b => O b a) (fun k => nth k x 0 - t k)) a = nth a x 0 - t a); [|lra].
  unfold turn. rewrite (rsum_ext 3 _ (fun k => rsum 3 (fun j => (nth j x 0 - t j) * (O a k * O j k)))) by (intros; rewrite <- rsum_scal; apply rsum_ext; intros; ring).
  rewrite rsum_swap. rewrite (rsum_ext 3 _ (fun j => (nth j x 0 - t j) * delta a j)) by (intros j Hj; now rewrite rsum_scal, (proj2 (HO a j Ha Hj))).
  now apply (delta_sum_r 3 a (fun j => nth j x 0 - t j)).
Qed.
Lemma hull_turned O t ps ps' y y' : length ps' = length ps -> (forall l, (l < length ps)%nat -> turned_position 3 O t (nth l ps []) (nth l ps' [])) -> turned_position 3 O t y y' ->
  in_hull ps y -> in_hull ps' y'.
Proof.
  intros L H Hy (w & W0 & W1 & W2). exists w. rewrite L. repeat split; auto. intros k Hk. rewrite (Hy k Hk).
  rewrite (turn_ext 3 O _ (fun k => rsum (length ps) (fun l => w l * nth k (nth l ps []) 0))) by (intros; now apply W2).
  rewrite turn_sum. rewrite (rsum_ext (length ps) (fun l => w l * nth k (nth l ps' []) 0) (fun l => turn 3 O (fun k => w l * nth k (nth l ps []) 0) k + t k * w l)).
  - rewrite rsum_plus, rsum_scal, W1. ring.
  - intros l Hl. rewrite (H l Hl k Hk), turn_scal. ring.
Qed.
Lemma hull_turned_back O t ps ps' y y' : orthogonal 3 O -> length ps' = length ps -> (forall l, (l < length ps)%nat -> turned_position 3 O t (nth l ps []) (nth l ps' [])) -> turned_position 3 O t y y' ->
  in_hull ps' y' -> in_hull ps y.
Proof.
  intros HO L H Hy (w & W0 & W1 & W2). rewrite L in *. exists w. repeat split; auto. intros k Hk.
  set (f := fun k => rsum (length ps) (fun l => w l * nth k (nth l ps []) 0)).
  assert (E : forall a, (a < 3)%nat -> turn 3 O (fun k => nth k y 0) a = turn 3 O f a).
  { intros a Ha. unfold f. rewrite turn_sum. specialize (W2 a Ha). rewrite (Hy a Ha) in W2.
    rewrite (rsum_ext (length ps) (fun l => w l * nth a (nth l ps' []) 0) (fun l => turn 3 O (fun k => w l * nth k (nth l ps []) 0) a + t a * w l)) in W2 by (intros l Hl; rewrite (H l Hl a Ha), turn_scal; ring).
    rewrite rsum_plus, rsum_scal, W1 in W2. lra. }
  assert (Z : rsum 3 (fun a => (nth a y 0 - f a) * (nth a y 0 - f a)) = 0).
  { rewrite <- (contract 3 O HO (fun a => nth a y 0 - f a) (fun a => nth a y 0 - f a)). apply rsum_zero. intros a Ha. rewrite turn_minus, (E a Ha). ring. }
  cbn [rsum] in Z. assert (Ek : (k = 0 \/ k = 1 \/ k = 2)%nat) by lia. change (nth k y 0 = f k).
  pose proof (Rle_0_sqr (nth 0 y 0 - f 0%nat)) as S0. pose proof (Rle_0_sqr (nth 1 y 0 - f 1%nat)) as S1. pose proof (Rle_0_sqr (nth 2 y 0 - f 2%nat)) as S2. unfold Rsqr in *.
  destruct Ek as [-> | [-> | ->]]; apply Rminus_diag_uniq; apply Rsqr_0_uniq; unfold Rsqr; lra.
Qed.
(** The nearest point is unique. *)
Lemma nearest_unique ps p y z : in_hull ps y -> in_hull ps z -> (forall v, in_hull ps v -> distance2 p y <= distance2 p v) -> distance2 p z <= distance2 p y ->
  forall k, (k < 3)%nat -> nth k z 0 = nth k y 0.
Proof.
  intros (w & W0 & W1 & W2) (v & V0 & V1 & V2) Hmin Hz k Hk.
  set (c := map (fun k => (nth k y 0 + nth k z 0) / 2) (seq 0 3)).
  assert (Ec : forall k, (k < 3)%nat -> nth k c 0 = (nth k y 0 + nth k z 0) / 2) by (intros j Hj; unfold c; rewrite (nth_map_lt _ _ j 0 0%nat) by (rewrite seq_length; auto); now rewrite seq_nth).
  assert (Hc : in_hull ps c).
  { exists (fun l => (w l + v l) / 2). repeat split.
    - intros l Hl. specialize (W0 l Hl). specialize (V0 l Hl). lra.
    - rewrite (rsum_ext (length ps) _ (fun l => / 2 * w l + / 2 * v l)) by (intros; field). rewrite rsum_plus, !rsum_scal, W1, V1. field.
    - intros j Hj. rewrite (Ec j Hj), (W2 j Hj), (V2 j Hj). rewrite <- rsum_plus. unfold Rdiv. rewrite <- rsum_scal_r. apply rsum_ext. intros. field. }
  specialize (Hmin c Hc). unfold distance2 in *. cbn [rsum] in *. rewrite !Ec in Hmin by lia.
  assert (Ek : (k = 0 \/ k = 1 \/ k = 2)%nat) by lia.
  set (a0 := nth 0 y 0 - nth 0 p 0) in *. set (a1 := nth 1 y 0 - nth 1 p 0) in *. set (a2 := nth 2 y 0 - nth 2 p 0) in *.
  assert (Q : (nth 0 z 0 - nth 0 y 0) * (nth 0 z 0 - nth 0 y 0) + (nth 1 z 0 - nth 1 y 0) * (nth 1 z 0 - nth 1 y 0) + (nth 2 z 0 - nth 2 y 0) * (nth 2 z 0 - nth 2 y 0) <= 0) by (unfold a0, a1, a2 in *; nra).
  pose proof (Rle_0_sqr (nth 0 z 0 - nth 0 y 0)) as S0. pose proof (Rle_0_sqr (nth 1 z 0 - nth 1 y 0)) as S1. pose proof (Rle_0_sqr (nth 2 z 0 - nth 2 y 0)) as S2. unfold Rsqr in *.
  destruct Ek as [-> | [-> | ->]]; apply Rminus_diag_uniq; apply Rsqr_0_uniq; unfold Rsqr; lra.
Qed.
(** A search for nearest points that is exact turns with the points. *)
Lemma gjk_turned n gjk O t ps ps' p p' : orthogonal 3 O -> gjk_exact n gjk -> length ps = n -> length ps' = n -> length p = 3%nat -> length p' = 3%nat ->
  (forall l, (l < n)%nat -> turned_position 3 O t (nth l ps []) (nth l ps' [])) -> turned_position 3 O t p p' ->
  forall k, (k < 3)%nat -> nth k p' 0 + nth k (gjk ps' p') 0 = turn 3 O (fun k => nth k p 0 + nth k (gjk ps p) 0) k + t k.
Proof.
  intros HO G L L' Lp Lp' H Hp k Hk.
  destruct (G ps p L Lp) as [Y1 Y2]. destruct (G ps' p' L' Lp') as [Z1 Z2]. set (y := map (fun k => nth k p 0 + nth k (gjk ps p) 0) (seq 0 3)) in *. set (y' := map (fun k => nth k p' 0 + nth k (gjk ps' p') 0) (seq 0 3)) in *.
  assert (Ey : forall k, (k < 3)%nat -> nth k y 0 = nth k p 0 + nth k (gjk ps p) 0) by (intros j Hj; unfold y; rewrite (nth_map_lt _ _ j 0 0%nat) by (rewrite seq_length; auto); now rewrite seq_nth).
  assert (Ey' : forall k, (k < 3)%nat -> nth k y' 0 = nth k p' 0 + nth k (gjk ps' p') 0) by (intros j Hj; unfold y'; rewrite (nth_map_lt _ _ j 0 0%nat) by (rewrite seq_length; auto); now rewrite seq_nth).
  rewrite <- L in H. assert (LL : length ps' = length ps) by congruence.
  assert (Z : in_hull ps' (position3 O t y)) by (apply (hull_turned O t ps ps' y); auto using position3_turned).
  assert (D : distance2 p' (position3 O t y) <= distance2 p' y').
  { rewrite (distance_turned O t p p' y _ HO Hp (position3_turned O t y)). rewrite (distance_turned O t p p' (position3_back O t y') y' HO Hp (position3_back_turned O t y' HO)).
    apply Y2. apply (hull_turned_back O t ps ps' _ y' HO LL H (position3_back_turned O t y' HO) Z1). }
  rewrite <- (Ey' k Hk). rewrite <- (nearest_unique ps' p' y' _ Z1 Z Z2 D k Hk). rewrite (position3_turned O t y k Hk). apply (f_equal (fun v => v + t k)). apply turn_ext. exact Ey.
Qed.

(** ** Closest points *)
(** The candidate facets [C] as (cell, local facet) pairs: they are facets of the surface of
    the mesh, none of their cells is degenerate, and their geometry nodes exist. *)
Record search_facets (m : mesh_data) (C : list (nat * nat)) : Prop := {
  se_facet : forall p, In p C -> surface_facet m (fst p) (snd p);
  se_regular : forall p X, In p C -> nonsingular m (geometry_jacobian m (fst p) X);
  se_size : forall f, length (m_closure m f) = length (m_closure m 0) }.
(** The facet named closest is one of those asked for, and the same in both frames. *)
Definition same_closest (dim : nat) (O : nat -> nat -> R) (t : nat -> R) (closest closest' : list nat -> list R -> nat) : Prop :=
  forall facets x x', facets <> [] -> length x = 3%nat -> length x' = 3%nat -> turned_position 3 (extend dim O) (extend_shift dim t) x x' -> In (closest facets x) facets /\ closest' facets x' = closest facets x.
(** On curved cells the reference point is found by DOLFINx's Newton iteration, which does
    not depend on the frame. *)
Definition frame_free_pull_back (O : nat -> nat -> R) (t : nat -> R) (m : mesh_data) : Prop :=
  m_affine m = false -> forall cell x x', turned_position (m_gdim m) O t x x' ->
    m_cmap_pull_back m (cell_coordinates (turned_geometry O t m) cell) x' = m_cmap_pull_back m (cell_coordinates m cell) x.

Lemma rows3 N (v : nat -> nat -> R) i k : (i < N)%nat -> (k < 3)%nat ->
  nth (3 * i + k) (for_loop N (fun i cx => for_loop 3 (fun l cx => upd cx (3 * i + l)%nat (v i l)) cx) (repeat 0 (N * 3))) 0 = v i k.
Proof.
  intros Hi Hk. match goal with |- nth _ (for_loop _ ?body ?a) _ = _ => destruct (sets_loop 0 (3 * i + k) N i body a (Some (v i k))) as [_ E] end; auto.
  - intros j s Hj NE. apply sets_none. intros k' s' Hk'. apply sets_upd_other. lia.
  - intros s. apply (sets_loop 0 _ 3 k); auto.
    + intros k' s' Hk' NE. apply sets_upd_other. lia.
    + intros s'. apply sets_upd.
  - apply E. rewrite repeat_length. lia.
Qed.
Lemma rows3_length N (v : nat -> nat -> R) : length (for_loop N (fun i cx => for_loop 3 (fun l cx => upd cx (3 * i + l)%nat (v i l)) cx) (repeat 0 (N * 3))) = (N * 3)%nat.
Proof. rewrite loop_length; [apply repeat_length|]. intros. apply loop_length. intros. apply upd_length. Qed.

Section Projection.
  Context (O : nat -> nat -> R) (t : nat -> R) (m : mesh_data) (V : volume_mesh m) (HO : orthogonal (m_gdim m) O).
  Context (closest closest' : list nat -> list R -> nat) (gjk : list (list R) -> list R -> list R) (C : list (nat * nat)).
  Context (SE : search_facets m C) (HG : gjk_exact (length (m_closure m 0)) gjk) (HC : same_closest (m_gdim m) O t closest closest') (PB : frame_free_pull_back O t m).
  Notation gdim := (m_gdim m).
  Notation tdim := (m_tdim m).
  Notation m' := (turned_geometry O t m).
  Notation O3 := (extend gdim O).
  Notation t3 := (extend_shift gdim t).
  Lemma pull_back_same c x x' : (exists l, In (c, l) C) -> turned_position gdim O t x x' ->
    p_X (hd (mkPulled [] (fun _ _ => 0) (fun _ _ => 0) 0) (pull_back m' (cell_coordinates m' c) [x'])) = p_X (hd (mkPulled [] (fun _ _ => 0) (fun _ _ => 0) 0) (pull_back m (cell_coordinates m c) [x])).
  Proof using V HO SE PB.
    intros (l & Hl) Hx. unfold pull_back. cbn [turned_geometry m_affine m_gdim m_tdim m_cmap_pull_back]. destruct (m_affine m) eqn:Ea; cbn [map hd p_X]; [|now apply PB].
    apply map_ext_in. intros i Hi. apply in_seq in Hi. pose proof (vm_volume _ V) as E. pose proof (se_regular _ _ SE _ (repeat 0 tdim) Hl) as NS. cbn [fst] in NS. rewrite !for_loop_rsum, !Rplus_0_l.
    rewrite <- (contract gdim O HO (fun j => jacobian_inverse gdim tdim (cell_jacobian m (repeat 0 tdim) (cell_coordinates m c)) i j) (fun j => nth j x 0 - cell_coordinates m c 0 j)).
    apply rsum_ext. intros j Hj. rewrite (inverse_turned O t m V HO c (repeat 0 tdim) NS i j) by lia. f_equal. rewrite turn_minus, (Hx j Hj).
    assert (N0 : (0 < m_nodes m)%nat).
    { destruct (m_nodes m) eqn:En; [|lia]. pose proof (vm_unity _ V []) as U. rewrite En in U. cbn [rsum] in U. lra. }
    pose proof (node_turned O t m V c 0 j N0 Hj) as Nt. unfold node in Nt. unfold cell_coordinates at 1. rewrite Nt. unfold cell_coordinates. ring.
  Qed.
  Context (points points' : list R) (N : nat) (HN : length points = (3 * N)%nat) (HN' : length points' = (3 * N)%nat).
  Context (HP : forall i, (i < N)%nat -> turned_position 3 O3 t3 (slice points (3 * i) 3) (slice points' (3 * i) 3)).
  Lemma projection_same : compute_projection_map m' closest' gjk (flat2 C) points' = compute_projection_map m closest gjk (flat2 C) points.
  Proof using All.
    assert (EN : (length points / 3 = N)%nat) by (rewrite HN, Nat.mul_comm; apply Nat.div_mul; lia). assert (EN' : (length points' / 3 = N)%nat) by (rewrite HN', Nat.mul_comm; apply Nat.div_mul; lia).
    unfold compute_projection_map. rewrite EN, EN'. cbn [turned_geometry m_tdim m_gdim m_f_to_c m_closure]. destruct (flat2 C) as [|h tl] eqn:EC; [reflexivity|]. rewrite <- EC in *.
    assert (HC0 : C <> []) by (intros ->; discriminate EC). clear h tl EC.
    assert (EF : facet_indices_from_pair m' (flat2 C) = facet_indices_from_pair m (flat2 C)) by reflexivity. rewrite EF. rewrite facet_indices_map. set (F := map (fun p => facet_index m (fst p) (snd p)) C).
    assert (HF : F <> []) by (unfold F; destruct C; [contradiction|discriminate]).
    assert (S3 : forall i, (i < N)%nat -> length (slice points (3 * i) 3) = 3%nat /\ length (slice points' (3 * i) 3) = 3%nat) by (intros; split; apply slice_length; lia).
    assert (ECF : map (fun i => closest' F (slice points' (3 * i) 3)) (seq 0 N) = map (fun i => closest F (slice points (3 * i) 3)) (seq 0 N)).
    { apply map_ext_in. intros i Hi. apply in_seq in Hi. destruct (S3 i ltac:(lia)). now apply HC; auto; apply HP; lia. }
    rewrite ECF. set (cf := map (fun i => closest F (slice points (3 * i) 3)) (seq 0 N)).
    assert (Lcf : length cf = N) by (unfold cf; now rewrite map_length, seq_length).
    assert (Ecf : forall i, (i < N)%nat -> In (nth i cf 0%nat) F).
    { intros i Hi. unfold cf. rewrite (nth_map_lt _ _ i 0%nat 0%nat) by (rewrite seq_length; auto). rewrite seq_nth by auto. destruct (S3 i Hi). now apply (HC F _ (slice points' (3 * i) 3)); auto. }
    assert (EGd : forall n l, entities_to_geometry_dofs m' n l = entities_to_geometry_dofs m n l) by reflexivity. rewrite EGd.
    set (n := length (m_closure m 0)). set (geo := entities_to_geometry_dofs m n (map Z.of_nat cf)).
    apply (f_equal (pair (map Z.of_nat cf))). 
    (* the cell of each closest facet *)
    assert (Hcell : forall i, (i < N)%nat -> exists c l, In (c, l) C /\ nth i cf 0%nat = facet_index m c l /\ hd 0%nat (m_f_to_c m (nth i cf 0%nat)) = c /\ find_index (nth i cf 0%nat) (m_c_to_f m c) = l).
    { intros i Hi. specialize (Ecf i Hi). apply in_map_iff in Ecf. destruct Ecf as ((c & l) & Ef & Hp). cbn [fst snd] in Ef. pose proof (se_facet _ _ SE _ Hp) as Sf. cbn [fst snd] in Sf. exists c, l.
      repeat split; auto; rewrite <- Ef; [now rewrite (sf_owner _ _ _ Sf)|]. apply find_index_nodup; [apply (sf_distinct _ _ _ Sf)|apply (sf_local _ _ _ Sf)]. }
    set (v := fun i l => nth (3 * i + l)%nat points 0 + nth l (gjk (map (fun l => slice (m_x m) (3 * Z.to_nat (nth l (links geo i) 0%Z)) 3) (seq 0 n)) (slice points (3 * i) 3)) 0).
    set (v' := fun i l => nth (3 * i + l)%nat points' 0 + nth l (gjk (map (fun l => slice (m_x m') (3 * Z.to_nat (nth l (links geo i) 0%Z)) 3) (seq 0 n)) (slice points' (3 * i) 3)) 0).
    apply for_loop_ext. intros i s Hi. cbv zeta.
    match goal with |- context [pull_back m' _ [slice ?z _ _]] => set (cx' := z) end.
    match goal with |- context [pull_back m _ [slice ?z _ _]] => set (cx := z) end.
    assert (Ecx : forall k, (k < 3)%nat -> nth (3 * i + k) cx 0 = v i k) by (intros k Hk; exact (rows3 N v i k Hi Hk)).
    assert (Ecx' : forall k, (k < 3)%nat -> nth (3 * i + k) cx' 0 = v' i k) by (intros k Hk; exact (rows3 N v' i k Hi Hk)).
    clearbody cx cx'.
    destruct (Hcell i Hi) as (c & l & Hcl & Ef & Ec & El). rewrite Ec. rewrite (pull_back_same c (slice cx (3 * i) gdim) (slice cx' (3 * i) gdim)); [reflexivity|now exists l|].
    assert (Hg : (gdim <= 3)%nat) by now apply gdim_le.
    pose proof (se_facet _ _ SE _ Hcl) as Sf. cbn [fst snd] in Sf.
    assert (Edof : forall j, (j < n)%nat -> exists nd, Z.to_nat (nth j (links geo i) 0%Z) = nd /\ (3 * nd + 2 < length (m_x m))%nat).
    { intros j Hj. eexists. split; [reflexivity|]. unfold geo. rewrite geometry_dofs_links; [|rewrite map_length, Lcf; auto|exact Hj|rewrite (nth_map_lt _ _ i 0%Z 0%nat) by (rewrite Lcf; auto); lia].
      cbv zeta. rewrite (nth_map_lt _ _ i 0%Z 0%nat) by (rewrite Lcf; auto). rewrite !Nat2Z.id, Ec, El. assert (B : (3 * nth (nth j (m_closure m l) 0) (m_x_dofmap m c) 0 + 3 <= length (m_x m))%nat).
      { apply (sf_range _ _ _ Sf). apply nth_In. rewrite (se_size _ _ SE). exact Hj. } lia. }
    assert (Ev : forall k, (k < 3)%nat -> v' i k = turn 3 O3 (v i) k + t3 k).
    { intros k Hk. destruct (S3 i Hi) as [La Lb]. unfold v', v.
      set (ps := map (fun l => slice (m_x m) (3 * Z.to_nat (nth l (links geo i) 0%Z)) 3) (seq 0 n)). set (ps' := map (fun l => slice (m_x m') (3 * Z.to_nat (nth l (links geo i) 0%Z)) 3) (seq 0 n)).
      pose proof (gjk_turned n gjk O3 t3 ps ps' (slice points (3 * i) 3) (slice points' (3 * i) 3) (extend_orthogonal gdim O (vm_dim _ V) HO) HG) as GT.
      assert (Lps : length ps = n) by (unfold ps; now rewrite map_length, seq_length). assert (Lps' : length ps' = n) by (unfold ps'; now rewrite map_length, seq_length).
      specialize (GT Lps Lps' La Lb).
      assert (HH : forall j, (j < n)%nat -> turned_position 3 O3 t3 (nth j ps []) (nth j ps' [])).
      { intros j Hj a Ha. unfold ps, ps'. rewrite !(nth_map_lt _ _ j [] 0%nat) by (rewrite seq_length; auto). rewrite seq_nth by auto. cbn [Nat.add]. destruct (Edof j Hj) as (nd & -> & Lnd).
        rewrite nth_slice by auto. cbn [turned_geometry m_x]. rewrite (extend_points gdim O t (m_x m) nd (vm_dim _ V) Lnd a Ha). apply (f_equal (fun r => r + t3 a)). apply turn_ext. intros b Hb. now rewrite nth_slice. }
      specialize (GT HH (HP i Hi) k Hk). rewrite nth_slice in GT by auto. rewrite GT. apply (f_equal (fun r => r + t3 k)). apply turn_ext. intros b Hb. now rewrite nth_slice. }
    intros a Ha. rewrite nth_slice by auto. rewrite (Ecx' a) by lia. rewrite (Ev a) by lia. rewrite extend_turn by (try apply (vm_dim _ V); lia). unfold extend_shift. destruct (Nat.ltb_spec a gdim); [|lia].
    apply (f_equal (fun r => r + t a)). apply turn_ext. intros b Hb. rewrite nth_slice by auto. rewrite Ecx by lia. reflexivity.
  Qed.
End Projection.

(** ** Candidates *)
(** The vertices of a facet: some geometry nodes of the mesh. *)
Definition facet_nodes_exist (x : list R) (nodes : list nat) : Prop := nodes <> [] /\ forall n, In n nodes -> (3 * n + 2 < length x)%nat.
Lemma midpoint_length x nodes : length (facet_midpoint x nodes) = 3%nat.
Proof. unfold facet_midpoint. now rewrite map_length, seq_length. Qed.
Lemma midpoint_entry x nodes k : (k < 3)%nat -> nth k (facet_midpoint x nodes) 0 = rsum (length nodes) (fun v => nth (3 * nth v nodes 0 + k)%nat x 0) / INR (length nodes).
Proof. intros Hk. unfold facet_midpoint. rewrite (nth_map_lt _ _ k 0 0%nat) by (rewrite seq_length; auto). now rewrite seq_nth by auto. Qed.
Lemma midpoint_turned dim O t x nodes : (dim = 2 \/ dim = 3)%nat -> facet_nodes_exist x nodes ->
  turned_position 3 (extend dim O) (extend_shift dim t) (facet_midpoint x nodes) (facet_midpoint (turned_points dim O t x) nodes).
Proof.
  intros Hd [Hn Hx] k Hk. rewrite midpoint_entry by auto.
  rewrite (turn_ext 3 _ _ (fun k => / INR (length nodes) * rsum (length nodes) (fun v => nth (3 * nth v nodes 0 + k)%nat x 0))) by (intros; rewrite midpoint_entry by auto; unfold Rdiv; ring).
  rewrite turn_scal, turn_sum.
  rewrite (rsum_ext (length nodes) (fun v => nth (3 * nth v nodes 0 + k)%nat (turned_points dim O t x) 0) (fun v => turn 3 (extend dim O) (fun k => nth (3 * nth v nodes 0 + k)%nat x 0) k + extend_shift dim t k)).
  2:{ intros v Hv. apply extend_points; auto. apply Hx. now apply nth_In. }
  rewrite rsum_plus, rsum_const.
  assert (Hz : INR (length nodes) <> 0) by (apply not_0_INR; destruct nodes; [congruence|discriminate]). field. exact Hz.
Qed.
Lemma candidates_ext qm cm qm' cm' n r : (forall i, (i < n)%nat -> midpoint_dist qm' cm' 0 i = midpoint_dist qm cm 0 i) -> find_candidate_facets qm' cm' n r = find_candidate_facets qm cm n r.
Proof.
  intros H. unfold find_candidate_facets.
  rewrite (for_loop_ext n (fun i st => let dist := midpoint_dist qm' cm' 0 i in if rlt r 0 || rlt dist (r * r) then (fst st ++ [i], snd st ++ [dist]) else st)
    (fun i st => let dist := midpoint_dist qm cm 0 i in if rlt r 0 || rlt dist (r * r) then (fst st ++ [i], snd st ++ [dist]) else st)) by (intros; now rewrite H). reflexivity.
Qed.
Lemma midpoint_distance qm cm i : midpoint_dist qm cm 0 i = rsum 3 (fun k => (nth k qm 0 - nth (i * 3 + k) cm 0) * (nth k qm 0 - nth (i * 3 + k) cm 0)).
Proof. unfold midpoint_dist. cbv zeta. rewrite for_loop_rsum, Rplus_0_l. apply rsum_ext. intros k Hk. now rewrite abs_sq. Qed.

(** ** One facet of the map depends only on what the rays give *)
Lemma ray_point_ext gdim sr n p n' p' o o' patch : (forall c, In c patch -> (0 <? check_ray gdim sr n' p' (o' c))%Z = (0 <? check_ray gdim sr n p (o c))%Z /\ ray_X (o' c) = ray_X (o c)) ->
  ray_point gdim sr n' p' o' patch = ray_point gdim sr n p o patch.
Proof.
  induction patch as [|c patch IH]; intros H; cbn [ray_point]; [reflexivity|]. destruct (H c (or_introl eq_refl)) as [-> ->]. destruct (_ <? _)%Z; [reflexivity|]. apply IH. intros. apply H. now right.
Qed.
Lemma ray_facet_ext gdim nq sr cf i patch n p o cl n' p' o' cl' st :
  (forall j, (j < nq)%nat -> ray_point gdim sr (n' j) (p' j) (o' j) patch = ray_point gdim sr (n j) (p j) (o j) patch) -> (forall j, (j < nq)%nat -> patch <> [] -> cl' j patch = cl j patch) ->
  ray_facet gdim nq sr cf i patch n' p' o' cl' st = ray_facet gdim nq sr cf i patch n p o cl st.
Proof.
  intros H1 H2. unfold ray_facet.
  set (body := fun j (s : list Z * list (list R) * list nat) => let '(colliding, refs, missing) := s in match ray_point gdim sr (n j) (p j) (o j) patch with Some (cell_idx, X) => (upd colliding (i * nq + j) (nth cell_idx cf 0%Z), upd refs (i * nq + j) X, missing) | None => (colliding, refs, missing ++ [j]) end).
  rewrite (for_loop_ext nq _ body). 2:{ intros j s Hj. unfold body. destruct s as [[c r] mi]. now rewrite H1. }
  assert (I : forall j, In j (snd (for_loop nq body (fst st, snd st, []))) -> (j < nq)%nat).
  { apply (for_loop_inv (fun k s => forall j, In j (snd s) -> (j < k)%nat)); [intros j []|]. intros k s Hk IH j. unfold body. destruct s as [[c r] mi]. cbn [snd] in IH. destruct (ray_point _ _ _ _ _ _) as [[ci X]|]; cbn [snd]; intros Hj.
    - apply IH in Hj. lia.
    - apply in_app_or in Hj. destruct Hj as [Hj|[<-|[]]]; [apply IH in Hj|]; lia. }
  destruct (for_loop nq body _) as [[c r] mi]. cbn [snd] in I. destruct (_ && _)%bool; [|reflexivity]. 
  assert (E : projection_map cl' cf patch mi = projection_map cl cf patch mi).
  { unfold projection_map. destruct patch as [|c0 pt]; [reflexivity|]. apply map_ext_in. intros j Hj. rewrite H2 by (auto; discriminate). reflexivity. }
  now rewrite E.
Qed.

(** ** Rays *)
Lemma rays_turned O t m ct vertex fj : volume_mesh m -> turned_mesh (m_gdim m) O t (mesh_rays m ct vertex fj) (mesh_rays (turned_geometry O t m) ct vertex fj).
Proof.
  intros V. constructor; try reflexivity.
  - intros c X a Ha. cbn [mesh_rays rm_push]. rewrite (nth_map_lt _ _ a 0 0%nat) by (rewrite seq_length; auto). rewrite seq_nth by auto. cbn [Nat.add].
    rewrite (turn_ext (m_gdim m) O _ (geometry_map m c X)).
    2:{ intros k Hk. rewrite (nth_map_lt _ _ k 0 0%nat) by (rewrite seq_length; auto). rewrite seq_nth by auto. apply push_forward_map. }
    rewrite <- (map_turned O t m V c X a Ha). exact (push_forward_map (turned_geometry O t m) c X a).
  - intros c X a k Ha Hk. cbn [mesh_rays rm_jac rm_tdim] in *. rewrite (turn_ext (m_gdim m) O _ (fun b => geometry_jacobian m c X b k)) by (intros; apply jacobian_map).
    rewrite <- (jacobian_turned O t m V c X a k Ha Hk). apply jacobian_map.
Qed.
Lemma check_turned gdim O sr n n' p p' o o' : orthogonal gdim O -> ray_status o' = ray_status o -> turned_vector gdim O n n' ->
  ((0 < ray_status o)%Z -> turned_vector gdim O (ray_normal o) (ray_normal o') /\ forall a, (a < gdim)%nat -> nth a (ray_x o') 0 - nth a p' 0 = turn gdim O (fun k => nth k (ray_x o) 0 - nth k p 0) a) ->
  (0 <? check_ray gdim sr n' p' o')%Z = (0 <? check_ray gdim sr n p o)%Z.
Proof.
  intros HO Es Hn H.
  assert (P : forall n p o, for_loop gdim (fun l st => (fst st + nth l n 0 * nth l (ray_normal o) 0, snd st + (nth l (ray_x o) 0 - nth l p 0) * (nth l (ray_x o) 0 - nth l p 0))) (0, 0)
     = (rsum gdim (fun l => nth l n 0 * nth l (ray_normal o) 0), rsum gdim (fun l => (nth l (ray_x o) 0 - nth l p 0) * (nth l (ray_x o) 0 - nth l p 0)))).
  { clear. intros n p o. generalize gdim. induction gdim0 as [|g IH]; [reflexivity|]. rewrite for_loop_S, IH. cbn [fst snd rsum]. reflexivity. }
  unfold check_ray. cbv zeta. rewrite !P. cbn [fst snd]. destruct (Z.ltb_spec 0 (ray_status o)) as [L|L].
  - destruct (H L) as [H1 H2].
    rewrite (rsum_ext gdim (fun l => nth l n' 0 * nth l (ray_normal o') 0) (fun l => turn gdim O (fun k => nth k n 0) l * turn gdim O (fun k => nth k (ray_normal o) 0) l)) by (intros l Hl; now rewrite (Hn l Hl), (H1 l Hl)).
    rewrite (rsum_ext gdim (fun l => (nth l (ray_x o') 0 - nth l p' 0) * (nth l (ray_x o') 0 - nth l p' 0)) (fun l => turn gdim O (fun k => nth k (ray_x o) 0 - nth k p 0) l * turn gdim O (fun k => nth k (ray_x o) 0 - nth k p 0) l)) by (intros l Hl; now rewrite (H2 l Hl)).
    rewrite !contract by exact HO. now rewrite Es.
  - rewrite Es. assert (A : forall b : bool, (0 <? (if b then -5 else ray_status o))%Z = false) by (intros []; apply Z.ltb_ge; lia). now rewrite !A.
Qed.

Section RaySearch.
  Context (O : nat -> nat -> R) (t : nat -> R) (mq mc : mesh_data) (ct : cell_type) (vertex : nat -> nat -> nat -> R) (facet_jac : nat -> matrix) (vertices_q vertices_c : nat -> list nat).
  Context (closest closest' : list nat -> list R -> nat) (gjk : list (list R) -> list R -> list R) (point : nat -> list R) (offsets : nat -> nat) (sr : R) (Q C : list (nat * nat)).
  Context (Vq : volume_mesh mq) (Vc : volume_mesh mc) (Eg : m_gdim mc = m_gdim mq) (HO : orthogonal (m_gdim mq) O).
  Context (SQ : search_facets mq Q) (SC : search_facets mc C) (HG : gjk_exact (length (m_closure mc 0)) gjk) (HC : same_closest (m_gdim mq) O t closest closest') (PB : frame_free_pull_back O t mc).
  Context (NZ : forall f, nonzero mq (m_ref_normal mq f)) (Hoff : forall f, offsets f = ((offsets 1 - offsets 0) * f)%nat).
  Context (HVq : forall p, In p Q -> facet_nodes_exist (m_x mq) (vertices_q (facet_index mq (fst p) (snd p)))) (HVc : forall p, In p C -> facet_nodes_exist (m_x mc) (vertices_c (facet_index mc (fst p) (snd p)))).
  Notation gdim := (m_gdim mq).
  Notation tdim := (m_tdim mq).
  Notation nq := (offsets 1 - offsets 0)%nat.
  Notation mq' := (turned_geometry O t mq).
  Notation mc' := (turned_geometry O t mc).
  Notation patch := (rs_patch mq mc vertices_q vertices_c sr (flat2 Q) (flat2 C)).
  Notation patch' := (rs_patch mq' mc' vertices_q vertices_c sr (flat2 Q) (flat2 C)).
  Notation pt := (rs_point mq point offsets (flat2 Q)).
  Notation pt' := (rs_point mq' point offsets (flat2 Q)).
  Notation nrm := (rs_normal mq point offsets (flat2 Q)).
  Notation nrm' := (rs_normal mq' point offsets (flat2 Q)).

  Lemma patch_same i : (i < length Q)%nat -> patch' i = patch i.
  Proof using Vq Eg HO HVq HVc.
    intros Hi. unfold rs_patch, rs_q_facets, rs_c_facets.
    assert (E1 : forall l, facet_indices_from_pair mq' l = facet_indices_from_pair mq l) by reflexivity. assert (E2 : forall l, facet_indices_from_pair mc' l = facet_indices_from_pair mc l) by reflexivity.
    rewrite E1, E2, !facet_indices_map. apply candidates_ext. intros j Hj. rewrite map_length in Hj. rewrite !midpoint_distance. cbn [turned_geometry m_x]. rewrite Eg.
    set (qf := nth i (map (fun p => facet_index mq (fst p) (snd p)) Q) 0%nat).
    assert (Hqf : facet_nodes_exist (m_x mq) (vertices_q qf)) by (unfold qf; rewrite (nth_map_lt _ _ i 0%nat (0, 0)%nat) by auto; apply HVq; now apply nth_In).
    set (cfs := map (fun p => facet_index mc (fst p) (snd p)) C).
    assert (Hcf : facet_nodes_exist (m_x mc) (vertices_c (nth j cfs 0%nat))) by (unfold cfs; rewrite (nth_map_lt _ _ j 0%nat (0, 0)%nat) by auto; apply HVc; now apply nth_In).
    assert (Lj : (j < length cfs)%nat) by (unfold cfs; now rewrite map_length).
    rewrite (rsum_ext 3 _ (fun k => (nth k (facet_midpoint (turned_points gdim O t (m_x mq)) (vertices_q qf)) 0 - nth k (facet_midpoint (turned_points gdim O t (m_x mc)) (vertices_c (nth j cfs 0%nat))) 0) *
       (nth k (facet_midpoint (turned_points gdim O t (m_x mq)) (vertices_q qf)) 0 - nth k (facet_midpoint (turned_points gdim O t (m_x mc)) (vertices_c (nth j cfs 0%nat))) 0))).
    2:{ intros k Hk. rewrite (nth_flat_map_const _ 3 cfs j k 0 0%nat) by (auto using midpoint_length). reflexivity. }
    rewrite (rsum_ext 3 (fun k => (_ - nth (j * 3 + k) _ 0) * _) (fun k => (nth k (facet_midpoint (m_x mq) (vertices_q qf)) 0 - nth k (facet_midpoint (m_x mc) (vertices_c (nth j cfs 0%nat))) 0) *
       (nth k (facet_midpoint (m_x mq) (vertices_q qf)) 0 - nth k (facet_midpoint (m_x mc) (vertices_c (nth j cfs 0%nat))) 0))).
    2:{ intros k Hk. rewrite (nth_flat_map_const _ 3 cfs j k 0 0%nat) by (auto using midpoint_length). reflexivity. }
    exact (distance_turned (extend gdim O) (extend_shift gdim t) _ _ _ _ (extend_orthogonal gdim O (vm_dim _ Vq) HO) (midpoint_turned gdim O t _ _ (vm_dim _ Vq) Hcf) (midpoint_turned gdim O t _ _ (vm_dim _ Vq) Hqf)).
  Qed.
  Lemma patch_range i c : In c (patch i) -> (c < length C)%nat.
  Proof using. intros H. apply (C57_candidate_facets _ _ _ _) in H. unfold rs_c_facets in H. rewrite facet_indices_map, map_length in H. apply H. Qed.
End RaySearch.

(** Points and normals of the quadrature facets. *)
Section QuadratureFacets.
  Context (mq : mesh_data) (point : nat -> list R) (offsets : nat -> nat) (Q : list (nat * nat)) (Vq : volume_mesh mq) (SQ : search_facets mq Q) (NZ : forall f, nonzero mq (m_ref_normal mq f)).
  Notation gdim := (m_gdim mq).
  Notation tdim := (m_tdim mq).
  Notation nq := (offsets 1 - offsets 0)%nat.
  Notation pt := (rs_point mq point offsets (flat2 Q)).
  Notation nrm := (rs_normal mq point offsets (flat2 Q)).
  Lemma point_entry i j k : (i < length Q)%nat -> (j < nq)%nat -> (k < gdim)%nat -> nth k (pt i j) 0 = geometry_map mq (fst (nth i Q (0, 0)%nat)) (point (offsets (snd (nth i Q (0, 0)%nat)) + j)%nat) k.
  Proof using.
    intros Hi Hj Hk. unfold rs_point, rs_points. rewrite nth_slice by auto. rewrite flat2_half.
    exact (proj2 (physical_points mq point offsets Q (repeat 0 (length Q * nq * gdim)) ltac:(apply repeat_length)) i j k Hi Hj Hk).
  Qed.
  Lemma point_length i j : (i < length Q)%nat -> (j < nq)%nat -> length (pt i j) = gdim.
  Proof using.
    intros Hi Hj. unfold rs_point, rs_points. rewrite flat2_half. apply slice_length.
    rewrite (proj1 (physical_points mq point offsets Q (repeat 0 (length Q * nq * gdim)) ltac:(apply repeat_length))), repeat_length. pose proof (row_lt nq (length Q) i j Hi Hj) as B.
    replace ((i * nq + j) * gdim + gdim)%nat with ((i * nq + j + 1) * gdim)%nat by ring. apply Nat.mul_le_mono_r. lia.
  Qed.
  Lemma normal_entry i j k : (i < length Q)%nat -> (k < gdim)%nat -> nth k (nrm i j) 0 =
    let p := nth i Q (0, 0)%nat in physical_facet_normal tdim gdim (jacobian_inverse gdim tdim (cell_jacobian mq (point (nq * snd p + j)%nat) (cell_coordinates mq (fst p)))) (m_ref_normal mq (snd p)) k.
  Proof using.
    intros Hi Hk. unfold rs_normal. cbv zeta. rewrite (flat2_fst Q i (0, 0)%nat), (flat2_snd Q i (0, 0)%nat) by auto. rewrite (nth_map_lt _ _ k 0 0%nat) by (rewrite seq_length; auto). now rewrite seq_nth by auto.
  Qed.
  Lemma normal_length i j : length (nrm i j) = gdim.
  Proof using. unfold rs_normal. cbv zeta. now rewrite map_length, seq_length. Qed.
  Lemma normal_unit i j : (i < length Q)%nat -> normn gdim (nrm i j) = 1.
  Proof using Vq SQ NZ.
    intros Hi. unfold normn, dotn. set (p := nth i Q (0, 0)%nat).
    pose proof (normal_outward mq (fst p) (point (nq * snd p + j)%nat) (m_ref_normal mq (snd p)) (volume_dimensions mq Vq) (se_regular _ _ SQ p _ (nth_In Q _ Hi)) (NZ (snd p))) as (U & _).
    rewrite <- sqrt_1. f_equal. etransitivity; [|exact U]. apply rsum_ext. intros k Hk. rewrite (normal_entry i j k Hi Hk). reflexivity.
  Qed.
End QuadratureFacets.

Section RaySearchSame.
  Context (O : nat -> nat -> R) (t : nat -> R) (mq mc : mesh_data) (ct : cell_type) (vertex : nat -> nat -> nat -> R) (facet_jac : nat -> matrix) (vertices_q vertices_c : nat -> list nat).
  Context (closest closest' : list nat -> list R -> nat) (gjk : list (list R) -> list R -> list R) (point : nat -> list R) (offsets : nat -> nat) (sr : R) (Q C : list (nat * nat)).
  Context (Vq : volume_mesh mq) (Vc : volume_mesh mc) (Eg : m_gdim mc = m_gdim mq) (HO : orthogonal (m_gdim mq) O).
  Context (SQ : search_facets mq Q) (SC : search_facets mc C) (HG : gjk_exact (length (m_closure mc 0)) gjk) (HC : same_closest (m_gdim mq) O t closest closest') (PB : frame_free_pull_back O t mc).
  Context (NZ : forall f, nonzero mq (m_ref_normal mq f)).
  Context (HVq : forall p, In p Q -> facet_nodes_exist (m_x mq) (vertices_q (facet_index mq (fst p) (snd p)))) (HVc : forall p, In p C -> facet_nodes_exist (m_x mc) (vertices_c (facet_index mc (fst p) (snd p)))).
  Notation gdim := (m_gdim mq).
  Notation tdim := (m_tdim mq).
  Notation nq := (offsets 1 - offsets 0)%nat.
  Notation mq' := (turned_geometry O t mq).
  Notation mc' := (turned_geometry O t mc).
  Notation pt := (rs_point mq point offsets (flat2 Q)).
  Notation pt' := (rs_point mq' point offsets (flat2 Q)).
  Notation nrm := (rs_normal mq point offsets (flat2 Q)).
  Notation nrm' := (rs_normal mq' point offsets (flat2 Q)).
  Lemma point_turned i j : (i < length Q)%nat -> (j < nq)%nat -> turned_position gdim O t (pt i j) (pt' i j).
  Proof using Vq.
    intros Hi Hj k Hk. rewrite (point_entry mq' point offsets Q i j k Hi Hj Hk). rewrite map_turned by auto. apply (f_equal (fun r => r + t k)). apply turn_ext. intros b Hb. now rewrite (point_entry mq point offsets Q i j b).
  Qed.
  Lemma normals_turned i j : (i < length Q)%nat -> turned_vector gdim O (nrm i j) (nrm' i j).
  Proof using Vq SQ HO.
    intros Hi k Hk. rewrite (normal_entry mq' point offsets Q i j k Hi Hk). cbv zeta. cbn [turned_geometry m_tdim m_gdim m_ref_normal].
    rewrite (normal_turned O t mq Vq HO) by (auto; apply (se_regular _ _ SQ); now apply nth_In). apply turn_ext. intros b Hb. now rewrite (normal_entry mq point offsets Q i j b).
  Qed.
  Notation oc := (rs_outcome mq mc ct vertex facet_jac point offsets (flat2 Q) (flat2 C)).
  Notation oc' := (rs_outcome mq' mc' ct vertex facet_jac point offsets (flat2 Q) (flat2 C)).
  Lemma outcome_same i j c : (i < length Q)%nat -> (j < nq)%nat -> (c < length C)%nat ->
    ray_status (oc' i j c) = ray_status (oc i j c) /\ ray_X (oc' i j c) = ray_X (oc i j c) /\
    ((0 < ray_status (oc i j c))%Z -> turned_vector gdim O (ray_normal (oc i j c)) (ray_normal (oc' i j c)) /\ forall a, (a < gdim)%nat -> nth a (ray_x (oc' i j c)) 0 - nth a (pt' i j) 0 = turn gdim O (fun k => nth k (ray_x (oc i j c)) 0 - nth k (pt i j) 0) a).
  Proof using Vq Vc Eg HO SQ SC NZ.
    intros Hi Hj Hc. unfold rs_outcome. cbv zeta. cbn [turned_geometry m_tdim m_gdim m_ref_normal].
    rewrite (flat2_fst C c (0, 0)%nat), (flat2_snd C c (0, 0)%nat) by auto. set (p := nth c C (0, 0)%nat). assert (Hp : In p C) by now apply nth_In.
    assert (HOc : orthogonal (m_gdim mc) O) by now rewrite Eg. pose proof (vm_volume _ Vq) as Tq. pose proof (vm_volume _ Vc) as Tc.
    pose proof (cell_same tdim gdim 25 (1 / 10 ^ 8) O t (mesh_rays mc ct vertex facet_jac) (mesh_rays mc' ct vertex facet_jac) (pt i j) (pt' i j) (nrm i j) (nrm' i j) (vm_dim _ Vq) (or_introl Tq)) as CS.
    specialize (CS ltac:(lra) HO). rewrite <- Eg in CS at 1. specialize (CS (rays_turned O t mc ct vertex facet_jac Vc) ltac:(cbn [mesh_rays rm_tdim]; lia) (point_turned i j Hi Hj) (normal_length mq point offsets Q i j) (normal_length mq' point offsets Q i j)
      (normal_unit mq point offsets Q Vq SQ NZ i j Hi) (normals_turned i j Hi) (fst p, snd p) (repeat 0 tdim)).
    destruct (ray_cell tdim gdim 25 (1 / 10 ^ 8) (mesh_rays mc ct vertex facet_jac) (pt i j) (nrm i j) (repeat 0 tdim) (fst p, snd p)) as [s|], (ray_cell tdim gdim 25 (1 / 10 ^ 8) (mesh_rays mc' ct vertex facet_jac) (pt' i j) (nrm' i j) (repeat 0 tdim) (fst p, snd p)) as [s'|]; try contradiction.
    - destruct CS as (E1 & _ & E3 & E4). cbn [ray_status ray_X ray_normal ray_x]. split; [exact E1|]. split; [exact E3|]. intros L. split.
      + rewrite E3. intros a Ha. rewrite (nth_map_lt _ _ a 0 0%nat) by (rewrite seq_length; auto). rewrite seq_nth by auto. cbn [Nat.add].
        pose proof (normal_turned O t mc Vc HOc (fst p) (rs_X s) (m_ref_normal mq (snd p)) a (se_regular _ _ SC p _ Hp)) as NT.
        assert (Et : m_tdim mc = tdim) by lia. rewrite Et, Eg in NT. rewrite (NT Ha). apply turn_ext. intros b Hb. rewrite (nth_map_lt _ _ b 0 0%nat) by (rewrite seq_length; auto). now rewrite seq_nth by auto.
      + intros a Ha. rewrite (E4 L a Ha), (point_turned i j Hi Hj a Ha), turn_minus. ring.
    - cbn [ray_status ray_X ray_normal ray_x]. repeat split; intros; lia.
  Qed.

  Notation cl := (rs_closest mq mc closest gjk point offsets (flat2 Q) (flat2 C)).
  Notation cl' := (rs_closest mq' mc' closest' gjk point offsets (flat2 Q) (flat2 C)).
  Lemma closest_same i j patch : (i < length Q)%nat -> (j < nq)%nat -> (forall c, In c patch -> (c < length C)%nat) -> cl' i j patch = cl i j patch.
  Proof using Vq Vc Eg HO SC HG HC PB.
    intros Hi Hj Hc. unfold rs_closest. cbn [turned_geometry m_tdim m_gdim].
    assert (EC : flat_map (fun c => [nth (2 * c) (flat2 C) 0; nth (2 * c + 1) (flat2 C) 0]%nat) patch = flat2 (map (fun c => nth c C (0, 0)%nat) patch)).
    { clear HG HC PB. induction patch as [|c patch IH]; [reflexivity|]. cbn [flat_map map]. rewrite IH by (intros; apply Hc; now right). rewrite (flat2_fst C c (0, 0)%nat), (flat2_snd C c (0, 0)%nat) by (apply Hc; now left). reflexivity. }
    rewrite EC. set (C' := map (fun c => nth c C (0, 0)%nat) patch).
    assert (In' : forall p, In p C' -> In p C) by (intros p Hp; apply in_map_iff in Hp; destruct Hp as (c & <- & Hin); apply nth_In; auto).
    pose proof (vm_dim _ Vq) as Dq.
    assert (Lp : length (pt i j ++ repeat 0 (3 - gdim)) = 3%nat) by (rewrite app_length, repeat_length, point_length by auto; lia).
    assert (Lp' : length (pt' i j ++ repeat 0 (3 - gdim)) = 3%nat) by (rewrite app_length, repeat_length, (point_length mq' point offsets Q) by auto; cbn [turned_geometry m_gdim]; lia).
    rewrite (projection_same O t mc Vc ltac:(now rewrite Eg) closest closest' gjk C' ltac:(constructor; [intros; apply (se_facet _ _ SC); auto|intros; apply (se_regular _ _ SC); auto|apply (se_size _ _ SC)]) HG ltac:(now rewrite Eg) PB
      (pt i j ++ repeat 0 (3 - gdim)) (pt' i j ++ repeat 0 (3 - gdim)) 1 ltac:(lia) ltac:(lia)); [reflexivity|].
    intros z Hz. assert (z = 0%nat) by lia. subst z. rewrite Eg. intros a Ha. rewrite nth_slice by auto. cbn [Nat.mul Nat.add]. rewrite extend_turn by auto. unfold extend_shift. destruct (Nat.ltb_spec a gdim) as [L|L].
    - rewrite app_nth1 by (rewrite (point_length mq' point offsets Q) by auto; exact L). rewrite (point_turned i j Hi Hj a L). apply (f_equal (fun r => r + t a)). apply turn_ext. intros b Hb. rewrite nth_slice by lia. cbn [Nat.mul Nat.add]. now rewrite app_nth1 by (rewrite point_length by auto; exact Hb).
    - rewrite nth_slice by auto. cbn [Nat.mul Nat.add]. rewrite !app_nth2 by (rewrite ?point_length, ?(point_length mq' point offsets Q) by auto; exact L). rewrite !nth_repeat_0. ring.
  Qed.
  Lemma ray_search_same :
    mesh_raytracing_map mq' mc' ct vertex facet_jac vertices_q vertices_c closest' gjk point offsets sr (flat2 Q) (flat2 C) = mesh_raytracing_map mq mc ct vertex facet_jac vertices_q vertices_c closest gjk point offsets sr (flat2 Q) (flat2 C).
  Proof using All.
    unfold mesh_raytracing_map. cbn [turned_geometry m_tdim m_gdim].
    assert (E : rs_c_facets mc' (flat2 C) = rs_c_facets mc (flat2 C)) by reflexivity. rewrite E.
    cbv zeta. match goal with |- (mkAdj (fst ?a) _, _) = (mkAdj (fst ?b) _, _) => assert (M : a = b); [|now rewrite M] end.
    unfold compute_raytracing_map. rewrite !flat2_half. apply for_loop_ext. intros i st Hi.
    rewrite (patch_same O t mq mc vertices_q vertices_c sr Q C Vq Eg HO HVq HVc i Hi).
    assert (PR := fun c => patch_range mq mc vertices_q vertices_c sr Q C i c).
    apply ray_facet_ext.
    - intros j Hj. apply ray_point_ext. intros c Hc. destruct (outcome_same i j c Hi Hj (PR c Hc)) as (E1 & E2 & E3). split; [|exact E2]. apply (check_turned gdim O); auto. now apply normals_turned.
    - intros j Hj _. apply closest_same; auto.
  Qed.
End RaySearchSame.
