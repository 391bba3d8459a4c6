(** Property C115, preparations: meshes turned and shifted, and the points, Jacobians and
    normals computed from them. *)
From Coq Require Import List Arith ZArith Lia Bool Reals Lra.
Import ListNotations.
From Verif Require Import Prelude PreludeLemmas RSum CropModel CandidatesModel CandidatesProps RealLemmas SubMeshModel SubMeshProofs EntitiesModel RayModel KernelModel KernelSpec DistanceModel GapModel GapSpec DistanceProofs GapProps
  ContactNormalProps ElasticityProps RigidBalanceProps FrameProofs RayFrameProps.
Local Open Scope R_scope.

(** ** Specification *)
(** The same mesh with its nodes turned and shifted. *)
Definition turned_geometry (O : nat -> nat -> R) (t : nat -> R) (m : mesh_data) : mesh_data :=
  {| m_gdim := m_gdim m; m_tdim := m_tdim m; m_nodes := m_nodes m; m_affine := m_affine m; m_x := turned_points (m_gdim m) O t (m_x m); m_x_dofmap := m_x_dofmap m; m_phi := m_phi m;
     m_dphi := m_dphi m; m_determinant := m_determinant m; m_cmap_pull_back := m_cmap_pull_back m; m_ref_normal := m_ref_normal m; m_f_to_c := m_f_to_c m; m_c_to_f := m_c_to_f m; m_closure := m_closure m |}.
(** A mesh of volumes whose nodes exist and whose geometry basis is a partition of unity. *)
Record volume_mesh (m : mesh_data) : Prop := {
  vm_dim : m_gdim m = 2%nat \/ m_gdim m = 3%nat;
  vm_volume : m_tdim m = m_gdim m;
  vm_nodes : forall c j, (j < m_nodes m)%nat -> (3 * nth j (m_x_dofmap m c) 0 + 2 < length (m_x m))%nat;
  vm_unity : forall X, rsum (m_nodes m) (m_phi m X) = 1;
  vm_constant : forall X d, (d < m_tdim m)%nat -> rsum (m_nodes m) (m_dphi m X d) = 0 }.

(** ** A matrix with an inverse has nonzero determinant *)
Lemma inverse_regular m J K : dimensions m -> m_tdim m = m_gdim m -> two_sided (m_gdim m) J K -> nonsingular m J.
Proof.
  unfold nonsingular. intros [[Et Eg]|[[Et Eg]|[Et Eg]]] Sq H; rewrite ?Et, ?Eg in *; cbn [Nat.eqb]; [| |discriminate].
  - intros Z. pose proof (proj1 (H 0 0 ltac:(lia) ltac:(lia)))%nat as A. pose proof (proj1 (H 0 1 ltac:(lia) ltac:(lia)))%nat as B. pose proof (proj1 (H 1 0 ltac:(lia) ltac:(lia)))%nat as C. pose proof (proj1 (H 1 1 ltac:(lia) ltac:(lia)))%nat as D.
    cbn [rsum delta Nat.eqb] in *. unfold delta in *. cbn [Nat.eqb] in *. unfold det in Z. cbn [Nat.eqb] in Z.
    assert (E : (0 + K 0%nat 0%nat * J 0%nat 0%nat + K 0%nat 1%nat * J 1%nat 0%nat) * (0 + K 1%nat 0%nat * J 0%nat 1%nat + K 1%nat 1%nat * J 1%nat 1%nat) - (0 + K 0%nat 0%nat * J 0%nat 1%nat + K 0%nat 1%nat * J 1%nat 1%nat) * (0 + K 1%nat 0%nat * J 0%nat 0%nat + K 1%nat 1%nat * J 1%nat 0%nat)
      = (K 0%nat 0%nat * K 1%nat 1%nat - K 0%nat 1%nat * K 1%nat 0%nat) * (J 0%nat 0%nat * J 1%nat 1%nat - J 0%nat 1%nat * J 1%nat 0%nat)) by ring.
    rewrite A, B, C, D, Z in E. lra.
  - intros Z. set (P := fun i j => rsum 3 (fun k => K i k * J k j)).
    assert (E : det3 P = det3 K * det3 J) by (unfold P, det3; cbn [rsum]; ring).
    assert (HP : forall i j, (i < 3)%nat -> (j < 3)%nat -> P i j = delta i j) by (intros i j Hi Hj; exact (proj1 (H i j Hi Hj))). clearbody P.
    rewrite Z in E. unfold det3 at 1 in E. rewrite !HP in E by lia. unfold delta in E. cbn [Nat.eqb] in E. lra.
Qed.

Section Mesh.
  Context (O : nat -> nat -> R) (t : nat -> R) (m : mesh_data) (V : volume_mesh m).
  Notation gdim := (m_gdim m).
  Notation tdim := (m_tdim m).
  Notation m' := (turned_geometry O t m).
  Lemma volume_dimensions : dimensions m.
  Proof using V. unfold dimensions. pose proof (vm_volume _ V). destruct (vm_dim _ V); lia. Qed.
  Lemma gdim_le : (gdim <= 3)%nat.
  Proof using V. destruct (vm_dim _ V); lia. Qed.
  Lemma node_turned c j k : (j < m_nodes m)%nat -> (k < gdim)%nat -> node m' c j k = turn gdim O (node m c j) k + t k.
  Proof using V. intros Hj Hk. unfold node. cbn [turned_geometry m_x m_x_dofmap]. apply points_value; auto using gdim_le. now apply (vm_nodes _ V). Qed.
  Lemma map_turned c X k : (k < gdim)%nat -> geometry_map m' c X k = turn gdim O (geometry_map m c X) k + t k.
  Proof using V.
    intros Hk. unfold geometry_map. cbn [turned_geometry m_nodes m_phi]. rewrite turn_sum.
    rewrite (rsum_ext (m_nodes m) _ (fun j => turn gdim O (fun k => m_phi m X j * node m c j k) k + t k * m_phi m X j)).
    - rewrite rsum_plus, rsum_scal, (vm_unity _ V). ring.
    - intros j Hj. rewrite node_turned by auto. rewrite turn_scal. ring.
  Qed.
  Lemma jacobian_turned c X i j : (i < gdim)%nat -> (j < tdim)%nat -> geometry_jacobian m' c X i j = turn gdim O (fun b => geometry_jacobian m c X b j) i.
  Proof using V.
    intros Hi Hj. unfold geometry_jacobian. cbn [turned_geometry m_nodes m_dphi]. rewrite turn_sum.
    rewrite (rsum_ext (m_nodes m) _ (fun a => turn gdim O (fun k => m_dphi m X j a * node m c a k) i + t i * m_dphi m X j a)).
    - rewrite rsum_plus, rsum_scal, (vm_constant _ V) by auto. ring.
    - intros a Ha. rewrite node_turned by auto. rewrite turn_scal. ring.
  Qed.
  Notation K c X := (jacobian_inverse gdim tdim (cell_jacobian m X (cell_coordinates m c))).
  Notation K' c X := (jacobian_inverse gdim tdim (cell_jacobian m' X (cell_coordinates m' c))).
  Lemma square_inverse c X : nonsingular m (geometry_jacobian m c X) -> two_sided gdim (geometry_jacobian m c X) (K c X).
  Proof using V.
    intros NS a b Ha Hb. pose proof volume_dimensions as D. pose proof (vm_volume _ V) as E.
    assert (EK : forall i j, (i < gdim)%nat -> (j < gdim)%nat -> K c X i j = jacobian_inverse gdim tdim (geometry_jacobian m c X) i j).
    { intros i j Hi Hj. apply (inverse_ext m); auto; [|lia]. intros. apply jacobian_map. }
    unfold delta. split.
    - rewrite <- (inverse_left m _ D NS a b) by lia. apply rsum_ext. intros k Hk. now rewrite EK.
    - rewrite <- (inverse_right m _ D (eq_sym E) NS a b) by lia. etransitivity; [|exact (f_equal (fun n => rsum n _) (eq_sym E))]. apply rsum_ext. intros k Hk. now rewrite EK.
  Qed.
  Context (HO : orthogonal gdim O).
  Lemma turned_volume : volume_mesh m'.
  Proof using V.
    constructor; cbn [turned_geometry m_gdim m_tdim m_nodes m_x m_x_dofmap m_phi m_dphi]; try apply V. intros c j Hj. unfold turned_points. rewrite map_length, seq_length. now apply V.
  Qed.
  Lemma regular_turned c X : nonsingular m (geometry_jacobian m c X) -> nonsingular m' (geometry_jacobian m' c X).
  Proof using V HO.
    intros NS. pose proof (turned_inverse gdim O HO _ _ (square_inverse c X NS)) as T. apply (inverse_regular m' _ (fun k b => turn gdim O (fun c0 => K c X k c0) b)).
    - exact volume_dimensions.
    - exact (vm_volume _ V).
    - intros a b Ha Hb. cbn [turned_geometry m_gdim] in Ha, Hb. pose proof (vm_volume _ V) as E. destruct (T a b Ha Hb) as [T1 T2]. split.
      + etransitivity; [|exact T1]. apply rsum_ext. intros k Hk. cbn [turned_geometry m_gdim] in Hk. now rewrite jacobian_turned by lia.
      + etransitivity; [|exact T2]. apply rsum_ext. intros k Hk. cbn [turned_geometry m_gdim] in Hk. now rewrite jacobian_turned by lia.
  Qed.
  Lemma inverse_turned c X : nonsingular m (geometry_jacobian m c X) -> forall k b, (k < gdim)%nat -> (b < gdim)%nat -> K' c X k b = turn gdim O (K c X k) b.
  Proof using V HO.
    intros NS k b Hk Hb. pose proof (vm_volume _ V) as E. pose proof (turned_inverse gdim O HO _ _ (square_inverse c X NS)) as T.
    apply (inverse_unique gdim (geometry_jacobian m' c X) (K' c X) (fun k b => turn gdim O (fun c0 => K c X k c0) b)); auto.
    - assert (NS' := regular_turned c X NS).
      assert (EK : forall i j, (i < gdim)%nat -> (j < gdim)%nat -> K' c X i j = jacobian_inverse gdim tdim (geometry_jacobian m' c X) i j).
      { intros i j Hi Hj. apply (inverse_ext m); auto using volume_dimensions; [|lia]. intros. apply jacobian_map. }
      intros a b' Ha Hb'. unfold delta. split.
      + rewrite <- (inverse_left m' _ volume_dimensions NS' a b') by (cbn [turned_geometry m_tdim]; lia). apply rsum_ext. intros l Hl. now rewrite EK.
      + rewrite <- (inverse_right m' _ volume_dimensions (eq_sym E) NS' a b') by (cbn [turned_geometry m_gdim]; lia). cbn [turned_geometry m_tdim m_gdim]. etransitivity; [|exact (f_equal (fun n => rsum n _) (eq_sym E))]. apply rsum_ext. intros l Hl. now rewrite EK.
    - intros a b' Ha Hb'. destruct (T a b' Ha Hb') as [T1 T2]. split.
      + etransitivity; [|exact T1]. apply rsum_ext. intros l Hl. now rewrite jacobian_turned by lia.
      + etransitivity; [|exact T2]. apply rsum_ext. intros l Hl. now rewrite jacobian_turned by lia.
  Qed.
  (** The outward normal of a facet turns with the mesh. *)
  Lemma normal_turned c X ref k : nonsingular m (geometry_jacobian m c X) -> (k < gdim)%nat ->
    physical_facet_normal tdim gdim (K' c X) ref k = turn gdim O (physical_facet_normal tdim gdim (K c X) ref) k.
  Proof using V HO.
    intros NS Hk. pose proof (vm_volume _ V) as E. unfold physical_facet_normal.
    assert (N : forall i, (i < gdim)%nat -> for_loop tdim (fun j acc => acc + K' c X j i * ref j) 0 = turn gdim O (fun i => for_loop tdim (fun j acc => acc + K c X j i * ref j) 0) i).
    { intros i Hi. rewrite for_loop_rsum, Rplus_0_l. rewrite (turn_ext gdim O _ (fun i => rsum tdim (fun j => K c X j i * ref j))) by (intros; now rewrite for_loop_rsum, Rplus_0_l).
      rewrite turn_sum. apply rsum_ext. intros j Hj. rewrite inverse_turned by (auto; lia). rewrite (turn_ext gdim O (fun b => K c X j b * ref j) (fun b => ref j * K c X j b)) by (intros; ring). rewrite turn_scal. ring. }
    rewrite (N k Hk).
    rewrite (turn_ext gdim O (fun i => _ / _) (fun i => / sqrt (for_loop gdim (fun i acc => acc + for_loop tdim (fun j acc => acc + K c X j i * ref j) 0 ^ 2) 0) * for_loop tdim (fun j acc => acc + K c X j i * ref j) 0)) by (intros; unfold Rdiv; ring).
    rewrite turn_scal. unfold Rdiv. rewrite Rmult_comm. f_equal. do 2 f_equal. rewrite !for_loop_rsum. f_equal.
    rewrite (rsum_ext gdim (fun i => for_loop tdim (fun j acc => acc + K c X j i * ref j) 0 ^ 2) (fun i => for_loop tdim (fun j acc => acc + K c X j i * ref j) 0 * for_loop tdim (fun j acc => acc + K c X j i * ref j) 0)) by (intros; ring).
    rewrite <- (contract gdim O HO (fun i => for_loop tdim (fun j acc => acc + K c X j i * ref j) 0) (fun i => for_loop tdim (fun j acc => acc + K c X j i * ref j) 0)).
    apply rsum_ext. intros i Hi. rewrite (N i Hi). ring.
  Qed.
End Mesh.
