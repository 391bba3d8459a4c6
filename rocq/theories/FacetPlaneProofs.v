(** The plane of a straight facet: its normal, its points, and feet of perpendiculars. *)
From Coq Require Import List Arith ZArith Lia Bool Reals Lra.
Import ListNotations.
From Verif Require Import Prelude PreludeLemmas RSum RealLemmas ElasticityProps RayModel KernelModel DistanceModel GapModel GapSpec DistanceProofs FrameProofs MeshFrameProofs.
Local Open Scope R_scope.

(** The reference triangle or tetrahedron: facet [f] has all vertices but vertex [f], and the
    outward normal of facet 0 has equal entries, that of facet [f + 1] points along - e_f. *)
Record reference_simplex (m : mesh_data) : Prop := {
  rx_closure : forall f, (f <= m_tdim m)%nat -> m_closure m f = filter (fun j => negb (j =? f)%nat) (seq 0 (S (m_tdim m)));
  rx_first : 0 < m_ref_normal m 0 0%nat /\ forall k, (k < m_tdim m)%nat -> m_ref_normal m 0 k = m_ref_normal m 0 0%nat;
  rx_other : forall f, (f < m_tdim m)%nat -> m_ref_normal m (S f) f < 0 /\ forall k, (k < m_tdim m)%nat -> k <> f -> m_ref_normal m (S f) k = 0 }.

(** Points inside a facet, off its boundary. *)
Definition inside_hull (points : list (list R)) (y : list R) : Prop :=
  exists w : nat -> R, (forall l, (l < length points)%nat -> 0 < w l) /\ rsum (length points) w = 1 /\
    forall k, (k < 3)%nat -> nth k y 0 = rsum (length points) (fun l => w l * nth k (nth l points []) 0).

Section Plane.
  Context (m : mesh_data) (LS : linear_simplices m) (V : volume_mesh m) (RS : reference_simplex m).
  Notation dim := (m_gdim m).
  Notation product u v := (rsum dim (fun k => u k * v k)).

  Lemma facet_point c f l k : (l < length (m_closure m f))%nat -> (k < 3)%nat -> nth k (nth l (facet_points m c f) []) 0 = node m c (nth l (m_closure m f) 0%nat) k.
  Proof using.
    intros Hl Hk. unfold facet_points. rewrite (nth_map_lt _ _ l [] 0%nat) by auto. rewrite (nth_map_lt _ _ k 0 0%nat) by (now rewrite seq_length). now rewrite seq_nth.
  Qed.

  (** Directions in the facet's plane are the combinations of its vertices with weights of sum zero. *)
  Lemma combination_tangent c f X (d : nat -> R) : (f <= dim)%nat -> rsum (length (m_closure m f)) d = 0 ->
    exists t, rsum dim (fun k => m_ref_normal m f k * t k) = 0 /\
      forall k, (k < dim)%nat -> rsum dim (fun j => geometry_jacobian m c X k j * t j) = rsum (length (m_closure m f)) (fun l => d l * node m c (nth l (m_closure m f) 0%nat) k).
  Proof using LS V RS.
    intros Hf Hd. pose proof (vm_volume _ V) as ET. pose (t := fun j => rsum (length (m_closure m f)) (fun l => if (nth l (m_closure m f) 0 =? S j)%nat then d l else 0)). exists t.
    assert (EJ : forall k, rsum dim (fun j => geometry_jacobian m c X k j * t j) = rsum dim (fun j => (node m c (S j) k - node m c 0 k) * t j)).
    { intros k. apply rsum_ext. intros j Hj. now rewrite (linear_jacobian m LS) by lia. }
    assert (EN : rsum dim (fun k => m_ref_normal m f k * t k) = 0 /\ forall k, rsum dim (fun j => (node m c (S j) k - node m c 0 k) * t j) = rsum (length (m_closure m f)) (fun l => d l * node m c (nth l (m_closure m f) 0%nat) k)).
    { unfold t. destruct (rx_first _ RS) as [_ F]. pose proof (rx_other _ RS) as G. rewrite (rx_closure _ RS f ltac:(lia)) in *. clear t EJ. rewrite ET in *.
      destruct (vm_dim _ V) as [E|E]; rewrite E in *.
      - destruct f as [|[|[|f]]]; [| | |lia]; cbn [seq filter Nat.eqb negb length rsum nth] in *.
        + rewrite (F 1%nat) by lia. split; [|intros k]; nra.
        + destruct (G 0%nat ltac:(lia)) as [_ G0]. rewrite (G0 1%nat) by lia. split; [|intros k]; [|replace (d 0%nat) with (- d 1%nat) by lra]; ring.
        + destruct (G 1%nat ltac:(lia)) as [_ G0]. rewrite (G0 0%nat) by lia. split; [|intros k]; [|replace (d 0%nat) with (- d 1%nat) by lra]; ring.
      - destruct f as [|[|[|[|f]]]]; [| | | |lia]; cbn [seq filter Nat.eqb negb length rsum nth] in *.
        + rewrite (F 1%nat), (F 2%nat) by lia. replace (d 0%nat) with (- d 1%nat - d 2%nat) by lra. split; [|intros k]; ring.
        + destruct (G 0%nat ltac:(lia)) as [_ G0]. rewrite (G0 1%nat), (G0 2%nat) by lia. replace (d 0%nat) with (- d 1%nat - d 2%nat) by lra. split; [|intros k]; ring.
        + destruct (G 1%nat ltac:(lia)) as [_ G0]. rewrite (G0 0%nat), (G0 2%nat) by lia. replace (d 0%nat) with (- d 1%nat - d 2%nat) by lra. split; [|intros k]; ring.
        + destruct (G 2%nat ltac:(lia)) as [_ G0]. rewrite (G0 0%nat), (G0 1%nat) by lia. replace (d 0%nat) with (- d 1%nat - d 2%nat) by lra. split; [|intros k]; ring. }
    split; [apply EN|]. intros k Hk. rewrite EJ. apply EN.
  Qed.
  Lemma tangent_combination c f X t : (f <= dim)%nat -> rsum dim (fun k => m_ref_normal m f k * t k) = 0 ->
    exists d, rsum (length (m_closure m f)) d = 0 /\
      forall k, (k < dim)%nat -> rsum dim (fun j => geometry_jacobian m c X k j * t j) = rsum (length (m_closure m f)) (fun l => d l * node m c (nth l (m_closure m f) 0%nat) k).
  Proof using LS V RS.
    intros Hf Ht. pose proof (vm_volume _ V) as ET. exists (fun l => match nth l (m_closure m f) 0%nat with O => - rsum dim t | S j => t j end).
    assert (EJ : forall k, rsum dim (fun j => geometry_jacobian m c X k j * t j) = rsum dim (fun j => (node m c (S j) k - node m c 0 k) * t j)).
    { intros k. apply rsum_ext. intros j Hj. now rewrite (linear_jacobian m LS) by lia. }
    assert (EN : rsum (length (m_closure m f)) (fun l => match nth l (m_closure m f) 0%nat with O => - rsum dim t | S j => t j end) = 0 /\
      forall k, rsum dim (fun j => (node m c (S j) k - node m c 0 k) * t j) = rsum (length (m_closure m f)) (fun l => match nth l (m_closure m f) 0%nat with O => - rsum dim t | S j => t j end * node m c (nth l (m_closure m f) 0%nat) k)).
    { destruct (rx_first _ RS) as [F0 F]. pose proof (rx_other _ RS) as G. rewrite (rx_closure _ RS f ltac:(lia)) in *. clear EJ. rewrite ET in *.
      destruct (vm_dim _ V) as [E|E]; rewrite E in *.
      - destruct f as [|[|[|f]]]; [| | |lia]; cbn [seq filter Nat.eqb negb length rsum nth] in *.
        + rewrite (F 1%nat) in Ht by lia. assert (T : t 0%nat = - t 1%nat) by (apply (Rmult_eq_reg_l (m_ref_normal m 0 0%nat)); lra). rewrite T. split; [|intros k]; ring.
        + destruct (G 0%nat ltac:(lia)) as [G1 G0]. rewrite (G0 1%nat) in Ht by lia. assert (T : t 0%nat = 0) by (apply (Rmult_eq_reg_l (m_ref_normal m 1 0%nat)); lra). rewrite T. split; [|intros k]; ring.
        + destruct (G 1%nat ltac:(lia)) as [G1 G0]. rewrite (G0 0%nat) in Ht by lia. assert (T : t 1%nat = 0) by (apply (Rmult_eq_reg_l (m_ref_normal m 2 1%nat)); lra). rewrite T. split; [|intros k]; ring.
      - destruct f as [|[|[|[|f]]]]; [| | | |lia]; cbn [seq filter Nat.eqb negb length rsum nth] in *.
        + rewrite (F 1%nat), (F 2%nat) in Ht by lia. assert (T : t 0%nat = - t 1%nat - t 2%nat) by (apply (Rmult_eq_reg_l (m_ref_normal m 0 0%nat)); lra). rewrite T. split; [|intros k]; ring.
        + destruct (G 0%nat ltac:(lia)) as [G1 G0]. rewrite (G0 1%nat), (G0 2%nat) in Ht by lia. assert (T : t 0%nat = 0) by (apply (Rmult_eq_reg_l (m_ref_normal m 1 0%nat)); lra). rewrite T. split; [|intros k]; ring.
        + destruct (G 1%nat ltac:(lia)) as [G1 G0]. rewrite (G0 0%nat), (G0 2%nat) in Ht by lia. assert (T : t 1%nat = 0) by (apply (Rmult_eq_reg_l (m_ref_normal m 2 1%nat)); lra). rewrite T. split; [|intros k]; ring.
        + destruct (G 2%nat ltac:(lia)) as [G1 G0]. rewrite (G0 0%nat), (G0 1%nat) in Ht by lia. assert (T : t 2%nat = 0) by (apply (Rmult_eq_reg_l (m_ref_normal m 3 2%nat)); lra). rewrite T. split; [|intros k]; ring. }
    split; [apply EN|]. intros k Hk. rewrite EJ. apply EN.
  Qed.

  Lemma small_step N (w d : nat -> R) : (forall l, (l < N)%nat -> 0 < w l) -> exists e, 0 < e <= 1 /\ forall l, (l < N)%nat -> 0 <= w l - e * d l.
  Proof using.
    induction N as [|N IH]; intros H; [exists 1; split; [lra|intros; lia]|]. destruct IH as (e & He & Hl); [intros; apply H; lia|]. pose proof (H N ltac:(lia)) as HN.
    destruct (Rle_dec (d N) 0) as [D|D].
    - exists e. split; [exact He|]. intros l Hl'. destruct (Nat.eq_dec l N) as [-> |]; [nra|apply Hl; lia].
    - exists (Rmin e (w N / d N)). assert (P : 0 < w N / d N) by (apply Rdiv_lt_0_compat; lra). split; [split; [apply Rmin_pos; lra|]; apply Rle_trans with e; [apply Rmin_l|lra]|].
      intros l Hl'. destruct (Nat.eq_dec l N) as [-> |].
      + assert (Rmin e (w N / d N) * d N <= w N / d N * d N) by (apply Rmult_le_compat_r; [lra|apply Rmin_r]). replace (w N / d N * d N) with (w N) in H0 by (field; lra). lra.
      + specialize (Hl l ltac:(lia)). pose proof (Rmin_l e (w N / d N)) as ML. pose proof (Rmin_pos e (w N / d N) ltac:(lra) P) as MP. pose proof (H l ltac:(lia)) as W. destruct (Rle_dec (d l) 0); [nra|]. assert (Rmin e (w N / d N) * d l <= e * d l) by (apply Rmult_le_compat_r; lra). lra.
  Qed.
  Context (c f : nat) (X : list R) (n : nat -> R) (Hf : (f <= dim)%nat) (Hn : outward_unit_normal m (geometry_jacobian m c X) (m_ref_normal m f) n) (NS : nonsingular m (geometry_jacobian m c X)).
  Let len := length (m_closure m f).
  Lemma dim_3 : (dim <= 3)%nat.
  Proof using V. destruct (vm_dim _ V) as [E|E]; clear - E; lia. Qed.
  Lemma hull_value w y : (forall k, (k < 3)%nat -> nth k y 0 = rsum len (fun l => w l * nth k (nth l (facet_points m c f) []) 0)) ->
    forall k, (k < dim)%nat -> nth k y 0 = rsum len (fun l => w l * node m c (nth l (m_closure m f) 0%nat) k).
  Proof using V. intros H k Hk. assert (K : (k < 3)%nat) by (eapply Nat.lt_le_trans; [exact Hk|exact dim_3]). rewrite H by exact K. apply rsum_ext. intros l Hl. now rewrite facet_point. Qed.
  Lemma points_length : length (facet_points m c f) = len.
  Proof using. unfold facet_points. now rewrite map_length. Qed.

  (** All points of the facet have the same height along the normal. *)
  Lemma facet_height y z : in_hull (facet_points m c f) y -> in_hull (facet_points m c f) z -> product n (fun k => nth k y 0) = product n (fun k => nth k z 0).
  Proof using LS V RS Hf Hn.
    intros (w & _ & Sw & Ew) (w' & _ & Sw' & Ew'). rewrite points_length in *. pose proof (hull_value w y Ew) as Hy. pose proof (hull_value w' z Ew') as Hz.
    destruct (combination_tangent c f X (fun l => w l - w' l) Hf) as (t & Ht & Et); [fold len; rewrite rsum_minus; lra|]. destruct Hn as (_ & Ho & _). specialize (Ho t). rewrite (vm_volume _ V) in Ho. specialize (Ho Ht).
    rewrite (rsum_ext dim _ (fun k => n k * nth k y 0 - n k * nth k z 0)) in Ho; [rewrite rsum_minus in Ho; lra|].
    intros k Hk. rewrite Et by auto. rewrite Hy, Hz by auto. fold len. rewrite (rsum_ext len (fun l => (w l - w' l) * _) (fun l => w l * node m c (nth l (m_closure m f) 0%nat) k - w' l * node m c (nth l (m_closure m f) 0%nat) k)) by (intros; ring). rewrite rsum_minus. ring.
  Qed.

  Lemma reached_vector (v : nat -> R) : exists t, forall k, (k < dim)%nat -> rsum dim (fun j => geometry_jacobian m c X k j * t j) = v k.
  Proof using V NS.
    pose proof (square_inverse m V c X NS) as T. exists (fun j => rsum dim (fun b => jacobian_inverse dim (m_tdim m) (cell_jacobian m X (cell_coordinates m c)) j b * v b)). intros k Hk.
    rewrite (rsum_ext dim _ (fun j => rsum dim (fun b => geometry_jacobian m c X k j * jacobian_inverse dim (m_tdim m) (cell_jacobian m X (cell_coordinates m c)) j b * v b))) by (intros; rewrite <- rsum_scal; apply rsum_ext; intros; ring).
    rewrite rsum_swap. rewrite (rsum_ext dim _ (fun b => delta k b * v b)).
    - rewrite (rsum_single dim k); [unfold delta; rewrite Nat.eqb_refl; ring|exact Hk|]. intros b Hb Hne. unfold delta. destruct (Nat.eqb_spec k b); [congruence|ring].
    - intros b Hb. destruct (T k b Hk Hb) as [_ T2]. rewrite <- T2. rewrite <- rsum_scal_r. reflexivity.
  Qed.

  (** Where a point inside the facet is nearest to [x], the vector to it is normal to the facet. *)
  Lemma nearest_inside (x : nat -> R) y : inside_hull (facet_points m c f) y ->
    (forall z, in_hull (facet_points m c f) z -> rsum dim (fun k => (nth k y 0 - x k) * (nth k y 0 - x k)) <= rsum dim (fun k => (nth k z 0 - x k) * (nth k z 0 - x k))) ->
    forall k, (k < dim)%nat -> nth k y 0 - x k = product n (fun k => nth k y 0 - x k) * n k.
  Proof using LS V RS Hf Hn NS.
    intros (w & Pw & Sw & Ew) Hmin. rewrite points_length in *. pose proof (hull_value w y Ew) as Hy. set (g := fun k => nth k y 0 - x k) in *. set (a := product n g) in *. set (v := fun k => g k - a * n k).
    destruct (reached_vector v) as (t & Et). destruct Hn as (N1 & N2 & N3). rewrite (vm_volume _ V) in N2, N3.
    assert (Ov : product n v = 0).
    { unfold v. rewrite (rsum_ext dim _ (fun k => n k * g k - a * (n k * n k))) by (intros; ring). rewrite rsum_minus, rsum_scal, N1. fold a. ring. }
    assert (P : forall s, rsum dim (fun i => n i * rsum dim (fun k => geometry_jacobian m c X i k * (s * t k))) = 0).
    { intros s. rewrite (rsum_ext dim _ (fun i => s * (n i * v i))); [rewrite rsum_scal, Ov; ring|]. intros i Hi. rewrite <- (Et i Hi). rewrite (rsum_ext dim (fun k => _ * (s * t k)) (fun k => s * (geometry_jacobian m c X i k * t k))) by (intros; ring). rewrite rsum_scal. ring. }
    assert (Rt : rsum dim (fun k => m_ref_normal m f k * t k) = 0).
    { destruct (Rtotal_order (rsum dim (fun k => m_ref_normal m f k * t k)) 0) as [L|[E|G]]; [|exact E|].
      - specialize (N3 (fun k => -1 * t k)). cbv beta in N3. rewrite (P (-1)) in N3. rewrite (rsum_ext dim (fun k => _ * (-1 * t k)) (fun k => -1 * (m_ref_normal m f k * t k))) in N3 by (intros; ring). rewrite rsum_scal in N3. specialize (N3 ltac:(lra)). lra.
      - specialize (N3 (fun k => 1 * t k)). cbv beta in N3. rewrite (P 1) in N3. rewrite (rsum_ext dim (fun k => _ * (1 * t k)) (fun k => 1 * (m_ref_normal m f k * t k))) in N3 by (intros; ring). rewrite rsum_scal in N3. specialize (N3 ltac:(lra)). lra. }
    destruct (tangent_combination c f X t Hf Rt) as (d & Sd & Ed). fold len in Sd, Ed. destruct (small_step len w d Pw) as (e & He & Hwe).
    set (z := map (fun k => rsum len (fun l => (w l - e * d l) * nth k (nth l (facet_points m c f) []) 0)) (seq 0 3)).
    assert (Hz : in_hull (facet_points m c f) z).
    { exists (fun l => w l - e * d l). rewrite points_length. split; [exact Hwe|]. split; [rewrite rsum_minus, rsum_scal, Sw, Sd; ring|]. intros k Hk. unfold z. rewrite (nth_map_lt _ _ k 0 0%nat) by (now rewrite seq_length). now rewrite seq_nth. }
    assert (Ez : forall k, (k < dim)%nat -> nth k z 0 - x k = g k - e * v k).
    { intros k Hk. unfold g. rewrite Hy by auto. rewrite (hull_value (fun l => w l - e * d l) z) by (auto; intros j Hj; unfold z; rewrite (nth_map_lt _ _ j 0 0%nat) by (now rewrite seq_length); now rewrite seq_nth).
      rewrite <- (Et k Hk), (Ed k Hk). rewrite (rsum_ext len (fun l => (w l - e * d l) * _) (fun l => w l * node m c (nth l (m_closure m f) 0%nat) k - e * (d l * node m c (nth l (m_closure m f) 0%nat) k))) by (intros; ring). rewrite rsum_minus, rsum_scal. ring. }
    specialize (Hmin z Hz). rewrite (rsum_ext dim (fun k => (nth k z 0 - x k) * (nth k z 0 - x k)) (fun k => (g k - e * v k) * (g k - e * v k))) in Hmin by (intros k Hk; now rewrite Ez).
    assert (Gv : product g v = product v v).
    { rewrite (rsum_ext dim (fun k => g k * v k) (fun k => v k * v k + a * (n k * v k))) by (intros; unfold v; ring). rewrite rsum_plus, rsum_scal, Ov. ring. }
    rewrite (rsum_ext dim (fun k => (g k - e * v k) * (g k - e * v k)) (fun k => g k * g k - (2 * e) * (g k * v k) + e * e * (v k * v k))) in Hmin by (intros; ring). rewrite rsum_plus, rsum_minus, !rsum_scal, Gv in Hmin. change (fun k => (nth k y 0 - x k) * (nth k y 0 - x k)) with (fun k => g k * g k) in Hmin.
    assert (Vz : product v v = 0).
    { assert (S0 : 0 <= product v v) by (apply rsum_nonneg; intros; nra). set (S := product v v) in *. assert (Pe : 0 < e * (2 - e)) by (apply Rmult_lt_0_compat; lra).
      assert (Q : e * (2 - e) * S <= 0) by lra. destruct (Rle_lt_or_eq_dec 0 S S0) as [L|L]; [|now symmetry]. pose proof (Rmult_lt_0_compat _ _ Pe L). lra. }
    intros k Hk. assert (E0 : v k * v k = 0) by (apply (rsum_nonneg_zero dim (fun k => v k * v k)); auto; intros; nra). unfold v in E0. apply Rsqr_0_uniq in E0. change (g k = a * n k). lra.
  Qed.
End Plane.
