(** C76: the normals the contact kernels receive. *)
From Coq Require Import List Arith ZArith Lia Bool Reals Lra.
Import ListNotations.
From Verif Require Import Prelude PreludeLemmas RSum SubMeshModel SubMeshProofs EntitiesModel RayModel KernelModel KernelSpec ElasticityProps DistanceModel GapModel GapSpec DistanceProofs GapProps PullBackProps.
Local Open Scope R_scope.

Lemma outward_ext m J ref n n' : (forall i, (i < m_gdim m)%nat -> n i = n' i) -> outward_unit_normal m J ref n -> outward_unit_normal m J ref n'.
Proof.
  intros E (A & B & C). repeat split.
  - rewrite <- A. apply rsum_ext. intros. now rewrite !E.
  - intros t Ht. rewrite <- (B t Ht). apply rsum_ext. intros. now rewrite E.
  - intros v Hv. specialize (C v Hv). rewrite (rsum_ext _ _ (fun i => n i * rsum (m_tdim m) (fun k => J i k * v k))); auto. intros. now rewrite E.
Qed.
(** The normal computed from the inverse of the Jacobian. *)
Lemma normal_outward m cell X ref : dimensions m -> nonsingular m (geometry_jacobian m cell X) -> nonzero m ref ->
  outward_unit_normal m (geometry_jacobian m cell X) ref
    (physical_facet_normal (m_tdim m) (m_gdim m) (jacobian_inverse (m_gdim m) (m_tdim m) (cell_jacobian m X (cell_coordinates m cell))) ref).
Proof.
  intros D NS (a & Ha & Hr). set (J := geometry_jacobian m cell X) in *.
  set (K := jacobian_inverse (m_gdim m) (m_tdim m) (cell_jacobian m X (cell_coordinates m cell))).
  assert (HK : forall i j, (i < m_tdim m)%nat -> (j < m_tdim m)%nat -> rsum (m_gdim m) (fun k => K i k * J k j) = delta i j).
  { intros i j Hi Hj. unfold delta. rewrite <- (inverse_left m J D NS i j) by auto. apply rsum_ext. intros k Hk. f_equal. apply (inverse_ext m _ J D); auto. intros. apply jacobian_map. }
  destruct (C67_physical_normal (m_tdim m) (m_gdim m) J K (fun _ _ => 0) ref a HK ltac:(intros; apply rsum_zero; intros; ring) Ha Hr) as (A & _ & C).
  repeat split; auto. intros t Ht.
  destruct (C67_physical_normal (m_tdim m) (m_gdim m) J K (fun k _ => t k) ref a HK ltac:(intros; exact Ht) Ha Hr) as (_ & B & _). apply (B 0%nat).
Qed.

(** The normal of a facet at a point: at the pulled-back reference point on curved
    cells. *)
Theorem C76_push_forward_facet_normal :
  forall (m : mesh_data) (cell facet : nat) (x : list R) (n : nat -> R), dimensions m -> nonzero m (m_ref_normal m facet) ->
    push_forward_facet_normal m (cell_coordinates m cell) x facet = Some n ->
    exists X, (if m_affine m then X = repeat 0 (m_tdim m) else pull_back_nonaffine m (1 / 10 ^ 8) 10 (cell_coordinates m cell) x = Some X) /\
      (nonsingular m (geometry_jacobian m cell X) -> outward_unit_normal m (geometry_jacobian m cell X) (m_ref_normal m facet) n).
Proof.
  intros m cell facet x n D NZ E. unfold push_forward_facet_normal in E.
  destruct (if m_affine m then Some (repeat 0 (m_tdim m)) else _) as [X|] eqn:EX; [|discriminate]. injection E as <-. exists X. split.
  - destruct (m_affine m); congruence.
  - intros NS. now apply normal_outward.
Qed.
Print Assumptions C76_push_forward_facet_normal.

Lemma pack_nx_entry m point nq Q i q k : (i < length Q)%nat -> (q < nq)%nat -> (k < m_gdim m)%nat ->
  nth ((i * nq + q) * m_gdim m + k)%nat (pack_nx m point nq (length Q) (flat2 Q)) 0 =
  physical_facet_normal (m_tdim m) (m_gdim m)
    (jacobian_inverse (m_gdim m) (m_tdim m) (cell_jacobian m (point (snd (nth i Q (0, 0)%nat) * nq + q)%nat) (cell_coordinates m (fst (nth i Q (0, 0)%nat)))))
    (m_ref_normal m (snd (nth i Q (0, 0)%nat))) k.
Proof.
  intros Hi Hq Hk. unfold pack_nx. rewrite flat2_half.
  destruct (sets_points 0 nq (m_gdim m) (fun i q k => i * (nq * m_gdim m) + q * m_gdim m + k)%nat (fun _ _ => true)
    (fun i q => physical_facet_normal (m_tdim m) (m_gdim m)
      (jacobian_inverse (m_gdim m) (m_tdim m) (cell_jacobian m (point (nth (2 * i + 1) (flat2 Q) 0 * nq + q)%nat) (cell_coordinates m (nth (2 * i) (flat2 Q) 0%nat))))
      (m_ref_normal m (nth (2 * i + 1) (flat2 Q) 0%nat))) (length Q) i q k (repeat 0 (length Q * nq * m_gdim m)) ltac:(intros; cbv beta; ring) Hi Hq Hk) as [_ E].
  cbv beta iota in E. replace (i * (nq * m_gdim m) + q * m_gdim m + k)%nat with ((i * nq + q) * m_gdim m + k)%nat in E by ring.
  specialize (E ltac:(rewrite repeat_length; apply points_lt; auto)). cbv zeta. rewrite E.
  now rewrite (flat2_fst Q i (0, 0)%nat), (flat2_snd Q i (0, 0)%nat) by auto.
Qed.
Lemma pack_nx_length m point nq Q : length (pack_nx m point nq (length Q) (flat2 Q)) = (length Q * nq * m_gdim m)%nat.
Proof. unfold pack_nx. rewrite loop_length; [apply repeat_length|]. intros. cbv zeta. apply loop_length. intros. apply loop_length. intros. apply upd_length. Qed.

Lemma pack_ny_entry m nq nf map ref i q k : (i < nf)%nat -> (q < nq)%nat -> (k < m_gdim m)%nat ->
  nth ((i * nq + q) * m_gdim m + k)%nat (pack_ny m nq nf map ref) 0 =
  let f := nth q (links map i) 0%Z in let cell := hd 0%nat (m_f_to_c m (Z.to_nat f)) in
  if (f <? 0)%Z then 0
  else physical_facet_normal (m_tdim m) (m_gdim m) (jacobian_inverse (m_gdim m) (m_tdim m) (cell_jacobian m (contact_point m ref (i * nq + q)) (cell_coordinates m cell)))
         (m_ref_normal m (find_index (Z.to_nat f) (m_c_to_f m cell))) k.
Proof.
  intros Hi Hq Hk. unfold pack_ny.
  set (v := fun i q => let f := nth q (links map i) 0%Z in let cell := hd 0%nat (m_f_to_c m (Z.to_nat f)) in
    physical_facet_normal (m_tdim m) (m_gdim m) (jacobian_inverse (m_gdim m) (m_tdim m) (cell_jacobian m (contact_point m ref (i * nq + q)) (cell_coordinates m cell)))
         (m_ref_normal m (find_index (Z.to_nat f) (m_c_to_f m cell)))).
  destruct (sets_points 0 nq (m_gdim m) (fun i q k => i * (nq * m_gdim m) + q * m_gdim m + k)%nat (fun i q => negb (nth q (links map i) 0 <? 0)%Z)
    v nf i q k (repeat 0 (nf * nq * m_gdim m)) ltac:(intros; cbv beta; ring) Hi Hq Hk) as [_ E].
  cbv beta in E. replace (i * (nq * m_gdim m) + q * m_gdim m + k)%nat with ((i * nq + q) * m_gdim m + k)%nat in E by ring.
  specialize (E ltac:(rewrite repeat_length; apply points_lt; auto)).
  rewrite (for_loop_ext nf _ (fun i a => for_loop nq (fun q a => if negb (nth q (links map i) 0 <? 0)%Z then for_loop (m_gdim m) (fun k a => upd a (i * (nq * m_gdim m) + q * m_gdim m + k)%nat (v i q k)) a else a) a)).
  2:{ intros j s Hj. apply for_loop_ext. intros q' s' Hq'. cbv zeta. now destruct (nth q' (links map j) 0 <? 0)%Z. }
  rewrite E. cbv zeta. destruct (nth q (links map i) 0 <? 0)%Z; cbn [negb]; [now rewrite nth_repeat_0|]. reflexivity.
Qed.

(** Stored normals.  Ray tracing: minus the outward normal of the quadrature facet
    at the quadrature point.  Closest point: the outward normal of the facet found
    at the point found, zero if there is none. *)
Theorem C76_contact_normals :
  forall (cmap : adj nat) (point : nat -> list R) (offsets : nat -> nat) (m : mesh_data) (p : contact_pair) (d : detection) (Q : list (nat * nat)),
    dimensions m -> (forall f, nonzero m (m_ref_normal m f)) ->
    cp_quadrature p = flat2 Q -> (cp_local p <= length Q)%nat ->
    let nq := num_q offsets in
    (forall f, offsets f = (f * nq)%nat) ->
    forall i q, (i < cp_local p)%nat -> (q < nq)%nat ->
      let stored raytracing k := nth ((i * nq + q) * m_gdim m + k)%nat (pack_normals cmap point offsets raytracing m p d) 0 in
      let cell := fst (sub_pair cmap (nth i Q (0, 0)%nat)) in
      let f := snd (nth i Q (0, 0)%nat) in
      let X := point (offsets f + q)%nat in
      let Y := slice (det_ref d) ((i * nq + q) * m_tdim m) (m_tdim m) in
      let found := nth q (links (det_map d) i) 0%Z in
      (nonsingular m (geometry_jacobian m cell X) ->
         outward_unit_normal m (geometry_jacobian m cell X) (m_ref_normal m f) (fun k => - stored true k)) /\
      (forall c l, surface_facet m c l -> found = Z.of_nat (facet_index m c l) -> nonsingular m (geometry_jacobian m c Y) ->
         outward_unit_normal m (geometry_jacobian m c Y) (m_ref_normal m l) (stored false)) /\
      ((found < 0)%Z -> forall k, (k < m_gdim m)%nat -> stored false k = 0).
Proof.
  intros cmap point offsets m p d Q D NZ EQ HQ nq Hoff i q Hi Hq stored cell f X Y found. repeat apply conj.
  - intros NS. refine (outward_ext m _ _ _ _ _ (normal_outward m cell X (m_ref_normal m f) D NS (NZ f))). intros k Hk. unfold stored, pack_normals.
    rewrite (quadrature_tuples_flat cmap p Q EQ). set (Q' := map (sub_pair cmap) (firstn (cp_local p) Q)).
    assert (LQ : length Q' = cp_local p) by (unfold Q'; rewrite map_length, firstn_length; lia).
    assert (Ei : nth i Q' (0, 0)%nat = (cell, f)).
    { unfold Q'. rewrite (nth_map_lt _ _ i (0, 0)%nat (0, 0)%nat) by (rewrite firstn_length; lia). rewrite nth_firstn by auto. unfold cell, f, sub_pair. reflexivity. }
    replace (cp_local p) with (length Q'). fold nq.
    rewrite (nth_map_lt Ropp _ _ 0 0) by (rewrite pack_nx_length; apply points_lt; auto; lia).
    rewrite pack_nx_entry by (auto; lia). rewrite Ei. cbn [fst snd]. rewrite Ropp_involutive. unfold X. now rewrite Hoff.
  - intros c l S E NS. refine (outward_ext m _ _ _ _ _ (normal_outward m c Y (m_ref_normal m l) D NS (NZ l))). intros k Hk. unfold stored, pack_normals.
    fold nq. rewrite pack_ny_entry by auto. cbv zeta. fold found. destruct (Z.ltb_spec found 0); [lia|]. rewrite E, Nat2Z.id, (sf_owner _ _ _ S). cbn [hd].
    unfold facet_index. rewrite find_index_nodup by (apply (sf_distinct _ _ _ S) || apply (sf_local _ _ _ S)). reflexivity.
  - intros N k Hk. unfold stored, pack_normals. fold nq. rewrite pack_ny_entry by auto. cbv zeta. fold found. destruct (Z.ltb_spec found 0); [reflexivity|lia].
Qed.
Print Assumptions C76_contact_normals.
