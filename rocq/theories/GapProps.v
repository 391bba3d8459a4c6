(** C74-C77: gaps, pull-back, contact normals and the closest-point search. *)
From Coq Require Import List Arith ZArith Lia Bool Reals Lra.
Import ListNotations.
From Verif Require Import Prelude PreludeLemmas RSum CropModel CropProps SubMeshModel SubMeshProofs EntitiesModel RayModel KernelModel KernelSpec ElasticityProps DistanceModel GapModel GapSpec DistanceProofs.
Local Open Scope R_scope.

(** A (cell, local facet) pair of the mesh as a pair of the submesh. *)
Definition sub_pair (cmap : adj nat) (p : nat * nat) : nat * nat := (hd 0%nat (links cmap (fst p)), snd p).

Lemma quadrature_tuples_flat cmap p Q : cp_quadrature p = flat2 Q -> quadrature_tuples cmap p = flat2 (map (sub_pair cmap) (firstn (cp_local p) Q)).
Proof. intros E. unfold quadrature_tuples. rewrite E, firstn_flat2. apply get_submesh_tuples_flat. Qed.
Lemma q_phys_entry cmap point offsets m p Q buf : cp_quadrature p = flat2 Q ->
  let nq := num_q offsets in
  forall i q k, (i < length Q)%nat -> (q < nq)%nat -> (k < m_gdim m)%nat ->
    nth ((i * nq + q) * m_gdim m + k)%nat (create_q_phys cmap point offsets m p buf) 0 =
    geometry_map m (fst (sub_pair cmap (nth i Q (0, 0)%nat))) (point (offsets (snd (nth i Q (0, 0)%nat)) + q)%nat) k.
Proof.
  intros E nq i q k Hi Hq Hk. unfold create_q_phys. rewrite E, get_submesh_tuples_flat, flat2_half, map_length.
  change (map (fun p0 => (hd 0%nat (links cmap (fst p0)), snd p0)) Q) with (map (sub_pair cmap) Q).
  set (n := (num_q offsets * length Q * m_gdim m)%nat). set (b := firstn n buf ++ repeat 0 (n - length buf)).
  assert (Lb : length b = (length (map (sub_pair cmap) Q) * (offsets 1 - offsets 0) * m_gdim m)%nat).
  { unfold b. rewrite app_length, firstn_length, repeat_length, map_length. unfold n, num_q. lia. }
  destruct (physical_points m point offsets (map (sub_pair cmap) Q) b Lb) as [_ P]. unfold nq, num_q in *. rewrite P by (rewrite ?map_length; auto).
  rewrite (nth_map_lt _ Q i (0, 0)%nat (0, 0)%nat) by auto. reflexivity.
Qed.

Lemma pack_gap_length m nq nf map ref qp : length (pack_gap m nq nf map ref qp) = (nf * nq * m_gdim m)%nat.
Proof.
  unfold pack_gap. rewrite loop_length; [apply repeat_length|]. intros. apply loop_length. intros. cbv zeta.
  destruct (_ <? 0)%Z; auto. apply loop_length. intros. apply upd_length.
Qed.
Lemma pack_gap_entry m nq nf map ref qp i q k : (i < nf)%nat -> (q < nq)%nat -> (k < m_gdim m)%nat ->
  nth ((i * nq + q) * m_gdim m + k)%nat (pack_gap m nq nf map ref qp) 0 =
  if (nth q (links map i) 0 <? 0)%Z then 0
  else geometry_map m (hd 0%nat (m_f_to_c m (Z.to_nat (nth q (links map i) 0%Z)))) (contact_point m ref (i * nq + q)) k - nth ((i * nq + q) * m_gdim m + k)%nat qp 0.
Proof.
  intros Hi Hq Hk. unfold pack_gap.
  destruct (sets_points 0 nq (m_gdim m) (fun i q k => i * (nq * m_gdim m) + q * m_gdim m + k)%nat (fun i q => negb (nth q (links map i) 0 <? 0)%Z)
    (fun i q k => push_forward_point m (m_phi m (contact_point m ref (i * nq + q))) (cell_coordinates m (hd 0%nat (m_f_to_c m (Z.to_nat (nth q (links map i) 0%Z))))) k
      - nth ((i * nq + q) * m_gdim m + k)%nat qp 0) nf i q k (repeat 0 (nf * nq * m_gdim m)) ltac:(intros; cbv beta; ring) Hi Hq Hk) as [_ E].
  cbv beta in E. replace (i * (nq * m_gdim m) + q * m_gdim m + k)%nat with ((i * nq + q) * m_gdim m + k)%nat in E by ring.
  specialize (E ltac:(rewrite repeat_length; apply points_lt; auto)).
  rewrite (for_loop_ext nf _ (fun i a => for_loop nq (fun q a => if negb (nth q (links map i) 0 <? 0)%Z then for_loop (m_gdim m) (fun k a => upd a (i * (nq * m_gdim m) + q * m_gdim m + k)%nat
    (push_forward_point m (m_phi m (contact_point m ref (i * nq + q))) (cell_coordinates m (hd 0%nat (m_f_to_c m (Z.to_nat (nth q (links map i) 0%Z))))) k
      - nth ((i * nq + q) * m_gdim m + k)%nat qp 0)) a else a) a)).
  2:{ intros j s Hj. apply for_loop_ext. intros q' s' Hq'. cbv zeta. now destruct (nth q' (links map j) 0 <? 0)%Z. }
  rewrite E. destruct (nth q (links map i) 0 <? 0)%Z; cbn [negb]; [now rewrite nth_repeat_0|]. now rewrite push_forward_map.
Qed.

(** ** C74: the packed gap runs from the quadrature point to the point found *)
(** The quadrature points are the images of the rule's points under the maps of
    the cells, whatever the buffer held before. *)
Theorem C74_quadrature_points :
  forall (cmap : adj nat) (point : nat -> list R) (offsets : nat -> nat) (m : mesh_data) (p : contact_pair) (Q : list (nat * nat)) (buf : list R),
    cp_quadrature p = flat2 Q ->
    let nq := num_q offsets in
    forall i q k, (i < length Q)%nat -> (q < nq)%nat -> (k < m_gdim m)%nat ->
      nth ((i * nq + q) * m_gdim m + k)%nat (create_q_phys cmap point offsets m p buf) 0 =
      geometry_map m (fst (sub_pair cmap (nth i Q (0, 0)%nat))) (point (offsets (snd (nth i Q (0, 0)%nat)) + q)%nat) k.
Proof. intros. now apply q_phys_entry. Qed.
Print Assumptions C74_quadrature_points.

Theorem C74_gap :
  forall (cmap : adj nat) (point : nat -> list R) (offsets : nat -> nat) (search : mesh_data -> list nat -> list nat -> option (adj Z * list R))
    (m : mesh_data) (p : contact_pair) (old d : detection) (Q : list (nat * nat)),
    cp_quadrature p = flat2 Q -> (cp_local p <= length Q)%nat ->
    create_distance_map cmap point offsets search m p old = Some d ->
    let nq := num_q offsets in
    let gap := contact_gap offsets m p d in
    length gap = (cp_local p * nq * m_gdim m)%nat /\
    forall i q k, (i < cp_local p)%nat -> (q < nq)%nat -> (k < m_gdim m)%nat ->
      let x := geometry_map m (fst (sub_pair cmap (nth i Q (0, 0)%nat))) (point (offsets (snd (nth i Q (0, 0)%nat)) + q)%nat) in
      let facet := nth q (links (det_map d) i) 0%Z in
      ((facet < 0)%Z -> nth ((i * nq + q) * m_gdim m + k)%nat gap 0 = 0) /\
      ((0 <= facet)%Z -> x k + nth ((i * nq + q) * m_gdim m + k)%nat gap 0 =
         geometry_map m (hd 0%nat (m_f_to_c m (Z.to_nat facet))) (slice (det_ref d) ((i * nq + q) * m_tdim m) (m_tdim m)) k).
Proof.
  intros cmap point offsets search m p old d Q EQ HQ Hd nq gap.
  assert (Eqp : det_qp d = create_q_phys cmap point offsets m p (det_qp old)).
  { unfold create_distance_map in Hd. destruct (search m _ _) as [[map ref]|]; [|discriminate]. injection Hd as <-. reflexivity. }
  split; [apply pack_gap_length|]. intros i q k Hi Hq Hk x facet.
  pose proof (pack_gap_entry m nq (cp_local p) (det_map d) (det_ref d) (det_qp d) i q k Hi Hq Hk) as E. fold facet in E.
  change (pack_gap m nq (cp_local p) (det_map d) (det_ref d) (det_qp d)) with gap in E. rewrite E. split; intros Hf.
  - destruct (Z.ltb_spec facet 0); [reflexivity|lia].
  - destruct (Z.ltb_spec facet 0); [lia|]. rewrite Eqp. unfold nq at 2. rewrite (q_phys_entry cmap point offsets m p Q (det_qp old) EQ) by (auto; lia).
    fold x. unfold contact_point. ring.
Qed.
Print Assumptions C74_gap.

(** Gap to a plane: the last component, from the point to height [g]. *)
Theorem C74_gap_plane :
  forall (gdim nq nf : nat) (g : R) (qp : list R), (0 < gdim)%nat ->
    forall i q k, (i < nf)%nat -> (q < nq)%nat -> (k < gdim)%nat ->
      nth ((i * nq + q) * gdim + k)%nat (pack_gap_plane gdim nq nf g qp) 0 = if (S k =? gdim)%nat then g - nth ((i * nq + q) * gdim + k)%nat qp 0 else 0.
Proof.
  intros gdim nq nf g qp Hg i q k Hi Hq Hk. unfold pack_gap_plane.
  assert (P : forall i q, (i * (nq * gdim) + (q + 1) * gdim - 1 = (i * nq + q) * gdim + (gdim - 1))%nat) by (intros; nia).
  match goal with |- nth ?pos (for_loop _ ?body ?a) _ = _ => destruct (sets_loop 0 pos nf i body a (if (S k =? gdim)%nat then Some (g - nth pos qp 0) else None)) as [_ E] end; auto.
  - intros i' s Hi' N. apply sets_none. intros q' s' Hq'. rewrite P. apply sets_upd_other. intros E. apply row_inj in E; [|lia|lia]. destruct E as [E _]. apply row_inj in E; auto. lia.
  - intros s. apply (sets_loop 0 _ nq q); auto.
    + intros q' s' Hq' N. rewrite P. apply sets_upd_other. intros E. apply row_inj in E; [|lia|lia]. destruct E as [E _]. apply row_inj in E; auto. lia.
    + intros s'. rewrite P. destruct (Nat.eqb_spec (S k) gdim) as [<-|N].
      * replace (S k - 1)%nat with k by lia. apply sets_upd.
      * apply sets_upd_other. lia.
  - rewrite E by (rewrite repeat_length; apply points_lt; auto). destruct (S k =? gdim)%nat; auto. now rewrite nth_repeat_0.
Qed.
Print Assumptions C74_gap_plane.

(** A gap to the plane y = 2 from the points (0, 1) and (1, 5). *)
Example C74_gap_plane_example : pack_gap_plane 2 2 1 2 [0; 1; 1; 5] = [0; 2 - 1; 0; 2 - 5].
Proof. reflexivity. Qed.
(** A search that finds facet 0 (cell 0) for the first point and nothing for the
    second, on one triangle. *)
Definition gap_triangle : mesh_data :=
  {| m_gdim := 2; m_tdim := 2; m_nodes := 3; m_affine := true; m_x := [0; 0; 0; 1; 0; 0; 0; 1; 0]; m_x_dofmap := fun _ => [0; 1; 2]%nat;
     m_phi := fun X j => match j with O => 1 - nth 0 X 0 - nth 1 X 0 | S j => nth j X 0 end;
     m_dphi := fun _ d j => match j with O => - 1 | S j => if (j =? d)%nat then 1 else 0 end;
     m_determinant := det 2; m_cmap_pull_back := fun _ _ => []; m_ref_normal := fun _ _ => 0; m_f_to_c := fun _ => [0%nat]; m_c_to_f := fun _ => [0; 1; 2]%nat; m_closure := fun _ => [0; 1]%nat |}.
Example C74_gap_nonvacuous :
  let search := fun (_ : mesh_data) (_ _ : list nat) => Some (mkAdj [0; -1]%Z [0; 2]%nat, [1/2; 1/2; 7; 7]) in
  exists d, create_distance_map (mkAdj [0%nat] [0; 1]%nat) (fun p => [INR p; 0]) (fun f => (2 * f)%nat) search gap_triangle (mkContactPair [0; 0]%nat [0; 0]%nat 1) (mkDetection (mkAdj [] []) [] [9]) = Some d /\
    nth 0 (contact_gap (fun f => (2 * f)%nat) gap_triangle (mkContactPair [0; 0]%nat [0; 0]%nat 1) d) 0 = 1/2 /\
    nth 2 (contact_gap (fun f => (2 * f)%nat) gap_triangle (mkContactPair [0; 0]%nat [0; 0]%nat 1) d) 0 = 0.
Proof.
  intros search. eexists. split; [reflexivity|]. split; [|reflexivity].
  destruct (C74_gap (mkAdj [0%nat] [0; 1]%nat) (fun p => [INR p; 0]) (fun f => (2 * f)%nat) search gap_triangle (mkContactPair [0; 0]%nat [0; 0]%nat 1) (mkDetection (mkAdj [] []) [] [9])
    _ [(0, 0)]%nat eq_refl (le_n 1) eq_refl) as [_ G].
  destruct (G 0%nat 0%nat 0%nat ltac:(cbn; lia) ltac:(cbn; lia) ltac:(cbn; lia)) as [_ G0]. specialize (G0 ltac:(cbn; lia)). clear G.
  cbn [Nat.mul Nat.add num_q Nat.sub] in G0.
  match type of G0 with ?a + ?b = ?c => assert (A : a = 0); [|assert (C : c = 1/2)] end.
  - unfold geometry_map, node. cbn. lra.
  - unfold geometry_map, node. cbn. lra.
  - rewrite A, C, Rplus_0_l in G0. exact G0.
Qed.
