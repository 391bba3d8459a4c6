(** Property C115: contact search is objective.  Turning (or reflecting) and shifting the
    meshes changes neither the facets found nor the reference points; gaps and normals turn
    with the meshes. *)
From Coq Require Import List Arith ZArith Lia Bool Reals Lra.
Import ListNotations.
From Verif Require Import Prelude PreludeLemmas RSum CropModel CandidatesModel CandidatesProps RealLemmas SubMeshModel SubMeshProofs EntitiesModel EntitiesProofs GeomModel GeomProps RayModel RayProps KernelModel KernelSpec DistanceModel GapModel GapSpec
  DistanceProofs GapProps PullBackProps ContactNormalProps RayMapModel RayMapProps RaySearchModel ElasticityProps RigidBalanceProps FrameProofs RayFrameProps MeshFrameProofs SearchFrameProofs.
Local Open Scope R_scope.

(** Points padded to three coordinates. *)
Lemma padded_points gdim nf nq qps : (gdim = 2 \/ gdim = 3)%nat -> length qps = (nf * nq * gdim)%nat ->
  let padded := if (gdim =? 2)%nat then
      Some (for_loop nf (fun i p => for_loop nq (fun j p => for_loop gdim (fun k p => upd p ((i * nq + j) * 3 + k)%nat (nth ((i * nq + j) * gdim + k)%nat qps 0)) p) p) (repeat 0 (nf * nq * 3)))
    else if (gdim =? 3)%nat then Some qps else None in
  exists pd, padded = Some pd /\ length pd = (3 * (nf * nq))%nat /\
    forall i q k, (i < nf)%nat -> (q < nq)%nat -> (k < 3)%nat -> nth ((i * nq + q) * 3 + k)%nat pd 0 = if (k <? gdim)%nat then nth ((i * nq + q) * gdim + k)%nat qps 0 else 0.
Proof.
  intros [-> | ->] Lq; cbn [Nat.eqb]; eexists; (split; [reflexivity|]); split.
  - rewrite loop_length; [rewrite repeat_length; lia|]. intros. apply loop_length. intros. apply loop_length. intros. apply upd_length.
  - intros i q l Hi Hq Hl.
    match goal with |- nth ?pos (for_loop _ ?body ?a) _ = _ => destruct (sets_loop 0 pos nf i body a (if (l <? 2)%nat then Some (nth ((i * nq + q) * 2 + l)%nat qps 0) else None)) as [_ E] end; auto.
    + intros i' s Hi' N. apply sets_none. intros q' s' Hq'. apply sets_none. intros k' s'' Hk'. apply sets_upd_other. intros E. apply row_inj in E; [|lia|lia]. destruct E as [E _]. apply row_inj in E; auto. lia.
    + intros s. apply (sets_loop 0 _ nq q); auto.
      * intros q' s' Hq' N. apply sets_none. intros k' s'' Hk'. apply sets_upd_other. intros E. apply row_inj in E; [|lia|lia]. destruct E as [E _]. apply row_inj in E; auto. lia.
      * intros s'. destruct (Nat.ltb_spec l 2) as [L|L].
        -- apply (sets_loop 0 _ 2 l); auto; [|intros; apply sets_upd]. intros k' s'' Hk' N. apply sets_upd_other. lia.
        -- apply sets_none. intros k' s'' Hk'. apply sets_upd_other. lia.
    + rewrite E by (rewrite repeat_length; apply points_lt; auto). destruct (_ <? _)%nat; [reflexivity|]. now rewrite nth_repeat_0.
  - rewrite Lq. ring.
  - intros i q l Hi Hq Hl. destruct (Nat.ltb_spec l 3); [reflexivity|lia].
Qed.

(** Both searches give the same facets and reference points.  [closest], [closest'] are DOLFINx's searches
    for the closest of several facets in the two frames (they choose the same facet); the search for the
    nearest point of a facet is only assumed to be exact. *)
Theorem C115_distance_map :
  forall (raytracing : bool) (O : nat -> nat -> R) (t : nat -> R) (mq mc : mesh_data) (ct : cell_type) (vertex : nat -> nat -> nat -> R) (facet_jac : nat -> matrix) (vertices_q vertices_c : nat -> list nat)
    (closest closest' : list nat -> list R -> nat) (gjk : list (list R) -> list R -> list R) (point : nat -> list R) (offsets : nat -> nat) (search_radius : R) (Q C : list (nat * nat)),
    volume_mesh mq -> volume_mesh mc -> m_gdim mc = m_gdim mq -> orthogonal (m_gdim mq) O ->
    search_facets mq Q -> search_facets mc C -> (forall f, nonzero mq (m_ref_normal mq f)) ->
    (forall p, In p Q -> facet_nodes_exist (m_x mq) (vertices_q (facet_index mq (fst p) (snd p)))) -> (forall p, In p C -> facet_nodes_exist (m_x mc) (vertices_c (facet_index mc (fst p) (snd p)))) ->
    gjk_exact (length (m_closure mc 0)) gjk -> same_closest (m_gdim mq) O t closest closest' -> frame_free_pull_back O t mc ->
    mesh_distance_map raytracing (turned_geometry O t mq) (turned_geometry O t mc) ct vertex facet_jac vertices_q vertices_c closest' gjk point offsets search_radius (flat2 Q) (flat2 C) =
    mesh_distance_map raytracing mq mc ct vertex facet_jac vertices_q vertices_c closest gjk point offsets search_radius (flat2 Q) (flat2 C).
Proof.
  intros rt O t mq mc ct vertex fj vq vc closest closest' gjk point offsets sr Q C Vq Vc Eg HO SQ SC NZ HVq HVc HG HC PB. unfold mesh_distance_map.
  assert (RS := ray_search_same O t mq mc ct vertex fj vq vc closest closest' gjk point offsets sr Q C Vq Vc Eg HO SQ SC HG HC PB NZ HVq HVc).
  assert (CS : closest_point_map (turned_geometry O t mq) (turned_geometry O t mc) closest' gjk point offsets (flat2 Q) (flat2 C) = closest_point_map mq mc closest gjk point offsets (flat2 Q) (flat2 C)).
  { unfold closest_point_map. rewrite flat2_half. cbn [turned_geometry m_gdim m_tdim]. set (nq := (offsets 1 - offsets 0)%nat). set (nf := length Q).
    destruct (physical_points mq point offsets Q (repeat 0 (nf * nq * m_gdim mq)) ltac:(apply repeat_length)) as [Lq Eq]. destruct (physical_points (turned_geometry O t mq) point offsets Q (repeat 0 (nf * nq * m_gdim mq)) ltac:(apply repeat_length)) as [Lq' Eq'].
    set (qps := compute_physical_points mq point offsets (flat2 Q) _) in *. set (qps' := compute_physical_points (turned_geometry O t mq) point offsets (flat2 Q) _) in *. rewrite repeat_length in Lq, Lq'.
    destruct (padded_points (m_gdim mq) nf nq qps (vm_dim _ Vq) Lq) as (pd & E1 & L1 & P1). destruct (padded_points (m_gdim mq) nf nq qps' (vm_dim _ Vq) Lq') as (pd' & E1' & L1' & P1'). cbv zeta in E1, E1'.
    cbv zeta. rewrite E1, E1'. clear E1 E1'. destruct (_ || _)%bool; [|reflexivity].
    rewrite (projection_same O t mc Vc ltac:(now rewrite Eg) closest closest' gjk C SC HG ltac:(now rewrite Eg) PB pd pd' (nf * nq) L1 L1'); [reflexivity|].
    intros z Hz a Ha. rewrite nth_slice by auto. set (i := (z / nq)%nat). set (q := (z mod nq)%nat).
    assert (Hnq : (nq <> 0)%nat) by (intros E; rewrite E in Hz; lia). assert (Ez : z = (i * nq + q)%nat) by (unfold i, q; rewrite (Nat.div_mod z nq Hnq) at 1; ring). assert (Hq : (q < nq)%nat) by now apply Nat.mod_upper_bound.
    assert (Hi : (i < nf)%nat) by (apply Nat.div_lt_upper_bound; [exact Hnq|]; now rewrite Nat.mul_comm).
    replace (3 * z + a)%nat with ((i * nq + q) * 3 + a)%nat by lia. rewrite P1' by auto. rewrite Eg. rewrite extend_turn by (try apply (vm_dim _ Vq); exact Ha). unfold extend_shift. destruct (Nat.ltb_spec a (m_gdim mq)) as [L|L].
    - etransitivity; [exact (Eq' i q a Hi Hq L)|]. rewrite map_turned by auto. apply (f_equal (fun r => r + t a)). apply turn_ext. intros b Hb. pose proof (vm_dim _ Vq) as D. rewrite nth_slice by lia. replace (3 * z + b)%nat with ((i * nq + q) * 3 + b)%nat by lia.
      rewrite P1 by (auto; lia). destruct (Nat.ltb_spec b (m_gdim mq)); [|lia]. symmetry. exact (Eq i q b Hi Hq Hb).
    - rewrite nth_slice by auto. replace (3 * z + a)%nat with ((i * nq + q) * 3 + a)%nat by lia. rewrite P1 by auto. destruct (Nat.ltb_spec a (m_gdim mq)); [lia|]. ring. }
  destruct ct; try reflexivity; (destruct rt; [cbn [turned_geometry m_tdim m_gdim]; destruct (_ || _)%bool; [|reflexivity]; now rewrite RS|exact CS]).
Qed.
Print Assumptions C115_distance_map.

(** The facets found by the closest point search are candidates. *)
Lemma closest_candidate O t mq mc closest closest' gjk point offsets Q C mp ref i q : same_closest (m_gdim mq) O t closest closest' ->
  (m_gdim mq = 2 \/ m_gdim mq = 3)%nat -> closest_point_map mq mc closest gjk point offsets (flat2 Q) (flat2 C) = Some (mp, ref) -> (i < length Q)%nat -> (q < offsets 1 - offsets 0)%nat ->
  (0 <= nth q (links mp i) 0)%Z -> exists p, In p C /\ Z.to_nat (nth q (links mp i) 0%Z) = facet_index mc (fst p) (snd p).
Proof.
  intros HC D E Hi Hq Hf. unfold closest_point_map in E. rewrite flat2_half in E. set (nq := (offsets 1 - offsets 0)%nat) in *. set (nf := length Q) in *.
  destruct (physical_points mq point offsets Q (repeat 0 (nf * nq * m_gdim mq)) ltac:(apply repeat_length)) as [Lq _]. rewrite repeat_length in Lq. cbv zeta in E. revert E.
  set (qps := compute_physical_points mq point offsets (flat2 Q) _) in *. intros E. destruct (padded_points (m_gdim mq) nf nq qps D Lq) as (pd & E1 & L1 & _). cbv zeta in E1. rewrite E1 in E. destruct (_ || _)%bool; [|discriminate].
  injection E as <- _. revert Hf. unfold links. cbn [adj_data adj_off].
  assert (O' : forall j, (j <= nf)%nat -> nth j (map (fun i => (nq * i)%nat) (seq 0 (nf + 1))) 0%nat = (nq * j)%nat).
  { intros j Hj. rewrite (nth_map_lt _ _ j 0%nat 0%nat) by (rewrite seq_length; lia). now rewrite seq_nth by lia. }
  rewrite !O' by (unfold nf in *; lia). replace (nq * S i - nq * i)%nat with nq by nia. rewrite nth_slice by exact Hq. set (z := (nq * i + q)%nat). assert (Hz : (z < nf * nq)%nat) by (unfold z, nf, nq in *; nia).
  unfold compute_projection_map. replace (length pd / 3)%nat with (nf * nq)%nat by (rewrite L1, (Nat.mul_comm 3), Nat.div_mul by lia; reflexivity).
  destruct C as [|c C'] eqn:EC.
  - cbn [flat2 flat_map fst]. intros Hf. exfalso. rewrite (nth_indep _ 0%Z (-1)%Z) in Hf by (now rewrite repeat_length). rewrite nth_repeat in Hf. lia.
  - intros _. rewrite <- EC in *. assert (NE : facet_indices_from_pair mc (flat2 C) <> []) by (rewrite facet_indices_map, EC; discriminate).
    assert (NF : flat2 C <> []) by (rewrite EC; destruct c; discriminate). destruct (flat2 C) as [|z0 F] eqn:EF; [congruence|]. rewrite <- EF in *.
    cbn [fst]. set (x := slice pd (3 * z) 3). assert (Lx : length x = 3%nat) by (unfold x; rewrite slice_length; lia).
    destruct (HC (facet_indices_from_pair mc (flat2 C)) x (map (fun a => turn 3 (extend (m_gdim mq) O) (fun b => nth b x 0) a + extend_shift (m_gdim mq) t a) (seq 0 3)) NE Lx ltac:(rewrite map_length, seq_length; reflexivity)) as [HI _].
    { intros a Ha. rewrite (nth_map_lt _ _ a 0 0%nat) by (now rewrite seq_length). now rewrite seq_nth. }
    rewrite map_map. rewrite (nth_map_lt _ _ z 0%Z 0%nat) by (now rewrite seq_length). rewrite seq_nth by exact Hz. rewrite Nat2Z.id. fold x. rewrite facet_indices_map in HI. apply in_map_iff in HI.
    destruct HI as (p & E & Hp). exists p. split; [exact Hp|]. rewrite facet_indices_map. now symmetry.
Qed.

(** The distance map of the contact object: the same facets and reference points, gaps and normals turned. *)
Theorem C115_contact_data :
  forall (raytracing : bool) (O : nat -> nat -> R) (t : nat -> R) (m : mesh_data) (ct : cell_type) (vertex : nat -> nat -> nat -> R) (facet_jac : nat -> matrix) (vertices : nat -> list nat)
    (closest closest' : list nat -> list R -> nat) (gjk : list (list R) -> list R -> list R) (cmap : adj nat) (point : nat -> list R) (offsets : nat -> nat) (search_radius : R) (p : contact_pair) (Q C : list (nat * nat)) (old old' d : detection),
    cp_quadrature p = flat2 Q -> cp_candidate p = flat2 C -> (cp_local p <= length Q)%nat -> (forall f, offsets f = (f * num_q offsets)%nat) ->
    volume_mesh m -> orthogonal (m_gdim m) O -> search_facets m (map (sub_pair cmap) Q) -> search_facets m (map (sub_pair cmap) C) -> (forall f, nonzero m (m_ref_normal m f)) ->
    (forall c, In c (map (sub_pair cmap) (Q ++ C)) -> facet_nodes_exist (m_x m) (vertices (facet_index m (fst c) (snd c)))) ->
    gjk_exact (length (m_closure m 0)) gjk -> same_closest (m_gdim m) O t closest closest' -> frame_free_pull_back O t m ->
    let m' := turned_geometry O t m in
    let nq := num_q offsets in
    let search closest m Q C := mesh_distance_map raytracing m m ct vertex facet_jac vertices vertices closest gjk point offsets search_radius Q C in
    create_distance_map cmap point offsets (search closest) m p old = Some d ->
    exists d', create_distance_map cmap point offsets (search closest') m' p old' = Some d' /\ det_map d' = det_map d /\ det_ref d' = det_ref d /\
      forall i q a, (i < cp_local p)%nat -> (q < nq)%nat -> (a < m_gdim m)%nat ->
        let at_point (l : list R) k := nth ((i * nq + q) * m_gdim m + k) l 0 in
        at_point (contact_gap offsets m' p d') a = turn (m_gdim m) O (at_point (contact_gap offsets m p d)) a /\
        at_point (pack_normals cmap point offsets raytracing m' p d') a = turn (m_gdim m) O (at_point (pack_normals cmap point offsets raytracing m p d)) a.
Proof.
  intros rt O t m ct vertex fj vs closest closest' gjk cmap point offsets sr p Q C old old' d EQ EC HL Hoff V HO SQ SC NZ HV HG HC PB m' nq search E.
  set (Q' := map (sub_pair cmap) (firstn (cp_local p) Q)). set (C' := map (sub_pair cmap) C).
  assert (InQ : forall c, In c Q' -> In c (map (sub_pair cmap) Q)).
  { intros c Hc. unfold Q' in Hc. rewrite <- firstn_map in Hc. rewrite <- (firstn_skipn (cp_local p) (map (sub_pair cmap) Q)). apply in_or_app. now left. }
  assert (SQ' : search_facets m Q') by (constructor; [intros; apply (se_facet _ _ SQ); auto|intros; apply (se_regular _ _ SQ); auto|apply (se_size _ _ SQ)]).
  unfold create_distance_map in *. rewrite (quadrature_tuples_flat cmap p Q EQ) in *. fold Q' in E |- *. rewrite EC, get_submesh_tuples_flat in *. change (map (fun p0 => (hd 0%nat (links cmap (fst p0)), snd p0)) C) with C' in *. fold C' in SC.
  pose proof (C115_distance_map rt O t m m ct vertex fj vs vs closest closest' gjk point offsets sr Q' C' V V eq_refl HO SQ' SC NZ) as DM.
  specialize (DM ltac:(intros c Hc; apply HV; rewrite map_app; apply in_or_app; left; auto) ltac:(intros c Hc; apply HV; rewrite map_app; apply in_or_app; right; exact Hc) HG HC PB).
  unfold search in *. fold m' in DM. rewrite DM. destruct (mesh_distance_map rt m m _ _ _ _ _ closest _ _ _ _ _ _) as [[mp ref]|] eqn:EM; [|discriminate]. injection E as <-.
  eexists. split; [reflexivity|]. cbn [det_map det_ref]. split; [reflexivity|]. split; [reflexivity|]. intros i q a Hi Hq Ha.
  assert (Hq' : (q < offsets 1 - offsets 0)%nat) by exact Hq. split.
  - unfold contact_gap. cbn [det_map det_ref det_qp]. fold nq. change (m_gdim m) with (m_gdim m') at 1. rewrite (pack_gap_entry m' nq (cp_local p)) by auto.
    destruct (Z.ltb_spec (nth q (links mp i) 0%Z) 0) as [L|L].
    + symmetry. apply rsum_zero. intros k Hk. rewrite (pack_gap_entry m nq (cp_local p)) by auto. destruct (Z.ltb_spec (nth q (links mp i) 0%Z) 0); [ring|lia].
    + change (m_f_to_c m') with (m_f_to_c m). change (contact_point m') with (contact_point m). unfold m' at 1. rewrite map_turned by auto.
      rewrite (q_phys_entry cmap point offsets m' p Q _ EQ) by (auto; lia). unfold m' at 1. rewrite map_turned by auto.
      rewrite (turn_ext (m_gdim m) O (fun k => nth _ (pack_gap _ _ _ _ _ _) 0) (fun k => geometry_map m (hd 0%nat (m_f_to_c m (Z.to_nat (nth q (links mp i) 0%Z)))) (contact_point m ref (i * nq + q)) k
        - geometry_map m (fst (sub_pair cmap (nth i Q (0, 0)%nat))) (point (offsets (snd (nth i Q (0, 0)%nat)) + q)%nat) k)).
      * rewrite turn_minus. ring.
      * intros k Hk. rewrite (pack_gap_entry m nq (cp_local p)) by auto. destruct (Z.ltb_spec (nth q (links mp i) 0%Z) 0); [lia|]. rewrite (q_phys_entry cmap point offsets m p Q _ EQ) by (auto; lia). reflexivity.
  - unfold pack_normals. rewrite (quadrature_tuples_flat cmap p Q EQ). fold Q'. fold nq. destruct rt.
    + assert (LQ : length Q' = cp_local p) by (unfold Q'; rewrite map_length, firstn_length; lia). rewrite <- LQ in *.
      rewrite (nth_map_lt Ropp _ _ 0 0) by (rewrite pack_nx_length; apply points_lt; auto).
      change (m_gdim m) with (m_gdim m') at 1. rewrite pack_nx_entry by auto. change (m_ref_normal m') with (m_ref_normal m). change (m_tdim m') with (m_tdim m). change (m_gdim m') with (m_gdim m). unfold m'.
      rewrite (normal_turned O t m V HO) by (auto; apply (se_regular _ _ SQ'); now apply nth_In). rewrite <- turn_opp. apply turn_ext. intros k Hk.
      rewrite (nth_map_lt Ropp _ _ 0 0) by (rewrite pack_nx_length; apply points_lt; auto). rewrite pack_nx_entry by auto. reflexivity.
    + cbn [det_map det_ref]. change (m_gdim m) with (m_gdim m') at 1. rewrite pack_ny_entry by auto. cbv zeta. set (f := nth q (links mp i) 0%Z).
      destruct (Z.ltb_spec f 0) as [L|L].
      * symmetry. apply rsum_zero. intros k Hk. rewrite pack_ny_entry by auto. cbv zeta. fold f. destruct (Z.ltb_spec f 0); [ring|lia].
      * change (m_f_to_c m') with (m_f_to_c m). change (contact_point m') with (contact_point m). change (m_ref_normal m') with (m_ref_normal m). change (m_tdim m') with (m_tdim m). change (m_gdim m') with (m_gdim m). change (m_c_to_f m') with (m_c_to_f m). unfold m'.
        rewrite (normal_turned O t m V HO); auto.
        -- apply turn_ext. intros k Hk. rewrite pack_ny_entry by auto. cbv zeta. fold f. destruct (Z.ltb_spec f 0); [lia|]. reflexivity.
        -- (* the facet found is one of the candidates *)
           assert (LQ : length Q' = cp_local p) by (unfold Q'; rewrite map_length, firstn_length; lia).
           assert (EM' : closest_point_map m m closest gjk point offsets (flat2 Q') (flat2 C') = Some (mp, ref)) by (unfold mesh_distance_map in EM; destruct ct; first [exact EM | discriminate]).
           destruct (closest_candidate O t m m closest closest' gjk point offsets Q' C' mp ref i q HC (vm_dim _ V) EM' ltac:(lia) Hq' L) as (c & Hc & Ec). fold f in Ec. rewrite Ec.
           rewrite (sf_owner _ _ _ (se_facet _ _ SC c Hc)). cbn [hd]. now apply (se_regular _ _ SC).
Qed.
Print Assumptions C115_contact_data.
