(** C77: with closest-point search, the gap is the shortest vector from the
    quadrature point to the other surface. *)
From Coq Require Import List Arith ZArith Lia Bool Reals Lra.
Import ListNotations.
From Verif Require Import Prelude PreludeLemmas RSum SubMeshModel SubMeshProofs EntitiesModel RayModel KernelModel DistanceModel GapModel GapSpec DistanceProofs GapProps.
Local Open Scope R_scope.

(** The point a padded array holds. *)
Lemma hull_planar m c f y : facet_tables m -> m_gdim m = 2%nat -> in_hull (facet_points m c f) y -> nth 2 y 0 = 0.
Proof.
  intros FT G (w & _ & _ & Hy). rewrite (Hy 2%nat) by lia. apply rsum_zero. intros l Hl. unfold facet_points in *. rewrite map_length in Hl.
  rewrite (nth_map_lt _ _ l [] 0%nat) by auto. rewrite (nth_map_lt _ _ 2%nat 0 0%nat) by (rewrite seq_length; lia). rewrite seq_nth by lia. cbn [Nat.add].
  rewrite (ft_planar _ FT G). ring.
Qed.
Lemma distance_dims m (pt z : list R) : dimensions m -> (m_gdim m = 2%nat -> nth 2 pt 0 = 0 /\ nth 2 z 0 = 0) ->
  distance2 pt z = rsum (m_gdim m) (fun k => (nth k z 0 - nth k pt 0) * (nth k z 0 - nth k pt 0)).
Proof.
  intros D P. unfold distance2. destruct D as [[_ G]|[[_ G]|[_ G]]]; rewrite G in *; auto.
  destruct (P eq_refl) as [P1 P2]. cbn [rsum]. rewrite P1, P2. ring.
Qed.

Section Closest.
  Context (m : mesh_data) (closest : list nat -> list R -> nat) (gjk : list (list R) -> list R -> list R).
  Context (point : nat -> list R) (offsets : nat -> nat) (Q C : list (nat * nat)) (hulls : nat -> list (list R)).
  Context (LS : linear_simplices m) (FT : facet_tables m).
  Context (SF : forall p, In p C -> surface_facet m (fst p) (snd p)).
  Context (NS : forall p, In p C -> nonsingular m (geometry_jacobian m (fst p) (repeat 0 (m_tdim m)))).
  Context (Hhulls : forall p, In p C -> hulls (facet_index m (fst p) (snd p)) = facet_points m (fst p) (snd p)).
  Context (Hgjk : gjk_exact (length (m_closure m 0)) gjk) (Hclosest : closest_exact hulls closest (map (fun p => facet_index m (fst p) (snd p)) C)) (HC : C <> []).
  Notation tdim := (m_tdim m).
  Notation gdim := (m_gdim m).
  Let nq := (offsets 1 - offsets 0)%nat.

  Lemma closest_point_found r : closest_point_map m m closest gjk point offsets (flat2 Q) (flat2 C) = Some r ->
    forall i q, (i < length Q)%nat -> (q < nq)%nat ->
    let x k := geometry_map m (fst (nth i Q (0, 0)%nat)) (point (offsets (snd (nth i Q (0, 0)%nat)) + q)%nat) k in
    exists p y, In p C /\ nth q (links (fst r) i) 0%Z = Z.of_nat (facet_index m (fst p) (snd p)) /\ in_hull (facet_points m (fst p) (snd p)) y /\
      (forall k, (k < gdim)%nat -> geometry_map m (fst p) (slice (snd r) ((i * nq + q) * tdim) tdim) k = nth k y 0) /\
      (forall p' z, In p' C -> in_hull (facet_points m (fst p') (snd p')) z ->
         rsum gdim (fun k => (nth k y 0 - x k) * (nth k y 0 - x k)) <= rsum gdim (fun k => (nth k z 0 - x k) * (nth k z 0 - x k))).
  Proof.
    unfold closest_point_map. rewrite flat2_half. fold nq.
    set (qps := compute_physical_points m point offsets (flat2 Q) (repeat 0 (length Q * nq * gdim))).
    destruct (physical_points m point offsets Q (repeat 0 (length Q * nq * gdim)) ltac:(rewrite repeat_length; reflexivity)) as [Lq Eq]. fold qps in Lq, Eq. fold nq in Lq, Eq.
    set (padded := if (gdim =? 2)%nat then _ else _).
    assert (P : exists pd, padded = Some pd /\ length pd = (3 * (length Q * nq))%nat /\
      forall i q, (i < length Q)%nat -> (q < nq)%nat ->
        (forall k, (k < gdim)%nat -> nth ((i * nq + q) * 3 + k)%nat pd 0 = nth ((i * nq + q) * gdim + k)%nat qps 0) /\
        (gdim = 2%nat -> nth ((i * nq + q) * 3 + 2)%nat pd 0 = 0)).
    { assert (G : gdim = 2%nat \/ gdim = 3%nat) by (destruct (ls_dims _ LS) as [[_ G]|[[_ G]|[_ G]]]; auto). unfold padded. destruct G as [G | G]; rewrite G; cbn [Nat.eqb].
      - eexists. split; [reflexivity|]. split.
        + rewrite loop_length; [rewrite repeat_length; lia|]. intros. apply loop_length. intros. apply loop_length. intros. apply upd_length.
        + intros i q Hi Hq.
          assert (W : forall l v, (l < 3)%nat -> (if (l <? 2)%nat then v = Some (nth ((i * nq + q) * 2 + l)%nat qps 0) else v = None) ->
            sets 0 ((i * nq + q) * 3 + l)%nat (repeat 0 (length Q * nq * 3))
             (for_loop (length Q) (fun i p => for_loop nq (fun j p => for_loop 2 (fun k p => upd p ((i * nq + j) * 3 + k)%nat (nth ((i * nq + j) * 2 + k)%nat qps 0)) p) p) (repeat 0 (length Q * nq * 3))) v).
          { intros l v Hl Hv. apply (sets_loop 0 _ (length Q) i); auto.
            - intros i' s Hi' N. apply sets_none. intros q' s' Hq'. apply sets_none. intros k' s'' Hk'. apply sets_upd_other. intros E. apply row_inj in E; [|lia|lia]. destruct E as [E _]. apply row_inj in E; auto. lia.
            - intros s. apply (sets_loop 0 _ nq q); auto.
              + intros q' s' Hq' N. apply sets_none. intros k' s'' Hk'. apply sets_upd_other. intros E. apply row_inj in E; [|lia|lia]. destruct E as [E _]. apply row_inj in E; auto. lia.
              + intros s'. destruct (Nat.ltb_spec l 2) as [L|L]; rewrite Hv.
                * apply (sets_loop 0 _ 2 l); auto; [|intros; apply sets_upd]. intros k' s'' Hk' N. apply sets_upd_other. lia.
                * apply sets_none. intros k' s'' Hk'. apply sets_upd_other. lia. }
          split.
          * intros k Hk. destruct (W k (Some (nth ((i * nq + q) * 2 + k)%nat qps 0)) ltac:(lia)) as [_ E].
            { destruct (Nat.ltb_spec k 2); [reflexivity|lia]. }
            rewrite E by (rewrite repeat_length; apply points_lt; auto; lia). reflexivity.
          * intros _. destruct (W 2%nat None ltac:(lia) eq_refl) as [_ E]. rewrite E by (rewrite repeat_length; apply points_lt; auto; lia). now rewrite nth_repeat_0.
      - eexists. split; [reflexivity|]. split; [rewrite Lq, G, repeat_length; ring|]. intros i q Hi Hq. split; [auto|lia]. }
    destruct P as (pd & -> & Lp & Ep). intros Hr.
    destruct ((tdim =? 2) || (tdim =? 3))%nat; [|discriminate]. injection Hr as <-. cbn [fst snd]. intros i q Hi Hq.
    set (x := geometry_map m (fst (nth i Q (0, 0)%nat)) (point (offsets (snd (nth i Q (0, 0)%nat)) + q)%nat)).
    assert (HN : (i * nq + q < length Q * nq)%nat) by (apply row_lt; auto).
    destruct (projection_point m closest gjk C hulls LS FT SF NS Hhulls Hgjk Hclosest HC pd (length Q * nq) Lp (i * nq + q) HN) as (p & y & Y & Hp & Ef & Hy & Hmin & EY & HF).
    destruct (Ep i q Hi Hq) as [E1 E2]. set (pt := slice pd (3 * (i * nq + q)) 3) in *.
    assert (Gd : (gdim <= 3)%nat) by (destruct (ls_dims _ LS) as [[_ G]|[[_ G]|[_ G]]]; rewrite G; lia).
    assert (Ept : forall k, (k < gdim)%nat -> nth k pt 0 = x k).
    { intros k Hk. unfold pt. rewrite nth_slice by lia. rewrite (Nat.mul_comm 3), E1, Eq by auto. reflexivity. }
    assert (Dx : forall z, (gdim = 2%nat -> nth 2 z 0 = 0) -> distance2 pt z = rsum gdim (fun k => (nth k z 0 - x k) * (nth k z 0 - x k))).
    { intros z Hz. rewrite (distance_dims m) by (try apply (ls_dims _ LS); intros G; split; auto; unfold pt; rewrite nth_slice by lia; rewrite (Nat.mul_comm 3); auto).
      apply rsum_ext. intros k Hk. now rewrite Ept. }
    exists p, y. repeat split; auto.
    - unfold links. cbn [adj_data adj_off].
      assert (O : forall j, (j <= length Q)%nat -> nth j (map (fun i => (nq * i)%nat) (seq 0 (length Q + 1))) 0%nat = (nq * j)%nat).
      { intros j Hj. rewrite (nth_map_lt _ _ j 0%nat 0%nat) by (rewrite seq_length; lia). now rewrite seq_nth by lia. }
      rewrite !O by lia. replace (nq * S i - nq * i)%nat with nq by nia. rewrite nth_slice by auto. rewrite (Nat.mul_comm nq). exact Ef.
    - intros k Hk. rewrite EY. now apply HF.
    - intros p' z Hp' Hz. rewrite <- !Dx; [now apply (Hmin p')| |]; intros G; eapply hull_planar; eauto.
  Qed.
End Closest.

(** The gap ends on the candidate surface, on the facet recorded in the facet map,
    and no point of any candidate facet is closer to the quadrature point. *)
Theorem C77_gap_is_shortest :
  forall (cmap : adj nat) (point : nat -> list R) (offsets : nat -> nat) (closest : list nat -> list R -> nat) (gjk : list (list R) -> list R -> list R)
    (hulls : nat -> list (list R)) (m : mesh_data) (p : contact_pair) (old d : detection) (Q C : list (nat * nat)),
    linear_simplices m -> facet_tables m ->
    cp_quadrature p = flat2 Q -> (cp_local p <= length Q)%nat -> cp_candidate p = flat2 C -> C <> [] ->
    (forall c, In c (map (sub_pair cmap) C) -> surface_facet m (fst c) (snd c) /\ nonsingular m (geometry_jacobian m (fst c) (repeat 0 (m_tdim m))) /\
       hulls (facet_index m (fst c) (snd c)) = facet_points m (fst c) (snd c)) ->
    gjk_exact (length (m_closure m 0)) gjk -> closest_exact hulls closest (map (fun c => facet_index m (fst c) (snd c)) (map (sub_pair cmap) C)) ->
    create_distance_map cmap point offsets (fun m => closest_point_map m m closest gjk point offsets) m p old = Some d ->
    let nq := num_q offsets in
    forall i q, (i < cp_local p)%nat -> (q < nq)%nat ->
      let x := geometry_map m (fst (sub_pair cmap (nth i Q (0, 0)%nat))) (point (offsets (snd (nth i Q (0, 0)%nat)) + q)%nat) in
      let gap k := nth ((i * nq + q) * m_gdim m + k)%nat (contact_gap offsets m p d) 0 in
      exists c y, In c (map (sub_pair cmap) C) /\ nth q (links (det_map d) i) 0%Z = Z.of_nat (facet_index m (fst c) (snd c)) /\
        in_hull (facet_points m (fst c) (snd c)) y /\ (forall k, (k < m_gdim m)%nat -> x k + gap k = nth k y 0) /\
        forall c' z, In c' (map (sub_pair cmap) C) -> in_hull (facet_points m (fst c') (snd c')) z ->
          rsum (m_gdim m) (fun k => gap k * gap k) <= rsum (m_gdim m) (fun k => (nth k z 0 - x k) * (nth k z 0 - x k)).
Proof.
  intros cmap point offsets closest gjk hulls m p old d Q C LS FT EQ HQ EC HC HS Hg Hc Hd nq i q Hi Hq x gap.
  destruct (C74_gap cmap point offsets _ m p old d Q EQ HQ Hd) as [_ G]. fold nq in G.
  unfold create_distance_map in Hd. rewrite (quadrature_tuples_flat cmap p Q EQ), EC, get_submesh_tuples_flat in Hd.
  change (map (fun p0 => (hd 0%nat (links cmap (fst p0)), snd p0)) C) with (map (sub_pair cmap) C) in Hd.
  destruct (closest_point_map _ _ _ _ _ _ _ _) as [r|] eqn:E; [|discriminate]. destruct r as [mp ref]. injection Hd as <-. cbn [det_map det_ref] in *.
  set (Q' := map (sub_pair cmap) (firstn (cp_local p) Q)) in *.
  assert (LQ : length Q' = cp_local p) by (unfold Q'; rewrite map_length, firstn_length; lia).
  assert (Ei : nth i Q' (0, 0)%nat = sub_pair cmap (nth i Q (0, 0)%nat)).
  { unfold Q'. rewrite (nth_map_lt _ _ i (0, 0)%nat (0, 0)%nat) by (rewrite firstn_length; lia). now rewrite nth_firstn by auto. }
  destruct (closest_point_found m closest gjk point offsets Q' (map (sub_pair cmap) C) hulls LS FT ltac:(intros; now apply HS) ltac:(intros; now apply HS) ltac:(intros; now apply HS)
    Hg Hc ltac:(intros N; apply map_eq_nil in N; auto) (mp, ref) E i q ltac:(lia) Hq) as (c & y & Hcn & Em & Hy & HF & Hmin).
  cbn [fst snd] in Em, HF, Hmin. rewrite Ei in Hmin.
  assert (Ey : forall k, (k < m_gdim m)%nat -> x k + gap k = nth k y 0).
  { intros k Hk. destruct (G i q k Hi Hq Hk) as [_ G1]. unfold nq in *. rewrite Em in G1. specialize (G1 ltac:(lia)). unfold x, gap. rewrite G1, Nat2Z.id.
    rewrite (sf_owner _ _ _ (proj1 (HS c Hcn))). cbn [hd]. apply HF; auto. }
  exists c, y. repeat split; auto. intros c' z Hc' Hz.
  rewrite (rsum_ext (m_gdim m) (fun k => gap k * gap k) (fun k => (nth k y 0 - x k) * (nth k y 0 - x k))) by (intros k Hk; rewrite <- Ey by auto; ring).
  now apply (Hmin c' z).
Qed.
Print Assumptions C77_gap_is_shortest.
