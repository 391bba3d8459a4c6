(** Property C116: what the gaps found by ray tracing are.  Every gap ends on a nearby candidate
    facet: where the ray along the normal meets it, facing the quadrature facet and within the radius;
    at the closest point if the rays of other points of the facet meet candidates but not this one;
    and there is no gap if none of the facet's rays meets a candidate. *)
From Coq Require Import List Arith ZArith Lia Bool Reals Lra Sorted.
Import ListNotations.
From Verif Require Import Prelude PreludeLemmas RSum CropModel CandidatesModel CandidatesProps RealLemmas SubMeshModel SubMeshProofs EntitiesModel EntitiesProofs AssemblyProofs GeomModel GeomProps RayModel RayProps KernelModel KernelSpec DistanceModel GapModel GapSpec
  DistanceProofs GapProps PullBackProps ContactNormalProps ShortestGapProps RayMapModel RayMapProps RaySearchModel ElasticityProps RigidBalanceProps FrameProofs RayFrameProps MeshFrameProofs SearchFrameProofs.
Local Open Scope R_scope.

(** ** Specification *)
(** Unit normal of the facet [snd c] of the cell [fst c] at a reference point. *)
Definition facet_normal (m : mesh_data) (c : nat * nat) (X : list R) : nat -> R :=
  physical_facet_normal (m_tdim m) (m_gdim m) (jacobian_inverse (m_gdim m) (m_tdim m) (cell_jacobian m X (cell_coordinates m (fst c)))) (m_ref_normal m (snd c)).
(** Quadrature point [q] of a facet: position and normal. *)
Definition point_at (m : mesh_data) (point : nat -> list R) (offsets : nat -> nat) (own : nat * nat) (q : nat) : list R :=
  map (geometry_map m (fst own) (point (offsets (snd own) + q)%nat)) (seq 0 (m_gdim m)).
Definition normal_at (m : mesh_data) (point : nat -> list R) (offsets : nat -> nat) (own : nat * nat) (q : nat) : list R :=
  map (facet_normal m own (point (offsets (snd own) + q)%nat)) (seq 0 (m_gdim m)).
(** The ray from [x] along [n] meets the facet [c] (the iteration ends in the state [s]), which faces
    [n]; with a positive radius the squared length of the ray is bounded by it. *)
Definition meets (m : mesh_data) (ct : cell_type) (vertex : nat -> nat -> nat -> R) (facet_jac : nat -> matrix) (radius : R) (x n : list R) (c : nat * nat) (s : ray_state) : Prop :=
  ray_cell (m_gdim m) (m_gdim m) 25 (1 / 10 ^ 8) (mesh_rays m ct vertex facet_jac) x n (repeat 0 (m_gdim m)) c = RayOk s /\ (0 < rs_status s)%Z /\
  rsum (m_gdim m) (fun k => nth k n 0 * facet_normal m c (rs_X s) k) <= 0 /\ (radius <= 0 \/ rsum (m_gdim m) (fun k => (nth k (rs_x s) 0 - nth k x 0) * (nth k (rs_x s) 0 - nth k x 0)) <= radius).
(** Distance between the midpoints of two facets; [vertices]: geometry nodes of a facet's vertices. *)
Definition midpoints_apart (m : mesh_data) (vertices : nat -> list nat) (own c : nat * nat) : R :=
  let mid c := facet_midpoint (m_x m) (vertices (facet_index m (fst c) (snd c))) in
  sqrt (rsum 3 (fun k => (nth k (mid own) 0 - nth k (mid c) 0) * (nth k (mid own) 0 - nth k (mid c) 0))).

(** ** The map *)
Lemma ray_point_none gdim sr n x outcome patch : ray_point gdim sr n x outcome patch = None <-> forall c, In c patch -> ~ (0 < check_ray gdim sr n x (outcome c))%Z.
Proof.
  induction patch as [|c patch IH]; cbn [ray_point]; [split; [intros _ c []|reflexivity]|]. destruct (Z.ltb_spec 0 (check_ray gdim sr n x (outcome c))) as [L|L].
  - split; [discriminate|]. intros H. exfalso. apply (H c); [now left|exact L].
  - rewrite IH. split; [intros H c' [<- | Hc]; [lia|now apply H]|intros H c' Hc; apply H; now right].
Qed.
(** The candidate taken comes before every other that would do. *)
Lemma ray_point_first (f : nat -> R) gdim sr n x outcome patch c X : StronglySorted (fun i j => f i <= f j) patch -> ray_point gdim sr n x outcome patch = Some (c, X) ->
  forall c', In c' patch -> (0 < check_ray gdim sr n x (outcome c'))%Z -> f c <= f c'.
Proof.
  induction patch as [|a patch IH]; cbn [ray_point]; [discriminate|]. intros S. inversion S as [|? ? S' F]; subst. destruct (Z.ltb_spec 0 (check_ray gdim sr n x (outcome a))) as [L|L].
  - intros E. injection E as <- _. intros c' [<- | Hc] _; [lra|]. rewrite Forall_forall in F. now apply F.
  - intros E c' [<- | Hc] P; [lia|]. now apply (IH S' E).
Qed.

Section RayMap.
  Context (m : mesh_data) (ct : cell_type) (vertex : nat -> nat -> nat -> R) (facet_jac : nat -> matrix) (vertices : nat -> list nat).
  Context (closest : list nat -> list R -> nat) (gjk : list (list R) -> list R -> list R) (point : nat -> list R) (offsets : nat -> nat) (sr : R) (Q C : list (nat * nat)).
  Context (V : volume_mesh m) (Hoff : forall f, offsets f = (f * (offsets 1 - offsets 0))%nat) (Hin : forall facets x, facets <> [] -> length x = 3%nat -> In (closest facets x) facets).
  Notation gdim := (m_gdim m).
  Notation tdim := (m_tdim m).
  Notation nq := (offsets 1 - offsets 0)%nat.
  Notation pt := (rs_point m point offsets (flat2 Q)).
  Notation nrm := (rs_normal m point offsets (flat2 Q)).
  Notation oc := (rs_outcome m m ct vertex facet_jac point offsets (flat2 Q) (flat2 C)).
  Notation patch := (rs_patch m m vertices vertices sr (flat2 Q) (flat2 C)).
  Notation own i := (nth i Q (0, 0)%nat).
  Notation cand c := (nth c C (0, 0)%nat).

  Lemma point_is i q : (i < length Q)%nat -> (q < nq)%nat -> pt i q = point_at m point offsets (own i) q.
  Proof using.
    intros Hi Hq. apply (nth_ext _ _ 0 0); [rewrite point_length by auto; unfold point_at; now rewrite map_length, seq_length|]. rewrite point_length by auto. intros k Hk.
    rewrite point_entry by auto. unfold point_at. rewrite (nth_map_lt _ _ k 0 0%nat) by (now rewrite seq_length). now rewrite seq_nth.
  Qed.
  Lemma normal_is i q : (i < length Q)%nat -> nrm i q = normal_at m point offsets (own i) q.
  Proof using Hoff.
    intros Hi. apply (nth_ext _ _ 0 0); [rewrite normal_length; unfold normal_at; now rewrite map_length, seq_length|]. rewrite normal_length. intros k Hk.
    rewrite normal_entry by auto. unfold normal_at, facet_normal. rewrite (nth_map_lt _ _ k 0 0%nat) by (now rewrite seq_length). rewrite seq_nth by exact Hk. cbv zeta. rewrite (Hoff (snd _)), (Nat.mul_comm nq). reflexivity.
  Qed.
  Lemma apart_is i c : (i < length Q)%nat -> (c < length C)%nat ->
    distance (facet_midpoint (m_x m) (vertices (nth i (rs_q_facets m (flat2 Q)) 0%nat))) (flat_map (fun f => facet_midpoint (m_x m) (vertices f)) (rs_c_facets m (flat2 C))) 0 c = midpoints_apart m vertices (own i) (cand c).
  Proof using.
    intros Hi Hc. unfold distance, midpoints_apart, rs_q_facets, rs_c_facets. rewrite !facet_indices_map. rewrite (nth_map_lt _ _ i 0%nat (0, 0)%nat) by auto. cbv zeta. f_equal. cbn [rsum Nat.mul Nat.add].
    rewrite (Nat.mul_comm 3 c) at 1 2 3 4 5 6.
    rewrite !(nth_flat_map_const (fun f => facet_midpoint (m_x m) (vertices f)) 3 _ c _ 0 0%nat) by (try lia; try (now rewrite map_length); auto using midpoint_length).
    rewrite (nth_map_lt _ _ c 0%nat (0, 0)%nat) by auto. ring.
  Qed.
  Lemma patch_is i c : (i < length Q)%nat -> (In c (patch i) <-> (c < length C)%nat /\ (sr < 0 \/ midpoints_apart m vertices (own i) (cand c) < 2 * sr)).
  Proof using.
    intros Hi. unfold rs_patch. rewrite (proj1 (proj2 (C57_candidate_facets _ _ _ _))). unfold rs_c_facets at 1. rewrite facet_indices_map, map_length.
    split; intros [Hc H]; (split; [exact Hc|]); [rewrite apart_is in H by auto|rewrite apart_is by auto]; (destruct H as [H|H]; [left; lra|right; exact H]).
  Qed.
  Lemma patch_sorted i : (i < length Q)%nat -> StronglySorted (fun a b => midpoints_apart m vertices (own i) (cand a) <= midpoints_apart m vertices (own i) (cand b)) (patch i).
  Proof using.
    intros Hi. assert (P := fun c => proj1 (patch_is i c Hi)). pose proof (proj2 (proj2 (C57_candidate_facets (facet_midpoint (m_x m) (vertices (nth i (rs_q_facets m (flat2 Q)) 0%nat))) (flat_map (fun f => facet_midpoint (m_x m) (vertices f)) (rs_c_facets m (flat2 C))) (length (rs_c_facets m (flat2 C))) (2 * sr)))) as S.
    fold (patch i) in S. revert S P. generalize (patch i) as l. induction l as [|a l IH]; intros S P; [constructor|]. inversion S as [|? ? S' F]; subst. constructor; [apply IH; [exact S'|intros c Hc; apply P; now right]|].
    rewrite Forall_forall in F |- *. intros b Hb. specialize (F b Hb). rewrite !apart_is in F by (auto; apply P; simpl; auto). exact F.
  Qed.
  Lemma hit_is i q c : (i < length Q)%nat -> (q < nq)%nat -> (c < length C)%nat ->
    ((0 < check_ray gdim sr (nrm i q) (pt i q) (oc i q c))%Z <-> exists s, meets m ct vertex facet_jac sr (point_at m point offsets (own i) q) (normal_at m point offsets (own i) q) (cand c) s) /\
    forall s, meets m ct vertex facet_jac sr (point_at m point offsets (own i) q) (normal_at m point offsets (own i) q) (cand c) s -> ray_X (oc i q c) = rs_X s.
  Proof using V Hoff.
    intros Hi Hq Hc. rewrite C26_acceptance_exact. rewrite (point_is i q Hi Hq), (normal_is i q Hi). unfold meets, rs_outcome. rewrite (flat2_fst C c (0, 0)%nat), (flat2_snd C c (0, 0)%nat) by auto. rewrite (point_is i q Hi Hq), (normal_is i q Hi).
    rewrite !(vm_volume _ V). rewrite <- surjective_pairing. set (x := point_at _ _ _ _ _). set (n := normal_at _ _ _ _ _).
    destruct (ray_cell gdim gdim 25 (1 / 10 ^ 8) (mesh_rays m ct vertex facet_jac) x n (repeat 0 gdim) (cand c)) as [s|] eqn:Er; cbn [ray_status ray_normal ray_x ray_X].
    - assert (N : normals_product gdim n (map (physical_facet_normal gdim gdim (jacobian_inverse gdim gdim (cell_jacobian m (rs_X s) (cell_coordinates m (fst (cand c))))) (m_ref_normal m (snd (cand c)))) (seq 0 gdim)) = rsum gdim (fun k => nth k n 0 * facet_normal m (cand c) (rs_X s) k)).
      { unfold normals_product, facet_normal. apply rsum_ext. intros k Hk. rewrite (nth_map_lt _ _ k 0 0%nat) by (now rewrite seq_length). rewrite seq_nth by exact Hk. now rewrite (vm_volume _ V). }
      rewrite N. unfold ray_length2. split.
      + split; [intros (H1 & H2 & H3); exists s; auto|]. intros (s' & E & H1 & H2 & H3). injection E as <-. auto.
      + intros s' (E & _). now injection E as <-.
    - split; [split; [lia|intros (s & E & _); discriminate]|intros s (E & _); discriminate].
  Qed.

  (** What is assigned to point [q] of facet [i]. *)
  Notation the_hit i q := (ray_point gdim sr (nrm i q) (pt i q) (oc i q) (patch i)).
  Notation cl := (rs_closest m m closest gjk point offsets (flat2 Q) (flat2 C)).
  Lemma map_entry i q : (i < length Q)%nat -> (q < nq)%nat ->
    let r := mesh_raytracing_map m m ct vertex facet_jac vertices vertices closest gjk point offsets sr (flat2 Q) (flat2 C) in
    let a := assigned nq (map Z.of_nat (rs_c_facets m (flat2 C))) (patch i) (fun q => the_hit i q) (cl i) q in
    nth q (links (fst r) i) 0%Z = fst a /\ slice (snd r) ((i * nq + q) * tdim) tdim = map (fun k => nth k (snd a) 0) (seq 0 tdim).
  Proof using.
    intros Hi Hq r a. unfold r, mesh_raytracing_map. rewrite flat2_half. cbv zeta. cbn [fst snd].
    destruct (C25_raytracing_map_exact gdim nq (length Q) sr (map Z.of_nat (rs_c_facets m (flat2 C))) patch nrm pt oc cl) as (L1 & L2 & H). specialize (H i q Hi Hq).
    set (w := compute_raytracing_map _ _ _ _ _ _ _ _ _ _) in *. fold a in H. assert (H1 := f_equal fst H). assert (H2 := f_equal snd H). cbn [fst snd] in H1, H2. rewrite <- H1, <- H2. split.
    - unfold links. cbn [adj_data adj_off].
      assert (O' : forall j, (j <= length Q)%nat -> nth j (map (fun i => (i * nq)%nat) (seq 0 (length Q + 1))) 0%nat = (j * nq)%nat).
      { intros j Hj. rewrite (nth_map_lt _ _ j 0%nat 0%nat) by (rewrite seq_length; lia). now rewrite seq_nth by lia. }
      rewrite !O' by lia. replace (S i * nq - i * nq)%nat with nq by nia. now rewrite nth_slice by exact Hq.
    - pose proof (row_lt nq (length Q) i q Hi Hq) as B. apply (nth_ext _ _ 0 0).
      + rewrite slice_length; [now rewrite map_length, seq_length|]. rewrite (flat_map_const_length _ tdim) by (intros; now rewrite map_length, seq_length). rewrite L2. nia.
      + intros k Hk. rewrite slice_length in Hk by (rewrite (flat_map_const_length _ tdim) by (intros; now rewrite map_length, seq_length); rewrite L2; nia).
        rewrite nth_slice by exact Hk. rewrite (nth_flat_map_const _ tdim (snd w) (i * nq + q) k 0 []) by (auto; try (intros; now rewrite map_length, seq_length); lia). reflexivity.
  Qed.
End RayMap.

(** The facet of the closest point is one of the patch. *)
Lemma find_index_nth x l : In x l -> nth (find_index x l) l 0%nat = x /\ (find_index x l < length l)%nat.
Proof.
  induction l as [|a l IH]; [intros []|]. intros H. cbn [find_index]. destruct (Nat.eqb_spec a x) as [->|N]; [split; [reflexivity|cbn; lia]|]. destruct H as [H|H]; [congruence|]. destruct (IH H) as [H1 H2]. split; [exact H1|cbn; lia].
Qed.
Lemma patch_tuples C patch : (forall c, In c patch -> (c < length C)%nat) -> flat_map (fun c => [nth (2 * c) (flat2 C) 0; nth (2 * c + 1) (flat2 C) 0]%nat) patch = flat2 (map (fun c => nth c C (0, 0)%nat) patch).
Proof.
  intros Hc. induction patch as [|c patch IH]; [reflexivity|]. cbn [flat_map map]. rewrite IH by (intros; apply Hc; now right). rewrite (flat2_fst C c (0, 0)%nat), (flat2_snd C c (0, 0)%nat) by (apply Hc; now left). reflexivity.
Qed.
Lemma closest_facet m closest gjk point offsets Q C i q patch : volume_mesh m -> (forall facets x, facets <> [] -> length x = 3%nat -> In (closest facets x) facets) ->
  (i < length Q)%nat -> (q < offsets 1 - offsets 0)%nat -> patch <> [] -> (forall c, In c patch -> (c < length C)%nat) ->
  exists a, In a patch /\ nth (fst (rs_closest m m closest gjk point offsets (flat2 Q) (flat2 C) i q patch)) (map Z.of_nat (rs_c_facets m (flat2 C))) 0%Z = Z.of_nat (facet_index m (fst (nth a C (0, 0)%nat)) (snd (nth a C (0, 0)%nat))).
Proof.
  intros V Hin Hi Hq NE Hc. unfold rs_closest. cbn [fst]. rewrite patch_tuples by exact Hc. set (C' := map (fun c => nth c C (0, 0)%nat) patch). set (x := _ ++ _).
  assert (Lx : length x = 3%nat) by (unfold x; rewrite app_length, repeat_length, point_length by auto; pose proof (vm_dim _ V); lia).
  unfold compute_projection_map. rewrite Lx. change (3 / 3)%nat with 1%nat.
  assert (NC : C' <> []) by (unfold C'; destruct patch; [congruence|discriminate]). assert (NF : flat2 C' <> []) by (destruct C' as [|[? ?] ?]; [congruence|discriminate]).
  destruct (flat2 C') as [|z F] eqn:EF; [congruence|]. rewrite <- EF. cbn [fst seq map nth]. rewrite Nat2Z.id. rewrite facet_indices_map.
  assert (HI : In (closest (map (fun p => facet_index m (fst p) (snd p)) C') (slice x (3 * 0) 3)) (map (fun p => facet_index m (fst p) (snd p)) C')) by (apply Hin; [intros E; apply map_eq_nil in E; contradiction|apply slice_length; rewrite Lx; lia]).
  set (f := closest _ _) in *. apply in_map_iff in HI. destruct HI as (c & Ec & HI). unfold C' in HI. apply in_map_iff in HI. destruct HI as (a & <- & Ha). exists a. split; [exact Ha|].
  assert (InF : In f (rs_c_facets m (flat2 C))) by (unfold rs_c_facets; rewrite facet_indices_map; apply in_map_iff; exists (nth a C (0, 0)%nat); split; [exact Ec|apply nth_In; auto]).
  destruct (find_index_nth f _ InF) as [E1 E2]. rewrite (nth_map_lt _ _ _ 0%Z 0%nat) by exact E2. now rewrite E1, Ec.
Qed.

(** ** C116 *)
Theorem C116_ray_gap :
  forall (m : mesh_data) (ct : cell_type) (vertex : nat -> nat -> nat -> R) (facet_jac : nat -> matrix) (vertices : nat -> list nat)
    (closest : list nat -> list R -> nat) (gjk : list (list R) -> list R -> list R) (cmap : adj nat) (point : nat -> list R) (offsets : nat -> nat) (radius : R) (p : contact_pair) (Q C : list (nat * nat)) (old d : detection),
    cp_quadrature p = flat2 Q -> cp_candidate p = flat2 C -> (cp_local p <= length Q)%nat -> (forall f, offsets f = (f * num_q offsets)%nat) ->
    volume_mesh m -> search_facets m (map (sub_pair cmap) Q) -> search_facets m (map (sub_pair cmap) C) -> (forall f, nonzero m (m_ref_normal m f)) ->
    (forall facets x, facets <> [] -> length x = 3%nat -> In (closest facets x) facets) ->
    create_distance_map cmap point offsets (fun m Q C => mesh_distance_map true m m ct vertex facet_jac vertices vertices closest gjk point offsets radius Q C) m p old = Some d ->
    forall i q, (i < cp_local p)%nat -> (q < num_q offsets)%nat ->
      let own := sub_pair cmap (nth i Q (0, 0)%nat) in
      let x q := point_at m point offsets own q in
      let n q := normal_at m point offsets own q in
      let near c := In c (map (sub_pair cmap) C) /\ (radius < 0 \/ midpoints_apart m vertices own c < 2 * radius) in
      let hit q := meets m ct vertex facet_jac radius (x q) (n q) in
      let f := nth q (links (det_map d) i) 0%Z in
      let X := contact_point m (det_ref d) (i * num_q offsets + q) in
      let gap k := nth ((i * num_q offsets + q) * m_gdim m + k) (contact_gap offsets m p d) 0 in
      (f = (-1)%Z /\ (forall k, (k < m_gdim m)%nat -> gap k = 0) /\ forall q' c s, (q' < num_q offsets)%nat -> near c -> ~ hit q' c s) \/
      (exists c, near c /\ f = Z.of_nat (facet_index m (fst c) (snd c)) /\ (forall k, (k < m_gdim m)%nat -> gap k = geometry_map m (fst c) X k - nth k (x q) 0) /\
        ((exists s, hit q c s /\ X = rs_X s /\ X = reference_map (m_tdim m) (vertex (snd c)) (rs_xi s) /\ in_reference_facet ct (1 / 10 ^ 8) (rs_xi s) /\
            outward_unit_normal m (geometry_jacobian m (fst c) X) (m_ref_normal m (snd c)) (facet_normal m c X) /\ rsum (m_gdim m) (fun k => nth k (n q) 0 * facet_normal m c X k) <= 0 /\
            (0 < radius -> rsum (m_gdim m) (fun k => gap k * gap k) <= radius) /\
            (let a := rsum (m_gdim m) (fun k => gap k * nth k (n q) 0) in
             rsum (m_gdim m) (fun k => (gap k - a * nth k (n q) 0) * (gap k - a * nth k (n q) 0)) <=
             (1 / 10 ^ 8 * (1 / 10 ^ 8)) * rsum (m_gdim m - 1) (fun j => rsum (m_gdim m) (fun l => rsum (m_gdim m) (fun k => geometry_jacobian m (fst c) X l k * facet_jac (snd c) k j) * rsum (m_gdim m) (fun k => geometry_jacobian m (fst c) X l k * facet_jac (snd c) k j)))) /\
            forall c' s', near c' -> hit q c' s' -> midpoints_apart m vertices own c <= midpoints_apart m vertices own c') \/
         ((forall c' s, near c' -> ~ hit q c' s) /\ exists q' c' s, (q' < num_q offsets)%nat /\ near c' /\ hit q' c' s))).
Proof.
  intros m ct vertex fj vs closest gjk cmap point offsets radius p Q0 C0 old d EQ EC HL Hoff V SQ0 SC NZ Hin E i q Hi Hq own x n near hit f X gap.
  set (Q := map (sub_pair cmap) (firstn (cp_local p) Q0)). set (C := map (sub_pair cmap) C0) in *. set (nq := num_q offsets) in *.
  assert (LQ : length Q = cp_local p) by (unfold Q; rewrite map_length, firstn_length; lia).
  assert (Eown : nth i Q (0, 0)%nat = own).
  { unfold Q. rewrite (nth_map_lt _ _ i (0, 0)%nat (0, 0)%nat) by (rewrite firstn_length; lia). unfold own. f_equal. rewrite <- (firstn_skipn (cp_local p) Q0) at 2. rewrite app_nth1 by (rewrite firstn_length; lia). reflexivity. }
  assert (SQ : search_facets m Q).
  { assert (InQ : forall c, In c Q -> In c (map (sub_pair cmap) Q0)) by (intros c Hc; unfold Q in Hc; rewrite <- firstn_map in Hc; rewrite <- (firstn_skipn (cp_local p) (map (sub_pair cmap) Q0)); apply in_or_app; now left).
    constructor; [intros; apply (se_facet _ _ SQ0); auto|intros; apply (se_regular _ _ SQ0); auto|apply (se_size _ _ SQ0)]. }
  unfold create_distance_map in E. rewrite (quadrature_tuples_flat cmap p Q0 EQ) in E. fold Q in E. rewrite EC, get_submesh_tuples_flat in E. change (map (fun p0 => (hd 0%nat (links cmap (fst p0)), snd p0)) C0) with C in E.
  destruct (mesh_distance_map true m m ct vertex fj vs vs closest gjk point offsets radius (flat2 Q) (flat2 C)) as [[mp ref]|] eqn:EM; [|discriminate]. injection E as <-.
  assert (ER : mesh_raytracing_map m m ct vertex fj vs vs closest gjk point offsets radius (flat2 Q) (flat2 C) = (mp, ref)) by (unfold mesh_distance_map in EM; destruct ct; try discriminate; destruct (_ || _)%bool; (congruence || discriminate)). clear EM.
  assert (HiQ : (i < length Q)%nat) by lia.
  destruct (map_entry m ct vertex fj vs closest gjk point offsets radius Q C i q HiQ Hq) as [H1 H2]. rewrite ER in H1, H2. cbn [fst snd] in H1, H2. cbn [det_map det_ref det_qp] in *. change (nth q (links mp i) 0%Z) with f in H1. unfold contact_point in X. fold nq in H2.
  change (offsets 1 - offsets 0)%nat with nq in H1, H2. fold X in H2.
  pose proof (fun c => patch_is m vs radius Q C i c HiQ) as PI. rewrite Eown in PI.
  pose proof (fun q' c Hq' Hc => hit_is m ct vertex fj point offsets radius Q C V Hoff i q' c HiQ Hq' Hc) as HI. rewrite Eown in HI.
  assert (Hnear : forall c, near c <-> exists a, In a (rs_patch m m vs vs radius (flat2 Q) (flat2 C) i) /\ nth a C (0, 0)%nat = c).
  { intros c. unfold near. split.
    - intros [Hc Ha]. apply (In_nth _ _ (0, 0)%nat) in Hc. destruct Hc as (a & La & Ea). exists a. split; [apply PI; split; [exact La|]; rewrite Ea; exact Ha|exact Ea].
    - intros (a & Ha & <-). apply PI in Ha. split; [apply nth_In; apply Ha|apply Ha]. }
  set (th q := ray_point (m_gdim m) radius (rs_normal m point offsets (flat2 Q) i q) (rs_point m point offsets (flat2 Q) i q) (rs_outcome m m ct vertex fj point offsets (flat2 Q) (flat2 C) i q) (rs_patch m m vs vs radius (flat2 Q) (flat2 C) i)) in *.
  assert (Hnone : forall q', (q' < nq)%nat -> (th q' = None <-> forall c s, near c -> ~ hit q' c s)).
  { intros q' Hq'. unfold th. rewrite ray_point_none. split.
    - intros H c s Hc Hs. apply Hnear in Hc. destruct Hc as (a & Ha & <-). apply (H a Ha). apply HI; [exact Hq'|apply PI in Ha; apply Ha|]. exists s. exact Hs.
    - intros H a Ha P. apply HI in P; [|exact Hq'|apply PI in Ha; apply Ha]. destruct P as (s & P). apply (H (nth a C (0, 0)%nat) s); [apply Hnear; eauto|exact P]. }
  assert (Hsome : forall q' a Y, (q' < nq)%nat -> th q' = Some (a, Y) -> In a (rs_patch m m vs vs radius (flat2 Q) (flat2 C) i) /\ exists s, hit q' (nth a C (0, 0)%nat) s /\ Y = rs_X s).
  { intros q' a Y Hq' H. apply ray_point_in in H. destruct H as (Ha & P & ->). split; [exact Ha|]. destruct (HI q' a Hq' ltac:(apply PI in Ha; apply Ha)) as [P1 P2]. apply P1 in P. destruct P as (s & P). exists s. split; [exact P|]. now apply P2. }
  assert (Gap : forall k, (k < m_gdim m)%nat -> gap k = if (f <? 0)%Z then 0 else geometry_map m (hd 0%nat (m_f_to_c m (Z.to_nat f))) X k - nth k (x q) 0).
  { intros k Hk. unfold gap, contact_gap. cbn [det_map det_ref det_qp]. rewrite pack_gap_entry by auto. fold nq. fold f. destruct (f <? 0)%Z; [reflexivity|]. f_equal. rewrite (q_phys_entry cmap point offsets m p Q0 _ EQ) by (auto; lia).
    unfold x, point_at. rewrite (nth_map_lt _ _ k 0 0%nat) by (now rewrite seq_length). now rewrite seq_nth. }
  assert (Found : forall a, (a < length C)%nat -> f = Z.of_nat (facet_index m (fst (nth a C (0, 0)%nat)) (snd (nth a C (0, 0)%nat))) -> forall k, (k < m_gdim m)%nat -> gap k = geometry_map m (fst (nth a C (0, 0)%nat)) X k - nth k (x q) 0).
  { intros a La Ef k Hk. rewrite (Gap k Hk). destruct (Z.ltb_spec f 0) as [L|L]; [rewrite Ef in L; lia|]. rewrite Ef, Nat2Z.id. rewrite (sf_owner _ _ _ (se_facet _ _ SC _ (nth_In C (0, 0)%nat La))). reflexivity. }
  assert (Cf : forall a, (a < length C)%nat -> nth a (map Z.of_nat (rs_c_facets m (flat2 C))) 0%Z = Z.of_nat (facet_index m (fst (nth a C (0, 0)%nat)) (snd (nth a C (0, 0)%nat)))).
  { intros a La. unfold rs_c_facets. rewrite facet_indices_map, map_map. now rewrite (nth_map_lt _ _ a 0%Z (0, 0)%nat) by auto. }
  unfold assigned in H1, H2. destruct (th q) as [[a Y]|] eqn:Eth.
  - (* hit *)
    right. cbn [fst snd] in H1, H2. destruct (Hsome q a Y Hq Eth) as (Ha & s & Hs & ->). assert (La : (a < length C)%nat) by (apply PI in Ha; apply Ha).
    exists (nth a C (0, 0)%nat). set (c := nth a C (0, 0)%nat) in *. rewrite (Cf a La) in H1. fold c in H1. split; [apply Hnear; eauto|]. split; [exact H1|]. assert (G := Found a La H1). fold c in G. split; [exact G|]. left. exists s.
    destruct Hs as (Er & Hp & Hn & Hr). pose proof Er as Er'. unfold ray_cell in Er'. destruct (C55_hit_in_facet _ _ _ _ _ _ _ _ _ _ _ _ _ Er' Hp) as (P1 & P2 & P3). cbn [mesh_rays rm_type rm_vertex rm_push] in P1, P2, P3.
    assert (EX : X = rs_X s).
    { rewrite H2, P1. unfold reference_map. rewrite <- (vm_volume _ V). apply map_ext_in. intros k Hk. apply in_seq in Hk. rewrite (nth_map_lt _ _ k 0 0%nat) by (rewrite seq_length; lia). now rewrite seq_nth by lia. }
    split; [split; [exact Er|auto]|]. split; [exact EX|]. split; [rewrite EX, P1, (vm_volume _ V); reflexivity|]. split; [exact P3|]. rewrite EX in *. clear H2.
    split; [apply normal_outward; [now apply volume_dimensions|apply (se_regular _ _ SC); now apply nth_In|apply NZ]|]. split; [exact Hn|].
    assert (Gx : forall k, (k < m_gdim m)%nat -> nth k (rs_x s) 0 - nth k (x q) 0 = gap k).
    { intros k Hk. rewrite (G k Hk), P2. rewrite (nth_map_lt _ _ k 0 0%nat) by (now rewrite seq_length). rewrite seq_nth by exact Hk. cbn [Nat.add]. now rewrite push_forward_map. }
    split; [|split].
    + intros Hr0. destruct Hr as [Hr|Hr]; [lra|]. eapply Rle_trans; [|exact Hr]. right. apply rsum_ext. intros k Hk. now rewrite Gx.
    + cbv zeta. assert (U : normn (m_gdim m) (n q) = 1) by (unfold n; rewrite <- Eown, <- (normal_is m point offsets Q Hoff i q HiQ); now apply normal_unit).
      assert (Ln : length (n q) = m_gdim m) by (unfold n, normal_at; now rewrite map_length, seq_length).
      assert (Ht : 0 < 1 / 10 ^ 8) by lra. pose proof (C55_hit_on_ray _ _ _ _ _ _ _ _ _ _ _ _ Ht Ln U Er' Hp) as LD. unfold line_distance2 in LD. cbv zeta in LD. cbn [mesh_rays rm_jac rm_facet_jac] in LD.
      rewrite (rsum_ext (m_gdim m) (fun i0 => (nth i0 (rs_x s) 0 - nth i0 (x q) 0) * nth i0 (n q) 0) (fun k => gap k * nth k (n q) 0)) in LD by (intros k Hk; now rewrite Gx).
      eapply Rle_trans; [|eapply Rle_trans; [exact LD|]]; right; [apply rsum_ext; intros k Hk; now rewrite Gx|].
      f_equal. apply rsum_ext. intros j Hj. apply rsum_ext. intros l Hl. rewrite (rsum_ext (m_gdim m) (fun k => cell_jacobian m (rs_X s) (cell_coordinates m (fst c)) l k * fj (snd c) k j) (fun k => geometry_jacobian m (fst c) (rs_X s) l k * fj (snd c) k j)) by (intros k Hk; now rewrite jacobian_map). reflexivity.
    + intros c' s' Hc' Hs'. apply Hnear in Hc'. destruct Hc' as (a' & Ha' & <-). pose proof (patch_sorted m vs radius Q C i HiQ) as So. rewrite Eown in So.
      apply (ray_point_first (fun a => midpoints_apart m vs own (nth a C (0, 0)%nat)) _ _ _ _ _ _ _ _ So Eth a' Ha'). apply HI; [exact Hq|apply PI in Ha'; apply Ha'|]. exists s'. exact Hs'.
  - destruct (existsb _ (seq 0 nq)) eqn:Ex.
    + (* closest point *)
      right. cbn [fst snd] in H1. apply existsb_exists in Ex. destruct Ex as (q' & Hq' & Ex). apply in_seq in Hq'. destruct (th q') as [[a' Y']|] eqn:Eq'; [|discriminate]. clear Ex.
      destruct (Hsome q' a' Y' ltac:(lia) Eq') as (Ha' & s' & Hs' & _).
      destruct (closest_facet m closest gjk point offsets Q C i q (rs_patch m m vs vs radius (flat2 Q) (flat2 C) i) V Hin HiQ Hq) as (a & Ha & Ef); [intros N; rewrite N in Ha'; destruct Ha'|intros c Hc; apply PI in Hc; apply Hc|].
      assert (La : (a < length C)%nat) by (apply PI in Ha; apply Ha). rewrite Ef in H1. exists (nth a C (0, 0)%nat). split; [apply Hnear; eauto|]. split; [exact H1|]. split; [exact (Found a La H1)|]. right.
      split; [now apply Hnone|]. exists q', (nth a' C (0, 0)%nat), s'. split; [lia|]. split; [apply Hnear; eauto|exact Hs'].
    + left. cbn [fst snd] in H1. split; [exact H1|]. split; [intros k Hk; rewrite (Gap k Hk), H1; reflexivity|].
      intros q' c s Hq' Hc. apply (proj1 (Hnone q' Hq')); [|exact Hc]. destruct (th q') eqn:Eq'; [|reflexivity]. exfalso. assert (F : existsb (fun k => match th k with Some _ => true | None => false end) (seq 0 nq) = true) by (apply existsb_exists; exists q'; split; [apply in_seq; lia|now rewrite Eq']). congruence.
Qed.
Print Assumptions C116_ray_gap.

(** The closest point, one quadrature point at a time. *)
Lemma closest_reached m closest gjk hulls point offsets Q C i q patch : volume_mesh m -> linear_simplices m -> facet_tables m -> search_facets m C ->
  (forall c, In c C -> hulls (facet_index m (fst c) (snd c)) = facet_points m (fst c) (snd c)) -> gjk_exact (length (m_closure m 0)) gjk ->
  (forall l, l <> [] -> (forall c, In c l -> In c C) -> closest_exact hulls closest (map (fun c => facet_index m (fst c) (snd c)) l)) ->
  (i < length Q)%nat -> (q < offsets 1 - offsets 0)%nat -> patch <> [] -> (forall c, In c patch -> (c < length C)%nat) ->
  let r := rs_closest m m closest gjk point offsets (flat2 Q) (flat2 C) i q patch in
  let x := point_at m point offsets (nth i Q (0, 0)%nat) q in
  exists a y, In a patch /\ nth (fst r) (map Z.of_nat (rs_c_facets m (flat2 C))) 0%Z = Z.of_nat (facet_index m (fst (nth a C (0, 0)%nat)) (snd (nth a C (0, 0)%nat))) /\
    in_hull (facet_points m (fst (nth a C (0, 0)%nat)) (snd (nth a C (0, 0)%nat))) y /\ (forall k, (k < m_gdim m)%nat -> geometry_map m (fst (nth a C (0, 0)%nat)) (snd r) k = nth k y 0) /\ length (snd r) = m_tdim m /\
    forall a' z, In a' patch -> in_hull (facet_points m (fst (nth a' C (0, 0)%nat)) (snd (nth a' C (0, 0)%nat))) z ->
      rsum (m_gdim m) (fun k => (nth k y 0 - nth k x 0) * (nth k y 0 - nth k x 0)) <= rsum (m_gdim m) (fun k => (nth k z 0 - nth k x 0) * (nth k z 0 - nth k x 0)).
Proof.
  intros V LS FT SC Hh HG Hcl Hi Hq NE Hc r x. unfold r, rs_closest. cbn [fst snd]. rewrite patch_tuples by exact Hc. set (C' := map (fun c => nth c C (0, 0)%nat) patch). rewrite (point_is m point offsets Q i q Hi Hq). fold x.
  set (pad := x ++ repeat 0 (3 - m_gdim m)). assert (Lx : length x = m_gdim m) by (unfold x, point_at; now rewrite map_length, seq_length). pose proof (vm_dim _ V) as D.
  assert (Lp : length pad = 3%nat) by (unfold pad; rewrite app_length, repeat_length, Lx; lia).
  assert (InC : forall c, In c C' -> In c C) by (intros c Hc'; unfold C' in Hc'; apply in_map_iff in Hc'; destruct Hc' as (a & <- & Ha); apply nth_In; auto).
  assert (NC : C' <> []) by (unfold C'; destruct patch; [congruence|discriminate]).
  destruct (projection_point m closest gjk C' hulls LS FT ltac:(intros; apply (se_facet _ _ SC); auto) ltac:(intros; apply (se_regular _ _ SC); auto) ltac:(intros; apply Hh; auto) HG (Hcl C' NC InC) NC pad 1 ltac:(lia) 0%nat ltac:(lia)) as (p & y & Y & Hp & Ef & Hy & Hmin & EY & HF).
  set (R := compute_projection_map m closest gjk (flat2 C') pad) in *. rewrite Ef, Nat2Z.id. change (3 * 0)%nat with 0%nat in Hmin. change (0 * m_tdim m)%nat with 0%nat in EY. rewrite EY.
  assert (Es : slice pad 0 3 = pad) by (apply (nth_ext _ _ 0 0); [rewrite slice_length by lia; now symmetry|]; rewrite slice_length by lia; intros k Hk; now rewrite nth_slice by exact Hk). rewrite Es in Hmin.
  unfold C' in Hp. apply in_map_iff in Hp. destruct Hp as (a & Ep & Ha). exists a, y. rewrite Ep. split; [exact Ha|].
  assert (InF : In (facet_index m (fst p) (snd p)) (rs_c_facets m (flat2 C))) by (unfold rs_c_facets; rewrite facet_indices_map; apply in_map_iff; exists p; split; [reflexivity|rewrite <- Ep; apply nth_In; auto]).
  destruct (find_index_nth _ _ InF) as [E1 E2]. rewrite (nth_map_lt _ _ _ 0%Z 0%nat) by exact E2. rewrite E1. split; [reflexivity|]. split; [exact Hy|]. split; [exact HF|]. split.
  - rewrite <- EY. apply slice_length. unfold R, compute_projection_map. rewrite Lp. change (3 / 3)%nat with 1%nat. destruct (flat2 C') as [|z F] eqn:EF; cbn [snd]; [rewrite repeat_length; lia|]. rewrite loop_length; [rewrite repeat_length; lia|]. intros. apply loop_length. intros. apply upd_length.
  - intros a' z Ha' Hz. set (c' := nth a' C (0, 0)%nat) in *. assert (P : forall w, (m_gdim m = 2%nat -> nth 2 w 0 = 0) -> distance2 pad w = rsum (m_gdim m) (fun k => (nth k w 0 - nth k x 0) * (nth k w 0 - nth k x 0))).
    { intros w Hw. rewrite (distance_dims m pad w (ls_dims _ LS)) by (intros G; split; [unfold pad; rewrite app_nth2 by (rewrite Lx; lia); now rewrite nth_repeat_0|now apply Hw]). apply rsum_ext. intros k Hk. unfold pad. now rewrite app_nth1 by (rewrite Lx; exact Hk). }
    rewrite <- !P; [apply (Hmin c'); [unfold C'; apply in_map_iff; exists a'; auto|exact Hz]| |]; intros G; eapply hull_planar; eauto.
Qed.

Theorem C116_fallback_is_closest :
  forall (m : mesh_data) (ct : cell_type) (vertex : nat -> nat -> nat -> R) (facet_jac : nat -> matrix) (vertices : nat -> list nat)
    (closest : list nat -> list R -> nat) (gjk : list (list R) -> list R -> list R) (hulls : nat -> list (list R)) (cmap : adj nat) (point : nat -> list R) (offsets : nat -> nat) (radius : R) (p : contact_pair) (Q C : list (nat * nat)) (old d : detection),
    cp_quadrature p = flat2 Q -> cp_candidate p = flat2 C -> (cp_local p <= length Q)%nat -> (forall f, offsets f = (f * num_q offsets)%nat) ->
    volume_mesh m -> linear_simplices m -> facet_tables m -> search_facets m (map (sub_pair cmap) C) ->
    (forall c, In c (map (sub_pair cmap) C) -> hulls (facet_index m (fst c) (snd c)) = facet_points m (fst c) (snd c)) -> gjk_exact (length (m_closure m 0)) gjk ->
    (forall l, l <> [] -> (forall c, In c l -> In c (map (sub_pair cmap) C)) -> closest_exact hulls closest (map (fun c => facet_index m (fst c) (snd c)) l)) ->
    create_distance_map cmap point offsets (fun m Q C => mesh_distance_map true m m ct vertex facet_jac vertices vertices closest gjk point offsets radius Q C) m p old = Some d ->
    forall i q, (i < cp_local p)%nat -> (q < num_q offsets)%nat ->
      let own := sub_pair cmap (nth i Q (0, 0)%nat) in
      let x q := point_at m point offsets own q in
      let near c := In c (map (sub_pair cmap) C) /\ (radius < 0 \/ midpoints_apart m vertices own c < 2 * radius) in
      let hit q := meets m ct vertex facet_jac radius (x q) (normal_at m point offsets own q) in
      let gap k := nth ((i * num_q offsets + q) * m_gdim m + k) (contact_gap offsets m p d) 0 in
      (forall c s, near c -> ~ hit q c s) -> (exists q' c s, (q' < num_q offsets)%nat /\ near c /\ hit q' c s) ->
      exists c y, near c /\ nth q (links (det_map d) i) 0%Z = Z.of_nat (facet_index m (fst c) (snd c)) /\ in_hull (facet_points m (fst c) (snd c)) y /\ (forall k, (k < m_gdim m)%nat -> nth k (x q) 0 + gap k = nth k y 0) /\
        forall c' z, near c' -> in_hull (facet_points m (fst c') (snd c')) z ->
          rsum (m_gdim m) (fun k => gap k * gap k) <= rsum (m_gdim m) (fun k => (nth k z 0 - nth k (x q) 0) * (nth k z 0 - nth k (x q) 0)).
Proof.
  intros m ct vertex fj vs closest gjk hulls cmap point offsets radius p Q0 C0 old d EQ EC HL Hoff V LS FT SC Hh HG Hcl E i q Hi Hq own x near hit gap Hno Hother.
  set (Q := map (sub_pair cmap) (firstn (cp_local p) Q0)). set (C := map (sub_pair cmap) C0) in *. set (nq := num_q offsets) in *.
  assert (LQ : length Q = cp_local p) by (unfold Q; rewrite map_length, firstn_length; lia).
  assert (Eown : nth i Q (0, 0)%nat = own).
  { unfold Q. rewrite (nth_map_lt _ _ i (0, 0)%nat (0, 0)%nat) by (rewrite firstn_length; lia). unfold own. f_equal. rewrite <- (firstn_skipn (cp_local p) Q0) at 2. rewrite app_nth1 by (rewrite firstn_length; lia). reflexivity. }
  unfold create_distance_map in E. rewrite (quadrature_tuples_flat cmap p Q0 EQ) in E. fold Q in E. rewrite EC, get_submesh_tuples_flat in E. change (map (fun p0 => (hd 0%nat (links cmap (fst p0)), snd p0)) C0) with C in E.
  destruct (mesh_distance_map true m m ct vertex fj vs vs closest gjk point offsets radius (flat2 Q) (flat2 C)) as [[mp ref]|] eqn:EM; [|discriminate]. injection E as <-.
  assert (ER : mesh_raytracing_map m m ct vertex fj vs vs closest gjk point offsets radius (flat2 Q) (flat2 C) = (mp, ref)) by (unfold mesh_distance_map in EM; destruct ct; try discriminate; destruct (_ || _)%bool; (congruence || discriminate)). clear EM.
  assert (HiQ : (i < length Q)%nat) by lia.
  destruct (map_entry m ct vertex fj vs closest gjk point offsets radius Q C i q HiQ Hq) as [H1 H2]. rewrite ER in H1, H2. cbn [fst snd] in H1, H2. cbn [det_map det_ref det_qp] in *. change (offsets 1 - offsets 0)%nat with nq in H1, H2.
  pose proof (fun c => patch_is m vs radius Q C i c HiQ) as PI. rewrite Eown in PI.
  pose proof (fun q' c Hq' Hc => hit_is m ct vertex fj point offsets radius Q C V Hoff i q' c HiQ Hq' Hc) as HI. rewrite Eown in HI.
  assert (Hnear : forall c, near c <-> exists a, In a (rs_patch m m vs vs radius (flat2 Q) (flat2 C) i) /\ nth a C (0, 0)%nat = c).
  { intros c. unfold near. split.
    - intros [Hc Ha]. apply (In_nth _ _ (0, 0)%nat) in Hc. destruct Hc as (a & La & Ea). exists a. split; [apply PI; split; [exact La|]; rewrite Ea; exact Ha|exact Ea].
    - intros (a & Ha & <-). apply PI in Ha. split; [apply nth_In; apply Ha|apply Ha]. }
  set (th q := ray_point (m_gdim m) radius (rs_normal m point offsets (flat2 Q) i q) (rs_point m point offsets (flat2 Q) i q) (rs_outcome m m ct vertex fj point offsets (flat2 Q) (flat2 C) i q) (rs_patch m m vs vs radius (flat2 Q) (flat2 C) i)) in *.
  assert (Hnone : forall q', (q' < nq)%nat -> (th q' = None <-> forall c s, near c -> ~ hit q' c s)).
  { intros q' Hq'. unfold th. rewrite ray_point_none. split.
    - intros H c s Hc Hs. apply Hnear in Hc. destruct Hc as (a & Ha & <-). apply (H a Ha). apply HI; [exact Hq'|apply PI in Ha; apply Ha|]. exists s. exact Hs.
    - intros H a Ha P. apply HI in P; [|exact Hq'|apply PI in Ha; apply Ha]. destruct P as (s & P). apply (H (nth a C (0, 0)%nat) s); [apply Hnear; eauto|exact P]. }
  unfold assigned in H1, H2. rewrite (proj2 (Hnone q Hq) Hno) in H1, H2. destruct Hother as (q' & c0 & s0 & Hq' & Hc0 & Hs0).
  assert (Ex : existsb (fun k => match th k with Some _ => true | None => false end) (seq 0 nq) = true).
  { apply existsb_exists. exists q'. split; [apply in_seq; lia|]. destruct (th q') eqn:Eq'; [reflexivity|]. exfalso. exact (proj1 (Hnone q' Hq') Eq' c0 s0 Hc0 Hs0). }
  rewrite Ex in H1, H2. cbn [fst snd] in H1, H2.
  destruct (closest_reached m closest gjk hulls point offsets Q C i q (rs_patch m m vs vs radius (flat2 Q) (flat2 C) i) V LS FT SC Hh HG Hcl HiQ Hq) as (a & y & Ha & Ef & Hy & HF & LX & Hmin).
  - intros N. apply Hnear in Hc0. destruct Hc0 as (a0 & Ha0 & _). rewrite N in Ha0. destruct Ha0.
  - intros c Hc. apply PI in Hc. apply Hc.
  - rewrite Eown in Hmin. rewrite Ef in H1. assert (La : (a < length C)%nat) by (apply PI in Ha; apply Ha). exists (nth a C (0, 0)%nat), y. split; [apply Hnear; eauto|]. split; [exact H1|]. split; [exact Hy|].
    assert (G : forall k, (k < m_gdim m)%nat -> nth k (x q) 0 + gap k = nth k y 0).
    { intros k Hk. unfold gap, contact_gap. cbn [det_map det_ref det_qp]. rewrite pack_gap_entry by auto. fold nq. rewrite H1. destruct (Z.ltb_spec (Z.of_nat (facet_index m (fst (nth a C (0, 0)%nat)) (snd (nth a C (0, 0)%nat)))) 0) as [L|L]; [lia|].
      rewrite Nat2Z.id. rewrite (sf_owner _ _ _ (se_facet _ _ SC _ (nth_In C (0, 0)%nat La))). cbn [hd]. rewrite (q_phys_entry cmap point offsets m p Q0 _ EQ) by (auto; lia).
      unfold x, point_at. rewrite (nth_map_lt _ _ k 0 0%nat) by (now rewrite seq_length). rewrite seq_nth by exact Hk. cbn [Nat.add]. unfold contact_point. rewrite H2. rewrite <- (HF k Hk). set (W := snd (rs_closest _ _ _ _ _ _ _ _ _ _ _)) in *.
      assert (EW : map (fun k => nth k W 0) (seq 0 (m_tdim m)) = W) by (rewrite <- LX; apply (nth_ext _ _ 0 0); [now rewrite map_length, seq_length|]; rewrite map_length, seq_length; intros l Hl; rewrite (nth_map_lt _ _ l 0 0%nat) by (now rewrite seq_length); now rewrite seq_nth).
      rewrite EW. unfold own, sub_pair. cbn [fst snd]. ring. }
    split; [exact G|]. intros c' z Hc' Hz. apply Hnear in Hc'. destruct Hc' as (a' & Ha' & <-). eapply Rle_trans; [|exact (Hmin a' z Ha' Hz)]. right. apply rsum_ext. intros k Hk. rewrite <- (G k Hk). unfold x. ring.
Qed.
Print Assumptions C116_fallback_is_closest.
