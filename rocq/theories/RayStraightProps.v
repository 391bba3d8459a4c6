(** C116 on straight triangles and tetrahedra: the rays traced are the straight lines, and a case in
    which every hypothesis is met. *)
From Coq Require Import List Arith ZArith Lia Bool Reals Lra.
Import ListNotations.
From Verif Require Import Prelude PreludeLemmas RSum CropModel CandidatesModel CandidatesProps RealLemmas SubMeshModel SubMeshProofs EntitiesModel EntitiesProofs GeomModel GeomProps RayModel RayProps KernelModel KernelSpec DistanceModel GapModel GapSpec
  DistanceProofs GapProps PullBackProps ContactNormalProps ShortestGapProps GapExamples RayMapModel RayMapProps RaySearchModel RayFacetProps MeshFrameProofs SearchFrameProofs SearchFrameExamples RayGapProps.
Local Open Scope R_scope.

Lemma rays_affine m ct vertex facet_jac : linear_simplices m -> volume_mesh m -> (forall f k j, (k < m_gdim m)%nat -> (j < m_gdim m - 1)%nat -> facet_jac f k j = vertex f (j + 1)%nat k - vertex f 0%nat k) ->
  affine_cells (m_gdim m) (m_gdim m) (mesh_rays m ct vertex facet_jac) (fun c k => node m c 0 k) (fun c i d => node m c (S d) i - node m c 0 i).
Proof.
  intros LS V HF. split; cbn [mesh_rays rm_push rm_jac rm_facet_jac rm_vertex].
  - intros c X l Hl. rewrite (nth_map_lt _ _ l 0 0%nat) by (now rewrite seq_length). rewrite seq_nth by exact Hl. cbn [Nat.add]. rewrite push_forward_map, (linear_map m LS), (vm_volume _ V). f_equal. apply rsum_ext. intros. ring.
  - intros c X l k Hl Hk. rewrite jacobian_map. apply (linear_jacobian m LS). now rewrite (vm_volume _ V).
  - exact HF.
Qed.

(** A ray is reported to meet a facet exactly if the straight line does: weights of the facet's
    vertices that add up to one, negative by at most 1e-8 (the second one at most 1e-8 above 1), give a
    point of the line.  Facets (nearly) parallel to the line are excepted. *)
Theorem C116_straight_hits :
  forall (m : mesh_data) (ct : cell_type) (vertex : nat -> nat -> nat -> R) (facet_jac : nat -> matrix) (x n : list R) (c : nat * nat),
    let dim := m_gdim m in
    let tol := 1 / 10 ^ 8 in
    let corner j l := geometry_map m (fst c) (map (vertex (snd c) j) (seq 0 dim)) l in
    linear_simplices m -> volume_mesh m -> simplices dim ct -> (forall f k j, (k < dim)%nat -> (j < dim - 1)%nat -> facet_jac f k j = vertex f (j + 1)%nat k - vertex f 0%nat k) ->
    length n = dim -> normn dim n = 1 ->
    ~ Rabs (det (dim - 1) (fun i j => rsum dim (fun l => (corner (j + 1)%nat l - corner 0%nat l) * tangent (compute_tangents dim n) i l))) < tol ->
    (exists s, ray_cell dim dim 25 tol (mesh_rays m ct vertex facet_jac) x n (repeat 0 dim) c = RayOk s /\ (0 < rs_status s)%Z) <->
    (exists (w : nat -> R) (t : R), rsum dim w = 1 /\ (forall j, (j < dim)%nat -> - tol <= w j) /\ w 1%nat <= 1 + tol /\
       forall l, (l < dim)%nat -> rsum dim (fun j => w j * corner j l) = nth l x 0 + t * nth l n 0).
Proof.
  intros m ct vertex fj x n c dim tol corner LS V HS HF Hl Hn Hs.
  assert (EC : forall j l, (l < dim)%nat -> RayFacetProps.corner dim (mesh_rays m ct vertex fj) c j l = corner j l).
  { intros j l Hll. unfold RayFacetProps.corner. cbn [mesh_rays rm_push rm_vertex]. rewrite (nth_map_lt _ _ l 0 0%nat) by (now rewrite seq_length). rewrite seq_nth by exact Hll. cbn [Nat.add]. now rewrite push_forward_map. }
  assert (Hs' : ~ Rabs (det (dim - 1) (facet_slope dim (mesh_rays m ct vertex fj) n c)) < tol).
  { intros H. apply Hs. eapply Rle_lt_trans; [|exact H]. right. f_equal. assert (X : forall i j, facet_slope dim (mesh_rays m ct vertex fj) n c i j = rsum dim (fun l => (corner (j + 1)%nat l - corner 0%nat l) * tangent (compute_tangents dim n) i l)) by (intros i j; unfold facet_slope; apply rsum_ext; intros l Hll; now rewrite !EC).
    unfold det. rewrite <- !X. reflexivity. }
  destruct (candidate dim 25 tol (mesh_rays m ct vertex fj) _ _ x n (rays_affine m ct vertex fj LS V HF) HS Hl Hn ltac:(unfold tol; lra) ltac:(lia) (repeat 0 dim) c Hs') as (r & Er & Hr). split.
  - intros (s & Es & Hp). rewrite Er in Es. injection Es as <-. apply Hr in Hp. destruct Hp as (y & t & (w & W1 & W2 & W3 & W4) & Hy). exists w, t. split; [exact W1|]. split; [exact W2|]. split; [exact W3|].
    intros l Hll. rewrite <- (Hy l Hll), (W4 l Hll). apply rsum_ext. intros j Hj. now rewrite EC.
  - intros (w & t & W1 & W2 & W3 & W4). exists r. split; [exact Er|]. apply Hr. exists (map (fun l => nth l x 0 + t * nth l n 0) (seq 0 dim)), t.
    assert (N : forall l, (l < dim)%nat -> nth l (map (fun l => nth l x 0 + t * nth l n 0) (seq 0 dim)) 0 = nth l x 0 + t * nth l n 0) by (intros l Hll; rewrite (nth_map_lt _ _ l 0 0%nat) by (now rewrite seq_length); now rewrite seq_nth).
    split; [|exact N]. exists w. split; [exact W1|]. split; [exact W2|]. split; [exact W3|]. intros l Hll. rewrite (N l Hll), <- (W4 l Hll). apply rsum_ext. intros j Hj. now rewrite EC.
Qed.
Print Assumptions C116_straight_hits.

(** ** Three triangles facing each other, as in GapExamples: both rays hit *)
(** Vertices of the facets of the reference triangle. *)
Definition triangle_vertex (f j k : nat) : R := match f, j with
  | 0%nat, 0%nat => nth k [1; 0] 0 | 0%nat, _ => nth k [0; 1] 0 | 1%nat, 0%nat => 0 | 1%nat, _ => nth k [0; 1] 0 | _, 0%nat => 0 | _, _ => nth k [1; 0] 0 end.
Definition triangle_facet_jac (f k j : nat) : R := triangle_vertex f (j + 1) k - triangle_vertex f 0 k.
Lemma facing_normal_value c X : (c = 0 \/ c = 1 \/ c = 2)%nat -> facet_normal facing (c, 2)%nat X 0%nat = 0 /\ facet_normal facing (c, 2)%nat X 1%nat = if (c =? 0)%nat then 1 else - 1.
Proof.
  intros Hc. assert (NS : nonsingular facing (geometry_jacobian facing c X)).
  { unfold nonsingular, det, geometry_jacobian, node. destruct Hc as [-> | [-> | ->]]; cbn [facing m_gdim m_tdim m_nodes m_x m_x_dofmap m_dphi Nat.eqb rsum nth Nat.mul Nat.add]; lra. }
  pose proof (normal_outward facing c X (m_ref_normal facing 2) (volume_dimensions _ facing_volume) NS (facing_normals 2)) as H. change (outward_unit_normal facing (geometry_jacobian facing c X) (m_ref_normal facing 2) (facet_normal facing (c, 2)%nat X)) in H. destruct H as (U & T & P). set (n := facet_normal facing (c, 2)%nat X) in *. clearbody n.
  specialize (T (fun k => if (k =? 0)%nat then 1 else 0)). specialize (P (fun k => if (k =? 0)%nat then 0 else - 1)). unfold geometry_jacobian, node in T, P. change (m_gdim facing) with 2%nat in *. change (m_tdim facing) with 2%nat in *.
  cbn [facing m_nodes m_ref_normal rsum Nat.eqb] in U, T, P. specialize (T ltac:(lra)). specialize (P ltac:(lra)).
  destruct Hc as [-> | [-> | ->]]; cbn [facing m_x m_x_dofmap m_dphi Nat.eqb nth Nat.mul Nat.add] in T, P |- *; assert (N0 : n 0%nat = 0) by lra; rewrite N0 in *; (split; [reflexivity|]).
  - assert (E : (n 1%nat - 1) * (n 1%nat + 1) = 0) by lra. apply Rmult_integral in E. lra.
  - assert (E : (n 1%nat - 1) * (n 1%nat + 1) = 0) by lra. apply Rmult_integral in E. lra.
  - assert (E : (n 1%nat - 1) * (n 1%nat + 1) = 0) by lra. apply Rmult_integral in E. lra.
Qed.

Lemma facing_point_value q : (q < 2)%nat -> point_at facing facing_points facing_offsets (0, 2)%nat q = [if (q =? 0)%nat then 1/4 else 3/4; 0].
Proof.
  intros Hq. assert (Eq : (q = 0 \/ q = 1)%nat) by lia. unfold point_at, geometry_map, node, facing_points, facing_offsets.
  destruct Eq as [-> | ->]; cbn [fst snd seq map Nat.mul Nat.add Nat.even facing m_gdim m_nodes m_phi m_x m_x_dofmap rsum nth Nat.eqb]; (f_equal; [lra|f_equal; lra]).
Qed.
Lemma facing_normal_list q : normal_at facing facing_points facing_offsets (0, 2)%nat q = [0; 1].
Proof. unfold normal_at. cbn [facing m_gdim seq map]. destruct (facing_normal_value 0 (facing_points (facing_offsets 2 + q)) (or_introl eq_refl)) as [E0 E1]. cbn [fst snd]. fold facing. rewrite E0, E1. reflexivity. Qed.
Lemma facing_hits q : (q < 2)%nat -> exists s, meets facing Triangle triangle_vertex triangle_facet_jac (-1) [if (q =? 0)%nat then 1/4 else 3/4; 0] [0; 1] (if (q =? 0)%nat then (1, 2) else (2, 2))%nat s.
Proof.
  intros Hq. assert (Eq : (q = 0 \/ q = 1)%nat) by lia. set (c := if (q =? 0)%nat then (1, 2)%nat else (2, 2)%nat).
  assert (U : normn 2 [0; 1] = 1) by (unfold normn, dotn; cbn [rsum nth]; replace (0 + 0 * 0 + 1 * 1) with 1 by ring; apply sqrt_1).
  assert (Co : forall j, (j < 2)%nat -> geometry_map facing (fst c) (map (triangle_vertex (snd c) j) (seq 0 2)) 0%nat = (if (q =? 0)%nat then 0 else 1/2) + (if (j =? 0)%nat then 0 else 1/2) /\ geometry_map facing (fst c) (map (triangle_vertex (snd c) j) (seq 0 2)) 1%nat = 1).
  { intros j Hj. assert (Ej : (j = 0 \/ j = 1)%nat) by lia. unfold c. destruct Eq as [-> | ->], Ej as [-> | ->]; unfold geometry_map, node; cbn [fst snd seq map facing m_nodes m_phi m_x m_x_dofmap rsum nth Nat.eqb Nat.mul Nat.add triangle_vertex]; split; lra. }
  pose proof (C116_straight_hits facing Triangle triangle_vertex triangle_facet_jac [if (q =? 0)%nat then 1/4 else 3/4; 0] [0; 1] c facing_linear facing_volume (or_introl (conj eq_refl eq_refl)) (fun f k j _ _ => eq_refl) eq_refl U) as HH. cbv zeta in HH.
  match type of HH with ?A -> _ => assert (HS : A) end.
  { change (m_gdim facing) with 2%nat. destruct (Co 0%nat ltac:(lia)) as [C00 C01]. destruct (Co 1%nat ltac:(lia)) as [C10 C11].
    pose proof (C54_tangents_2d [0; 1] eq_refl U) as (t & Et & _ & Tn & To). rewrite Et. unfold det, tangent. cbn [Nat.sub Nat.eqb rsum nth Nat.add]. rewrite C00, C01, C10, C11. apply dot1_of_norm in Tn. unfold dotn in Tn, To. cbn [rsum nth] in Tn, To. cbn [Nat.eqb].
    set (t0 := nth 0 t 0) in *. set (t1 := nth 1 t 0) in *. assert (t1 = 0) by lra. assert (E : (t0 - 1) * (t0 + 1) = 0) by nra. apply Rmult_integral in E. unfold Rabs. destruct (Rcase_abs _) as [L|L]; destruct (q =? 0)%nat; lra. }
  destruct (proj2 (HH HS)) as (s & Es & Hp).
  - exists (fun _ => 1/2), 1. change (m_gdim facing) with 2%nat. destruct (Co 0%nat ltac:(lia)) as [C00 C01]. destruct (Co 1%nat ltac:(lia)) as [C10 C11]. split; [cbn; lra|]. split; [intros; lra|]. split; [lra|].
    intros l Hl. assert (El : (l = 0 \/ l = 1)%nat) by lia. destruct El as [-> | ->]; cbn [rsum nth Nat.eqb] in *; rewrite ?C00, ?C01, ?C10, ?C11; destruct (q =? 0)%nat; lra.
  - exists s. split; [exact Es|]. split; [exact Hp|]. split; [|left; lra]. change (m_gdim facing) with 2%nat. cbn [rsum nth].
    assert (Ec : exists a, c = (a, 2)%nat /\ (a = 1 \/ a = 2)%nat) by (unfold c; destruct (q =? 0)%nat; eauto). destruct Ec as (a & -> & Ha). destruct (facing_normal_value a (rs_X s) ltac:(lia)) as [E0 E1]. rewrite E0, E1. destruct Ha as [-> | ->]; cbn [Nat.eqb]; lra.
Qed.

(** Every hypothesis of C116 holds; each gap has height one and leans by at most 1e-8. *)
Example C116_nonvacuous :
  exists d, create_distance_map facing_cells facing_points facing_offsets
      (fun m Q C => mesh_distance_map true m m Triangle triangle_vertex triangle_facet_jac facing_vertices facing_vertices (segment_closest facing_hulls) segment_gjk facing_points facing_offsets (-1) Q C) facing facing_pair (mkDetection (mkAdj [] []) [] []) = Some d /\
    forall q, (q < 2)%nat -> Rabs (nth (q * 2)%nat (contact_gap facing_offsets facing facing_pair d) 0) <= 1 / 10 ^ 8 /\ nth (q * 2 + 1)%nat (contact_gap facing_offsets facing facing_pair d) 0 = 1.
Proof.
  set (search := fun m Q C => _).
  assert (E0 : exists d, create_distance_map facing_cells facing_points facing_offsets search facing facing_pair (mkDetection (mkAdj [] []) [] []) = Some d).
  { unfold create_distance_map, search, mesh_distance_map. change (m_gdim facing) with 2%nat. change (m_tdim facing) with 2%nat. cbn [Nat.eqb andb orb]. destruct (mesh_raytracing_map _ _ _ _ _ _ _ _ _ _ _ _ _ _) as [mp ref]. eexists. reflexivity. }
  destruct E0 as (d & Ed). exists d. split; [exact Ed|]. intros q Hq.
  assert (SQ : search_facets facing (map (sub_pair facing_cells) [(0, 2)]%nat)) by (clear; apply facing_search; cbn; tauto).
  assert (SC : search_facets facing (map (sub_pair facing_cells) [(1, 2); (2, 2)]%nat)) by (clear; apply facing_search; cbn; tauto).
  pose proof (C116_ray_gap facing Triangle triangle_vertex triangle_facet_jac facing_vertices (segment_closest facing_hulls) segment_gjk facing_cells facing_points facing_offsets (-1) facing_pair [(0, 2)]%nat [(1, 2); (2, 2)]%nat (mkDetection (mkAdj [] []) [] []) d
    eq_refl eq_refl (le_n 1) (fun f => eq_refl) facing_volume SQ SC facing_normals (segment_closest_in facing_hulls) Ed 0%nat q (le_n 1) Hq) as H. cbv zeta in H.
  change (num_q facing_offsets) with 2%nat in H. change (m_gdim facing) with 2%nat in H. change (sub_pair facing_cells (nth 0 [(0, 2)]%nat (0, 0)%nat)) with (0, 2)%nat in H. change (map (sub_pair facing_cells) [(1, 2); (2, 2)]%nat) with [(1, 2); (2, 2)]%nat in H.
  cbn [Nat.mul Nat.add] in H. set (gap := contact_gap facing_offsets facing facing_pair d) in *. clearbody gap. destruct (facing_hits q Hq) as (s0 & Hs0). rewrite <- (facing_point_value q Hq), <- (facing_normal_list q) in Hs0. set (c0 := if (q =? 0)%nat then (1, 2)%nat else (2, 2)%nat) in Hs0.
  assert (N0 : In c0 [(1, 2); (2, 2)]%nat /\ (-1 < 0 \/ midpoints_apart facing facing_vertices (0, 2)%nat c0 < 2 * -1)) by (split; [unfold c0; destruct (q =? 0)%nat; cbn; auto|left; lra]).
  destruct H as [(_ & _ & H) | (c & [Hc _] & _ & G & [(s & _ & _ & EX & _ & _ & _ & _ & LD & _) | (H & _)])]; [exfalso; exact (H q c0 s0 Hq N0 Hs0)| |exfalso; exact (H c0 s0 N0 Hs0)].
  set (X := contact_point facing (det_ref d) (q : nat)) in *. clearbody X. rewrite (facing_point_value q Hq) in G. rewrite (facing_normal_list q) in LD. cbv zeta in LD.
  pose proof (G 1%nat ltac:(lia)) as G1. rewrite EX in G1.
  assert (G1' : nth (q * 2 + 1) gap 0 = 1).
  { rewrite G1. cbn [In] in Hc. destruct Hc as [<- | [<- | []]]; unfold geometry_map, node, reference_map; cbn [fst snd facing m_tdim seq map m_nodes m_phi m_x m_x_dofmap rsum nth Nat.mul Nat.add triangle_vertex Nat.sub]; lra. }
  split; [|exact G1']. cbn [rsum nth Nat.sub] in LD. rewrite Nat.add_0_r in LD. rewrite G1' in LD. set (g := nth (q * 2) gap 0) in *.
  assert (B : g * g <= 1 / 10 ^ 8 * (1 / 10 ^ 8)).
  { rewrite EX in LD. cbn [In] in Hc. destruct Hc as [<- | [<- | []]]; unfold geometry_jacobian, node, triangle_facet_jac in LD; cbn [fst snd facing m_nodes m_dphi m_x m_x_dofmap rsum nth Nat.mul Nat.add triangle_vertex Nat.eqb] in LD; lra. }
  apply Rsqr_le_abs_0 in B. rewrite (Rabs_right (1 / 10 ^ 8)) in B by lra. exact B.
Qed.
Print Assumptions C116_nonvacuous.
