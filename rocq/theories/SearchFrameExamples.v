(** The hypotheses of C115 are met: three triangles of GapExamples, turned by any angle and shifted. *)
From Coq Require Import List Arith ZArith Lia Bool Reals Lra.
Import ListNotations.
From Verif Require Import Prelude PreludeLemmas RSum CropModel CandidatesProps RealLemmas SubMeshModel SubMeshProofs EntitiesModel EntitiesProofs GeomModel GeomProps RayModel RayProps KernelModel KernelSpec DistanceModel GapModel GapSpec
  DistanceProofs GapProps PullBackProps ContactNormalProps ShortestGapProps GapExamples RayMapModel RayMapProps RaySearchModel ElasticityProps RigidBalanceProps FrameProofs RayFrameProps MeshFrameProofs SearchFrameProofs SearchFrameProps.
Local Open Scope R_scope.

(** A search in the turned frame that names the same facets: turn the point back. *)
Definition turned_back (dim : nat) (O : nat -> nat -> R) (t : nat -> R) (x : list R) : list R :=
  map (fun k => rsum 3 (fun a => extend dim O a k * (nth a x 0 - extend_shift dim t a))) (seq 0 3).
Lemma turned_back_same dim O t closest : (dim = 2 \/ dim = 3)%nat -> orthogonal dim O -> (forall facets x, facets <> [] -> length x = 3%nat -> In (closest facets x) facets) ->
  same_closest dim O t closest (fun facets x => closest facets (turned_back dim O t x)).
Proof.
  intros D HO HI facets x x' NE Lx Lx' HP. split; [now apply HI|]. f_equal. apply (nth_ext _ _ 0 0); [unfold turned_back; rewrite map_length, seq_length; now symmetry|].
  unfold turned_back. rewrite map_length, seq_length. intros k Hk. rewrite (nth_map_lt _ _ k 0 0%nat) by (now rewrite seq_length). rewrite seq_nth by exact Hk. cbn [Nat.add].
  rewrite (rsum_ext 3 _ (fun a => rsum 3 (fun b => extend dim O a k * extend dim O a b * nth b x 0))).
  - rewrite rsum_swap. rewrite (rsum_ext 3 _ (fun b => delta k b * nth b x 0)).
    + assert (Ek : (k = 0 \/ k = 1 \/ k = 2)%nat) by lia. destruct Ek as [-> | [-> | ->]]; cbn [rsum delta Nat.eqb]; unfold delta; cbn [Nat.eqb]; ring.
    + intros b Hb. rewrite rsum_scal_r. f_equal. apply (extend_orthogonal dim O D HO k b Hk Hb).
  - intros a Ha. rewrite (HP a Ha). unfold turn. cbn [rsum]. ring.
Qed.

Definition rotation2 (angle : R) (a b : nat) : R := match a, b with 0%nat, 0%nat => cos angle | 0%nat, _ => - sin angle | _, 0%nat => sin angle | _, _ => cos angle end.
Lemma rotation2_orthogonal angle : orthogonal 2 (rotation2 angle).
Proof.
  assert (E := sin2_cos2 angle). unfold Rsqr in E. intros a b Ha Hb. assert (Ea : (a = 0 \/ a = 1)%nat) by lia. assert (Eb : (b = 0 \/ b = 1)%nat) by lia.
  destruct Ea as [-> | ->], Eb as [-> | ->]; unfold delta; cbn [rsum rotation2 Nat.eqb]; split; try ring; lra.
Qed.
Definition facing_vertices (f : nat) : list nat := match f with 5 => [3; 4] | 8 => [4; 6] | _ => [0; 1] end%nat.
Lemma facing_volume : volume_mesh facing.
Proof.
  split.
  - now left.
  - reflexivity.
  - intros c j Hj. cbn [facing m_nodes] in Hj. destruct c as [|[|c]]; assert (Ej : (j = 0 \/ j = 1 \/ j = 2)%nat) by lia; destruct Ej as [-> | [-> | ->]]; cbn; lia.
  - intros X. cbn [facing m_nodes m_phi rsum]. ring.
  - intros X d Hd. cbn [facing m_tdim] in Hd. assert (Ed : (d = 0 \/ d = 1)%nat) by lia. destruct Ed as [-> | ->]; cbn [facing m_nodes m_dphi rsum Nat.eqb]; ring.
Qed.
Lemma facing_search C : (forall p, In p C -> In p [(0, 2); (1, 2); (2, 2)]%nat) -> search_facets facing C.
Proof.
  intros HC. split.
  - intros p Hp. apply HC in Hp. cbn [In] in Hp. destruct Hp as [<- | [<- | [<- | []]]]; cbn [fst snd]; [|apply facing_facet; auto|apply facing_facet; auto].
    split; [cbn; lia|cbn; repeat constructor; cbn; lia|reflexivity|]. intros j Hj. cbn [facing m_closure In] in Hj. destruct Hj as [<- | [<- | []]]; cbn; lia.
  - intros p X Hp. apply HC in Hp. cbn [In] in Hp. unfold nonsingular, det, geometry_jacobian, node.
    destruct Hp as [<- | [<- | [<- | []]]]; cbn [fst snd facing m_gdim m_tdim m_nodes m_x m_x_dofmap m_dphi Nat.eqb rsum nth Nat.mul Nat.add]; lra.
  - intros [|[|f]]; reflexivity.
Qed.
Lemma facing_normals f : nonzero facing (m_ref_normal facing f).
Proof.
  unfold nonzero. destruct f as [|[|f]].
  - exists 0%nat. cbn [facing m_tdim m_ref_normal]. split; [lia|]. assert (0 < sqrt 2) by (apply sqrt_lt_R0; lra). intros E. assert (K : 1 / sqrt 2 > 0) by (apply Rdiv_lt_0_compat; lra). lra.
  - exists 0%nat. cbn [facing m_tdim m_ref_normal]. split; [lia|lra].
  - exists 1%nat. cbn [facing m_tdim m_ref_normal]. split; [lia|lra].
Qed.
Lemma facing_vertices_exist p : In p [(0, 2); (1, 2); (2, 2)]%nat -> facet_nodes_exist (m_x facing) (facing_vertices (facet_index facing (fst p) (snd p))).
Proof.
  intros Hp. cbn [In] in Hp. destruct Hp as [<- | [<- | [<- | []]]]; (split; [discriminate|]); intros n Hn; cbn in Hn; destruct Hn as [<- | [<- | []]]; cbn; lia.
Qed.
Lemma segment_closest_in hulls facets x : facets <> [] -> length x = 3%nat -> In (segment_closest hulls facets x) facets.
Proof. intros NE _. apply argmin_spec. exact NE. Qed.

(** Both modes: the turned mesh gives the same distance map. *)
Example C115_distance_map_nonvacuous : forall (raytracing : bool) (angle : R) (t : nat -> R) (vertex : nat -> nat -> nat -> R) (facet_jac : nat -> matrix) (radius : R),
  let m' := turned_geometry (rotation2 angle) t facing in
  let closest' facets x := segment_closest facing_hulls facets (turned_back 2 (rotation2 angle) t x) in
  mesh_distance_map raytracing m' m' Triangle vertex facet_jac facing_vertices facing_vertices closest' segment_gjk facing_points facing_offsets radius (flat2 [(0, 2)]%nat) (flat2 [(1, 2); (2, 2)]%nat) =
  mesh_distance_map raytracing facing facing Triangle vertex facet_jac facing_vertices facing_vertices (segment_closest facing_hulls) segment_gjk facing_points facing_offsets radius (flat2 [(0, 2)]%nat) (flat2 [(1, 2); (2, 2)]%nat).
Proof.
  intros rt angle t vertex fj radius m' closest'.
  apply (C115_distance_map rt (rotation2 angle) t facing facing Triangle vertex fj facing_vertices facing_vertices (segment_closest facing_hulls) closest' segment_gjk); auto using facing_volume, facing_normals, segment_gjk_exact.
  - apply rotation2_orthogonal.
  - apply facing_search. cbn. tauto.
  - apply facing_search. cbn. tauto.
  - intros p Hp. apply facing_vertices_exist. cbn [In map app sub_pair fst snd] in Hp |- *. tauto.
  - intros p Hp. apply facing_vertices_exist. cbn [In map app sub_pair fst snd] in Hp |- *. tauto.
  - apply turned_back_same; [now left|apply rotation2_orthogonal|intros; now apply segment_closest_in].
  - intros E. discriminate E.
Qed.

(** The gap, straight up on the original mesh, is straight up turned by the angle. *)
Example C115_contact_nonvacuous : forall (angle : R) (t : nat -> R),
  let m' := turned_geometry (rotation2 angle) t facing in
  let closest' facets x := segment_closest facing_hulls facets (turned_back 2 (rotation2 angle) t x) in
  exists d', create_distance_map facing_cells facing_points facing_offsets
              (fun m Q C => mesh_distance_map false m m Triangle (fun _ _ _ => 0) (fun _ _ _ => 0) facing_vertices facing_vertices closest' segment_gjk facing_points facing_offsets 0 Q C) m' facing_pair (mkDetection (mkAdj [] []) [] []) = Some d' /\
    forall q, (q < 2)%nat -> nth (q * 2)%nat (contact_gap facing_offsets m' facing_pair d') 0 = - sin angle /\ nth (q * 2 + 1)%nat (contact_gap facing_offsets m' facing_pair d') 0 = cos angle.
Proof.
  intros angle t m' closest'. destruct C77_nonvacuous as (d & E & G).
  assert (HV : forall p, In p (map (sub_pair facing_cells) ([(0, 2)] ++ [(1, 2); (2, 2)])%nat) -> facet_nodes_exist (m_x facing) (facing_vertices (facet_index facing (fst p) (snd p)))).
  { clear. intros p Hp. apply facing_vertices_exist. exact Hp. }
  assert (SQ : search_facets facing (map (sub_pair facing_cells) [(0, 2)]%nat)) by (clear; apply facing_search; cbn; tauto).
  assert (SC : search_facets facing (map (sub_pair facing_cells) [(1, 2); (2, 2)]%nat)) by (clear; apply facing_search; cbn; tauto).
  assert (HC : same_closest 2 (rotation2 angle) t (segment_closest facing_hulls) closest') by (apply turned_back_same; [now left|apply rotation2_orthogonal|intros; now apply segment_closest_in]).
  destruct (C115_contact_data false (rotation2 angle) t facing Triangle (fun _ _ _ => 0) (fun _ _ _ => 0) facing_vertices (segment_closest facing_hulls) closest' segment_gjk facing_cells facing_points facing_offsets 0 facing_pair
    [(0, 2)]%nat [(1, 2); (2, 2)]%nat (mkDetection (mkAdj [] []) [] []) (mkDetection (mkAdj [] []) [] []) d eq_refl eq_refl (le_n 1) (fun f => eq_refl) facing_volume (rotation2_orthogonal angle) SQ SC facing_normals HV segment_gjk_exact HC ltac:(discriminate) E) as (d' & E' & _ & _ & H).
  exists d'. split; [exact E'|]. intros q Hq. destruct (G q Hq) as [G0 G1].
    destruct (H 0%nat q 0%nat ltac:(cbn; lia) Hq ltac:(cbn; lia)) as [H0 _]. destruct (H 0%nat q 1%nat ltac:(cbn; lia) Hq ltac:(cbn; lia)) as [H1 _]. fold m' in H0, H1.
    change (num_q facing_offsets) with 2%nat in H0, H1. change (m_gdim facing) with 2%nat in H0, H1. unfold turn in H0, H1. cbn [rsum Nat.mul Nat.add rotation2] in H0, H1. rewrite Nat.add_0_r in H0, H1.
    rewrite H0, H1, G0, G1. split; ring.
Qed.
Print Assumptions C115_contact_nonvacuous.

(** The turned mesh's cells as the ray search sees them. *)
Example C115_raytracing_nonvacuous : forall angle t vertex facet_jac,
  turned_mesh 2 (rotation2 angle) t (mesh_rays facing Triangle vertex facet_jac) (mesh_rays (turned_geometry (rotation2 angle) t facing) Triangle vertex facet_jac).
Proof. intros. exact (rays_turned (rotation2 angle) t facing Triangle vertex facet_jac facing_volume). Qed.
