(** C118: the stored gap of two triangles, one of them displaced by 1/4. *)
From Coq Require Import List Arith ZArith Lia Bool Reals Lra.
Import ListNotations.
From Verif Require Import Prelude PreludeLemmas RSum RealLemmas EntitiesModel CropModel CandidatesModel CandidatesProps SubMeshModel SubMeshProofs LayoutModel LayoutProps ContactProblemModel ContactProblemProps.
From Verif Require Import PackingModel PackUProps AssemblyModel AssemblyProofs AssemblyProps RayModel KernelModel KernelProofs KernelSpec DistanceModel GapModel GapSpec DistanceProofs GapProps PullBackProps ContactNormalProps ShortestGapProps GapExamples RaySearchModel RayFrameProps
  ElasticityProps ContactKernelModel ContactKernelSpec ContactKernelProps CoefficientsModel CoefficientsProps SystemSpec TieSystemModel TieSystemProofs TieSystemProps
  ContactSystemModel ContactSystemSpec ContactSystemProofs ContactSystemProps TieSystemExamples ContactSystemExamples SystemWeakProps TieFormProps ContactFormProps ContactFormExamples RigidBalanceProps FrameProofs FrameProps FrameExamples MeshFrameProofs SearchFrameProofs SearchFrameProps SearchFrameExamples
  RayStraightProps MeshContactModel MeshContactProps MeshContactExamples FacetPlaneProofs MeshGapProps.
Local Open Scope R_scope.

Definition two_hulls (s : R) (f : nat) : list (list R) := facet_points (at_geometry two_mesh (two_nodes s)) f 0.

Lemma two_closest_setting s : closest_setting (at_geometry two_mesh (two_nodes s)) two_cells_map (two_closest (two_nodes s)) segment_gjk (two_hulls s) (two_surface 0) [(0, 0)]%nat [(1, 0)]%nat.
Proof.
  split.
  - split; cbn [at_geometry two_mesh facing m_gdim m_tdim m_nodes m_affine m_phi m_dphi]; auto; [left; auto|]. intros. cbn [rsum]. ring.
  - apply two_volume.
  - split.
    + intros [|[|f]]; reflexivity.
    + cbn. lia.
    + intros f j Hj. cbn [at_geometry two_mesh m_nodes]. destruct f as [|[|f]]; cbn in Hj; lia.
    + intros _ cell j. unfold node. destruct cell as [|c]; destruct j as [|[|[|j]]]; cbn [at_geometry two_mesh two_nodes tri_cells m_x m_x_dofmap nth Nat.mul Nat.add]; auto; destruct j; reflexivity.
  - split.
    + intros f Hf. change (f <= 2)%nat in Hf. assert (E : (f = 0 \/ f = 1 \/ f = 2)%nat) by lia. destruct E as [-> | [-> | ->]]; reflexivity.
    + split; [|intros k Hk; reflexivity]. change (0 < 1 / sqrt 2). assert (0 < sqrt 2) by (apply sqrt_lt_R0; lra). apply Rdiv_lt_0_compat; lra.
    + intros f Hf. change (f < 2)%nat in Hf. below2 Hf; (split; [cbn; lra|]); intros k Hk N; change (k < 2)%nat in Hk; below2 Hk; (reflexivity || contradiction).
  - exact facing_normals.
  - reflexivity.
  - cbn. lia.
  - reflexivity.
  - discriminate.
  - intros c [<-|[]]. pose proof (two_facets s [(1, 0)]%nat ltac:(cbn; tauto)) as [F1 F2 _]. split; [apply F1; now left|]. split; [cbn; lia|]. split; [apply (F2 (1, 0)%nat); now left|reflexivity].
  - exact segment_gjk_exact.
  - intros p _. cbn [map sub_pair fst snd]. split; [left; reflexivity|]. intros f z [<-|[]] Hz. exists z. split; [exact Hz|apply Rle_refl].
Qed.

(** The first triangle's facet lies 1/4 / sqrt 2 off the second's, whose middle part is nearest. *)
Example C118_nonvacuous :
  let s := mesh_state (tri_pd true) (tri_pair true) (two_nodes 0) mesh_calls in
  cp_ready s = true /\ cp_geom s = two_nodes (1/4) /\ closest_setting (at_geometry two_mesh (cp_geom s)) two_cells_map (two_closest (cp_geom s)) segment_gjk (two_hulls (1/4)) (two_surface 0) [(0, 0)]%nat [(1, 0)]%nat /\
  0 < stored_gap (tri_pd true) s 0 0 0 /\ stored_gap (tri_pd true) s 0 0 0 * stored_gap (tri_pd true) s 0 0 0 = 1 / 32.
Proof.
  intros s. destruct mesh_scalars as (S1 & _). assert (HR : cp_ready s = true) by (unfold s; rewrite S1; reflexivity).
  assert (HG : cp_geom s = two_nodes (1/4)).
  { unfold s. pose proof (inv_after (tri_pd true) 2 (tri_pair true) (fun _ => 1%nat) (fun _ f => [f]) (fun _ => [[1]]) two_mesh two_sub Triangle (fun _ _ _ => 0) (fun _ _ _ => 0) two_vertices two_closest segment_gjk two_cells_map two_point two_offsets (fun _ => false) 0 two_surface two_table (fun _ => le_n 1) (two_nodes 0) mesh_calls) as (_ & E & _). etransitivity; [exact E|].
    unfold history_of, mesh_calls. cbn [fold_left hist_step h_geom given two_dict d_mu d_lambda andb]. now rewrite two_moved by reflexivity. }
  assert (HS : closest_setting (at_geometry two_mesh (cp_geom s)) two_cells_map (two_closest (cp_geom s)) segment_gjk (two_hulls (1/4)) (two_surface 0) [(0, 0)]%nat [(1, 0)]%nat) by (rewrite HG; apply two_closest_setting).
  split; [exact HR|]. split; [exact HG|]. split; [exact HS|].
  pose proof (C118_stored_gap_is_distance (tri_pd true) 2 (tri_pair true) (fun _ => 1%nat) (fun _ f => [f]) (fun _ => [[1]]) two_mesh two_sub Triangle (fun _ _ _ => 0) (fun _ _ _ => 0) two_vertices two_closest segment_gjk two_cells_map two_point two_offsets (fun _ => false) 0 two_surface two_table
    eq_refl eq_refl (fun i => eq_refl) (fun _ => le_n 1) (two_nodes 0) mesh_calls 0 (two_hulls (1/4)) [(0, 0)]%nat [(1, 0)]%nat) as X. cbv zeta in X. fold s in X.
  specialize (X HR ltac:(lia) eq_refl ltac:(discriminate) ltac:(intros; cbn; lia) HS 0%nat 0%nat ltac:(cbn; lia) ltac:(cbn; lia)). rewrite HG in X.
  destruct X as (c & y & Hc & _ & _ & _ & (N1 & N2 & N3) & HH & _). destruct Hc as [<-|[]].
  set (n := stored_normal (tri_pd true) s 0 0 0) in *. set (gap := stored_gap (tri_pd true) s 0 0 0) in *.
  specialize (HH [1/4; 1; 0]). rewrite HH; clear HH.
  2:{ exists (fun l => match l with O => 1 | _ => 0 end). split; [intros [|l] _; lra|]. split; [cbn [facet_points two_mesh at_geometry facing m_closure map length fst snd sub_pair rsum]; ring|].
      intros k Hk. destruct k as [|[|[|k]]]; [| | |lia]; cbn; lra. }
  clear gap. clearbody n. clear HS HG HR S1 s y. set (n0 := n 0%nat) in *. set (n1 := n 1%nat) in *. cbn in N1. fold n0 n1 in N1.
  specialize (N2 (fun k => match k with O => 1 | _ => -1 end)). cbn in N2. fold n0 n1 in N2. specialize (N3 (fun k => 1)). cbn in N3. fold n0 n1 in N3.
  assert (P2 : 0 < 1 / sqrt 2) by (apply Rdiv_lt_0_compat; [lra|apply sqrt_lt_R0; lra]).
  cbn. fold n0 n1. specialize (N2 ltac:(lra)). specialize (N3 ltac:(lra)).
  assert (E : n1 = n0) by lra. rewrite E in *. split; nra.
Qed.
Print Assumptions C118_nonvacuous.

(** The same triangles searched by rays: what the theorem asks for holds, and the normal stored is that of the facet x + y = 1. *)
Notation ray_routine r := (r two_mesh Triangle triangle_vertex triangle_facet_jac two_vertices two_closest segment_gjk two_cells_map two_point two_offsets (fun _ : nat => true) (-1) 2%nat two_surface).
Notation ray_state_after calls := (contact_after (tri_pd true) 2 (tri_pair true) (ray_routine mesh_basis two_table) (fun _ => 1%nat) (mesh_move (tri_pd true) two_sub) (ray_routine mesh_detect) (ray_routine mesh_gap) (ray_routine mesh_normals) (fun _ f => [f]) (fun _ => [[1]]) (two_nodes 0) calls).
Example C118_ray_nonvacuous :
  let s := ray_state_after mesh_calls in
  cp_ready s = true /\ cp_geom s = two_nodes (1/4) /\ ray_routine mesh_found (cp_geom s) 0%nat <> None /\
  volume_mesh (at_geometry two_mesh (cp_geom s)) /\ search_facets (at_geometry two_mesh (cp_geom s)) [(0, 0); (1, 0)]%nat /\
  stored_normal (tri_pd true) s 0 0 0 0 = stored_normal (tri_pd true) s 0 0 0 1 /\ 0 < stored_normal (tri_pd true) s 0 0 0 0.
Proof.
  intros s. assert (SS : same_scalars 2 (fun _ => 1%nat) two_s s) by (apply run_scalars; [cbn; lia|]; unfold two_calls, mesh_calls; repeat (apply Forall2_cons; [cbn; auto|]); apply Forall2_nil).
  destruct SS as (S1 & _). assert (HR : cp_ready s = true) by (rewrite S1; reflexivity).
  assert (HG : cp_geom s = two_nodes (1/4)).
  { unfold s. pose proof (inv_after (tri_pd true) 2 (tri_pair true) (fun _ => 1%nat) (fun _ f => [f]) (fun _ => [[1]]) two_mesh two_sub Triangle triangle_vertex triangle_facet_jac two_vertices two_closest segment_gjk two_cells_map two_point two_offsets (fun _ => true) (-1) two_surface two_table (fun _ => le_n 1) (two_nodes 0) mesh_calls) as (_ & E & _). etransitivity; [exact E|].
    unfold history_of, mesh_calls. cbn [fold_left hist_step h_geom given two_dict d_mu d_lambda andb]. now rewrite two_moved by reflexivity. }
  assert (HF : ray_routine mesh_found (cp_geom s) 0%nat <> None).
  { generalize (cp_geom s). intros x. unfold mesh_found, create_distance_map. cbn [Nat.ltb Nat.leb negb]. unfold mesh_distance_map. cbn [at_geometry two_mesh m_tdim m_gdim Nat.eqb andb orb]. destruct (mesh_raytracing_map _ _ _ _ _ _ _ _ _ _ _ _ _ _). discriminate. }
  assert (HV : volume_mesh (at_geometry two_mesh (cp_geom s))) by (rewrite HG; apply two_volume).
  assert (HS : forall C, (forall p, In p C -> In p [(0, 0); (1, 0)]%nat) -> search_facets (at_geometry two_mesh (cp_geom s)) C) by (intros C HC; rewrite HG; now apply two_facets).
  split; [exact HR|]. split; [exact HG|]. split; [exact HF|]. split; [exact HV|]. split; [apply HS; auto|].
  pose proof (C118_stored_gap_of_ray (tri_pd true) 2 (tri_pair true) (fun _ => 1%nat) (fun _ f => [f]) (fun _ => [[1]]) two_mesh two_sub Triangle triangle_vertex triangle_facet_jac two_vertices two_closest segment_gjk two_cells_map two_point two_offsets (fun _ => true) (-1) two_surface two_table
    eq_refl eq_refl (fun i => eq_refl) (fun _ => le_n 1) (two_nodes 0) mesh_calls 0 [(0, 0)]%nat [(1, 0)]%nat) as X. cbv zeta in X. fold s in X.
  specialize (X HR ltac:(lia) eq_refl HF ltac:(intros; cbn; lia) eq_refl eq_refl ltac:(cbn; lia) HV (HS [(0, 0)]%nat ltac:(cbn; tauto)) (HS [(1, 0)]%nat ltac:(cbn; tauto)) facing_normals
    ltac:(intros facets x NE _; destruct facets; [contradiction|now left]) 0%nat 0%nat ltac:(cbn; lia) ltac:(cbn; lia)). destruct X as [(N1 & N2 & N3) _]. rewrite HG in N1, N2, N3.
  set (n := stored_normal (tri_pd true) s 0 0 0) in *. clearbody n. clear HS HG HR S1 HF HV s. set (n0 := n 0%nat) in *. set (n1 := n 1%nat) in *. cbn in N1. fold n0 n1 in N1.
  specialize (N2 (fun k => match k with O => 1 | _ => -1 end)). cbn in N2. fold n0 n1 in N2. specialize (N3 (fun k => 1)). cbn in N3. fold n0 n1 in N3.
  assert (P2 : 0 < 1 / sqrt 2) by (apply Rdiv_lt_0_compat; [lra|apply sqrt_lt_R0; lra]). specialize (N2 ltac:(lra)). specialize (N3 ltac:(lra)). split; lra.
Qed.
Print Assumptions C118_ray_nonvacuous.
