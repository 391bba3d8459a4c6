(** C118: the stored displacement of the second of two triangles. *)
From Coq Require Import List Arith ZArith Lia Bool Reals Lra.
Import ListNotations.
From Verif Require Import Prelude PreludeLemmas RSum RealLemmas EntitiesModel CropModel CandidatesModel CandidatesProps SubMeshModel SubMeshProofs LayoutModel LayoutProps ContactProblemModel ContactProblemProps.
From Verif Require Import PackingModel PackUProps AssemblyModel RayModel KernelModel DistanceModel GapModel GapSpec DistanceProofs GapProps GapExamples RaySearchModel
  CoefficientsModel TieSystemModel TieSystemProofs TieSystemProps ContactSystemModel ContactSystemProps TieSystemExamples ContactSystemExamples
  MeshContactModel MeshContactProps MeshContactExamples MeshGapProps MeshGapExamples MeshOppositeProps.
Local Open Scope R_scope.

(** The second triangle moves by [r] along the first axis: whichever of its points was found, this is the displacement stored. *)
Example C118_opposite_nonvacuous : forall r,
  let s := mesh_state (tri_pd true) (tri_pair true) (two_nodes 0) mesh_calls in
  cp_ready s = true /\ two_routine mesh_found (cp_geom s) 0%nat <> None /\ nth 0 (cp_map s 0%nat) (-1)%Z = 1%Z /\
  stored_opposite (tri_pd true) (contact_updated (tri_pd true) 2 (tri_pair true) (two_routine mesh_basis two_table) (fun _ => 1%nat) (two_shift r) s) 0 0 0 0 = r /\
  stored_opposite (tri_pd true) (contact_updated (tri_pd true) 2 (tri_pair true) (two_routine mesh_basis two_table) (fun _ => 1%nat) (two_shift r) s) 0 0 0 1 = 0.
Proof.
  intros r s. destruct mesh_scalars as (S1 & _). assert (HR : cp_ready s = true) by (unfold s; rewrite S1; reflexivity).
  assert (HC : Forall no_crop mesh_calls) by repeat constructor.
  assert (HM : cp_map s 0%nat = [1%Z]).
  { unfold s. rewrite (map_detected (tri_pd true) 2 (tri_pair true)) by exact HC. set (x := cp_geom _). clearbody x. now rewrite (mesh_map x 0) by lia. }
  assert (HF : two_routine mesh_found (cp_geom s) 0%nat <> None).
  { intros E. assert (K : two_routine mesh_detect (cp_geom s) 0%nat = []) by (unfold mesh_detect; now rewrite E). generalize (mesh_map (cp_geom s) 0%nat ltac:(lia)). rewrite K. discriminate. }
  pose proof (C118_stored_opposite (tri_pd true) 2 (tri_pair true) (fun _ => 1%nat) (fun _ f => [f]) (fun _ => [[1]]) two_mesh two_sub Triangle (fun _ _ _ => 0) (fun _ _ _ => 0) two_vertices two_closest segment_gjk two_cells_map two_point two_offsets (fun _ => false) 0 two_surface two_table
    eq_refl eq_refl eq_refl (fun i => eq_refl) (fun _ => le_n 1) (two_nodes 0) mesh_calls 0 [(0, 0)]%nat) as X. cbv zeta in X. fold s in X. rewrite HM in X.
  specialize (X HR HC ltac:(lia) HF eq_refl ltac:(cbn; lia) (se_packing _ _ _ (tri_pair_setting true 0 ltac:(lia))) ltac:(intros f [E|[]]; replace f with 1%nat by lia; reflexivity) 0%nat 0%nat ltac:(cbn; lia) ltac:(cbn; lia)).
  destruct X as [_ X]. destruct (X ltac:(cbn; lia)) as (Y & _ & HY).
  split; [exact HR|]. split; [exact HF|]. split; [rewrite HM; reflexivity|].
  change (Z.to_nat (nth (0 * pd_nq (tri_pd true) + 0) [1%Z] (-1)%Z)) with 1%nat in HY. change (hd 0%nat (m_f_to_c two_mesh 1)) with 1%nat in HY.
  split; rewrite HY by (cbn; lia); cbn [tri_pd pd_functions rsum]; clear; cbn; ring.
Qed.
