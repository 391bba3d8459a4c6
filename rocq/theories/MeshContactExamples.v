(** C117: the two triangles of C78 with their own search, one of them displaced on the way. *)
From Coq Require Import List Arith ZArith Lia Bool Reals Lra.
Import ListNotations.
From Verif Require Import Prelude PreludeLemmas RSum RealLemmas EntitiesModel CropModel CandidatesModel CandidatesProps SubMeshModel SubMeshProofs LayoutModel LayoutProps ContactProblemModel ContactProblemProps.
From Verif Require Import PackingModel PackUProps AssemblyModel AssemblyProofs AssemblyProps RayModel KernelModel KernelProofs KernelSpec DistanceModel GapModel GapSpec DistanceProofs GapProps PullBackProps ContactNormalProps ShortestGapProps GapExamples RaySearchModel RayFrameProps
  ElasticityProps ContactKernelModel ContactKernelSpec ContactKernelProps CoefficientsModel CoefficientsProps SystemSpec TieSystemModel TieSystemProofs TieSystemProps
  ContactSystemModel ContactSystemSpec ContactSystemProofs ContactSystemProps TieSystemExamples ContactSystemExamples SystemWeakProps TieFormProps ContactFormProps ContactFormExamples RigidBalanceProps FrameProofs FrameProps FrameExamples MeshFrameProofs SearchFrameProofs SearchFrameProps SearchFrameExamples
  MeshContactModel MeshContactProps.
Local Open Scope R_scope.

(** Facet [c] is facet 0 of cell [c]. *)
Definition two_mesh : mesh_data :=
  {| m_gdim := 2; m_tdim := 2; m_nodes := 3; m_affine := true; m_x := tri_x; m_x_dofmap := tri_cells;
     m_phi := m_phi facing; m_dphi := m_dphi facing; m_determinant := det 2; m_cmap_pull_back := fun _ _ => []; m_ref_normal := m_ref_normal facing;
     m_f_to_c := fun f => [f mod 2]%nat; m_c_to_f := fun c => [c; 2 + c; 4 + c]%nat; m_closure := m_closure facing |}.
Definition two_sub : submesh_tables := mkSubmeshTables 2 6 [0; 1]%nat [0; 1; 2; 3; 4; 5]%nat tri_cells tri_cells tri_cells.
Definition two_vertices (f : nat) : list nat := if (f =? 0)%nat then [1; 2]%nat else [4; 5]%nat.
Definition two_surface (i : nat) : contact_pair := mkContactPair [i; 0]%nat [1 - i; 0]%nat 1.
(** One candidate is the closest. *)
Definition two_closest (_ : list R) (facets : list nat) (_ : list R) : nat := hd 0%nat facets.
(** The second triangle displaced by [s]. *)
Definition two_nodes (s : R) : list R := [0; 0; 0; 1; 0; 0; 0; 1; 0; 1 + s; 1; 0; 0 + s; 1; 0; 1 + s; 0; 0].
Definition two_shift (s : R) : list R := [0; 0; 0; 0; 0; 0; s; 0; s; 0; s; 0].
Definition mesh_calls : list (@call (list R) (nat -> list Z)) :=
  [CallUpdateData (repeat 5 12); CallGenerate two_dict 1 0; CallUpdateData (repeat 5 12); CallDetection (two_shift (1/4)); CallNitsche 2 (-1)].
Notation two_point := (fun _ : nat => [1/2; 1/2]).
Notation two_offsets := (fun f : nat => f).
Notation two_table := (fun (X : list R) f => m_phi facing X f).
Notation two_found := (mesh_found two_mesh Triangle (fun _ _ _ => 0) (fun _ _ _ => 0) two_vertices two_closest segment_gjk (mkAdj [0; 1]%nat [0; 1; 2]%nat) two_point two_offsets (fun _ => false) 0 2 two_surface).

Lemma two_moved x s : length x = 18%nat -> mesh_move (tri_pd true) two_sub x (two_shift s) = two_nodes s.
Proof.
  intros L. unfold mesh_move, submesh_update_geometry. rewrite (restore_indep 0 _ _ x (repeat 0 18) 6 L eq_refl).
  cbv -[Rplus Rmult IZR Rdiv Rinv Ropp Rminus]. unfold two_nodes. repeat (apply f_equal2; [ring|]). reflexivity.
Qed.
Lemma two_result x i : (i < 2)%nat -> exists d, two_found x i = Some d /\ adj_data (det_map d) = [Z.of_nat (1 - i)].
Proof.
  intros Hi. assert (E : (i = 0 \/ i = 1)%nat) by lia. destruct E as [-> | ->]; (eexists; split; [reflexivity|]); reflexivity.
Qed.
Notation two_cells_map := (mkAdj [0; 1]%nat [0; 1; 2]%nat).
Lemma two_volume s : volume_mesh (at_geometry two_mesh (two_nodes s)).
Proof.
  split.
  - now left.
  - reflexivity.
  - intros c j Hj. change (j < 3)%nat in Hj. assert (Ej : (j = 0 \/ j = 1 \/ j = 2)%nat) by lia. destruct c as [|c]; destruct Ej as [-> | [-> | ->]]; cbn; lia.
  - intros X. change (rsum 3 (m_phi facing X) = 1). cbn [rsum facing m_phi]. ring.
  - intros X d Hd. change (d < 2)%nat in Hd. change (rsum 3 (m_dphi facing X d) = 0). below2 Hd; cbn [rsum facing m_dphi Nat.eqb]; ring.
Qed.
Lemma two_facets s C : (forall p, In p C -> In p [(0, 0); (1, 0)]%nat) -> search_facets (at_geometry two_mesh (two_nodes s)) C.
Proof.
  intros HC. split.
  - intros p Hp. apply HC in Hp. cbn [In] in Hp. destruct Hp as [<- | [<- | []]]; (split; [cbn; lia|cbn; repeat constructor; cbn; lia|reflexivity|]); intros j Hj; cbn in Hj; destruct Hj as [<- | [<- | []]]; cbn; lia.
  - intros p X Hp. apply HC in Hp. cbn [In] in Hp. unfold nonsingular, det, geometry_jacobian, node.
    destruct Hp as [<- | [<- | []]]; cbn [fst snd at_geometry two_mesh two_nodes facing tri_cells m_gdim m_tdim m_nodes m_x m_x_dofmap m_dphi Nat.eqb rsum nth Nat.mul Nat.add]; lra.
  - intros [|[|f]]; reflexivity.
Qed.
Lemma two_searchable angle t s : searchable (rotation angle) t two_mesh two_vertices two_closest two_closest two_cells_map 2 two_surface two_found 6 (two_nodes s).
Proof.
  split.
  - reflexivity.
  - apply two_volume.
  - intros i Hi. exists [(i, 0%nat)], [((1 - i)%nat, 0%nat)]. split; [reflexivity|]. split; [reflexivity|]. split; [cbn; lia|].
    split; [apply two_facets; below2 Hi; cbn; tauto|]. split; [apply two_facets; below2 Hi; cbn; tauto|].
    intros c Hc. below2 Hi; cbn in Hc; destruct Hc as [<- | [<- | []]]; (split; [discriminate|]); intros n Hn; cbn in Hn; destruct Hn as [<- | [<- | []]]; cbn; lia.
  - intros i Hi. destruct (two_result (two_nodes s) i Hi) as (d & E & _). rewrite E. discriminate.
  - intros facets x x' NE _ _ _. split; [|reflexivity]. destruct facets; [contradiction|now left].
  - discriminate.
Qed.
Notation two_routine r := (r two_mesh Triangle (fun _ _ _ : nat => 0) (fun _ : nat => fun _ _ : nat => 0) two_vertices two_closest segment_gjk two_cells_map two_point two_offsets (fun _ : nat => false) 0 2%nat two_surface).
Notation mesh_state pd pairs g calls := (contact_after pd 2 pairs (two_routine mesh_basis two_table) (fun _ => 1%nat) (mesh_move pd two_sub) (two_routine mesh_detect) (two_routine mesh_gap) (two_routine mesh_normals) (fun _ f => [f]) (fun _ => [[1]]) g calls).
Notation mesh_vector pd pairs kernels u s b := (contact_vector pd 2 pairs (two_routine mesh_basis two_table) kernels (contact_updated pd 2 pairs (two_routine mesh_basis two_table) (fun _ => 1%nat) u s) b).
Lemma mesh_map x i : (i < 2)%nat -> two_routine mesh_detect x i = [Z.of_nat (1 - i)].
Proof. intros Hi. unfold mesh_detect. destruct (two_result x i Hi) as (d & E & M). now rewrite E. Qed.
Lemma mesh_reached angle t : all_ok (searchable (rotation angle) t two_mesh two_vertices two_closest two_closest two_cells_map 2 two_surface two_found 6) (mesh_move (tri_pd true) two_sub) (mkH (two_nodes 0) None) mesh_calls.
Proof.
  intros pre post E.
  assert (X : h_geom (fold_left (hist_step (mesh_move (tri_pd true) two_sub)) pre (mkH (two_nodes 0) None)) = two_nodes 0 \/ h_geom (fold_left (hist_step (mesh_move (tri_pd true) two_sub)) pre (mkH (two_nodes 0) None)) = two_nodes (1/4)).
  { do 6 (destruct pre as [|? pre]; [first [now left | right; cbn [fold_left hist_step h_geom given two_dict d_mu d_lambda andb]; now rewrite two_moved by reflexivity]|cbn [app] in E; try discriminate E; injection E as <- E]). }
  destruct X as [-> | ->]; apply two_searchable.
Qed.
Lemma mesh_scalars : same_scalars 2 (fun _ => 1%nat) two_s (mesh_state (tri_pd true) (tri_pair true) (two_nodes 0) mesh_calls).
Proof. apply run_scalars; [cbn; lia|]. unfold two_calls, mesh_calls. repeat (apply Forall2_cons; [cbn; auto|]). apply Forall2_nil. Qed.

(** Any angle and shift: the object that searches the turned triangles, fed with turned
    displacements, assembles the turned forces. *)
Example C117_nonvacuous : forall law, exists kernels, generated two_kd (vector_kinds law) kernels /\
  forall (angle : R) (t : nat -> R) (u b : list R), length b = 12%nat ->
    let O := rotation angle in
    let pd' := turned_space O t (tri_pd true) in
    let pairs' := fun i => turned_pair O t (tri_pair true i) in
    let s := mesh_state (tri_pd true) (tri_pair true) (two_nodes 0) mesh_calls in
    let s' := mesh_state pd' pairs' (turned_points 2 O t (two_nodes 0)) (map (turned_call 2 O) mesh_calls) in
    cp_geom s = two_nodes (1/4) /\ cp_geom s' = turned_points 2 O t (two_nodes (1/4)) /\
    mesh_vector pd' pairs' kernels (turned_field 2 O u) s' (turned_field 2 O b) = turned_field 2 O (mesh_vector (tri_pd true) (tri_pair true) kernels u s b).
Proof.
  intros law. destruct (two_kernels law) as (kernels & HK). exists kernels. split; [exact HK|]. intros angle t u b Lb. cbv zeta.
  destruct mesh_scalars as (S1 & S2 & S3).
  assert (HR : cp_ready (mesh_state (tri_pd true) (tri_pair true) (two_nodes 0) mesh_calls) = true) by (rewrite S1; reflexivity).
  assert (HG : cp_geom (mesh_state (tri_pd true) (tri_pair true) (two_nodes 0) mesh_calls) = two_nodes (1/4)).
  { destruct (run_inv (mesh_move (tri_pd true) two_sub) (two_routine mesh_detect) (two_routine mesh_gap) (two_routine mesh_normals) (cp_pack_test (tri_pd true) (tri_pair true) (two_routine mesh_basis two_table)) (cp_pack_u (tri_pd true) (tri_pair true) (fun _ => 1%nat)) (cp_pack_grad (tri_pd true) (tri_pair true) (fun _ => 1%nat))
      (cp_pack_u_opp (tri_pd true) (tri_pair true) (two_routine mesh_basis two_table)) (fun _ f => [f]) (fun _ => [[1]]) 2 (fun _ => 1%nat) (num_local (tri_pair true)) 1 3 2 (fun _ => le_n 1) (two_nodes 0) mesh_calls) as (_ & E & _). unfold contact_after. etransitivity; [exact E|].
    unfold history_of, mesh_calls. cbn [fold_left hist_step h_geom given two_dict d_mu d_lambda andb]. now rewrite two_moved by reflexivity. }
  assert (TS : tie_setting (tri_pd true) (tri_kd true) 2 (pair_at (tri_pd true) (tri_pair true) (two_routine mesh_basis two_table) (cp_geom (mesh_state (tri_pd true) (tri_pair true) (two_nodes 0) mesh_calls)) (cp_map (mesh_state (tri_pd true) (tri_pair true) (two_nodes 0) mesh_calls))) 1).
  { rewrite (map_detected (tri_pd true) 2 (tri_pair true)) by (repeat constructor). set (x := cp_geom _). clearbody x.
    destruct (tri_setting true) as [A B C D E F P]. constructor; auto. intros i Hi. unfold pair_at. rewrite (mesh_map x i Hi). destruct (P i Hi) as [P1 P2 P3 P4 P5 P6 P7 P8 P9 P10 P11 P12 P13 P14 P15]. constructor; auto. }
  split; [exact HG|].
  pose proof (C117_forces_turn (rotation angle) t (tri_pd true) (tri_kd true) 2 (tri_pair true) (fun _ => 1%nat) (fun _ f => [f]) (fun _ => [[1]]) two_mesh two_sub Triangle (fun _ _ _ => 0) (fun _ _ _ => 0) two_vertices two_closest two_closest segment_gjk two_cells_map
    two_point two_offsets (fun _ => false) 0 two_surface two_table 6 eq_refl eq_refl eq_refl) as X.
  specialize (X ltac:(intros f; cbn; lia) (rotation_orthogonal angle) facing_normals segment_gjk_exact (fun i => eq_refl)).
  specialize (X ltac:(intros n Hn; assert (En : (n = 0 \/ n = 1 \/ n = 2 \/ n = 3 \/ n = 4 \/ n = 5)%nat) by lia; destruct En as [-> | [-> | [-> | [-> | [-> | ->]]]]]; cbn; lia) law (two_nodes 0) mesh_calls u b kernels 6%nat). cbv zeta in X.
  destruct X as (X1 & _ & X3); auto; try reflexivity.
  - apply mesh_reached.
  - repeat constructor.
  - exact inverse2_inverts.
  - exact column_length_area.
  - intros i e Hi He. now apply tri_turnable.
  - unfold constants_of. rewrite S2. change (0 < 2). lra.
  - intros i e Hi He. destruct (two_stored i e Hi He) as (_ & T1 & T2). split; [|].
    + refine (Rle_trans _ _ _ T1 (Req_le _ _ _)). symmetry. apply S3; auto; cbn; lia.
    + refine (Rlt_le_trans _ _ _ T2 (Req_le _ _ _)). symmetry. apply S3; auto; cbn; lia.
  - split; [|exact X3]. change (pd_gdim (tri_pd true)) with 2%nat in X1. rewrite X1. f_equal. exact HG.
Qed.
Print Assumptions C117_nonvacuous.
