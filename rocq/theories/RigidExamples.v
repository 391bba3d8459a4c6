(** Facets that meet the hypotheses of the rigid surface kernel theorems, and one
    whose residual depends on uninitialised memory (C69). *)
From Coq Require Import List Arith Lia Bool Reals Lra.
Import ListNotations.
From Verif Require Import Prelude PreludeLemmas RSum RealLemmas CropModel CandidatesProps RayModel OpsModel OpsProps AssemblyModel AssemblyProofs KernelModel KernelProofs KernelSpec
  MeshTieKernelProps ElasticityProps RigidKernelModel RigidKernelProps ContactExamples.
Local Open Scope R_scope.

(** One point of a triangle. *)
Definition rigid_kd (affine : bool) : kernel_data :=
  {| kd_gdim := 2; kd_tdim := 2; kd_bs := 2; kd_ndofs := 3; kd_nodes := 0; kd_affine := affine;
     kd_cstrides := [1; 1; 1; 2; 2; 4; 2]%nat; kd_qp_offsets := fun f => f;
     kd_phi := fun _ _ => 1 / 3;
     kd_dphi := fun k _ i => nth i (nth k [[-1; 1; 0]; [-1; 0; 1]] []) 0;
     kd_dphi_c := fun _ _ _ => 0; kd_weights := fun _ => 1 / 2;
     kd_ref_jacobian := fun _ i j => delta i j; kd_ref_normal := fun _ i => if (i =? 0)%nat then 1 else 0;
     kd_inverse := fun _ i j => delta i j; kd_determinant := fun _ => 1 |}.
Definition rigid_row (t : R) : list R :=
  [1; 1; 1] ++ [1/2; 0] ++ [4/3 + t * (1/3); 1 + t * (1/3)] ++ [-1 - t; 2 - t; 2 - t; 1 - t] ++ [-1; 0].

Example rigid_example :
  normals_known (rigid_kd true) false /\ kd_bs (rigid_kd true) = kd_gdim (rigid_kd true) /\
  vector_buffers (rigid_kd true) 0 [repeat 0 6] /\ matrix_buffers (rigid_kd true) 0 [repeat 0 36] /\
  rigid_layout (rigid_kd true) 0 /\ rigid_line (rigid_kd true) [] 0 rigid_row example_U contact_W /\
  (forall q, (q < num_points (rigid_kd true) 0)%nat -> rs_indicator (rigid_kd true) [] 0 false (rigid_row 0) contact_w q <> 0).
Proof.
  split; [now left|]. split; [reflexivity|].
  split; [split; [cbn; lia|]; intros s Hs; assert (s = 0)%nat as -> by lia; reflexivity|].
  split; [split; [cbn; lia|]; intros s Hs; assert (s = 0)%nat as -> by lia; reflexivity|].
  split; [reflexivity|]. split; [constructor|].
  - intros t p Hp. change (offsets (rigid_kd true) 4) with 5%nat in Hp. change (offsets (rigid_kd true) 6) with 11%nat in Hp.
    do 5 (destruct p; [reflexivity|]). do 6 (destruct p; [lia|]). reflexivity.
  - intros t q n Hq Hn. change (num_points (rigid_kd true) 0) with 1%nat in Hq. assert (q = 0)%nat as -> by lia. change (kd_gdim (rigid_kd true)) with 2%nat in Hn.
    destruct n as [|[|n]]; [ex_eval | ex_eval | lia].
  - intros t q a b Hq Ha Hb. change (num_points (rigid_kd true) 0) with 1%nat in Hq. assert (q = 0)%nat as -> by lia. change (kd_gdim (rigid_kd true)) with 2%nat in Ha, Hb.
    destruct a as [|[|a]]; [| |lia]; (destruct b as [|[|b]]; [ex_eval | ex_eval | lia]).
  - intros q Hq. change (num_points (rigid_kd true) 0) with 1%nat in Hq. assert (q = 0)%nat as -> by lia.
    assert (E : rs_indicator (rigid_kd true) [] 0 false (rigid_row 0) contact_w 0 = -17/6); [|rewrite E; lra].
    ex_eval. ex_sqrt. lra.
Qed.

(** Curved cell, constant normal (1, 0), penetration 1, undeformed body. *)
Definition rigid_touching : list R := [1; 1; 1] ++ [-1; 0] ++ [0; 0] ++ [0; 0; 0; 0] ++ [0; 0].
Lemma rigid_touching_entry m :
  added_vec (rigid_kd false) [repeat 0 6] (rigid_rhs (rigid_kd false) (mkGeometry (fun _ _ => 0) 0 (fun i => if (i =? 0)%nat then m else 0)) true [repeat 0 6] rigid_touching [1; 1; -1; 0] [] 0%nat 0%nat []) 0 1 0 =
  - (m + 2 - 1 / 3) * / 2.
Proof.
  unfold rigid_rhs. cbv zeta. rewrite quadrature_loop_geometry. change (seq 0 (num_points (rigid_kd false) 0)) with [0%nat].
  unfold for_each. cbn [fold_left]. rewrite rigid_sign_u_eq, rigid_gap_eq, rigid_u_n_eq. fold (rs_indicator (rigid_kd false) [] 0 true rigid_touching [1; 1; -1; 0] 0).
  assert (E : rs_indicator (rigid_kd false) [] 0 true rigid_touching [1; 1; -1; 0] 0 = -1) by (ex_eval; ex_sqrt; lra). rewrite E, R_minus_min. rewrite Rmin_left by lra.
  assert (S : rs_sigma (rigid_kd false) [] 0 true rigid_touching [1; 1; -1; 0] 0 = 0) by (ex_eval; ex_sqrt; lra). rewrite S.
  rewrite Rabs_pos_eq by apply facet_scale_nonneg.
  ex_eval. ex_sqrt. destruct (Rcase_abs 1); lra.
Qed.
(** Calling the residual kernel twice with the same arguments may give different
    results when the cells are not affine and the surface normal is constant:
    [n_phys] is read before it is set. *)
Theorem C69_constant_normal_curved_refuted :
  exists (kd : kernel_data) (junk junk' : geometry) (kernel kernel' : kernel_fn) (b : list (list R)) (c w coords : list R) (f links : nat) (qs : list nat),
    kd_bs kd = kd_gdim kd /\ kd_affine kd = false /\ vector_buffers kd 0 b /\ rigid_layout kd f /\
    generate_rigid_surface_kernel Rhs kd junk true = Some kernel /\ generate_rigid_surface_kernel Rhs kd junk' true = Some kernel' /\
    kernel b c w coords f links qs <> kernel' b c w coords f links qs.
Proof.
  exists (rigid_kd false), (mkGeometry (fun _ _ => 0) 0 (fun i => if (i =? 0)%nat then 0 else 0)), (mkGeometry (fun _ _ => 0) 0 (fun i => if (i =? 0)%nat then 1 else 0)).
  eexists _, _, [repeat 0 6], rigid_touching, [1; 1; -1; 0], [], 0%nat, 0%nat, [].
  split; [reflexivity|]. split; [reflexivity|]. split; [split; [cbn; lia|]; intros s Hs; assert (s = 0)%nat as -> by lia; reflexivity|].
  split; [reflexivity|]. split; [reflexivity|]. split; [reflexivity|]. intros E.
  pose proof (rigid_touching_entry 0) as E0. pose proof (rigid_touching_entry 1) as E1. rewrite E in E0. rewrite E0 in E1. lra.
Qed.
Print Assumptions C69_constant_normal_curved_refuted.
