(** C86: a facet pressed into the plane meets the hypotheses. *)
From Coq Require Import List Arith Lia Bool Reals Lra.
Import ListNotations.
From Verif Require Import Prelude PreludeLemmas RSum RealLemmas RayModel OpsModel OpsProps GapModel KernelModel KernelProofs KernelSpec
  MeshTieKernelProps ElasticityProps RigidKernelModel RigidKernelProps ContactExamples RigidExamples OneSidedModel OneSidedProps.
Local Open Scope R_scope.

Example C86_nonvacuous :
  let kd := rigid_kd true in let u := [0; -3] in
  (0 < kd_gdim kd)%nat /\ rigid_layout kd 0 /\ length u = (num_points kd 0 * kd_gdim kd)%nat /\ kd_affine kd = true /\ kd_bs kd = kd_gdim kd /\
  vector_buffers kd 0 [repeat 0 6] /\ matrix_buffers kd 0 [repeat 0 36] /\ 0 < 1000 * 10 /\
  (* the plane is one below the point and the displacement is three downwards *)
  plane_gap 1 0 - along kd (value_at kd 0 u) = -2 /\
  ufl_contact_residual 0 10 1000 1 (plane_gap 1 0) 0 (along kd (value_at kd 0 u)) 0 (along kd (basis_value kd 0 0 0 1)) = 10000 * -2 * / 3.
Proof.
  cbv zeta. split; [cbn; lia|]. split; [reflexivity|]. split; [reflexivity|]. split; [reflexivity|]. split; [reflexivity|].
  split; [split; [cbn; lia|]; intros s Hs; assert (s = 0)%nat as -> by lia; reflexivity|].
  split; [split; [cbn; lia|]; intros s Hs; assert (s = 0)%nat as -> by lia; reflexivity|].
  split; [lra|].
  assert (EU : along (rigid_kd true) (value_at (rigid_kd true) 0 [0; -3]) = 3) by (cbv [along value_at plane_normal rsum kd_gdim rigid_kd nth Nat.mul Nat.add Nat.eqb]; lra).
  assert (EV : along (rigid_kd true) (basis_value (rigid_kd true) 0 0 0 1) = - (1 / 3)) by (cbv [along basis_value plane_normal rsum kd_gdim kd_phi rigid_kd nth Nat.mul Nat.add Nat.eqb]; lra).
  rewrite EU, EV. split; [unfold plane_gap; lra|]. unfold ufl_contact_residual, gamma_scaled, plane_gap, py_R_minus.
  rewrite Rabs_left by lra. lra.
Qed.
