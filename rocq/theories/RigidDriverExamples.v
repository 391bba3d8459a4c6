(** C89: cases that meet the hypotheses. *)
From Coq Require Import List Arith Lia Bool Reals Lra.
Import ListNotations.
From Verif Require Import Prelude PreludeLemmas RSum RealLemmas RayModel OpsModel OpsProps KernelModel KernelProofs KernelSpec EntitiesModel EntitiesProps
  MeshTieKernelProps ElasticityProps RigidKernelModel RigidKernelProps ContactExamples RigidExamples OneSidedModel OneSidedProps RigidDriverModel RigidDriverProps.
Local Open Scope R_scope.

(** A point one above the rigid surface, displaced three downwards. *)
Example C89_kernels_nonvacuous :
  let kd := rigid_kd true in let g := [0; -1] in let u := [0; -3] in let grad := [0; 0; 0; 0] in let n := [0; 1] in
  rigid_layout kd 0 /\ length g = (num_points kd 0 * kd_gdim kd)%nat /\ length u = (num_points kd 0 * kd_gdim kd)%nat /\ length grad = (num_points kd 0 * (kd_gdim kd * kd_gdim kd))%nat /\
  kd_bs kd = kd_gdim kd /\ vector_buffers kd 0 [repeat 0 6] /\ matrix_buffers kd 0 [repeat 0 36] /\
  along_2 kd n 0 (value_at kd 0 g) = 1 /\ along_2 kd n 0 (value_at kd 0 g) - along_2 kd n 0 (value_at kd 0 u) = -2 /\
  ufl_contact_residual 0 10 1000 1 (along_2 kd n 0 (value_at kd 0 g)) 0 (along_2 kd n 0 (value_at kd 0 u)) 0 (along_2 kd n 0 (basis_value kd 0 0 0 1)) = 10000 * -2 * / 3.
Proof.
  cbv zeta. split; [reflexivity|]. split; [reflexivity|]. split; [reflexivity|]. split; [reflexivity|]. split; [reflexivity|].
  split; [split; [cbn; lia|]; intros s Hs; assert (s = 0)%nat as -> by lia; reflexivity|].
  split; [split; [cbn; lia|]; intros s Hs; assert (s = 0)%nat as -> by lia; reflexivity|].
  assert (EG : along_2 (rigid_kd true) [0; 1] 0 (value_at (rigid_kd true) 0 [0; -1]) = 1) by (cbv [along_2 n_2 value_at rsum kd_gdim rigid_kd nth Nat.mul Nat.add Nat.eqb]; lra).
  assert (EU : along_2 (rigid_kd true) [0; 1] 0 (value_at (rigid_kd true) 0 [0; -3]) = 3) by (cbv [along_2 n_2 value_at rsum kd_gdim rigid_kd nth Nat.mul Nat.add Nat.eqb]; lra).
  assert (EV : along_2 (rigid_kd true) [0; 1] 0 (basis_value (rigid_kd true) 0 0 0 1) = - (1 / 3)) by (cbv [along_2 n_2 basis_value rsum kd_gdim kd_phi rigid_kd nth Nat.mul Nat.add Nat.eqb]; lra).
  rewrite EG, EU, EV. split; [lra|]. split; [lra|]. unfold ufl_contact_residual, gamma_scaled, py_R_minus. rewrite Rabs_left by lra. lra.
Qed.

(** The same two triangles numbered with the cells: every facet reads its own row. *)
Definition straight_f_to_c (f : nat) : list nat := match f with 0%nat => [0%nat] | 1%nat => [1%nat] | _ => [] end.
Definition straight_c_to_f (c : nat) : list nat := match c with 0%nat => [2; 0; 3]%nat | _ => [3; 4; 1]%nat end.
Example C89_gap_nonvacuous :
  (forall f, In f [0; 1]%nat -> exterior straight_f_to_c straight_c_to_f f) /\ NoDup [0; 1]%nat /\ cells_ascend straight_f_to_c [0; 1]%nat /\
  gap_at straight_f_to_c straight_c_to_f (fun f => (f + 10)%nat) (fun g (x : nat) => (g, x)) [0; 1]%nat 1 7%nat = (11%nat, 7%nat) /\ ~ cells_ascend twisted_f_to_c [0; 1]%nat.
Proof.
  split; [intros f [<-|[<-|[]]]; eexists; (split; [reflexivity|]); cbn; auto|]. split; [repeat constructor; cbn; lia|].
  split; [intros i j [H1 H2]; cbn [length] in H2; destruct i as [|[|i]], j as [|[|j]]; cbn; lia|]. split; [reflexivity|].
  intros H. specialize (H 0%nat 1%nat ltac:(cbn; lia)). cbn in H. lia.
Qed.

(** Two updates of a row. *)
Example C89_update_nonvacuous : surface_update 2 [5; 6] [7; 8; 9; 10] (surface_update 2 [1; 1] [2; 2; 2; 2] (surface_row 1 2 3 [4; 4] [0; 0] [0; 0; 0; 0] [11; 12])) = [1; 2; 3; 4; 4; 5; 6; 7; 8; 9; 10; 11; 12].
Proof. reflexivity. Qed.
