(** The two triangles of TieSystemExamples and ContactSystemExamples meet the
    hypotheses of C79: tied and in contact in both directions. *)
From Coq Require Import List Arith ZArith Lia Bool Reals Lra Sorted.
Import ListNotations.
From Verif Require Import Prelude PreludeLemmas RSum EntitiesModel PackingModel PackUProps AssemblyModel AssemblyProofs LayoutModel ContactProblemModel MeshTieModel MeshTieProps MeshTieHistoryProps
  RayModel KernelModel KernelProofs KernelSpec MeshTieKernelModel MeshTieKernelProps ContactKernelModel CoefficientsModel CoefficientsProps SystemSpec TieSystemModel TieSystemProofs TieSystemProps TieSystemExamples
  ContactSystemModel ContactSystemSpec ContactSystemProps ContactSystemExamples SystemBalanceSpec SystemBalanceProps.
Local Open Scope R_scope.

Lemma tri_points vec i e q : (i < 2)%nat -> (e < 1)%nat -> In q (points_of (pr_asm (tri_pair vec i)) e) -> e = 0%nat /\ q = 0%nat.
Proof. intros Hi He Hp. assert (e = 0)%nat as -> by lia. split; [reflexivity|]. destruct i as [|[|i]]; [| |lia]; destruct vec; vm_compute in Hp; now destruct Hp as [<-|[]]. Qed.
Lemma P1_total k : (k < 2)%nat -> rsum 3 (P1_dphi k) = 0.
Proof. intros Hk. destruct k as [|[|k]]; [| |lia]; cbn; lra. Qed.
Lemma tri_cell_partition vec : cell_partition (tri_kd vec) 2 (tri_pair vec).
Proof.
  intros i e q Hi a He Hp. change (e < 1)%nat in He. destruct (tri_points vec i e q Hi He Hp) as [-> ->]. split.
  - cbn. lra.
  - intros k Hk. exact (P1_total k Hk).
Qed.
Lemma tri_opposite vec : opposite_partition (tri_pd vec) 2 (tri_pair vec).
Proof. intros i e q Hi He Hp. cbn. lra. Qed.
Lemma tri_gradients vec : opposite_gradients (tri_pd vec) 2 (tri_pair vec).
Proof. intros i e q c b Hi He Hp Hb. cbn [tri_pd pd_functions tri_pair pr_grad]. rewrite rsum_scal. change (rsum 3 (fun j => P1_dphi b j)) with (rsum 3 (P1_dphi b)). rewrite (P1_total b Hb). ring. Qed.
Lemma tri_fit vec i : dofs_fit (pr_asm (tri_pair vec i)) (if vec then 12 else 6).
Proof.
  intros c j Hj. assert (j < 6)%nat. { cbn in Hj. unfold tri_cells in Hj. destruct (c =? 0)%nat; cbn in Hj; lia. } destruct vec; cbn [tri_pair pr_asm a_bs]; [change (12 / 2)%nat with 6%nat|change (6 / 1)%nat with 6%nat]; auto.
Qed.

Example C79_tie_nonvacuous : forall b n, length b = 12%nat -> (n < 2)%nat ->
  let rhs st := meshtie_rhs (with_strides (tri_kd true) st) no_geometry in
  let thermo st := meshtie_thermo_elastic (with_strides (tri_kd true) st) no_geometry in
  exists v, tie_vector (fun i => pr_asm (tri_pair true i)) 2 rhs thermo rhs Elasticity (tri_after tri_history) b = Some v /\ length v = 12%nat /\ resultant 2 n v = resultant 2 n b.
Proof.
  intros b n Lb Hn rhs thermo. rewrite <- Lb.
  refine (C79_tie_forces_balance tri_pd 2 tri_pair (fun _ => 1%nat) 1 3 2 1 (fun _ => [1]) (fun _ _ => ([1], 1%nat)) (tri_kd true) rhs thermo rhs (fun st => meshtie_jac (with_strides (tri_kd true) st) no_geometry)
    tri_history {| e_mu := (false, [1]); e_lambda := (false, [2]); e_gamma := 2; e_theta := 1; e_u := Some (true, tri_u) |} b n (tri_object true) _ tri_fields _ eq_refl
    (tri_cell_partition true) (tri_opposite true) (tri_gradients true) _ Hn).
  - intros st. repeat split; exists no_geometry; reflexivity.
  - repeat (apply Forall_cons || apply Forall_nil); discriminate.
  - intros i _. rewrite Lb. exact (tri_fit true i).
Qed.
(** A thermo-elastic history on the same object. *)
Definition tri_hot : list tie_call :=
  [TGenerate ThermoElasticity {| c_mu := Some (false, [1]); c_lambda := Some (false, [2]); c_alpha := Some (false, [3]); c_kdt := None; c_u := None; c_T := Some (false, [7]) |} 1 0;
   TUpdate ThermoElasticity tri_update].
Example C79_thermo_nonvacuous : forall b n, length b = 12%nat -> (n < 2)%nat ->
  let rhs st := meshtie_rhs (with_strides (tri_kd true) st) no_geometry in
  let thermo st := meshtie_thermo_elastic (with_strides (tri_kd true) st) no_geometry in
  exists v, tie_vector (fun i => pr_asm (tri_pair true i)) 2 rhs thermo rhs ThermoElasticity (tri_after tri_hot) b = Some v /\ length v = 12%nat /\ resultant 2 n v = resultant 2 n b.
Proof.
  intros b n Lb Hn rhs thermo. rewrite <- Lb.
  refine (C79_thermo_tie_forces_balance tri_pd 2 tri_pair (fun _ => 1%nat) 1 3 2 1 (fun _ => [1]) (fun _ _ => ([1], 1%nat)) (tri_kd true) rhs thermo rhs (fun st => meshtie_jac (with_strides (tri_kd true) st) no_geometry)
    tri_hot _ b n (tri_object true) _ _ _ eq_refl (tri_cell_partition true) (tri_opposite true) (tri_gradients true) _ Hn).
  - intros st. repeat split; exists no_geometry; reflexivity.
  - repeat (apply Forall_cons || apply Forall_nil); split; intros f E; cbn in E; first [discriminate | injection E as <-; reflexivity].
  - repeat (apply Forall_cons || apply Forall_nil); discriminate.
  - intros i _. rewrite Lb. exact (tri_fit true i).
Qed.
Example C79_heat_nonvacuous : forall b, length b = 6%nat ->
  let rhs st := poisson_rhs (with_strides (tri_kd false) st) no_geometry in
  exists v, tie_vector (fun i => pr_asm (tri_pair false i)) 2 rhs rhs rhs Poisson (tri_after tri_history) b = Some v /\ length v = 6%nat /\ resultant 1 0 v = resultant 1 0 b.
Proof.
  intros b Lb rhs. rewrite <- Lb.
  refine (C79_heat_flow_balance tri_pd 2 tri_pair (fun _ => 1%nat) 1 3 2 1 (fun _ => [1]) (fun _ _ => ([1], 1%nat)) (tri_kd false) rhs rhs rhs (fun st => poisson_jac (with_strides (tri_kd false) st) no_geometry)
    tri_history {| p_kdt := (false, [3]); p_gamma := 3; p_theta := 1; p_T := Some (false, tri_u) |} b (tri_object false) _ tri_fields eq_refl
    (tri_cell_partition false) (tri_opposite false) (tri_gradients false) _).
  - intros st. repeat split; exists no_geometry; reflexivity.
  - intros i _. rewrite Lb. exact (tri_fit false i).
Qed.
(** Contact, all three friction laws. *)
Example C79_contact_nonvacuous : forall law, exists vks, generated two_kd (vector_kinds law) vks /\
  forall b n, length b = 12%nat -> (n < 2)%nat ->
    let v := contact_vector (tri_pd true) 2 (tri_pair true) two_basis vks two_s b in length v = 12%nat /\ resultant 2 n v = resultant 2 n b.
Proof.
  intros law. assert (X : exists vks, generated two_kd (vector_kinds law) vks). { destruct law; eexists; repeat (apply Forall2_cons || apply Forall2_nil); exists no_geometry; reflexivity. }
  destruct X as (vks & Hv). exists vks. split; [exact Hv|]. intros b n Lb Hn v. rewrite <- Lb.
  refine (C79_contact_forces_balance (tri_pd true) (tri_kd true) 2 (tri_pair true) two_basis (fun _ => 1%nat) (fun g _ => g) two_detect
    (fun i _ _ => [[- two_axis i * (1/2); 0]]) (fun i _ _ => [[two_axis i; 0]]) (fun _ f => [f]) (fun _ => [[1]]) law tt two_calls b vks n _ _ _ two_setting _ _ _ Hv _ Hn); auto.
  - repeat constructor.
  - intros i e q Hi a He Hp. change (e < 1)%nat in He. assert (e = 0)%nat as -> by lia. assert (q = 0)%nat as ->. { destruct i as [|[|i]]; [| |lia]; vm_compute in Hp; now destruct Hp as [<-|[]]. }
    split; [cbn; lra|]. intros k Hk. exact (P1_total k Hk).
  - intros i e q Hi He Hp. cbn. lra.
  - intros i _. rewrite Lb. exact (tri_fit true i).
Qed.
