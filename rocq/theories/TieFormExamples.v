(** The two tied triangles of [TieSystemExamples] meet the hypotheses of C105; the
    displacement [tri_u] jumps, and its energy is positive for theta = -1. *)
From Coq Require Import List Arith ZArith Lia Bool Reals Lra.
Import ListNotations.
From Verif Require Import Prelude PreludeLemmas RSum PackingModel PackUProps AssemblyModel AssemblyProofs LayoutModel
  MeshTieModel MeshTieProps MeshTieHistoryProps RayModel KernelModel KernelSpec MeshTieKernelModel CoefficientsModel SystemSpec TieSystemModel TieSystemProofs TieSystemProps TieWeakProps SystemWeakProps ElasticityProps MeshTieKernelProps TieSystemExamples TieFormProps.
Local Open Scope R_scope.

Definition tri_history_skew : list tie_call :=
  [TUpdate Elasticity tri_update; TGenerate Poisson tri_material 3 (-1); TGenerate Elasticity tri_material 2 (-1)].
Lemma tri_fields_skew : Forall fields_given tri_history_skew.
Proof. repeat (apply Forall_cons || apply Forall_nil); split; intros f E; cbn in E; first [discriminate | injection E as <-; reflexivity]. Qed.

Lemma tri_tied vec i e : (i < 2)%nat -> (e < a_local (pr_asm (tri_pair vec i)))%nat -> forall q, In q (points_of (pr_asm (tri_pair vec i)) e) -> e = 0%nat /\ q = 0%nat.
Proof.
  intros Hi He q Hq. cbn in He. assert (e = 0)%nat as -> by lia. split; [reflexivity|].
  destruct i as [|[|i]]; [| |lia]; destruct vec; cbn in Hq; intuition.
Qed.
Lemma tri_positive vec : positive_data (tri_kd vec) 2 (tri_pair vec) (fun i e => nth e [1] 0).
Proof.
  intros i e q Hi He Hq. destruct (tri_tied vec i e Hi He q Hq) as [-> ->]. split; [|cbn; lra].
  destruct i as [|[|i]]; [| |lia]; destruct vec; unfold interface_weight, surface_weight, own_cell, own_facet;
    lazy -[Rplus Rminus Rmult Rdiv Rinv Ropp sqrt Rabs Rlt IZR]; rewrite Rmult_1_l; apply Rabs_pos_lt; apply Rgt_not_eq; apply sqrt_lt_R0; lra.
Qed.
Lemma tri_u_jumps : interface_jump (tri_pd true) (tri_pair true 0) 0 0 tri_u 0 = 1 / 2.
Proof. lazy -[Rplus Rminus Rmult Rdiv Rinv Ropp IZR]. field. Qed.
Lemma tri_T_jumps : interface_jump (tri_pd false) (tri_pair false 0) 0 0 tri_u 0 = - (9 / 2).
Proof. lazy -[Rplus Rminus Rmult Rdiv Rinv Ropp IZR]. field. Qed.

Example C105_elastic_nonvacuous :
  let thermo st := meshtie_thermo_elastic (with_strides (tri_kd true) st) no_geometry in
  let rhs st := meshtie_rhs (with_strides (tri_kd true) st) no_geometry in
  let jac st := meshtie_jac (with_strides (tri_kd true) st) no_geometry in
  (exists M, tie_matrix (fun i => pr_asm (tri_pair true i)) 2 jac jac Elasticity (tri_after tri_history_skew) = Some M /\
     0 < rsum (length tri_u) (fun d => matrix_times 2 M tri_u d * nth d tri_u 0)) /\
  (exists M, tie_matrix (fun i => pr_asm (tri_pair true i)) 2 jac jac Elasticity (tri_after tri_history) = Some M /\
     forall w v, rsum (length v) (fun d => matrix_times 2 M w d * nth d v 0) = rsum (length w) (fun d => matrix_times 2 M v d * nth d w 0)).
Proof.
  intros thermo rhs jac. split.
  - destruct (C105_elastic_energy tri_pd 2 tri_pair (fun _ => 1%nat) 1 3 2 1 (fun _ => [1]) (fun _ _ => ([1], 1%nat))
      (tri_kd true) rhs thermo jac jac tri_history_skew {| e_mu := (false, [1]); e_lambda := (false, [2]); e_gamma := 2; e_theta := -1; e_u := Some (true, [1]) |} (tri_object true)) as (M & EM & X); try reflexivity.
    + intros st. repeat split; exists no_geometry; reflexivity.
    + exact tri_fields_skew.
    + repeat (apply Forall_cons || apply Forall_nil); discriminate.
    + exists M. split; [exact EM|]. destruct (X tri_u) as (_ & P & Z). cbn [e_gamma] in P, Z. specialize (P (tri_positive true) ltac:(lra)). specialize (Z (tri_positive true) ltac:(lra)).
      destruct P as [P | P]; [exact P|]. exfalso. pose proof (proj1 Z (eq_sym P) 0%nat 0%nat 0%nat 0%nat ltac:(lia) ltac:(cbn; lia) ltac:(cbn; now left) ltac:(cbn; lia)) as C. rewrite tri_u_jumps in C. lra.
  - destruct (C105_elastic_symmetric tri_pd 2 tri_pair (fun _ => 1%nat) 1 3 2 1 (fun _ => [1]) (fun _ _ => ([1], 1%nat))
      (tri_kd true) rhs thermo jac jac tri_history {| e_mu := (false, [1]); e_lambda := (false, [2]); e_gamma := 2; e_theta := 1; e_u := Some (true, tri_u) |} (tri_object true)) as (M & EM & X); try reflexivity.
    + intros st. repeat split; exists no_geometry; reflexivity.
    + exact tri_fields.
    + repeat (apply Forall_cons || apply Forall_nil); discriminate.
    + exists M. now split.
Qed.
Example C105_poisson_nonvacuous :
  let rhs st := poisson_rhs (with_strides (tri_kd false) st) no_geometry in
  let jac st := poisson_jac (with_strides (tri_kd false) st) no_geometry in
  (exists M, tie_matrix (fun i => pr_asm (tri_pair false i)) 2 jac jac Poisson (tri_after tri_history_skew) = Some M /\
     0 < rsum (length tri_u) (fun d => matrix_times 1 M tri_u d * nth d tri_u 0)) /\
  (exists M, tie_matrix (fun i => pr_asm (tri_pair false i)) 2 jac jac Poisson (tri_after tri_history) = Some M /\
     forall w v, rsum (length v) (fun d => matrix_times 1 M w d * nth d v 0) = rsum (length w) (fun d => matrix_times 1 M v d * nth d w 0)).
Proof.
  intros rhs jac. split.
  - destruct (C105_poisson_energy tri_pd 2 tri_pair (fun _ => 1%nat) 1 3 2 1 (fun _ => [1]) (fun _ _ => ([1], 1%nat))
      (tri_kd false) rhs jac jac tri_history_skew {| p_kdt := (false, [3]); p_gamma := 3; p_theta := -1; p_T := None |} (tri_object false)) as (M & EM & X); try reflexivity.
    + intros st. repeat split; exists no_geometry; reflexivity.
    + exact tri_fields_skew.
    + exists M. split; [exact EM|]. destruct (X tri_u) as (_ & P & Z). cbn [p_gamma] in P, Z.
      assert (HC : forall i e, (i < 2)%nat -> (e < a_local (pr_asm (tri_pair false i)))%nat -> 0 < nth e (fst ((fun (_ : nat) (_ : field) => ([1], 1%nat)) i (false, [3]))) 0) by (intros i e Hi He; cbn in He; assert (e = 0)%nat as -> by lia; cbn; lra).
      specialize (P (tri_positive false) HC ltac:(lra)). specialize (Z (tri_positive false) HC ltac:(lra)).
      destruct P as [P | P]; [exact P|]. exfalso. pose proof (proj1 Z (eq_sym P) 0%nat 0%nat 0%nat 0%nat ltac:(lia) ltac:(cbn; lia) ltac:(cbn; now left) ltac:(cbn; lia)) as C. rewrite tri_T_jumps in C. lra.
  - destruct (C105_poisson_symmetric tri_pd 2 tri_pair (fun _ => 1%nat) 1 3 2 1 (fun _ => [1]) (fun _ _ => ([1], 1%nat))
      (tri_kd false) rhs jac jac tri_history {| p_kdt := (false, [3]); p_gamma := 3; p_theta := 1; p_T := Some (false, tri_u) |} (tri_object false)) as (M & EM & X); try reflexivity.
    + intros st. repeat split; exists no_geometry; reflexivity.
    + exact tri_fields.
    + exists M. now split.
Qed.
