(** C131 for the object of C129: one load step from rest. *)
From Coq Require Import List Arith ZArith Lia Bool Reals Lra.
Import ListNotations.
From Verif Require Import Prelude PreludeLemmas RSum RealLemmas LayoutModel ContactProblemModel EntitiesModel PackingModel AssemblyModel CoefficientsModel SystemSpec TieSystemModel TieSystemExamples KernelModel ContactKernelModel ContactSystemModel ContactSystemSpec ContactSystemProps ContactSystemExamples
  ContactFormExamples UniqueExamples OneSidedModel NewtonModel NewtonProofs OneSidedSystemModel OneSidedSolveModel LoadStepModel LoadStepProps LoadStepExamples LiftModel LiftProps LiftExamples LiftStepModel LiftStepProps.
Local Open Scope R_scope.

Example C131_loop_runs : forall law kernels mkernels, generated two_kd (vector_kinds law) kernels ->
  exists u s, lifted_loop (tri_pd true) 2 (tri_pair true) two_basis (fun _ => 1%nat) (fun g _ => g) two_detect (fun i _ _ => [[- two_axis i * (1/2); 0]]) (fun i _ _ => [[two_axis i; 0]])
      kernels mkernels (fun _ _ v => springs (pull_load kernels) v) (fun _ _ _ => spring_matrix) held held_value pull_solve true 1 (repeat 0 14, pull_start) = Ret ([true], (u, s)) /\
    Rabs (nth 12 u 0 - 1) <= / 10 ^ 7 /\ Rabs (nth 13 u 0 - -1) <= / 10 ^ 7.
Proof.
  intros law kernels mkernels HK. destruct (C129_step_runs law kernels mkernels (repeat 0 14) HK) as (s1 & E & X).
  assert (EL : exists us, lifted_loop (tri_pd true) 2 (tri_pair true) two_basis (fun _ => 1%nat) (fun g _ => g) two_detect (fun i _ _ => [[- two_axis i * (1/2); 0]]) (fun i _ _ => [[two_axis i; 0]])
      kernels mkernels (fun _ _ v => springs (pull_load kernels) v) (fun _ _ _ => spring_matrix) held held_value pull_solve true 1 (repeat 0 14, pull_start) = Ret ([true], us)).
  { cbn [lifted_loop]. unfold lifted_step. rewrite E. generalize (lifted_finish (tri_pd true) 2 (tri_pair true) two_basis (fun _ => 1%nat) (fun g _ => g) two_detect (fun i _ _ => [[- two_axis i * (1/2); 0]]) (fun i _ _ => [[two_axis i; 0]]) (repeat 0 14) s1). intros us. exists us. reflexivity. }
  destruct EL as ([u s] & EL). exists u, s. split; [exact EL|].
  destruct (C131_prescribed_displacement _ _ _ _ _ _ _ _ _ _ _ _ _ _ _ _ _ 1%nat _ _ _ _ _ EL) as (_ & _ & _ & _ & D); [repeat constructor|reflexivity|reflexivity|].
  pose proof (D 12%nat ltac:(cbn; lia) eq_refl) as D1. pose proof (D 13%nat ltac:(cbn; lia) eq_refl) as D2. clear D EL E. rewrite nth_repeat_0 in D1, D2. cbn [rsum INR] in D1, D2. change (nth 12 (held_value 0) 0) with 1 in D1. change (nth 13 (held_value 0) 0) with (-1) in D2.
  change (atol pull_start) with (/ 10 ^ 7) in D1, D2. rewrite Rmult_1_l in D1, D2.
  replace (nth 12 u 0 - 1) with (nth 12 u 0 - (0 + (0 + 1))) by ring. replace (nth 13 u 0 - -1) with (nth 13 u 0 - (0 + (0 + -1))) by ring. split; assumption.
Qed.
