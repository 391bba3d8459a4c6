(** C120 for the two-triangle object of C78: theta = -1, springs at all nodes, the last node held. *)
From Coq Require Import List Arith ZArith Lia Bool Reals Lra.
Import ListNotations.
From Verif Require Import Prelude PreludeLemmas RSum RealLemmas LayoutModel LayoutProps ContactProblemModel ContactProblemProps.
From Verif Require Import EntitiesModel PackingModel PackUProps AssemblyModel AssemblyProofs AssemblyProps RayModel KernelModel KernelProofs KernelSpec
  ElasticityProps ContactKernelModel ContactKernelSpec ContactKernelProps FrictionKernelProps CoefficientsModel CoefficientsProps SystemSpec TieSystemModel TieSystemProofs TieSystemProps
  TieWeakProps ContactWeakProps ContactSystemModel ContactSystemSpec ContactSystemProofs ContactSystemProps TieSystemExamples ContactSystemExamples SystemWeakProps TieFormProps TieFormExamples
  ContactFormProps ContactFormExamples ContactEnergyProps UniqueProps UniqueExamples FixedPointProofs ExistenceProps.
Local Open Scope R_scope.

Definition spring (d e : nat) : R := if (e =? d)%nat then 2 else 0.
Example C120_nonvacuous : forall law f prescribed, law <> Coulomb -> length prescribed = 12%nat -> exists kernels, generated two_kd (vector_kinds law) kernels /\
  let F v := contact_vector (tri_pd true) 2 (tri_pair true) two_basis kernels (two_updated v two_s) (stiffness spring v) in
  let solution u := length u = 12%nat /\ (forall d, (d < 12)%nat -> (10 <=? d)%nat = true -> nth d u 0 = nth d prescribed 0) /\ (forall d, (d < 12)%nat -> (10 <=? d)%nat = false -> nth d (F u) 0 = nth d f 0) in
  exists u, solution u /\ forall u', solution u' -> u' = u.
Proof.
  intros law f prescribed HL Lp. destruct (two_kernels law) as (kernels & HK). exists kernels. split; [exact HK|]. cbv zeta.
  apply (C120_linear_bodies (tri_pd true) (tri_kd true) 2 (tri_pair true) two_basis (fun _ => 1%nat) (fun g _ => g) two_detect
      (fun i _ _ => [[- two_axis i * (1/2); 0]]) (fun i _ _ => [[two_axis i; 0]]) (fun _ f => [f]) (fun _ => [[1]]) law tt two_calls kernels spring 12 (fun d => (10 <=? d)%nat) prescribed f 2 HL); auto.
  - repeat constructor.
  - exact two_setting.
  - change (0 < 2). lra.
  - intros i e Hi He. apply (two_stored i e Hi He).
  - intros i e q Hi He Hq. destruct (two_stored i e Hi He) as [-> _]. rewrite (two_point i q Hi Hq). clear Hq He. destruct i as [|[|i]]; [| |lia]; unfold interface_weight, surface_weight, own_cell, own_facet;
      lazy -[Rplus Rminus Rmult Rdiv Rinv Ropp sqrt Rabs Rle IZR]; rewrite Rmult_1_l; apply Rabs_pos.
  - lra.
  - intros w Lw _. match goal with |- _ + _ * ?X <= _ => set (Y := X) end. change (nth 1 (constants_of (two_after tt two_calls)) 0) with (-1) || idtac.
    match goal with |- _ + ?c * Y <= _ => assert (HZ : c * Y = 0) end.
    { match goal with |- (1 + ?th) * _ / 4 * _ = 0 => change th with (-1) end. field. }
    rewrite HZ, Rplus_0_r, <- rsum_scal. apply Req_le, rsum_ext. intros d Hd.
    rewrite (rsum_ext 12 _ (fun e => (if (e =? d)%nat then 1 else 0) * (2 * (nth d w 0 * nth e w 0)))) by (intros e _; unfold spring; destruct (e =? d)%nat; ring). now rewrite rsum_delta.
Qed.
