(** C121 for the two-triangle object of C78: theta = -1, springs at all nodes, the last node
    held, and the loads that hold the undeformed state. *)
From Coq Require Import List Arith ZArith Lia Bool Reals Lra.
Import ListNotations.
From Verif Require Import Prelude PreludeLemmas RSum RealLemmas LayoutModel LayoutProps ContactProblemModel ContactProblemProps.
From Verif Require Import EntitiesModel PackingModel PackUProps AssemblyModel AssemblyProofs AssemblyProps RayModel KernelModel KernelProofs KernelSpec
  ElasticityProps ContactKernelModel ContactKernelSpec ContactKernelProps FrictionKernelProps CoefficientsModel CoefficientsProps SystemSpec TieSystemModel TieSystemProofs TieSystemProps
  TieWeakProps ContactWeakProps ContactSystemModel ContactSystemSpec ContactSystemProofs ContactSystemProps TieSystemExamples ContactSystemExamples SystemWeakProps TieFormProps TieFormExamples
  ContactFormProps ContactFormExamples ContactEnergyProps UniqueProps UniqueExamples FixedPointProofs ExistenceProps ExistenceExamples NewtonLocalProps.
Local Open Scope R_scope.

Lemma two_measure i q : (i < 2)%nat -> In q (points_of (pr_asm (two_pairs i)) 0) -> contact_measure (tri_pd true) (tri_kd true) two_pairs 2 two_s (repeat 0 12) i 0 q <> 0.
Proof.
  intros Hi Hq. rewrite (two_point i q Hi Hq). clear Hq. unfold contact_measure. cbv zeta.
  match goal with |- _ - _ * scalar_product _ ?t _ <> 0 => assert (Z : forall a, (a < 2)%nat -> t a = 0) end.
  { intros a Ha. apply zero_traction; [|exact Ha]. intros x y Hx Hy. destruct i as [|[|i]]; [| |lia]; (destruct x as [|[|x]]; [| |lia]); (destruct y as [|[|y]]; [| |lia]); numbers; field; apply Rgt_not_eq; lra. }
  change (pd_gdim (tri_pd true)) with 2%nat in *. rewrite (product_ext 2 _ (fun _ => 0) _ _ Z (fun _ _ => eq_refl)). destruct i as [|[|i]]; [| |lia]; numbers; lra.
Qed.

Example C121_nonvacuous : exists vks mks, generated two_kd (vector_kinds Frictionless) vks /\ generated two_kd (matrix_kinds Frictionless) mks /\
  let F v := contact_vector (tri_pd true) 2 (tri_pair true) two_basis vks (two_updated v two_s) (stiffness spring v) in
  exists eps, 0 < eps /\
    forall u, length u = 12%nat -> (forall d, (d < 12)%nat -> (10 <=? d)%nat = true -> nth d u 0 = nth d (repeat 0 12) 0) -> distance2 12 u (repeat 0 12) < eps ->
      let K := contact_matrix (tri_pd true) 2 (tri_pair true) two_basis mks (two_updated u two_s) in
      let newton_step w := length w = 12%nat /\ (forall d, (d < 12)%nat -> (10 <=? d)%nat = true -> nth d w 0 = 0) /\
        (forall d, (d < 12)%nat -> (10 <=? d)%nat = false -> nth d (stiffness spring w) 0 + matrix_times 2 K w d = nth d (F (repeat 0 12)) 0 - nth d (F u) 0) in
      (exists w, newton_step w) /\ (forall w, newton_step w -> moved u w 1 = repeat 0 12).
Proof.
  destruct (two_kernels Frictionless) as (vks & HV).
  assert (HM : exists mks, generated two_kd (matrix_kinds Frictionless) mks) by (eexists; repeat (apply Forall2_cons || apply Forall2_nil); exists no_geometry; reflexivity). destruct HM as (mks & HM). exists vks, mks. split; [exact HV|split; [exact HM|]]. cbv zeta.
  apply (C121_newton_reaches_solution (tri_pd true) (tri_kd true) 2 (tri_pair true) two_basis (fun _ => 1%nat) (fun g _ => g) two_detect
      (fun i _ _ => [[- two_axis i * (1/2); 0]]) (fun i _ _ => [[two_axis i; 0]]) (fun _ f => [f]) (fun _ => [[1]]) tt two_calls vks mks spring 12 (fun d => (10 <=? d)%nat) (repeat 0 12) _ 2); auto.
  - repeat constructor.
  - exact two_setting.
  - change (0 < 2). lra.
  - intros i e Hi He. apply (two_stored i e Hi He).
  - intros i e q Hi He Hq. destruct (two_stored i e Hi He) as [-> _]. rewrite (two_point i q Hi Hq). clear Hq He. destruct i as [|[|i]]; [| |lia]; unfold interface_weight, surface_weight, own_cell, own_facet;
      lazy -[Rplus Rminus Rmult Rdiv Rinv Ropp sqrt Rabs Rle IZR]; rewrite Rmult_1_l; apply Rabs_pos.
  - lra.
  - intros w Lw _. match goal with |- _ + _ * ?X <= _ => set (Y := X) end.
    match goal with |- _ + ?c * Y <= _ => assert (HZ : c * Y = 0) end.
    { match goal with |- (1 + ?th) * _ / 4 * _ = 0 => change th with (-1) end. field. }
    rewrite HZ, Rplus_0_r, <- rsum_scal. apply Req_le, rsum_ext. intros d Hd.
    rewrite (rsum_ext 12 _ (fun e => (if (e =? d)%nat then 1 else 0) * (2 * (nth d w 0 * nth e w 0)))) by (intros e _; unfold spring; destruct (e =? d)%nat; ring). now rewrite rsum_delta.
  - intros i e q Hi He Hq. destruct (two_stored i e Hi He) as [-> _]. now apply two_measure.
Qed.
