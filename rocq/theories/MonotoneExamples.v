(** C104: the two-triangle object of C78 (theta = -1) meets the hypotheses, for contact without
    friction and with Tresca friction. *)
From Coq Require Import List Arith ZArith Lia Bool Reals Lra.
Import ListNotations.
From Verif Require Import Prelude PreludeLemmas RSum RealLemmas LayoutModel LayoutProps ContactProblemModel ContactProblemProps.
From Verif Require Import EntitiesModel PackingModel PackUProps AssemblyModel AssemblyProofs AssemblyProps RayModel KernelModel KernelProofs KernelSpec
  ElasticityProps ContactKernelModel ContactKernelSpec ContactKernelProps FrictionKernelProps CoefficientsModel CoefficientsProps SystemSpec TieSystemModel TieSystemProofs TieSystemProps
  TieWeakProps ContactWeakProps ContactSystemModel ContactSystemSpec ContactSystemProofs ContactSystemProps TieSystemExamples ContactSystemExamples SystemWeakProps MonotoneProps.
Local Open Scope R_scope.

Lemma two_weight i : (i < 2)%nat -> 0 <= surface_weight two_kd (two_coords i) 0 0.
Proof.
  intros Hi. destruct i as [|[|i]]; [| |lia]; cbv -[IZR Rdiv Rminus Rinv Rmult Rplus Ropp sqrt Rabs Rle];
    match goal with |- 0 <= ?a * Rabs ?x => pose proof (Rabs_pos x); nra | |- context [Rabs ?x] => pose proof (Rabs_pos x); nra end.
Qed.

Example C104_nonvacuous : forall law, law <> Coulomb -> exists vks mks,
  generated two_kd (vector_kinds law) vks /\ generated two_kd (matrix_kinds law) mks /\
  (forall u', length u' = 12%nat ->
    let F v := contact_vector (tri_pd true) 2 (tri_pair true) two_basis vks (two_updated v two_s) (repeat 0 12) in
    0 <= applied (F u') (moved u' two_u (-1)) - applied (F two_u) (moved u' two_u (-1))) /\
  (forall w, length w = 12%nat ->
    0 <= rsum (length w) (fun d => matrix_times 2 (contact_matrix (tri_pd true) 2 (tri_pair true) two_basis mks (two_updated two_u two_s)) w d * nth d w 0)).
Proof.
  intros law HNC.
  assert (X : exists vks mks, generated two_kd (vector_kinds law) vks /\ generated two_kd (matrix_kinds law) mks).
  { destruct law; eexists; eexists; split; repeat (apply Forall2_cons || apply Forall2_nil); exists no_geometry; reflexivity. }
  destruct X as (vks & mks & Hv & Hm). exists vks, mks. split; [exact Hv|]. split; [exact Hm|].
  assert (H1 : 0 < nth 0 (constants_of two_s) 0) by (change (0 < 2); lra).
  assert (P : forall i e, (i < 2)%nat -> (e < 1)%nat -> e = 0%nat /\ points_of (pr_asm (pair_at (tri_pd true) (tri_pair true) two_basis (cp_geom two_s) (cp_map two_s) i)) e = [0%nat]).
  { intros i e Hi He. assert (e = 0)%nat as -> by lia. split; [reflexivity|]. destruct i as [|[|i]]; [reflexivity|reflexivity|lia]. }
  assert (K : forall i, (i < 2)%nat -> 0 <= ck_friction (two_row i) /\ 0 < nth 3 (two_row i) 0).
  { intros i Hi. two_cases i; (split; [change (0 <= 1)|change (0 < 1)]); lra. }
  split.
  - intros u' Lu.
    apply (C104_monotone (tri_pd true) (tri_kd true) 2 (tri_pair true) two_basis (fun _ => 1%nat) (fun g _ => g) two_detect
      (fun i _ _ => [[- two_axis i * (1/2); 0]]) (fun i _ _ => [[two_axis i; 0]]) (fun _ f => [f]) (fun _ => [[1]]) law tt two_calls two_u u' (repeat 0 12) vks HNC eq_refl); auto.
    + repeat constructor.
    + exact two_setting.
    + intros i e Hi asm He. destruct (P i e Hi He) as [-> Ep]. destruct (K i Hi) as [K1 K2]. split; [exact K1|]. split; [exact K2|].
      intros q Hq. unfold asm in Hq. change (In q (points_of (pr_asm (pair_at (tri_pd true) (tri_pair true) two_basis (cp_geom two_s) (cp_map two_s) i)) 0)) in Hq. rewrite Ep in Hq. destruct Hq as [<-|[]]. exact (two_weight i Hi).
  - intros w Lw.
    apply (C104_matrix_positive (tri_pd true) (tri_kd true) 2 (tri_pair true) two_basis (fun _ => 1%nat) (fun g _ => g) two_detect
      (fun i _ _ => [[- two_axis i * (1/2); 0]]) (fun i _ _ => [[two_axis i; 0]]) (fun _ f => [f]) (fun _ => [[1]]) law tt two_calls two_u w vks mks HNC eq_refl); auto.
    + repeat constructor.
    + exact two_setting.
    + intros i e Hi asm He. destruct (P i e Hi He) as [-> Ep]. destruct (K i Hi) as [K1 K2]. split; [exact K1|]. split; [exact K2|].
      intros q Hq. unfold asm in Hq. change (In q (points_of (pr_asm (pair_at (tri_pd true) (tri_pair true) two_basis (cp_geom two_s) (cp_map two_s) i)) 0)) in Hq. rewrite Ep in Hq. destruct Hq as [<-|[]].
      split; [exact (two_weight i Hi)|exact (two_off law i Hi)].
Qed.
