(** C109 and C110 for the two-triangle object of C78. *)
From Coq Require Import List Arith ZArith Lia Bool Reals Lra.
Import ListNotations.
From Verif Require Import Prelude PreludeLemmas RSum RealLemmas LayoutModel LayoutProps ContactProblemModel ContactProblemProps.
From Verif Require Import EntitiesModel PackingModel PackUProps AssemblyModel AssemblyProofs AssemblyProps RayModel KernelModel KernelProofs KernelSpec
  ElasticityProps ContactKernelModel ContactKernelSpec ContactKernelProps FrictionKernelProps CoefficientsModel CoefficientsProps SystemSpec TieSystemModel TieSystemProofs TieSystemProps
  TieWeakProps ContactWeakProps ContactSystemModel ContactSystemSpec ContactSystemProofs ContactSystemProps TieSystemExamples ContactSystemExamples SystemWeakProps TieFormProps TieFormExamples
  ContactFormProps ContactFormExamples ContactEnergyProps UniqueProps.
Local Open Scope R_scope.

(** theta = 1 *)
Definition sym_calls : list (@call (list R) (nat -> list Z)) := two_calls ++ [CallNitsche 2 1].
Definition sym_s := two_after tt sym_calls.
Example C109_nonvacuous : forall law, law <> Coulomb -> exists kernels, generated two_kd (vector_kinds law) kernels /\
  forall w, length w = 12%nat ->
    derivable_pt_lim (fun t => contact_potential (tri_pd true) (tri_kd true) 2 (pair_at (tri_pd true) (tri_pair true) two_basis (cp_geom sym_s) (cp_map sym_s)) law 2 sym_s (moved two_u w t)) 0
      (applied (contact_vector (tri_pd true) 2 (tri_pair true) two_basis kernels (two_updated two_u sym_s) (repeat 0 12)) w).
Proof.
  intros law HL. destruct (two_kernels law) as (kernels & HK). exists kernels. split; [exact HK|]. intros w Hw.
  apply (C109_residual_is_gradient (tri_pd true) (tri_kd true) 2 (tri_pair true) two_basis (fun _ => 1%nat) (fun g _ => g) two_detect
      (fun i _ _ => [[- two_axis i * (1/2); 0]]) (fun i _ _ => [[two_axis i; 0]]) (fun _ f => [f]) (fun _ => [[1]]) law tt sym_calls two_u w kernels HL eq_refl); auto.
  - repeat constructor.
  - exact two_setting.
  - change (0 < 2). lra.
  - intros i e Hi He. apply (two_stored i e Hi He).
Qed.
(** Springs of stiffness 2 hold all nodes; the loads are arbitrary. *)
Definition springs (f v : list R) : list R := moved (map (fun x => 2 * x) v) f (-1).
Lemma springs_length f v : length (springs f v) = length v.
Proof. unfold springs. now rewrite moved_length, map_length. Qed.
Lemma springs_nth f v d : length f = length v -> nth d (springs f v) 0 = 2 * nth d v 0 - nth d f 0.
Proof.
  intros L. unfold springs. rewrite nth_moved by (now rewrite map_length). replace 0 with ((fun x => 2 * x) 0) at 1 by ring. rewrite map_nth. ring.
Qed.
Example C109_stationary_nonvacuous : forall law f, law <> Coulomb -> length f = 12%nat -> exists kernels, generated two_kd (vector_kinds law) kernels /\
  ((forall d, (d < 12)%nat -> nth d (contact_vector (tri_pd true) 2 (tri_pair true) two_basis kernels (two_updated two_u sym_s) (springs f two_u)) 0 = 0) <->
   forall w, length w = 12%nat -> derivable_pt_lim (fun t => rsum 12 (fun d => nth d (moved two_u w t) 0 * nth d (moved two_u w t) 0 - nth d f 0 * nth d (moved two_u w t) 0) +
     contact_potential (tri_pd true) (tri_kd true) 2 (pair_at (tri_pd true) (tri_pair true) two_basis (cp_geom sym_s) (cp_map sym_s)) law 2 sym_s (moved two_u w t)) 0 0).
Proof.
  intros law f HL Lf. destruct (two_kernels law) as (kernels & HK). exists kernels. split; [exact HK|].
  apply (C109_equilibrium_is_stationary (tri_pd true) (tri_kd true) 2 (tri_pair true) two_basis (fun _ => 1%nat) (fun g _ => g) two_detect
      (fun i _ _ => [[- two_axis i * (1/2); 0]]) (fun i _ _ => [[two_axis i; 0]]) (fun _ f => [f]) (fun _ => [[1]]) law tt sym_calls two_u kernels
      (fun v => rsum 12 (fun d => nth d v 0 * nth d v 0 - nth d f 0 * nth d v 0)) (springs f) HL eq_refl); auto.
  - repeat constructor.
  - exact two_setting.
  - change (0 < 2). lra.
  - intros i e Hi He. apply (two_stored i e Hi He).
  - intros w Lw. change (length two_u) with 12%nat in Lw. apply expands_derivable. unfold applied. rewrite springs_length. change (length two_u) with 12%nat.
    apply (expands_rsum 12 (fun d t => _)). intros d _. exists (nth d w 0 * nth d w 0). intros t. rewrite !nth_moved, springs_nth by auto. right.
    rewrite <- (Rabs_right (nth d w 0 * nth d w 0 * (t * t))); [f_equal; ring|]. assert (0 <= nth d w 0 * nth d w 0) by apply Rle_0_sqr. assert (0 <= t * t) by apply Rle_0_sqr. nra.
Qed.

(** theta = -1 *)
Example C110_nonvacuous : forall law f u u', law <> Coulomb -> length f = 12%nat -> length u = 12%nat -> length u' = 12%nat -> exists kernels, generated two_kd (vector_kinds law) kernels /\
  let F v := contact_vector (tri_pd true) 2 (tri_pair true) two_basis kernels (two_updated v two_s) (springs f v) in
  ((forall d, nth d (F u) 0 = 0) -> (forall d, nth d (F u') 0 = 0) -> u = u') /\
  forall b b', length b = 12%nat -> length b' = 12%nat -> (forall d, nth d (F u) 0 = nth d b 0) -> (forall d, nth d (F u') 0 = nth d b' 0) ->
    2 * 2 * rsum 12 (fun d => (nth d u' 0 - nth d u 0) * (nth d u' 0 - nth d u 0)) <= rsum 12 (fun d => (nth d b' 0 - nth d b 0) * (nth d b' 0 - nth d b 0)).
Proof.
  intros law f u u' HL Lf Lu Lu'. destruct (two_kernels law) as (kernels & HK). exists kernels. split; [exact HK|].
  assert (SP : forall w, length w = length u -> applied (springs f (moved u w 1)) w - applied (springs f u) w = 2 * rsum (length u) (fun d => nth d w 0 * nth d w 0)).
  { intros w Lw. unfold applied. rewrite !springs_length, moved_length, <- rsum_minus, <- rsum_scal. apply rsum_ext. intros d _. rewrite !springs_nth, nth_moved by (rewrite ?moved_length; congruence). ring. }
  assert (HW : forall i e q, (i < 2)%nat -> (e < num_local (tri_pair true) i)%nat -> In q (points_of (pr_asm (two_pairs i)) e) -> 0 <= interface_weight (tri_kd true) (two_pairs i) e q).
  { intros i e q Hi He Hq. destruct (two_stored i e Hi He) as [-> _]. rewrite (two_point i q Hi Hq). clear Hq He. destruct i as [|[|i]]; [| |lia]; unfold interface_weight, surface_weight, own_cell, own_facet;
      lazy -[Rplus Rminus Rmult Rdiv Rinv Ropp sqrt Rabs Rle IZR]; rewrite Rmult_1_l; apply Rabs_pos. }
  assert (HZ : forall X, (1 + nth 1 (constants_of two_s) 0) * (1 + nth 1 (constants_of two_s) 0) / 4 * X = 0) by (intros X; change (nth 1 (constants_of two_s) 0) with (-1); field).
  intros F. split.
  - intros Z Z'. apply (C110_at_most_one_solution (tri_pd true) (tri_kd true) 2 (tri_pair true) two_basis (fun _ => 1%nat) (fun g _ => g) two_detect
      (fun i _ _ => [[- two_axis i * (1/2); 0]]) (fun i _ _ => [[two_axis i; 0]]) (fun _ f => [f]) (fun _ => [[1]]) law tt two_calls u u' kernels (springs f) (fun _ => False) HL); auto; try contradiction.
    + repeat constructor.
    + exact two_setting.
    + change (0 < 2). lra.
    + intros i e Hi He. apply (two_stored i e Hi He).
    + intros v. apply springs_length.
    + congruence.
    + intros w Lw _ (d & Hd). rewrite SP by exact Lw. refine (Rle_lt_trans _ 0 _ _ _); [right; apply HZ|]. apply Rmult_lt_0_compat; [lra|].
      assert (Hl : (d < length u)%nat). { destruct (Nat.lt_ge_cases d (length w)) as [K|K]; [congruence|]. rewrite nth_overflow in Hd by exact K. contradiction. }
      destruct (rsum_nonneg (length u) (fun d => nth d w 0 * nth d w 0)) as [P|P]; [intros; apply Rle_0_sqr|exact P|]. exfalso. apply Hd.
      assert (Q : nth d w 0 * nth d w 0 = 0) by (apply (rsum_nonneg_zero (length u) (fun d => nth d w 0 * nth d w 0)); auto; intros; apply Rle_0_sqr). apply Rmult_integral in Q. tauto.
  - intros b b' Lb Lb' Z Z'. rewrite <- Lu. apply (C110_continuous_in_the_loads (tri_pd true) (tri_kd true) 2 (tri_pair true) two_basis (fun _ => 1%nat) (fun g _ => g) two_detect
      (fun i _ _ => [[- two_axis i * (1/2); 0]]) (fun i _ _ => [[two_axis i; 0]]) (fun _ f => [f]) (fun _ => [[1]]) law tt two_calls u u' b b' kernels (springs f) (fun _ => False) 2 HL); auto; try contradiction.
    + repeat constructor.
    + exact two_setting.
    + change (0 < 2). lra.
    + intros i e Hi He. apply (two_stored i e Hi He).
    + intros v. apply springs_length.
    + congruence.
    + lra.
    + intros w Lw _. rewrite SP by exact Lw. apply Req_le. rewrite <- (Rplus_0_r (2 * rsum _ _)) at 2. f_equal. apply HZ.
Qed.
