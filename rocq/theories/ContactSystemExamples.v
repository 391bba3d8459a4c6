(** A concrete ContactProblem object: two triangles of two bodies, contact
    pairs in both directions; it meets the hypotheses of C78. *)
From Coq Require Import List Arith ZArith Lia Bool Reals Lra Sorted.
Import ListNotations.
From Verif Require Import Prelude PreludeLemmas RSum EntitiesModel PackingModel SubMeshProps PackUProps AssemblyModel AssemblyProofs LayoutModel ContactProblemModel
  RayModel KernelModel KernelProofs KernelSpec MeshTieKernelProps ElasticityProps ContactKernelModel ContactKernelSpec CoefficientsModel CoefficientsProps SystemSpec TieSystemModel TieSystemProofs TieSystemProps TieSystemExamples
  ContactSystemModel ContactSystemSpec ContactSystemProps.
Local Open Scope R_scope.

(** The contact point of the facet of triangle [i] lies on the facet of the other
    one; normals point along the first axis, the gap is 1/2. *)
Definition two_detect (_ : unit) (i : nat) : list Z := [Z.of_nat (1 - i)].
Definition two_basis (_ : unit) (_ : nat -> list Z) (i p j : nat) : R := tri_phi 0 j.
Definition two_axis (i : nat) : R := if (i =? 0)%nat then -1 else 1.
Definition two_after := contact_after (tri_pd true) 2 (tri_pair true) two_basis (fun _ => 1%nat) (fun g _ => g) two_detect
  (fun i _ _ => [[- two_axis i * (1/2); 0]]) (fun i _ _ => [[two_axis i; 0]]) (fun _ f => [f]) (fun _ => [[1]]).
Definition two_dict : coefficient_dict (F := list R) := mkDict (Some [1]) (Some [2]) (Some [1]) None None.
(** A refused update, a generation, an update and a detection. *)
Definition two_calls : list (@call (list R) (nat -> list Z)) :=
  [CallUpdateData (repeat 5 12); CallGenerate two_dict 1 0; CallUpdateData (repeat 5 12); CallDetection (repeat 0 12); CallNitsche 2 (-1)].
Definition two_s := two_after tt two_calls.
(** The first triangle moves by (2, 1). *)
Definition two_u : list R := [2; 1; 2; 1; 2; 1; 0; 0; 0; 0; 0; 0].
Definition two_updated := contact_updated (tri_pd true) 2 (tri_pair true) two_basis (fun _ => 1%nat).
Definition two_row (i : nat) : list R := slice (concat (nth i (cp_coeffs (two_updated two_u two_s)) [])) (0 * stride (tri_pd true)) (stride (tri_pd true)).
Lemma two_rows : two_row 0 = [1; 2; 1; 1; 1/2; 0; -1; 0; 0; 0; 1/2; 1/2; 1/2; 1/2; 2; 1; 0; 0; 0; 0; 0; 0; -1; 0] /\
  two_row 1 = [1; 2; 1; 1; -1/2; 0; 1; 0; 0; 0; 1/2; 1/2; 1/2; 1/2; 0; 0; 0; 0; 0; 0; 2; 1; 1; 0].
Proof.
  split; cbv -[IZR Rdiv Rminus Rinv Rmult Rplus Ropp sqrt]; repeat (apply f_equal2; [first [reflexivity | field; apply Rgt_not_eq; lra | lra]|]); reflexivity.
Qed.
Definition two_kd := with_strides (tri_kd true) (contact_kernel_strides 1 3 2 2 1).
Definition two_coords (i : nat) := coordinates_of (pr_asm (tri_pair true i)) i.
Ltac two_cases i := destruct i as [|[|i]]; [rewrite (proj1 two_rows)|rewrite (proj2 two_rows)|lia].
Lemma zero_traction mu lmbda G n a : (forall x y, (x < 2)%nat -> (y < 2)%nat -> G x y = 0) -> (a < 2)%nat -> traction 2 mu lmbda G n a = 0.
Proof. intros H Ha. unfold traction, stress. cbn [rsum]. rewrite !H by lia. ring. Qed.
Lemma two_traction i a : (i < 2)%nat -> (a < 2)%nat -> ck_traction two_kd (two_coords i) 0 (two_row i) 0 a = 0.
Proof.
  intros Hi Ha. two_cases i; apply zero_traction; auto; intros x y Hx Hy; destruct x as [|[|x]]; try lia; destruct y as [|[|y]]; try lia; reflexivity.
Qed.
Ltac two_eval := cbv -[IZR Rdiv Rminus Rinv Rmult Rplus Ropp sqrt]; try lra.
Lemma two_indicator i : (i < 2)%nat -> contact_indicator two_kd (two_coords i) 0 (two_row i) [2; -1] 0 = 3 / 2.
Proof.
  intros Hi. unfold contact_indicator. replace (along two_kd (ck_normal two_kd (two_row i) 0) (ck_traction two_kd (two_coords i) 0 (two_row i) 0)) with 0.
  - two_cases i; two_eval.
  - unfold along. change (kd_gdim two_kd) with 2%nat. cbn [rsum]. rewrite !two_traction by lia. ring.
Qed.
Lemma two_tangential i a : (i < 2)%nat -> (a < 2)%nat -> tangential two_kd (two_row i) 0 (ck_traction two_kd (two_coords i) 0 (two_row i) 0) a = 0.
Proof. intros Hi Ha. unfold tangential, along. change (kd_gdim two_kd) with 2%nat. cbn [rsum]. rewrite !two_traction by lia. ring. Qed.
Lemma norm_one x y : x = 0 -> y * y = 1 -> sqrt (0 + x * x + y * y) = 1.
Proof. intros -> E. replace (0 + 0 * 0 + y * y) with 1 by (rewrite E; ring). apply sqrt_1. Qed.
Lemma two_norms i : (i < 2)%nat ->
  norm_of two_kd (tresca_argument two_kd (two_coords i) 0 (two_row i) [2; -1] 0) = 1 /\ norm_of two_kd (coulomb_argument two_kd (two_coords i) 0 (two_row i) [2; -1] 0) = 1.
Proof.
  intros Hi. split; apply norm_one; unfold tresca_argument, coulomb_argument; rewrite two_tangential by lia; two_cases i; two_eval.
Qed.
Lemma two_off law i : (i < 2)%nat -> off_kinks law two_kd (two_coords i) 0 (two_row i) [2; -1] 0.
Proof.
  intros Hi. assert (S : 1 / 10 ^ 14 <= 1/2). { assert (X : 2 <= 10 ^ 14) by (cbn [pow]; lra). unfold Rdiv. rewrite !Rmult_1_l. apply Rinv_le_contravar; lra. }
  assert (U : unit_normal two_kd (two_row i) 0) by (two_cases i; two_eval).
  split; [rewrite two_indicator by auto; lra|]. destruct law; auto; (split; [|exact U]).
  - right. right. unfold coulomb_radius. rewrite two_indicator by auto. replace (ck_friction (two_row i)) with 1 by (two_cases i; reflexivity). rewrite (proj2 (two_norms i Hi)). repeat split; lra.
  - right. replace (tresca_radius (two_row i) [2; -1]) with (1/2) by (two_cases i; two_eval). rewrite (proj1 (two_norms i Hi)). split; lra.
Qed.

Lemma two_setting : tie_setting (tri_pd true) (tri_kd true) 2 (pair_at (tri_pd true) (tri_pair true) two_basis (cp_geom two_s) (cp_map two_s)) 1.
Proof.
  destruct (tri_setting true) as [A B C D E F P]. constructor; auto. intros i Hi. destruct (P i Hi) as [P1 P2 P3 P4 P5 P6 P7 P8 P9 P10 P11 P12 P13 P14 P15]. constructor; auto.
Qed.
Example C78_nonvacuous : forall law, exists vks mks,
  generated two_kd (vector_kinds law) vks /\ generated two_kd (matrix_kinds law) mks /\
  forall w b d, length w = 12%nat -> (d < length b)%nat ->
    derivable_pt_lim (fun t => nth d (contact_vector (tri_pd true) 2 (tri_pair true) two_basis vks (two_updated (moved two_u w t) two_s) b) 0) 0
      (matrix_times 2 (contact_matrix (tri_pd true) 2 (tri_pair true) two_basis mks (two_updated two_u two_s)) w d).
Proof.
  intros law.
  assert (X : exists vks mks, generated two_kd (vector_kinds law) vks /\ generated two_kd (matrix_kinds law) mks).
  { destruct law; eexists; eexists; split; repeat (apply Forall2_cons || apply Forall2_nil); exists no_geometry; reflexivity. }
  destruct X as (vks & mks & Hv & Hm). exists vks, mks. split; [exact Hv|]. split; [exact Hm|]. intros w b d Lw Hd.
  apply (C78_matrix_is_derivative (tri_pd true) (tri_kd true) 2 (tri_pair true) two_basis (fun _ => 1%nat) (fun g _ => g) two_detect
    (fun i _ _ => [[- two_axis i * (1/2); 0]]) (fun i _ _ => [[two_axis i; 0]]) (fun _ f => [f]) (fun _ => [[1]]) law tt two_calls two_u w b vks mks d); auto.
  - repeat constructor.
  - exact two_setting.
  - intros i e q Hi asm He Hq. change (e < 1)%nat in He. assert (e = 0)%nat as -> by lia.
    assert (q = 0)%nat as ->. { destruct i as [|[|i]]; [| |lia]; vm_compute in Hq; destruct Hq as [<-|[]]; reflexivity. }
    exact (two_off law i Hi).
Qed.
