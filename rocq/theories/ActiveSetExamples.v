(** C106: the two-triangle object of C78; the first triangle slides back by 1/2 and all points
    stay closed and, with Coulomb friction, sticking. *)
From Coq Require Import List Arith ZArith Lia Bool Reals Lra.
Import ListNotations.
From Verif Require Import Prelude PreludeLemmas RSum RealLemmas LayoutModel LayoutProps ContactProblemModel ContactProblemProps.
From Verif Require Import EntitiesModel PackingModel PackUProps AssemblyModel AssemblyProofs AssemblyProps RayModel KernelModel KernelProofs KernelSpec
  ElasticityProps ContactKernelModel ContactKernelSpec ContactKernelProps FrictionKernelProps CoefficientsModel CoefficientsProps SystemSpec TieSystemModel TieSystemProofs TieSystemProps
  TieWeakProps ContactWeakProps ContactSystemModel ContactSystemSpec ContactSystemProofs ContactSystemProps TieSystemExamples ContactSystemExamples SystemWeakProps MonotoneProps ActiveSetProps.
Local Open Scope R_scope.

Definition two_w : list R := [0; -1/2; 0; -1/2; 0; -1/2; 0; 0; 0; 0; 0; 0].
Definition two_row' (i : nat) : list R := slice (concat (nth i (cp_coeffs (two_updated (moved two_u two_w 1) two_s)) [])) (0 * stride (tri_pd true)) (stride (tri_pd true)).
Lemma two_rows' : two_row' 0 = [1; 2; 1; 1; 1/2; 0; -1; 0; 0; 0; 1/2; 1/2; 1/2; 1/2; 2; 1/2; 0; 0; 0; 0; 0; 0; -1; 0] /\
  two_row' 1 = [1; 2; 1; 1; -1/2; 0; 1; 0; 0; 0; 1/2; 1/2; 1/2; 1/2; 0; 0; 0; 0; 0; 0; 2; 1/2; 1; 0].
Proof.
  split; cbv -[IZR Rdiv Rminus Rinv Rmult Rplus Ropp sqrt]; repeat (apply f_equal2; [first [reflexivity | field; apply Rgt_not_eq; lra | lra]|]); reflexivity.
Qed.
Ltac two_cases' i := destruct i as [|[|i]]; [rewrite (proj1 two_rows')|rewrite (proj2 two_rows')|lia].
Lemma two_traction' i a : (i < 2)%nat -> (a < 2)%nat -> ck_traction two_kd (two_coords i) 0 (two_row' i) 0 a = 0.
Proof.
  intros Hi Ha. two_cases' i; apply zero_traction; auto; intros x y Hx Hy; destruct x as [|[|x]]; try lia; destruct y as [|[|y]]; try lia; reflexivity.
Qed.
Lemma two_indicator' i : (i < 2)%nat -> contact_indicator two_kd (two_coords i) 0 (two_row' i) [2; -1] 0 = 3 / 2.
Proof.
  intros Hi. unfold contact_indicator. replace (along two_kd (ck_normal two_kd (two_row' i) 0) (ck_traction two_kd (two_coords i) 0 (two_row' i) 0)) with 0.
  - two_cases' i; two_eval.
  - unfold along. change (kd_gdim two_kd) with 2%nat. cbn [rsum]. rewrite !two_traction' by lia. ring.
Qed.
Lemma two_tangential' i a : (i < 2)%nat -> (a < 2)%nat -> tangential two_kd (two_row' i) 0 (ck_traction two_kd (two_coords i) 0 (two_row' i) 0) a = 0.
Proof. intros Hi Ha. unfold tangential, along. change (kd_gdim two_kd) with 2%nat. cbn [rsum]. rewrite !two_traction' by lia. ring. Qed.
Lemma norm_at_most x y : x = 0 -> y * y = 1 / 4 -> sqrt (0 + x * x + y * y) <= 3 / 2.
Proof. intros -> E. replace (0 + 0 * 0 + y * y) with ((1/2) * (1/2)) by (rewrite E; field). rewrite sqrt_square; lra. Qed.
Lemma two_norm' i : (i < 2)%nat -> norm_of two_kd (coulomb_argument two_kd (two_coords i) 0 (two_row' i) [2; -1] 0) <= 3 / 2.
Proof. intros Hi. apply norm_at_most; unfold coulomb_argument; rewrite two_tangential' by lia; two_cases' i; two_eval. Qed.

Lemma two_kept law i : law <> Tresca -> (i < 2)%nat -> keeps_status law two_kd (two_coords i) 0 (two_row i) (two_row' i) [2; -1] 0.
Proof.
  intros HL Hi. assert (S : 1 / 10 ^ 14 <= 3/2). { assert (X : 2 <= 10 ^ 14) by (cbn [pow]; lra). apply (Rle_trans _ (1/2)); [|lra]. unfold Rdiv. rewrite !Rmult_1_l. apply Rinv_le_contravar; lra. }
  assert (U : unit_normal two_kd (two_row i) 0) by (two_cases i; two_eval).
  split; [left; rewrite two_indicator, two_indicator' by auto; lra|]. destruct law; auto; [|congruence]. split; [exact U|]. right. right.
  unfold coulomb_radius. rewrite two_indicator, two_indicator' by auto. replace (ck_friction (two_row i)) with 1 by (two_cases i; reflexivity). replace (ck_friction (two_row' i)) with 1 by (two_cases' i; reflexivity).
  rewrite (proj2 (two_norms i Hi)). pose proof (two_norm' i Hi). repeat split; lra.
Qed.
Example C106_nonvacuous : forall law, law <> Tresca -> exists vks mks,
  generated two_kd (vector_kinds law) vks /\ generated two_kd (matrix_kinds law) mks /\
  forall b d, (d < length b)%nat ->
    nth d (contact_vector (tri_pd true) 2 (tri_pair true) two_basis vks (two_updated (moved two_u two_w 1) two_s) b) 0 =
    nth d (contact_vector (tri_pd true) 2 (tri_pair true) two_basis vks (two_updated two_u two_s) b) 0 +
    1 * matrix_times 2 (contact_matrix (tri_pd true) 2 (tri_pair true) two_basis mks (two_updated two_u two_s)) two_w d.
Proof.
  intros law HNT.
  assert (X : exists vks mks, generated two_kd (vector_kinds law) vks /\ generated two_kd (matrix_kinds law) mks).
  { destruct law; eexists; eexists; split; repeat (apply Forall2_cons || apply Forall2_nil); exists no_geometry; reflexivity. }
  destruct X as (vks & mks & Hv & Hm). exists vks, mks. split; [exact Hv|]. split; [exact Hm|]. intros b d Hd.
  apply (C106_residual_follows_tangent (tri_pd true) (tri_kd true) 2 (tri_pair true) two_basis (fun _ => 1%nat) (fun g _ => g) two_detect
    (fun i _ _ => [[- two_axis i * (1/2); 0]]) (fun i _ _ => [[two_axis i; 0]]) (fun _ f => [f]) (fun _ => [[1]]) law tt two_calls two_u two_w b vks mks); auto.
  - repeat constructor.
  - exact two_setting.
  - change (0 < 2). lra.
  - intros i e Hi asm He. change (e < 1)%nat in He. assert (e = 0)%nat as -> by lia.
    split; [change (0 <= ck_friction (two_row i)); two_cases i; change (0 <= 1); lra|]. split; [change (0 < nth 3 (two_row i) 0); two_cases i; change (0 < 1); lra|].
    intros q Hq. assert (q = 0)%nat as ->. { destruct i as [|[|i]]; [| |lia]; vm_compute in Hq; destruct Hq as [<-|[]]; reflexivity. }
    exact (two_kept law i HNT Hi).
  - lra.
Qed.
