(** C114: the two-triangle object of C78, turned by any angle and shifted. *)
From Coq Require Import List Arith ZArith Lia Bool Reals Lra.
Import ListNotations.
From Verif Require Import Prelude PreludeLemmas RSum RealLemmas LayoutModel LayoutProps ContactProblemModel ContactProblemProps.
From Verif Require Import EntitiesModel PackingModel PackUProps AssemblyModel AssemblyProofs AssemblyProps RayModel KernelModel KernelProofs KernelSpec
  ElasticityProps ContactKernelModel ContactKernelSpec ContactKernelProps FrictionKernelProps CoefficientsModel CoefficientsProps SystemSpec TieSystemModel TieSystemProofs TieSystemProps
  TieWeakProps ContactWeakProps ContactSystemModel ContactSystemSpec ContactSystemProofs ContactSystemProps TieSystemExamples ContactSystemExamples SystemWeakProps TieFormProps ContactFormProps ContactFormExamples RigidBalanceProps FrameProofs FrameProps.
Local Open Scope R_scope.

Definition rotation (angle : R) (a b : nat) : R := match a, b with 0%nat, 0%nat => cos angle | 0%nat, _ => - sin angle | _, 0%nat => sin angle | _, _ => cos angle end.
Ltac below2 H := match type of H with (?x < 2)%nat => destruct x as [|[|?]]; [| |lia] end.
Lemma rotation_orthogonal angle : orthogonal 2 (rotation angle).
Proof.
  pose proof (sin2_cos2 angle) as E. unfold Rsqr in E. intros a b Ha Hb. below2 Ha; below2 Hb; cbn; split; lra.
Qed.
Lemma inverse2_inverts : inverts 2 inverse2.
Proof.
  intros J K H. destruct (H 0 0 ltac:(lia) ltac:(lia))%nat as [H1 _]. destruct (H 0 1 ltac:(lia) ltac:(lia))%nat as [H2 _]. destruct (H 1 0 ltac:(lia) ltac:(lia))%nat as [H3 _]. destruct (H 1 1 ltac:(lia) ltac:(lia))%nat as [H4 _].
  cbn in H1, H2, H3, H4. rewrite Rplus_0_l in *.
  assert (D : J 0%nat 0%nat * J 1%nat 1%nat - J 0%nat 1%nat * J 1%nat 0%nat <> 0).
  { intros Z. assert (E : (K 0%nat 0%nat * K 1%nat 1%nat - K 0%nat 1%nat * K 1%nat 0%nat) * (J 0%nat 0%nat * J 1%nat 1%nat - J 0%nat 1%nat * J 1%nat 0%nat) = 1).
    { replace 1 with ((K 0%nat 0%nat * J 0%nat 0%nat + K 0%nat 1%nat * J 1%nat 0%nat) * (K 1%nat 0%nat * J 0%nat 1%nat + K 1%nat 1%nat * J 1%nat 1%nat) - (K 0%nat 0%nat * J 0%nat 1%nat + K 0%nat 1%nat * J 1%nat 1%nat) * (K 1%nat 0%nat * J 0%nat 0%nat + K 1%nat 1%nat * J 1%nat 0%nat)) by (rewrite H1, H2, H3, H4; ring). ring. }
    rewrite Z, Rmult_0_r in E. lra. }
  intros a b Ha Hb. below2 Ha; below2 Hb; cbn; unfold inverse2; cbn; split; field; lra.
Qed.
Lemma column_length_area : area_element 2 1 column_length.
Proof.
  intros M M' H. specialize (H 0 0 ltac:(lia) ltac:(lia))%nat. cbn in H. rewrite !Rplus_0_l in H. unfold column_length. now rewrite H.
Qed.
Lemma tri_turnable i e : (i < 2)%nat -> (e < 1)%nat -> turnable (tri_pd true) (own_cell (tri_pair true i) e) (own_facet (tri_pair true i) e).
Proof.
  intros Hi He. assert (e = 0)%nat as -> by lia. constructor.
  - intros j Hj. change (j < 3)%nat in Hj. below2 Hi; (destruct j as [|[|[|j]]]; [| | |lia]); cbn; lia.
  - intros k q Hk Hq. change (k < 2)%nat in Hk. below2 Hk; cbn; lra.
  - intros q Hq. assert (q = 0)%nat as -> by (change (q < 1)%nat in Hq; lia). exists (fun a b => if (a =? b)%nat then if (i =? 0)%nat then 1 else -1 else 0).
    intros a b Ha Hb. change (a < 2)%nat in Ha. change (b < 2)%nat in Hb. below2 Hi; below2 Ha; below2 Hb; split; numbers; lra.
Qed.

(** Gap and normals in the other frame. *)
Definition turned_row (angle : R) (x y : R) : list R := [cos angle * x - sin angle * y; sin angle * x + cos angle * y].
Lemma two_routines angle : turned_routines (rotation angle) (tri_pd true) 2 (tri_pair true) (fun g : unit => g) (fun _ => True)
  two_basis (fun g _ => g) two_detect (fun i _ _ => [[- two_axis i * (1/2); 0]]) (fun i _ _ => [[two_axis i; 0]])
  two_basis (fun g _ => g) two_detect (fun i _ _ => [turned_row angle (- two_axis i * (1/2)) 0]) (fun i _ _ => [turned_row angle (two_axis i) 0]).
Proof.
  constructor; try reflexivity; intros g i r q a _ Hi Hr Hq Ha; change (r < 1)%nat in Hr; change (q < 1)%nat in Hq; change (a < 2)%nat in Ha; assert (r = 0)%nat as -> by lia; assert (q = 0)%nat as -> by lia;
    below2 Ha; cbn; ring.
Qed.
Example C114_nonvacuous : forall law, exists kernels, generated two_kd (vector_kinds law) kernels /\
  forall (angle : R) (t : nat -> R) (u b : list R), length b = 12%nat ->
    let O := rotation angle in
    let two_s' := contact_after (turned_space O t (tri_pd true)) 2 (fun i => turned_pair O t (tri_pair true i)) two_basis (fun _ => 1%nat) (fun g _ => g) two_detect
      (fun i _ _ => [turned_row angle (- two_axis i * (1/2)) 0]) (fun i _ _ => [turned_row angle (two_axis i) 0]) (fun _ f => [f]) (fun _ => [[1]]) tt (map (turned_call 2 O) two_calls) in
    contact_vector (turned_space O t (tri_pd true)) 2 (fun i => turned_pair O t (tri_pair true i)) two_basis kernels
      (contact_updated (turned_space O t (tri_pd true)) 2 (fun i => turned_pair O t (tri_pair true i)) two_basis (fun _ => 1%nat) (turned_field 2 O u) two_s') (turned_field 2 O b) =
    turned_field 2 O (contact_vector (tri_pd true) 2 (tri_pair true) two_basis kernels (two_updated u two_s) b).
Proof.
  intros law. destruct (two_kernels law) as (kernels & HK). exists kernels. split; [exact HK|]. intros angle t u b Lb. cbv zeta.
  pose proof (C114_forces_turn (rotation angle) t (tri_pd true) (tri_kd true) 2 (tri_pair true) (fun _ => 1%nat) (fun _ f => [f]) (fun _ => [[1]]) (fun g : unit => g) (fun _ => True)
    two_basis (fun g _ => g) two_detect (fun i _ _ => [[- two_axis i * (1/2); 0]]) (fun i _ _ => [[two_axis i; 0]])
    two_basis (fun g _ => g) two_detect (fun i _ _ => [turned_row angle (- two_axis i * (1/2)) 0]) (fun i _ _ => [turned_row angle (two_axis i) 0]) (two_routines angle)
    law tt two_calls u b kernels 6) as X. cbv zeta in X. apply X; auto; try reflexivity.
  - intros ? ? _. exact I.
  - repeat constructor.
  - exact two_setting.
  - exact (rotation_orthogonal angle).
  - exact inverse2_inverts.
  - exact column_length_area.
  - intros i e Hi He. now apply tri_turnable.
  - change (0 < 2). lra.
  - intros i e Hi He. apply (two_stored i e Hi He).
Qed.
(** A quarter turn: what pointed along the first axis points along the second. *)
Example C114_quarter : turned_row (PI / 2) 1 0 = [0; 1] /\ turned_field 2 (rotation (PI / 2)) [3; 0; 1; 2] = [0; 3; -2; 1].
Proof.
  unfold turned_row. rewrite cos_PI2, sin_PI2. split; [f_equal; [ring|f_equal; ring]|].
  unfold turned_field. cbn -[cos sin PI Rmult Rplus]. rewrite cos_PI2, sin_PI2. repeat (apply f_equal2; [ring|]). reflexivity.
Qed.
