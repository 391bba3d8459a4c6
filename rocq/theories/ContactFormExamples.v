(** C107: the two-triangle object of C78.  A common translation leaves the residual as it
    is; a first triangle that stays away from the second feels nothing for theta = 0. *)
From Coq Require Import List Arith ZArith Lia Bool Reals Lra.
Import ListNotations.
From Verif Require Import Prelude PreludeLemmas RSum RealLemmas LayoutModel LayoutProps ContactProblemModel ContactProblemProps.
From Verif Require Import EntitiesModel PackingModel PackUProps AssemblyModel AssemblyProofs AssemblyProps RayModel KernelModel KernelProofs KernelSpec
  ElasticityProps ContactKernelModel ContactKernelSpec ContactKernelProps FrictionKernelProps CoefficientsModel CoefficientsProps SystemSpec TieSystemModel TieSystemProofs TieSystemProps
  TieWeakProps ContactWeakProps ContactSystemModel ContactSystemSpec ContactSystemProofs ContactSystemProps TieSystemExamples ContactSystemExamples SystemWeakProps TieFormProps ContactFormProps.
Local Open Scope R_scope.

Ltac numbers := cbv -[IZR Rdiv Rminus Rinv Rmult Rplus Ropp sqrt Rlt Rle].
Notation two_pairs := (pair_at (tri_pd true) (tri_pair true) two_basis (cp_geom two_s) (cp_map two_s)).

Lemma two_stored i e : (i < 2)%nat -> (e < 1)%nat -> e = 0%nat /\ 0 <= stored_friction (tri_pd true) two_s i e /\ 0 < stored_h (tri_pd true) two_s i e.
Proof. intros Hi He. assert (e = 0)%nat as -> by lia. split; [reflexivity|]. destruct i as [|[|i]]; [| |lia]; split; numbers; lra. Qed.
Lemma two_point i q : (i < 2)%nat -> In q (points_of (pr_asm (two_pairs i)) 0) -> q = 0%nat.
Proof. intros Hi Hq. destruct i as [|[|i]]; [| |lia]; cbn in Hq; intuition. Qed.
Lemma two_kernels law : exists vks, generated two_kd (vector_kinds law) vks.
Proof. destruct law; eexists; repeat (apply Forall2_cons || apply Forall2_nil); exists no_geometry; reflexivity. Qed.

(** [two_u] and a common translation by (3, -7). *)
Definition two_shifted : list R := [5; -6; 5; -6; 5; -6; 3; -7; 3; -7; 3; -7].
Example C107_nonvacuous : forall law, exists kernels, generated two_kd (vector_kinds law) kernels /\
  (forall b, contact_vector (tri_pd true) 2 (tri_pair true) two_basis kernels (two_updated two_shifted two_s) b = contact_vector (tri_pd true) 2 (tri_pair true) two_basis kernels (two_updated two_u two_s) b) /\
  (forall b v, length v = length b -> applied (contact_vector (tri_pd true) 2 (tri_pair true) two_basis kernels (two_updated two_u two_s) b) v =
     applied b v + contact_form (tri_pd true) (tri_kd true) 2 two_pairs law 2 (-1) two_s two_u v).
Proof.
  intros law. destruct (two_kernels law) as (kernels & HK). exists kernels. split; [exact HK|]. split.
  - intros b. apply (C107_depends_on_jump_and_gradient (tri_pd true) (tri_kd true) 2 (tri_pair true) two_basis (fun _ => 1%nat) (fun g _ => g) two_detect
      (fun i _ _ => [[- two_axis i * (1/2); 0]]) (fun i _ _ => [[two_axis i; 0]]) (fun _ f => [f]) (fun _ => [[1]]) law tt two_calls two_shifted two_u b kernels); auto.
    + repeat constructor.
    + exact two_setting.
    + change (0 < 2). lra.
    + intros i e Hi He. apply (two_stored i e Hi He).
    + intros i e q Hi He Hq. destruct (two_stored i e Hi He) as [-> _]. rewrite (two_point i q Hi Hq). intros a Ha. change (a < 2)%nat in Ha. clear Hq He.
      destruct i as [|[|i]]; [| |lia]; (destruct a as [|[|a]]; [| |lia]); split.
      1, 3, 5, 7: numbers; field.
      all: intros c Hc; change (c < 2)%nat in Hc; destruct c as [|[|c]]; [| |lia]; numbers; field; apply Rgt_not_eq; lra.
  - intros b v Hv. apply (C107_residual_is_functional (tri_pd true) (tri_kd true) 2 (tri_pair true) two_basis (fun _ => 1%nat) (fun g _ => g) two_detect
      (fun i _ _ => [[- two_axis i * (1/2); 0]]) (fun i _ _ => [[two_axis i; 0]]) (fun _ f => [f]) (fun _ => [[1]]) law tt two_calls two_u v b kernels); auto.
    + repeat constructor.
    + exact two_setting.
    + change (0 < 2). lra.
    + intros i e Hi He. apply (two_stored i e Hi He).
Qed.
(** The functional is not trivial: without friction the first triangle is pushed back with
    penalty 2 times penetration 3/2. *)
Example C107_pushes : exists n, contact_functional 2 Frictionless (stored_normal (tri_pd true) two_s 0 0 0) n (stored_gap (tri_pd true) two_s 0 0 0) 1 (stored_h (tri_pd true) two_s 0 0 / 2) (-1)
  (interface_jump (tri_pd true) (two_pairs 0%nat) 0 0 two_u) (fun _ => 0) (fun a => if (a =? 0)%nat then 1 else 0) (fun _ => 0) = 3.
Proof.
  exists (fun _ => 0). unfold contact_functional. cbv zeta. rewrite Rmax_left.
  - numbers. field.
  - numbers. lra.
Qed.

(** theta = 0, and the first triangle moves away by 1. *)
Definition open_calls : list (@call (list R) (nat -> list Z)) := two_calls ++ [CallNitsche 2 0].
Definition open_s := two_after tt open_calls.
Definition open_u : list R := [-1; 0; -1; 0; -1; 0; 0; 0; 0; 0; 0; 0].
Example C107_open_nonvacuous : exists kernels, generated two_kd (vector_kinds Coulomb) kernels /\
  forall b, contact_vector (tri_pd true) 2 (tri_pair true) two_basis kernels (two_updated open_u open_s) b = b.
Proof.
  destruct (two_kernels Coulomb) as (kernels & HK). exists kernels. split; [exact HK|]. intros b.
  assert (HT : Coulomb <> Tresca) by discriminate.
  apply (C107_open_contact_is_free (tri_pd true) (tri_kd true) 2 (tri_pair true) two_basis (fun _ => 1%nat) (fun g _ => g) two_detect
      (fun i _ _ => [[- two_axis i * (1/2); 0]]) (fun i _ _ => [[two_axis i; 0]]) (fun _ f => [f]) (fun _ => [[1]]) Coulomb tt open_calls open_u b kernels HT eq_refl); auto.
  - repeat constructor.
  - exact two_setting.
  - change (0 < 2). lra.
  - intros i e Hi He. apply (two_stored i e Hi He).
  - intros i e q Hi He Hq. destruct (two_stored i e Hi He) as [-> _]. change (In q (points_of (pr_asm (two_pairs i)) 0)) in Hq. rewrite (two_point i q Hi Hq). clear Hq He. cbv zeta.
    match goal with |- _ <= _ * scalar_product _ ?t _ => assert (Z : forall a, (a < 2)%nat -> t a = 0) end.
    { intros a Ha. apply zero_traction; [|exact Ha]. intros x y Hx Hy. destruct i as [|[|i]]; [| |lia]; (destruct x as [|[|x]]; [| |lia]); (destruct y as [|[|y]]; [| |lia]); numbers; field; apply Rgt_not_eq; lra. }
    rewrite (product_ext 2 _ (fun _ => 0) _ _ Z (fun _ _ => eq_refl)). destruct i as [|[|i]]; [| |lia]; numbers; lra.
Qed.
