(** C87: boundary conditions and linearisation in NonlinearPDE_SNESProblem. *)
From Coq Require Import List Arith Lia Bool Reals Lra.
Import ListNotations.
From Verif Require Import Prelude PreludeLemmas RSum RealLemmas RayModel SnesModel.
Local Open Scope R_scope.

Definition apply_matrix (n : nat) (A : matrix) (v : vec) : vec := fun i => rsum n (fun j => A i j * v j).

Section Step.
  Context (n : nat) (L : vec -> vec) (a : vec -> matrix) (bc : nat -> bool) (g : vec).
  Notation residual p x := (snd (snes_F n L a bc g p x)).

  (** The residual vanishes exactly at the displacements that satisfy the boundary
      conditions and, for them, the equations of all free dofs. *)
  Theorem C87_residual_zero :
    forall (p : snes_problem) (x : vec),
      (forall i, (i < n)%nat -> residual p x i = 0) <->
      (forall i, (i < n)%nat -> if bc i then x i = g i else L x i = 0).
  Proof.
    intros p x. unfold snes_F, set_bc, apply_lifting. cbn [snd]. split; intros H.
    - assert (B : forall j, (j < n)%nat -> bc j = true -> x j = g j) by (intros j Hj E; specialize (H j Hj); rewrite E in H; lra).
      intros i Hi. specialize (H i Hi). destruct (bc i) eqn:E; [now apply B|].
      rewrite rsum_zero in H; [lra|]. intros j Hj. destruct (bc j) eqn:F; [rewrite (B j Hj F); ring|reflexivity].
    - intros i Hi. pose proof (H i Hi) as Hx. destruct (bc i) eqn:E; [lra|].
      rewrite rsum_zero; [lra|]. intros j Hj. specialize (H j Hj). destruct (bc j); [rewrite H; ring|reflexivity].
  Qed.

  (** A Newton step from x with the matrix at x: the new displacement satisfies the boundary
      conditions, and the linearised equations hold in every free row with all columns. *)
  Theorem C87_newton_step :
    forall (p : snes_problem) (x dx : vec),
      (let '(p', b) := snes_F n L a bc g p x in let '(_, A) := snes_J a bc p' x in
       forall i, (i < n)%nat -> apply_matrix n A dx i = b i) ->
      (forall i, (i < n)%nat -> bc i = true -> x i - dx i = g i) /\
      (forall i, (i < n)%nat -> bc i = false -> L x i - apply_matrix n (a x) dx i = 0).
  Proof.
    intros p x dx. unfold snes_F, snes_J. cbn [sp_u]. unfold apply_matrix, assemble_with_bc, set_bc, apply_lifting. intros H.
    assert (B : forall i, (i < n)%nat -> bc i = true -> dx i = x i - g i).
    { intros i Hi E. specialize (H i Hi). rewrite E in H. rewrite (rsum_single n i) in H; [rewrite E in H; cbn [orb] in H; rewrite Nat.eqb_refl in H; lra|exact Hi|].
      intros j Hj N. cbn [orb]. destruct (Nat.eqb_spec i j); [lia|ring]. }
    split; [intros i Hi E; rewrite (B i Hi E); ring|]. intros i Hi E. specialize (H i Hi). rewrite E in H. cbn [orb] in H.
    assert (S : rsum n (fun j => a x i j * dx j) = rsum n (fun j => (if bc j then (if (i =? j)%nat then 1 else 0) else a x i j) * dx j) - rsum n (fun j => if bc j then a x i j * (g j - x j) else 0)).
    { rewrite <- rsum_minus. apply rsum_ext. intros j Hj. destruct (bc j) eqn:F; [|ring]. rewrite (B j Hj F). destruct (Nat.eqb_spec i j); [subst; congruence|ring]. }
    rewrite S, H. ring.
  Qed.

  (** For an affine residual one step solves the problem. *)
  Theorem C87_linear_problem :
    forall (A0 : matrix) (l : vec) (p : snes_problem) (x dx : vec),
      (forall v i, (i < n)%nat -> L v i = apply_matrix n A0 v i - l i) -> (forall v i j, (i < n)%nat -> (j < n)%nat -> a v i j = A0 i j) ->
      (let '(p', b) := snes_F n L a bc g p x in let '(_, A) := snes_J a bc p' x in
       forall i, (i < n)%nat -> apply_matrix n A dx i = b i) ->
      forall q i, (i < n)%nat -> residual q (fun k => x k - dx k) i = 0.
  Proof.
    intros A0 l p x dx HL Ha H q. apply C87_residual_zero. destruct (C87_newton_step p x dx H) as [B F]. intros i Hi. destruct (bc i) eqn:E; [now apply B|].
    rewrite HL by exact Hi. specialize (F i Hi E). rewrite HL in F by exact Hi. unfold apply_matrix in *.
    rewrite (rsum_ext n (fun j => a x i j * dx j) (fun j => A0 i j * dx j)) in F by (intros; now rewrite Ha).
    rewrite (rsum_ext n (fun j => A0 i j * (x j - dx j)) (fun j => A0 i j * x j - A0 i j * dx j)) by (intros; ring). rewrite rsum_minus. lra.
  Qed.

  (** Which point the matrix belongs to: the argument of the last residual call, whatever
      point is passed to J. *)
  Fixpoint last_residual (u : vec) (l : list snes_call) : vec :=
    match l with [] => u | CallF x :: l => last_residual x l | CallJ _ :: l => last_residual u l end.
  Theorem C87_jacobian_point_exact :
    forall (u : vec) (l : list snes_call) (x : vec),
      snd (snes_J a bc (snes_run n L a bc g (mkSnes u) l) x) = assemble_with_bc bc (a (last_residual u l)).
  Proof.
    intros u l x. unfold snes_J. cbn [snd]. do 2 f_equal. revert u. induction l as [|[y|y] l IH]; intros u; [reflexivity| |]; unfold snes_run; cbn [fold_left snes_step snes_F snes_J fst sp_u last_residual]; apply IH.
  Qed.
End Step.
Print Assumptions C87_residual_zero.
Print Assumptions C87_newton_step.
Print Assumptions C87_linear_problem.
Print Assumptions C87_jacobian_point_exact.

(** The promise that J(x) is the matrix at x after every history of calls. *)
Theorem C87_jacobian_at_argument_refuted :
  ~ (forall n L a bc g u l x i j, snd (snes_J a bc (snes_run n L a bc g (mkSnes u) l) x) i j = assemble_with_bc bc (a x) i j).
Proof.
  intros H. specialize (H 1%nat (fun v => v) (fun v _ _ => v 0%nat) (fun _ => false) (fun _ => 0) (fun _ => 0) [CallF (fun _ => 1)] (fun _ => 2) 0%nat 0%nat). cbn in H. lra.
Qed.
Print Assumptions C87_jacobian_at_argument_refuted.

(** Two unknowns, the second prescribed: 2 x0 - x1 = 1, x1 = 3. *)
Example C87_nonvacuous :
  let A : matrix := fun i j => nth j (nth i [[2; -1]; [-1; 2]] []) 0 in let l : vec := fun i => nth i [1; 0] 0 in let g : vec := fun _ => 3 in
  let bc := Nat.eqb 1 in let dx : vec := fun i => nth i [-2; -3] 0 in
  let '(p, b) := snes_F 2 (fun v i => apply_matrix 2 A v i - l i) (fun _ => A) bc g (mkSnes (fun _ => 7)) (fun _ => 0) in
  let '(_, J) := snes_J (fun _ => A) bc p (fun _ => 0) in
  (forall i, (i < 2)%nat -> apply_matrix 2 J dx i = b i) /\ bc 0%nat = false /\ bc 1%nat = true.
Proof.
  cbn. split; [|split; reflexivity]. intros [|[|i]] Hi; [| |lia]; cbv; lra.
Qed.
