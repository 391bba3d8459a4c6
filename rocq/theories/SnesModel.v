(** Model of NonlinearPDE_SNESProblem (/repo/python/dolfinx_contact/helpers.py:153-184).  The
    assembled residual and matrix are functions of the displacement; DOLFINx' boundary
    condition helpers are modelled by their documented effect on one process. *)
From Coq Require Import List Arith Bool Reals.
Import ListNotations.
From Verif Require Import Prelude RSum RayModel.
Local Open Scope R_scope.

(** Vectors of length [n]; constrained dofs and their values (helpers.py:153-184). *)
Definition vec := nat -> R.
Section Snes.
  Context (n : nat) (L : vec -> vec) (a : vec -> matrix) (bc : nat -> bool) (g : vec).

  (** dolfinx.fem.petsc.apply_lifting(b, [a], bcs, x0, alpha): b - alpha A (g - x0), over the
      constrained columns (called at helpers.py:176). *)
  Definition apply_lifting (b : vec) (A : matrix) (x0 : vec) (alpha : R) : vec :=
    fun i => b i - alpha * rsum n (fun j => if bc j then A i j * (g j - x0 j) else 0).
  (** dolfinx.fem.petsc.set_bc(b, bcs, x0, alpha) (called at helpers.py:178). *)
  Definition set_bc (b : vec) (x0 : vec) (alpha : R) : vec := fun i => if bc i then alpha * (g i - x0 i) else b i.
  (** assemble_matrix(J, a, bcs): constrained rows and columns are zero, with one on the
      diagonal (called at helpers.py:183). *)
  Definition assemble_with_bc (A : matrix) : matrix := fun i j => if bc i || bc j then (if (i =? j)%nat then 1 else 0) else A i j.

  (** The object: its displacement [u] (helpers.py:154-166). *)
  Record snes_problem := mkSnes { sp_u : vec }.
  (** helpers.py:168-178 F: x is copied to u, then everything is assembled at u. *)
  Definition snes_F (p : snes_problem) (x : vec) : snes_problem * vec :=
    let u := x in
    (mkSnes u, set_bc (apply_lifting (L u) (a u) x (-1)) x (-1)).
  (** helpers.py:180-184 J: assembled at u; the argument x is not used. *)
  Definition snes_J (p : snes_problem) (x : vec) : snes_problem * matrix := (p, assemble_with_bc (a (sp_u p))).

  (** Calls made by SNES (helpers.py:168-184). *)
  Inductive snes_call := CallF (x : vec) | CallJ (x : vec).
  Definition snes_step (p : snes_problem) (c : snes_call) : snes_problem :=
    match c with CallF x => fst (snes_F p x) | CallJ x => fst (snes_J p x) end.
  Definition snes_run (p : snes_problem) (l : list snes_call) : snes_problem := fold_left snes_step l p.
End Snes.
