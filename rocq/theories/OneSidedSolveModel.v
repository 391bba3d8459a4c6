(** Model of the solving half of the one-sided driver
    (python/dolfinx_contact/one_sided/nitsche_custom.py 261-303): the Newton solver run with the
    callbacks of [OneSidedSystemModel], its options, the initial guess and the returned field. *)
From Coq Require Import List Arith ZArith Lia Bool Reals.
Import ListNotations.
From Verif Require Import Prelude RSum EntitiesModel PackingModel AssemblyModel CoefficientsModel TieSystemModel OneSidedModel NewtonModel OneSidedSystemModel.
Local Open Scope R_scope.

(** PETSc's NORM_2 of a vector (newton_solver.py:249, 346, 404, 433). *)
Definition norm2 (v : list R) : R := sqrt (rsum (length v) (fun d => nth d v 0 * nth d v 0)).
(** PETSc's x.axpy(-r, dx) (newton_solver.py:280). *)
Definition vector_axpy (r : R) (dx x : list R) : list R := map (fun d => nth d x 0 - r * nth d dx 0) (seq 0 (length x)).

Section Solve.
  Variable pd : pack_data.
  Variable asm : assembly.
  Variables mu lmbda plane_loc E gamma theta : R.
  Variables h qp : list R.
  Variables rhs jac : kernel_fn.
  Variable form_vector : list R -> list R.
  Variable form_matrix : list insertion.
  (** KSP solve of the assembled matrix with a right hand side: solution, iterations, converged. *)
  Variable linear_solve : list insertion -> list R -> list R * nat * bool.
  Variable rank0 : bool.

  (** nitsche_custom.py:261-270: the coefficient callback does nothing; the vector [b] has one entry
      per dof.  One process: no ghosts. *)
  Definition driver_problem : problem (list R) unit (list R) (list insertion) unit :=
    {| compute_coefficients := Some (fun _ c => c);
       compute_residual := Some (fun x _ => assemble_residual pd asm mu lmbda plane_loc E gamma theta h qp rhs form_vector (owned x) (repeat 0 (length (owned x))));
       compute_jacobian := Some (fun x _ _ => assemble_jacobian pd asm mu lmbda plane_loc E gamma theta h qp jac form_matrix (owned x));
       ksp := fun _ _ A b => linear_solve A b;
       normB := norm2; normO := norm2; axpy := vector_axpy; ghost_values := fun _ => tt; NewtonModel.rank0 := rank0 |}.

  (** nitsche_custom.py:278-284: the last component of every node is -0.01 - plane_loc (a Lagrange
      space: interpolating a constant sets the nodal values). *)
  Definition initial_guess (nodes : nat) : list R := concat (repeat (repeat 0 (pd_bs pd - 1) ++ [- (1 / 100) - plane_loc]) nodes).

  (** nitsche_custom.py:264-303, from the creation of the solver to the returned function. *)
  Definition nitsche_custom (o : options) (nodes : nat) : outcome (list R) :=
    let u := initial_guess nodes in
    match set_newton_options o (init [] (repeat 0 (length u)) tt {| owned := u; ghosts := tt |}) with
    | (Ret _, s) =>
        match solve driver_problem (max_it s + 7) false s with
        | (Ret (n, converged), s') => if error_on_nonconvergence s' && negb converged then Exn EAssertion else Ret (owned (s_x s'))
        | (Exn e, _) => Exn e
        | (OutOfFuel, _) => OutOfFuel
        end
    | (Exn e, _) => Exn e
    | (OutOfFuel, _) => OutOfFuel
    end.
End Solve.
