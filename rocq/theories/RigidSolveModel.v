(** Model of the solving half of the driver for contact with a rigid body
    (python/dolfinx_contact/one_sided/nitsche_rigid_surface_custom.py 308-354): the Newton solver
    run with the callbacks of [RigidSystemModel], its options, the initial guess and the returned
    field. *)
From Coq Require Import List Arith ZArith Lia Bool Reals.
Import ListNotations.
From Verif Require Import Prelude RSum EntitiesModel PackingModel AssemblyModel CoefficientsModel TieSystemModel OneSidedModel NewtonModel OneSidedSystemModel OneSidedSolveModel RigidDriverModel RigidSystemModel.
Local Open Scope R_scope.

Section Solve.
  Variable pd : pack_data.
  Variable asm : assembly.
  Variables mu lmbda E gamma theta : R.
  Variables h g_vec n_surf : list R.
  Variables rhs jac : kernel_fn.
  Variable form_vector : list R -> list R.
  Variable form_matrix : list insertion.
  (** KSP solve of the assembled matrix with a right hand side: solution, iterations, converged. *)
  Variable linear_solve : list insertion -> list R -> list R * nat * bool.
  Variable rank0 : bool.
  Variable vertical_displacement : R.

  (** nitsche_rigid_surface_custom.py:309-317: the three callbacks share the function [u] and the
      coefficient array; residual and matrix read those, not the vector they are given.  The
      vector [b] has one entry per dof.  One process: no ghosts. *)
  Definition surface_problem : problem (list R) unit (list R) (list insertion) driver_state :=
    {| compute_coefficients := Some (fun x st => pack_coefficients pd asm (owned x) st);
       NewtonModel.compute_residual := Some (fun x st => compute_residual pd asm E gamma theta rhs form_vector (repeat 0 (length (owned x))) st);
       NewtonModel.compute_jacobian := Some (fun _ st _ => compute_jacobian pd asm E gamma theta jac form_matrix st);
       ksp := fun _ _ A b => linear_solve A b;
       normB := norm2; normO := norm2; axpy := vector_axpy; ghost_values := fun _ => tt; NewtonModel.rank0 := rank0 |}.

  (** nitsche_rigid_surface_custom.py:334-340: the last component of every node is
      -vertical_displacement. *)
  Definition surface_guess (nodes : nat) : list R := concat (repeat (repeat 0 (pd_bs pd - 1) ++ [- vertical_displacement]) nodes).

  (** nitsche_rigid_surface_custom.py:269-354, from the first packing to the returned function;
      the function [u] starts with zero values. *)
  Definition nitsche_rigid_surface_custom (o : options) (nodes : nat) : outcome (list R) :=
    let u := surface_guess nodes in
    let st := interpolate_initial u (initial_state pd asm mu lmbda h g_vec n_surf (repeat 0 (length u))) in
    match set_newton_options o (init [] (repeat 0 (length u)) st {| owned := u; ghosts := tt |}) with
    | (Ret _, s) =>
        match solve surface_problem (max_it s + 7) false s with
        | (Ret (n, converged), s') => if error_on_nonconvergence s' && negb converged then Exn EAssertion else Ret (owned (s_x s'))
        | (Exn e, _) => Exn e
        | (OutOfFuel, _) => OutOfFuel
        end
    | (Exn e, _) => Exn e
    | (OutOfFuel, _) => OutOfFuel
    end.
End Solve.
