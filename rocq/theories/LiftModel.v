(** Model of the load steps of the two-sided demo with strong boundary conditions
    (python/demos/demo_nitsche_unbiased.py 435-459 with [len(bcs) > 0]).  dolfinx's apply_lifting
    and set_bc are modelled by what they do to the vector; the matrix is kept as its two parts. *)
From Coq Require Import List Arith ZArith Lia Bool Reals.
Import ListNotations.
From Verif Require Import Prelude RSum EntitiesModel PackingModel AssemblyModel CoefficientsModel SystemSpec TieSystemModel LayoutModel ContactProblemModel ContactSystemModel OneSidedModel NewtonModel OneSidedSystemModel OneSidedSolveModel LoadStepModel.
Local Open Scope R_scope.

Section Lift.
  Context {G : Type} (pd : pack_data) (num_pairs : nat) (surfaces : nat -> tie_pair) (basis : G -> (nat -> list Z) -> nat -> nat -> nat -> R) (num_rows : nat -> nat).
  Variables kernels mkernels : list kernel_fn.
  Variable form_vector : nat -> list R -> list R -> list R.
  Variable form_matrix : nat -> list R -> list R -> list insertion.
  (** Degrees of freedom of the boundary conditions and their values in a step
      (demo_nitsche_unbiased.py:376-378 and 495-497). *)
  Variable fixed : nat -> bool.
  Variable g_value : nat -> list R.
  (** KSP solve with the contact part and the bulk part of the matrix. *)
  Variable linear_solve : list insertion * list insertion -> list R -> list R * nat * bool.
  Variable rank0 : bool.

  (** g - x0 at the degrees of freedom of the boundary conditions, zero elsewhere (the vector that
      apply_lifting multiplies with, demo_nitsche_unbiased.py:446). *)
  Definition boundary_defect (g x : list R) : list R := map (fun e => if fixed e then nth e g 0 - nth e x 0 else 0) (seq 0 (length x)).
  (** demo_nitsche_unbiased.py:446, dolfinx: b <- b - alpha A (g - x0) with the matrix of the bulk
      form without boundary conditions. *)
  Definition apply_lifting (alpha : R) (A : list insertion) (g x b : list R) : list R :=
    map (fun d => nth d b 0 - alpha * matrix_times (pd_bs pd) A (boundary_defect g x) d) (seq 0 (length b)).
  (** demo_nitsche_unbiased.py:449, dolfinx: b <- alpha (g - x0) at the degrees of freedom of the
      boundary conditions. *)
  Definition set_bc (alpha : R) (g x b : list R) : list R :=
    map (fun d => if fixed d then alpha * (nth d g 0 - nth d x 0) else nth d b 0) (seq 0 (length b)).
  (** demo_nitsche_unbiased.py:435-450. *)
  Definition lifted_residual (i : nat) (u x : list R) (st : @load_state G) : list R :=
    set_bc (-1) (g_value i) x (apply_lifting (-1) (form_matrix i u (ls_du st)) (g_value i) x (load_residual pd num_pairs surfaces basis kernels form_vector i u x st)).
  (** demo_nitsche_unbiased.py:452-459: contact part; bulk part before rows and columns of the
      boundary conditions are replaced. *)
  Definition lifted_jacobian (i : nat) (u : list R) (st : @load_state G) : list insertion * list insertion :=
    (contact_matrix pd num_pairs surfaces basis mkernels (ls_problem st), form_matrix i u (ls_du st)).
  (** demo_nitsche_unbiased.py:452-459, product of the assembled matrix with a vector.  dolfinx drops
      the bulk entries in rows and columns of the boundary conditions and then inserts (not adds) ones
      on their diagonal; the contact entries were added before without boundary conditions. *)
  Definition without (d : nat) (w : list R) : list R := map (fun e => if (e =? d)%nat then 0 else nth e w 0) (seq 0 (length w)).
  Definition without_fixed (w : list R) : list R := map (fun e => if fixed e then 0 else nth e w 0) (seq 0 (length w)).
  Definition system_times (A : list insertion * list insertion) (w : list R) (d : nat) : R :=
    if fixed d then matrix_times (pd_bs pd) (fst A) (without d w) d + nth d w 0
    else matrix_times (pd_bs pd) (fst A) w d + matrix_times (pd_bs pd) (snd A) (without_fixed w) d.
  (** demo_nitsche_unbiased.py:461-469.  One process: no ghosts. *)
  Definition lifted_problem (i : nat) (u : list R) : problem (list R) unit (list R) (list insertion * list insertion) (@load_state G) :=
    {| compute_coefficients := Some (fun x st => load_coefficients pd num_pairs surfaces basis num_rows (owned x) st);
       NewtonModel.compute_residual := Some (fun x st => lifted_residual i u (owned x) st);
       NewtonModel.compute_jacobian := Some (fun _ st _ => lifted_jacobian i u st);
       ksp := fun _ _ A b => linear_solve A b;
       normB := norm2; normO := norm2; axpy := vector_axpy; ghost_values := fun _ => tt; NewtonModel.rank0 := rank0 |}.

  (** Right-hand side of the linear drivers: no x0, so that lifting and prescribed values use g
      itself.  alpha is -1 in demo_nitsche_meshties.py:197-205 and meshtie_demos/demo_poisson.py:244-249,
      1 in meshtie_demos/thermo_mech.py:336-342, meshtie_convergence.py:185-188 and
      meshtie_demos/poisson_convergence.py:146-152. *)
  Definition linear_rhs (alpha : R) (A : list insertion) (g b : list R) : list R :=
    set_bc 1 g (repeat 0 (length b)) (apply_lifting alpha A g (repeat 0 (length b)) b).
End Lift.
