(** Model of the load steps of the two-sided demo
    (python/demos/demo_nitsche_unbiased.py 428-465 and 492-512, weak boundary conditions): the
    callbacks given to the Newton solver, one solve for the increment, the updates of the contact
    object after the solve, and the loop over the steps.  The log, the timers, the files and the
    near null space are left out. *)
From Coq Require Import List Arith ZArith Lia Bool Reals.
Import ListNotations.
From Verif Require Import Prelude RSum EntitiesModel PackingModel AssemblyModel CoefficientsModel TieSystemModel LayoutModel ContactProblemModel ContactSystemModel OneSidedModel NewtonModel OneSidedSystemModel OneSidedSolveModel.
Local Open Scope R_scope.

Section Load.
  Context {G : Type} (pd : pack_data) (num_pairs : nat) (surfaces : nat -> tie_pair) (basis : G -> (nat -> list Z) -> nat -> nat -> nat -> R)
    (num_rows : nat -> nat) (move : G -> list R -> G) (detect : G -> nat -> list Z) (pack_gap pack_normals : nat -> G -> (nat -> list Z) -> list (list R)).
  (** The kernels the contact object generated, residual and matrix. *)
  Variables kernels mkernels : list kernel_fn.
  (** F_compiled and J_compiled: step (its boundary values are the constants of the forms), total
      displacement, increment (demo_nitsche_unbiased.py:361-389). *)
  Variable form_vector : nat -> list R -> list R -> list R.
  Variable form_matrix : nat -> list R -> list R -> list insertion.
  (** KSP solve of the assembled matrix with a right hand side: solution, iterations, converged. *)
  Variable linear_solve : list insertion -> list R -> list R * nat * bool.
  Variable rank0 : bool.
  Notation problem_state := (@cp_state G (nat -> list Z)).

  (** What the callbacks share: the function [du] and the contact object
      (demo_nitsche_unbiased.py:428-462). *)
  Record load_state := { ls_du : list R; ls_problem : problem_state }.
  (** demo_nitsche_unbiased.py:428-433. *)
  Definition load_coefficients (x : list R) (st : load_state) : load_state :=
    {| ls_du := x; ls_problem := contact_updated pd num_pairs surfaces basis num_rows x (ls_problem st) |}.
  (** demo_nitsche_unbiased.py:435-450 with [len(bcs) = 0]: the content of [b] is overwritten; the
      compiled form reads the functions. *)
  Definition load_residual (i : nat) (u b : list R) (st : load_state) : list R :=
    let b0 := repeat 0 (length b) in
    let b1 := contact_vector pd num_pairs surfaces basis kernels (ls_problem st) b0 in
    map (fun d => nth d b1 0 + nth d (form_vector i u (ls_du st)) 0) (seq 0 (length b1)).
  (** demo_nitsche_unbiased.py:452-459: the insertions into the zeroed matrix. *)
  Definition load_jacobian (i : nat) (u : list R) (st : load_state) : list insertion :=
    contact_matrix pd num_pairs surfaces basis mkernels (ls_problem st) ++ form_matrix i u (ls_du st).
  (** demo_nitsche_unbiased.py:461-469.  One process: no ghosts. *)
  Definition load_problem (i : nat) (u : list R) : problem (list R) unit (list R) (list insertion) load_state :=
    {| compute_coefficients := Some (fun x st => load_coefficients (owned x) st);
       NewtonModel.compute_residual := Some (fun x st => load_residual i u (owned x) st);
       NewtonModel.compute_jacobian := Some (fun _ st _ => load_jacobian i u st);
       ksp := fun _ _ A b => linear_solve A b;
       normB := norm2; normO := norm2; axpy := vector_axpy; ghost_values := fun _ => tt; NewtonModel.rank0 := rank0 |}.

  Notation solver := (state (list R) unit (list R) (list insertion) load_state).
  (** demo_nitsche_unbiased.py:504-510: u += du, detection at u, a new matrix, du := 0.1 du and its
      packing. *)
  Definition finish_step (u : list R) (s : solver) : list R * solver :=
    let du := owned (s_x s) in
    let u' := vector_axpy (-1) du u in
    let p := update_detection move detect pack_gap pack_normals (cp_pack_test pd surfaces basis) (cp_pack_grad pd surfaces num_rows) num_pairs (num_local surfaces) (pd_nq pd) (pd_functions pd) (pd_gdim pd) u' (ls_problem (s_coeffs s)) in
    let du' := map (fun x => 1 / 10 * x) du in
    (u', set_s_x {| owned := du'; ghosts := tt |} (set_s_A [] (set_s_coeffs (load_coefficients du' {| ls_du := du; ls_problem := p |}) s))).
  (** demo_nitsche_unbiased.py:494-510: step [i] from the total displacement and the solver as they
      are; also the flag the solver returned. *)
  Definition load_step (i : nat) (before : list R * solver) : outcome (bool * (list R * solver)) :=
    let (u, s) := before in
    match solve (load_problem i u) (max_it s + 7) false s with
    | (Ret (_, converged), s') => Ret (converged, finish_step u s')
    | (Exn e, _) => Exn e
    | (OutOfFuel, _) => OutOfFuel
    end.
  (** demo_nitsche_unbiased.py:494: the first [n] steps. *)
  Fixpoint load_loop (n : nat) (start : list R * solver) : outcome (list R * solver) :=
    match n with
    | O => Ret start
    | S n => match load_loop n start with
             | Ret before => match load_step n before with Ret (_, after) => Ret after | Exn e => Exn e | OutOfFuel => OutOfFuel end
             | other => other
             end
    end.
End Load.
