(** Model of the loop over the load steps of the two-sided demo with strong boundary conditions
    (python/demos/demo_nitsche_unbiased.py 490-509 with [len(bcs) > 0]).  The log, the timers, the
    files and the near null space are left out. *)
From Coq Require Import List Arith ZArith Lia Bool Reals.
Import ListNotations.
From Verif Require Import Prelude RSum EntitiesModel PackingModel AssemblyModel CoefficientsModel SystemSpec TieSystemModel LayoutModel ContactProblemModel ContactSystemModel OneSidedModel NewtonModel OneSidedSystemModel OneSidedSolveModel LoadStepModel LiftModel.
Local Open Scope R_scope.

(** demo_nitsche_unbiased.py:491-493: the values of the boundary conditions in every step, the
    whole displacement divided by the number of steps. *)
Definition step_values (nload_steps : nat) (displacement : list R) (_ : nat) : list R := map (fun x => x / INR nload_steps) displacement.

Section LiftStep.
  Context {G : Type} (pd : pack_data) (num_pairs : nat) (surfaces : nat -> tie_pair) (basis : G -> (nat -> list Z) -> nat -> nat -> nat -> R)
    (num_rows : nat -> nat) (move : G -> list R -> G) (detect : G -> nat -> list Z) (pack_gap pack_normals : nat -> G -> (nat -> list Z) -> list (list R)).
  Variables kernels mkernels : list kernel_fn.
  Variable form_vector : nat -> list R -> list R -> list R.
  Variable form_matrix : nat -> list R -> list R -> list insertion.
  Variable fixed : nat -> bool.
  Variable g_value : nat -> list R.
  Variable linear_solve : list insertion * list insertion -> list R -> list R * nat * bool.
  Variable rank0 : bool.
  Notation solver := (state (list R) unit (list R) (list insertion * list insertion) (@load_state G)).
  (** demo_nitsche_unbiased.py:501-508: u += du, detection at u, a new matrix, du := 0.1 du and its
      packing. *)
  Definition lifted_finish (u : list R) (s : solver) : list R * solver :=
    let du := owned (s_x s) in
    let u' := vector_axpy (-1) du u in
    let p := update_detection move detect pack_gap pack_normals (cp_pack_test pd surfaces basis) (cp_pack_grad pd surfaces num_rows) num_pairs (num_local surfaces) (pd_nq pd) (pd_functions pd) (pd_gdim pd) u' (ls_problem (s_coeffs s)) in
    let du' := map (fun x => 1 / 10 * x) du in
    (u', set_s_x {| owned := du'; ghosts := tt |} (set_s_A ([], []) (set_s_coeffs (load_coefficients pd num_pairs surfaces basis num_rows du' {| ls_du := du; ls_problem := p |}) s))).
  (** demo_nitsche_unbiased.py:490-508: step [i] from the total displacement and the solver as they
      are; also the flag the solver returned. *)
  Definition lifted_step (i : nat) (before : list R * solver) : outcome (bool * (list R * solver)) :=
    let (u, s) := before in
    match solve (lifted_problem pd num_pairs surfaces basis num_rows kernels mkernels form_vector form_matrix fixed g_value linear_solve rank0 i u) (max_it s + 7) false s with
    | (Ret (_, converged), s') => Ret (converged, lifted_finish u s')
    | (Exn e, _) => Exn e
    | (OutOfFuel, _) => OutOfFuel
    end.
  (** demo_nitsche_unbiased.py:490: the first [n] steps and their flags.  The demo goes on whatever
      the flag. *)
  Fixpoint lifted_loop (n : nat) (start : list R * solver) : outcome (list bool * (list R * solver)) :=
    match n with
    | O => Ret ([], start)
    | S n => match lifted_loop n start with
             | Ret (flags, before) => match lifted_step n before with Ret (c, after) => Ret (flags ++ [c], after) | Exn e => Exn e | OutOfFuel => OutOfFuel end
             | Exn e => Exn e
             | OutOfFuel => OutOfFuel
             end
    end.
End LiftStep.
