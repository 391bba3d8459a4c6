(** Model of the Newton solver (python/dolfinx_contact/newton_solver.py). *)
From Coq Require Import List Arith Lia Bool Reals.
Import ListNotations.
From Verif Require Import Prelude CropModel.
Local Open Scope R_scope.

(** newton_solver.py:18-20; the attribute is public, so other values are possible. *)
Inductive crit := CResidual | CIncremental | COther.

(** Python exceptions raised or caught by the solver (newton_solver.py:126-143, 282-455). *)
Inductive exn := EAttribute | ERuntime | EValue | EAssertion.

(** Result of running a piece of Python: a value, an exception, or (only in
    the model, for a while loop that exceeds its fuel) no result yet (newton_solver.py:282-455). *)
Inductive outcome (T : Type) := Ret (v : T) | Exn (e : exn) | OutOfFuel.
Arguments Ret {T} v.
Arguments Exn {T} e.
Arguments OutOfFuel {T}.

(** set_newton_options takes a dictionary; missing keys are None (newton_solver.py:210-240). *)
Record options := { o_atol : option R; o_rtol : option R; o_crit : option (option crit); o_max_it : option nat;
                    o_error : option bool; o_relax : option R }.

Section Newton.
  (** [O]: owned values of a distributed vector, [G]: ghost values; [B]: right
      hand sides; [Mt]: matrices; [C]: the coefficient arrays together with
      whatever else the callbacks store (newton_solver.py:282-455). *)
  Context {O G B Mt C : Type}.
  Record iterate := { owned : O; ghosts : G }.

  (** What can be observed of a run: the calls of the callbacks and of the
      linear solver (newton_solver.py:282-455). *)
  Inductive event := EvCoef (x : iterate) | EvRes (x : iterate) | EvJac (x : iterate) | EvKsp (b : B).

  (** Members of the solver (newton_solver.py:24-47), the iterate, and the trace
      of calls. [relaxation] is None while the slot is unset. *)
  Record state := {
    max_it : nat;
    rtol : R;
    atol : R;
    criterion : crit;
    relaxation : option R;
    error_on_nonconvergence : bool;
    iteration : nat;
    krylov_iterations : nat;
    initial_residual : R;
    residual : R;
    s_A : Mt;
    s_b : B;
    s_coeffs : C;
    s_dx : option O;
    s_x : iterate;
    trace : list event }.
  Definition set_max_it (v : nat) (s : state) : state :=
    {| max_it := v; rtol := rtol s; atol := atol s; criterion := criterion s; relaxation := relaxation s; error_on_nonconvergence := error_on_nonconvergence s; iteration := iteration s; krylov_iterations := krylov_iterations s; initial_residual := initial_residual s; residual := residual s; s_A := s_A s; s_b := s_b s; s_coeffs := s_coeffs s; s_dx := s_dx s; s_x := s_x s; trace := trace s |}.
  Definition set_rtol (v : R) (s : state) : state :=
    {| max_it := max_it s; rtol := v; atol := atol s; criterion := criterion s; relaxation := relaxation s; error_on_nonconvergence := error_on_nonconvergence s; iteration := iteration s; krylov_iterations := krylov_iterations s; initial_residual := initial_residual s; residual := residual s; s_A := s_A s; s_b := s_b s; s_coeffs := s_coeffs s; s_dx := s_dx s; s_x := s_x s; trace := trace s |}.
  Definition set_atol (v : R) (s : state) : state :=
    {| max_it := max_it s; rtol := rtol s; atol := v; criterion := criterion s; relaxation := relaxation s; error_on_nonconvergence := error_on_nonconvergence s; iteration := iteration s; krylov_iterations := krylov_iterations s; initial_residual := initial_residual s; residual := residual s; s_A := s_A s; s_b := s_b s; s_coeffs := s_coeffs s; s_dx := s_dx s; s_x := s_x s; trace := trace s |}.
  Definition set_criterion (v : crit) (s : state) : state :=
    {| max_it := max_it s; rtol := rtol s; atol := atol s; criterion := v; relaxation := relaxation s; error_on_nonconvergence := error_on_nonconvergence s; iteration := iteration s; krylov_iterations := krylov_iterations s; initial_residual := initial_residual s; residual := residual s; s_A := s_A s; s_b := s_b s; s_coeffs := s_coeffs s; s_dx := s_dx s; s_x := s_x s; trace := trace s |}.
  Definition set_relaxation (v : option R) (s : state) : state :=
    {| max_it := max_it s; rtol := rtol s; atol := atol s; criterion := criterion s; relaxation := v; error_on_nonconvergence := error_on_nonconvergence s; iteration := iteration s; krylov_iterations := krylov_iterations s; initial_residual := initial_residual s; residual := residual s; s_A := s_A s; s_b := s_b s; s_coeffs := s_coeffs s; s_dx := s_dx s; s_x := s_x s; trace := trace s |}.
  Definition set_error_on_nonconvergence (v : bool) (s : state) : state :=
    {| max_it := max_it s; rtol := rtol s; atol := atol s; criterion := criterion s; relaxation := relaxation s; error_on_nonconvergence := v; iteration := iteration s; krylov_iterations := krylov_iterations s; initial_residual := initial_residual s; residual := residual s; s_A := s_A s; s_b := s_b s; s_coeffs := s_coeffs s; s_dx := s_dx s; s_x := s_x s; trace := trace s |}.
  Definition set_iteration (v : nat) (s : state) : state :=
    {| max_it := max_it s; rtol := rtol s; atol := atol s; criterion := criterion s; relaxation := relaxation s; error_on_nonconvergence := error_on_nonconvergence s; iteration := v; krylov_iterations := krylov_iterations s; initial_residual := initial_residual s; residual := residual s; s_A := s_A s; s_b := s_b s; s_coeffs := s_coeffs s; s_dx := s_dx s; s_x := s_x s; trace := trace s |}.
  Definition set_krylov_iterations (v : nat) (s : state) : state :=
    {| max_it := max_it s; rtol := rtol s; atol := atol s; criterion := criterion s; relaxation := relaxation s; error_on_nonconvergence := error_on_nonconvergence s; iteration := iteration s; krylov_iterations := v; initial_residual := initial_residual s; residual := residual s; s_A := s_A s; s_b := s_b s; s_coeffs := s_coeffs s; s_dx := s_dx s; s_x := s_x s; trace := trace s |}.
  Definition set_initial_residual (v : R) (s : state) : state :=
    {| max_it := max_it s; rtol := rtol s; atol := atol s; criterion := criterion s; relaxation := relaxation s; error_on_nonconvergence := error_on_nonconvergence s; iteration := iteration s; krylov_iterations := krylov_iterations s; initial_residual := v; residual := residual s; s_A := s_A s; s_b := s_b s; s_coeffs := s_coeffs s; s_dx := s_dx s; s_x := s_x s; trace := trace s |}.
  Definition set_residual (v : R) (s : state) : state :=
    {| max_it := max_it s; rtol := rtol s; atol := atol s; criterion := criterion s; relaxation := relaxation s; error_on_nonconvergence := error_on_nonconvergence s; iteration := iteration s; krylov_iterations := krylov_iterations s; initial_residual := initial_residual s; residual := v; s_A := s_A s; s_b := s_b s; s_coeffs := s_coeffs s; s_dx := s_dx s; s_x := s_x s; trace := trace s |}.
  Definition set_s_A (v : Mt) (s : state) : state :=
    {| max_it := max_it s; rtol := rtol s; atol := atol s; criterion := criterion s; relaxation := relaxation s; error_on_nonconvergence := error_on_nonconvergence s; iteration := iteration s; krylov_iterations := krylov_iterations s; initial_residual := initial_residual s; residual := residual s; s_A := v; s_b := s_b s; s_coeffs := s_coeffs s; s_dx := s_dx s; s_x := s_x s; trace := trace s |}.
  Definition set_s_b (v : B) (s : state) : state :=
    {| max_it := max_it s; rtol := rtol s; atol := atol s; criterion := criterion s; relaxation := relaxation s; error_on_nonconvergence := error_on_nonconvergence s; iteration := iteration s; krylov_iterations := krylov_iterations s; initial_residual := initial_residual s; residual := residual s; s_A := s_A s; s_b := v; s_coeffs := s_coeffs s; s_dx := s_dx s; s_x := s_x s; trace := trace s |}.
  Definition set_s_coeffs (v : C) (s : state) : state :=
    {| max_it := max_it s; rtol := rtol s; atol := atol s; criterion := criterion s; relaxation := relaxation s; error_on_nonconvergence := error_on_nonconvergence s; iteration := iteration s; krylov_iterations := krylov_iterations s; initial_residual := initial_residual s; residual := residual s; s_A := s_A s; s_b := s_b s; s_coeffs := v; s_dx := s_dx s; s_x := s_x s; trace := trace s |}.
  Definition set_s_dx (v : option O) (s : state) : state :=
    {| max_it := max_it s; rtol := rtol s; atol := atol s; criterion := criterion s; relaxation := relaxation s; error_on_nonconvergence := error_on_nonconvergence s; iteration := iteration s; krylov_iterations := krylov_iterations s; initial_residual := initial_residual s; residual := residual s; s_A := s_A s; s_b := s_b s; s_coeffs := s_coeffs s; s_dx := v; s_x := s_x s; trace := trace s |}.
  Definition set_s_x (v : iterate) (s : state) : state :=
    {| max_it := max_it s; rtol := rtol s; atol := atol s; criterion := criterion s; relaxation := relaxation s; error_on_nonconvergence := error_on_nonconvergence s; iteration := iteration s; krylov_iterations := krylov_iterations s; initial_residual := initial_residual s; residual := residual s; s_A := s_A s; s_b := s_b s; s_coeffs := s_coeffs s; s_dx := s_dx s; s_x := v; trace := trace s |}.
  Definition set_trace (v : list event) (s : state) : state :=
    {| max_it := max_it s; rtol := rtol s; atol := atol s; criterion := criterion s; relaxation := relaxation s; error_on_nonconvergence := error_on_nonconvergence s; iteration := iteration s; krylov_iterations := krylov_iterations s; initial_residual := initial_residual s; residual := residual s; s_A := s_A s; s_b := s_b s; s_coeffs := s_coeffs s; s_dx := s_dx s; s_x := s_x s; trace := v |}.

  (** What the solver is given from outside (newton_solver.py:50-80, 145-240). *)
  Record problem := {
    (** Callbacks (None: not set, so that reading the slot raises
        AttributeError).  compute_residual overwrites b.  An AttributeError
        raised inside a callback is not modelled. *)
    compute_coefficients : option (iterate -> C -> C);
    compute_residual : option (iterate -> C -> B);
    compute_jacobian : option (iterate -> C -> Mt -> Mt);
    (** KSP solve with operators (A, P): solution, iteration number, converged
        reason positive.  P is A, or the user's preconditioner matrix, computed
        by the user's callback from the iterate; both are inside this oracle. *)
    ksp : iterate -> C -> Mt -> B -> O * nat * bool;
    (** r.norm(NORM_2) of right hand sides and of increments. *)
    normB : B -> R;
    normO : O -> R;
    (** x.axpy(-r, dx) on owned values. *)
    axpy : R -> O -> O -> O;
    (** ghostUpdate(INSERT, FORWARD): ghosts as a function of all owned values. *)
    ghost_values : O -> G;
    (** self.comm.rank == 0 (that rank prints) (newton_solver.py:437). *)
    rank0 : bool }.
  Variable pb : problem.

  Definition run (T : Type) := state -> outcome T * state.
  Definition ret {T} (v : T) : run T := fun s => (Ret v, s).
  Definition raise {T} (e : exn) : run T := fun s => (Exn e, s).
  Definition bind {T U} (m : run T) (k : T -> run U) : run U := fun s =>
    match m s with
    | (Ret v, s') => k v s'
    | (Exn e, s') => (Exn e, s')
    | (OutOfFuel, s') => (OutOfFuel, s')
    end.
  Definition get {T} (f : state -> T) : run T := fun s => (Ret (f s), s).
  Definition modify (f : state -> state) : run unit := fun s => (Ret tt, f s).
  Notation "'let*' v ':=' m 'in' k" := (bind m (fun v => k)) (at level 200, v name, right associativity).
  Notation "m ';;' k" := (bind m (fun _ => k)) (at level 100, k at level 200, right associativity).

  (** newton_solver.py:50-80 __init__: relaxation_parameter is not set. *)
  Definition init (J : Mt) (b : B) (c : C) (x : iterate) : state :=
    {| max_it := 50; rtol := / 10 ^ 7; atol := / 10 ^ 7; criterion := CResidual; relaxation := None; error_on_nonconvergence := false;
       iteration := 0; krylov_iterations := 0; initial_residual := 0; residual := 0;
       s_A := J; s_b := b; s_coeffs := c; s_dx := None; s_x := x; trace := [] |}.

  (** newton_solver.py:210-240 set_newton_options ([o_crit] Some None: an
      unknown name). *)
  Definition set_newton_options (o : options) : run unit :=
    (match o_atol o with Some v => modify (set_atol v) | None => ret tt end) ;;
    (match o_rtol o with Some v => modify (set_rtol v) | None => ret tt end) ;;
    (match o_crit o with
     | Some (Some c) => modify (set_criterion c)
     | Some None => raise ERuntime
     | None => ret tt
     end) ;;
    (match o_max_it o with Some v => modify (set_max_it v) | None => ret tt end) ;;
    (match o_error o with Some v => modify (set_error_on_nonconvergence v) | None => ret tt end) ;;
    (match o_relax o with Some v => modify (set_relaxation (Some v)) | None => modify (set_relaxation (Some 1)) end).

  (** newton_solver.py:248-274 _check_convergence for a vector of the given norm.
      The relative residual is inf when initial_residual is zero
      (ZeroDivisionError), and inf < rtol is false.  Rank 0 reads
      relaxation_parameter to print it. *)
  Definition check_convergence (nrm : R) : run (R * bool) :=
    let* init_res := get initial_residual in
    let* rt := get rtol in
    let* at_ := get atol in
    let* relax := get relaxation in
    match rank0 pb, relax with
    | true, None => raise EAttribute
    | _, _ =>
        let rel_ok := if Req_EM_T init_res 0 then false else rlt (nrm / init_res) rt in
        ret (nrm, rel_ok && rlt nrm at_)
    end.

  Definition emit (e : event) : run unit := modify (fun s => set_trace (trace s ++ [e]) s).

  (** self._compute_coefficients(x_vec, self._coeffs) (newton_solver.py:370, 397). *)
  Definition call_coefficients (missing : exn) : run unit :=
    match compute_coefficients pb with
    | None => raise missing
    | Some f =>
        let* x := get s_x in
        emit (EvCoef x) ;;
        modify (fun s => set_s_coeffs (f x (s_coeffs s)) s)
    end.
  (** newton_solver.py:242-246 _pre_computation and _post_solve. *)
  Definition ghost_update : run unit :=
    modify (fun s => set_s_x {| owned := owned (s_x s); ghosts := ghost_values pb (owned (s_x s)) |} s).
  (** self._compute_residual(x_vec, self._b, self._coeffs) (newton_solver.py:382, 405). *)
  Definition call_residual (missing : exn) : run unit :=
    match compute_residual pb with
    | None => raise missing
    | Some f =>
        let* x := get s_x in
        emit (EvRes x) ;;
        modify (fun s => set_s_b (f x (s_coeffs s)) s)
    end.
  (** newton_solver.py:276-280 _update_solution: x -= relaxation * dx. *)
  Definition update_solution : run unit :=
    let* r := get relaxation in
    let* dx := get s_dx in
    match r, dx with
    | Some r, Some dx => modify (fun s => set_s_x {| owned := axpy pb r dx (owned (s_x s)); ghosts := ghosts (s_x s) |} s)
    | _, _ => raise EAttribute
    end.

  (** newton_solver.py:386-407: body of the adaptive relaxation loop; rel_min is
      1e-2; returns true on break.  [saved]: x_copy. *)
  Definition relax_body (saved : O) (res_new : R) : run (bool * R) :=
    let* r := get relaxation in
    match r with
    | None => raise EAttribute
    | Some r =>
        let r := / 2 * r in
        if rlt r (1 / 100) then modify (set_relaxation (Some (2 * r))) ;; ret (true, res_new)
        else
          modify (set_relaxation (Some r)) ;;
          modify (fun s => set_s_x {| owned := saved; ghosts := ghosts (s_x s) |} s) ;;
          update_solution ;;
          call_coefficients EAttribute ;;
          ghost_update ;;
          call_residual EAttribute ;;
          let* res := get (fun s => normB pb (s_b s)) in
          ret (false, res)
    end.

  (** newton_solver.py:387-407: while res_old < res_new. *)
  Fixpoint relax_loop (fuel : nat) (saved : O) (res_old res_new : R) : run R :=
    if rlt res_old res_new then
      match fuel with
      | 0%nat => fun s => (OutOfFuel, s)
      | S f =>
          let* out := relax_body saved res_new in
          if fst out then ret (snd out) else relax_loop f saved res_old (snd out)
      end
    else ret res_new.

  (** newton_solver.py:348-433: body of the Newton loop; [res_old] is the local
      variable; returns (res_old, newton_converged). *)
  Definition newton_body (fuel : nat) (res_old : R) : run (R * bool) :=
    let* saved := get (fun s => owned (s_x s)) in
    modify (set_relaxation (Some 1)) ;;
    (match compute_jacobian pb with
     | None => raise ERuntime
     | Some f =>
         let* x := get s_x in
         emit (EvJac x) ;;
         modify (fun s => set_s_A (f x (s_coeffs s) (s_A s)) s)
     end) ;;
    let* sol := get (fun s => ksp pb (s_x s) (s_coeffs s) (s_A s) (s_b s)) in
    let* b := get s_b in
    emit (EvKsp b) ;;
    modify (set_s_dx (Some (fst (fst sol)))) ;;
    modify (fun s => set_krylov_iterations (krylov_iterations s + snd (fst sol)) s) ;;
    (if snd sol then ret tt else raise EAssertion) ;;
    update_solution ;;
    call_coefficients EAttribute ;;
    modify (fun s => set_iteration (iteration s + 1) s) ;;
    ghost_update ;;
    call_residual EAttribute ;;
    let* res_new := get (fun s => normB pb (s_b s)) in
    let* res_new := relax_loop fuel saved res_old res_new in
    let* it := get iteration in
    (if (it =? 1)%nat then modify (set_initial_residual (normO pb (fst (fst sol)))) else ret tt) ;;
    let* c := get criterion in
    let* conv :=
      match c with
      | CResidual =>
          let* nrm := get (fun s => normB pb (s_b s)) in
          let* out := check_convergence nrm in
          modify (set_residual (fst out)) ;; ret (snd out)
      | CIncremental =>
          if (it =? 1)%nat then modify (set_residual 1) ;; ret false
          else
            let* out := check_convergence (normO pb (fst (fst sol))) in
            modify (set_residual (fst out)) ;; ret (snd out)
      | COther => raise ERuntime
      end in
    ret (res_new, conv).

  (** newton_solver.py:348: while not newton_converged and iteration < max_it. *)
  Fixpoint newton_loop (fuel_in fuel : nat) (res_old : R) (converged : bool) : run bool :=
    let* it := get iteration in
    let* mx := get max_it in
    if negb converged && (it <? mx)%nat then
      match fuel with
      | 0%nat => fun s => (OutOfFuel, s)
      | S f =>
          let* out := newton_body fuel_in res_old in
          newton_loop fuel_in f (fst out) (snd out)
      end
    else ret converged.

  (** newton_solver.py:282-455 _solve.  Writing of result files and printing are
      left out; KSP.setOperators has no effect on the modelled state. *)
  Definition solve_once (fuel : nat) : run (nat * bool) :=
    modify (set_iteration 0) ;;
    modify (set_krylov_iterations 0) ;;
    modify (set_residual (-1)) ;;
    call_coefficients ERuntime ;;
    ghost_update ;;
    call_residual ERuntime ;;
    let* res_old := get (fun s => normB pb (s_b s)) in
    let* c := get criterion in
    let* conv :=
      match c with
      | CResidual =>
          let* out := check_convergence res_old in
          modify (set_residual (fst out)) ;; ret (snd out)
      | CIncremental => ret false
      | COther => raise EValue
      end in
    let* conv := newton_loop fuel fuel res_old conv in
    let* err := get error_on_nonconvergence in
    (if conv then ret tt else if err then raise ERuntime else ret tt) ;;
    let* it := get iteration in
    ret (it, conv).

  (** newton_solver.py:126-143 solve for a dolfinx Function ([is_vec] false) or
      a PETSc vector: after _solve, u.x.scatter_forward() raises AttributeError
      for a PETSc vector, and the except branch runs _solve again; there,
      u.ghostUpdate raises AttributeError for a Function. *)
  Definition solve (fuel : nat) (is_vec : bool) : run (nat * bool) := fun s =>
    match (let* out := solve_once fuel in if is_vec then raise EAttribute else ghost_update ;; ret out) s with
    | (Exn EAttribute, s') => (let* out := solve_once fuel in if is_vec then ghost_update ;; ret out else raise EAttribute) s'
    | r => r
    end.
End Newton.
Arguments iterate O G : clear implicits.
Arguments event O G B : clear implicits.
Arguments state O G B Mt C : clear implicits.
Arguments problem O G B Mt C : clear implicits.
Arguments run O G B Mt C T : clear implicits.
