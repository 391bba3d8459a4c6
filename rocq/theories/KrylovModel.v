(** Model of NewtonSolver.set_krylov_options and update_krylov_solver
    (newton_solver.py:84-124).  PETSc is modelled by its option database, which is
    global to the process, and by what an object reads from it. *)
From Coq Require Import List Bool String.
Import ListNotations.
Local Open Scope string_scope.

(** Option values as stored by PETSc; [None] is Python's None, an option without value
    (newton_solver.py:96-103). *)
Definition value := option string.
(** The option database; [None]: not set (newton_solver.py:93-105). *)
Definition database := string -> option value.
Definition set_option (db : database) (k : string) (v : value) : database :=
  fun k' => if k' =? k then Some v else db k'.

(** What is observable of a solver and its matrix and vector: the options they took, [None]
    being PETSc's default, and the multigrid calls (newton_solver.py:107-117). *)
Record krylov := {
  ksp_options : string -> option value;
  mat_options : string -> option value;
  vec_options : string -> option value;
  mg_levels : value;
  mg_cycles : value }.

(** newton_solver.py:79-81, 121-123: a new solver; the matrix and vector are those given. *)
Definition prefix := "Newton_solver_".
Definition new_krylov (mat vec : string -> option value) : krylov :=
  {| ksp_options := fun _ => None; mat_options := mat; vec_options := vec; mg_levels := None; mg_cycles := None |}.

(** newton_solver.py:89-92. *)
Definition keys := ["matptap_via"].
Definition pc_keys := ["pc_mg_levels"; "pc_mg_cycles"].
Definition mem (k : string) (l : list string) : bool := existsb (fun k' => k =? k') l.

(** newton_solver.py:95-101: the loop over the dictionary; state: g_opts, pc_opts, database. *)
Fixpoint sort_options (options : list (string * value)) (g pc : list (string * value)) (db : database)
    : list (string * value) * list (string * value) * database :=
  match options with
  | [] => (g, pc, db)
  | (k, v) :: rest =>
      if mem k keys then sort_options rest (g ++ [(k, v)]) pc db
      else if mem k pc_keys then sort_options rest g (pc ++ [(k, v)]) db
      else sort_options rest g pc (set_option db (prefix ++ k) v)
  end.

(** newton_solver.py:103-104. *)
Definition set_global (g : list (string * value)) (db : database) : database :=
  fold_left (fun db kv => set_option db (fst kv) (snd kv)) g db.

(** dict.get (newton_solver.py:107-111). *)
Fixpoint dict_get (d : list (string * value)) (k : string) : value :=
  match d with [] => None | (k', v) :: rest => if k =? k' then v else dict_get rest k end.

(** setFromOptions of an object with the solver's prefix: options in the database replace
    those the object has (newton_solver.py:105, 112-115). *)
Definition from_options (db : database) (old : string -> option value) : string -> option value :=
  fun k => match db (prefix ++ k) with Some v => Some v | None => old k end.

(** newton_solver.py:84-115 set_krylov_options. *)
Definition set_krylov_options (options : list (string * value)) (st : database * krylov) : database * krylov :=
  let '(db, s) := st in
  let '(g, pc, db) := sort_options options [] [] db in
  let db := set_global g db in
  let ksp := from_options db (ksp_options s) in
  let is_gamg := match ksp "pc_type" with Some (Some t) => t =? "gamg" | _ => false end in
  let '(levels, cycles) :=
    match dict_get pc "pc_mg_levels" with
    | None => (mg_levels s, mg_cycles s)
    | Some n =>
        (if is_gamg then mg_levels s else Some n,
         match dict_get pc "pc_mg_cycles" with None => mg_cycles s | Some c => Some c end)
    end in
  (db, {| ksp_options := ksp; mat_options := from_options db (mat_options s);
          vec_options := from_options db (vec_options s); mg_levels := levels; mg_cycles := cycles |}).

(** newton_solver.py:117-124 update_krylov_solver. *)
Definition update_krylov_solver (options : list (string * value)) (st : database * krylov) : database * krylov :=
  let '(db, s) := st in
  set_krylov_options options (db, new_krylov (mat_options s) (vec_options s)).
