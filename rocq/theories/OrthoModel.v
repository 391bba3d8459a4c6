(** Model of the orthonormalisation of the near-nullspace vectors (utils.cpp:1204-1226,
    helpers.py:187-340).  The vectors of all processes are written as one list: the local
    arrays (owned entries, then ghosts) one after the other; [owned] lists the positions of
    owned entries, which is what a sum over the owned entries followed by MPI_Allreduce
    ranges over. *)
From Coq Require Import List Arith Lia Bool Reals String.
Import ListNotations.
From Verif Require Import Prelude RSum NullspaceModel.
Local Open Scope R_scope.

(** dolfinx::la::inner_product (external; called by utils.cpp:1205-1210): sum over the
    owned entries of all processes. *)
Definition inner_product (owned : list nat) (x y : list R) : R :=
  for_each owned (fun k acc => acc + nth k x 0 * nth k y 0) 0.

(** std::transform(bj, bi, bi, xi - dot * xj) inside dolfinx::la::orthonormalize
    (external; called by utils.cpp:1205-1207); ghosts are updated as well. *)
Definition subtract (dot : R) (bj bi : list R) : list R :=
  map (fun k => nth k bi 0 - dot * nth k bj 0) (seq 0 (List.length bi)).

(** dolfinx::la::orthonormalize (external, dolfinx/la/Vector.h; called by utils.cpp:1205-1207,
    helpers.py:233, 273, 330): modified Gram-Schmidt; [None] is the exception "Linear
    dependency detected. Cannot orthogonalize.", [eps] the machine epsilon.  Reals instead of
    floating point numbers. *)
Definition orthonormalize (owned : list nat) (eps : R) (basis : list (list R)) : option (list (list R)) :=
  for_loop (List.length basis) (fun i state =>
      match state with
      | None => None
      | Some b =>
          let bi := for_loop i (fun j bi => subtract (inner_product owned bi (nth j b [])) (nth j b []) bi) (nth i b []) in
          let norm := sqrt (inner_product owned bi bi) in
          if Rlt_dec (norm * norm) eps then None else Some (upd b i (map (fun x => x / norm) bi))
      end) (Some basis).

(** dolfinx::la::is_orthonormal (external; called by utils.cpp:1208-1211, helpers.py:234,
    274, 331). *)
Definition is_orthonormal (owned : list nat) (tol : R) (basis : list (list R)) : bool :=
  forallb (fun i => forallb (fun j =>
      if Rlt_dec tol (Rabs ((if (i =? j)%nat then 1 else 0) - inner_product owned (nth i basis []) (nth j basis []))) then false else true)
    (seq i (List.length basis - i))) (seq 0 (List.length basis)).

Inductive nullspace_result : Type :=
  | NullSpace (vectors : list (list R))
  | NullError (message : string).

(** utils.cpp:1204-1226, helpers.py:233-241, 330-338: orthonormalise, check, hand the owned
    entries to PETSc. *)
Definition finish_nullspace (owned : list nat) (eps tol : R) (basis : list (list R)) : nullspace_result :=
  match orthonormalize owned eps basis with
  | None => NullError "Linear dependency detected. Cannot orthogonalize."
  | Some b =>
      if is_orthonormal owned tol b then NullSpace (map (fun v => map (fun k => nth k v 0) owned) b)
      else NullError "Space not orthonormal"
  end.

(** Positions of the owned entries of a space with block size [bs] (utils.cpp:1214-1219). *)
Definition owned_entries (bs : nat) (blocks : list nat) : list nat :=
  flat_map (fun d => map (fun i => (bs * d + i)%nat) (seq 0 bs)) blocks.

(** utils.cpp:1131-1226 build_nullspace_multibody; [blocks] are the owned blocks. *)
Definition multibody_nullspace (gdim n : nat) (tags : list nat) (find : nat -> list nat) (cell_dofs : nat -> list nat) (x : list R)
    (blocks : list nat) (eps tol : R) : nullspace_result :=
  finish_nullspace (owned_entries gdim blocks) eps tol (build_nullspace_multibody gdim n tags find cell_dofs x).

(** helpers.py:282-340 rigid_motions_nullspace_subdomains.  [procs]: for every process the
    cells of a tag; numpy.hstack of an empty list raises (helpers.py:318). *)
Definition subdomains_nullspace (gdim n num_domains : nat) (tags : list nat) (procs : list (nat -> list nat)) (cell_dofs : nat -> list nat) (x : list R)
    (blocks : list nat) (eps tol : R) : nullspace_result :=
  if existsb (fun tag => existsb (fun find => (List.length (find tag) =? 0)%nat) procs) tags
  then NullError "need at least one array to concatenate"
  else if (num_domains <? List.length tags)%nat then NullError "list index out of range"
  else finish_nullspace (owned_entries gdim blocks) eps tol
         (rigid_motions_nullspace_subdomains gdim n num_domains tags (fun tag => flat_map (fun find => find tag) procs) cell_dofs x).
