(** Model of convert_mesh and convert_mesh_new (python/dolfinx_contact/meshing/utils.py): names of the
    files and what happens on each process.  What is written into the file is not modelled. *)
From Coq Require Import Ascii String List Arith Bool.
Import ListNotations.

(** Python strings as lists of characters (meshing/utils.py:36). *)
Definition text := list ascii.

(** [s] begins with [sep] (used by str.split, meshing/utils.py:50-51). *)
Fixpoint begins (sep s : text) : bool :=
  match sep, s with
  | [], _ => true
  | a :: sep, b :: s => Ascii.eqb a b && begins sep s
  | _ :: _, [] => false
  end.
(** s.split(sep)[0] (meshing/utils.py:50-51): what stands before the first [sep], or everything. *)
Fixpoint split0 (sep s : text) : text :=
  if begins sep s then [] else match s with [] => [] | c :: s => c :: split0 sep s end.

Definition dot_msh : text := list_ascii_of_string ".msh".    (* meshing/utils.py:50, 54 *)
Definition dot_xdmf : text := list_ascii_of_string ".xdmf".  (* meshing/utils.py:51, 57 *)
(** meshing/utils.py:50-51, 54, 57: the file read and the file written by convert_mesh. *)
Definition file_read (filename : text) : text := split0 dot_msh filename ++ dot_msh.
(** meshing/utils.py:51, 57. *)
Definition file_written (outname : text) : text := split0 dot_xdmf outname ++ dot_xdmf.
(** meshing/utils.py:25-28: convert_mesh_new takes the names as they are. *)
Definition file_read_new (filename : text) : text := filename.
(** meshing/utils.py:28. *)
Definition file_written_new (outname : text) : text := outname.

(** What becomes of a process: it returns, raises, or waits in the barrier for ever (meshing/utils.py:33, 62). *)
Inductive end_of_call := Returned | Raised | Waiting.
(** meshing/utils.py:24-33, 53-62: process 0 reads and writes ([ok]: without exception), then all meet in
    Barrier.  A barrier is left when all [n] processes have entered it. *)
Definition enters_barrier (ok : bool) (rank : nat) : bool := if (rank =? 0)%nat then ok else true.
(** meshing/utils.py:24-33, 53-62, for one process. *)
Definition convert (n : nat) (ok : bool) (rank : nat) : end_of_call :=
  if enters_barrier ok rank then
    if forallb (enters_barrier ok) (seq 0 n) then Returned else Waiting
  else Raised.
