(** Model of the mesh generators as programs of several processes: process 0 writes a file and the others
    do not (python/dolfinx_contact/meshing/onesided_meshes.py, contact_meshes.py, utils.py). *)
From Coq Require Import List Arith Bool.
Import ListNotations.

(** What a process does with files, by number, and the barrier of MPI.COMM_WORLD (contact_meshes.py:168-171,
    meshing/utils.py:24-33).  What is in the files is not modelled; a file is there once it is written. *)
Inductive operation := WriteFile (f : nat) | ReadFile (f : nat) | Barrier.
Definition program := list operation.   (* one process, contact_meshes.py:117-171 *)

(** onesided_meshes.py:18-48 create_disk_mesh and 51-81 create_sphere_mesh: no barrier. *)
Definition onesided_mesh (f rank : nat) : program := if (rank =? 0)%nat then [WriteFile f] else [].
(** contact_meshes.py:103-171, 174-257, 260-335, 627-691, 748-809, 812-873: gmsh.write on process 0, then
    the barrier. *)
Definition contact_mesh (f rank : nat) : program := (if (rank =? 0)%nat then [WriteFile f] else []) ++ [Barrier].
(** meshing/utils.py:24-33 and 53-62: process 0 reads [f] and writes [g], then the barrier. *)
Definition convert_program (f g rank : nat) : program := (if (rank =? 0)%nat then [ReadFile f; WriteFile g] else []) ++ [Barrier].
(** new_demo_compare_nitsche_snes.py:77-79: mesh, conversion, then whatever the processes do. *)
Definition disk_demo (f g : nat) (rest : nat -> program) (rank : nat) : program := onesided_mesh f rank ++ convert_program f g rank ++ rest rank.

(** What each process still has to do, and the files written (contact_meshes.py:117-171). *)
Record run_state := mkRun { todo : nat -> program; files : list nat }.
(** One process does its next operation, in any order of the processes; the barrier (contact_meshes.py:170)
    is left by all [n] at once. *)
Inductive step (n : nat) : run_state -> run_state -> Prop :=
| StepWrite s rank f rest : rank < n -> todo s rank = WriteFile f :: rest ->
    step n s (mkRun (fun r => if (r =? rank)%nat then rest else todo s r) (f :: files s))
| StepRead s rank f rest : rank < n -> todo s rank = ReadFile f :: rest ->
    step n s (mkRun (fun r => if (r =? rank)%nat then rest else todo s r) (files s))
| StepBarrier s : (forall rank, rank < n -> exists rest, todo s rank = Barrier :: rest) ->
    step n s (mkRun (fun r => tl (todo s r)) (files s)).
(** Any number of steps (any schedule; contact_meshes.py:117-171). *)
Inductive reaches (n : nat) (s : run_state) : run_state -> Prop :=
| Reach0 : reaches n s s
| ReachStep t t' : reaches n s t -> step n t t' -> reaches n s t'.
(** All processes at the beginning, no files (contact_meshes.py:117). *)
Definition start (p : nat -> program) : run_state := mkRun p [].
