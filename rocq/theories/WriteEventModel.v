(** Model of a contact problem whose state is written to file between its calls
    (python/dolfinx_contact/output.py, ContactWriter.write). *)
From Coq Require Import List Reals.
Import ListNotations.
From Verif Require Import Prelude LayoutModel ContactProblemModel.

Section WriteEvents.
  Context {F G D : Type}.
  Context (move : G -> F -> G) (detect : G -> D)
    (pack_gap pack_normals pack_test : nat -> G -> D -> matrix)
    (pack_u pack_grad : nat -> F -> matrix) (pack_u_opp : nat -> G -> D -> F -> matrix)
    (pack_param : nat -> F -> matrix) (pack_h : nat -> matrix).
  Context (num_pairs : nat) (num_rows num_local : nat -> nat) (nq nd gdim : nat).
  (** [dummy = Function(V)], output.py:162: the function that is zero everywhere. *)
  Context (zero : F).

  (** output.py:151-241, the part of write that reaches the contact object: line 163 moves the submesh
      to the positions of the zero displacement and nothing moves it back.  All other uses of the contact
      object in write (lines 153-157, 167-190) only read.  The same holds if write raises after line 163. *)
  Definition write_output (s : @cp_state G D) : @cp_state G D :=
    mkCP (move (cp_geom s) zero) (cp_map s) (cp_coeffs s) (cp_grad s) (cp_consts s) (cp_ready s).

  (** A method call on the contact problem, or output.write (demo_hertzian_contact.py:488-514). *)
  Inductive event := Call (c : @call F D) | Write.
  (** output.py:151-241, contact_problem.py:111-465. *)
  Definition do_event (s : @cp_state G D) (e : event) : @cp_state G D :=
    match e with
    | Call c => do_call move detect pack_gap pack_normals pack_test pack_u pack_grad pack_u_opp pack_param pack_h
                  num_pairs num_rows num_local nq nd gdim s c
    | Write => write_output s
    end.
  (** contact_problem.py:32-109, then the events in order (demo_hertzian_contact.py:488-514). *)
  Definition run_events (g : G) (es : list event) : @cp_state G D := fold_left do_event es (cp_init detect g).
End WriteEvents.
Arguments Call {F D}. Arguments Write {F D}.

(** The same program without output (specification; demo_hertzian_contact.py:499 left out). *)
Fixpoint without_output {F D} (es : list (@event F D)) : list (@call F D) :=
  match es with
  | [] => []
  | Call c :: es => c :: without_output es
  | Write :: es => without_output es
  end.
