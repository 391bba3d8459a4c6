(** What the split-box generators promise, independent of the model's helpers. *)
From Coq Require Import List Arith.
Import ListNotations.

(** l' is l started at another vertex: the same closed polygon. *)
Definition rotation {A} (l l' : list A) : Prop := exists a b, l = a ++ b /\ l' = b ++ a.

(** The outline of a body: walk the closed polygon [domain] from the cut onwards; the cut
    edge, between vertices 4 and 5, is replaced by the curve, which runs from 4 to 5. *)
Inductive outline_of {P} (point : nat -> P) (domain : list nat) (curve : list P) : list P -> Prop :=
| cut_forward rest : rotation domain (4 :: 5 :: rest) -> outline_of point domain curve (curve ++ map point rest)
| cut_backward rest : rotation domain (5 :: 4 :: rest) -> outline_of point domain curve (rev curve ++ map point rest).

(** 4 and 5 are neighbours on the closed polygon. *)
Definition has_cut (domain : list nat) : Prop :=
  exists rest, rotation domain (4 :: 5 :: rest) \/ rotation domain (5 :: 4 :: rest).

(** Lines form a closed walk. *)
Fixpoint walk {A} (from : A) (ls : list (A * A)) (to : A) : Prop :=
  match ls with
  | [] => from = to
  | (a, b) :: r => from = a /\ walk b r to
  end.
Definition closed {A} (ls : list (A * A)) : Prop := exists p, walk p ls p.

(** Coordinates of an entity given by node positions. *)
Definition entity_points {P} (x : list P) (e : list nat) : list (option P) := map (nth_error x) e.
