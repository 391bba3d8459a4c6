(** What it means for the faces of a body to bound it, independent of the model. *)
From Coq Require Import List Bool Permutation.
Import ListNotations.
From Verif Require Import SplitBoxSpec.

(** A line taken forwards ([true]) or backwards, as start and end point. *)
Definition run {L V} (ends : L -> V * V) (s : bool * L) : V * V :=
  let e := ends (snd s) in if fst s then e else (snd e, fst e).

(** The same loop walked the other way. *)
Definition turned {L} (loop : list (bool * L)) : list (bool * L) :=
  rev (map (fun s => (negb (fst s), snd s)) loop).

(** A closed shell with the given lines: the loop of each face is a closed walk along the
    lines, and the faces can be given directions in such a way that every line is used
    exactly once in each direction, i.e. by exactly two faces on opposite sides, and no
    other line is used. *)
Definition closed_shell {F L V} (loop : F -> list (bool * L)) (ends : L -> V * V)
    (faces : list F) (lines : list L) : Prop :=
  (forall f, In f faces -> closed (map (run ends) (loop f))) /\
  NoDup lines /\
  exists outward : F -> bool,
    Permutation (concat (map (fun f => if outward f then loop f else turned (loop f)) faces))
                (map (fun l => (true, l)) lines ++ map (fun l => (false, l)) lines).
