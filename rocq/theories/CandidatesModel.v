(** Model of find_candidate_facets and find_candidate_surface_segment. *)
From Coq Require Import List Arith ZArith Lia Bool Reals.
Import ListNotations.
From Verif Require Import Prelude RSum CropModel.
Local Open Scope R_scope.

(** utils.cpp:853-860: squared distance of two midpoints (flat arrays, three
    coordinates per midpoint). *)
Definition midpoint_dist (qm cm : list R) (j i : nat) : R :=
  for_loop 3 (fun k dist =>
    let diff := Rabs (nth (j * 3 + k)%nat qm 0 - nth (i * 3 + k)%nat cm 0) in dist + diff * diff) 0.

(** utils.cpp:832-878 find_candidate_facets.  [qm]: the quadrature facet's
    midpoint; [cm]: midpoints of the [n] candidate facets.  std::sort on the
    permutation is modelled by a stable sort; the theorems do not use the order of
    equal distances. *)
Definition find_candidate_facets (qm cm : list R) (n : nat) (radius : R) : list nat :=
  let r2 := radius * radius in
  let st := for_loop n (fun i st =>
      let dist := midpoint_dist qm cm 0 i in
      if rlt radius 0 || rlt dist r2 then (fst st ++ [i], snd st ++ [dist]) else st) ([], []) in
  let cand_patch := fst st in
  let dists := snd st in
  let perm := isort (fun i j => negb (rlt (nth j dists 0) (nth i dists 0))) (seq 0 (length cand_patch)) in
  map (fun p => nth p cand_patch 0%nat) perm.

(** utils.cpp:899-925: inner loop over the quadrature facets with [break]. *)
Fixpoint near_any (qm cm : list R) (r2 : R) (i : nat) (js : list nat) : bool :=
  match js with
  | [] => false
  | j :: rest => if rlt (midpoint_dist qm cm j i) r2 then true else near_any qm cm r2 i rest
  end.

(** utils.cpp:880-927 find_candidate_surface_segment. *)
Definition find_candidate_surface_segment (qm cm : list R) (nqf : nat) (candidates : list nat) (radius : R) : list nat :=
  if rlt radius 0 then candidates
  else
    let r2 := radius * radius in
    for_loop (length candidates) (fun i cand_patch =>
      if near_any qm cm r2 i (seq 0 nqf) then cand_patch ++ [nth i candidates 0%nat] else cand_patch) [].
