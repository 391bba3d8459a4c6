(** Model of Contact::crop_invalid_points. *)
From Coq Require Import List Arith ZArith Lia Bool Reals.
Import ListNotations.
From Verif Require Import Prelude RSum.
Local Open Scope R_scope.

(** [a > b] and [a < b] on doubles, idealised to reals (Contact.cpp:794-803). *)
Definition rlt (a b : R) : bool := if Rlt_dec a b then true else false.

(** Contact.cpp:794-803: accumulate gap.n_y and gap.gap of one point. *)
Definition dot_and_norm2 (nq gdim : nat) (gap n_y : list R) (f q : nat) : R * R :=
  for_loop gdim (fun i st =>
    let index := (f * nq * gdim + q * gdim + i)%nat in
    (fst st + nth index gap 0 * nth index n_y 0, snd st + nth index gap 0 * nth index gap 0)) (0, 0).

(** Contact.cpp:776-816 crop_invalid_points: [map] is _facet_maps[pair],
    [num_facets] is _local_facets of the quadrature surface. *)
Definition crop_point (nq gdim : nat) (gap n_y : list R) (tol : R) (offsets : list nat) (f q : nat) (data : list Z) : list Z :=
  let dn := dot_and_norm2 nq gdim gap n_y f q in
  let norm := sqrt (snd dn) in
  if rlt tol norm then upd data (nth f offsets 0 + q)%nat (-1)%Z
  else if rlt (1 / 10000000) norm then
    if rlt (Rabs (fst dn) / norm) (7 / 10) then upd data (nth f offsets 0 + q)%nat (-1)%Z else data
  else data.
Definition crop_invalid_points (num_facets nq gdim : nat) (gap n_y : list R) (tol : R) (map : adj Z) : adj Z :=
  mkAdj (for_loop num_facets (fun f data =>
           for_loop nq (fun q data => crop_point nq gdim gap n_y tol (adj_off map) f q data) data) (adj_data map))
        (adj_off map).
