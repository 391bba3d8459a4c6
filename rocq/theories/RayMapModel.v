(** Model of compute_raytracing_map and of the result of compute_projection_map. *)
From Coq Require Import List Arith ZArith Lia Bool Reals.
Import ListNotations.
From Verif Require Import Prelude RSum CropModel.
Local Open Scope R_scope.

(** What one call of raytracing_cell followed by the normal computation yields
    for a quadrature point and a candidate: status, candidate normal, intersection
    point and reference coordinates (utils.h:787-799). *)
Record ray_outcome := mkRay { ray_status : Z; ray_normal : list R; ray_x : list R; ray_X : list R }.

(** utils.h:801-819: dot product of the normals, SQUARED length of the ray, and
    the test of both. *)
Definition check_ray (gdim : nat) (search_radius : R) (normal point : list R) (o : ray_outcome) : Z :=
  let ray l := nth l (ray_x o) 0 - nth l point 0 in
  let dn := for_loop gdim (fun l st =>
      (fst st + nth l normal 0 * nth l (ray_normal o) 0, snd st + ray l * ray l)) (0, 0) in
  if rlt 0 (fst dn) || (rlt 0 search_radius && rlt search_radius (snd dn)) then (-5)%Z else ray_status o.

(** utils.h:749-833: candidates in turn until one has positive status; the result
    is the candidate index and the reference point. *)
Fixpoint ray_point (gdim : nat) (search_radius : R) (normal point : list R) (outcome : nat -> ray_outcome)
    (cand_patch : list nat) : option (nat * list R) :=
  match cand_patch with
  | [] => None
  | c :: rest =>
      if Z.ltb 0 (check_ray gdim search_radius normal point (outcome c)) then Some (c, ray_X (outcome c))
      else ray_point gdim search_radius normal point outcome rest
  end.

(** compute_projection_map, utils.h:400-546, as used here: -1 for every point when
    there is no candidate, otherwise the facet compute_closest_entity returns
    ([closest], an external search over the patch) and the pulled-back point. *)
Definition projection_map (closest : nat -> list nat -> nat * list R) (c_facets : list Z) (patch : list nat)
    (points : list nat) : list (Z * list R) :=
  match patch with
  | [] => map (fun _ => ((-1)%Z, [])) points
  | _ => map (fun j => let r := closest j patch in (nth (fst r) c_facets 0%Z, snd r)) points
  end.

(** utils.h:579-890 compute_raytracing_map.  One quadrature facet: [normal], [point],
    [outcome] by quadrature point, [patch] from find_candidate_facets.  The state
    is colliding_facet and reference_points (one list of coordinates per point). *)
Section Facet.
  Context (gdim nq : nat) (search_radius : R) (c_facets : list Z).
  Definition ray_facet (i : nat) (patch : list nat) (normal point : nat -> list R)
      (outcome : nat -> nat -> ray_outcome) (closest : nat -> list nat -> nat * list R)
      (st : list Z * list (list R)) : list Z * list (list R) :=
    let r := for_loop nq (fun j s =>
      let '(colliding, refs, missing) := s in
      match ray_point gdim search_radius (normal j) (point j) (outcome j) patch with
      | Some (cell_idx, X) =>
          (upd colliding (i * nq + j) (nth cell_idx c_facets 0%Z), upd refs (i * nq + j) X, missing)
      | None => (colliding, refs, missing ++ [j])
      end) (fst st, snd st, []) in
    let '(colliding, refs, missing) := r in
    if (0 <? length missing)%nat && (length missing <? nq)%nat then
      let pm := projection_map closest c_facets patch missing in
      for_loop (length missing) (fun j s =>
        let e := nth j pm (0%Z, []) in
        (upd (fst s) (i * nq + nth j missing 0)%nat (fst e), upd (snd s) (i * nq + nth j missing 0)%nat (snd e)))
        (colliding, refs)
    else (colliding, refs).
End Facet.

Definition compute_raytracing_map (gdim nq nf : nat) (search_radius : R) (c_facets : list Z)
    (patch : nat -> list nat) (normal point : nat -> nat -> list R)
    (outcome : nat -> nat -> nat -> ray_outcome) (closest : nat -> nat -> list nat -> nat * list R)
    : list Z * list (list R) :=
  for_loop nf (fun i st => ray_facet gdim nq search_radius c_facets i (patch i) (normal i) (point i) (outcome i) (closest i) st)
    (repeat (-1)%Z (nf * nq), repeat [] (nf * nq)).
