(** Model of the drivers for contact of two bodies, one of them rigid:
    /repo/python/dolfinx_contact/one_sided/nitsche_rigid_surface.py (UFL, the gap as a
    function) and nitsche_rigid_surface_custom.py (rigid surface kernels).  The contact terms
    of the UFL form are those of OneSidedModel.v (nitsche_rigid_surface.py:260-285 is the same
    text as nitsche_ufl.py:163-187 with dot(g_vec, n_2) for the gap).  Volume terms, form compilation and the
    solvers are not modelled. *)
From Coq Require Import List Arith Reals.
Import ListNotations.
From Verif Require Import Prelude EntitiesModel.

(** ** nitsche_rigid_surface.py *)
Section Gap.
  (** Mesh connectivity; [nearest f]: the rigid facet that create_distance_map (218) finds for
      the midpoint of facet [f]; [distance g x]: compute_distance_gjk between facet [g] and
      the point [x] (246). *)
  Context {point vector : Type} (f_to_c c_to_f : nat -> list nat) (nearest : nat -> nat) (distance : nat -> point -> vector).
  (** Facet of the pair number [row] of a list of (cell, local facet) pairs (nitsche_rigid_surface.py:219). *)
  Definition facet_of_row (pairs : list nat) (row : nat) : nat := nth (nth (2 * row + 1) pairs 0) (c_to_f (nth (2 * row) pairs 0)) 0.
  (** nitsche_rigid_surface.py:219, with Contact.cpp:296-340 and wrappers.cpp:184-226: [contact.facet_map(0)] has one
      row for each pair of compute_active_entities, in that order; quadrature degree 1 gives
      one entry.  Every facet is assumed to find one. *)
  Definition lookup (contact_facets : list nat) (row : nat) : list nat :=
    [nearest (facet_of_row (active_facets f_to_c c_to_f contact_facets) row)].
  (** nitsche_rigid_surface.py:229-248: [gap] at a point [x] whose closest contact facet is [facet], at distance zero. *)
  Definition gap_at (contact_facets : list nat) (facet : nat) (x : point) : vector :=
    let index := find_index facet contact_facets in
    let facet_2 := hd 0 (lookup contact_facets index) in
    distance facet_2 x.
End Gap.

(** ** nitsche_rigid_surface_custom.py *)
Local Open Scope R_scope.
(** nitsche_rigid_surface_custom.py:200: consts. *)
Definition surface_consts (E gamma theta : R) : list R := [gamma * E; theta].
(** nitsche_rigid_surface_custom.py:217-229 and 312: the row of one facet. *)
Definition surface_row (mu lmbda h : R) (gap u grad n_surf : list R) : list R := [mu; lmbda] ++ [h] ++ gap ++ u ++ grad ++ n_surf.
(** numpy slice assignment [row[start : start + len(v)] = v] (nitsche_rigid_surface_custom.py:286-288). *)
Definition assign_slice (row : list R) (start : nat) (v : list R) : list R := firstn start row ++ v ++ skipn (start + length v) row.
(** nitsche_rigid_surface_custom.py:272-288: pack_coefficients on one row; [offset] counts the columns of the material
    parameters, the cell size and the gap. *)
Definition surface_update (gap_columns : nat) (u grad row : list R) : list R :=
  let offset := (2 + 1 + gap_columns)%nat in
  assign_slice (assign_slice row offset u) (offset + length u) grad.
