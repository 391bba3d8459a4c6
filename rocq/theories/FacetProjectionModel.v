(** Model of ContactWriter.project, restore and the end of write (output.py:135-149, 238-241): the
    contact surfaces are flattened while the file is written. *)
From Coq Require Import List Arith ZArith Reals.
Import ListNotations.
From Verif Require Import Prelude WriterModel.
Local Open Scope R_scope.

(** What project knows about a pair: its entities and [projection_coordinates[i]], a direction and a
    value (output.py:41-58, 138-145). *)
Record surface_projection := mkProjection { pr_entities : list (nat * nat); pr_axis : nat; pr_value : R }.

Section FacetProjection.
  Context (c_to_f : nat -> list nat) (num_facets : nat) (fm_to_msh : list nat).
  (** Geometry nodes of a cell of the facet mesh. *)
  Context (geometry_nodes : nat -> list nat).

  (** output.py:138-143: fgeom, the nodes of the facets of a pair in the facet mesh.  Simplified:
      entities_to_geometry_dofs (DistanceModel) is a table of nodes here. *)
  Definition pair_nodes (p : surface_projection) : list nat :=
    flat_map (fun f => geometry_nodes (Z.to_nat (nth f (msh_to_fm num_facets fm_to_msh) 0%Z))) (facet_list c_to_f (pr_entities p)).
  (** output.py:144-146: geometry.x[fgeom, xi] = vali, the array with three columns stored by rows. *)
  Definition flatten_pair (p : surface_projection) (x : list R) : list R :=
    for_each (pair_nodes p) (fun v x => upd x (3 * v + pr_axis p) (pr_value p)) x.
  (** output.py:135-146. *)
  Definition project (pairs : list surface_projection) (x : list R) : list R := for_each pairs flatten_pair x.
  (** output.py:148-149: geometry.x[:, :] = geom[:, :]. *)
  Definition restore (geom x : list R) : list R := map (fun i => nth i geom 0) (seq 0 (length x)).

  (** output.py:238-241: copy, project, write, restore.  [ok]: vtx.write returned.  When it raises,
      restore is not reached.  Result: the positions written (or not) to the file and those left in the
      facet mesh. *)
  Definition write_positions (pairs : list surface_projection) (ok : bool) (x : list R) : list R * list R :=
    let geom := x in
    let x := project pairs x in
    if ok then (x, restore geom x) else (x, x).
  (** Any number of calls of write, each returning or raising (output.py:238-241): positions at each
      call, positions left. *)
  Fixpoint write_all (pairs : list surface_projection) (oks : list bool) (x : list R) : list (list R) * list R :=
    match oks with
    | [] => ([], x)
    | ok :: oks => let (shown, x) := write_positions pairs ok x in let (later, x) := write_all pairs oks x in (shown :: later, x)
    end.
End FacetProjection.
