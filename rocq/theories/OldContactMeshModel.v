(** Model of create_contact_mesh_old
    (/repo/python/dolfinx_contact/parallel_mesh_ghosting.py:37-188), the Python version of
    create_contact_mesh, as one function over all ranks.  The C++ functions it calls
    (compute_ghost_cell_destinations, lex_match) are those of GhostingModel.  Simplified:
    indices are not bounded (the code casts input_global_indices to int32 at line 137). *)
From Coq Require Import List Arith ZArith QArith Bool.
Import ListNotations.
From Verif Require Import Prelude PointCloudModel GhostingModel ContactMeshModel.
Local Open Scope nat_scope.

(** numpy.concatenate: ValueError for an empty sequence of arrays (called at
    parallel_mesh_ghosting.py:85, 89, 91, 94, 96, 97). *)
Definition np_concatenate {A} (l : list (list A)) : option (list A) :=
  match l with [] => None | _ => Some (concat l) end.
(** ndarray.reshape((-1, nv)) (called at parallel_mesh_ghosting.py:89, 96, 113). *)
Definition np_reshape {A} (nv : nat) (a : list A) : list (list A) := map (fun k => slice a (k * nv) nv) (seq 0 (length a / nv)).
Definition nonempty {A} (l : list A) : bool := 0 <? length l.

(** parallel_mesh_ghosting.py:52-55. *)
Definition old_subset (tags : list Z) (markers : list (nat * Z)) : list nat :=
  let marker_subset_i := filter (fun i => existsb (Z.eqb (snd (nth i markers (0, 0%Z)))) tags) (seq 0 (length markers)) in
  map (fun i => fst (nth i markers (0, 0%Z))) marker_subset_i.

Section OldRanks.
  Context (gdim nf nc : nat) (ms : list rank_mesh) (tags : list Z) (R : Q) (order : list nat).

  Definition old_tagged (r : nat) : list nat := old_subset tags (rm_fmarker (mesh_of ms r)).
  (** parallel_mesh_ghosting.py:62: compute_ghost_cell_destinations, collective. *)
  Definition old_midpoints : list (list pt) := map (fun r => map (facet_midpoint ms r) (old_tagged r)) (seq 0 (length ms)).
  Definition old_cell_dests (r : nat) : adj nat :=
    ghost_destinations old_midpoints (point_cloud_pairs (concat old_midpoints) R order) r.
  (** parallel_mesh_ghosting.py:65-68: a dictionary; a later assignment replaces an earlier one. *)
  Definition old_cell_to_dests (r : nat) : dest_map :=
    let cells_to_ghost := map (rm_fcell (mesh_of ms r)) (old_tagged r) in
    fold_left (fun m ic => map_set m (snd ic) (links (old_cell_dests r) (fst ic))) (combine (seq 0 (length cells_to_ghost)) cells_to_ghost) [].
  (** parallel_mesh_ghosting.py:99-108, with [ncells] of line 70. *)
  Definition old_partitioner (r : nat) : adj nat :=
    let '(dests, offsets) :=
      fold_left (fun st c =>
        let '(dests, offsets) := st in
        let dests := dests ++ [r] in
        let dests := match map_find (old_cell_to_dests r) c with Some l => dests ++ l | None => dests end in
        (dests, offsets ++ [length dests])) (seq 0 (rm_ncells (mesh_of ms r))) ([], [0]) in
    mkAdj dests offsets.
  (** parallel_mesh_ghosting.py:111-115. *)
  Definition old_topo (r : nat) : list (list nat) :=
    let topo := map (local_to_global ms r) (concat (rm_cells (mesh_of ms r))) in
    firstn (rm_ncells (mesh_of ms r)) (np_reshape nc topo).
  (** parallel_mesh_ghosting.py:118-120; geometry.x is an array with three columns. *)
  Definition old_points (r : nat) : list (list Q) :=
    map (firstn gdim) (firstn (rm_vertices (mesh_of ms r)) (np_reshape 3 (rm_x (mesh_of ms r)))).

  (** parallel_mesh_ghosting.py:73-78: sorted global vertices of the marked facets and cells. *)
  Definition old_facet_rows (r : nat) : list (list Z) :=
    map (fun m => isort zleb (map (fun v => Z.of_nat (local_to_global ms r v)) (nth (fst m) (rm_facets (mesh_of ms r)) []))) (rm_fmarker (mesh_of ms r)).
  Definition old_cell_rows (r : nat) : list (list Z) :=
    map (fun m => isort zleb (map (fun v => Z.of_nat (local_to_global ms r v)) (nth (fst m) (rm_cells (mesh_of ms r)) []))) (rm_cmarker (mesh_of ms r)).
  Definition ranks : list nat := seq 0 (length ms).
  (** parallel_mesh_ghosting.py:84-87: an empty list on a rank without marked facets. *)
  Definition old_fsend (r : nat) : list Z :=
    if nonempty (old_facet_rows r) then concat (old_facet_rows r) else [].
  (** parallel_mesh_ghosting.py:88-92, the same on all ranks; None: ValueError or AssertionError. *)
  Definition old_facets : option (list Z * list Z) :=
    match np_concatenate (filter nonempty (map old_fsend ranks)) with
    | None => None
    | Some all_indices =>
        match np_concatenate (filter nonempty (map (fun r => map snd (rm_fmarker (mesh_of ms r))) ranks)) with
        | None => None
        | Some all_values => if length all_values =? length (np_reshape nf all_indices) then Some (all_indices, all_values) else None
        end
    end.
  (** parallel_mesh_ghosting.py:94. *)
  Definition old_csend (r : nat) : option (list Z) := np_concatenate (old_cell_rows r).
End OldRanks.

(** All ranks take part in an allgather, or nobody gets past it (called at parallel_mesh_ghosting.py:95). *)
Fixpoint all_sent {A} (l : list (option A)) : option (list A) :=
  match l with
  | [] => Some []
  | None :: _ => None
  | Some a :: t => match all_sent t with None => None | Some b => Some (a :: b) end
  end.

(** How the call ends on one rank: with an exception, never (waiting in a collective call
    for a rank that has raised), or with the new facet and cell markers
    (parallel_mesh_ghosting.py:37-188). *)
Inductive old_result := ORaises | OBlocks | OReturns (facets cells : list nat * list Z).

(** parallel_mesh_ghosting.py:88-188 on rank [r], [n] the new mesh there.  The call of
    numpy.vectorize's function on an array without entries raises ValueError (lines 151, 176).
    [pf], [pc] and [pfi], [pci]: the sorts inside the two calls of lex_match. *)
Definition old_markers (nf nc : nat) (ms : list rank_mesh) (r : nat) (n : new_mesh) (pf pfi pc pci : list nat) : old_result :=
  match old_facets nf ms with
  | None => ORaises
  | Some (all_indices, all_values) =>
      match old_csend ms r with
      | None => ORaises
      | Some _ =>
          match all_sent (map (old_csend ms) (ranks ms)) with
          | None => OBlocks
          | Some sent =>
              match np_concatenate sent, np_concatenate (map (fun r => map snd (rm_cmarker (mesh_of ms r))) (ranks ms)) with
              | Some all_cell_indices, Some all_cell_values =>
                  if negb (nonempty (concat (nm_facets n))) then ORaises
                  else if negb (nonempty (concat (nm_cells n))) then ORaises
                  else OReturns
                    (lex_match nf (concat (map (isort zleb) (original_entities n (nm_facets n)))) all_indices all_values pf pfi)
                    (lex_match nc (concat (map (isort zleb) (original_entities n (nm_cells n)))) all_cell_indices all_cell_values pc pci)
              | _, _ => ORaises
              end
          end
      end
  end.
