(** Model of cpp/parallel_mesh_ghosting.cpp.  The ranks of the communicator are
    modelled together: a collective call is a function from the list of all
    ranks' send buffers to each rank's receive buffer. *)
From Coq Require Import List Arith ZArith QArith Bool.
Import ListNotations.
From Verif Require Import Prelude PointCloudModel.
Local Open Scope nat_scope.

(** ** MPI collectives *)

(** Writing [data] into a buffer at offset [off] (parallel_mesh_ghosting.cpp:18-45). *)
Definition write_at {A} (buf : list A) (off : nat) (data : list A) : list A :=
  firstn off buf ++ data ++ skipn (off + length data) buf.

(** MPI_Gatherv / MPI_Allgatherv: rank [i]'s send buffer lands at
    [displs[i]] of a zero-initialised receive buffer of size [n] (called at parallel_mesh_ghosting.cpp:18-45). *)
Definition gatherv {A} (zero : A) (n : nat) (displs : list nat) (send : list (list A)) : list A :=
  for_loop (length send)
    (fun i buf => write_at buf (nth i displs 0) (nth i send [])) (repeat zero n).

(** ** copy_to_all: cpp/parallel_mesh_ghosting.cpp:18-45 *)
Definition copy_to_all (nv : nat) (indices : list (list Z)) (values : list (list Z))
  : list Z * list Z :=
  let recv_count := map (@length Z) indices in                          (* 22, 25 *)
  let recv_offset := psums recv_count in                                (* 26-27 *)
  let all_indices := gatherv 0%Z (last recv_offset 0) recv_offset indices in (* 29-32 *)
  let recv_offset := map (fun n => n / nv) recv_offset in               (* 35-38 *)
  let all_values := gatherv 0%Z (last recv_offset 0) recv_offset values in   (* 40-42 *)
  (all_indices, all_values).

(** ** Vertex keys: cpp/parallel_mesh_ghosting.cpp:114-129 (facets) and
    132-142 (cells).  [ents]: for each marked entity its list of global vertex
    indices ([fv->links(f)] after local_to_global); [nv] vertices per entity. *)
Definition zleb (a b : Z) : bool := (a <=? b)%Z.
Definition sort_chunk (nv k : nat) (a : list Z) : list Z :=
  write_at a (k * nv) (isort zleb (slice a (k * nv) nv)).
Definition entity_keys (nv : nat) (ents : list (list Z)) : list Z :=
  let fv_indices := concat ents in
  for_loop (length fv_indices / nv) (sort_chunk nv) fv_indices.

(** ** lex_match: cpp/parallel_mesh_ghosting.cpp:420-510 *)

(** std::lexicographical_compare (called at parallel_mesh_ghosting.cpp:436-497). *)
Fixpoint lex_lt (a b : list Z) : bool :=
  match a, b with
  | _, [] => false
  | [], _ :: _ => true
  | x :: a', y :: b' => if (x <? y)%Z then true else if (y <? x)%Z then false else lex_lt a' b'
  end.
(** std::equal on ranges of equal length (called at parallel_mesh_ghosting.cpp:468-497). *)
Fixpoint zlist_eqb (a b : list Z) : bool :=
  match a, b with
  | [], [] => true
  | x :: a', y :: b' => (x =? y)%Z && zlist_eqb a' b'
  | _, _ => false
  end.

Section LexMatch.
  Variables (dim : nat) (local_indices in_indices : list Z) (in_values : list Z).
  (** [p_local], [p_in]: results of the two std::sort calls, parallel_mesh_ghosting.cpp:436-463
      (unstable: any sorted permutation). *)
  Variables (p_local p_in : list nat).

  Definition lkey (a : nat) : list Z := slice local_indices (dim * a) dim.
  Definition ikey (a : nat) : list Z := slice in_indices (dim * a) dim.

  (** parallel_mesh_ghosting.cpp:468-497: the merge loop.  [fuel] bounds the number of iterations;
      [length p_in + length p_local] is enough. *)
  Fixpoint lex_merge (fuel i j : nat) (new_markers : list (nat * Z)) : list (nat * Z) :=
    match fuel with
    | O => new_markers
    | S fuel' =>
        if (i <? length p_in) && (j <? length p_local) then
          let pi := nth i p_in 0 in
          let pj := nth j p_local 0 in
          if zlist_eqb (ikey pi) (lkey pj) then
            lex_merge fuel' (S i) (S j) (new_markers ++ [(pj, nth pi in_values 0%Z)])
          else if lex_lt (ikey pi) (lkey pj) then lex_merge fuel' (S i) j new_markers
          else lex_merge fuel' i (S j) new_markers
        else new_markers
    end.

  (** operator< / == on std::pair<int,int> (used by the sort at parallel_mesh_ghosting.cpp:499-509). *)
  Definition pair_leb (a b : nat * Z) : bool :=
    if fst a <? fst b then true
    else if fst b <? fst a then false else (snd a <=? snd b)%Z.
  Definition pair_eqb (a b : nat * Z) : bool := (fst a =? fst b) && (snd a =? snd b)%Z.

  (** parallel_mesh_ghosting.cpp:499-509 *)
  Definition lex_match : list nat * list Z :=
    let new_markers := lex_merge (length p_in + length p_local) 0 0 [] in
    let new_markers := unique pair_eqb (isort pair_leb new_markers) in
    (map fst new_markers, map snd new_markers).
End LexMatch.

(** One admissible result of the sorts (a stable one), for examples (parallel_mesh_ghosting.cpp:436-463). *)
Definition lex_argsort (dim : nat) (a : list Z) : list nat :=
  isort (fun i j => negb (lex_lt (slice a (dim * j) dim) (slice a (dim * i) dim)))
        (seq 0 (length a / dim)).

(** ** compute_ghost_cell_destinations: cpp/parallel_mesh_ghosting.cpp:286-417 *)

(** parallel_mesh_ghosting.cpp:302-326: facet midpoint, the average of its vertices. *)
Definition midpoint (vs : list pt) : pt :=
  let n := inject_Z (Z.of_nat (length vs)) in
  fold_left (fun m v => (px m + px v / n, py m + py v / n, pz m + pz v / n)%Q) vs pt0.

Section Ghost.
  (** [mids]: for each rank the midpoints of its marked facets.
      [x_near]: result of point_cloud_pairs on the gathered midpoints (parallel_mesh_ghosting.cpp:330-358). *)
  Variable mids : list (list pt).
  Variable x_near : adj nat.

  Definition all_counts : list nat := map (fun m => 3 * length m) mids.     (* 329-333 *)
  Definition offsets3 : list nat := psums all_counts.                       (* 334-336 *)
  (** parallel_mesh_ghosting.cpp:338-341: midpoints gathered on the root; triples kept together. *)
  Definition x_all : list pt := concat mids.
  Definition offsets : list nat := map (fun i => i / 3) offsets3.           (* 352 *)

  (** parallel_mesh_ghosting.cpp:374-377: which process a facet came from. *)
  Definition owner (n : nat) : nat := upper_bound offsets n - 1.

  (** parallel_mesh_ghosting.cpp:370-389: processes of the neighbours of one facet. *)
  Definition add_proc (p : nat) (pr : list nat) (n : nat) : list nat :=
    let q := owner n in
    if negb (q =? p) then
      if existsb (Nat.eqb q) pr then pr else isort Nat.leb (pr ++ [q])
    else pr.
  Definition facet_procs (p i : nat) : list nat :=
    for_each (links x_near i) (fun n pr => add_proc p pr n) [].

  (** std::vector::resize(n, 0) (parallel_mesh_ghosting.cpp:360-397). *)
  Definition resize (l : list nat) (n : nat) : list nat :=
    firstn n l ++ repeat 0 (n - length l).

  (** parallel_mesh_ghosting.cpp:368-393: loop over the facets of process [p]; state
      (i, neighbor_p). *)
  Definition facet_step (p num_facets_p j : nat) (st : nat * list nat) : nat * list nat :=
    let '(i, neighbor_p) := st in
    let neighbor_p := neighbor_p ++ facet_procs p i in
    let neighbor_p := upd neighbor_p (j + 1) (length neighbor_p - (num_facets_p + 1)) in
    (S i, neighbor_p).

  (** parallel_mesh_ghosting.cpp:360-397: loop over processes; state
      (i, neighbor_p, nbr_procs, nbr_offsets). *)
  Record root_state := mkRoot { rs_i : nat; rs_nbr : list nat; rs_procs : list nat; rs_off : list nat }.
  Definition proc_step (p : nat) (st : root_state) : root_state :=
    let num_facets_p := nth p all_counts 0 / 3 in
    let neighbor_p := resize (rs_nbr st) (num_facets_p + 1) in
    let '(i, neighbor_p) := for_loop num_facets_p (facet_step p num_facets_p) (rs_i st, neighbor_p) in
    let nbr_procs := rs_procs st ++ neighbor_p in
    mkRoot i neighbor_p nbr_procs (rs_off st ++ [length nbr_procs]).
  Definition root_result : root_state :=
    for_loop (length mids) proc_step (mkRoot 0 [] [] [0]).

  (** The local variable [nbr_offsets] on each rank when line 398 is reached:
      only the root has filled it (lines 345-348) (parallel_mesh_ghosting.cpp:398). *)
  Definition nbr_offsets_on (rank : nat) : list nat :=
    if rank =? 0 then rs_off root_result else [0].

  (** parallel_mesh_ghosting.cpp:400-402: the loop runs on every rank; [None] when an index is
      outside the vector. *)
  Definition dsizes_on (rank : nat) : option (list nat) :=
    for_loop (length mids)
      (fun i acc => match acc, nth_error (nbr_offsets_on rank) (i + 1), nth_error (nbr_offsets_on rank) i with
                    | Some ds, Some hi, Some lo => Some (ds ++ [hi - lo])
                    | _, _, _ => None
                    end) (Some []).

  (** parallel_mesh_ghosting.cpp:403-417: scatter from the root (MPI uses only the root's sizes and
      offsets) and unpacking on rank [p]. *)
  Definition ghost_destinations (p : nat) : adj nat :=
    let r := root_result in
    let lo := nth p (rs_off r) 0 in
    let hi := nth (S p) (rs_off r) 0 in
    let my_recv_data := slice (rs_procs r) lo (hi - lo) in
    let num_facets := length (nth p mids []) in
    mkAdj (skipn (num_facets + 1) my_recv_data) (firstn (num_facets + 1) my_recv_data).
End Ghost.

(** ** create_contact_mesh *)

(** parallel_mesh_ghosting.cpp:75-91: facets carrying one of the given tags. *)
Definition marker_subset (tags : list Z) (markers : list (nat * Z)) : list nat :=
  for_each markers
    (fun m acc => if existsb (Z.eqb (snd m)) tags then acc ++ [fst m] else acc) [].

(** std::map<int, std::vector<int>>: operator[] assignment and find (parallel_mesh_ghosting.cpp:100-110). *)
Definition dest_map := list (nat * list nat).
Fixpoint map_set (m : dest_map) (k : nat) (v : list nat) : dest_map :=
  match m with
  | [] => [(k, v)]
  | (k', v') :: t => if k =? k' then (k, v) :: t else (k', v') :: map_set t k v
  end.
Fixpoint map_find (m : dest_map) (k : nat) : option (list nat) :=
  match m with
  | [] => None
  | (k', v) :: t => if k =? k' then Some v else map_find t k
  end.

(** parallel_mesh_ghosting.cpp:100-110 on one rank: [fcell f] is [fc->links(f)[0]]. *)
Definition cell_to_dests (fcell : nat -> nat) (subset : list nat) (cell_dests : adj nat) : dest_map :=
  let cells_to_ghost := map fcell subset in
  for_loop (length cells_to_ghost)
    (fun i m => map_set m (nth i cells_to_ghost 0) (links cell_dests i)) [].

(** parallel_mesh_ghosting.cpp:173-193: the partitioner on one rank. *)
Definition partitioner (rank ncells : nat) (c2d : dest_map) : adj nat :=
  let '(dests, offs) :=
    for_loop ncells
      (fun c st =>
         let '(dests, offs) := st in
         let dests := dests ++ [rank] in
         let dests := match map_find c2d c with Some l => dests ++ l | None => dests end in
         (dests, offs ++ [length dests])) ([], [0]) in
  mkAdj dests offs.
