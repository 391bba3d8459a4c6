(** Model of entity bookkeeping: compute_active_entities, owned facet counts,
    sort_cells, linked cells. *)
From Coq Require Import List Arith ZArith Lia Bool.
Import ListNotations.
From Verif Require Import Prelude.

(** Stable argsort; dolfinx::radix_sort(perm, key) is a stable LSD radix sort of
    non-negative keys (called at utils.cpp:189-237). *)
Definition argsort (key : nat -> nat) (n : nat) : list nat :=
  isort (fun a b => key a <=? key b) (seq 0 n).

(** std::find on a list of ids, as a distance (Contact.cpp:16-55). *)
Fixpoint find_index (x : nat) (l : list nat) : nat :=
  match l with
  | [] => 0
  | h :: t => if h =? x then 0 else S (find_index x t)
  end.

(** utils.cpp:685-690, compute_active_entities for cells. *)
Definition active_cells (entities : list nat) : list nat := isort Nat.leb entities.

(** utils.cpp:691-729, compute_active_entities for exterior facets.
    [f_to_c], [c_to_f]: facet-cell and cell-facet connectivity of the mesh. *)
Definition active_facets (f_to_c c_to_f : nat -> list nat) (entities : list nat) : list nat :=
  let cells := map (fun f => hd 0 (f_to_c f)) entities in
  let facets := map (fun f => find_index f (c_to_f (hd 0 (f_to_c f)))) entities in
  let perm := argsort (fun i => nth i cells 0) (length entities) in
  for_each perm (fun p out => out ++ [nth p cells 0; nth p facets 0]) [].

(** Contact.cpp:145-153 and wrappers.cpp:523-532: count owned pairs scanning
    backwards.  [k] is the number of pairs still to look at. *)
Fixpoint count_local_from (facets : list nat) (num_cells k : nat) : nat :=
  match k with
  | 0 => 0
  | S k' => if nth (2 * k') facets 0 <? num_cells then S k' else count_local_from facets num_cells k'
  end.
Definition count_local (facets : list nat) (num_cells : nat) : nat :=
  count_local_from facets num_cells (length facets / 2).

(** wrappers.cpp:509-514: local cells counted with std::upper_bound. *)
Definition count_local_cells (cells : list nat) (size_local : nat) : nat := upper_bound cells size_local.

(** Contact.cpp:16-55 create_cell_facet_pairs.  [find s tag]: the facets of
    marker [s] carrying [tag]; [surfaces s]: the tags of surface [s]. *)
Definition create_cell_facet_pairs (f_to_c c_to_f : nat -> list nat)
    (find : nat -> nat -> list nat) (surfaces : nat -> list nat) (num_markers : nat) : adj nat :=
  let r := for_loop num_markers (fun s st =>
      for_each (surfaces s) (fun tag st =>
        let pairs := active_facets f_to_c c_to_f (find s tag) in
        let data := fst st in let offsets := snd st in
        (data ++ pairs, offsets ++ [last offsets 0 + length pairs])) st) ([], [0]) in
  mkAdj (fst r) (snd r).

(** ** utils.cpp:189-237 sort_cells *)

(** The boundary loop (223-226): [offsets[++index] = i + 1] (utils.cpp:223-226). *)
Definition boundary_loop (sorted : list Z) (n : nat) : nat * list nat :=
  for_loop (n - 1) (fun i st =>
    let index := fst st in let offsets := snd st in
    if Z.eqb (nth i sorted 0%Z) (nth (S i) sorted 0%Z) then st
    else (S index, upd offsets (S index) (S i))) (0, repeat 0 (S n)).

Record sorted_cells := mkSorted { sc_unique : list Z; sc_offsets : list nat; sc_perm : list nat }.

(** [perm] is the caller's permutation buffer; [None] is the runtime_error (utils.cpp:189-237). *)
Definition sort_cells (cells : list Z) (perm : list nat) : option sorted_cells :=
  let n := length cells in
  if n =? 0 then Some (mkSorted [] [0; 0] perm)
  else
    let tmp := unique Z.eqb cells in
    if (length tmp =? 1) && Z.eqb (nth 0 tmp 0%Z) (-1) then Some (mkSorted [(-1)%Z] [0; n] perm)
    else if existsb (fun c => Z.ltb c 0) tmp then None
    else
      let p := isort (fun a b => Z.leb (nth a cells 0%Z) (nth b cells 0%Z)) (seq 0 n) in
      let sorted := map (fun i => nth (nth i p 0) cells 0%Z) (seq 0 n) in
      let st := boundary_loop sorted n in
      let offsets := upd (snd st) (S (fst st)) n in
      let u := unique Z.eqb sorted in
      Some (mkSorted u (firstn (S (length u)) offsets) p).

(** ** Linked cells *)

(** Contact.cpp:89-114 compute_linked_cells. Negative facets are skipped. *)
Definition linked_cells (submesh_facets : list Z) (facet_map : adj nat) (parent : list nat) : list nat :=
  let l := for_each submesh_facets (fun f acc =>
      if Z.leb 0 f then acc ++ [nth (nth 0 (links facet_map (Z.to_nat f)) 0) parent 0] else acc) [] in
  unique Nat.eqb (isort Nat.leb l).

(** Contact.cpp:471-506 max_links(pair): [map i] is the list of contact facets
    of the quadrature points of facet [i]. *)
Definition compute_max_links (num_facets : nat) (map : nat -> list Z) (facet_map : adj nat) : nat :=
  for_loop num_facets (fun i m =>
    let l := for_each (map i) (fun f acc =>
        if Z.leb 0 f then acc ++ [hd 0 (links facet_map (Z.to_nat f))] else acc) [] in
    Nat.max m (length (unique Nat.eqb (isort Nat.leb l)))) 0.
