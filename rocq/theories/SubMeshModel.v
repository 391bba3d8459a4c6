(** Model of cpp/SubMesh.cpp and of update_geometry in cpp/utils.cpp. *)
From Coq Require Import List Arith ZArith Lia Bool.
Import ListNotations.
From Verif Require Import Prelude.

(** SubMesh.cpp:19-25.  Cells of the flat (cell, local facet) array, sorted and
    without repeats.  Simplification: indices are [nat] (int32 in the code). *)
Definition submesh_cells (cell_facet_pairs : list nat) : list nat :=
  unique Nat.eqb (isort Nat.leb
    (map (fun f => nth (2 * f) cell_facet_pairs 0) (seq 0 (length cell_facet_pairs / 2)))).

(** SubMesh.cpp:60-62 (value 1) and the marking part of 90-103 (value 2). *)
Definition mark (num value : nat) (keys : list nat) : list nat :=
  for_each keys (fun c m => upd m c value) (repeat 0 num).

(** SubMesh.cpp:60-77: parent cell -> submesh cell adjacency list.
    [std::partial_sum] into offsets.begin()+1 is [psums];
    offsets.back() is [sum_nat] of the marks. *)
Definition mesh_to_submesh_cell_map (num_cells : nat) (cells : list nat) : adj nat :=
  let marked := mark num_cells 1 cells in
  let offsets := psums marked in
  let data := for_loop (length cells)
      (fun c d => upd d (nth (nth c cells 0) offsets 0) c) (repeat 0 (nth num_cells offsets 0)) in
  mkAdj data offsets.

(** SubMesh.cpp:93-101 and 114-121: submesh facet of a pair. [c_to_f] is the
    cell-facet connectivity of the submesh (DOLFINx).
    [.front()] of an empty range is modelled as 0; the theorems show the range is
    never empty. *)
Definition pair_facet (cmap : adj nat) (c_to_f : nat -> list nat) (pairs : list nat) (i : nat) : nat :=
  let sub_cell := hd 0 (links cmap (nth i pairs 0)) in
  nth (nth (i + 1) pairs 0) (c_to_f sub_cell) 0.

(** SubMesh.cpp:90-129: submesh facet -> (submesh cell, local facet). *)
Definition facets_to_cells (cmap : adj nat) (c_to_f : nat -> list nat) (num_facets : nat)
    (pairs : list nat) : adj nat :=
  let n := length pairs / 2 in
  let marked := for_loop n (fun k m => upd m (pair_facet cmap c_to_f pairs (2 * k)) 2) (repeat 0 num_facets) in
  let offsets := psums marked in
  let data := for_loop n (fun k d =>
      let f := pair_facet cmap c_to_f pairs (2 * k) in
      let d := upd d (nth f offsets 0) (hd 0 (links cmap (nth (2 * k) pairs 0))) in
      upd d (nth f offsets 0 + 1) (nth (2 * k + 1) pairs 0))
    (repeat 0 (nth num_facets offsets 0)) in
  mkAdj data offsets.

(** SubMesh.cpp:226-248 get_submesh_tuples. *)
Definition get_submesh_tuples (cmap : adj nat) (facets : list nat) : list nat :=
  for_loop (length facets / 2) (fun k out =>
      let out := upd out (2 * k) (hd 0 (links cmap (nth (2 * k) facets 0))) in
      upd out (2 * k + 1) (nth (2 * k + 1) facets 0))
    (repeat 0 (length facets)).

Section Functions.
(** Scalars: any type with an addition and a zero. *)
Context {A : Type} (add : A -> A -> A) (zero : A).

(** SubMesh.cpp:158-198 copy_function.  [dofs_sub], [dofs_parent]: cell dofs of
    the two dofmaps; [parent_cells]: the submesh-to-parent cell map. *)
Definition copy_function (bs num_cells : nat) (parent_cells : list nat)
    (dofs_sub dofs_parent : nat -> list nat) (u : list A) (u_sub : list A) : list A :=
  for_loop num_cells (fun c w =>
    let ds := dofs_sub c in
    let dp := dofs_parent (nth c parent_cells 0) in
    for_loop (length ds) (fun i w =>
      for_loop bs (fun j w => upd w (bs * nth i ds 0 + j) (nth (bs * nth i dp 0 + j) u zero)) w) w) u_sub.

(** utils.cpp:240-285 update_geometry: dx is scattered from the dofs, then
    added to the coordinates. *)
Definition update_geometry (bs num_cells : nat) (dofs dofs_x : nat -> list nat)
    (u : list A) (coords : list A) : list A :=
  let dx := for_loop num_cells (fun c dx =>
      for_loop (length (dofs c)) (fun i dx =>
        for_loop bs (fun j dx =>
          upd dx (3 * nth i (dofs_x c) 0 + j) (nth (bs * nth i (dofs c) 0 + j) u zero)) dx) dx)
    (repeat zero (length coords)) in
  map (fun p => add (fst p) (snd p)) (combine coords dx).

(** SubMesh.cpp:200-213: restore the coordinates from the parent mesh. *)
Definition restore_geometry (x_dof_map : list nat) (parent_geometry sub_geometry : list A) : list A :=
  for_loop (length sub_geometry / 3) (fun i g =>
    for_loop 3 (fun k g => upd g (3 * i + k) (nth (3 * nth i x_dof_map 0 + k) parent_geometry zero)) g)
    sub_geometry.

(** SubMesh.cpp:200-223 SubMesh::update_geometry.  [ndofs_sub]: number of block
    dofs of the submesh space; a new fem::Function starts at zero. *)
Definition submesh_update_geometry (bs num_cells ndofs_sub : nat) (parent_cells x_dof_map : list nat)
    (dofs_sub dofs_parent dofs_x : nat -> list nat)
    (parent_geometry u : list A) (sub_geometry : list A) : list A :=
  let g := restore_geometry x_dof_map parent_geometry sub_geometry in
  let u_sub := copy_function bs num_cells parent_cells dofs_sub dofs_parent u (repeat zero (bs * ndofs_sub)) in
  update_geometry bs num_cells dofs_sub dofs_x u_sub g.
End Functions.
