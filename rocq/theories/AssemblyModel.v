(** Model of create_petsc_matrix (sparsity), assemble_vector and
    assemble_matrix of the Contact class. *)
From Coq Require Import List Arith ZArith Lia Bool Reals.
Import ListNotations.
From Verif Require Import Prelude RSum EntitiesModel PackingModel.

(** A contact kernel (utils.h:78-86 kernel_fn): element buffers, coefficient row,
    constants, cell coordinates, local facet, number of links, quadrature
    indices; returns the updated buffers (passed at Contact.cpp:1227-1229, 1348-1350). *)
Definition kernel_fn : Type :=
  list (list R) -> list R -> list R -> list R -> nat -> nat -> list nat -> list (list R).

(** What the assemblers read from the Contact object and the function space (Contact.cpp:1131-1366). *)
Record assembly := mkAssembly {
  a_max_links : nat;              (* maximum over pairs *)
  a_ndofs : nat;                  (* dofs per cell *)
  a_bs : nat;                     (* block size *)
  a_gdim : nat;
  a_num_dofs_g : nat;             (* geometry dofs per cell *)
  a_x_dofmap : nat -> list nat;   (* geometry dofs of a cell *)
  a_x : list R;                   (* geometry, three per node *)
  a_dofs : nat -> list nat;       (* cell dofs *)
  a_active : list nat;            (* (cell, local facet) pairs of the surface, flat *)
  a_local : nat;                  (* number of owned facets *)
  a_map : nat -> list Z;          (* contact facet per quadrature point *)
  a_facet_map : adj nat;
  a_parent : list nat }.

(** Contact.cpp:1313-1320 (1189-1196): copy the cell's coordinates. *)
Definition load_coordinates (a : assembly) (cell : nat) (cd : list R) : list R :=
  let xd := a_x_dofmap a cell in
  for_loop (length xd) (fun j cd =>
    for_loop (a_gdim a) (fun k cd => upd cd (j * 3 + k) (nth (3 * nth j xd 0 + k) (a_x a) 0%R)) cd) cd.

(** Contact.cpp:1333-1336 (1207-1210): points that have a contact facet. *)
Definition q_indices_of (connected : list Z) : list nat :=
  for_loop (length connected) (fun j acc => if Z.leb 0 (nth j connected 0%Z) then acc ++ [j] else acc) [].

(** [std::fill(v.begin(), v.end(), 0)] (Contact.cpp:1219-1225, 1344-1346). *)
Definition fill0 (v : list R) : list R := repeat 0%R (length v).

(** Contact.cpp:1353-1356, 1360-1363: add an element vector at the cell's dofs. *)
Definition add_local (a : assembly) (cell : nat) (be : list R) (b : list R) : list R :=
  let dofs := a_dofs a cell in
  for_loop (a_ndofs a) (fun j b =>
    for_loop (a_bs a) (fun k b => addto b (a_bs a * nth j dofs 0 + k) (nth (a_bs a * j + k) be 0%R)) b) b.

(** Loop state: element buffers, linked cells and coordinates survive from one
    facet to the next (Contact.cpp:1217-1225, 1305-1309, 1342-1346). *)
Record scratch := mkScratch { s_bufs : list (list R); s_linked : list nat; s_coords : list R }.

(** Contact.cpp:1249-1366 assemble_vector. *)
Definition vector_facet (a : assembly) (kernel : kernel_fn) (coeffs : list R) (cstride : nat) (constants : list R)
    (i : nat) (st : list R * scratch) : list R * scratch :=
  let b := fst st in let s := snd st in
  let cell := nth (2 * i) (a_active a) 0 in
  let cd := load_coordinates a cell (s_coords s) in
  let connected := a_map a i in
  let q_indices := if 0 <? a_max_links a then q_indices_of connected else [] in
  let linked := if 0 <? a_max_links a then linked_cells connected (a_facet_map a) (a_parent a) else s_linked s in
  let n := length linked in
  let bes := upd (s_bufs s) 0 (fill0 (nth 0 (s_bufs s) [])) in
  let bes := for_loop n (fun j bes => upd bes (j + 1) (fill0 (nth (j + 1) bes []))) bes in
  let bes := kernel bes (slice coeffs (i * cstride) cstride) constants cd (nth (2 * i + 1) (a_active a) 0) n q_indices in
  let b := add_local a cell (nth 0 bes []) b in
  let b := for_loop n (fun l b => add_local a (nth l linked 0) (nth (l + 1) bes []) b) b in
  (b, mkScratch bes linked cd).

Definition assemble_vector (a : assembly) (kernel : kernel_fn) (coeffs : list R) (cstride : nat)
    (constants : list R) (b : list R) : list R :=
  fst (for_loop (a_local a) (vector_facet a kernel coeffs cstride constants)
    (b, mkScratch (repeat (repeat 0%R (a_bs a * a_ndofs a)) (a_max_links a + 1)) [] (repeat 0%R (3 * a_num_dofs_g a)))).

(** A call of mat_set(rows, columns, block) (Contact.cpp:1234-1245). *)
Definition insertion : Type := list nat * list nat * list R.

(** Contact.cpp:1131-1247 assemble_matrix; the result is the list of mat_set
    calls in order. *)
Definition matrix_facet (a : assembly) (kernel : kernel_fn) (coeffs : list R) (cstride : nat) (constants : list R)
    (i : nat) (st : list insertion * scratch) : list insertion * scratch :=
  let out := fst st in let s := snd st in
  let cell := nth (2 * i) (a_active a) 0 in
  let cd := load_coordinates a cell (s_coords s) in
  let connected := a_map a i in
  let q_indices := if 0 <? a_max_links a then q_indices_of connected else [] in
  let linked := if 0 <? a_max_links a then linked_cells connected (a_facet_map a) (a_parent a) else s_linked s in
  let n := length linked in
  let Aes := upd (s_bufs s) 0 (fill0 (nth 0 (s_bufs s) [])) in
  let Aes := for_loop n (fun j Aes =>
      let Aes := upd Aes (3 * j + 1) (fill0 (nth (3 * j + 1) Aes [])) in
      let Aes := upd Aes (3 * j + 2) (fill0 (nth (3 * j + 2) Aes [])) in
      upd Aes (3 * j + 3) (fill0 (nth (3 * j + 3) Aes []))) Aes in
  let Aes := kernel Aes (slice coeffs (i * cstride) cstride) constants cd (nth (2 * i + 1) (a_active a) 0) n q_indices in
  let dc := a_dofs a cell in
  let out := out ++ [(dc, dc, nth 0 Aes [])] in
  (* linked_cells[j] < 0 cannot happen: the links are natural numbers (Contact.cpp:1238-1239). *)
  let out := for_loop n (fun j out =>
      let dl := a_dofs a (nth j linked 0) in
      out ++ [(dc, dl, nth (3 * j + 1) Aes [])] ++ [(dl, dc, nth (3 * j + 2) Aes [])] ++ [(dl, dl, nth (3 * j + 3) Aes [])]) out in
  (out, mkScratch Aes linked cd).

Definition assemble_matrix (a : assembly) (kernel : kernel_fn) (coeffs : list R) (cstride : nat)
    (constants : list R) : list insertion :=
  fst (for_loop (a_local a) (matrix_facet a kernel coeffs cstride constants)
    ([], mkScratch (repeat (repeat 0%R (a_bs a * a_ndofs a * a_bs a * a_ndofs a)) (3 * a_max_links a + 1)) []
           (repeat 0%R (3 * a_num_dofs_g a)))).

(** Contact.cpp:240-294 create_petsc_matrix: entries (row block, column block)
    added to the base form's pattern.  One [assembly] per contact pair. *)
Definition pattern_facet (a : assembly) (i : nat) (pattern : list (nat * nat)) : list (nat * nat) :=
  let cell_dofs := a_dofs a (nth (2 * i) (a_active a) 0) in
  let linked_dofs := for_each (a_map a i) (fun link acc =>
      if Z.ltb link 0 then acc
      else acc ++ a_dofs a (nth (sub_cell (a_facet_map a) (Z.to_nat link)) (a_parent a) 0)) [] in
  let linked_dofs := unique Nat.eqb (isort Nat.leb linked_dofs) in
  (pattern ++ list_prod cell_dofs linked_dofs) ++ list_prod linked_dofs cell_dofs.

Definition create_pattern (base : list (nat * nat)) (pairs : list assembly) : list (nat * nat) :=
  for_each pairs (fun a pattern => for_loop (a_local a) (pattern_facet a) pattern) base.
