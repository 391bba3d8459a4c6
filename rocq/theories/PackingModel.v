(** Model of the packing of opposite-surface data: pack_test_functions,
    pack_grad_test_functions, pack_u_contact, pack_grad_u_contact. *)
From Coq Require Import List Arith ZArith Lia Bool Reals.
Import ListNotations.
From Verif Require Import Prelude RSum EntitiesModel SubMeshModel.

(** Submesh cell of a submesh facet (Contact.cpp:724-726, 1426-1428): first
    entry of the facet map. *)
Definition sub_cell (facet_map : adj nat) (f : nat) : nat := nth 0 (links facet_map f) 0.

(** Contact.cpp:718-730: parent cell per quadrature point, -1 when missing. *)
Definition qp_parent_cells (facet_map : adj nat) (parent : list nat) (facets : list Z) : list Z :=
  map (fun f => if Z.leb 0 f then Z.of_nat (nth (sub_cell facet_map (Z.to_nat f)) parent 0) else (-1)%Z) facets.

(** Contact.cpp:1420-1430: submesh cell per quadrature point, -1 when missing. *)
Definition qp_sub_cells (facet_map : adj nat) (facets : list Z) : list Z :=
  map (fun f => if Z.leb 0 f then Z.of_nat (sub_cell facet_map (Z.to_nat f)) else (-1)%Z) facets.

(** Contact.cpp:738-749 (and 1434-1445): positive_cells and positive_to_old. *)
Definition positives (f_cells : list Z) : list Z * list nat :=
  for_loop (length f_cells) (fun j st =>
    if Z.leb 0 (nth j f_cells 0%Z) then (fst st ++ [nth j f_cells 0%Z], snd st ++ [j]) else st) ([], []).

Section Tables.
Context {A : Type} (zero : A).

(** Contact.cpp:733-771, one facet of pack_test_functions.  [basis p k]: value
    of basis function [k] at contact point [p] (basis_values(0, p, k, 0)).  The
    state is the output and the permutation buffer; [None]: sort_cells threw. *)
Definition test_facet (nq ml nd bs : nat) (basis : nat -> nat -> A) (i : nat) (f_cells : list Z)
    (st : list A * list nat) : option (list A * list nat) :=
  let c := fst st in
  let perm := snd st in
  let pos := fst (positives f_cells) in
  let old := snd (positives f_cells) in
  match sort_cells pos (firstn (length pos) perm) with
  | None => None
  | Some r =>
      let perm' := sc_perm r ++ skipn (length pos) perm in
      let lc := for_loop (length (sc_unique r)) (fun j lc =>
          let link := fst lc in
          let indices := slice perm' (nth j (sc_offsets r) 0) (nth (S j) (sc_offsets r) 0 - nth j (sc_offsets r) 0) in
          let c := for_loop nd (fun k c =>
            for_loop (length indices) (fun q c =>
              for_loop bs (fun l c =>
                upd c ((((i * ml + link) * nd + k) * nq + nth (nth q indices 0) old 0) * bs + l)
                      (basis (i * nq + nth q indices 0) k)) c) c) (snd lc) in
          (S link, c)) (0, c) in
      Some (snd lc, perm')
  end.

(** Contact.cpp:629-774 pack_test_functions.  [facets]: the facet map's flat
    array ([nq] entries per facet).  The checks on the element (value size 1,
    identity map, no dof transformations) are not modelled. *)
Definition pack_test_functions (nf nq ml nd bs : nat) (facet_map : adj nat) (parent : list nat)
    (facets : list Z) (basis : nat -> nat -> A) : option (list A) :=
  let cells := qp_parent_cells facet_map parent facets in
  option_map fst (for_loop nf (fun i st =>
    match st with
    | None => None
    | Some s => test_facet nq ml nd bs basis i (slice cells (i * nq) nq) s
    end) (Some (repeat zero (nf * ml * nq * nd * bs), repeat 0 nq))).

(** Contact.cpp:1416-1506, one facet of pack_grad_test_functions.
    [grad cell p k l]: derivative in direction [l] of basis function [k] of
    [cell] at contact point [p], as evaluate_basis_functions returns it. *)
Definition grad_facet (nq ml nd gdim : nat) (parent : list nat) (grad : nat -> nat -> nat -> nat -> A)
    (i : nat) (f_cells : list Z) (st : list A * list nat) : option (list A * list nat) :=
  let c := fst st in
  let perm := snd st in
  let pos := fst (positives f_cells) in
  let old := snd (positives f_cells) in
  match sort_cells pos (firstn (length pos) perm) with
  | None => None
  | Some r =>
      let perm' := sc_perm r ++ skipn (length pos) perm in
      let lc := for_loop (length (sc_unique r)) (fun j lc =>
          let link := fst lc in
          if Z.ltb (nth j (sc_unique r) 0%Z) 0 then lc
          else
            let cell := nth (Z.to_nat (nth j (sc_unique r) 0%Z)) parent 0 in
            let indices := slice perm' (nth j (sc_offsets r) 0) (nth (S j) (sc_offsets r) 0 - nth j (sc_offsets r) 0) in
            let c := for_loop nd (fun k c =>
              for_loop (length indices) (fun q c =>
                for_loop gdim (fun l c =>
                  upd c (i * (nq * ml * nd * gdim) + link * nd * gdim * nq + k * gdim * nq + nth q indices 0 * gdim + l)
                        (grad cell (i * nq + nth (nth q indices 0) old 0) k l)) c) c) (snd lc) in
            (S link, c)) (0, c) in
      Some (snd lc, perm')
  end.

(** Contact.cpp:1368-1509 pack_grad_test_functions. *)
Definition pack_grad_test_functions (nf nq ml nd gdim : nat) (facet_map : adj nat) (parent : list nat)
    (facets : list Z) (grad : nat -> nat -> nat -> nat -> A) : option (list A) :=
  option_map fst (for_loop nf (fun i st =>
    match st with
    | None => None
    | Some s => grad_facet nq ml nd gdim parent grad i (qp_sub_cells facet_map (slice facets (i * nq) nq)) s
    end) (Some (repeat zero (nf * nq * ml * nd * gdim), repeat 0 nq))).
End Tables.

(** ** Expansion of a function on the opposite surface *)

(** Contact.cpp:927-930, 1595-1598: copy the cell's expansion coefficients into
    the work vector. *)
Definition gather (bs : nat) (dofs : list nat) (u : list R) (coefficients : list R) : list R :=
  for_loop (length dofs) (fun j w =>
    for_loop bs (fun k w => upd w (bs * j + k) (nth (bs * nth j dofs 0 + k) u 0%R)) w) coefficients.

(** Contact.cpp:819-950 pack_u_contact.  [f_to_c]: submesh facet-cell
    connectivity; [u_sub] is the copy of [u] on the submesh (line 847).  The
    value size [m] loop has one iteration (checked at line 878). *)
Definition pack_u_contact (nf nq nd bs n_sub nds : nat) (parent : list nat) (f_to_c : nat -> list nat)
    (dofs_sub dofs_parent : nat -> list nat) (u : list R) (facets : list Z) (basis : nat -> nat -> R) : list R :=
  let u_sub := copy_function 0%R bs n_sub parent dofs_sub dofs_parent u (repeat 0%R (bs * nds)) in
  fst (for_loop nf (fun i st =>
    for_loop nq (fun q st =>
      let f := nth (i * nq + q) facets 0%Z in
      if Z.ltb f 0 then st
      else
        let cell := hd 0 (f_to_c (Z.to_nat f)) in
        let w := gather bs (dofs_sub cell) u_sub (snd st) in
        (for_loop bs (fun k c =>
           for_loop nd (fun l c =>
             addto c (nq * bs * i + q * bs + k) (nth (bs * l + k) w 0 * basis (nq * i + q)%nat l)%R) c) (fst st), w)) st)
    (repeat 0%R (nf * nq * bs), repeat 0%R (nd * bs))).

(** Contact.cpp:1511-1620 pack_grad_u_contact: parent cells and dofs directly. *)
Definition pack_grad_u_contact (nf nq nd bs gdim : nat) (facet_map : adj nat) (parent : list nat)
    (dofs_parent : nat -> list nat) (u : list R) (facets : list Z) (grad : nat -> nat -> nat -> nat -> R) : list R :=
  fst (for_loop nf (fun i st =>
    for_loop nq (fun q st =>
      let f := nth (i * nq + q) facets 0%Z in
      if Z.ltb f 0 then st
      else
        let cell := nth (sub_cell facet_map (Z.to_nat f)) parent 0 in
        let w := gather bs (dofs_parent cell) u (snd st) in
        (for_loop bs (fun k c =>
           for_loop gdim (fun j c =>
             for_loop nd (fun l c =>
               addto c (nq * bs * gdim * i + q * bs * gdim + k * gdim + j)
                     (nth (bs * l + k) w 0 * grad cell (nq * i + q)%nat l j)%R) c) c) (fst st), w)) st)
    (repeat 0%R (nf * (nq * bs * gdim)), repeat 0%R (nd * bs))).
