(** Model of QuadratureRule (QuadratureRule.cpp) and the weight slices of
    KernelData. *)
From Coq Require Import List Arith Lia Bool Reals.
Import ListNotations.
From Verif Require Import Prelude RSum.
Local Open Scope R_scope.

(** Observable members of a quadrature rule: flat points (tdim per point),
    weights, entity offsets (QuadratureRule.h:78-110). *)
Record qrule := { qr_points : list R; qr_weights : list R; qr_offset : list nat }.

(** QuadratureRule.cpp:29-54, branch dim == tdim.  A cell has one sub-entity of
    its own dimension; [qp], [qw]: the reference rule. *)
Definition qrule_cell (tdim num_sub : nat) (qp qw : list R) : qrule :=
  let num_points := length qw in
  let pts := repeat 0 (num_points * num_sub * tdim) in
  let off := repeat 0%nat (num_sub + 1) in
  let wts := repeat 0 (num_points * num_sub) in
  let '(p, w, o) := for_loop num_sub (fun i s =>
      let '(p, w, o) := s in
      let o := upd o (i + 1) ((i + 1) * num_points)%nat in
      let '(p, w) := for_loop num_points (fun j s =>
          let '(p, w) := s in
          let w := upd w (i * num_points * num_sub + j) (nth j qw 0) in
          let p := for_loop tdim (fun k p => upd p (i * num_points * num_sub + j * tdim + k) (nth (j * tdim + k) qp 0)) p in
          (p, w)) (p, w) in
      (p, w, o)) (pts, wts, off) in
  {| qr_points := p; qr_weights := w; qr_offset := o |}.

(** QuadratureRule.cpp:98-106: push forward of one entity's points: row q,
    column c of phi * coords.  [phi q v]: vertex basis of the entity at its
    points; [coords v c]: reference coordinates of the entity's vertices. *)
Definition push_forward (npts nverts tdim : nat) (phi coords : nat -> nat -> R) : list R :=
  flat_map (fun q => map (fun c => rsum nverts (fun v => phi q v * coords v c)) (seq 0 tdim)) (seq 0 npts).

(** QuadratureRule.cpp:55-116, branch dim < tdim.  [qw i]: weights of entity i;
    [nverts i], [phi i], [coords i]: as above per entity.  _points and _weights
    are grown by resize and filled at the old end. *)
Definition qrule_facets (tdim num_sub : nat) (qw : nat -> list R) (nverts : nat -> nat) (phi coords : nat -> nat -> nat -> R) : qrule :=
  let '(p, w, npe) := for_loop num_sub (fun i s =>
      let '(p, w, npe) := s in
      (p ++ push_forward (length (qw i)) (nverts i) tdim (phi i) (coords i), w ++ qw i, upd npe i (length (qw i))))
    ([], [], repeat 0%nat num_sub) in
  {| qr_points := p; qr_weights := w; qr_offset := psums npe |}.

(** QuadratureRule.cpp:137-141 num_points(i). *)
Definition qr_num_points (r : qrule) (i : nat) : nat := nth (i + 1) (qr_offset r) 0%nat - nth i (qr_offset r) 0%nat.
(** QuadratureRule.cpp:148-156 points(i): rows off[i] .. off[i+1] of the
    (num weights, tdim) array, row by row. *)
Definition qr_points_of (tdim : nat) (r : qrule) (i : nat) : list R :=
  slice (qr_points r) (nth i (qr_offset r) 0%nat * tdim) (qr_num_points r i * tdim).
(** QuadratureRule.cpp:158-163 weights(i). *)
Definition qr_weights_of (r : qrule) (i : nat) : list R := slice (qr_weights r) (nth i (qr_offset r) 0%nat) (qr_num_points r i).
(** KernelData.cpp:13, 118-124: KernelData copies offsets and weights and slices
    them the same way. *)
Definition kd_weights (qp_offsets : list nat) (q_weights : list R) (i : nat) : list R :=
  slice q_weights (nth i qp_offsets 0%nat) (nth (i + 1) qp_offsets 0%nat - nth i qp_offsets 0%nat).
