(** Model of small geometric and material helpers: Lamé parameters,
    circumradius, ray tangents, quadrature slices. *)
From Coq Require Import List Arith Lia Bool Reals.
Import ListNotations.
From Verif Require Import Prelude RSum CropModel.
Local Open Scope R_scope.

(** helpers.py:54-74 lame_parameters. *)
Definition lame_mu (E nu : R) : R := E / (2 * (1 + nu)).
Definition lame_lambda (plane_strain : bool) (E nu : R) : R :=
  if plane_strain then E * nu / ((1 + nu) * (1 - 2 * nu)) else E * nu / ((1 + nu) * (1 - nu)).

(** geometric_quantities.cpp:163-239 compute_circumradius; [x v i] is
    coordinate_dofs(v, i), gdim = tdim.  Reference volumes are 1/2 and 1/6. *)
Definition side2 (gdim : nat) (x : nat -> nat -> R) (v w : nat) : R :=
  for_loop gdim (fun i acc => acc + (x v i - x w i) ^ 2) 0.
Definition circumradius_triangle (x : nat -> nat -> R) (detJ : R) : R :=
  let area := 1 / 2 * Rabs detJ in
  sqrt (side2 2 x 0 1) * sqrt (side2 2 x 1 2) * sqrt (side2 2 x 2 0) / (4 * area).
Definition circumradius_tetrahedron (x : nat -> nat -> R) (detJ : R) : R :=
  let cellvolume := Rabs detJ * (1 / 6) in
  let aA := sqrt (side2 3 x 0 1) * sqrt (side2 3 x 2 3) in
  let bB := sqrt (side2 3 x 0 2) * sqrt (side2 3 x 1 3) in
  let cC := sqrt (side2 3 x 0 3) * sqrt (side2 3 x 1 2) in
  sqrt ((aA + bB + cC) * (aA + bB - cC) * (aA - bB + cC) * (- aA + bB + cC)) / (24 * cellvolume).
(** coefficients.cpp:633-641: J(i, j) = x_{j+1, i} - x_{0, i} for the affine
    simplex; its determinant. *)
Definition jac2 (x : nat -> nat -> R) : R :=
  let J i j := x (S j) i - x 0%nat i in J 0%nat 0%nat * J 1%nat 1%nat - J 0%nat 1%nat * J 1%nat 0%nat.
Definition jac3 (x : nat -> nat -> R) : R :=
  let J i j := x (S j) i - x 0%nat i in
  J 0%nat 0%nat * (J 1%nat 1%nat * J 2%nat 2%nat - J 1%nat 2%nat * J 2%nat 1%nat)
  - J 0%nat 1%nat * (J 1%nat 0%nat * J 2%nat 2%nat - J 1%nat 2%nat * J 2%nat 0%nat)
  + J 0%nat 2%nat * (J 1%nat 0%nat * J 2%nat 1%nat - J 1%nat 1%nat * J 2%nat 0%nat).

(** RayTracing.h:53-54: std::max_element with squared values: position of the
    first maximum. *)
Fixpoint max_element_from (l : list R) (i best : nat) (vbest : R) : nat :=
  match l with
  | [] => best
  | v :: rest => if rlt (vbest * vbest) (v * v) then max_element_from rest (S i) i v else max_element_from rest (S i) best vbest
  end.
Definition max_element (l : list R) : nat :=
  match l with [] => 0%nat | v :: rest => max_element_from rest 1 0 v end.

(** RayTracing.h:30-42 normalize, one vector. *)
Definition normalize (v : list R) : list R :=
  let norm := sqrt (for_loop (length v) (fun j norm => norm + nth j v 0 * nth j v 0) 0) in
  map (fun e => e / norm) v.

(** RayTracing.h:50-81 compute_tangents for a normal of length [gdim] (2 or 3). *)
Definition compute_tangents (gdim : nat) (n : list R) : list (list R) :=
  let max_pos := max_element n in
  let indices := filter (fun i => negb (i =? max_pos)%nat) (seq 0 gdim) in
  let t0 := upd (repeat 1 gdim) max_pos 0 in
  let t0 := for_loop (gdim - 1) (fun i t => upd t max_pos (nth max_pos t 0 - nth (nth i indices 0%nat) n 0 / nth max_pos n 0)) t0 in
  let t1 := [nth 1 t0 0 * nth 2 n 0 - nth 2 t0 0 * nth 1 n 0;
             nth 2 t0 0 * nth 0 n 0 - nth 0 t0 0 * nth 2 n 0;
             nth 0 t0 0 * nth 1 n 0 - nth 1 t0 0 * nth 0 n 0] in
  if (gdim =? 3)%nat then [normalize t0; normalize t1] else [normalize t0].
