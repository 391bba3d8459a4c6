(** Model of the intersection of a ray with a facet (cpp/RayTracing.h) (the switch at RayTracing.h:427-541). *)
From Coq Require Import List Arith ZArith Lia Bool Reals.
Import ListNotations.
From Verif Require Import Prelude RSum CropModel GeomModel.
Local Open Scope R_scope.

Inductive cell_type := Triangle | Quadrilateral | Tetrahedron | Hexahedron | OtherCell.
(** [RayInvalid]: std::invalid_argument (RayTracing.cpp:11-57). *)
Inductive ray_result (A : Type) := RayOk (a : A) | RayInvalid.
Arguments RayOk {A} _.
Arguments RayInvalid {A}.

(** Matrices are functions of row and column; sums stand for the accumulation
    loops from zero (Geom/RSum: equal over the reals) (RayTracing.h:287-372). *)
Definition matrix : Type := nat -> nat -> R.
(** dolfinx::math::det of a square matrix of size 1 or 2 (called at RayTracing.h:338). *)
Definition det (n : nat) (A : matrix) : R :=
  if (n =? 1)%nat then A 0%nat 0%nat else A 0%nat 0%nat * A 1%nat 1%nat - A 0%nat 1%nat * A 1%nat 0%nat.
(** dolfinx::math::inv for size 1 or 2 (called at RayTracing.h:349). *)
Definition inv (n : nat) (A : matrix) : matrix := fun i j =>
  if (n =? 1)%nat then 1 / A 0%nat 0%nat
  else let idet := 1 / det 2 A in
    match i, j with
    | O, O => idet * A 1%nat 1%nat
    | O, _ => - idet * A 0%nat 1%nat
    | _, O => - idet * A 1%nat 0%nat
    | _, _ => idet * A 0%nat 0%nat
    end.
(** dolfinx::math::pinv of a matrix of two rows and one column (called at RayTracing.h:351). *)
Definition pinv (A : matrix) : matrix := fun i j =>
  1 / (A 0%nat 0%nat * A 0%nat 0%nat + A 1%nat 0%nat * A 1%nat 0%nat) * A j 0%nat.

(** The part of NewtonStorage the caller reads back, and the status (RayTracing.h:241-402). *)
Record ray_state := { rs_status : Z; rs_xi : list R; rs_X : list R; rs_x : list R }.

Section Cell.
  Context (tdim gdim : nat) (max_iter : nat) (tol : R) (ct : cell_type).
  (** reference_map; the coordinate element of the cell: push forward of a
      reference point and Jacobian there; dxi, the facet Jacobian (RayTracing.h:290-343). *)
  Context (refmap : list R -> list R) (push : list R -> list R) (jac : list R -> matrix) (dxi : matrix).
  Context (point : list R) (tangents : list (list R)).
  Definition tangent (i l : nat) : R := nth l (nth i tangents []) 0.

  (** RayTracing.h:302-306 Gk. *)
  Definition residual (x : list R) : nat -> R := fun j => rsum gdim (fun i => (nth i x 0 - nth i point 0) * tangent j i).
  (** RayTracing.h:308-327: dGk_tmp = J dxi and dGk. *)
  Definition facet_derivative (X : list R) : matrix := fun l j => rsum tdim (fun k => jac X l k * dxi k j).
  Definition residual_derivative (X : list R) : matrix := fun i j => rsum gdim (fun l => facet_derivative X l j * tangent i l).
  (** RayTracing.h:329-345. *)
  Definition derivative_det (D : matrix) : R :=
    if negb (gdim =? tdim)%nat && (gdim =? 3)%nat && (tdim =? 2)%nat
    then sqrt (D 0%nat 0%nat * D 0%nat 0%nat + D 1%nat 0%nat * D 1%nat 0%nat)
    else det (gdim - 1) D.
  (** RayTracing.h:347-357. *)
  Definition derivative_inv (D : matrix) : matrix := if (gdim =? tdim)%nat then inv (gdim - 1) D else pinv D.
  Definition newton_step (D : matrix) (G : nat -> R) : list R :=
    map (fun i => rsum (gdim - 1) (fun j => derivative_inv D i j * G j)) (seq 0 (tdim - 1)).

  (** RayTracing.h:287-372, the loop; [n] iterations are left. *)
  Fixpoint ray_newton (n : nat) (s : ray_state) : ray_state :=
    match n with
    | O => s
    | S n =>
        let X := refmap (rs_xi s) in
        let x := push X in
        let G := residual x in
        let D := residual_derivative X in
        if rlt (Rabs (derivative_det D)) tol then {| rs_status := (-2)%Z; rs_xi := rs_xi s; rs_X := X; rs_x := x |}
        else
          let d := newton_step D G in
          if rlt (rsum (tdim - 1) (fun i => nth i d 0 * nth i d 0)) (tol * tol)
          then {| rs_status := 1%Z; rs_xi := rs_xi s; rs_X := X; rs_x := x |}
          else ray_newton n {| rs_status := rs_status s; rs_xi := map (fun i => nth i (rs_xi s) 0 - nth i d 0) (seq 0 (tdim - 1)); rs_X := X; rs_x := x |}
    end.

  (** RayTracing.h:373-400: outside the reference facet. *)
  Definition outside (xi : list R) : ray_result bool :=
    match ct with
    | Tetrahedron => RayOk (rlt (nth 0 xi 0) (- tol) || rlt (1 + tol) (nth 0 xi 0) || rlt (nth 1 xi 0) (- tol) || rlt (1 - nth 0 xi 0 + tol) (nth 1 xi 0))
    | Hexahedron => RayOk (rlt (nth 0 xi 0) (- tol) || rlt (1 + tol) (nth 0 xi 0) || rlt (nth 1 xi 0) (- tol) || rlt (1 + tol) (nth 1 xi 0))
    | Triangle | Quadrilateral => RayOk (rlt (nth 0 xi 0) (- tol) || rlt (1 + tol) (nth 0 xi 0))
    | OtherCell => RayInvalid
    end.

  (** RayTracing.h:241-402 raytracing_cell; [old_X]: the storage on entry (the
      physical point is cleared first). *)
  Definition raytracing_cell (old_X : list R) : ray_result ray_state :=
    if negb ((gdim =? 2)%nat || (gdim =? 3)%nat) || negb ((tdim =? 2)%nat || (tdim =? 3)%nat) then RayInvalid
    else
      let xi0 := if (tdim =? 3)%nat then [1 / 2; 1 / 4] else [1 / 2] in
      let s := ray_newton max_iter {| rs_status := (-1)%Z; rs_xi := xi0; rs_X := old_X; rs_x := repeat 0 gdim |} in
      match outside (rs_xi s) with
      | RayOk true => RayOk {| rs_status := (-3)%Z; rs_xi := rs_xi s; rs_X := rs_X s; rs_x := rs_x s |}
      | RayOk false => RayOk s
      | RayInvalid => RayInvalid
      end.
End Cell.

(** RayTracing.h:503-518: reference_map, from the vertices of the reference facet. *)
Definition reference_map (tdim : nat) (vertex : nat -> nat -> R) (xi : list R) : list R :=
  map (fun i => vertex 0%nat i + rsum (tdim - 1) (fun j => (vertex (j + 1)%nat i - vertex 0%nat i) * nth j xi 0)) (seq 0 tdim).

(** A mesh as compute_ray uses it (RayTracing.cpp:11-57). *)
Record ray_mesh := { rm_tdim : nat; rm_gdim : nat; rm_type : cell_type;
  (** reference facet: vertices by local facet, facet Jacobians *)
  rm_vertex : nat -> nat -> nat -> R; rm_facet_jac : nat -> matrix;
  (** coordinate map of a cell *)
  rm_push : nat -> list R -> list R; rm_jac : nat -> list R -> matrix }.

(** RayTracing.h:427-541 compute_ray: status, position in [cells] (None is the
    initial value -1), physical point, reference point.  error::check_cell_type
    rejects the cell types raytracing_cell rejects. *)
Section Ray.
  Context (tdim gdim : nat) (max_iter : nat) (tol : R) (m : ray_mesh) (point normal : list R).
  Definition ray_cell (old_X : list R) (c : nat * nat) : ray_result ray_state :=
    raytracing_cell tdim gdim max_iter tol (rm_type m) (reference_map tdim (rm_vertex m (snd c))) (rm_push m (fst c)) (rm_jac m (fst c)) (rm_facet_jac m (snd c))
      point (compute_tangents gdim normal) old_X.
  Fixpoint ray_loop (idx : nat) (cells : list (nat * nat)) (s : ray_state) : ray_result (ray_state * option nat) :=
    match cells with
    | [] => RayOk (s, None)
    | c :: rest =>
        match ray_cell (rs_X s) c with
        | RayInvalid => RayInvalid
        | RayOk s' => if Z.ltb 0 (rs_status s') then RayOk (s', Some idx) else ray_loop (S idx) rest s'
        end
    end.
  Definition compute_ray (cells : list (nat * nat)) : ray_result (ray_state * option nat) :=
    if negb (rm_tdim m =? tdim)%nat || negb (rm_gdim m =? gdim)%nat then RayInvalid
    else match rm_type m with
      | OtherCell => RayInvalid
      | _ => ray_loop 0 cells {| rs_status := (-1)%Z; rs_xi := repeat 0 (tdim - 1); rs_X := repeat 0 tdim; rs_x := repeat 0 gdim |}
      end.
End Ray.

(** RayTracing.cpp:11-57 raytracing: dispatch on the dimensions; otherwise the
    output is left default constructed (status 0, index 0, empty points), here None. *)
Definition raytracing (max_iter : nat) (tol : R) (m : ray_mesh) (point normal : list R) (cells : list (nat * nat)) : option (ray_result (ray_state * option nat)) :=
  if (rm_tdim m =? 2)%nat then
    if (rm_gdim m =? 2)%nat then Some (compute_ray 2 2 max_iter tol m point normal cells)
    else if (rm_gdim m =? 3)%nat then Some (compute_ray 2 3 max_iter tol m point normal cells)
    else None
  else if (rm_tdim m =? 3)%nat then Some (compute_ray 3 3 max_iter tol m point normal cells)
  else None.
