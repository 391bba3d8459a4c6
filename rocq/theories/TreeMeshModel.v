(** Model of the Christmas tree meshes (meshing/christmas_tree.py): the jagged
    curve, the outlines of the two bodies and the groups of boundary lines or
    surfaces that become mesh tags.  gmsh itself is not modelled: a point, line
    or surface is the number gmsh returns for it. *)
From Coq Require Import List Arith Reals.
Import ListNotations.
From Verif Require Import Prelude.

(** ** jagged_curve *)
Section Jagged.
  (** The curve: [f x] is the expression for [y] (christmas_tree.py:38-41). *)
  Variable f : R -> R.
  Variables dx xmax : R.

  (** christmas_tree.py:36-43, the inner loop, with
      the trial increment [xp].  [ds] is 4*dx at first, so the first pass is
      always made (for dx > 0).  [fuel] bounds the passes: [None] means the loop
      has not ended yet. *)
  Fixpoint next_point (fuel : nat) (xlast ylast xp : R) : option (R * R) :=
    match fuel with
    | 0%nat => None
    | S fuel' =>
        let x := (xlast + xp)%R in
        let y := f x in
        let ds := sqrt ((y - ylast) * (y - ylast) + (x - xlast) * (x - xlast)) in
        if Rlt_dec (2 * dx) ds then next_point fuel' xlast ylast (xp * (8 / 10))%R
        else Some (x, y)
    end.

  (** christmas_tree.py:31-46, the outer loop; points are collected in order. *)
  Fixpoint jagged_loop (fuel inner : nat) (xlast ylast : R) : option (list (R * R)) :=
    match fuel with
    | 0%nat => None
    | S fuel' =>
        if Rlt_dec xlast xmax then
          match next_point inner xlast ylast dx with
          | None => None
          | Some (x, y) => option_map (cons (xlast, ylast)) (jagged_loop fuel' inner x y)
          end
        else Some [(xlast, ylast)]
    end.
End Jagged.

(** christmas_tree.py:38-41. *)
Definition tree_function (t : R) (r0 r1 : R -> R) (x : R) : R :=
  (r0 x * atan (t * sin (PI * x) / (1 - t * cos (PI * x))) / t + r1 x * x)%R.

(** christmas_tree.py:25-48 jagged_curve, started at (0, 0). *)
Definition jagged_curve (fuel inner : nat) (npoints : nat) (t : R) (r0 r1 : R -> R) (xmax : R) : option (list (R * R)) :=
  jagged_loop (tree_function t r0 r1) (xmax / INR npoints)%R xmax fuel inner 0%R 0%R.

(** ** Outlines *)

(** christmas_tree.py:20, 85 and 130: Python's [ps[i - 1]] for the entry before
    [i], the last one for [i = 0]. *)
Definition before (n i : nat) : nat := match i with 0%nat => (n - 1)%nat | S j => j end.

(** christmas_tree.py:14-22 create_closed_curve: line [i] joins the points with
    these positions. *)
Definition closed_lines (n : nat) : list (nat * nat) := map (fun i => (before n i, i)) (seq 0 n).

(** christmas_tree.py:66-72 and 174-180: first coordinates of the outline of the
    tree; [x]: the curve, [xb]: the bottom. *)
Definition tree_outline {A} (x xb : list A) : list A := tl x ++ removelast (tl xb) ++ rev (tl x).

(** christmas_tree.py:118-119 and 212-213: first coordinates of the outline of the
    surrounding body. *)
Definition box_outline {A} (xh x xf xg : list A) : list A :=
  xh ++ rev x ++ x ++ xh ++ rev xf ++ xg ++ xf.

(** ** Groups *)

(** Python's [l[a:b]] for nonnegative bounds (christmas_tree.py:87-119). *)
Definition span_of {A} (a b : nat) (l : list A) : list A := firstn (b - a) (skipn a l).

(** christmas_tree.py:93 and 188: lines (or side surfaces) on the tree itself;
    [lx], [lb]: lengths of the curve and of the bottom. *)
Definition tree_inner {A} (lx lb : nat) (items : list A) : list A :=
  skipn (lx + lb - 2) items ++ firstn (lx - 1) items.
(** christmas_tree.py:94 and 189. *)
Definition tree_bottom {A} (lx lb : nat) (items : list A) : list A := span_of (lx - 1) (lx + lb - 2) items.

(** christmas_tree.py:95-100 (base 5) and 190-195 (base 4): (tag, members). *)
Definition inner_groups {A} (base split : nat) (inner : list A) : list (nat * list A) :=
  let n := (length inner / split)%nat in
  map (fun i => ((base + i + 1)%nat, span_of (i * n) ((i + 1) * n) inner)) (seq 0 (split - 1))
  ++ [((base + split)%nat, skipn ((split - 1) * n) inner)].

(** christmas_tree.py:138 and 218. *)
Definition tree_outer {A} (lh lx : nat) (items : list A) : list A := span_of (lh + 1) (lh + 2 * lx) items.

(** christmas_tree.py:141-152 (base 5) and 223-232 (base 4); [n]: the number of
    items in a piece of the inner surface. *)
Definition outer_groups {A} (base split n : nat) (outer : list A) : list (nat * list A) :=
  map (fun i =>
    let start := if (i =? 0)%nat then 0%nat else (i * n + 1)%nat in
    let stop := if (i =? split - 1)%nat then length outer else ((i + 1) * n + 1)%nat in
    ((base + split + i + 1)%nat, span_of start stop outer)) (seq 0 split).

(** christmas_tree.py:219, two dimensions. *)
Definition box_lines {A} (lh lx : nat) (items : list A) : list A :=
  firstn (lh + 1) items ++ skipn (lh + 2 * lx) items.
(** christmas_tree.py:139, three dimensions. *)
Definition box_surfaces {A} (lh lx : nat) (items : list A) : list A :=
  firstn lh items ++ skipn (1 + lh + 2 * lx) items.

(** christmas_tree.py:184-232: the groups of dimension 1 made by
    create_christmas_tree_mesh, in the order of the calls; [None]: division by
    zero for [split = 0]. *)
Definition tree_groups_2d {A} (split lx lb lh : nat) (lines1 lines2 : list A) : option (list (nat * list A)) :=
  match split with
  | 0%nat => None
  | _ =>
      let inner := tree_inner lx lb lines1 in
      Some (inner_groups 4 split inner ++ [(3%nat, tree_bottom lx lb lines1)]
            ++ [(4%nat, box_lines lh lx lines2)]
            ++ outer_groups 4 split (length inner / split) (tree_outer lh lx lines2))
  end.

(** christmas_tree.py:93-152: the groups of dimension 2 made by
    create_christmas_tree_mesh_3D; [front], [back]: the two plane faces of the
    tree (lines 87-88). *)
Definition tree_groups_3d {A} (split lx lb lh : nat) (sides1 sides2 : list A) (front back : A) : option (list (nat * list A)) :=
  match split with
  | 0%nat => None
  | _ =>
      let inner := tree_inner lx lb sides1 in
      Some (inner_groups 5 split inner ++ [(3%nat, tree_bottom lx lb sides1)] ++ [(5%nat, [front; back])]
            ++ [(4%nat, box_surfaces lh lx sides2)]
            ++ outer_groups 5 split (length inner / split) (tree_outer lh lx sides2))
  end.

(** ** Surfaces of an extruded outline *)

(** Lines of the front outline, of the back outline and between them
    (christmas_tree.py:76-82 and 121-127). *)
Inductive edge := front_line (i : nat) | back_line (i : nat) | cross_line (i : nat).
(** End points: (in the back outline?, position) (christmas_tree.py:184-232). *)
Definition edge_ends (n : nat) (e : edge) : (bool * nat) * (bool * nat) :=
  match e with
  | front_line i => ((false, before n i), (false, i))
  | back_line i => ((true, before n i), (true, i))
  | cross_line i => ((false, i), (true, i))
  end.
(** christmas_tree.py:83-86 and 128-131: the curve loop of side [i]; [true]: the
    line is taken against its direction (negative number). *)
Definition side_loop (n i : nat) : list (edge * bool) :=
  [(front_line i, false); (cross_line i, false); (back_line i, true); (cross_line (before n i), true)].
(** christmas_tree.py:87-89 and 132-134: the faces of the surface loop. *)
Definition body_faces (n : nat) : list (list (edge * bool)) :=
  map (fun i => (front_line i, false)) (seq 0 n) ::
  map (side_loop n) (seq 0 n) ++ [map (fun i => (back_line i, false)) (seq 0 n)].
