(** Model of the surfaces of the three-dimensional split boxes: the faces of the bodies made
    by create_tet_mesh, create_hex_mesh and create_unsplit_box_3d, and their groups.
    /repo/python/dolfinx_contact/meshing/split_box.py.  gmsh itself is not modelled: points,
    lines and surfaces are represented by their positions in the lists the code builds. *)
From Coq Require Import List Arith Bool.
Import ListNotations.
From Verif Require Import SplitBoxModel.

(** ** create_tet_mesh *)

(** split_box.py:428-441: the curve loop of each surface; n = len(pts).  [false]: the line is
    taken with a minus sign. *)
Definition tet_face_loop (n : nat) (f : tet_surface) : list (bool * tet_line) :=
  match f with
  | Bottom => map (fun i => (true, LowLine i)) (seq 0 n)
  | Top => map (fun i => (true, HighLine i)) (seq 0 n)
  | Side i => side_loop n i
  end.
(** split_box.py:443: [surface1] + surfaces + [surface2]. *)
Definition tet_shell (n : nat) : list tet_surface := [Bottom] ++ map Side (seq 0 n) ++ [Top].

(** ** create_hex_mesh *)

(** split_box.py:483-486: model.getEntities(2) after the extrusion.  The order is that of
    gmsh's tags (not modelled): the extruded surface, the sides over the lines in the order
    of its curve loop, the copy at height z. *)
Definition hex_surfaces (n : nat) : list tet_surface := Bottom :: map Side (seq 0 n) ++ [Top].
(** surfaces[i] for i in a list of positions (split_box.py:489, 493, 498). *)
Definition picked (surfaces : list tet_surface) (positions : list nat) : list tet_surface :=
  map (fun i => nth i surfaces Bottom) positions.
(** split_box.py:488-500: the groups (tags[1], tags[2], tags[3]). *)
Definition hex_mesh_groups (n : nat) : list tet_surface * list tet_surface * list tet_surface :=
  let surfaces := hex_surfaces n in
  let len := length surfaces in
  (picked surfaces [0; 1; len - 3; len - 2; len - 1],
   picked surfaces (range 2 ((len - 3) / 2)),
   picked surfaces (range ((len - 3) / 2) (len - 3))).

(** ** create_unsplit_box_3d, tetrahedra *)

(** Lines: lines1/lines3 (outline at z = 0 / z = W), lines2/lines4 (path through the lower
    corners at z = 0 / z = W), and the line between the two copies of point k, which is
    lines5[k] for a point of the outline (k < n) and a line of lines6 for the lower corners
    p1, p2 (k = n, n + 1) (split_box.py:332-356). *)
Inductive box_line := Outer (upper : bool) (i : nat) | Lower (upper : bool) (j : nat) | Across (k : nat).

(** End points (is at z = W?, position); ps2, ps4: [unsplit_lower_points]
    (split_box.py:317-356). *)
Definition box_line_ends (n : nat) (l : box_line) : (bool * nat) * (bool * nat) :=
  match l with
  | Outer u i => ((u, (i + n - 1) mod n), (u, i))
  | Lower u j => ((u, nth j (unsplit_lower_points n) 0), (u, nth (S j) (unsplit_lower_points n) 0))
  | Across k => ((false, k), (true, k))
  end.

(** split_box.py:353-356: lines6. *)
Definition lines6 (n : nat) : list box_line := [Across (n - 3); Across (n + 1); Across n; Across 0].

(** Surfaces: surface1 and surface3 (upper body at z = 0, z = W), surface2 and surface4 (lower
    body at z = 0, z = W), surfaces1[i], surfaces2[j] (split_box.py:336-362). *)
Inductive box_face := Plane1 | Plane2 | Plane3 | Plane4 | Sides1 (i : nat) | Sides2 (j : nat).

(** split_box.py:332-333, 339-340: lines1 or lines3, lines2 or lines4. *)
Definition outer_lines (n : nat) (upper : bool) : list box_line := map (Outer upper) (seq 0 n).
Definition lower_lines (n : nat) (upper : bool) : list box_line :=
  map (Lower upper) (seq 0 (length (unsplit_lower_points n) - 1)).

(** split_box.py:334-335, 341-342, 346-350, 357-360: the curve loops; lines1[1:-2] is
    [slice 1 (n - 2)], lines5[i - 1] the previous line, the last one for i = 0. *)
Definition box_face_loop (n : nat) (f : box_face) : list (bool * box_line) :=
  let plus := map (fun l => (true, l)) in
  match f with
  | Plane1 => plus (outer_lines n false)
  | Plane2 => plus (slice 1 (n - 2) (outer_lines n false) ++ lower_lines n false)
  | Plane3 => plus (outer_lines n true)
  | Plane4 => plus (slice 1 (n - 2) (outer_lines n true) ++ lower_lines n true)
  | Sides1 i => [(true, Outer false i); (true, Across i); (false, Outer true i); (false, Across ((i + n - 1) mod n))]
  | Sides2 j => [(true, Lower false j); (true, nth (j + 1) (lines6 n) (Across 0));
                 (false, Lower true j); (false, nth j (lines6 n) (Across 0))]
  end.

(** split_box.py:361-362. *)
Definition surfaces1 (n : nat) : list box_face := map Sides1 (seq 0 n).
Definition surfaces2 (n : nat) : list box_face := map Sides2 (seq 0 (length (unsplit_lower_points n) - 1)).

(** split_box.py:363-364: the surface loops of the two bodies. *)
Definition upper_shell (n : nat) : list box_face := [Plane1] ++ surfaces1 n ++ [Plane3].
Definition lower_shell (n : nat) : list box_face :=
  [Plane2] ++ slice 1 (n - 2) (surfaces1 n) ++ surfaces2 n ++ [Plane4].

(** split_box.py:372-377: the groups of dimension two, (tag, members). *)
Definition unsplit_groups (n : nat) : list (nat * list box_face) :=
  [(2, [Plane1; Plane2; Plane3; Plane4; nth 0 (surfaces1 n) Plane1; nth (n - 1) (surfaces1 n) Plane1] ++ surfaces2 n);
   (3, slice 1 (n - 2) (surfaces1 n))].
