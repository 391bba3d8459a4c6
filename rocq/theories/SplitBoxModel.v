(** Model of the split-box mesh generators: the outline of each body, the lines and
    surfaces handed to gmsh with their tags, and the merging of the two meshes.
    /repo/python/dolfinx_contact/meshing/split_box.py.  gmsh itself is not modelled: a
    point, line or surface is represented by its position in the list the code builds. *)
From Coq Require Import List Arith Bool.
Import ListNotations.

(** How a call ends; Python exceptions as values (split_box.py:57-144). *)
Inductive outcome (A : Type) := Outline (a : A) | IndexError | ValueError | RuntimeError.
Arguments Outline {A}. Arguments IndexError {A}. Arguments ValueError {A}. Arguments RuntimeError {A}.

(** split_box.py:62-63: np.argwhere(np.array(domain) == a)[0, 0]; no match is an IndexError (None). *)
Fixpoint first_index (a : nat) (l : list nat) : option nat :=
  match l with
  | [] => None
  | x :: r => if x =? a then Some 0 else option_map S (first_index a r)
  end.

(** l[a:b] with non-negative bounds (split_box.py:80-82, 205-206, 254). *)
Definition slice {A} (a b : nat) (l : list A) : list A := firstn (b - a) (skipn a l).

Section Outline.
  Context {P : Type}.

  (** split_box.py:60: [points[node] for node in domain].  Simplified: node numbers are
      naturals, so Python's negative indices do not occur. *)
  Fixpoint corners (points : list P) (domain : list nat) : option (list P) :=
    match domain with
    | [] => Some []
    | d :: r => match nth_error points d, corners points r with
                | Some p, Some ps => Some (p :: ps)
                | _, _ => None
                end
    end.

  (** np.vstack with the curve first: an empty curve is an array of shape (0,), which
      numpy refuses to stack with rows of two entries (split_box.py:67-82). *)
  Definition stack (curve rest : list P) : outcome (list P) :=
    match curve with [] => ValueError | _ => Outline (curve ++ rest) end.

  (** split_box.py:57-86, get_surface_points. *)
  Definition get_surface_points (domain : list nat) (points line_pts : list P) : outcome (list P) :=
    match corners points domain with
    | None => IndexError
    | Some pts =>
      match first_index 4 domain, first_index 5 domain with
      | Some i0, Some i1 =>
        let num_pts := length pts in
        if S i0 =? i1 then
          if i0 =? 0 then stack line_pts (skipn (i1 + 1) pts)
          else if i1 =? num_pts - 1 then stack line_pts (firstn i0 pts)
          else stack line_pts (skipn (i1 + 1) pts ++ firstn i0 pts)
        else if S i1 =? i0 then
          if i1 =? 0 then stack (rev line_pts) (skipn (i0 + 1) pts)
          else if i0 =? num_pts - 1 then stack (rev line_pts) (firstn i1 pts)
          else stack (rev line_pts) (skipn (i0 + 1) pts ++ firstn i1 pts)
        else if (i0 =? 0) && (i1 =? num_pts - 1) then stack (rev line_pts) (slice 1 (num_pts - 1) pts)
        else if (i1 =? 0) && negb (num_pts - 1 =? 0) then stack line_pts (slice 1 (num_pts - 1) pts)
        else RuntimeError
      | _, _ => IndexError
      end
    end.
End Outline.

(** split_box.py:199 (also 251, 332, 428, 432, 479): [addLine(ps[i - 1], ps[i]) for i in range(len(ps))],
    a line being the positions of its two end points; ps[-1] is the last point. *)
Definition outline_lines (n : nat) : list (nat * nat) := map (fun i => ((i + n - 1) mod n, i)) (seq 0 n).

(** split_box.py:204-206, the three one-dimensional groups of create_surface_mesh as
    positions in [lines]: (tags[1], tags[2], tags[3]).  n = len(lines), k = len(line_pts). *)
Definition surface_mesh_groups (n k : nat) : list nat * list nat * list nat :=
  let lines := seq 0 n in
  (nth 0 lines 0 :: skipn k lines, slice 1 (k / 2) lines, slice (k / 2) k lines).

(** What create_tet_mesh hands to a two-dimensional group: the bottom, the top, or the
    side surface raised over line i (split_box.py:430-441, 447-457). *)
Inductive tet_surface := Bottom | Top | Side (i : nat).

(** split_box.py:436-441: the curve loop of side surface i, as signed lines of the bottom,
    the top (second) and the vertical edges; n = len(pts). *)
Inductive tet_line := LowLine (i : nat) | HighLine (i : nat) | Vertical (i : nat).
Definition side_loop (n i : nat) : list (bool * tet_line) :=
  [(true, LowLine i); (true, Vertical i); (false, HighLine i); (false, Vertical ((i + n - 1) mod n))].

(** range(a, b) (split_box.py:448, 452). *)
Definition range (a b : nat) : list nat := seq a (b - a).

(** split_box.py:447-457, the groups of create_tet_mesh; n = len(surfaces).  surfaces[-2]
    and surfaces[-1] are written n - 2 and n - 1 (n >= 2: an outline has the two ends of
    the curve). *)
Definition tet_mesh_groups (n : nat) : list tet_surface * list tet_surface * list tet_surface :=
  ([Bottom; Top; Side 0; Side (n - 2); Side (n - 1)],
   map Side (range 1 ((n - 2) / 2)),
   map Side (range ((n - 2) / 2) (n - 2))).

(** What retrieve_mesh_data returns (split_box.py:89-144): node coordinates, cells and
    marked facets as node positions, and the values of each. *)
Record mesh_data (P : Type) := mkMeshData {
  md_x : list P;
  md_cells : list (list nat);
  md_cell_data : list nat;
  md_facets : list (list nat);
  md_facet_values : list nat
}.
Arguments mkMeshData {P}. Arguments md_x {P}. Arguments md_cells {P}. Arguments md_cell_data {P}.
Arguments md_facets {P}. Arguments md_facet_values {P}.

(** split_box.py:564-568 and 642-646. *)
Definition combine_mesh_data {P} (m m2 : mesh_data P) : mesh_data P :=
  let shift := map (map (fun v => v + length (md_x m))) in
  mkMeshData (md_x m ++ md_x m2)
             (md_cells m ++ shift (md_cells m2))
             (md_cell_data m ++ md_cell_data m2)
             (md_facets m ++ shift (md_facets m2))
             (md_facet_values m ++ md_facet_values m2).

(** split_box.py:240-249, create_unsplit_box_2d: the outline ps1 has n points of which the
    first n - 2 are the curve; p1 and p2 are new points (positions n and n + 1), p3 =
    ps1[-3], p4 = ps1[0], ps2 = [p3, p2, p1, p4]. *)
Definition unsplit_lower_points (n : nat) : list nat := [n - 3; n + 1; n; 0].
(** addLine(ps2[i - 1], ps2[i]) for i in range(1, len(ps2)) (split_box.py:252). *)
Definition path_lines (ps : list nat) : list (nat * nat) :=
  map (fun i => (nth (i - 1) ps 0, nth i ps 0)) (seq 1 (length ps - 1)).
(** split_box.py:251-254: the two curve loops; lines1[1:-2]. *)
Definition unsplit_loops (n : nat) : list (nat * nat) * list (nat * nat) :=
  let lines1 := outline_lines n in
  let lines2 := path_lines (unsplit_lower_points n) in
  (lines1, slice 1 (n - 2) lines1 ++ lines2).
(** split_box.py:259: the outer boundary, [lines1[0]] + lines1[-2:] + lines2. *)
Definition unsplit_boundary (n : nat) : list (nat * nat) :=
  let lines1 := outline_lines n in
  firstn 1 lines1 ++ skipn (n - 2) lines1 ++ path_lines (unsplit_lower_points n).
