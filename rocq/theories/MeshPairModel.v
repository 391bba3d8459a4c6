(** Model of the planar mesh generators of contact_meshes.py and of the boxes and
    balls of the spatial ones.  gmsh is modelled as a recorder: points, curves, loops,
    surfaces and physical groups are numbered from 1 in the order of their creation;
    a physical group without a tag gets the largest tag of its dimension plus one;
    getBoundary lists, by number, the curves that bound an odd number of the given
    surfaces.  Mesh sizes, mesh generation and output are not modelled. *)
From Coq Require Import List Arith ZArith Reals.
Import ListNotations.
Local Open Scope R_scope.

(** A point in the plane; the third coordinate is always 0 (contact_meshes.py:40-60). *)
Definition pt := (R * R)%type.
(** A line or a circular arc with its centre (contact_meshes.py:47-72). *)
Record curve := { c_start : nat; c_end : nat; c_centre : option nat }.

(** What gmsh has been told so far (contact_meshes.py:40-80). *)
Record recorder := {
  r_points : list pt;
  r_curves : list curve;
  r_loops : list (list Z);
  r_surfaces : list (list nat);
  r_groups : list (nat * nat * list nat) }.   (* dimension, tag, entities *)
Definition empty : recorder := {| r_points := []; r_curves := []; r_loops := []; r_surfaces := []; r_groups := [] |}.

(** Calls on gmsh: state and result (contact_meshes.py:40-80). *)
Definition cmd (A : Type) := recorder -> A * recorder.
Definition ret {A} (a : A) : cmd A := fun s => (a, s).
Definition bind {A B} (c : cmd A) (f : A -> cmd B) : cmd B := fun s => let '(a, s') := c s in f a s'.
Notation "'do' x <- c ;; d" := (bind c (fun x => d)) (at level 100, c at next level, right associativity).
Notation "c ;;; d" := (bind c (fun _ => d)) (at level 100, right associativity).

(** model.occ.addPoint, addLine, addCircleArc, addCurveLoop, addPlaneSurface
    (contact_meshes.py:42-72). *)
Definition addPoint (x y : R) : cmd nat := fun s =>
  (S (length (r_points s)), {| r_points := r_points s ++ [(x, y)]; r_curves := r_curves s; r_loops := r_loops s; r_surfaces := r_surfaces s; r_groups := r_groups s |}).
Definition addCurve (c : curve) : cmd nat := fun s =>
  (S (length (r_curves s)), {| r_points := r_points s; r_curves := r_curves s ++ [c]; r_loops := r_loops s; r_surfaces := r_surfaces s; r_groups := r_groups s |}).
Definition addLine (a b : nat) : cmd nat := addCurve {| c_start := a; c_end := b; c_centre := None |}.
Definition addCircleArc (a c b : nat) : cmd nat := addCurve {| c_start := a; c_end := b; c_centre := Some c |}.
Definition addCurveLoop (l : list Z) : cmd nat := fun s =>
  (S (length (r_loops s)), {| r_points := r_points s; r_curves := r_curves s; r_loops := r_loops s ++ [l]; r_surfaces := r_surfaces s; r_groups := r_groups s |}).
Definition addPlaneSurface (l : list nat) : cmd nat := fun s =>
  (S (length (r_surfaces s)), {| r_points := r_points s; r_curves := r_curves s; r_loops := r_loops s; r_surfaces := r_surfaces s ++ [l]; r_groups := r_groups s |}).

(** model.addPhysicalGroup with and without a tag (contact_meshes.py:76-81). *)
Definition max_tag (dim : nat) (gs : list (nat * nat * list nat)) : nat :=
  fold_left (fun m g => if (fst (fst g) =? dim)%nat then Nat.max m (snd (fst g)) else m) gs 0%nat.
Definition addGroup (dim : nat) (ents : list nat) (tag : option nat) : cmd unit := fun s =>
  let t := match tag with Some t => t | None => S (max_tag dim (r_groups s)) end in
  (tt, {| r_points := r_points s; r_curves := r_curves s; r_loops := r_loops s; r_surfaces := r_surfaces s; r_groups := r_groups s ++ [(dim, t, ents)] |}).

(** model.getBoundary(surfaces, oriented=False) (contact_meshes.py:79). *)
Definition surface_curves (s : recorder) (f : nat) : list nat :=
  flat_map (fun l => map Z.abs_nat (nth (l - 1) (r_loops s) [])) (nth (f - 1) (r_surfaces s) []).
Definition boundary_of (s : recorder) (fs : list nat) : list nat :=
  filter (fun c => Nat.odd (count_occ Nat.eq_dec (flat_map (surface_curves s) fs) c)) (seq 1 (length (r_curves s))).
Definition getBoundary (fs : list nat) : cmd (list nat) := fun s => (boundary_of s fs, s).

(** The list comprehensions run for their effect (contact_meshes.py:79-80, 146). *)
Fixpoint each {A} (f : A -> cmd unit) (l : list A) : cmd unit :=
  match l with [] => ret tt | a :: l => (f a ;;; each f l) end.

(** [lines = [addLine(ps[i - 1], ps[i]) for i in range(len(ps))]] for four points, with
    Python's ps[-1], and the surface inside (contact_meshes.py:68-71). *)
Definition add_quadrilateral (p0 p1 p2 p3 : nat) : cmd nat :=
  do l0 <- addLine p3 p0 ;; do l1 <- addLine p0 p1 ;; do l2 <- addLine p1 p2 ;; do l3 <- addLine p2 p3 ;;
  do c <- addCurveLoop [Z.of_nat l0; Z.of_nat l1; Z.of_nat l2; Z.of_nat l3] ;; addPlaneSurface [c].

(** contact_meshes.py:63-71 (130-138): the box under the disk. *)
Definition add_box_below (r height length gap : R) : cmd nat :=
  do p0 <- addPoint (- length / 2) (- height - r - gap) ;;
  do p1 <- addPoint (length / 2) (- height - r - gap) ;;
  do p2 <- addPoint (length / 2) (- r - gap) ;;
  do p3 <- addPoint (- length / 2) (- r - gap) ;;
  add_quadrilateral p0 p1 p2 p3.

(** contact_meshes.py:27-100 create_circle_plane_mesh. *)
Definition circle_plane (r height length gap : R) : cmd unit :=
  do c <- addPoint 0 0 ;; do contact_pt <- addPoint 0 (0 - r) ;;
  do left <- addPoint (- r) 0 ;; do right <- addPoint r 0 ;;
  do top_left <- addPoint (- r * cos (PI / 3)) (r * sin (PI / 3)) ;;
  do top_right <- addPoint (r * cos (PI / 3)) (r * sin (PI / 3)) ;;
  do a0 <- addCircleArc left c top_left ;; do a1 <- addCircleArc top_left c top_right ;;
  do a2 <- addCircleArc top_right c right ;; do a3 <- addCircleArc right c left ;;
  do cv <- addCurveLoop [Z.of_nat a0; Z.of_nat a1; Z.of_nat a2; Z.of_nat a3] ;;
  do surface <- addPlaneSurface [cv] ;;
  do surface2 <- add_box_below r height length gap ;;
  addGroup 2 [surface] (Some 1%nat) ;;; addGroup 2 [surface2] (Some 2%nat) ;;;
  do bndry2 <- getBoundary [surface2] ;;
  each (fun b => addGroup 1 [b] None) bndry2 ;;; each (fun a => addGroup 1 [a] None) [a0; a1; a2; a3].

(** contact_meshes.py:103-171 create_halfdisk_plane_mesh. *)
Definition halfdisk_plane (r height length gap : R) : cmd unit :=
  do c <- addPoint 0 0 ;; do pt_refine <- addPoint 0 (- r) ;;
  do left <- addPoint (- r) 0 ;; do right <- addPoint r 0 ;;
  do arc <- addCircleArc right c left ;; do line <- addLine left right ;;
  do cv <- addCurveLoop [Z.of_nat arc; Z.of_nat line] ;;
  do surface <- addPlaneSurface [cv] ;;
  do surface2 <- add_box_below r height length gap ;;
  addGroup 2 [surface] (Some 1%nat) ;;; addGroup 2 [surface2] (Some 2%nat) ;;;
  do bndry2 <- getBoundary [surface2] ;;
  each (fun b => addGroup 1 [b] None) bndry2 ;;; addGroup 1 [arc] None ;;; addGroup 1 [line] None.

(** contact_meshes.py:174-257 create_quarter_disks_mesh. *)
Definition quarter_disks (r gap : R) : cmd unit :=
  do c <- addPoint 0 0 ;; do bottom1 <- addPoint 0 (- r) ;;
  do top_right <- addPoint r 0 ;; do top_left <- addPoint (- r) 0 ;;
  do right1 <- addPoint (r * sin (PI / 6)) (- r * cos (PI / 6)) ;;
  do left1 <- addPoint (- r * sin (PI / 6)) (- r * cos (PI / 6)) ;;
  do a0 <- addCircleArc top_left c left1 ;; do a1 <- addCircleArc left1 c bottom1 ;;
  do a2 <- addCircleArc bottom1 c right1 ;; do a3 <- addCircleArc right1 c top_right ;;
  do line1 <- addLine top_right c ;; do line2 <- addLine c bottom1 ;; do line3 <- addLine top_left c ;;
  do cv1 <- addCurveLoop [Z.of_nat a2; Z.of_nat a3; Z.of_nat line1; Z.of_nat line2] ;;
  do cv2 <- addCurveLoop [(- Z.of_nat line2)%Z; (- Z.of_nat line3)%Z; Z.of_nat a0; Z.of_nat a1] ;;
  do surface <- addPlaneSurface [cv1] ;; do surface2 <- addPlaneSurface [cv2] ;;
  do c2 <- addPoint 0 (0 - 2 * r - gap) ;;
  do bottom_right <- addPoint r (- 2 * r - gap) ;; do bottom_left <- addPoint (- r) (- 2 * r - gap) ;;
  do top2 <- addPoint 0 (- r - gap) ;;
  do right2 <- addPoint (r * sin (PI / 6)) (r * cos (PI / 6) - 2 * r - gap) ;;
  do left2 <- addPoint (- r * sin (PI / 6)) (r * cos (PI / 6) - 2 * r - gap) ;;
  do b0 <- addCircleArc bottom_left c2 left2 ;; do b1 <- addCircleArc left2 c2 top2 ;;
  do b2 <- addCircleArc top2 c2 right2 ;; do b3 <- addCircleArc right2 c2 bottom_right ;;
  do line3' <- addLine top2 c2 ;; do line4 <- addLine c2 bottom_right ;; do line5 <- addLine bottom_left c2 ;;
  do cv3 <- addCurveLoop [Z.of_nat b2; Z.of_nat b3; (- Z.of_nat line4)%Z; (- Z.of_nat line3')%Z] ;;
  do cv4 <- addCurveLoop [Z.of_nat b0; Z.of_nat b1; Z.of_nat line3'; (- Z.of_nat line5)%Z] ;;
  do surface3 <- addPlaneSurface [cv3] ;; do surface4 <- addPlaneSurface [cv4] ;;
  addGroup 2 [surface; surface2] (Some 1%nat) ;;; addGroup 2 [surface3; surface4] (Some 2%nat) ;;;
  do bndry1 <- getBoundary [surface; surface2] ;; each (fun b => addGroup 1 [b] None) bndry1 ;;;
  do bndry2 <- getBoundary [surface3; surface4] ;; each (fun b => addGroup 1 [b] None) bndry2.

(** contact_meshes.py:260-335 sliding_wedges. *)
Definition sliding_wedges (res angle : R) : cmd unit :=
  do bl <- addPoint 0 0 ;; do br <- addPoint 9 0 ;;
  do tl <- addPoint 3 (3 + 9 * tan angle) ;; do tr <- addPoint 6 (3 + 9 * tan angle) ;;
  do cl <- addPoint 0 2 ;; do cr <- addPoint 9 (2 + 9 * tan angle) ;;
  do ctl <- addPoint 3 (2 + 3 * tan angle) ;; do ctr <- addPoint 6 (2 + 6 * tan angle) ;;
  do cbl <- addPoint (3 + 1 * res) (2 + (3 + 1 * res) * tan angle) ;;
  do cbr <- addPoint (6 + 1 / 2 * res) (2 + (6 + 1 / 2 * res) * tan angle) ;;
  do lb1 <- addLine bl br ;; do lb2 <- addLine br cr ;; do lb3 <- addLine cr cbr ;;
  do lb4 <- addLine cbr cbl ;; do lb5 <- addLine cbl cl ;; do lb6 <- addLine cl bl ;;
  do curve1 <- addCurveLoop [Z.of_nat lb1; Z.of_nat lb2; Z.of_nat lb3; Z.of_nat lb4; Z.of_nat lb5; Z.of_nat lb6] ;;
  do lt1 <- addLine ctl ctr ;; do lt2 <- addLine ctr tr ;; do lt3 <- addLine tr tl ;; do lt4 <- addLine tl ctl ;;
  do curve2 <- addCurveLoop [Z.of_nat lt1; Z.of_nat lt2; Z.of_nat lt3; Z.of_nat lt4] ;;
  do surface1 <- addPlaneSurface [curve1] ;; do surface2 <- addPlaneSurface [curve2] ;;
  addGroup 2 [surface2] (Some 1%nat) ;;; addGroup 2 [surface1] (Some 2%nat) ;;;
  do bndry1 <- getBoundary [surface1] ;;
  let b i := nth i bndry1 0%nat in
  addGroup 1 [b 0%nat] None ;;; addGroup 1 [b 1%nat] None ;;;
  addGroup 1 [b 2%nat; b 3%nat; b 4%nat] None ;;; addGroup 1 [b 5%nat] None ;;;
  do bndry2 <- getBoundary [surface2] ;; each (fun b => addGroup 1 [b] None) bndry2.

(** The groups of create_circle_circle_mesh, create_gmsh_box_mesh_2D and
    create_2d_rectangle_split: body 1 and its curves, body 2 and its curves
    (contact_meshes.py:389-395, 477-483, 790-796). *)
Definition two_bodies (surface surface2 : nat) : cmd unit :=
  addGroup 2 [surface] (Some 1%nat) ;;;
  do bndry <- getBoundary [surface] ;; each (fun b => addGroup 1 [b] None) bndry ;;;
  addGroup 2 [surface2] (Some 2%nat) ;;;
  do bndry2 <- getBoundary [surface2] ;; each (fun b => addGroup 1 [b] None) bndry2.

(** contact_meshes.py:355-369 (373-388): a circle in four arcs. *)
Definition add_circle (cx cy r : R) : cmd nat :=
  do c <- addPoint cx cy ;;
  let p angle := addPoint (cx + r * cos angle) (cy + r * sin angle) in
  do p0 <- p (PI / 4) ;; do p1 <- p (- (PI / 4)) ;; do p2 <- p (PI + PI / 4) ;; do p3 <- p (PI - PI / 4) ;;
  do a0 <- addCircleArc p3 c p0 ;; do a1 <- addCircleArc p0 c p1 ;; do a2 <- addCircleArc p1 c p2 ;; do a3 <- addCircleArc p2 c p3 ;;
  do cv <- addCurveLoop [Z.of_nat a0; Z.of_nat a1; Z.of_nat a2; Z.of_nat a3] ;; addPlaneSurface [cv].

(** contact_meshes.py:338-416 create_circle_circle_mesh; the point with tag 17 only steers
    the mesh size and is left out. *)
Definition circle_circle : cmd unit :=
  do surface <- add_circle (1 / 2) (1 / 2) (3 / 10) ;;
  do surface2 <- add_circle (1 / 2) (- (1 / 2)) (2 * (3 / 10)) ;;
  two_bodies surface surface2.

(** contact_meshes.py:419-493 create_gmsh_box_mesh_2D. *)
Definition box_mesh_2D : cmd unit :=
  let length := 1 / 2 in let height := 1 / 2 in let disp := - (6 / 10) in let delta := 1 / 10 in
  do p0 <- addPoint (- delta) 0 ;; do p1 <- addPoint (length - delta) delta ;;
  do p2 <- addPoint (length - delta) (height + delta) ;; do p3 <- addPoint (- delta) height ;;
  do surface <- add_quadrilateral p0 p1 p2 p3 ;;
  do p4 <- addPoint 0 (0 + disp) ;; do p5 <- addPoint length (0 + disp) ;;
  do p6 <- addPoint length (height + disp) ;; do p7 <- addPoint 0 (height + disp) ;;
  do surface2 <- add_quadrilateral p4 p5 p6 p7 ;;
  two_bodies surface surface2.

(** contact_meshes.py:748-809 create_2d_rectangle_split; the two embedded points follow. *)
Definition rectangle_split (res gap : R) : cmd unit :=
  let length := 1 / 2 in let height := 1 / 2 in
  do p0 <- addPoint 0 0 ;; do p1 <- addPoint length 0 ;; do p2 <- addPoint length height ;; do p3 <- addPoint 0 height ;;
  do surface <- add_quadrilateral p0 p1 p2 p3 ;;
  do p4 <- addPoint (length + gap) 0 ;; do p5 <- addPoint (2 * length + gap) 0 ;;
  do p6 <- addPoint (2 * length + gap) height ;; do p7 <- addPoint (length + gap) height ;;
  do surface2 <- add_quadrilateral p4 p5 p6 p7 ;;
  do p8 <- addPoint (2 * length + gap - res / 10) (1 / 2 * height) ;;
  do p9 <- addPoint (2 * length + gap - res / 5) (1 / 2 * height) ;;
  two_bodies surface surface2.

(** Boxes in space, (corner, extents), and balls, (centre, radius): add_box and addSphere
    (contact_meshes.py:496-557, 583-588). *)
Definition box_mesh_3D (gap width offset : R) : (R * R * R * (R * R * R)) * (R * R * R * (R * R * R)) :=
  let length := 1 / 2 in let height := 1 / 2 in let disp := - width - gap in
  ((0, 0 + offset, 0, (length, height, width)), (0, 0, disp, (length, height, width))).
(** contact_meshes.py:560-624 create_sphere_plane_mesh and 812-874 create_halfsphere_box_mesh:
    radius of the ball at the origin, and the box. *)
Definition sphere_plane (r height length width gap : R) : R * (R * R * R * (R * R * R)) :=
  (r, (- length / 2, - width / 2, - height - r - gap, (length, width, height))).
