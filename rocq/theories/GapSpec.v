(** What the theorems about contact geometry are about.  Independent of the
    functions of the model. *)
From Coq Require Import List Arith ZArith Bool Reals.
Import ListNotations.
From Verif Require Import Prelude RSum RayModel KernelModel DistanceModel.
Local Open Scope R_scope.

(** Coordinate [k] of node [j] of a cell. *)
Definition node (m : mesh_data) (cell j k : nat) : R := nth (3 * nth j (m_x_dofmap m cell) 0 + k)%nat (m_x m) 0.
(** The map from the reference cell to a cell, and its derivative. *)
Definition geometry_map (m : mesh_data) (cell : nat) (X : list R) (k : nat) : R := rsum (m_nodes m) (fun j => m_phi m X j * node m cell j k).
Definition geometry_jacobian (m : mesh_data) (cell : nat) (X : list R) : matrix := fun i j => rsum (m_nodes m) (fun a => m_dphi m X j a * node m cell a i).

(** Dimensions the code is instantiated for. *)
Definition dimensions (m : mesh_data) : Prop :=
  (m_tdim m = 2%nat /\ m_gdim m = 2%nat) \/ (m_tdim m = 3%nat /\ m_gdim m = 3%nat) \/ (m_tdim m = 2%nat /\ m_gdim m = 3%nat).
(** The derivative has independent columns: nonzero determinant, or nonzero area
    for surfaces in space. *)
Definition nonsingular (m : mesh_data) (J : matrix) : Prop :=
  if (m_gdim m =? m_tdim m)%nat
  then (if (m_tdim m =? 3)%nat then det3 J <> 0 else det 2 J <> 0)
  else det 2 (gram 3 J) <> 0.

(** Meshes of straight triangles or tetrahedra: the first basis function is
    1 - X1 - ... , the others are the coordinates. *)
Record linear_simplices (m : mesh_data) : Prop := {
  ls_dims : dimensions m;
  ls_nodes : m_nodes m = S (m_tdim m);
  ls_affine : m_affine m = true;
  ls_phi_0 : forall X, m_phi m X 0 = 1 - rsum (m_tdim m) (fun j => nth j X 0);
  ls_phi_S : forall X j, (j < m_tdim m)%nat -> m_phi m X (S j) = nth j X 0;
  ls_dphi_0 : forall X d, (d < m_tdim m)%nat -> m_dphi m X d 0 = - 1;
  ls_dphi_S : forall X d j, (d < m_tdim m)%nat -> (j < m_tdim m)%nat -> m_dphi m X d (S j) = if (j =? d)%nat then 1 else 0 }.

(** Convex hull of points in space. *)
Definition in_hull (points : list (list R)) (y : list R) : Prop :=
  exists w : nat -> R, (forall l, (l < length points)%nat -> 0 <= w l) /\ rsum (length points) w = 1 /\
    forall k, (k < 3)%nat -> nth k y 0 = rsum (length points) (fun l => w l * nth k (nth l points []) 0).
Definition distance2 (p y : list R) : R := rsum 3 (fun k => (nth k y 0 - nth k p 0) * (nth k y 0 - nth k p 0)).
(** The vertices of local facet [f] of a cell, in space. *)
Definition facet_points (m : mesh_data) (cell f : nat) : list (list R) :=
  map (fun j => map (node m cell j) (seq 0 3)) (m_closure m f).

(** The searches of DOLFINx do what their documentation says: the vector to a
    nearest point of the hull of [n] points, and a facet at least as close as every
    other one. *)
Definition gjk_exact (n : nat) (gjk : list (list R) -> list R -> list R) : Prop :=
  forall points p, length points = n -> length p = 3%nat ->
    let y := map (fun k => nth k p 0 + nth k (gjk points p) 0) (seq 0 3) in
    in_hull points y /\ forall z, in_hull points z -> distance2 p y <= distance2 p z.
(** [hulls f]: the points of facet [f]. *)
Definition closest_exact (hulls : nat -> list (list R)) (closest_entity : list nat -> list R -> nat) (facets : list nat) : Prop :=
  forall p, length p = 3%nat -> In (closest_entity facets p) facets /\
    forall f z, In f facets -> in_hull (hulls f) z -> exists y, in_hull (hulls (closest_entity facets p)) y /\ distance2 p y <= distance2 p z.

(** A facet of the surface, as a (cell, local facet) pair: [facet_index c f] is the
    index of the facet, which belongs to no other cell. *)
Definition facet_index (m : mesh_data) (cell f : nat) : nat := nth f (m_c_to_f m cell) 0%nat.
Record surface_facet (m : mesh_data) (cell f : nat) : Prop := {
  sf_local : (f < length (m_c_to_f m cell))%nat;
  sf_distinct : NoDup (m_c_to_f m cell);
  sf_owner : m_f_to_c m (facet_index m cell f) = [cell];
  sf_range : forall j, In j (m_closure m f) -> (3 * nth j (m_x_dofmap m cell) 0 + 3 <= length (m_x m))%nat }.
(** Reference facets have equally many vertices, among those of the cell; in two
    dimensions the third coordinate is zero. *)
Record facet_tables (m : mesh_data) : Prop := {
  ft_size : forall f, length (m_closure m f) = length (m_closure m 0);
  ft_some : (0 < length (m_closure m 0))%nat;
  ft_nodes : forall f j, In j (m_closure m f) -> (j < m_nodes m)%nat;
  ft_planar : m_gdim m = 2%nat -> forall cell j, node m cell j 2 = 0 }.

(** [n] is a unit vector, orthogonal to the image of the reference facet (the
    vectors orthogonal to [ref]), and points out of the cell: positive along the
    image of every vector with which the reference outward normal is positive. *)
Definition outward_unit_normal (m : mesh_data) (J : matrix) (ref n : nat -> R) : Prop :=
  rsum (m_gdim m) (fun i => n i * n i) = 1 /\
  (forall t, rsum (m_tdim m) (fun k => ref k * t k) = 0 -> rsum (m_gdim m) (fun i => n i * rsum (m_tdim m) (fun k => J i k * t k)) = 0) /\
  (forall v, 0 < rsum (m_tdim m) (fun k => ref k * v k) -> 0 < rsum (m_gdim m) (fun i => n i * rsum (m_tdim m) (fun k => J i k * v k))).
Definition nonzero (m : mesh_data) (ref : nat -> R) : Prop := exists a, (a < m_tdim m)%nat /\ ref a <> 0.
