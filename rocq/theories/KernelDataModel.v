(** Model of the construction of the data shared by all kernels (KernelData), of the dispatch
    on cell type and dimensions, and of the array shapes handed to Python. *)
From Coq Require Import List Arith Lia Bool Reals.
Import ListNotations.
From Verif Require Import Prelude RSum RayModel LayoutModel QuadratureModel KernelModel MeshTieModel.
Local Open Scope R_scope.

(** dolfinx::mesh::CellType, as tested by error_handling.cpp:10-18. *)
Inductive mesh_cell := PointCell | IntervalCell | TriangleCell | QuadrilateralCell | TetrahedronCell | HexahedronCell | PrismCell | PyramidCell.
(** dolfinx::mesh::cell_dim, the dimension of the mesh's topology read in KernelData.cpp:10-88. *)
Definition cell_dim (c : mesh_cell) : nat :=
  match c with PointCell => 0 | IntervalCell => 1 | TriangleCell | QuadrilateralCell => 2 | _ => 3 end.
(** error_handling.h:17-19 and error_handling.cpp:10-18 check_cell_type: true if nothing is thrown. *)
Definition check_cell_type (c : mesh_cell) : bool :=
  match c with PrismCell | PyramidCell | IntervalCell => false | _ => true end.

(** What is thrown by KernelData.cpp:10-88 and utils.cpp:985-1129. *)
Inductive refusal := UnsupportedCell | NeedsTransformations | ValueSize | InvalidGdim | InvalidTdim | UnsupportedMode.
(** The value made, or the exception thrown (KernelData.cpp:10-88). *)
Inductive outcome (A : Type) := Made (a : A) | Refused (r : refusal).
Arguments Made {A} a.
Arguments Refused {A} r.

(** ** Tables *)
(** A four-dimensional array in one vector, the last index running fastest; the layout that
    FiniteElement::tabulate and CoordinateElement::tabulate fill
    (shape from tabulate_shape), called in KernelData.cpp:10-88. *)
Definition fill4 (n0 n1 n2 n3 : nat) (f : nat -> nat -> nat -> nat -> R) : list R :=
  flat_map (fun i => flat_map (fun j => flat_map (fun k => map (fun l => f i j k l) (seq 0 n3)) (seq 0 n2)) (seq 0 n1)) (seq 0 n0).
(** mdspan_t<const double, 4>(data, {_, n1, n2, n3})(i, j, k, l) (KernelData.h:79, 88, 98). *)
Definition span4 (data : list R) (n1 n2 n3 i j k l : nat) : R := nth (((i * n1 + j) * n2 + k) * n3 + l) data 0.

(** What is read from a function space and its mesh.  [fs_tabulate d X j c]: derivative [d] (0:
    value, [a + 1]: in direction [a]) of component [c] of basis function [j] of the element at the reference
    point [X]; [fs_geometry d X a]: the same for the coordinate element (KernelData.cpp:10-88). *)
Record function_space := {
  fs_cell : mesh_cell; fs_gdim : nat; fs_bs : nat; fs_value_size : nat; fs_transformations : bool;
  fs_ndofs : nat; fs_dim : nat; fs_components : nat;
  fs_tabulate : nat -> (nat -> R) -> nat -> nat -> R;
  fs_affine : bool; fs_nodes : nat; fs_geometry : nat -> (nat -> R) -> nat -> R;
  fs_ref_jacobians : nat -> matrix; fs_ref_normals : nat -> nat -> R; fs_inverse : matrix -> matrix; fs_determinant : matrix -> R }.

(** Point [q] of the flat list of points, [tdim] numbers each (KernelData.cpp:10-88, the cmdspan of the points). *)
Definition flat_point (tdim : nat) (pts : list R) (q k : nat) : R := nth (q * tdim + k) pts 0.

(** KernelData.cpp:10-88, the constructor, with the accessors of KernelData.h:66-108: the checks
    in their order, then the tables.  facet_jacobians and facet_outward_normals of basix are
    taken as data of the space. *)
Definition make_kernel_data (V : function_space) (rule : qrule) (cstrides : list nat) : outcome kernel_data :=
  let tdim := cell_dim (fs_cell V) in
  if negb (check_cell_type (fs_cell V)) then Refused UnsupportedCell
  else if fs_transformations V then Refused NeedsTransformations
  else if negb (fs_value_size V / fs_bs V =? 1)%nat then Refused ValueSize
  else
    let npts := length (qr_weights rule) in
    let point := flat_point tdim (qr_points rule) in
    let basis := fill4 (tdim + 1) npts (fs_dim V) (fs_components V) (fun d q j c => fs_tabulate V d (point q) j c) in
    let c_basis := fill4 (tdim + 1) npts (fs_nodes V) 1 (fun d q a _ => fs_geometry V d (point q) a) in
    Made (mkKernelData (fs_gdim V) tdim (fs_bs V) (fs_ndofs V) (fs_nodes V) (fs_affine V) cstrides
      (fun f => nth f (qr_offset rule) 0%nat)
      (fun q j => span4 basis npts (fs_dim V) (fs_components V) 0 q j 0)
      (fun d q j => span4 basis npts (fs_dim V) (fs_components V) (1 + d) q j 0)
      (fun d q a => span4 c_basis npts (fs_nodes V) 1 (1 + d) q a 0)
      (fun q => nth q (qr_weights rule) 0)
      (fs_ref_jacobians V) (fs_ref_normals V) (fs_inverse V) (fs_determinant V)).

(** ** Distance map *)
(** utils.h:37-41. *)
Inductive contact_mode := ClosestPoint | RayTracing.
(** utils.cpp:985-1129 compute_distance_map: which instance of the search is run, as (mode, tdim, gdim) of
    its template arguments.  The cell type checked is that of the quadrature mesh. *)
Definition distance_map (mode : contact_mode) (cell : mesh_cell) (gdim : nat) : outcome (contact_mode * nat * nat) :=
  let tdim := cell_dim cell in
  if negb (check_cell_type cell) then Refused UnsupportedCell
  else match mode with
  | ClosestPoint =>
      (* utils.cpp:1038-1059 copy to three columns *)
      if negb ((gdim =? 2) || (gdim =? 3))%nat then Refused InvalidGdim
      else if (tdim =? 2)%nat then
        (if (gdim =? 2)%nat then Made (ClosestPoint, 2, 2) else if (gdim =? 3)%nat then Made (ClosestPoint, 2, 3) else Refused UnsupportedMode)%nat
      else if (tdim =? 3)%nat then Made (ClosestPoint, 3, 3)%nat
      else Refused InvalidTdim
  | RayTracing =>
      if (tdim =? 2)%nat then
        (if (gdim =? 2)%nat then Made (RayTracing, 2, 2) else if (gdim =? 3)%nat then Made (RayTracing, 2, 3) else Refused InvalidGdim)%nat
      else if (tdim =? 3)%nat then Made (RayTracing, 3, 3)%nat
      else Refused InvalidTdim
  end.

(** ** Arrays handed to Python *)
(** wrappers.cpp:80-87 QuadratureRule.points() and 88-102 points(i): shape and data. *)
Definition py_points (tdim : nat) (r : qrule) : (nat * nat) * list R := (((length (qr_points r) / tdim)%nat, tdim), qr_points r).
Definition py_points_of (tdim : nat) (r : qrule) (i : nat) : (nat * nat) * list R :=
  let rows := qr_num_points r i in
  ((rows, tdim), for_loop rows (fun q l => for_loop tdim (fun c l => upd l (q * tdim + c) (nth (q * tdim + c) (qr_points_of tdim r i) 0)) l) (repeat 0 (rows * tdim))).
(** wrappers.cpp:103-110 weights() and weights(i). *)
Definition py_weights (r : qrule) : list R := qr_weights r.
Definition py_weights_of (r : qrule) (i : nat) : list R := qr_weights_of r i.
(** wrappers.cpp:128-143: the rows of a packed array; an empty stride gives no rows. *)
Definition py_packed (p : list R * nat) : (nat * nat) * list R := (((if snd p =? 0 then 0 else length (fst p) / snd p)%nat, snd p), fst p).
(** wrappers.cpp:392-399 MeshTie.coeffs(pair) with MeshTie.cpp:533-539.  None: integer division by zero,
    which is undefined.  The pair is taken to exist. *)
Definition py_coeffs (s : tie_state) (pair : nat) : option ((nat * nat) * list R) :=
  if (cstride s =? 0)%nat then None else Some (((length (nth pair (coeffs s) []) / cstride s)%nat, cstride s), nth pair (coeffs s) []).
