(** Model of ContactProblem.crop_invalid_points: the Python method, the wrapper and
    the C++ routine it is meant to reach. *)
From Coq Require Import List Arith ZArith Bool Reals.
Import ListNotations.
From Verif Require Import Prelude CropModel ContactProblemModel.
Local Open Scope R_scope.

(** A numpy array: its shape and its entries in row-major order (contact_problem.py:450-465). *)
Record nd_array := mkArray { nd_shape : list nat; nd_data : list R }.
(** [coeffs[i][:, a:b]]: numpy keeps both axes (contact_problem.py:450-465). *)
Definition columns (a b : nat) (M : matrix) : nd_array := mkArray [length M; (b - a)%nat] (concat (read_block (a, b) M)).
(** [x.reshape(-1)], not used by the code (compare contact_problem.py:450-465). *)
Definition flat (x : nd_array) : nd_array := mkArray [length (nd_data x)] (nd_data x).

(** How a call ends; Python exceptions as values (contact_problem.py:450-465). *)
Inductive ended := Returned | AttributeError | TypeError.

(** The parts of the object the method reads and writes: whether _num_q_points
    exists (contact_problem.py:263-265), the coefficients and _facet_maps. *)
Record crop_object := mkCropObject { co_ready : bool; co_coeffs : list matrix; co_maps : list (adj Z) }.

Section Method.
  (** Number of pairs, facets (_local_facets) by pair, points per facet, dimension. *)
  Context (num_pairs : nat) (num_facets : nat -> nat) (nq gdim : nat).

  (** wrappers.cpp:339-348: both arrays are declared nb::ndim<1>; no overload matches
      otherwise.  nb::c_contig only makes nanobind copy.  None: TypeError. *)
  Definition base_crop (pair : nat) (gap n_y : nd_array) (tol : R) (maps : list (adj Z)) : option (list (adj Z)) :=
    if (length (nd_shape gap) =? 1)%nat && (length (nd_shape n_y) =? 1)%nat
    then Some (upd maps pair (crop_invalid_points (num_facets pair) nq gdim (nd_data gap) (nd_data n_y) tol (nth pair maps (mkAdj [] []))))
    else None.

  (** contact_problem.py:450-465, one pass of the loop. *)
  Definition crop_pair (tol : R) (i : nat) (ob : crop_object) : ended * crop_object :=
    if negb (co_ready ob) then (AttributeError, ob)
    else
      let cstride := (nq * gdim)%nat in
      let M := nth i (co_coeffs ob) [] in
      match base_crop i (columns 4 (4 + cstride) M) (columns (4 + cstride) (4 + 2 * cstride) M) tol (co_maps ob) with
      | Some maps => (Returned, mkCropObject (co_ready ob) (co_coeffs ob) maps)
      | None => (TypeError, ob)
      end.
  (** The loop stops at the first exception (contact_problem.py:450-465). *)
  Definition crop_method (tol : R) (ob : crop_object) : ended * crop_object :=
    for_loop num_pairs (fun i st => match fst st with Returned => crop_pair tol i (snd st) | _ => st end) (Returned, ob).
  (** What the base class does for all pairs when it is handed flat arrays (Contact.cpp:776-816). *)
  Definition base_crop_all (tol : R) (ob : crop_object) : option (list (adj Z)) :=
    for_loop num_pairs (fun i o =>
      match o with
      | Some maps => let cstride := (nq * gdim)%nat in let M := nth i (co_coeffs ob) [] in
          base_crop i (flat (columns 4 (4 + cstride) M)) (flat (columns (4 + cstride) (4 + 2 * cstride) M)) tol maps
      | None => None
      end) (Some (co_maps ob)).
End Method.
