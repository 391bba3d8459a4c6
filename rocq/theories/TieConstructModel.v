(** Model of the constructor of MeshTie: closest point detection and removal of far
    points for every pair. *)
From Coq Require Import List Arith ZArith Bool Reals.
Import ListNotations.
From Verif Require Import Prelude EntitiesModel SubMeshModel DistanceModel GapModel CropModel ContactObjectModel.
Local Open Scope R_scope.

(** *std::max_element on a non-empty range (MeshTie.cpp:42). *)
Definition max_element (l : list R) : R := match l with [] => 0 | a :: l => fold_left (fun m x => if rlt m x then x else m) l a end.

Section Construct.
  (** Submesh cell map, quadrature rule, the closest point search of compute_distance_map,
      and dolfinx::mesh::h of a cell. *)
  Context (cmap : adj nat) (point : nat -> list R) (offsets : nat -> nat).
  Context (search : mesh_data -> list nat -> list nat -> option (adj Z * list R)) (cell_size : nat -> R).

  (** Contact.cpp:776-816: crop_invalid_points(pair, gap, ny, tol) on the object. *)
  Definition crop_pair (pair : nat) (gdim : nat) (gap ny : list R) (tol : R) (ob : contact_object) : outcome contact_object :=
    get qc := at_ (ob_pairs ob) pair ;;
    get num_facets := at_ (ob_local ob) (fst qc) ;;
    get map := at_ (ob_facet_maps ob) pair ;;
    match map with
    | None => OutOfBounds
    | Some map =>
        Done {| ob_pairs := ob_pairs ob;
                ob_facet_maps := upd (ob_facet_maps ob) pair (Some (crop_invalid_points num_facets (num_q offsets) gdim gap ny tol map));
                ob_reference := ob_reference ob; ob_qp := ob_qp ob; ob_max_links := ob_max_links ob;
                ob_surfaces := ob_surfaces ob; ob_local := ob_local ob; ob_mode := ob_mode ob |}
    end.
  (** Contact.cpp:987-1129 pack_ny(pair) on the object. *)
  Definition normals_of_pair (pair : nat) (m : mesh_data) (ob : contact_object) : outcome (list R) :=
    get qc := at_ (ob_pairs ob) pair ;;
    get num_facets := at_ (ob_local ob) (fst qc) ;;
    get map := at_ (ob_facet_maps ob) pair ;;
    match map with
    | None => OutOfBounds
    | Some map => get ref := at_ (ob_reference ob) pair ;; Done (pack_ny m (num_q offsets) num_facets map ref)
    end.

  (** MeshTie.cpp:22-44, one pass of the loop. *)
  Definition tie_pair (m : mesh_data) (i : nat) (ob : contact_object) : outcome contact_object :=
    get ob := create_distance_map cmap point offsets (fun _ => search) i m ob ;;
    get pair := at_ (ob_pairs ob) i ;;
    get num_facets := at_ (ob_local ob) (fst pair) ;;
    if (0 <? num_facets)%nat then
      get ny := normals_of_pair i m ob ;;
      get gap := gap_of_pair offsets i m ob ;;
      get entities := surface_links ob (fst pair) ;;
      let cells := map (fun e => nth (2 * e) entities 0%nat) (seq 0 num_facets) in
      let h_p := map cell_size cells in
      crop_pair i (m_gdim m) gap ny (max_element h_p) ob
    else Done ob.

  (** MeshTie.cpp:10-51: the base object with closest point mode for all pairs, then the loop. *)
  Definition tie_construct (m : mesh_data) (surfaces : adj nat) (connected_pairs : list (nat * nat)) (num_cells : nat) : outcome contact_object :=
    for_loop (length connected_pairs) (fun i o => get ob := o ;; tie_pair m i ob)
      (Done (construct surfaces connected_pairs (repeat false (length connected_pairs)) num_cells)).
End Construct.
