(** Model of the state of a Contact object: the containers allocated by the
    constructor and the accesses made by create_distance_map, qp_phys, pack_gap,
    pack_gap_plane and max_links.  An access outside a container, or through a null
    pointer, is a value of its own: the behaviour of the program is then undefined. *)
From Coq Require Import List Arith ZArith Bool Reals.
Import ListNotations.
From Verif Require Import Prelude EntitiesModel SubMeshModel DistanceModel GapModel.
Local Open Scope R_scope.

(** How a member function ends (Contact.cpp:119-339). *)
Inductive outcome (A : Type) := Done (a : A) | Throws | OutOfBounds.
Arguments Done {A} _.
Arguments Throws {A}.
Arguments OutOfBounds {A}.
(** [v[i]] for a std::vector (Contact.cpp:296-339). *)
Definition at_ {A} (v : list A) (i : nat) : outcome A := match nth_error v i with Some a => Done a | None => OutOfBounds end.
(** Statement sequence (Contact.cpp:296-339). *)
Definition and_then {A B} (o : outcome A) (f : A -> outcome B) : outcome B :=
  match o with Done a => f a | Throws => Throws | OutOfBounds => OutOfBounds end.
Notation "'get' x := o ;; p" := (and_then o (fun x => p)) (at level 100, o at next level, right associativity).

(** Contact.h:320-352: the members; a facet map is a shared pointer, null at first.
    [ob_mode]: true for ray tracing. *)
Record contact_object := mkObject {
  ob_pairs : list (nat * nat);
  ob_facet_maps : list (option (adj Z));
  ob_reference : list (list R);
  ob_qp : list (list R);
  ob_max_links : list nat;
  ob_surfaces : adj nat;
  ob_local : list nat;
  ob_mode : list bool }.

(** Contact.cpp:119-155, the constructor; [num_cells]: number of owned cells. *)
Definition construct (surfaces : adj nat) (pairs : list (nat * nat)) (mode : list bool) (num_cells : nat) : contact_object :=
  {| ob_pairs := pairs;
     ob_facet_maps := repeat None (length pairs);
     ob_reference := repeat [] (length pairs);
     ob_qp := repeat [] (length (adj_data surfaces));
     ob_max_links := repeat 0%nat (length pairs);
     ob_surfaces := surfaces;
     ob_local := map (fun s => count_local (links surfaces s) num_cells) (seq 0 (num_nodes surfaces));
     ob_mode := mode |}.

Section Object.
  (** Submesh cell map, quadrature rule, and the search with its mode (compute_distance_map). *)
  Context (cmap : adj nat) (point : nat -> list R) (offsets : nat -> nat).
  Context (search : bool -> mesh_data -> list nat -> list nat -> option (adj Z * list R)).

  (** _cell_facet_pairs.links(s) (Contact.cpp:306-312). *)
  Definition surface_links (ob : contact_object) (s : nat) : outcome (list nat) :=
    if (s <? num_nodes (ob_surfaces ob))%nat then Done (links (ob_surfaces ob) s) else OutOfBounds.

  (** Contact.cpp:296-339 create_distance_map with 454-469 create_q_phys. *)
  Definition create_distance_map (pair : nat) (m : mesh_data) (ob : contact_object) : outcome contact_object :=
    get qc := at_ (ob_pairs ob) pair ;;
    get num_facets := at_ (ob_local ob) (fst qc) ;;
    get q_links := surface_links ob (fst qc) ;;
    get c_links := surface_links ob (snd qc) ;;
    let p := mkContactPair q_links c_links num_facets in
    get mode := at_ (ob_mode ob) pair ;;
    match search mode m (quadrature_tuples cmap p) (get_submesh_tuples cmap (cp_candidate p)) with
    | None => Throws
    | Some (map, ref) =>
        get _ := at_ (ob_facet_maps ob) pair ;;
        get _ := at_ (ob_reference ob) pair ;;
        get qp := at_ (ob_qp ob) (fst qc) ;;
        get _ := at_ (ob_max_links ob) pair ;;
        Done {| ob_pairs := ob_pairs ob;
                ob_facet_maps := upd (ob_facet_maps ob) pair (Some map);
                ob_reference := upd (ob_reference ob) pair ref;
                ob_qp := upd (ob_qp ob) (fst qc) (create_q_phys cmap point offsets m p qp);
                ob_max_links := upd (ob_max_links ob) pair (num_q offsets);
                ob_surfaces := ob_surfaces ob; ob_local := ob_local ob; ob_mode := ob_mode ob |}
    end.

  (** Contact.cpp:171-180 qp_phys(surface): entries and shape. *)
  Definition qp_phys (gdim surface : nat) (ob : contact_object) : outcome (list R * (nat * nat * nat)) :=
    get num_facets := at_ (ob_local ob) surface ;;
    get qp := at_ (ob_qp ob) surface ;;
    Done (qp, (num_facets, num_q offsets, gdim)).
  (** wrappers.cpp:159-175 qp_phys(surface, facet): the points of one facet. *)
  Definition qp_phys_facet (gdim surface facet : nat) (ob : contact_object) : outcome (list R) :=
    get r := qp_phys gdim surface ob ;;
    let '(qp, (_, nq, gd)) := r in
    if (S facet * (nq * gd) <=? length qp)%nat then Done (slice qp (facet * (nq * gd)) (nq * gd)) else OutOfBounds.

  (** Contact.h:96-101 max_links(): *max_element. *)
  Definition max_links (ob : contact_object) : outcome nat :=
    match ob_max_links ob with [] => OutOfBounds | _ => Done (fold_right Nat.max 0%nat (ob_max_links ob)) end.

  (** Contact.cpp:508-626 pack_gap(pair). *)
  Definition gap_of_pair (pair : nat) (m : mesh_data) (ob : contact_object) : outcome (list R) :=
    get qc := at_ (ob_pairs ob) pair ;;
    get num_facets := at_ (ob_local ob) (fst qc) ;;
    if (num_facets =? 0)%nat then Done []
    else
      get map := at_ (ob_facet_maps ob) pair ;;
      match map with
      | None => OutOfBounds
      | Some map =>
          get ref := at_ (ob_reference ob) pair ;;
          get qp := at_ (ob_qp ob) (fst qc) ;;
          Done (pack_gap m (num_q offsets) num_facets map ref qp)
      end.

  (** A sequence of detections; it stops at the first one that does not end normally
      (contact_problem.py:95-96, 267-269). *)
  Fixpoint detect (calls : list (nat * mesh_data)) (ob : contact_object) : outcome contact_object :=
    match calls with
    | [] => Done ob
    | c :: calls => get ob' := create_distance_map (fst c) (snd c) ob ;; detect calls ob'
    end.
End Object.
