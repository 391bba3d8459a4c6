(** Model of the part of cpp/Contact.cpp that turns the result of the contact
    search into gaps and normals, and of pack_normals of contact_problem.py. *)
From Coq Require Import List Arith ZArith Bool Reals.
Import ListNotations.
From Verif Require Import Prelude RSum EntitiesModel SubMeshModel RayModel KernelModel DistanceModel.
Local Open Scope R_scope.

(** Contact.cpp:341-443 pack_nx; [quadrature_facets]: (cell, local facet) pairs of
    the owned facets on the submesh. *)
Definition pack_nx (m : mesh_data) (point : nat -> list R) (nq nf : nat) (quadrature_facets : list nat) : list R :=
  let gdim := m_gdim m in
  for_loop (length quadrature_facets / 2) (fun i normals =>
    let coordinates := cell_coordinates m (nth (2 * i) quadrature_facets 0%nat) in
    let facet := nth (2 * i + 1) quadrature_facets 0%nat in
    for_loop nq (fun q normals =>
      let K := jacobian_inverse gdim (m_tdim m) (cell_jacobian m (point (facet * nq + q)%nat) coordinates) in
      let n := physical_facet_normal (m_tdim m) gdim K (m_ref_normal m facet) in
      for_loop gdim (fun k normals => upd normals (i * (nq * gdim) + q * gdim + k)%nat (n k)) normals) normals)
    (repeat 0 (nf * nq * gdim)).

(** Reference point [p] of _reference_contact_points (Contact.cpp:296-339). *)
Definition contact_point (m : mesh_data) (reference_x : list R) (p : nat) : list R := slice reference_x (p * m_tdim m) (m_tdim m).

(** Contact.cpp:508-626 pack_gap; [map]: facet map of the pair, [qp]: physical
    quadrature points of the surface. *)
Definition pack_gap (m : mesh_data) (nq nf : nat) (map : adj Z) (reference_x qp : list R) : list R :=
  let gdim := m_gdim m in
  for_loop nf (fun i c =>
    let facets := links map i in
    for_loop nq (fun q c =>
      let f := nth q facets 0%Z in
      if (f <? 0)%Z then c
      else
        let cell := hd 0%nat (m_f_to_c m (Z.to_nat f)) in
        let coord := push_forward_point m (m_phi m (contact_point m reference_x (i * nq + q))) (cell_coordinates m cell) in
        for_loop gdim (fun k c => upd c (i * (nq * gdim) + q * gdim + k)%nat (coord k - nth ((i * nq + q) * gdim + k)%nat qp 0)) c) c)
    (repeat 0 (nf * nq * gdim)).

(** Contact.cpp:987-1129 pack_ny. *)
Definition pack_ny (m : mesh_data) (nq nf : nat) (map : adj Z) (reference_x : list R) : list R :=
  let gdim := m_gdim m in
  for_loop nf (fun i normals =>
    let facets := links map i in
    for_loop nq (fun q normals =>
      let f := nth q facets 0%Z in
      if (f <? 0)%Z then normals
      else
        let cell := hd 0%nat (m_f_to_c m (Z.to_nat f)) in
        let local_idx := find_index (Z.to_nat f) (m_c_to_f m cell) in
        let K := jacobian_inverse gdim (m_tdim m) (cell_jacobian m (contact_point m reference_x (i * nq + q)) (cell_coordinates m cell)) in
        let n := physical_facet_normal (m_tdim m) gdim K (m_ref_normal m local_idx) in
        for_loop gdim (fun k normals => upd normals (i * (nq * gdim) + q * gdim + k)%nat (n k)) normals) normals)
    (repeat 0 (nf * nq * gdim)).

(** Contact.cpp:952-984 pack_gap_plane. *)
Definition pack_gap_plane (gdim nq nf : nat) (g : R) (qp : list R) : list R :=
  for_loop nf (fun i c => for_loop nq (fun k c =>
    upd c (i * (nq * gdim) + (k + 1) * gdim - 1)%nat (g - nth ((i * nq + k) * gdim + (gdim - 1))%nat qp 0)) c)
    (repeat 0 (nf * nq * gdim)).

(** The object: (cell, local facet) pairs of the two surfaces of a pair, owned
    facets first; number of owned facets of the first; parent to submesh cell map;
    quadrature rule (Contact.h:318-352). *)
Record contact_pair := mkContactPair { cp_quadrature : list nat; cp_candidate : list nat; cp_local : nat }.
Section Contact.
  Context (cmap : adj nat) (point : nat -> list R) (offsets : nat -> nat).
  Definition num_q : nat := (offsets 1 - offsets 0)%nat.
  (** _cell_facet_pairs.links(quadrature_mt).subspan(0, 2 * num_facets), on the submesh (Contact.cpp:306-308). *)
  Definition quadrature_tuples (p : contact_pair) : list nat := get_submesh_tuples cmap (firstn (2 * cp_local p) (cp_quadrature p)).

  (** Contact.cpp:454-469 create_q_phys: all facets of the surface. *)
  Definition create_q_phys (m : mesh_data) (p : contact_pair) (qp : list R) : list R :=
    let facets := get_submesh_tuples cmap (cp_quadrature p) in
    (* resize keeps the old entries; all are overwritten *)
    let n := (num_q * (length facets / 2) * m_gdim m)%nat in
    compute_physical_points m point offsets facets (firstn n qp ++ repeat 0 (n - length qp)).

  (** The search: compute_distance_map with the mode of the pair. *)
  Context (distance_map : mesh_data -> list nat -> list nat -> option (adj Z * list R)).
  (** Facet map, reference points and quadrature points of a pair (Contact.cpp:296-339). *)
  Record detection := mkDetection { det_map : adj Z; det_ref : list R; det_qp : list R }.
  (** Contact.cpp:296-339 create_distance_map; None: std::runtime_error. *)
  Definition create_distance_map (m : mesh_data) (p : contact_pair) (old : detection) : option detection :=
    match distance_map m (quadrature_tuples p) (get_submesh_tuples cmap (cp_candidate p)) with
    | None => None
    | Some (map, ref) => Some (mkDetection map ref (create_q_phys m p (det_qp old)))
    end.
  Definition contact_gap (m : mesh_data) (p : contact_pair) (d : detection) : list R := pack_gap m num_q (cp_local p) (det_map d) (det_ref d) (det_qp d).
  (** contact_problem.py:149-160 pack_normals. *)
  Definition pack_normals (raytracing : bool) (m : mesh_data) (p : contact_pair) (d : detection) : list R :=
    if raytracing then map Ropp (pack_nx m point num_q (cp_local p) (quadrature_tuples p))
    else pack_ny m num_q (cp_local p) (det_map d) (det_ref d).
End Contact.
