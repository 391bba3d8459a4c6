(** What all assembly kernels share: kernel data, geometry updates inside the
    quadrature loop, element buffers and the traction of linear elasticity. *)
From Coq Require Import List Arith Reals.
Import ListNotations.
From Verif Require Import Prelude RSum RayModel AssemblyModel.
Local Open Scope R_scope.

(** KernelData.h:188-240, the data a kernel captures.  Basis tabulation and
    reference cell data come from basix; [kd_inverse] and [kd_determinant] are
    CoordinateElement::compute_jacobian_inverse / _determinant of DOLFINx. *)
Record kernel_data := mkKernelData {
  kd_gdim : nat; kd_tdim : nat; kd_bs : nat; kd_ndofs : nat; kd_nodes : nat;
  kd_affine : bool;
  kd_cstrides : list nat;
  kd_qp_offsets : nat -> nat;               (* first point of each facet *)
  kd_phi : nat -> nat -> R;                 (* point, dof *)
  kd_dphi : nat -> nat -> nat -> R;         (* direction, point, dof *)
  kd_dphi_c : nat -> nat -> nat -> R;       (* direction, point, geometry node *)
  kd_weights : nat -> R;                    (* over the points of all facets *)
  kd_ref_jacobian : nat -> matrix;          (* facet *)
  kd_ref_normal : nat -> nat -> R;          (* facet, component *)
  kd_inverse : matrix -> matrix;
  kd_determinant : matrix -> R }.

(** KernelData.cpp:66-70, KernelData.h:107 [offsets(i)]. *)
Definition offsets (kd : kernel_data) (i : nat) : nat := nth i (psums (kd_cstrides kd)) 0%nat.
(** Number of points of a facet (kernels: [q_offset.back() - q_offset.front()]) (e.g. contact_kernels.cpp:127-129). *)
Definition num_points (kd : kernel_data) (f : nat) : nat := (kd_qp_offsets kd (f + 1) - kd_qp_offsets kd f)%nat.
(** KernelData.cpp:118-124 [weights(i)]. *)
Definition weight (kd : kernel_data) (f q : nat) : R := kd_weights kd (kd_qp_offsets kd f + q)%nat.

(** What a kernel keeps from one quadrature point to the next: the inverse
    Jacobian, the facet's scale factor and the physical normal (KernelData.h:134-180). *)
Record geometry := mkGeometry { g_K : matrix; g_detJ : R; g_n : nat -> R }.

(** utils.cpp:585-607 compute_facet_jacobian at point [q_pos] (position in the
    tables of all facets).  [coords] has three entries per node. *)
Definition compute_facet_jacobian (kd : kernel_data) (coords : list R) (f q_pos : nat) : matrix * R :=
  let J : matrix := fun i j => for_loop (kd_nodes kd) (fun a acc => acc + nth (a * 3 + i) coords 0 * kd_dphi_c kd j q_pos a) 0 in
  let K := kd_inverse kd J in
  let J_tot : matrix := fun i j => for_loop (kd_tdim kd) (fun k acc => acc + J i k * kd_ref_jacobian kd f k j) 0 in
  (K, Rabs (kd_determinant kd J_tot)).

(** geometric_quantities.h:93-111 physical_facet_normal. *)
Definition physical_facet_normal (tdim gdim : nat) (K : matrix) (ref : nat -> R) : nat -> R :=
  let n i := for_loop tdim (fun j acc => acc + K j i * ref j) 0 in
  let norm := sqrt (for_loop gdim (fun i acc => acc + n i ^ 2) 0) in
  fun i => n i / norm.

(** The prologue of every kernel (e.g. contact_kernels.cpp:78-101): on affine
    meshes everything is computed once, otherwise the arrays are uninitialised
    ([junk]). *)
Definition start_geometry (kd : kernel_data) (coords : list R) (f : nat) (junk : geometry) : geometry :=
  if kd_affine kd
  then let '(K, detJ) := compute_facet_jacobian kd coords f (kd_qp_offsets kd f) in
       (* KernelData.cpp:105-106 takes the absolute value again *)
       mkGeometry K (Rabs detJ) (physical_facet_normal (kd_tdim kd) (kd_gdim kd) K (kd_ref_normal kd f))
  else junk.

(** KernelData.h:134-153 update_jacobian and KernelData.cpp:109-116
    update_normal, which dispatch on the geometry being affine
    (utils.cpp:609-678). *)
Definition update_geometry (kd : kernel_data) (coords : list R) (f q : nat) (g : geometry) : geometry :=
  if kd_affine kd then g
  else let '(K, detJ) := compute_facet_jacobian kd coords f (kd_qp_offsets kd f + q)%nat in
       mkGeometry K detJ (physical_facet_normal (kd_tdim kd) (kd_gdim kd) K (kd_ref_normal kd f)).

(** The quadrature loop [for (auto q : q_indices)] of every kernel: update the
    geometry, then add the point's contributions to the element buffers (as in contact_kernels.cpp:126-196). *)
Definition quadrature_loop (kd : kernel_data) (coords : list R) (f : nat) (junk : geometry) (qs : list nat)
    (body : nat -> geometry -> list (list R) -> list (list R)) (bufs : list (list R)) : list (list R) :=
  snd (for_each qs (fun q st =>
         let g := update_geometry kd coords f q (fst st) in (g, body q g (snd st)))
       (start_geometry kd coords f junk, bufs)).

(** [A[s][i] += v] (as in contact_kernels.cpp:182-192). *)
Definition acc (bufs : list (list R)) (s i : nat) (v : R) : list (list R) := upd bufs s (addto (nth s bufs []) i v).

(** utils.h:43-54 [enum class Kernel]. *)
Inductive kernel_type := Rhs | Jac | MeshTieRhs | MeshTieJac | ThermoElasticRhs | TrescaRhs | TrescaJac | CoulombRhs | CoulombJac.

(** ** elasticity.cpp *)
(** elasticity.cpp:12-46 compute_normal_strain_basis.  The loops fill one entry (j, l) after
    the other; the model gives each entry on its own. *)
Definition strain_trace (kd : kernel_data) (K : matrix) (q_pos j l : nat) : R :=
  for_loop (kd_tdim kd) (fun k acc => acc + K k l * kd_dphi kd k q_pos j) 0.
Definition normal_strain (kd : kernel_data) (K : matrix) (n_surf n_phys : nat -> R) (q_pos j l : nat) : R :=
  for_loop (kd_tdim kd) (fun k acc =>
    for_loop (kd_gdim kd) (fun s acc => acc + K k s * kd_dphi kd k q_pos j * (n_phys s * n_surf l + n_phys l * n_surf s)) acc) 0.

(** elasticity.cpp:48-88 compute_sigma_n_basis: component [l] of the traction of basis
    function [i] in direction [j].  K.extent(1) is gdim. *)
Definition basis_gradient (kd : kernel_data) (K : matrix) (q_pos i j : nat) : R :=
  for_loop (kd_tdim kd) (fun k acc => acc + K k j * kd_dphi kd k q_pos i) 0.
Definition traction_entry (gdim : nat) (grad_v n : nat -> R) (mu lmbda : R) (j l : nat) : R :=
  let dv_dot_n := for_loop gdim (fun a acc => acc + grad_v a * n a) 0 in
  (0 + (if (j =? l)%nat then mu * dv_dot_n else 0)) + (lmbda * grad_v j * n l + mu * n j * grad_v l).
Definition sigma_n_basis (kd : kernel_data) (K : matrix) (n : nat -> R) (mu lmbda : R) (q_pos i j l : nat) : R :=
  traction_entry (kd_gdim kd) (basis_gradient kd K q_pos i) n mu lmbda j l.

(** elasticity.cpp:90-101 compute_sigma_n_u: adds to [sig_n_u]. *)
Definition sigma_n_u (gdim : nat) (grad_u n : nat -> R) (mu lmbda : R) (sig_n_u : nat -> R) (i : nat) : R :=
  for_loop gdim (fun j acc =>
    acc + (mu * (grad_u (j * gdim + i)%nat + grad_u (i * gdim + j)%nat) * n j + lmbda * grad_u (j * gdim + j)%nat * n i)) (sig_n_u i).

(** elasticity.cpp:103-139 compute_sigma_n_opp: link [k], dof [i], direction [j], component
    [l]; [grad_v] is the packed array of test gradients. *)
Definition opposite_gradient (gdim ndofs np : nat) (grad_v : nat -> R) (q k i a : nat) : R :=
  grad_v (k * np * ndofs * gdim + i * np * gdim + q * gdim + a)%nat.
Definition sigma_n_opp (gdim ndofs np : nat) (grad_v n : nat -> R) (mu lmbda : R) (q k i j l : nat) : R :=
  traction_entry gdim (opposite_gradient gdim ndofs np grad_v q k i) n mu lmbda j l.

(** elasticity.cpp:141-165 compute_contact_forces. *)
Definition compute_contact_forces (grad_u n_x : list R) (nq num_facets gdim : nat) (mu lmbda : R) : list R :=
  for_loop num_facets (fun f sign =>
    let f_offset := (nq * gdim * f)%nat in
    for_loop nq (fun q sign =>
      let sig_n_u := sigma_n_u gdim (fun i => nth (f_offset * gdim + q * gdim * gdim + i)%nat grad_u 0)
                       (fun i => nth (f_offset + q * gdim + i)%nat n_x 0) mu lmbda (fun _ => 0) in
      for_loop gdim (fun j sign => upd sign (f * nq * gdim + q * gdim + j)%nat (sig_n_u j)) sign) sign)
    (repeat 0 (num_facets * nq * gdim)).
