(** Model of the coefficient layouts: sizes and offsets as written in the C++
    packing, the Python packing and the kernels.  All definitions are the index
    arithmetic of the source; blocks are pairs (start, stop). *)
From Coq Require Import List Arith Lia.
Import ListNotations.
From Verif Require Import Prelude.

(** ** Unbiased contact *)

(** Contact.cpp:221-236, the branch [meshtie = false] of coefficients_size. *)
Definition contact_coefficients_size (nq nd bs gdim ml : nat) : nat :=
  sum_nat [4; nq * bs; nq * bs; nq * nd * bs * ml; nq * gdim; nq * gdim * gdim; nq * bs; nq * gdim].

(** contact_kernels.cpp:36-44 cstrides. *)
Definition contact_kernel_strides (nq nd bs gdim ml : nat) : list nat :=
  [4; nq * gdim; nq * gdim; nq * nd * bs * ml; nq * gdim; nq * gdim * gdim; nq * bs; nq * gdim].

(** KernelData.cpp:66-70: offsets from strides. *)
Definition kernel_offsets (strides : list nat) : list nat := psums strides.
Definition kernel_block (strides : list nat) (k : nat) : nat * nat :=
  (nth k (kernel_offsets strides) 0, nth (S k) (kernel_offsets strides) 0).

(** contact_problem.py:278-298 generate_contact_data: gap, normals, test
    functions; [numcoeffs] is the row length. *)
Definition py_gap (nq gdim : nat) : nat * nat :=
  let offset0 := 4 in let offset1 := offset0 + nq * gdim in (offset0, offset1).
Definition py_normals (nq gdim : nat) : nat * nat :=
  let offset0 := snd (py_gap nq gdim) in let offset1 := offset0 + nq * gdim in (offset0, offset1).
Definition py_test (nq nd gdim ml : nat) : nat * nat :=
  let offset0 := snd (py_normals nq gdim) in let offset1 := offset0 + nq * gdim * ml * nd in (offset0, offset1).
(** contact_problem.py:299-300: [coeffs[:, -normals.shape[1]:]]; a stop index of
    [-0] selects the whole row. *)
Definition py_old_normals_init (nq gdim numcoeffs : nat) : nat * nat :=
  ((if nq * gdim =? 0 then 0 else numcoeffs - nq * gdim), numcoeffs).

(** contact_problem.py:111-147 update_contact_data. *)
Definition py_u (nq nd gdim ml : nat) : nat * nat :=
  let offset0 := 4 + nq * gdim * (2 + nd * ml) in let offset1 := offset0 + nq * gdim in (offset0, offset1).
Definition py_grad_u (nq nd gdim ml : nat) : nat * nat :=
  let offset0 := snd (py_u nq nd gdim ml) in let offset1 := offset0 + nq * gdim * gdim in (offset0, offset1).
Definition py_u_opp (nq nd gdim ml : nat) : nat * nat :=
  let offset0 := snd (py_grad_u nq nd gdim ml) in let offset1 := offset0 + nq * gdim in (offset0, offset1).

(** contact_problem.py:338-346 update_contact_detection: destination and source
    of the copied normals. *)
Definition py_old_normals_update (nq nd gdim ml numcoeffs : nat) : nat * nat :=
  (4 + nq * gdim * (2 + nd * ml) + nq * gdim * (2 + gdim), numcoeffs).
Definition py_old_normals_source (nq gdim : nat) : nat * nat :=
  let offset0 := 4 + nq * gdim in let offset1 := offset0 + nq * gdim in (offset0, offset1).

(** contact_kernels.cpp:188-190 etc.: index at which the kernels read component
    [n] of the test function [i] of link [k] at point [q], relative to the row. *)
Definition kernel_test_index (offset np nd bs k i q n : nat) : nat :=
  offset + k * np * nd * bs + i * np * bs + q * bs + n.

(** Contact.cpp:760-767: index written by pack_test_functions, relative to the
    facet's part of the packed array. *)
Definition packed_test_index (np nd bs k i q n : nat) : nat := ((k * nd + i) * np + q) * bs + n.

(** elasticity.cpp:123-124, 135-136 and meshtie_kernels.cpp:586-592: index at which the
    gradient of a test function is read, relative to its block. *)
Definition kernel_grad_test_index (np nd gdim k i q g : nat) : nat :=
  k * np * nd * gdim + i * np * gdim + q * gdim + g.

(** Contact.cpp:1498-1502: index written by pack_grad_test_functions, relative to
    the facet's part of the packed array. *)
Definition packed_grad_test_index (np nd gdim k i q g : nat) : nat :=
  k * nd * gdim * np + i * gdim * np + q * gdim + g.

(** ** Mesh tying *)

(** MeshTie.cpp:133-151: strides handed to the kernels. *)
Definition elastic_strides (nq nd bs gdim ml : nat) : list nat :=
  [3; nq * nd * bs * ml; nq * nd * bs * ml; nq * gdim; nq * gdim * gdim; nq * bs; nq * gdim * bs].
Definition thermo_strides (nq nd bs gdim ml : nat) : list nat :=
  [4; nq * nd * bs * ml; nq * nd * bs * ml; nq * gdim; nq * gdim * gdim; nq * bs; nq * gdim * bs; nq; nq].
(** MeshTie.cpp:400-407. *)
Definition poisson_strides (nq nd gdim ml : nat) : list nat :=
  [2; nq * nd * ml; nq * nd * gdim * ml; nq; nq * gdim; nq; nq * gdim].

(** Contact.cpp:204-219, the branch [meshtie = true] of coefficients_size. *)
Definition meshtie_coefficients_size (nq nd bs gdim ml : nat) : nat :=
  sum_nat [1; 1; 1; nq * nd * bs * ml; nq * nd * bs * ml; nq * gdim; nq * gdim * gdim; nq * bs; nq * gdim * bs].

(** Row lengths of the packed arrays (Contact.cpp:680, 1406, 853, 1537 and
    coefficients.cpp: value size times points). *)
Definition len_test (nq nd bs ml : nat) : nat := nq * ml * nd * bs.
Definition len_grad_test (nq nd gdim ml : nat) : nat := nq * ml * nd * gdim.
Definition len_u (nq bs : nat) : nat := nq * bs.
Definition len_grad_u (nq bs gdim : nat) : nat := nq * bs * gdim.

Definition at_offset (o len : nat) : nat * nat := (o, o + len).

(** MeshTie.cpp:208-213: test functions and their gradients, [first] is cstrides[0]. *)
Definition tie_static (first nq nd bs gdim ml : nat) : list (nat * nat) :=
  let offset := first in
  let b1 := at_offset offset (len_test nq nd bs ml) in
  let offset := offset + len_test nq nd bs ml in
  [b1; at_offset offset (len_grad_test nq nd gdim ml)].

(** MeshTie.cpp:247-262 and 280-299 update_kernel_data for elasticity and
    thermo-elasticity ([first] = 3 or 4): blocks of u, grad u, u_opp, grad u_opp. *)
Definition tie_update (first nq nd bs gdim ml : nat) : list (nat * nat) :=
  let offset0 := first + 2 * (nq * ml * bs * nd) in
  let offset1 := offset0 + (1 + gdim) * nq * bs in
  let u := at_offset offset0 (len_u nq bs) in
  let u_opp := at_offset offset1 (len_u nq bs) in
  let offset0 := offset0 + nq * bs in
  let offset1 := offset1 + nq * bs in
  [u; at_offset offset0 (len_grad_u nq bs gdim); u_opp; at_offset offset1 (len_grad_u nq bs gdim)].

(** MeshTie.cpp:300-303: temperature and opposite temperature. *)
Definition tie_temperature (nq nd bs gdim ml : nat) : list (nat * nat) :=
  let offset0 := 4 + 2 * (nq * ml * bs * nd) in
  let offset1 := offset0 + (1 + gdim) * nq * bs in
  let offset1 := offset1 + nq * bs in
  let offset0 := offset1 + nq * bs * gdim in
  let offset1 := offset0 + nq in
  [at_offset offset0 (len_u nq 1); at_offset offset1 (len_u nq 1)].

(** MeshTie.cpp:263-279 update_kernel_data for Poisson. *)
Definition poisson_update (nq nd gdim ml : nat) : list (nat * nat) :=
  let offset0 := 2 + (1 + gdim) * (nq * ml * nd) in
  let offset1 := offset0 + (1 + gdim) * nq in
  let T := at_offset offset0 (len_u nq 1) in
  let T_opp := at_offset offset1 (len_u nq 1) in
  let offset0 := offset0 + nq in
  let offset1 := offset1 + nq in
  [T; at_offset offset0 (len_grad_u nq 1 gdim); T_opp; at_offset offset1 (len_grad_u nq 1 gdim)].
