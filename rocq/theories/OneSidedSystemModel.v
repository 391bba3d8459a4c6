(** Model of the assembly callbacks of the one-sided driver
    /repo/python/dolfinx_contact/one_sided/nitsche_custom.py, on one process: the coefficients
    handed to the custom assemblers, the residual and the matrix.  The compiled forms L_custom
    and a_custom (bulk and Dirichlet terms) enter as what they assemble. *)
From Coq Require Import List Arith Reals.
Import ListNotations.
From Verif Require Import Prelude GapModel AssemblyModel RayModel KernelModel CoefficientsModel TieSystemModel OneSidedModel.
Local Open Scope R_scope.

Section Driver.
  (** Space, mesh and quadrature rule; the Contact object used as assembler, on which
      create_distance_map was never called (nitsche_custom.py:218-227), so that its number of
      linked cells is 0; the parameters; [h] the packed circumradii (192), [qp] the quadrature
      points packed by the other Contact object (199-207); the two kernels (217, 245). *)
  Context (pd : pack_data) (asm : assembly) (mu lmbda plane_loc E gamma theta : R) (h qp : list R) (rhs jac : kernel_fn).
  (** What assemble_vector(b, L_custom) adds (nitsche_custom.py:241) and the blocks that
      assemble_matrix(a_mat, a_custom) inserts (258). *)
  Context (form_vector : list R -> list R) (form_matrix : list insertion).
  Notation nq := (pd_nq pd).
  Notation gdim := (pd_gdim pd).

  (** nitsche_custom.py:178-183: integral_entities[:num_local]; compute_active_entities gives the
      Contact constructor the same list (Contact.cpp:105-116). *)
  Definition integral_entities : list nat := firstn (2 * a_local asm) (a_active asm).
  (** nitsche_custom.py:210. *)
  Definition g_vec : list R := pack_gap_plane gdim nq (a_local asm) (- plane_loc) qp.
  (** nitsche_custom.py:233-236 (251-254). *)
  Definition u_packed (u : list R) : list R := fst (packed (pack_coefficient_quadrature pd u ExteriorFacet integral_entities)).
  Definition grad_u_packed (u : list R) : list R := fst (packed (pack_gradient_quadrature pd u ExteriorFacet integral_entities)).
  (** nitsche_custom.py:237 (255): row [e] of an array handed to hstack, rows of [len] entries. *)
  Definition array_row (a : list R) (len e : nat) : list R := slice a (e * len) len.
  (** nitsche_custom.py:185-192, 213, 237 (255): row [e] of hstack.  The DG-0 functions of
      mu and lambda are constant, so their packed values are those constants (171-175). *)
  Definition driver_row (u : list R) (e : nat) : list R :=
    [mu; lmbda] ++ [nth e h 0] ++ array_row g_vec (nq * gdim) e ++ array_row (u_packed u) (nq * gdim) e ++ array_row (grad_u_packed u) (nq * gdim * gdim) e.
  Definition driver_coeffs (u : list R) : list R := concat (map (driver_row u) (seq 0 (a_local asm))).
  Definition driver_cstride : nat := (3 + (nq * gdim + (nq * gdim + nq * gdim * gdim)))%nat.
  (** nitsche_custom.py:229-241.  [x] is the whole vector (one process: size_local * bs entries);
      the previous content of [b] is overwritten. *)
  Definition assemble_residual (x b : list R) : list R :=
    let b0 := repeat 0 (length b) in
    let b1 := assemble_vector asm rhs (driver_coeffs x) driver_cstride (custom_consts gdim E gamma theta) b0 in
    map (fun d => nth d b1 0 + nth d (form_vector x) 0) (seq 0 (length b1)).
  (** nitsche_custom.py:247-259: the insertions into the zeroed matrix. *)
  Definition assemble_jacobian (x : list R) : list insertion :=
    assemble_matrix asm jac (driver_coeffs x) driver_cstride (custom_consts gdim E gamma theta) ++ form_matrix.
End Driver.
