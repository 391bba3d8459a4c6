(** Model of the assembly callbacks of the driver for contact with a rigid body
    /repo/python/dolfinx_contact/one_sided/nitsche_rigid_surface_custom.py, on one process: the
    coefficients handed to the Newton solver, their update, the residual and the matrix.  The
    compiled forms F_custom and J_custom (bulk and Dirichlet terms) enter as what they assemble. *)
From Coq Require Import List Arith Reals.
Import ListNotations.
From Verif Require Import Prelude AssemblyModel RayModel KernelModel CoefficientsModel TieSystemModel OneSidedSystemModel RigidDriverModel.
Local Open Scope R_scope.

Section Driver.
  (** Space, mesh and quadrature rule; the Contact object used as assembler, on which
      create_distance_map was never called (nitsche_rigid_surface_custom.py:258-266); the
      parameters; [h] the packed cell diameters (228), [g_vec] and [n_surf] what pack_gap and
      pack_ny of the other Contact object return (246-247); the two kernels (251, 255). *)
  Context (pd : pack_data) (asm : assembly) (mu lmbda E gamma theta : R) (h g_vec n_surf : list R) (rhs jac : kernel_fn).
  (** What assemble_vector(b, F_custom) adds for the function [u] (nitsche_rigid_surface_custom.py:297)
      and the blocks that assemble_matrix(A, J_custom) inserts (305). *)
  Context (form_vector : list R -> list R) (form_matrix : list insertion).
  Notation nq := (pd_nq pd).
  Notation gdim := (pd_gdim pd).

  (** nitsche_rigid_surface_custom.py:274-306: what the callbacks share, the array of the function
      [u] and the rows of solver_coeffs[0]. *)
  Record driver_state := mkDriverState { ds_u : list R; ds_rows : list (list R) }.
  (** nitsche_rigid_surface_custom.py:217-228, 246-247, 269-270 and 312: hstack, with the function
      [u] as it was then.  The DG-0 functions of mu and lambda are constant (203-207). *)
  Definition initial_row (u : list R) (e : nat) : list R :=
    surface_row mu lmbda (nth e h 0) (array_row g_vec (nq * gdim) e) (array_row (u_packed pd asm u) (nq * gdim) e) (array_row (grad_u_packed pd asm u) (nq * gdim * gdim) e)
      (array_row n_surf (nq * gdim) e).
  Definition initial_state (u : list R) : driver_state := mkDriverState u (map (initial_row u) (seq 0 (a_local asm))).
  (** nitsche_rigid_surface_custom.py:335-340: u.interpolate(_u_initial) sets the function, not
      the rows. *)
  Definition interpolate_initial (u1 : list R) (st : driver_state) : driver_state := mkDriverState u1 (ds_rows st).
  (** nitsche_rigid_surface_custom.py:272-288: pack_coefficients, on one process (size_local * bs
      is the whole array). *)
  Definition pack_coefficients (x : list R) (st : driver_state) : driver_state :=
    mkDriverState x (map (fun e => surface_update (nq * gdim) (array_row (u_packed pd asm x) (nq * gdim) e) (array_row (grad_u_packed pd asm x) (nq * gdim * gdim) e) (nth e (ds_rows st) []))
      (seq 0 (length (ds_rows st)))).
  Definition surface_cstride : nat := (3 + (nq * gdim + (nq * gdim + (nq * gdim * gdim + nq * gdim))))%nat.
  (** nitsche_rigid_surface_custom.py:290-297: the previous content of [b] is overwritten; the
      compiled form reads the function [u]. *)
  Definition compute_residual (b : list R) (st : driver_state) : list R :=
    let b0 := repeat 0 (length b) in
    let b1 := assemble_vector asm rhs (concat (ds_rows st)) surface_cstride (surface_consts E gamma theta) b0 in
    map (fun d => nth d b1 0 + nth d (form_vector (ds_u st)) 0) (seq 0 (length b1)).
  (** nitsche_rigid_surface_custom.py:299-306: the insertions into the zeroed matrix. *)
  Definition compute_jacobian (st : driver_state) : list insertion :=
    assemble_matrix asm jac (concat (ds_rows st)) surface_cstride (surface_consts E gamma theta) ++ form_matrix.
  (** The calls of pack_coefficients during a solve, in order (newton_solver.py:313, 370, 397, in a
      solve that starts with the rows of nitsche_rigid_surface_custom.py:312). *)
  Definition after_packing (u0 u1 : list R) (history : list (list R)) : driver_state :=
    fold_left (fun st x => pack_coefficients x st) history (interpolate_initial u1 (initial_state u0)).
End Driver.
