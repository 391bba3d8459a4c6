(** Model of the one-sided drivers: the contact and Dirichlet terms of
    /repo/python/dolfinx_contact/one_sided/nitsche_ufl.py as integrands at a point, and the
    data that nitsche_custom.py hands to the rigid surface kernels.  Volume terms, form
    compilation and the solvers are not modelled. *)
From Coq Require Import List Arith Reals.
Import ListNotations.
From Verif Require Import Prelude RSum RayModel OpsModel GapModel KernelModel.
Local Open Scope R_scope.

(** ** nitsche_ufl.py *)
Section Ufl.
  Context (theta gamma E h : R).
  (** nitsche_ufl.py:128. *)
  Definition gamma_scaled : R := gamma * E / h.
  (** nitsche_ufl.py:158-165, the ds(bottom_value) terms of F.  [su], [un]: sigma_n(u) and u.n_2; [sv],
      [vn] the same for the test function. *)
  Definition ufl_contact_residual (gap su un sv vn : R) : R :=
    - theta / gamma_scaled * su * sv + 1 / gamma_scaled * py_R_minus (su + gamma_scaled * (gap - un)) * (theta * sv - gamma_scaled * vn).
  (** nitsche_ufl.py:167-181, the ds(bottom_value) terms of J; [sdu], [dun] for the trial function. *)
  Definition ufl_contact_jacobian (gap su un sdu dun sv vn : R) : R :=
    let q := su + gamma_scaled * (gap - un) in
    - theta / gamma_scaled * sdu * sv + 1 / gamma_scaled * 0.5 * (1 - sgn q) * (sdu - gamma_scaled * dun) * (theta * sv - gamma_scaled * vn).
  (** nitsche_ufl.py:187-201, the ds(top_value) terms with nitsche_bc.  [tuv] is inner(sigma(u) n, v),
      [tvd] inner(sigma(v) n, u - u_D), [dv] inner(u - u_D, v). *)
  Definition ufl_dirichlet (tuv tvd dv : R) : R := - tuv - theta * tvd + gamma_scaled / h * dv.
  (** nitsche_custom.py:140-156, the same terms of the other driver. *)
  Definition custom_dirichlet (tuv tvd dv : R) : R := - tuv - theta * tvd + E * gamma / h * dv.
End Ufl.
(** nitsche_ufl.py:122-124 n_2 and 130-132 gap. *)
Definition plane_normal (gdim a : nat) : R := if (S a =? gdim)%nat then -1 else 0.
Definition plane_gap (plane_loc x : R) : R := x + plane_loc.

(** ** nitsche_custom.py *)
(** nitsche_custom.py:122-124, 167-168: consts. *)
Definition custom_consts (gdim : nat) (E gamma theta : R) : list R := [E * gamma; theta] ++ repeat 0 (gdim - 1) ++ [1].
(** nitsche_custom.py:185-192, 210, 213 and 233-237: the row of one facet; [qp] its quadrature points, [u] and
    [grad] the packed displacement and gradient. *)
Definition custom_row (gdim nq : nat) (mu lmbda h plane_loc : R) (qp u grad : list R) : list R :=
  [mu; lmbda; h] ++ pack_gap_plane gdim nq 1 (- plane_loc) qp ++ u ++ grad.
