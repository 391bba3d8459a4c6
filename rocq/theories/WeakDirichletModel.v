(** Model of weak_dirichlet and of the stress it is used with.  A form is the sum
    of its integrand over weighted points; a field is its value and gradient. *)
From Coq Require Import List Arith Reals.
Import ListNotations.
From Verif Require Import Prelude RSum.
Local Open Scope R_scope.

(** A field at a point: value (component) and gradient (component, direction) (used at helpers.py:77-82, 364-369). *)
Record field := { val : nat -> R; grad : nat -> nat -> R }.

(** helpers.py:77-78 epsilon: the symmetric part of the gradient. *)
Definition epsilon (v : field) (i j : nat) : R := (grad v i j + grad v j i) / 2.

(** helpers.py:81-82 sigma_func; [d] is len(v). *)
Definition sigma_func (d : nat) (mu lmbda : R) (v : field) (i j : nat) : R :=
  2 * mu * epsilon v i j + lmbda * rsum d (fun k => epsilon v k k) * (if (i =? j)%nat then 1 else 0).

(** ufl.inner of vectors and matrix times vector (used at helpers.py:365-369). *)
Definition inner (d : nat) (a b : nat -> R) : R := rsum d (fun i => a i * b i).
Definition apply_matrix (d : nat) (A : nat -> nat -> R) (n : nat -> R) (i : nat) : R := rsum d (fun j => A i j * n j).

(** A weighted point of the boundary measure [ds]: the cell it belongs to, the
    weight, the outward normal, and its number (fields are tables over it) (helpers.py:364-369). *)
Record bpoint := { bp_id : nat; bp_cell : nat; bp_weight : R; bp_normal : nat -> R }.

(** helpers.py:355-363: a piecewise constant function, zero at first, of which
    the entries of the owned cells are set to the cell sizes. *)
Definition cell_sizes (ncells nall : nat) (h_vals : list R) : list R :=
  for_loop ncells (fun c h => upd h c (nth c h_vals 0)) (repeat 0 nall).

(** helpers.py:365-369: the three boundary terms at one point. *)
Definition boundary_terms (d : nat) (sigma : field -> nat -> nat -> R) (gamma theta : R) (h : list R)
    (p : bpoint) (u v : field) (f : nat -> R) : R :=
  - inner d (apply_matrix d (sigma u) (bp_normal p)) (val v)
  - theta * inner d (apply_matrix d (sigma v) (bp_normal p)) (fun i => val u i - f i)
  + gamma / nth (bp_cell p) h 0 * inner d (fun i => val u i - f i) (val v).

(** helpers.py:351-370 weak_dirichlet: the form it is given plus the terms,
    evaluated at a displacement [u] and a test function [v]; [F] is the value of
    the given form for them. *)
Definition weak_dirichlet (d : nat) (sigma : field -> nat -> nat -> R) (gamma theta : R) (h : list R)
    (ds : list bpoint) (F : R) (u v : nat -> field) (f : nat -> nat -> R) : R :=
  F + lsum ds (fun p => bp_weight p * boundary_terms d sigma gamma theta h p (u (bp_id p)) (v (bp_id p)) (f (bp_id p))).
