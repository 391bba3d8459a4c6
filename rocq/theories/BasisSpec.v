(** Gradients of functions of several variables, for the theorems about basis functions. *)
From Coq Require Import List Arith Reals.
Import ListNotations.
From Verif Require Import Prelude RSum RayModel KernelModel DistanceModel GapSpec.
Local Open Scope R_scope.

(** [f], a function of [n] coordinates, has gradient [g] at [x]: along every curve
    through [x] with velocity [v] its derivative is g . v. *)
Definition has_gradient (n : nat) (f : list R -> R) (x : list R) (g : nat -> R) : Prop :=
  forall (curve : R -> list R) (v : nat -> R),
    curve 0 = x -> (forall t, length (curve t) = n) ->
    (forall i, (i < n)%nat -> derivable_pt_lim (fun t => nth i (curve t) 0) 0 (v i)) ->
    derivable_pt_lim (fun t => f (curve t)) 0 (rsum n (fun i => g i * v i)).

(** The point of a cell with reference coordinates [X]. *)
Definition cell_point (m : mesh_data) (cell : nat) (X : list R) : list R := map (geometry_map m cell X) (seq 0 (m_gdim m)).

(** The coordinate element's tables are what they say: the derivative tables hold the
    gradients of the basis functions. *)
Definition geometry_tables (m : mesh_data) (X : list R) : Prop :=
  forall a, (a < m_nodes m)%nat -> has_gradient (m_tdim m) (fun Y => m_phi m Y a) X (fun d => m_dphi m X d a).
