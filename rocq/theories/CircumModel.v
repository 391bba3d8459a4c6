(** Model of pack_circumradius: one cell size per (cell, local facet) pair.
    Simplification: meshes with equal topological and geometric dimension. *)
From Coq Require Import List Arith Reals.
Import ListNotations.
From Verif Require Import Prelude RSum GeomModel.
Local Open Scope R_scope.

(** The cell types that matter here (switch at geometric_quantities.cpp:163-239). *)
Inductive cell_kind := Ctriangle | Ctetrahedron | Cquadrilateral | Chexahedron | Cprism | Cpyramid | Cinterval.

Inductive circum_error := non_affine | unsupported_cell.

(** error_handling.h:17-19 and error_handling.cpp:10-18 check_cell_type. *)
Definition cell_supported (c : cell_kind) : bool :=
  match c with Cprism | Cpyramid | Cinterval => false | _ => true end.

Record circum_mesh := {
  cm_kind : cell_kind;
  cm_affine : bool;                       (* cmap.is_affine() *)
  cm_gdim : nat;
  cm_nodes : nat;                         (* cmap.dim() *)
  cm_dofmap : list (list nat);            (* geometry.dofmap() *)
  cm_x : list R;                          (* geometry.x(), three numbers per node *)
  cm_dphi : nat -> nat -> nat -> R        (* tabulated derivatives: local facet (one midpoint each), direction, node *)
}.

Section Circum.
  Variable m : circum_mesh.

  (** coefficients.cpp:618-629: the coordinates of the nodes of a cell. *)
  Definition cell_nodes (cell : nat) (j i : nat) : R :=
    nth (3 * nth j (nth cell (cm_dofmap m) []) 0%nat + i)%nat (cm_x m) 0.

  (** coefficients.cpp:631-639 (DOLFINx compute_jacobian): J(i, k) accumulates
      x(j, i) * dphi(k, j) from zero. *)
  Definition facet_jacobian (cell facet : nat) (i k : nat) : R :=
    for_loop (cm_nodes m) (fun j acc => acc + cell_nodes cell j i * cm_dphi m facet k j) 0.

  (** coefficients.cpp:640-642 (DOLFINx compute_jacobian_determinant). *)
  Definition determinant (gdim : nat) (J : nat -> nat -> R) : R :=
    match gdim with
    | 2%nat => J 0%nat 0%nat * J 1%nat 1%nat - J 0%nat 1%nat * J 1%nat 0%nat
    | _ => J 0%nat 0%nat * (J 1%nat 1%nat * J 2%nat 2%nat - J 1%nat 2%nat * J 2%nat 1%nat)
           - J 0%nat 1%nat * (J 1%nat 0%nat * J 2%nat 2%nat - J 1%nat 2%nat * J 2%nat 0%nat)
           + J 0%nat 2%nat * (J 1%nat 0%nat * J 2%nat 1%nat - J 1%nat 1%nat * J 2%nat 0%nat)
    end.

  (** geometric_quantities.cpp:163-239: the switch over cell types. *)
  Definition cell_circumradius (x : nat -> nat -> R) (detJ : R) : R + circum_error :=
    match cm_kind m with
    | Ctriangle => inl (circumradius_triangle x detJ)
    | Ctetrahedron => inl (circumradius_tetrahedron x detJ)
    | _ => inr unsupported_cell
    end.

  (** coefficients.cpp:612-644: the loop over the pairs. *)
  Fixpoint circumradius_loop (facets : list (nat * nat)) (out : list R) : list R + circum_error :=
    match facets with
    | [] => inl out
    | (cell, facet) :: rest =>
        match cell_circumradius (cell_nodes cell) (determinant (cm_gdim m) (facet_jacobian cell facet)) with
        | inl r => circumradius_loop rest (out ++ [r])
        | inr e => inr e
        end
    end.

  (** coefficients.cpp:556-648 pack_circumradius. *)
  Definition pack_circumradius (facets : list (nat * nat)) : list R + circum_error :=
    if negb (cm_affine m) then inr non_affine
    else if negb (cell_supported (cm_kind m)) then inr unsupported_cell
    else circumradius_loop facets [].
End Circum.
