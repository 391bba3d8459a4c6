(** Model of evaluate_basis_shape and evaluate_basis_functions (cpp/utils.cpp:366-583):
    values and physical derivatives of the basis functions at reference points of cells. *)
From Coq Require Import List Arith ZArith Bool Reals.
Import ListNotations.
From Verif Require Import Prelude RSum RayModel KernelModel DistanceModel.
Local Open Scope R_scope.

(** What is read from the element of the function space.  Tabulation is a function of
    the reference point (read at utils.cpp:382-583). *)
Record basis_element := mkBasisElement {
  be_functions : nat;                       (* space_dimension / bs *)
  be_vs : nat;                              (* reference_value_size / bs *)
  be_bs : nat;
  be_sub_elements : nat;                    (* num_sub_elements *)
  be_table : list R -> nat -> nat -> nat -> R; (* element->tabulate: point, derivative, function, component *)
  (* dof transformation of a cell, then basix' map of the element *)
  be_transform : nat -> (nat -> nat -> R) -> nat -> nat -> R;
  be_push_forward : matrix -> R -> matrix -> (nat -> nat -> R) -> nat -> nat -> R }.

(** utils.cpp:366-380; the last extent is value_size / bs. *)
Definition evaluate_basis_shape (m : mesh_data) (e : basis_element) (num_points num_derivatives : nat) : nat * nat * nat * nat :=
  ((num_derivatives * m_gdim m + 1)%nat, num_points, be_functions e, be_vs e).

(** Position in a row-major array of extents (., nc, nd, vs) (utils.cpp:505, 539-541, 546-579). *)
Definition basis_index (nc nd vs d p f n : nat) : nat := (((d * nc + p) * nd + f) * vs + n)%nat.

Section Evaluate.
  Context (m : mesh_data) (e : basis_element).
  Notation gdim := (m_gdim m).
  Notation tdim := (m_tdim m).
  Notation nd := (be_functions e).
  Notation vs := (be_vs e).

  (** utils.cpp:537-564: table [j] of point [X], transformed for the cell and pushed forward.
      Simplified: the code transforms the table in place; each (j, point) is visited
      once. *)
  Definition pushed (cell : nat) (X : list R) (J K : matrix) (detJ : R) (j : nat) : nat -> nat -> R :=
    be_push_forward e J detJ K (be_transform e cell (be_table e X j)).

  (** utils.cpp:507-582, one point. *)
  Definition evaluate_point (x : list R) (cells : list Z) (num_derivatives p : nat) (out : list R) : list R :=
    let nc := length cells in
    let cell_index := nth p cells 0%Z in
    if Z.ltb cell_index 0 then out
    else
      let cell := Z.to_nat cell_index in
      let X := slice x (p * tdim) tdim in
      let J := cell_jacobian m X (cell_coordinates m cell) in
      let K := jacobian_inverse gdim tdim J in
      let U := pushed cell X J K (m_determinant m J) in
      let out := for_loop nd (fun f out =>
        for_loop vs (fun n out => upd out (basis_index nc nd vs 0 p f n) (U 0%nat f n)) out) out in
      for_loop (gdim * num_derivatives) (fun k out =>
        for_loop (num_derivatives * tdim) (fun j out =>
          for_loop nd (fun f out =>
            for_loop vs (fun n out => addto out (basis_index nc nd vs (k + 1) p f n) (K j k * U (j + 1)%nat f n)) out) out) out) out.

  (** utils.cpp:382-583.  None: std::invalid_argument (lines 398-402, 432-437).  The
      assertion num_derivatives < 2 is a hypothesis of the theorems. *)
  Definition evaluate_basis_functions (x : list R) (cells : list Z) (basis_values : list R) (num_derivatives : nat) : option (list R) :=
    if negb (length x / tdim =? length cells)%nat then None
    else if (length x =? 0)%nat then Some basis_values
    else if ((1 <? be_sub_elements e) && negb (be_sub_elements e =? be_bs e))%nat then None
    else Some (for_loop (length cells) (evaluate_point x cells num_derivatives) (repeat 0 (length basis_values))).
End Evaluate.
