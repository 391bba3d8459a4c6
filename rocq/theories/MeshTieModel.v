(** Model of the class MeshTie (cpp/MeshTie.cpp): generation and update of kernel
    data and the choice of kernels in the assembly. *)
From Coq Require Import List Arith Lia Bool Reals.
Import ListNotations.
From Verif Require Import Prelude LayoutModel.
Local Open Scope R_scope.

(** std::copy_n(src + so, n, dst + doff) (MeshTie.cpp:115-307). *)
Definition copy_n (src : list R) (so n : nat) (dst : list R) (doff : nat) : list R :=
  for_loop n (fun k d => upd d (doff + k) (nth (so + k) src 0)) dst.
(** std::vector::resize: keeps the leading entries, new ones are zero (MeshTie.cpp:115-307). *)
Definition resize (l : list R) (n : nat) : list R := firstn n l ++ repeat 0 (n - length l).

Inductive problem_type := Elasticity | Poisson | ThermoElasticity | OtherProblem.
(** std::invalid_argument is the only exception thrown here (MeshTie.cpp:467-532). *)
Inductive result := Done | InvalidArgument.

Section MeshTie.
  (** Finite element functions. *)
  Context {F : Type}.
  (** Calls into the base class and the packing routines, by pair; each returns
      the flat array and its stride per facet.  [pack_coeff0]: degree 0
      coefficient; [pack_q], [pack_grad_q]: value and gradient at the quadrature
      points; [pack_opp], [pack_grad_opp]: on the connected surface; test functions
      of the space V, which is given by [vec] (elasticity) or not (Poisson). *)
  Context (pack_h : nat -> list R) (pack_coeff0 pack_q pack_grad_q pack_opp pack_grad_opp : nat -> F -> list R * nat)
    (pack_test pack_grad_test : bool -> nat -> list R * nat).
  (** Sizes: pairs, facets owned by the process by pair, quadrature points,
      dofs per cell, dimension (also the block size of the displacement), links. *)
  Context (num_pairs : nat) (num_facets : nat -> nat) (nq nd gdim ml : nat).

  (** The map of coefficients by name (MeshTie.cpp:52-113). *)
  Record coefficients := { c_mu : option F; c_lambda : option F; c_alpha : option F; c_kdt : option F; c_u : option F; c_T : option F }.

  (** Members (MeshTie.h:145-175).  A kernel is represented by the strides it
      was generated with; None: not generated. *)
  Record tie_state := {
    kernel_rhs : option (list nat); kernel_thermo_el : option (list nat); kernel_jac : option (list nat);
    kernel_rhs_poisson : option (list nat); kernel_jac_poisson : option (list nat);
    coeffs : list (list R); coeffs_poisson : list (list R);
    consts : list R; consts_poisson : list R;
    cstride : nat; cstride_poisson : nat }.

  (** MeshTie.cpp:45-49, the part of the constructor that concerns this data. *)
  Definition tie_init : tie_state :=
    {| kernel_rhs := None; kernel_thermo_el := None; kernel_jac := None; kernel_rhs_poisson := None; kernel_jac_poisson := None;
       coeffs := repeat [] num_pairs; coeffs_poisson := repeat [] num_pairs; consts := []; consts_poisson := []; cstride := 0; cstride_poisson := 0 |}.

  (** for i in pairs: arr[i] = f i arr[i] (MeshTie.cpp:115-307). *)
  Definition for_pairs (f : nat -> list R -> list R) (arr : list (list R)) : list (list R) :=
    for_loop num_pairs (fun i a => upd a i (f i (nth i a []))) arr.
  (** Copy one packed row into row [e] (MeshTie.cpp:115-307). *)
  Definition put (p : list R * nat) (e stride off : nat) (d : list R) : list R :=
    copy_n (fst p) (e * snd p) (snd p) d (e * stride + off).

  (** MeshTie.cpp:115-227 generate_meshtie_data_matrix_only.  [al] is Some for
      ThermoElasticity. *)
  Definition generate_matrix_only (mu lm : F) (al : option F) (gamma theta : R) (s : tie_state) : tie_state :=
    let cstrides := match al with Some _ => thermo_strides nq nd gdim gdim ml | None => elastic_strides nq nd gdim gdim ml end in
    let stride := sum_nat cstrides in
    let arrs := for_pairs (fun i d =>
        let d := resize d (stride * num_facets i) in
        let d := for_loop (num_facets i) (fun e d =>
            let d := put (pack_coeff0 i mu) e stride 0 d in
            let offset := snd (pack_coeff0 i mu) in
            let d := put (pack_coeff0 i lm) e stride offset d in
            let offset := (offset + snd (pack_coeff0 i lm))%nat in
            let d := put (pack_h i, 1%nat) e stride offset d in
            let offset := nth 0 cstrides 0%nat in
            let d := put (pack_test true i) e stride offset d in
            let offset := (offset + snd (pack_test true i))%nat in
            put (pack_grad_test true i) e stride offset d) d in
        match al with
        | Some a => for_loop (num_facets i) (fun e d => put (pack_coeff0 i a) e stride 3 d) d
        | None => d
        end) (coeffs s) in
    {| kernel_rhs := Some cstrides; kernel_jac := Some cstrides;
       kernel_thermo_el := match al with Some _ => Some cstrides | None => kernel_thermo_el s end;
       kernel_rhs_poisson := kernel_rhs_poisson s; kernel_jac_poisson := kernel_jac_poisson s;
       coeffs := arrs; coeffs_poisson := coeffs_poisson s; consts := [gamma; theta]; consts_poisson := consts_poisson s;
       cstride := stride; cstride_poisson := cstride_poisson s |}.

  (** MeshTie.cpp:382-465 generate_poisson_data_matrix_only. *)
  Definition generate_poisson (kdt : F) (gamma theta : R) (s : tie_state) : tie_state :=
    let cstrides := poisson_strides nq nd gdim ml in
    let stride := sum_nat cstrides in
    let arrs := for_pairs (fun i d =>
        let d := resize d (stride * num_facets i) in
        for_loop (num_facets i) (fun e d =>
            let d := put (pack_h i, 1%nat) e stride 0 d in
            let offset := 1%nat in
            let d := put (pack_coeff0 i kdt) e stride offset d in
            let offset := (offset + snd (pack_coeff0 i kdt))%nat in
            let d := put (pack_test false i) e stride offset d in
            let offset := (offset + snd (pack_test false i))%nat in
            put (pack_grad_test false i) e stride offset d) d) (coeffs_poisson s) in
    {| kernel_rhs := kernel_rhs s; kernel_jac := kernel_jac s; kernel_thermo_el := kernel_thermo_el s;
       kernel_rhs_poisson := Some cstrides; kernel_jac_poisson := Some cstrides;
       coeffs := coeffs s; coeffs_poisson := arrs; consts := consts s; consts_poisson := [gamma; theta];
       cstride := cstride s; cstride_poisson := stride |}.

  (** MeshTie.cpp:309-343 update_function_data and 345-380 update_gradient_data. *)
  Definition update_function_data (u : F) (arr : list (list R)) (offset0 offset1 size : nat) : list (list R) :=
    for_pairs (fun i d => for_loop (num_facets i) (fun e d =>
        put (pack_opp i u) e size offset1 (put (pack_q i u) e size offset0 d)) d) arr.
  Definition update_gradient_data (u : F) (arr : list (list R)) (offset0 offset1 size : nat) : list (list R) :=
    for_pairs (fun i d => for_loop (num_facets i) (fun e d =>
        put (pack_grad_opp i u) e size offset1 (put (pack_grad_q i u) e size offset0 d)) d) arr.

  Definition with_coeffs (arr : list (list R)) (s : tie_state) : tie_state :=
    {| kernel_rhs := kernel_rhs s; kernel_thermo_el := kernel_thermo_el s; kernel_jac := kernel_jac s; kernel_rhs_poisson := kernel_rhs_poisson s;
       kernel_jac_poisson := kernel_jac_poisson s; coeffs := arr; coeffs_poisson := coeffs_poisson s; consts := consts s; consts_poisson := consts_poisson s;
       cstride := cstride s; cstride_poisson := cstride_poisson s |}.
  Definition with_coeffs_poisson (arr : list (list R)) (s : tie_state) : tie_state :=
    {| kernel_rhs := kernel_rhs s; kernel_thermo_el := kernel_thermo_el s; kernel_jac := kernel_jac s; kernel_rhs_poisson := kernel_rhs_poisson s;
       kernel_jac_poisson := kernel_jac_poisson s; coeffs := coeffs s; coeffs_poisson := arr; consts := consts s; consts_poisson := consts_poisson s;
       cstride := cstride s; cstride_poisson := cstride_poisson s |}.

  (** MeshTie.cpp:229-307 update_kernel_data.  The dofs per cell and the block
      size are read from the function; they are taken to be those of the space V.
      Writes outside the arrays (undefined in C++) are dropped here. *)
  Definition update_kernel_data (c : coefficients) (pt : problem_type) (s : tie_state) : result * tie_state :=
    match pt with
    | Elasticity =>
        match c_u c with
        | None => (InvalidArgument, s)
        | Some u =>
            let offset0 := (3 + 2 * (nq * ml * gdim * nd))%nat in
            let offset1 := (offset0 + (1 + gdim) * nq * gdim)%nat in
            let arr := update_function_data u (coeffs s) offset0 offset1 (cstride s) in
            let offset0 := (offset0 + nq * gdim)%nat in
            let offset1 := (offset1 + nq * gdim)%nat in
            (Done, with_coeffs (update_gradient_data u arr offset0 offset1 (cstride s)) s)
        end
    | Poisson =>
        match c_T c with
        | None => (InvalidArgument, s)
        | Some T =>
            let offset0 := (2 + (1 + gdim) * (nq * ml * nd))%nat in
            let offset1 := (offset0 + (1 + gdim) * nq)%nat in
            let arr := update_function_data T (coeffs_poisson s) offset0 offset1 (cstride_poisson s) in
            let offset0 := (offset0 + nq)%nat in
            let offset1 := (offset1 + nq)%nat in
            (Done, with_coeffs_poisson (update_gradient_data T arr offset0 offset1 (cstride_poisson s)) s)
        end
    | ThermoElasticity =>
        match c_u c with
        | None => (InvalidArgument, s)
        | Some u =>
            match c_T c with
            | None => (InvalidArgument, s)
            | Some T =>
                let offset0 := (4 + 2 * (nq * ml * gdim * nd))%nat in
                let offset1 := (offset0 + (1 + gdim) * nq * gdim)%nat in
                let arr := update_function_data u (coeffs s) offset0 offset1 (cstride s) in
                let offset0 := (offset0 + nq * gdim)%nat in
                let offset1 := (offset1 + nq * gdim)%nat in
                let arr := update_gradient_data u arr offset0 offset1 (cstride s) in
                let offset0 := (offset1 + nq * gdim * gdim)%nat in
                let offset1 := (offset0 + nq)%nat in
                (Done, with_coeffs (update_function_data T arr offset0 offset1 (cstride s)) s)
            end
        end
    | OtherProblem => (InvalidArgument, s)
    end.

  Definition given {A} (o : option A) : bool := match o with Some _ => true | None => false end.

  (** MeshTie.cpp:52-113 generate_kernel_data. *)
  Definition generate_kernel_data (pt : problem_type) (c : coefficients) (gamma theta : R) (s : tie_state) : result * tie_state :=
    match pt with
    | Elasticity =>
        match c_mu c with None => (InvalidArgument, s) | Some mu =>
        match c_lambda c with None => (InvalidArgument, s) | Some lm =>
          let s := generate_matrix_only mu lm None gamma theta s in
          if given (c_u c) then update_kernel_data c pt s else (Done, s)
        end end
    | Poisson =>
        match c_kdt c with None => (InvalidArgument, s) | Some kdt =>
          let s := generate_poisson kdt gamma theta s in
          if given (c_T c) then update_kernel_data c pt s else (Done, s)
        end
    | ThermoElasticity =>
        match c_mu c with None => (InvalidArgument, s) | Some mu =>
        match c_lambda c with None => (InvalidArgument, s) | Some lm =>
        match c_alpha c with None => (InvalidArgument, s) | Some al =>
          let s := generate_matrix_only mu lm (Some al) gamma theta s in
          if given (c_u c) then update_kernel_data c pt s else (Done, s)
        end end end
    | OtherProblem => (InvalidArgument, s)
    end.

  (** MeshTie.cpp:467-499 assemble_vector and 501-532 assemble_matrix: the calls
      of Contact::assemble_vector / assemble_matrix, as (pair, kernel, row data,
      row length, constants).  None as kernel: an empty std::function is called,
      which throws std::bad_function_call. *)
  Definition assembly_call : Type := nat * option (list nat) * list R * nat * list R.
  Definition assemble_vector_calls (pt : problem_type) (s : tie_state) : result * list assembly_call :=
    match pt with
    | Elasticity => (Done, map (fun i => (i, kernel_rhs s, nth i (coeffs s) [], cstride s, consts s)) (seq 0 num_pairs))
    | Poisson => (Done, map (fun i => (i, kernel_rhs_poisson s, nth i (coeffs_poisson s) [], cstride_poisson s, consts_poisson s)) (seq 0 num_pairs))
    | ThermoElasticity =>
        (Done, flat_map (fun i => [(i, kernel_rhs s, nth i (coeffs s) [], cstride s, consts s);
                                   (i, kernel_thermo_el s, nth i (coeffs s) [], cstride s, consts s)]) (seq 0 num_pairs))
    | OtherProblem => (InvalidArgument, [])
    end.
  Definition assemble_matrix_calls (pt : problem_type) (s : tie_state) : result * list assembly_call :=
    match pt with
    | Elasticity | ThermoElasticity => (Done, map (fun i => (i, kernel_jac s, nth i (coeffs s) [], cstride s, consts s)) (seq 0 num_pairs))
    | Poisson => (Done, map (fun i => (i, kernel_jac_poisson s, nth i (coeffs_poisson s) [], cstride_poisson s, consts_poisson s)) (seq 0 num_pairs))
    | OtherProblem => (InvalidArgument, [])
    end.

  (** Calls on one object (the methods at MeshTie.cpp:52-532). *)
  Inductive tie_call := TGenerate (pt : problem_type) (c : coefficients) (gamma theta : R) | TUpdate (pt : problem_type) (c : coefficients).
  Definition do_tie (s : tie_state) (k : tie_call) : tie_state :=
    match k with
    | TGenerate pt c gamma theta => snd (generate_kernel_data pt c gamma theta s)
    | TUpdate pt c => snd (update_kernel_data c pt s)
    end.
  Definition run_tie (cs : list tie_call) : tie_state := fold_left do_tie cs tie_init.
End MeshTie.
