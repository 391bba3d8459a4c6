(** Model of the class ContactProblem
    (python/dolfinx_contact/general_contact/contact_problem.py) (arrays of contact_problem.py:97-465). *)
From Coq Require Import List Arith Lia Bool Reals.
Import ListNotations.
From Verif Require Import Prelude LayoutModel.
Local Open Scope R_scope.

Definition matrix := list (list R).

(** numpy slice assignment [M[:nrows, a:b] = X] on one row and on the array.  The
    shapes agree in every use (numpy raises otherwise); entries of [X] that do not
    exist are read as 0 here (contact_problem.py:193-372). *)
Definition splice (a b : nat) (x row : list R) : list R :=
  map (fun c => if (a <=? c)%nat && (c <? b)%nat then nth (c - a) x 0 else nth c row 0) (seq 0 (length row)).
Definition write_block (nrows : nat) (blk : nat * nat) (X M : matrix) : matrix :=
  map (fun r => if (r <? nrows)%nat then splice (fst blk) (snd blk) (nth r X []) (nth r M []) else nth r M [])
      (seq 0 (length M)).
(** [M[:, a:b]] (contact_problem.py:450-465). *)
Definition read_block (blk : nat * nat) (M : matrix) : matrix :=
  map (fun row => map (fun c => nth c row 0) (seq (fst blk) (snd blk - fst blk))) M.
(** [A + B] for arrays of equal shape (contact_problem.py:193-320). *)
Definition add_matrix (A B : matrix) : matrix :=
  map (fun r => map (fun c => nth c (nth r A []) 0 + nth c (nth r B []) 0) (seq 0 (length (nth r A [])))) (seq 0 (length A)).
Definition zeros (n m : nat) : matrix := repeat (repeat 0 m) n.

Section ContactProblem.
  (** Finite element functions, submesh geometries and contact maps are abstract. *)
  Context {F G D : Type}.

  (** Calls into C++: geometry update (contact_problem.py:330), contact search
      (create_distance_map of every pair), and the packing routines by pair. *)
  Context (move : G -> F -> G) (detect : G -> D)
    (pack_gap pack_normals pack_test : nat -> G -> D -> matrix)
    (pack_u pack_grad : nat -> F -> matrix) (pack_u_opp : nat -> G -> D -> F -> matrix)
    (pack_param : nat -> F -> matrix) (pack_h : nat -> matrix).
  (** Number of pairs, rows (len(entities[i])), owned facets by pair; sizes. *)
  Context (num_pairs : nat) (num_rows num_local : nat -> nat) (nq nd gdim : nat).

  (** The dictionary handed to generate_contact_data (193-217) (contact_problem.py:193-217). *)
  Record coefficient_dict := mkDict { d_mu : option F; d_lambda : option F; d_fric : option F; d_u : option F; d_du : option F }.

  (** Object state: submesh geometry and contact map (in the C++ base class),
      coeffs, _grad_u, _consts; [cp_ready] says whether the attribute
      _num_q_points exists (set at 267) (contact_problem.py:97-147). *)
  Record cp_state := mkCP { cp_geom : G; cp_map : D; cp_coeffs : list matrix; cp_grad : list matrix;
                            cp_consts : option (R * R); cp_ready : bool }.

  (** contact_problem.py:97-109: __init__ detects contact once and starts without
      coefficients. *)
  Definition cp_init (g : G) : cp_state := mkCP g (detect g) [] [] None false.

  (** [for i in range(num_pairs): coeffs[i] = ...]; every iteration uses only pair
      i, so the loop is written as a map (contact_problem.py:193-372). *)
  Definition each_pair (f : nat -> matrix -> matrix) (l : list matrix) : list matrix :=
    map (fun i => f i (nth i l [])) (seq 0 num_pairs).

  (** max_links() is the number of quadrature points once contact was detected
      (Contact.cpp:338). *)
  Definition ml : nat := nq.
  Definition numcoeffs : nat := contact_coefficients_size nq nd gdim gdim ml.

  (** contact_problem.py:111-147 update_contact_data. *)
  Definition update_data (du : F) (s : cp_state) : cp_state :=
    if negb (cp_ready s) then s else
    mkCP (cp_geom s) (cp_map s)
      (each_pair (fun i M =>
         let M := write_block (length M) (py_u nq nd gdim ml) (pack_u i du) M in
         let M := write_block (length M) (py_grad_u nq nd gdim ml) (add_matrix (pack_grad i du) (nth i (cp_grad s) [])) M in
         write_block (num_local i) (py_u_opp nq nd gdim ml) (pack_u_opp i (cp_geom s) (cp_map s) du) M) (cp_coeffs s))
      (cp_grad s) (cp_consts s) true.

  (** contact_problem.py:162-191 retrieve_material_parameters: the functions in
      the order of the keys list; None = RuntimeError. *)
  Definition material_keys (d : coefficient_dict) : option (list F) :=
    match d_mu d with
    | None => None
    | Some mu =>
        match d_lambda d with
        | None => None
        | Some lam => Some ([mu; lam] ++ match d_fric d with Some f => [f] | None => [] end)
        end
    end.

  (** contact_problem.py:252-262: columns 0.. from the keys, column 3 is h. *)
  Definition write_params (i : nat) (keys : list F) (M : matrix) : matrix :=
    let M := for_loop (length keys) (fun j M =>
        match nth_error keys j with
        | Some f => write_block (length M) (j, j + 1)%nat (pack_param i f) M
        | None => M
        end) M in
    write_block (length M) (3, 4)%nat (pack_h i) M.

  (** contact_problem.py:193-320 generate_contact_data.  The generated kernels are
      not part of the state.  An exception leaves the state as it is then. *)
  Definition generate (d : coefficient_dict) (gamma theta : R) (s : cp_state) : cp_state :=
    let s := mkCP (cp_geom s) (cp_map s) (cp_coeffs s) (cp_grad s) (Some (gamma, theta)) (cp_ready s) in
    match material_keys d with
    | None => s
    | Some keys =>
        let new_model := (length (cp_coeffs s) =? 0)%nat in
        let coeffs := if new_model then map (fun i => zeros (num_rows i) numcoeffs) (seq 0 num_pairs) else cp_coeffs s in
        let map' := detect (cp_geom s) in
        let coeffs := each_pair (fun i M => write_params i keys M) coeffs in
        let coeffs := each_pair (fun i M =>
          let normals := pack_normals i (cp_geom s) map' in
          let M := write_block (num_local i) (py_gap nq gdim) (pack_gap i (cp_geom s) map') M in
          let M := write_block (num_local i) (py_normals nq gdim) normals M in
          let M := write_block (num_local i) (py_test nq nd gdim ml) (pack_test i (cp_geom s) map') M in
          if new_model then write_block (num_local i) (py_old_normals_init nq gdim numcoeffs) normals M else M) coeffs in
        let grad := map (fun i => match d_u d with
                                  | Some u => pack_grad i u
                                  | None => zeros (num_rows i) (nq * gdim * gdim)
                                  end) (seq 0 num_pairs) in
        let s' := mkCP (cp_geom s) map' coeffs grad (cp_consts s) true in
        match d_du d with Some du => update_data du s' | None => s' end
    end.

  (** contact_problem.py:322-372 update_contact_detection.  Before the first
      successful generation _num_q_points is missing: the geometry and the map
      have changed when AttributeError is raised. *)
  Definition update_detection (u : F) (s : cp_state) : cp_state :=
    let g := move (cp_geom s) u in
    let map' := detect g in
    if negb (cp_ready s) then mkCP g map' (cp_coeffs s) (cp_grad s) (cp_consts s) false else
    let coeffs := each_pair (fun i M =>
        write_block (length M) (py_old_normals_update nq nd gdim ml numcoeffs) (read_block (py_old_normals_source nq gdim) M) M)
        (cp_coeffs s) in
    let coeffs := each_pair (fun i M =>
        let M := write_block (num_local i) (py_gap nq gdim) (pack_gap i g map') M in
        let M := write_block (num_local i) (py_normals nq gdim) (pack_normals i g map') M in
        write_block (num_local i) (py_test nq nd gdim ml) (pack_test i g map') M) coeffs in
    mkCP g map' coeffs (map (fun i => pack_grad i u) (seq 0 num_pairs)) (cp_consts s) true.

  (** contact_problem.py:374-383 update_nitsche_parameters (AttributeError when
      _consts does not exist). *)
  Definition update_nitsche (gamma theta : R) (s : cp_state) : cp_state :=
    match cp_consts s with
    | None => s
    | Some _ => mkCP (cp_geom s) (cp_map s) (cp_coeffs s) (cp_grad s) (Some (gamma, theta)) (cp_ready s)
    end.

  (** Contact.cpp:776-816 crop_invalid_points of the base class: the contact map
      is replaced by some other one (see CropModel); coefficients stay.  The method
      of the same name at contact_problem.py:450-465 never gets here, see
      CropMethodModel. *)
  Definition crop_map (d : D) (s : cp_state) : cp_state :=
    mkCP (cp_geom s) d (cp_coeffs s) (cp_grad s) (cp_consts s) (cp_ready s).

  (** Method calls on one object, in any order (the methods at contact_problem.py:111-465). *)
  Inductive call :=
  | CallGenerate (d : coefficient_dict) (gamma theta : R)
  | CallUpdateData (du : F)
  | CallDetection (u : F)
  | CallNitsche (gamma theta : R)
  | CallCrop (d : D).
  Definition do_call (s : cp_state) (c : call) : cp_state :=
    match c with
    | CallGenerate d gamma theta => generate d gamma theta s
    | CallUpdateData du => update_data du s
    | CallDetection u => update_detection u s
    | CallNitsche gamma theta => update_nitsche gamma theta s
    | CallCrop d => crop_map d s
    end.
  Definition run_calls (g : G) (cs : list call) : cp_state := fold_left do_call cs (cp_init g).
End ContactProblem.
