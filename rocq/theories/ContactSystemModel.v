(** The ContactProblem object with its packing routines put in: what its
    assemble_vector and assemble_matrix add for all pairs and kernels, as
    functions of the displacement increment. *)
From Coq Require Import List Arith ZArith Bool Reals.
Import ListNotations.
From Verif Require Import Prelude EntitiesModel PackingModel AssemblyModel LayoutModel RayModel KernelModel ContactKernelModel CoefficientsModel TieSystemModel ContactProblemModel.
Local Open Scope R_scope.

(** wrappers.cpp:280-330 and 429-480: packed values and stride handed to Python
    as an array with one row of length [stride] per facet. *)
Definition rows_of (n : nat) (p : list R * nat) : list (list R) :=
  map (fun r => map (fun c => nth (r * snd p + c)%nat (fst p) 0) (seq 0 (snd p))) (seq 0 n).

(** contact_problem.py:26-29 *)
Inductive friction_law := Frictionless | Coulomb | Tresca.
(** contact_problem.py:218-237: kinds of the generated kernels, in order. *)
Definition vector_kinds (law : friction_law) : list kernel_type :=
  [Rhs] ++ match law with Coulomb => [CoulombRhs] | Tresca => [TrescaRhs] | Frictionless => [] end.
Definition matrix_kinds (law : friction_law) : list kernel_type :=
  [Jac] ++ match law with Coulomb => [CoulombJac] | Tresca => [TrescaJac] | Frictionless => [] end.

Section System.
  (** Submesh geometries are abstract; a contact map gives, by pair, the contact
      facet of each quadrature point (flat, negative: none). *)
  Context {G : Type}.
  Notation contact_map := (nat -> list Z).
  (** Displacement space and pairs ([surfaces] holds what does not depend on the
      contact map); basis functions of the cells of the other surface at the
      contact points, by geometry, map, pair, point and function. *)
  Context (pd : pack_data) (num_pairs : nat) (surfaces : nat -> tie_pair) (basis : G -> contact_map -> nat -> nat -> nat -> R).
  (** len(entities[i]), ghosts included. *)
  Context (num_rows : nat -> nat).
  (** As in ContactProblemModel.  Functions are coefficient vectors. *)
  Context (move : G -> list R -> G) (detect : G -> contact_map) (pack_gap pack_normals : nat -> G -> contact_map -> list (list R))
    (pack_param : nat -> list R -> list (list R)) (pack_h : nat -> list (list R)).
  Notation nq := (pd_nq pd).
  Notation nd := (pd_functions pd).
  Notation gdim := (pd_gdim pd).

  (** A pair with the contact map and the contact points in place:
      Contact.cpp:1171-1172 and 1289-1290 read the map of the pair. *)
  Definition with_map (a : assembly) (facets : list Z) : assembly :=
    {| a_max_links := a_max_links a; a_ndofs := a_ndofs a; a_bs := a_bs a; a_gdim := a_gdim a; a_num_dofs_g := a_num_dofs_g a; a_x_dofmap := a_x_dofmap a; a_x := a_x a;
       a_dofs := a_dofs a; a_active := a_active a; a_local := a_local a; a_map := fun e => slice facets (e * nq) nq; a_facet_map := a_facet_map a; a_parent := a_parent a |}.
  Definition pair_at (g : G) (d : contact_map) (i : nat) : tie_pair :=
    let p := surfaces i in
    {| pr_asm := with_map (pr_asm p) (d i); pr_n_sub := pr_n_sub p; pr_nds := pr_nds p; pr_f_to_c := pr_f_to_c p; pr_dofs_sub := pr_dofs_sub p;
       pr_facets := d i; pr_basis := basis g d i; pr_grad := pr_grad p |}.

  Definition num_local (i : nat) : nat := a_local (pr_asm (surfaces i)).
  (** contact_problem.py:126-147 and 296-298: the calls of the packing routines. *)
  Definition cp_pack_u (i : nat) (u : list R) : list (list R) := rows_of (num_rows i) (tie_q pd surfaces i u).
  Definition cp_pack_grad (i : nat) (u : list R) : list (list R) := rows_of (num_rows i) (tie_grad_q pd surfaces i u).
  Definition cp_pack_u_opp (i : nat) (g : G) (d : contact_map) (u : list R) : list (list R) := rows_of (num_local i) (tie_opp pd (pair_at g d) i u).
  Definition cp_pack_test (i : nat) (g : G) (d : contact_map) : list (list R) := rows_of (num_local i) (tie_test_pack pd (pair_at g d) nq i).

  Notation state := (@cp_state G contact_map).
  (** The object after a history of calls, and after one more update_contact_data (contact_problem.py:110-465). *)
  Definition contact_after (g : G) (calls : list (@call (list R) contact_map)) : state :=
    run_calls move detect pack_gap pack_normals cp_pack_test cp_pack_u cp_pack_grad cp_pack_u_opp pack_param pack_h num_pairs num_rows num_local nq nd gdim g calls.
  Definition contact_updated (du : list R) (s : state) : state := update_data cp_pack_u cp_pack_grad cp_pack_u_opp num_pairs num_local nq nd gdim du s.

  (** contact_problem.py:403-448 and wrappers.cpp:251-279: for every pair, for
      every kernel, with the array of the pair, its number of columns and the
      constants [_consts].  (AttributeError without a generation.) *)
  Definition constants_of (s : state) : list R := match cp_consts s with Some (gamma, theta) => [gamma; theta] | None => [] end.
  Definition stride : nat := numcoeffs nq nd gdim.
  Definition contact_vector (kernels : list kernel_fn) (s : state) (b : list R) : list R :=
    for_loop num_pairs (fun i b =>
      for_each kernels (fun kernel b => assemble_vector (pr_asm (pair_at (cp_geom s) (cp_map s) i)) kernel (concat (nth i (cp_coeffs s) [])) stride (constants_of s) b) b) b.
  Definition contact_matrix (kernels : list kernel_fn) (s : state) : list insertion :=
    for_loop num_pairs (fun i out =>
      for_each kernels (fun kernel out => out ++ assemble_matrix (pr_asm (pair_at (cp_geom s) (cp_map s) i)) kernel (concat (nth i (cp_coeffs s) [])) stride (constants_of s)) out) [].
End System.
