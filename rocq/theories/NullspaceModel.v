(** Model of the near-nullspace builders (utils.cpp, helpers.py).  The vectors
    modelled are those handed to the external orthonormalisation. *)
From Coq Require Import List Arith Lia Bool Reals.
Import ListNotations.
From Verif Require Import Prelude.
Local Open Scope R_scope.

(** basis[v].mutable_array()[i] = val (utils.cpp:1151-1160). *)
Definition setb (b : list (list R)) (v i : nat) (val : R) : list (list R) := upd b v (upd (nth v b []) i val).

(** utils.cpp:1137: number of rigid motions per body. *)
Definition nullspace_dim (gdim : nat) : nat := if (gdim =? 2)%nat then 3%nat else 6%nat.

(** utils.cpp:1151-1160: block dofs of the cells with the tag, sorted, unique. *)
Definition body_dofs (cells : list nat) (cell_dofs : nat -> list nat) : list nat :=
  unique Nat.eqb (isort Nat.leb (flat_map cell_dofs cells)).

(** utils.cpp:1131-1203 build_nullspace_multibody up to the
    orthonormalisation.  [find tag]: cells with the tag; [x]: dof coordinates
    (3 per block); [n]: number of local blocks (owned and ghosts); the block
    size of the space is [gdim], which the code presumes when it writes
    gdim * dof + k. *)
Definition build_nullspace_multibody (gdim n : nat) (tags : list nat) (find : nat -> list nat)
    (cell_dofs : nat -> list nat) (x : list R) : list (list R) :=
  let dim := nullspace_dim gdim in
  for_loop (length tags) (fun j b =>
      let dofs := body_dofs (find (nth j tags 0%nat)) cell_dofs in
      let b := for_loop gdim (fun k b => for_each dofs (fun dof b => setb b (j * dim + k) (gdim * dof + k) 1) b) b in
      if (gdim =? 2)%nat then
        for_each dofs (fun dof b =>
            let xd c := nth (3 * dof + c) x 0 in
            let b := setb b (j * dim + gdim) (gdim * dof) (- xd 1%nat) in
            setb b (j * dim + gdim) (gdim * dof + 1) (xd 0%nat)) b
      else
        for_each dofs (fun dof b =>
            let xd c := nth (3 * dof + c) x 0 in
            let b := setb b (j * dim + gdim) (gdim * dof) (- xd 1%nat) in
            let b := setb b (j * dim + gdim) (gdim * dof + 1) (xd 0%nat) in
            let b := setb b (j * dim + 4) (gdim * dof) (xd 2%nat) in
            let b := setb b (j * dim + 4) (gdim * dof + 2) (- xd 0%nat) in
            let b := setb b (j * dim + 5) (gdim * dof + 2) (xd 1%nat) in
            setb b (j * dim + 5) (gdim * dof + 1) (- xd 2%nat)) b)
    (repeat (repeat 0 (gdim * n)) (dim * length tags)).

(** numpy: basis[v][idx] = vals, both arrays (helpers.py:282-340). *)
Definition set_all (b : list (list R)) (v : nat) (dofs : list nat) (idx : nat -> nat) (val : nat -> R) : list (list R) :=
  for_each dofs (fun dof b => setb b v (idx dof) (val dof)) b.

(** helpers.py:282-340 rigid_motions_nullspace_subdomains up to the
    orthonormalisation ([num_domains] vectors blocks are allocated; scatter_forward
    copies owned values to ghosts, which already hold them, and is left out). *)
Definition rigid_motions_nullspace_subdomains (gdim n num_domains : nat) (tags : list nat) (find : nat -> list nat)
    (cell_dofs : nat -> list nat) (x : list R) : list (list R) :=
  let dim := nullspace_dim gdim in
  let xc dof c := nth (3 * dof + c) x 0 in
  for_loop (length tags) (fun j b =>
      let dofs_block := body_dofs (find (nth j tags 0%nat)) cell_dofs in
      let dofs i dof := (gdim * dof + i)%nat in
      let b := for_loop gdim (fun i b => set_all b (j * dim + i) dofs_block (dofs i) (fun _ => 1)) b in
      if (gdim =? 2)%nat then
        let b := set_all b (j * dim + 2) dofs_block (dofs 0%nat) (fun d => - xc d 1%nat) in
        set_all b (j * dim + 2) dofs_block (dofs 1%nat) (fun d => xc d 0%nat)
      else
        let b := set_all b (j * dim + 3) dofs_block (dofs 0%nat) (fun d => - xc d 1%nat) in
        let b := set_all b (j * dim + 3) dofs_block (dofs 1%nat) (fun d => xc d 0%nat) in
        let b := set_all b (j * dim + 4) dofs_block (dofs 0%nat) (fun d => xc d 2%nat) in
        let b := set_all b (j * dim + 4) dofs_block (dofs 2%nat) (fun d => - xc d 0%nat) in
        let b := set_all b (j * dim + 5) dofs_block (dofs 2%nat) (fun d => xc d 1%nat) in
        set_all b (j * dim + 5) dofs_block (dofs 1%nat) (fun d => - xc d 2%nat))
    (repeat (repeat 0 (gdim * n)) (dim * num_domains)).

(** helpers.py:187-232 rigid_motions_nullspace: one body made of all cells;
    V.sub(i).dofmap.list lists gdim * block + i. *)
Definition rigid_motions_nullspace (gdim n : nat) (num_cells : nat) (cell_dofs : nat -> list nat) (x : list R) : list (list R) :=
  let xc dof c := nth (3 * dof + c) x 0 in
  let dofs_block := flat_map cell_dofs (seq 0 num_cells) in
  let dofs i dof := (gdim * dof + i)%nat in
  let b := repeat (repeat 0 (gdim * n)) (nullspace_dim gdim) in
  let b := for_loop gdim (fun i b => set_all b i dofs_block (dofs i) (fun _ => 1)) b in
  if (gdim =? 2)%nat then
    let b := set_all b 2 dofs_block (dofs 0%nat) (fun d => - xc d 1%nat) in
    set_all b 2 dofs_block (dofs 1%nat) (fun d => xc d 0%nat)
  else
    let b := set_all b 3 dofs_block (dofs 0%nat) (fun d => - xc d 1%nat) in
    let b := set_all b 3 dofs_block (dofs 1%nat) (fun d => xc d 0%nat) in
    let b := set_all b 4 dofs_block (dofs 0%nat) (fun d => xc d 2%nat) in
    let b := set_all b 4 dofs_block (dofs 2%nat) (fun d => - xc d 0%nat) in
    let b := set_all b 5 dofs_block (dofs 2%nat) (fun d => xc d 1%nat) in
    set_all b 5 dofs_block (dofs 1%nat) (fun d => - xc d 2%nat).

(** helpers.py:243-279 near_nullspace_subdomains up to the orthonormalisation:
    the block dofs index the unrolled vector directly. *)
Definition near_nullspace_subdomains (bs n num_domains : nat) (tags : list nat) (find : nat -> list nat)
    (cell_dofs : nat -> list nat) : list (list R) :=
  for_loop (length tags) (fun j b =>
      set_all b j (body_dofs (find (nth j tags 0%nat)) cell_dofs) (fun dof => dof) (fun _ => 1))
    (repeat (repeat 0 (bs * n)) num_domains).
