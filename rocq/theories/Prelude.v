(** Shared vocabulary of the model: loops, arrays, sorting, prefix sums and
    adjacency lists.  These are models of C++/Python language constructs and of
    standard-library algorithms, not of functions of /repo. *)
From Coq Require Import List Arith Lia ZArith Bool Permutation Sorted.
Import ListNotations.

(** [for (auto a : l) body(a)] on a state. *)
Definition for_each {A S} (l : list A) (body : A -> S -> S) (s : S) : S :=
  fold_left (fun s a => body a s) l s.

(** [for (i = lo; i < lo + n; ++i) body(i)]. *)
Definition for_range {S} (lo n : nat) (body : nat -> S -> S) (s : S) : S :=
  for_each (seq lo n) body s.

(** [for (i = 0; i < n; ++i) body(i)]. *)
Definition for_loop {S} (n : nat) (body : nat -> S -> S) (s : S) : S :=
  for_range 0 n body s.

(** [a[i] = v] on a vector; writing outside the vector leaves it unchanged
    (theorems that need the bound state it). *)
Fixpoint upd {A} (l : list A) (i : nat) (v : A) : list A :=
  match l, i with
  | [], _ => []
  | _ :: t, O => v :: t
  | h :: t, S i' => h :: upd t i' v
  end.

(** [std::partial_sum] into an array starting with 0: the offsets array of an
    adjacency list with given row sizes. *)
Fixpoint psums_from (acc : nat) (l : list nat) : list nat :=
  match l with
  | [] => [acc]
  | h :: t => acc :: psums_from (acc + h) t
  end.
Definition psums (l : list nat) : list nat := psums_from 0 l.

Definition sum_nat (l : list nat) : nat := fold_right Nat.add 0 l.

(** [span(data + off, len)] *)
Definition slice {A} (l : list A) (off len : nat) : list A :=
  firstn len (skipn off l).

(** dolfinx::graph::AdjacencyList: flat data and offsets; [links(i)]. *)
Record adj (A : Type) := mkAdj { adj_data : list A; adj_off : list nat }.
Arguments mkAdj {A} _ _.
Arguments adj_data {A} _.
Arguments adj_off {A} _.
Definition links {A} (a : adj A) (i : nat) : list A :=
  slice (adj_data a) (nth i (adj_off a) 0) (nth (S i) (adj_off a) 0 - nth i (adj_off a) 0).
Definition num_nodes {A} (a : adj A) : nat := length (adj_off a) - 1.

(** Insertion sort, stable; stands for std::stable_sort and, on integers or
    whenever the order is total on values, for std::sort / dolfinx::radix_sort. *)
Section Sort.
  Context {A : Type} (leb : A -> A -> bool).
  Fixpoint insert_sorted (a : A) (l : list A) : list A :=
    match l with
    | [] => [a]
    | h :: t => if leb a h then a :: l else h :: insert_sorted a t
    end.
  Fixpoint isort (l : list A) : list A :=
    match l with
    | [] => []
    | h :: t => insert_sorted h (isort t)
    end.
End Sort.

(** std::unique followed by erase: keep the first of each run of equal
    neighbours. *)
Section Unique.
  Context {A : Type} (eqb : A -> A -> bool).
  Fixpoint unique_from (a : A) (l : list A) : list A :=
    match l with
    | [] => [a]
    | h :: t => if eqb a h then unique_from a t else a :: unique_from h t
    end.
  Definition unique (l : list A) : list A :=
    match l with [] => [] | h :: t => unique_from h t end.
End Unique.

(** std::upper_bound / std::lower_bound on a sorted array, as an index: the
    position of the first element greater than (not less than) the key. *)
Fixpoint upper_bound (l : list nat) (x : nat) : nat :=
  match l with
  | [] => 0
  | h :: t => if h <=? x then S (upper_bound t x) else 0
  end.
Fixpoint lower_bound (l : list nat) (x : nat) : nat :=
  match l with
  | [] => 0
  | h :: t => if h <? x then S (lower_bound t x) else 0
  end.
