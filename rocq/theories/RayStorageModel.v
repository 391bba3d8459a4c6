(** Model of the scratch storage of the ray tracing solver: one flat work array
    and twelve views into it. *)
From Coq Require Import List Arith Lia.
Import ListNotations.
From Verif Require Import Prelude.

(** RayTracing.h:126-199: the twelve quantities handed out by the accessors, in
    the order of the class documentation (RayTracing.h:96-107). *)
Inductive quantity :=
| q_dxi | q_X_k | q_x_k | q_xi_k | q_dxi_k | q_J | q_dGk_tmp | q_dGk | q_dGk_inv | q_Gk | q_tangents | q_point.

(** RayTracing.h:111-122: the sizes added up by the constructor.  The template
    arguments are unsigned; [tdim - 1] and [gdim - 1] do not wrap around for the
    dimensions the class is instantiated with (at least 1). *)
Definition storage_distribution (tdim gdim : nat) : list nat :=
  [tdim * (tdim - 1); tdim; gdim; tdim - 1; tdim - 1; gdim * tdim; gdim * (tdim - 1);
   (gdim - 1) * (tdim - 1); (tdim - 1) * (gdim - 1); gdim - 1; (gdim - 1) * gdim; gdim].

(** RayTracing.h:123-125: [_offsets[0] = 0] followed by the partial sums. *)
Definition storage_offsets (tdim gdim : nat) : list nat := psums (storage_distribution tdim gdim).

(** RayTracing.h:126: the work array has [_offsets.back()] entries (zeroed). *)
Definition storage_init {A} (zero : A) (tdim gdim : nat) : list A :=
  repeat zero (last (storage_offsets tdim gdim) 0).

(** RayTracing.h:130-199: the index into [_offsets] each accessor uses. *)
Definition accessor_slot (q : quantity) : nat :=
  match q with
  | q_dxi => 0 | q_X_k => 1 | q_x_k => 2 | q_xi_k => 3 | q_dxi_k => 4 | q_J => 5 | q_dGk_tmp => 6
  | q_dGk => 7 | q_dGk_inv => 8 | q_Gk => 9 | q_tangents => 10 | q_point => 11
  end.

(** RayTracing.h:130-199: the extents of the returned view; vectors have one
    column. *)
Definition accessor_shape (tdim gdim : nat) (q : quantity) : nat * nat :=
  match q with
  | q_dxi => (tdim, tdim - 1)
  | q_X_k => (tdim, 1)
  | q_x_k => (gdim, 1)
  | q_xi_k => (tdim - 1, 1)
  | q_dxi_k => (tdim - 1, 1)
  | q_J => (gdim, tdim)
  | q_dGk_tmp => (gdim, tdim - 1)
  | q_dGk => (gdim - 1, tdim - 1)
  | q_dGk_inv => (tdim - 1, gdim - 1)
  | q_Gk => (gdim - 1, 1)
  | q_tangents => (gdim - 1, gdim)
  | q_point => (gdim, 1)
  end.

(** RayTracing.h:19-22 and 130-199: position of entry (i, j) of a view (row-major
    mdspan, or span for one column). *)
Definition entry_position (tdim gdim : nat) (q : quantity) (i j : nat) : nat :=
  nth (accessor_slot q) (storage_offsets tdim gdim) 0 + i * snd (accessor_shape tdim gdim q) + j.

(** Reading and writing an entry through a view (RayTracing.h:130-199). *)
Definition storage_read {A} (zero : A) (tdim gdim : nat) (w : list A) (q : quantity) (i j : nat) : A :=
  nth (entry_position tdim gdim q i j) w zero.
Definition storage_write {A} (tdim gdim : nat) (w : list A) (q : quantity) (i j : nat) (v : A) : list A :=
  upd w (entry_position tdim gdim q i j) v.
