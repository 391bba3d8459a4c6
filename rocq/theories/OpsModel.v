(** Model of the scalar and vector operators used by the contact kernels. *)
From Coq Require Import List Arith Lia Bool Reals.
Import ListNotations.
From Verif Require Import Prelude RSum CropModel.
Local Open Scope R_scope.

(** utils.cpp:287-294. *)
Definition R_plus (x : R) : R := 0.5 * (Rabs x + x).
Definition R_minus (x : R) : R := 0.5 * (x - Rabs x).
Definition dR_minus (x : R) : R := if rlt x 0 then 1 else 0.
Definition dR_plus (x : R) : R := if rlt 0 x then 1 else 0.

(** helpers.py:85-110 (UFL expressions); [sgn] is ufl.sign. *)
Definition sgn (x : R) : R := if rlt 0 x then 1 else if rlt x 0 then -1 else 0.
Definition py_R_minus (x : R) : R := 0.5 * (x - Rabs x).
Definition py_dR_minus (x : R) : R := 0.5 * (1 - sgn x).
Definition py_R_plus (x : R) : R := 0.5 * (x + Rabs x).
Definition py_dR_plus (x : R) : R := 0.5 * (1 + sgn x).

(** std::for_each accumulating squares (utils.cpp:300-303 and others). *)
Definition norm_squared (x : list R) : R := for_each x (fun e norm => norm + e ^ 2) 0.

(** [a <= b] on doubles, idealised to reals (utils.cpp:287-345). *)
Definition rle (a b : R) : bool := negb (rlt b a).

(** utils.cpp:296-314.  The C++ array has three entries; here any length. *)
Definition ball_projection (x : list R) (alpha : R) : list R :=
  let norm := sqrt (norm_squared x) in
  if rle norm alpha then x else map (fun xi => alpha * xi / norm) x.

(** utils.cpp:317-345.  The result has nine entries in C++, [len] here. *)
Definition d_ball_projection_in (len : nat) (x : list R) (alpha : R) (bs : nat) : list R :=
  let d_proj := repeat 0 len in
  if rlt alpha (1 / 10 ^ 14) then d_proj
  else
    let n2 := norm_squared x in
    let norm := sqrt n2 in
    if rlt norm alpha then for_loop bs (fun j d => upd d (j * bs + j) 1) d_proj
    else for_loop bs (fun i d =>
           let d := upd d (i * bs + i) (nth (i * bs + i) d 0 + alpha / norm) in
           for_loop bs (fun j d =>
             upd d (i * bs + j) (nth (i * bs + j) d 0 - alpha * nth i x 0 * nth j x 0 / (norm * n2))) d) d_proj.
Definition d_ball_projection (x : list R) (alpha : R) (bs : nat) : list R := d_ball_projection_in 9 x alpha bs.

(** utils.cpp:348-364. *)
Definition d_alpha_ball_projection (x : list R) (alpha d_alpha : R) : list R :=
  let norm := sqrt (norm_squared x) in
  if rlt alpha norm then map (fun xi => d_alpha * xi / norm) x else map (fun _ => 0) x.

(** helpers.py:113-142: the UFL versions for vectors of length [dim]. *)
Definition py_abs (x : list R) (dim : nat) : R := sqrt (lsum (seq 0 dim) (fun i => nth i x 0 ^ 2)).
Definition py_ball_projection (x : list R) (s : R) (dim : nat) : list R :=
  let abs_x := py_abs x dim in if rle abs_x s then x else map (fun xi => s * xi / abs_x) x.
Definition py_d_ball_projection (x : list R) (s : R) (dim i j : nat) : R :=
  let abs_x := py_abs x dim in
  let id := if (i =? j)%nat then 1 else 0 in
  if rle abs_x s then id else s / abs_x * (id - nth i x 0 / abs_x * (nth j x 0 / abs_x)).
Definition py_d_alpha_ball_projection (x : list R) (alpha d_alpha : R) (dim : nat) : list R :=
  let abs_x := py_abs x dim in
  if rle abs_x alpha then map (fun _ => 0) x else map (fun xi => d_alpha * xi / abs_x) x.
