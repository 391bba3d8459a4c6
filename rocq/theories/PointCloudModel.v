(** Model of cpp/point_cloud.cpp.  Coordinates are exact rationals instead of
    doubles. *)
From Coq Require Import List Arith ZArith QArith Bool.
Import ListNotations.
From Verif Require Import Prelude.

(** A point: three consecutive entries of the flat array [x]
    (cpp/point_cloud.cpp:18, 36-37).  Simplification: the flat array of size
    3*npoints is grouped into triples. *)
Definition pt : Type := (Q * Q * Q)%type.
Definition px (p : pt) : Q := fst (fst p).
Definition py (p : pt) : Q := snd (fst p).
Definition pz (p : pt) : Q := snd p.
Definition pt0 : pt := (0, 0, 0)%Q.

(** [a < b] on numbers (point_cloud.cpp:39, 44, 54, 59). *)
Definition qltb (a b : Q) : bool := negb (Qle_bool b a).

Section PointCloud.
  (** [x], [r]: arguments of point_cloud_pairs (cpp/point_cloud.cpp:15).
      [x_fwd]: the array of lines 21-24 after std::sort.  std::sort is not
      stable, so theorems take any [x_fwd] it may produce. *)
  Variables (x : list pt) (r : Q) (x_fwd : list nat).

  Definition npoints : nat := length x.                       (* line 18 *)
  Definition point (i : nat) : pt := nth i x pt0.
  Definition fwd (i : nat) : nat := nth i x_fwd 0%nat.

  (** cpp/point_cloud.cpp:25-26: inverse of [x_fwd]. *)
  Definition x_rev : list nat :=
    for_loop npoints (fun i rev => upd rev (fwd i) i) (repeat 0%nat npoints).

  (** cpp/point_cloud.cpp:38-43 and 53-58: squared distance. *)
  Definition sq_dist (dx : Q) (xi xj : pt) : Q :=
    let dy := (py xj - py xi)%Q in
    let dz := (pz xj - pz xi)%Q in
    (dx * dx + dy * dy + dz * dz)%Q.

  (** cpp/point_cloud.cpp:33-47: forward scan.  [fuel] bounds the number of
      iterations; [npoints] is always enough. *)
  Fixpoint scan_fwd (fuel idx i : nat) (x_near : list nat) : list nat :=
    match fuel with
    | O => x_near
    | S fuel' =>
        if (idx <? npoints)%nat then
          let xj := point (fwd idx) in
          let xi := point i in
          let dx := (px xj - px xi)%Q in
          if qltb r dx then x_near                              (* break *)
          else
            let dr := sq_dist dx xi xj in
            let x_near' := if qltb dr (r * r) then x_near ++ [fwd idx] else x_near in
            scan_fwd fuel' (S idx) i x_near'
        else x_near
    end.

  (** cpp/point_cloud.cpp:48-62: backward scan with a signed index. *)
  Fixpoint scan_bwd (fuel : nat) (idx : Z) (i : nat) (x_near : list nat) : list nat :=
    match fuel with
    | O => x_near
    | S fuel' =>
        if (0 <? idx)%Z then                                    (* while (idx > 0) *)
          let xj := point (fwd (Z.to_nat idx)) in
          let xi := point i in
          let dx := (px xi - px xj)%Q in
          if qltb r dx then x_near
          else
            let dr := sq_dist dx xi xj in
            let x_near' := if qltb dr (r * r) then x_near ++ [fwd (Z.to_nat idx)] else x_near in
            scan_bwd fuel' (idx - 1)%Z i x_near'
        else x_near
    end.

  (** cpp/point_cloud.cpp:28-66: the loop over points and the result. *)
  Definition point_cloud_step (i : nat) (st : list nat * list nat) : list nat * list nat :=
    let '(x_near, offsets) := st in
    let p := nth i x_rev 0%nat in
    let x_near := scan_fwd npoints (p + 1) i x_near in
    let x_near := scan_bwd npoints (Z.of_nat p - 1)%Z i x_near in
    (x_near, offsets ++ [length x_near]).

  Definition point_cloud_pairs : adj nat :=
    let '(x_near, offsets) := for_loop npoints point_cloud_step ([], [0%nat]) in
    mkAdj x_near offsets.
End PointCloud.

(** One possible result of the std::sort of cpp/point_cloud.cpp:21-24 (a stable
    one), used for computing examples. *)
Definition argsort_x (x : list pt) : list nat :=
  isort (fun a b => Qle_bool (px (nth a x pt0)) (px (nth b x pt0))) (seq 0 (length x)).
