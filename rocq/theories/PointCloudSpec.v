(** What a user of the point-cloud search expects, without reference to the
    algorithm. *)
From Coq Require Import List Arith ZArith QArith Permutation.
Import ListNotations.
From Verif Require Import Prelude PointCloudModel.

(** Squared Euclidean distance of two points. *)
Definition dist2 (a b : pt) : Q :=
  ((px a - px b) * (px a - px b) + (py a - py b) * (py a - py b)
   + (pz a - pz b) * (pz a - pz b))%Q.

(** Points [i] and [j] of the cloud are closer than [r]. *)
Definition within (x : list pt) (r : Q) (i j : nat) : Prop :=
  (dist2 (nth i x pt0) (nth j x pt0) < r * r)%Q.

(** [order] is a possible result of an (unstable) sort of the point indices by
    first coordinate. *)
Definition sort_result (x : list pt) (order : list nat) : Prop :=
  Permutation order (seq 0 (length x)) /\
  forall a b, (a < b)%nat -> (b < length x)%nat ->
    (px (nth (nth a order 0%nat) x pt0) <= px (nth (nth b order 0%nat) x pt0))%Q.
