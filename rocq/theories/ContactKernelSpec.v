(** What the contact kernel theorems are about: the fields behind a coefficient
    row and the quantities of the contact conditions at a quadrature point.
    Independent of the kernels' own helpers. *)
From Coq Require Import List Arith Lia Bool Reals Lra.
Import ListNotations.
From Verif Require Import Prelude RSum RealLemmas KernelModel KernelProofs KernelSpec ElasticityProps.
Local Open Scope R_scope.

(** The blocks of a coefficient row in the order documented at
    contact_kernels.cpp:24-36: four scalars (mu, lambda, friction coefficient,
    h), gap, normals, test functions of the other side, u, grad u, u of the
    other side, normals of the previous step. *)
Definition contact_layout (kd : kernel_data) (f links : nat) (qs : list nat) : Prop :=
  exists max_links, (links <= max_links)%nat /\
    let np := num_points kd f in
    kd_cstrides kd = [4; np * kd_gdim kd; np * kd_gdim kd; np * kd_ndofs kd * kd_bs kd * max_links; np * kd_gdim kd;
                      np * kd_gdim kd * kd_gdim kd; np * kd_bs kd; np * kd_gdim kd]%nat /\
    forall q, In q qs -> (q < np)%nat.

(** Value, at point [q], of component [n] of basis function [i] of linked cell
    [k], as stored in the row. *)
Definition contact_test (kd : kernel_data) (f : nat) (c : list R) (q k i n : nat) : R :=
  nth (offsets kd 3 + k * num_points kd f * kd_ndofs kd * kd_bs kd + i * num_points kd f * kd_bs kd + q * kd_bs kd + n)%nat c 0.

(** Each quadrature point lies in at most one linked cell. *)
Definition contact_one_link (kd : kernel_data) (f : nat) (c : list R) (links : nat) (qs : list nat) : Prop :=
  forall q, In q qs -> exists k0, forall k i n, (k < links)%nat -> k <> k0 -> (i < kd_ndofs kd)%nat -> (n < kd_bs kd)%nat -> contact_test kd f c q k i n = 0.

(** Two rows that differ only in the state blocks. *)
Definition same_data (kd : kernel_data) (c c' : list R) : Prop :=
  forall p, (p < offsets kd 4)%nat \/ (offsets kd 7 <= p)%nat -> nth p c' 0 = nth p c 0.

(** The state blocks of the rows [c] and [c'] differ by [t] times the displacement
    with coefficients [W] on the cell and [Wo k] on linked cell [k]: its value and
    gradient, and its value on the other side.  (The gradient block also holds the
    gradient of the displacement of earlier load steps.) *)
Record contact_increment (kd : kernel_data) (coords : list R) (f : nat) (c c' : list R) (t : R) (links : nat) (qs : list nat) (W : coeffs) (Wo : nat -> coeffs) : Prop := {
  ci_u : forall q n, In q qs -> (n < kd_gdim kd)%nat ->
    let p := (offsets kd 4 + kd_gdim kd * q + n)%nat in
    nth p c' 0 = nth p c 0 + t * rsum (kd_ndofs kd) (fun j => kd_phi kd (kd_qp_offsets kd f + q) j * W j n);
  ci_grad : forall q a b, In q qs -> (a < kd_gdim kd)%nat -> (b < kd_gdim kd)%nat ->
    let p := (offsets kd 5 + q * kd_gdim kd * kd_gdim kd + (a * kd_gdim kd + b))%nat in
    nth p c' 0 = nth p c 0 + t * rsum (kd_ndofs kd) (fun j => phys_grad kd coords f q j b * W j a);
  ci_u_opp : forall q n, In q qs -> (n < kd_bs kd)%nat ->
    let p := (offsets kd 6 + q * kd_bs kd + n)%nat in
    nth p c' 0 = nth p c 0 + t * rsum links (fun k => rsum (kd_ndofs kd) (fun j => contact_test kd f c q k j n * Wo k j n)) }.

(** Rows along a line of displacements with direction [W]. *)
Definition contact_line (kd : kernel_data) (coords : list R) (f : nat) (C : R -> list R) (links : nat) (qs : list nat)
    (W : coeffs) (Wo : nat -> coeffs) : Prop :=
  forall t, same_data kd (C 0) (C t) /\ contact_increment kd coords f (C 0) (C t) t links qs W Wo.

(** At the points [qs] the basis functions of the cell and of the linked cells
    sum to one and the gradients on the cell to zero. *)
Record contact_partition (kd : kernel_data) (coords : list R) (f : nat) (c : list R) (links : nat) (qs : list nat) : Prop := {
  cp_phi : forall q, In q qs -> rsum (kd_ndofs kd) (fun i => kd_phi kd (kd_qp_offsets kd f + q) i) = 1;
  cp_grad : forall q b, In q qs -> (b < kd_gdim kd)%nat -> rsum (kd_ndofs kd) (fun i => phys_grad kd coords f q i b) = 0;
  cp_test : forall q n, In q qs -> (n < kd_bs kd)%nat -> rsum links (fun k => rsum (kd_ndofs kd) (fun i => contact_test kd f c q k i n)) = 1 }.

(** ** Contact quantities at point [q] *)
Section Point.
  Context (kd : kernel_data) (coords : list R) (f : nat) (c w : list R) (q : nat).
  Notation dim := (kd_gdim kd).
  Definition ck_mu : R := nth 0 c 0.
  Definition ck_lambda : R := nth 1 c 0.
  Definition ck_friction : R := nth 2 c 0.
  (** Mesh size over the Nitsche parameter. *)
  Definition ck_gamma : R := nth 3 c 0 / nth 0 w 0.
  (** The stored normals point the other way. *)
  Definition ck_normal (a : nat) : R := - nth (offsets kd 2 + q * dim + a)%nat c 0.
  Definition ck_old_normal (a : nat) : R := - nth (offsets kd 7 + q * dim + a)%nat c 0.
  Definition along (nu x : nat -> R) : R := rsum dim (fun a => x a * nu a).
  Definition ck_gap : R := along ck_normal (fun a => nth (offsets kd 1 + q * dim + a)%nat c 0).
  Definition ck_jump (a : nat) : R := nth (offsets kd 4 + dim * q + a)%nat c 0 - nth (offsets kd 6 + q * kd_bs kd + a)%nat c 0.
  Definition ck_traction (a : nat) : R :=
    traction dim ck_mu ck_lambda (fun a b => nth (offsets kd 5 + q * dim * dim + (a * dim + b))%nat c 0) (g_n (geometry_at kd coords f q)) a.
  (** Penetration minus scaled normal traction: contact is active iff positive. *)
  Definition contact_indicator : R := along ck_normal ck_jump - ck_gap - ck_gamma * along ck_normal ck_traction.
  (** Tangential part of a vector. *)
  Definition tangential (x : nat -> R) (a : nat) : R := x a - along ck_normal x * ck_normal a.
  Definition tresca_argument (a : nat) : R := tangential ck_jump a - ck_gamma * tangential ck_traction a.
  (** The slip also accounts for the turning of the normal since the last step. *)
  Definition coulomb_argument (a : nat) : R :=
    tangential ck_jump a - (ck_gap - along ck_normal ck_jump) * tangential ck_old_normal a - ck_gamma * tangential ck_traction a.
  Definition norm_of (x : nat -> R) : R := sqrt (rsum dim (fun a => x a * x a)).
  (** Friction bounds: given (Tresca), proportional to the pressure (Coulomb). *)
  Definition tresca_radius : R := ck_gamma * ck_friction.
  Definition coulomb_radius : R := ck_friction * contact_indicator.
  (** No switch between stick and slip, or between open and closed, at this
      point.  The code treats radii below 1e-14 as zero. *)
  Definition off_tresca_kink : Prop := tresca_radius = 0 \/ (1 / 10 ^ 14 <= tresca_radius /\ norm_of tresca_argument <> tresca_radius).
  Definition off_coulomb_kink : Prop :=
    contact_indicator < 0 \/ ck_friction = 0 \/
    (0 < contact_indicator /\ 1 / 10 ^ 14 <= coulomb_radius /\ norm_of coulomb_argument <> coulomb_radius).
  Definition unit_normal : Prop := rsum dim (fun a => ck_normal a * ck_normal a) = 1.
End Point.
