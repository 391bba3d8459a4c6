(** What the kernel theorems are about: entries of element vectors and matrices,
    coefficient vectors of discrete fields, matrix blocks applied to them. *)
From Coq Require Import List Arith Lia Bool Reals Lra.
Import ListNotations.
From Verif Require Import Prelude PreludeLemmas RSum RayModel AssemblyModel AssemblyProofs KernelModel KernelProofs.
Local Open Scope R_scope.

(** Coefficients of a discrete field on one cell: dof, component. *)
Definition coeffs := nat -> nat -> R.

(** Position of dof [i], component [n] in an element vector; of row [r], column
    [s] in an element matrix with [N] columns. *)
Definition dof (bs i n : nat) : nat := (i * bs + n)%nat.
Definition row_col (N r s : nat) : nat := (r * N + s)%nat.

(** Buffers for a cell and its links: element vectors 0..links; element matrices
    0..3 links. *)
Definition vector_buffers (kd : kernel_data) (links : nat) (b : list (list R)) : Prop :=
  (links < length b)%nat /\ forall s, (s <= links)%nat -> length (nth s b []) = (kd_ndofs kd * kd_bs kd)%nat.
Definition matrix_buffers (kd : kernel_data) (links : nat) (A : list (list R)) : Prop :=
  (3 * links < length A)%nat /\ forall s, (s <= 3 * links)%nat -> length (nth s A []) = (kd_ndofs kd * kd_bs kd * (kd_ndofs kd * kd_bs kd))%nat.

(** What a kernel run added to a vector entry and to a matrix entry (row dof and
    component, column dof and component) of buffer [s]. *)
Definition added_vec (kd : kernel_data) (before after : list (list R)) (s i n : nat) : R :=
  nth (dof (kd_bs kd) i n) (nth s after []) 0 - nth (dof (kd_bs kd) i n) (nth s before []) 0.
Definition added_mat (kd : kernel_data) (before after : list (list R)) (s i n j l : nat) : R :=
  let p := row_col (kd_ndofs kd * kd_bs kd) (dof (kd_bs kd) i n) (dof (kd_bs kd) j l) in
  nth p (nth s after []) 0 - nth p (nth s before []) 0.

(** One row of a matrix block applied to a coefficient vector. *)
Definition apply_row (nd bs : nat) (M : nat -> nat -> R) (U : coeffs) : R :=
  rsum nd (fun j => rsum bs (fun l => M j l * U j l)).

(** Physical gradient of basis function [j] at a quadrature point. *)
Definition phys_grad (kd : kernel_data) (coords : list R) (f q j b : nat) : R :=
  rsum (kd_tdim kd) (fun k => g_K (geometry_at kd coords f q) k b * kd_dphi kd k (kd_qp_offsets kd f + q)%nat j).

(** ** Lemmas *)
Lemma apply_row_ext nd bs M M' U : (forall j l, (j < nd)%nat -> (l < bs)%nat -> M j l = M' j l) -> apply_row nd bs M U = apply_row nd bs M' U.
Proof. intros H. apply rsum_ext. intros j Hj. apply rsum_ext. intros l Hl. now rewrite H. Qed.
Lemma apply_row_plus nd bs M M' U : apply_row nd bs (fun j l => M j l + M' j l) U = apply_row nd bs M U + apply_row nd bs M' U.
Proof. unfold apply_row. rewrite <- rsum_plus. apply rsum_ext. intros j _. rewrite <- rsum_plus. apply rsum_ext. intros; ring. Qed.
Lemma apply_row_scal nd bs c M U : apply_row nd bs (fun j l => c * M j l) U = c * apply_row nd bs M U.
Proof. unfold apply_row. rewrite <- rsum_scal. apply rsum_ext. intros j _. rewrite <- rsum_scal. apply rsum_ext. intros; ring. Qed.
Lemma apply_row_zero nd bs U : apply_row nd bs (fun _ _ => 0) U = 0.
Proof. rewrite (apply_row_ext nd bs _ (fun _ _ => 0 * 0)) by (intros; ring). rewrite (apply_row_scal nd bs 0 (fun _ _ => 0)). ring. Qed.
Lemma apply_row_sum nd bs m M U : apply_row nd bs (fun j l => rsum m (fun a => M a j l)) U = rsum m (fun a => apply_row nd bs (M a) U).
Proof. induction m as [|m IH]; cbn [rsum]; [apply apply_row_zero|]. now rewrite apply_row_plus, IH. Qed.
Lemma apply_row_lsum {A} nd bs (qs : list A) M U : apply_row nd bs (fun j l => lsum qs (fun q => M q j l)) U = lsum qs (fun q => apply_row nd bs (M q) U).
Proof. induction qs as [|q qs IH]; cbn [lsum]; [apply apply_row_zero|]. now rewrite apply_row_plus, IH. Qed.
Lemma apply_row_field nd bs M U V t : apply_row nd bs M (fun j l => U j l + t * V j l) = apply_row nd bs M U + t * apply_row nd bs M V.
Proof. unfold apply_row. rewrite <- rsum_scal, <- rsum_plus. apply rsum_ext. intros j _. rewrite <- rsum_scal, <- rsum_plus. apply rsum_ext. intros; ring. Qed.
(** A block that couples only component [n]. *)
Lemma apply_row_component nd bs n g U : (n < bs)%nat -> apply_row nd bs (fun j l => if (n =? l)%nat then g j l else 0) U = rsum nd (fun j => g j n * U j n).
Proof.
  intros Hn. apply rsum_ext. intros j _. rewrite (rsum_single bs n) by (first [exact Hn | intros l Hl N; destruct (Nat.eqb_spec n l); [subst; contradiction | ring]]).
  now rewrite Nat.eqb_refl.
Qed.
(** A combination of components. *)
Lemma apply_row_components nd bs (s : nat -> R) (g : nat -> nat -> R) U : apply_row nd bs (fun j l => s l * g j l) U = rsum bs (fun l => s l * rsum nd (fun j => g j l * U j l)).
Proof.
  unfold apply_row. rewrite rsum_swap. apply rsum_ext. intros l _. rewrite <- rsum_scal. apply rsum_ext. intros; ring.
Qed.

Lemma chg_vec kd links b out s i n v : vector_buffers kd links b -> (s <= links)%nat -> (i < kd_ndofs kd)%nat -> (n < kd_bs kd)%nat ->
  chg s (n + i * kd_bs kd) b out v -> added_vec kd b out s i n = v.
Proof.
  intros [H1 H2] Hs Hi Hn C. unfold added_vec, dof. rewrite Nat.add_comm. unfold chg, entry in C. destruct C as [_ E].
  - split; [lia|]. rewrite H2 by auto. nia.
  - rewrite E. ring.
Qed.
Lemma chg_mat kd links A out s i n j l v : matrix_buffers kd links A -> (s <= 3 * links)%nat ->
  (i < kd_ndofs kd)%nat -> (n < kd_bs kd)%nat -> (j < kd_ndofs kd)%nat -> (l < kd_bs kd)%nat ->
  chg s ((n + i * kd_bs kd) * kd_ndofs kd * kd_bs kd + l + j * kd_bs kd) A out v -> added_mat kd A out s i n j l = v.
Proof.
  intros [H1 H2] Hs Hi Hn Hj Hl C. unfold added_mat, dof, row_col. cbv zeta.
  replace ((i * kd_bs kd + n) * (kd_ndofs kd * kd_bs kd) + (j * kd_bs kd + l))%nat with ((n + i * kd_bs kd) * kd_ndofs kd * kd_bs kd + l + j * kd_bs kd)%nat by nia.
  unfold chg, entry in C. destruct C as [_ E].
  - split; [lia|]. rewrite H2 by auto.
    assert (n + i * kd_bs kd < kd_ndofs kd * kd_bs kd)%nat by nia. assert (l + j * kd_bs kd < kd_ndofs kd * kd_bs kd)%nat by nia.
    set (N := (kd_ndofs kd * kd_bs kd)%nat) in *. replace ((n + i * kd_bs kd) * kd_ndofs kd * kd_bs kd)%nat with ((n + i * kd_bs kd) * N)%nat by (unfold N; nia). nia.
  - rewrite E. ring.
Qed.

(** The literals 0.5 and -0.5. *)
Lemma half_eq : 0.5 = / 2.
Proof. unfold Q2R. cbn. lra. Qed.
Lemma minus_half_eq : -0.5 = - / 2.
Proof. unfold Q2R. cbn. lra. Qed.
Ltac ringh := rewrite ?minus_half_eq, ?half_eq; ring.
