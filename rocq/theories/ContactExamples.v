(** Concrete facets that meet the hypotheses of the contact kernel theorems, and
    one with a normal of length two on which the friction matrices do not scale
    with the quadrature weights (C37). *)
From Coq Require Import List Arith Lia Bool Reals Lra.
Import ListNotations.
From Verif Require Import Prelude PreludeLemmas RSum RealLemmas CropModel CandidatesProps RayModel OpsModel OpsProps AssemblyModel AssemblyProofs KernelModel KernelProofs KernelSpec
  MeshTieKernelModel MeshTieKernelProps ElasticityProps ContactKernelModel ContactKernelProofs ContactKernelSpec ContactCurveProofs ContactKernelProps FrictionKernelProofs FrictionKernelProps.
Local Open Scope R_scope.

(** One point of a triangle, two linked triangles, the point in the first. *)
Definition contact_kd : kernel_data :=
  {| kd_gdim := 2; kd_tdim := 2; kd_bs := 2; kd_ndofs := 3; kd_nodes := 0; kd_affine := true;
     kd_cstrides := [4; 2; 2; 12; 2; 4; 2; 2]%nat; kd_qp_offsets := fun f => f;
     kd_phi := fun _ _ => 1 / 3;
     kd_dphi := fun k _ i => nth i (nth k [[-1; 1; 0]; [-1; 0; 1]] []) 0;
     kd_dphi_c := fun _ _ _ => 0; kd_weights := fun _ => 1 / 2;
     kd_ref_jacobian := fun _ i j => delta i j; kd_ref_normal := fun _ i => if (i =? 0)%nat then 1 else 0;
     kd_inverse := fun _ i j => delta i j; kd_determinant := fun _ => 1 |}.
(** Displacement [example_U] on both sides; the direction moves the first dof. *)
Definition contact_row (t : R) : list R :=
  [1; 1; 1; 1] ++ [1/2; 0] ++ [-1; 0] ++ [1/3; 1/3; 1/3; 1/3; 1/3; 1/3; 0; 0; 0; 0; 0; 0]
  ++ [4/3 + t * (1/3); 1 + t * (1/3)] ++ [-1 - t; 2 - t; 2 - t; 1 - t] ++ [4/3; 1] ++ [-1; 0].
Definition contact_W : coeffs := fun j n => if (j =? 0)%nat then 1 else 0.
Definition contact_w : list R := [1; 1].

Ltac ex_eval := cbv -[IZR Rdiv Rminus Rinv Rmult Rplus Ropp sqrt]; try lra.
Ltac ex_sqrt := repeat match goal with |- context [sqrt ?x] => replace (sqrt x) with 1 by (replace x with 1 by lra; symmetry; apply sqrt_1) end.

Example contact_example_line :
  kd_bs contact_kd = kd_gdim contact_kd /\ (kd_gdim contact_kd <= 3)%nat /\
  vector_buffers contact_kd 2 (repeat (repeat 0 6) 3) /\ matrix_buffers contact_kd 2 (repeat (repeat 0 36) 7) /\
  contact_layout contact_kd 0 2 [0%nat] /\
  contact_line contact_kd [] 0 contact_row 2 [0%nat] contact_W (fun _ _ _ => 0) /\
  contact_one_link contact_kd 0 (contact_row 0) 2 [0%nat] /\
  contact_partition contact_kd [] 0 (contact_row 0) 2 [0%nat].
Proof.
  split; [reflexivity|]. split; [cbn; lia|].
  split; [split; [cbn; lia|]; intros s Hs; change (kd_ndofs contact_kd * kd_bs contact_kd)%nat with 6%nat; do 3 (destruct s; [reflexivity|]); lia|].
  split; [split; [cbn; lia|]; intros s Hs; change (kd_ndofs contact_kd * kd_bs contact_kd * (kd_ndofs contact_kd * kd_bs contact_kd))%nat with 36%nat; do 7 (destruct s; [reflexivity|]); lia|].
  split; [exists 2%nat; split; [lia|]; split; [reflexivity|]; intros q [<-|[]]; cbn; lia|].
  split; [|split].
  - intros t. split.
    + intros p Hp. change (offsets contact_kd 4) with 20%nat in Hp. change (offsets contact_kd 7) with 28%nat in Hp.
      do 20 (destruct p; [reflexivity|]). do 8 (destruct p; [lia|]). do 2 (destruct p; [reflexivity|]). reflexivity.
    + constructor.
      * intros q n [<-|[]] Hn; change (kd_gdim contact_kd) with 2%nat in Hn; destruct n as [|[|n]]; [ex_eval | ex_eval | lia].
      * intros q a b [<-|[]] Ha Hb; change (kd_gdim contact_kd) with 2%nat in Ha, Hb. destruct a as [|[|a]]; [| |lia]; (destruct b as [|[|b]]; [ex_eval | ex_eval | lia]).
      * intros q n [<-|[]] Hn; change (kd_bs contact_kd) with 2%nat in Hn; destruct n as [|[|n]]; [ex_eval | ex_eval | lia].
  - intros q [<-|[]]. exists 0%nat. intros k i n Hk N Hi Hn. assert (k = 1%nat) as -> by lia. change (kd_ndofs contact_kd) with 3%nat in Hi.
    change (kd_bs contact_kd) with 2%nat in Hn. do 3 (destruct i as [|i]; [destruct n as [|[|n]]; [reflexivity | reflexivity | lia]|]); lia.
  - constructor.
    + intros q [<-|[]]. ex_eval.
    + intros q b [<-|[]] Hb; change (kd_gdim contact_kd) with 2%nat in Hb. destruct b as [|[|b]]; [ex_eval | ex_eval | lia].
    + intros q n [<-|[]] Hn; change (kd_bs contact_kd) with 2%nat in Hn. destruct n as [|[|n]]; [ex_eval | ex_eval | lia].
Qed.

Lemma example_indicator : contact_indicator contact_kd [] 0 (contact_row 0) contact_w 0 = 3 / 2.
Proof. ex_eval. ex_sqrt. lra. Qed.
Lemma norm4 x y : x = 0 -> y = -4 -> sqrt (0 + x * x + y * y) = 4.
Proof. intros -> ->. replace (0 + 0 * 0 + -4 * -4) with (4 * 4) by ring. apply sqrt_square. lra. Qed.
Lemma example_norms : norm_of contact_kd (tresca_argument contact_kd [] 0 (contact_row 0) contact_w 0) = 4 /\ norm_of contact_kd (coulomb_argument contact_kd [] 0 (contact_row 0) contact_w 0) = 4.
Proof. split; apply norm4; ex_eval; ex_sqrt; lra. Qed.

(** In contact, slipping, unit normals: the hypotheses of C27, C28, C29, C37. *)
Example contact_example_closed :
  contact_indicator contact_kd [] 0 (contact_row 0) contact_w 0 <> 0 /\ off_tresca_kink contact_kd [] 0 (contact_row 0) contact_w 0 /\
  off_coulomb_kink contact_kd [] 0 (contact_row 0) contact_w 0 /\ unit_normal contact_kd (contact_row 0) 0.
Proof.
  assert (S : 1 / 10 ^ 14 <= 1). { unfold Rdiv. rewrite Rmult_1_l. rewrite <- Rinv_1. apply Rinv_le_contravar; [lra|]. apply pow_R1_Rle. lra. }
  split; [rewrite example_indicator; lra|]. split; [|split].
  - right. assert (tresca_radius (contact_row 0) contact_w = 1) as -> by (cbv -[IZR Rdiv Rminus Rinv Rmult Rplus Ropp]; lra). destruct example_norms as [-> _]. split; [exact S | lra].
  - right. right. unfold coulomb_radius. change (ck_friction (contact_row 0)) with 1. rewrite example_indicator. destruct example_norms as [_ ->]. repeat split; lra.
  - ex_eval.
Qed.

(** Open contact (C35): the same facet with a gap of 3. *)
Example contact_example_open :
  contact_indicator contact_kd [] 0 ([1; 1; 1; 1] ++ [3; 0] ++ skipn 6 (contact_row 0)) [1; 0] 0 <= 0.
Proof. ex_eval. ex_sqrt. lra. Qed.

(** ** C37: a stored normal of length two *)
Definition long_normal_row : list R :=
  [1; 1; 1; 1] ++ [0; 0] ++ [-2; 0] ++ [1/3; 1/3; 1/3; 1/3; 1/3; 1/3; 0; 0; 0; 0; 0; 0] ++ [0; 0] ++ [0; 0; 0; 0] ++ [0; 0] ++ [-2; 0].
Lemma long_normal_block s junk A : matrix_buffers contact_kd 1 A ->
  added_mat contact_kd A (tresca_jac (scale_weights s contact_kd) junk A long_normal_row contact_w [] 0%nat 1%nat [0%nat]) 3 0 0 0 0 = 2 / 3 - s / 12.
Proof.
  intros HA. set (kd := scale_weights s contact_kd).
  change (added_mat contact_kd A (tresca_jac kd junk A long_normal_row contact_w [] 0%nat 1%nat [0%nat]) 3 0 0 0 0) with (added_mat kd A (tresca_jac kd junk A long_normal_row contact_w [] 0%nat 1%nat [0%nat]) 3 0 0 0 0).
  assert (L0 : (0 < kd_ndofs kd)%nat) by (cbn; lia). assert (L1 : (0 < kd_bs kd)%nat) by (cbn; lia).
  change 3%nat with (3 * 0 + 3)%nat at 1.
  rewrite (chg_mat kd 1 A _ (3 * 0 + 3) 0 0 0 0 _ HA ltac:(lia) L0 L1 L0 L1 (tresca_jac_link_link kd junk long_normal_row contact_w [] 0 1 A [0%nat] 0 0 0 0 0 ltac:(lia) L0 L1 L0 L1)).
  cbn [lsum]. unfold Do_tresca, Jt.
  set (J := d_ball_projection _ _ _).
  assert (EJ : forall i j, (i < 2)%nat -> (j < 2)%nat -> nth (i * 2 + j) J 0 = delta i j).
  { intros i j Hi Hj. unfold J, d_ball_projection. change (kd_bs kd) with 2%nat.
    set (x := Pt_u_tresca _ _ _ _ _). assert (Hx : normn (length x) x = 0).
    { unfold normn. replace (dotn (length x) x x) with 0; [apply sqrt_0|]. symmetry. unfold x. ex_eval. }
    set (al := gamma_of long_normal_row contact_w * nth 2 long_normal_row 0). assert (Hal : al = 1) by (unfold al; ex_eval).
    rewrite d_ball_entry; [|lia|auto|auto|]; rewrite Hal.
    - cbv zeta. rewrite Hx. assert (rlt 0 1 = true) as -> by (apply rlt_true; lra). reflexivity.
    - unfold Rdiv. rewrite Rmult_1_l. rewrite <- Rinv_1. apply Rinv_le_contravar; [lra|]. apply pow_R1_Rle. lra. }
  change (kd_bs kd) with 2%nat. cbn [rsum]. rewrite !EJ by lia. clear EJ. clearbody J. ex_eval.
  destruct (Rcase_abs 1); lra.
Qed.
Theorem C37_long_normals_refuted :
  exists (kd : kernel_data) (s : R) (junk : geometry) (A : list (list R)) (c w coords : list R) (f links : nat) (qs : list nat),
    kd_bs kd = kd_gdim kd /\ (kd_gdim kd <= 3)%nat /\ matrix_buffers kd links A /\
    added_mat kd A (tresca_jac (scale_weights s kd) junk A c w coords f links qs) 3 0 0 0 0 <> s * added_mat kd A (tresca_jac (scale_weights 1 kd) junk A c w coords f links qs) 3 0 0 0 0.
Proof.
  exists contact_kd, 2, (mkGeometry (fun _ _ => 0) 0 (fun _ => 0)), (repeat (repeat 0 36) 4), long_normal_row, contact_w, [], 0%nat, 1%nat, [0%nat].
  assert (HA : matrix_buffers contact_kd 1 (repeat (repeat 0 36) 4)).
  { split; [cbn; lia|]. intros s Hs. change (kd_ndofs contact_kd * kd_bs contact_kd * (kd_ndofs contact_kd * kd_bs contact_kd))%nat with 36%nat. do 4 (destruct s; [reflexivity|]). lia. }
  split; [reflexivity|]. split; [cbn; lia|]. split; [exact HA|]. rewrite !long_normal_block by exact HA. lra.
Qed.
Print Assumptions C37_long_normals_refuted.
