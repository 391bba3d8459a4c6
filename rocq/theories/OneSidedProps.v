(** C86: the custom kernels and the UFL forms of the one-sided drivers. *)
From Coq Require Import List Arith Lia Bool Reals Lra.
Import ListNotations.
From Verif Require Import Prelude PreludeLemmas RSum RealLemmas CropModel RayModel OpsModel OpsProps GapModel GapProps AssemblyModel KernelModel KernelProofs KernelSpec
  ElasticityProps ContactKernelProofs ContactKernelProps RigidKernelModel RigidKernelProps OneSidedModel.
Local Open Scope R_scope.

(** ** Specification: the fields at quadrature point [q] of facet [f] *)
Section Fields.
  Context (kd : kernel_data) (coords : list R) (f q : nat).
  Notation dim := (kd_gdim kd).
  Definition along (v : nat -> R) : R := rsum dim (fun a => v a * plane_normal dim a).
  (** sigma_n of a field with gradient [G] (component, direction): its traction on the facet
      in the direction of the plane normal. *)
  Definition sigma_n (mu lmbda : R) (G : nat -> nat -> R) : R := along (traction dim mu lmbda G (g_n (geometry_at kd coords f q))).
  (** The basis function [i] in direction [n]. *)
  Definition basis_value (i n a : nat) : R := if (a =? n)%nat then kd_phi kd (kd_qp_offsets kd f + q) i else 0.
  Definition basis_gradient (i n : nat) : nat -> nat -> R := in_direction n (phys_grad kd coords f q i).
  (** Packed fields. *)
  Definition value_at (u : list R) (a : nat) : R := nth (q * dim + a)%nat u 0.
  Definition gradient_at (grad : list R) (a b : nat) : R := nth (q * (dim * dim) + a * dim + b)%nat grad 0.
  Definition measure : R := weight kd f q * g_detJ (geometry_at kd coords f q).
End Fields.

Lemma py_R_minus_scale k x : 0 < k -> 1 / k * py_R_minus x = R_minus (x / k).
Proof.
  intros Hk. assert (E : Rabs (x / k) = Rabs x / k) by (unfold Rdiv; rewrite Rabs_mult, (Rabs_pos_eq (/ k)); [reflexivity|now apply Rlt_le, Rinv_0_lt_compat]).
  unfold py_R_minus, R_minus. rewrite E. field. lra.
Qed.
Lemma plane_gap_length dim np g qp : length (pack_gap_plane dim np 1 g qp) = (np * dim)%nat.
Proof.
  unfold pack_gap_plane.
  assert (G : forall (F : nat -> nat) (V : nat -> R) n (s : list R), length (for_loop n (fun k c => upd c (F k) (V k)) s) = length s).
  { intros F V n. induction n as [|n IH]; intros s; [reflexivity|]. rewrite for_loop_S, upd_length. apply IH. }
  change 1%nat with (S 0). rewrite for_loop_S. etransitivity; [apply (G (fun k => (0 * (np * dim) + (k + 1) * dim - 1)%nat) (fun k => g - nth ((0 * np + k) * dim + (dim - 1))%nat qp 0))|].
  change (length (repeat 0 (1 * np * dim)) = (np * dim)%nat). rewrite repeat_length. lia.
Qed.

Section Custom.
  Context (kd : kernel_data) (junk : geometry) (coords : list R) (f : nat) (mu lmbda h plane_loc E gamma theta : R) (qp u grad : list R).
  Notation dim := (kd_gdim kd).
  Notation np := (num_points kd f).
  Notation c := (custom_row dim np mu lmbda h plane_loc qp u grad).
  Notation w := (custom_consts dim E gamma theta).
  Context (Hg : (0 < dim)%nat) (HL : rigid_layout kd f) (Lu : length u = (np * dim)%nat) (Ha : kd_affine kd = true) (Hbs : kd_bs kd = dim).

  Lemma row_gap q k : (q < np)%nat -> (k < dim)%nat -> nth (offsets kd 3 + q * dim + k)%nat c 0 = if (S k =? dim)%nat then - plane_loc - nth (q * dim + k)%nat qp 0 else 0.
  Proof using All.
    intros Hq Hk. unfold custom_row. replace (offsets kd 3 + q * dim + k)%nat with (3 + (q * dim + k))%nat by (unfold offsets; rewrite HL; cbn [psums psums_from nth]; lia).
    cbn [app Nat.add nth]. assert (q * dim + k < np * dim)%nat by nia. rewrite app_nth1 by (rewrite plane_gap_length; lia).
    exact (C74_gap_plane dim np 1 (- plane_loc) qp Hg 0 q k ltac:(lia) Hq Hk).
  Qed.
  Lemma after_gap (l : list R) k : nth (np * dim + k)%nat (pack_gap_plane dim np 1 (- plane_loc) qp ++ l) 0 = nth k l 0.
  Proof using All. rewrite app_nth2 by (rewrite plane_gap_length; lia). f_equal. rewrite plane_gap_length. lia. Qed.
  Lemma row_u q a : (q < np)%nat -> (a < dim)%nat -> nth (offsets kd 4 + dim * q + a)%nat c 0 = value_at kd q u a.
  Proof using All.
    intros Hq Hk. unfold custom_row. replace (offsets kd 4 + dim * q + a)%nat with (3 + (np * dim + (q * dim + a)))%nat by (unfold offsets; rewrite HL; cbn [psums psums_from nth]; lia).
    cbn [app Nat.add nth]. rewrite after_gap. unfold value_at. assert (q * dim + a < np * dim)%nat by nia. now rewrite app_nth1 by lia.
  Qed.
  Lemma row_grad q a b : nth (offsets kd 5 + q * dim * dim + (a * dim + b))%nat c 0 = gradient_at kd q grad a b.
  Proof using All.
    unfold custom_row. replace (offsets kd 5 + q * dim * dim + (a * dim + b))%nat with (3 + (np * dim + (np * dim + (q * (dim * dim) + a * dim + b))))%nat by (unfold offsets; rewrite HL; cbn [psums psums_from nth]; lia).
    cbn [app Nat.add nth]. rewrite after_gap. rewrite <- Lu, app_nth2_plus. reflexivity.
  Qed.
  Lemma const_normal q a : (a < dim)%nat -> rs_normal kd true c w q a = plane_normal dim a.
  Proof using All.
    intros Hk. unfold rs_normal, plane_normal, custom_consts. rewrite Nat.add_comm. cbn [app Nat.add nth]. destruct (Nat.eqb_spec (S a) dim) as [E1|N].
    - rewrite app_nth2 by (rewrite repeat_length; lia). rewrite repeat_length. replace (a - (dim - 1))%nat with 0%nat by lia. cbn. lra.
    - rewrite app_nth1 by (rewrite repeat_length; lia). rewrite nth_repeat_0. lra.
  Qed.
  Lemma const_along q v : rs_along kd true c w q v = along kd v.
  Proof using All. unfold rs_along, along. apply rsum_ext. intros a Hk. now rewrite const_normal. Qed.

  Lemma row_sigma q : rs_sigma kd coords f true c w q = sigma_n kd coords f q mu lmbda (gradient_at kd q grad).
  Proof using All.
    unfold rs_sigma. rewrite const_along. unfold sigma_n, along. apply rsum_ext. intros a Hk. f_equal. apply traction_ext; try exact Hk; intros; first [apply row_grad | reflexivity].
  Qed.
  Lemma row_test q i n : rs_test kd coords f true c w q i n = sigma_n kd coords f q mu lmbda (basis_gradient kd coords f q i n).
  Proof using All. unfold rs_test. now rewrite const_along. Qed.
  Lemma row_un q : (q < np)%nat -> rs_u kd true c w q = along kd (value_at kd q u).
  Proof using All. intros Hq. unfold rs_u. rewrite const_along. apply rsum_ext. intros a Hk. now rewrite row_u. Qed.
  Lemma row_gap_n q : (q < np)%nat -> rs_gap kd true c w q = plane_gap plane_loc (nth (q * dim + (dim - 1))%nat qp 0).
  Proof using All.
    intros Hq. unfold rs_gap. rewrite const_along. unfold along.
    rewrite (rsum_single dim (dim - 1)); [|lia|intros a Hk N; unfold plane_normal; destruct (Nat.eqb_spec (S a) dim); [lia|ring]].
    rewrite row_gap by lia. unfold plane_normal. replace (S (dim - 1)) with dim by lia. rewrite Nat.eqb_refl. unfold plane_gap. ring.
  Qed.
  Lemma basis_normal q i n : (n < dim)%nat -> along kd (basis_value kd f q i n) = plane_normal dim n * kd_phi kd (kd_qp_offsets kd f + q) i.
  Proof using All.
    intros Hn. unfold along. rewrite (rsum_single dim n); [|exact Hn|intros a Hk N; unfold basis_value; destruct (Nat.eqb_spec a n); [lia|ring]]. unfold basis_value. rewrite Nat.eqb_refl. ring.
  Qed.
  Lemma gamma_row : rs_gamma c w = gamma_scaled gamma E h.
  Proof using All. unfold rs_gamma, gamma_scaled. cbn. f_equal. ring. Qed.

  Context (Hw : 0 < E * gamma) (Hh : 0 < h).
  Lemma gamma_pos : 0 < gamma_scaled gamma E h.
  Proof using All. unfold gamma_scaled. apply Rdiv_lt_0_compat; lra. Qed.

  (** The values the UFL forms see at the point. *)
  Notation gap q := (plane_gap plane_loc (nth (q * dim + (dim - 1))%nat qp 0)).
  Notation su q := (sigma_n kd coords f q mu lmbda (gradient_at kd q grad)).
  Notation un q := (along kd (value_at kd q u)).
  Notation sv q i n := (sigma_n kd coords f q mu lmbda (basis_gradient kd coords f q i n)).
  Notation vn q i n := (along kd (basis_value kd f q i n)).

  Lemma indicator_row q : (q < np)%nat -> gamma_scaled gamma E h * rs_indicator kd coords f true c w q = su q + gamma_scaled gamma E h * (gap q - un q).
  Proof using All.
    intros Hq. unfold rs_indicator. rewrite row_sigma, row_gap_n, row_un by exact Hq. unfold gamma_scaled. cbn [custom_row custom_consts app nth]. field. repeat split; try lra; intros Z; rewrite Z in Hw; lra.
  Qed.

  (** The residual kernel on the row of nitsche_custom adds the integral of nitsche_ufl's form. *)
  Theorem C86_residual_is_form :
    forall (b : list (list R)) (links : nat) (qs : list nat) (rhs : kernel_fn),
      generate_rigid_surface_kernel Rhs kd junk true = Some rhs -> vector_buffers kd 0 b ->
      forall i n, (i < kd_ndofs kd)%nat -> (n < dim)%nat ->
        added_vec kd b (rhs b c w coords f links qs) 0 i n =
        lsum (seq 0 np) (fun q => measure kd coords f q * ufl_contact_residual theta gamma E h (gap q) (su q) (un q) (sv q i n) (vn q i n)).
  Proof using All.
    intros b links qs rhs E_rhs Hb i n Hi Hn. injection E_rhs as <-.
    rewrite (chg_vec kd 0 b _ 0 i n _ Hb ltac:(lia) Hi ltac:(rewrite Hbs; exact Hn) (rigid_rhs_entry kd junk true c w coords f Hbs (or_introl Ha) b links qs i n Hi ltac:(rewrite Hbs; exact Hn))).
    apply lsum_ext. intros q Hq. apply in_seq in Hq. assert (Hq' : (q < np)%nat) by lia. pose proof gamma_pos as G.
    unfold ufl_contact_residual. rewrite py_R_minus_scale by exact G. rewrite <- indicator_row by exact Hq'.
    replace (gamma_scaled gamma E h * rs_indicator kd coords f true c w q / gamma_scaled gamma E h) with (rs_indicator kd coords f true c w q) by (field; lra).
    rewrite row_test, row_sigma, const_normal, gamma_row, basis_normal by exact Hn. unfold rs_weight, measure.
    replace (nth 2 c 0 / nth 0 w 0) with (/ gamma_scaled gamma E h) by (unfold gamma_scaled; cbn; field; repeat split; try lra; intros Z; rewrite Z in Hw; lra).
    replace (nth 1 w 0) with theta by reflexivity. unfold Rdiv. ring.
  Qed.

  (** The matrix kernel adds the integral of the UFL Jacobian where the argument of the
      negative part is not zero; there UFL takes half the slope and the kernel none. *)
  Theorem C86_jacobian_is_form_exact :
    forall (A : list (list R)) (links : nat) (qs : list nat) (jac : kernel_fn),
      generate_rigid_surface_kernel Jac kd junk true = Some jac -> matrix_buffers kd 0 A ->
      forall i n j l, (i < kd_ndofs kd)%nat -> (n < dim)%nat -> (j < kd_ndofs kd)%nat -> (l < dim)%nat ->
        added_mat kd A (jac A c w coords f links qs) 0 i n j l =
        lsum (seq 0 np) (fun q => measure kd coords f q * (ufl_contact_jacobian theta gamma E h (gap q) (su q) (un q) (sv q j l) (vn q j l) (sv q i n) (vn q i n)
          - (if Req_EM_T (su q + gamma_scaled gamma E h * (gap q - un q)) 0
             then 1 / 2 * / gamma_scaled gamma E h * (sv q j l - gamma_scaled gamma E h * vn q j l) * (theta * sv q i n - gamma_scaled gamma E h * vn q i n) else 0))).
  Proof using All.
    intros A links qs jac E_jac HA i n j l Hi Hn Hj Hl. injection E_jac as <-.
    rewrite (chg_mat kd 0 A _ 0 i n j l _ HA ltac:(lia) Hi ltac:(rewrite Hbs; exact Hn) Hj ltac:(rewrite Hbs; exact Hl) (rigid_jac_entry kd junk true c w coords f Hbs (or_introl Ha) A links qs i n j l Hi ltac:(rewrite Hbs; exact Hn) Hj ltac:(rewrite Hbs; exact Hl))).
    apply lsum_ext. intros q Hq. apply in_seq in Hq. assert (Hq' : (q < np)%nat) by lia. pose proof gamma_pos as G.
    unfold ufl_contact_jacobian. cbv zeta. rewrite !row_test, row_sigma, !const_normal, gamma_row, !basis_normal, row_gap_n, row_un by auto. unfold rs_weight, measure.
    replace (nth 2 c 0 / nth 0 w 0) with (/ gamma_scaled gamma E h) by (unfold gamma_scaled; cbn; field; repeat split; try lra; intros Z; rewrite Z in Hw; lra).
    replace (nth 1 w 0) with theta by reflexivity.
    set (x := su q + gamma_scaled gamma E h * (gap q - un q)).
    destruct (proj2 (C38_python_agrees)) as [D [D1 [D2 [D3 D4]]]].
    destruct (Req_EM_T x 0) as [X|X].
    - rewrite X. unfold py_dR_minus in D3. replace (1 / gamma_scaled gamma E h * 0.5 * (1 - sgn 0)) with (1 / gamma_scaled gamma E h * (0.5 * (1 - sgn 0))) by ring. rewrite D3, D4. field. lra.
    - destruct (D x X) as [_ DX]. unfold py_dR_minus in DX. replace (1 / gamma_scaled gamma E h * 0.5 * (1 - sgn x)) with (1 / gamma_scaled gamma E h * (0.5 * (1 - sgn x))) by ring. rewrite DX. field. lra.
  Qed.
End Custom.
Print Assumptions C86_residual_is_form.
Print Assumptions C86_jacobian_is_form_exact.

(** The UFL Jacobian is the derivative of the UFL residual. *)
Theorem C86_form_derivative :
  forall (theta gamma E h gap su un sdu dun sv vn : R), 0 < gamma_scaled gamma E h -> su + gamma_scaled gamma E h * (gap - un) <> 0 ->
    derivable_pt_lim (fun t => ufl_contact_residual theta gamma E h gap (su + t * sdu) (un + t * dun) sv vn) 0
      (ufl_contact_jacobian theta gamma E h gap su un sdu dun sv vn).
Proof.
  intros theta gamma E h gap su un sdu dun sv vn G N. unfold ufl_contact_residual, ufl_contact_jacobian. cbv zeta. set (k := gamma_scaled gamma E h) in *. set (x := su + k * (gap - un)) in *.
  destruct (proj2 (C38_python_agrees)) as [D _]. destruct (D x N) as [_ DX]. unfold py_dR_minus in DX.
  assert (HR : derivable_pt_lim (fun t => R_minus (x + t * (sdu - k * dun))) 0 (dR_minus x * (sdu - k * dun))) by (now apply derivable_R_minus_affine).
  eapply derivable_eq; [eapply derivable_ext with (g := fun t => (- theta / k * su * sv + t * (- theta / k * sdu * sv)) + (1 / k * (theta * sv - k * vn)) * R_minus (x + t * (sdu - k * dun)))|].
  - intros t. unfold x, py_R_minus, R_minus. replace (su + t * sdu + k * (gap - (un + t * dun))) with (su + k * (gap - un) + t * (sdu - k * dun)) by ring. ring.
  - apply derivable_pt_lim_plus; [apply derivable_affine|]. apply derivable_pt_lim_scal. exact HR.
  - rewrite <- DX. field. lra.
Qed.
Print Assumptions C86_form_derivative.

(** Dirichlet terms: consistent in both drivers, but the penalties differ by a factor h. *)
Theorem C86_dirichlet_exact :
  forall (theta gamma E h tuv tvd dv : R), 0 < E * gamma -> 0 < h ->
    ufl_dirichlet theta gamma E h tuv 0 0 = - tuv /\ custom_dirichlet theta gamma E h tuv 0 0 = - tuv /\
    (ufl_dirichlet theta gamma E h tuv tvd dv = custom_dirichlet theta gamma E h tuv tvd dv <-> h = 1 \/ dv = 0).
Proof.
  intros theta gamma E h tuv tvd dv Hw Hh. unfold ufl_dirichlet, custom_dirichlet, gamma_scaled. repeat split; [field; lra|field; lra| |].
  - intros H. assert (K : E * gamma * dv * (1 - h) = 0).
    { replace (E * gamma * dv * (1 - h)) with (h * h * ((- tuv - theta * tvd + gamma * E / h / h * dv) - (- tuv - theta * tvd + E * gamma / h * dv))) by (field; lra). rewrite H. ring. }
    apply Rmult_integral in K as [K|K]; [|left; lra]. apply Rmult_integral in K as [K|K]; [lra|now right].
  - intros [->| ->]; field; lra.
Qed.
Print Assumptions C86_dirichlet_exact.
