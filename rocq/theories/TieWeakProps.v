(** C70: what the tie kernels integrate, tested against arbitrary functions. *)
From Coq Require Import List Arith Lia Bool Reals Lra.
Import ListNotations.
From Verif Require Import Prelude PreludeLemmas RSum RealLemmas RayModel AssemblyModel AssemblyProofs KernelModel KernelProofs KernelSpec MeshTieKernelModel ElasticityProps MeshTieKernelProofs MeshTieKernelProps PoissonKernelProofs PoissonKernelProps.
Local Open Scope R_scope.

(** ** Specification: traces of discrete functions on the interface *)
(** Coefficients [U] on the cell of the facet, [Uo k] on linked cell [k]. *)
Section Traces.
  Context (kd : kernel_data) (coords : list R) (f : nat) (c : list R) (links : nat).
  Notation nd := (kd_ndofs kd).
  Notation normal q := (g_n (geometry_at kd coords f q)).
  (** Value and gradient at point [q], from the cell and from the other side. *)
  Definition own (q : nat) (U : coeffs) (n : nat) : R := rsum nd (fun j => kd_phi kd (kd_qp_offsets kd f + q) j * U j n).
  Definition own_grad (q : nat) (U : coeffs) (a b : nat) : R := rsum nd (fun j => phys_grad kd coords f q j b * U j a).
  Definition other (q : nat) (Uo : nat -> coeffs) (n : nat) : R := rsum links (fun k => rsum nd (fun j => tie_test kd f c q k j n * Uo k j n)).
  Definition other_grad (q : nat) (Uo : nat -> coeffs) (a b : nat) : R := rsum links (fun k => rsum nd (fun j => tie_test_grad kd f c q k j b * Uo k j a)).
  (** Jump of the values, average of the tractions. *)
  Definition tie_jump (q : nat) (U : coeffs) (Uo : nat -> coeffs) (n : nat) : R := own q U n - other q Uo n.
  Definition tie_traction (q : nat) (U : coeffs) (Uo : nat -> coeffs) (a : nat) : R :=
    (traction (kd_gdim kd) (nth 0 c 0) (nth 1 c 0) (own_grad q U) (normal q) a +
     traction (kd_gdim kd) (nth 0 c 0) (nth 1 c 0) (other_grad q Uo) (normal q) a) / 2.
  (** The same for scalars. *)
  Definition other_scalar (q : nat) (To : nat -> nat -> R) : R := rsum links (fun k => rsum nd (fun j => poisson_test kd f c q k j * To k j)).
  Definition scalar_jump (q : nat) (T : nat -> R) (To : nat -> nat -> R) : R :=
    rsum nd (fun j => kd_phi kd (kd_qp_offsets kd f + q) j * T j) - other_scalar q To.
  Definition scalar_flux (q : nat) (T : nat -> R) (To : nat -> nat -> R) : R :=
    rsum (kd_gdim kd) (fun a => (rsum nd (fun j => phys_grad kd coords f q j a * T j) +
       rsum links (fun k => rsum nd (fun j => poisson_test_grad kd f c q k j a * To k j))) / 2 * normal q a).
  (** Length of surface belonging to point [q]. *)
  Definition surface_weight (q : nat) : R := weight kd f q * g_detJ (geometry_at kd coords f q).
End Traces.

(** Element vectors tested with the coefficients [V], [Vo]. *)
Definition tested (nd bs links : nat) (vec : nat -> nat -> nat -> R) (V : coeffs) (Vo : nat -> coeffs) : R :=
  apply_row nd bs (vec 0%nat) V + rsum links (fun k => apply_row nd bs (vec (k + 1)%nat) (Vo k)).

(** ** Lemmas *)
Lemma tested_entry nd bs gdim (A s : nat -> R) (g : nat -> nat -> R) (S : nat -> nat -> nat -> R) V :
  apply_row nd bs (fun i n => A n * g i n + rsum gdim (fun a => s a * S i n a)) V =
  rsum bs (fun n => A n * rsum nd (fun i => g i n * V i n)) + rsum gdim (fun a => s a * apply_row nd bs (fun i n => S i n a) V).
Proof.
  rewrite apply_row_plus, apply_row_components, apply_row_sum. f_equal. apply rsum_ext. intros a _. now rewrite apply_row_scal.
Qed.

(** ** C70: mesh tie for elasticity *)
Theorem C70_meshtie_weak_form :
  forall (kd : kernel_data) (junk : geometry) (b : list (list R)) (c w coords : list R) (f links : nat) (qs : list nat) (U V : coeffs) (Uo Vo : nat -> coeffs) (rhs : kernel_fn),
    generate_meshtie_kernel MeshTieRhs kd junk = Some rhs ->
    kd_bs kd = kd_gdim kd -> vector_buffers kd links b -> tie_fields kd coords f c links qs U Uo ->
    let gamma := nth 0 w 0 in
    let theta := nth 1 w 0 in
    let h := nth 2 c 0 in
    let jump q := tie_jump kd f c links q in
    let average q := tie_traction kd coords f c links q in
    tested (kd_ndofs kd) (kd_bs kd) links (added_vec kd b (rhs b c w coords f links qs)) V Vo =
    lsum qs (fun q => surface_weight kd coords f q / 2 *
      rsum (kd_gdim kd) (fun a => - average q U Uo a * jump q V Vo a + gamma / h * jump q U Uo a * jump q V Vo a - theta * average q V Vo a * jump q U Uo a)).
Proof.
  intros kd junk b c w coords f links qs U V Uo Vo rhs E. injection E as <-. intros Hbs Hb F gamma theta h jump average. unfold tested.
  rewrite (apply_row_ext _ _ (added_vec kd b _ 0%nat) _ V) by (intros i n Hi Hn; apply (chg_vec kd links b _ 0 i n _ Hb ltac:(lia) Hi Hn (meshtie_rhs_cell kd junk c w coords f links b qs i n Hi Hn))).
  rewrite apply_row_lsum.
  rewrite (rsum_ext links _ (fun k => apply_row (kd_ndofs kd) (kd_bs kd) _ (Vo k))) by
    (intros k Hk; apply apply_row_ext; intros i n Hi Hn; apply (chg_vec kd links b _ (k + 1) i n _ Hb ltac:(lia) Hi Hn (meshtie_rhs_link kd junk c w coords f links b qs k i n Hk Hi Hn))).
  rewrite (rsum_ext links _ (fun k => lsum qs _)) by (intros k Hk; apply apply_row_lsum).
  rewrite <- lsum_rsum, <- lsum_plus. apply lsum_ext. intros q Hq. cbv beta.
  assert (Ju : forall a, (a < kd_gdim kd)%nat -> nth (offsets kd 3 + q * kd_bs kd + a) c 0 - nth (offsets kd 5 + q * kd_bs kd + a) c 0 = jump q U Uo a).
  { intros a Ha. rewrite <- Hbs in Ha. rewrite (tf_u _ _ _ _ _ _ _ _ F q a Hq Ha), (tf_u_opp _ _ _ _ _ _ _ _ F q a Hq Ha). reflexivity. }
  assert (Su : forall n, (n < kd_gdim kd)%nat -> sigma_n_u (kd_gdim kd) (fun x => nth (offsets kd 6 + q * kd_gdim kd * kd_gdim kd + x) c 0) (g_n (geometry_at kd coords f q)) (nth 0 c 0) (nth 1 c 0)
      (sigma_n_u (kd_gdim kd) (fun x => nth (offsets kd 4 + q * kd_gdim kd * kd_gdim kd + x) c 0) (g_n (geometry_at kd coords f q)) (nth 0 c 0) (nth 1 c 0) (fun _ => 0)) n = 2 * average q U Uo n).
  { intros n Hn. rewrite !C41_displacement_traction by auto. unfold average, tie_traction.
    rewrite (traction_ext _ _ _ (fun a d => nth (offsets kd 4 + q * kd_gdim kd * kd_gdim kd + (a * kd_gdim kd + d))%nat c 0) (own_grad kd coords f q U)) by (first [exact Hn | intros; apply (tf_grad _ _ _ _ _ _ _ _ F); auto]).
    rewrite (traction_ext _ _ _ (fun a d => nth (offsets kd 6 + q * kd_gdim kd * kd_gdim kd + (a * kd_gdim kd + d))%nat c 0) (other_grad kd f c links q Uo)) by (first [exact Hn | intros; apply (tf_grad_opp _ _ _ _ _ _ _ _ F); auto]).
    lra. }
  assert (Sv : forall a, (a < kd_gdim kd)%nat -> apply_row (kd_ndofs kd) (kd_bs kd) (fun i n => sigma_n_basis kd (g_K (geometry_at kd coords f q)) (g_n (geometry_at kd coords f q)) (nth 0 c 0) (nth 1 c 0) (kd_qp_offsets kd f + q) i n a) V
     + rsum links (fun k => apply_row (kd_ndofs kd) (kd_bs kd) (fun i n => sigma_n_opp (kd_gdim kd) (kd_ndofs kd) (num_points kd f) (fun x => nth (offsets kd 2 + x)%nat c 0) (g_n (geometry_at kd coords f q)) (nth 0 c 0) (nth 1 c 0) q k i n a) (Vo k))
     = 2 * average q V Vo a).
  { intros a Ha. unfold average, tie_traction, own_grad, other_grad.
    rewrite (traction_sum (kd_gdim kd) _ _ links (fun k a0 d => rsum (kd_ndofs kd) (fun j => tie_test_grad kd f c q k j d * Vo k j a0))) by auto.
    rewrite traction_expansion by auto.
    rewrite (rsum_ext links (fun k => traction _ _ _ _ _ _) (fun k => apply_row (kd_ndofs kd) (kd_bs kd) (fun i n => sigma_n_opp (kd_gdim kd) (kd_ndofs kd) (num_points kd f) (fun x => nth (offsets kd 2 + x)%nat c 0) (g_n (geometry_at kd coords f q)) (nth 0 c 0) (nth 1 c 0) q k i n a) (Vo k))).
    2:{ intros k Hk. rewrite traction_expansion by auto. unfold apply_row. rewrite Hbs. apply rsum_ext. intros j Hj. apply rsum_ext. intros l Hl. rewrite C41_opposite_traction by auto. reflexivity. }
    match goal with |- ?x + ?y = 2 * ((?x' + ?y) / 2) => assert (x = x') as -> end; [|field].
    unfold apply_row. rewrite Hbs. apply rsum_ext. intros j Hj. apply rsum_ext. intros l Hl. rewrite C41_basis_traction by auto. reflexivity. }
  set (w0 := 0.5 * weight kd f q * g_detJ (geometry_at kd coords f q)).
  match goal with |- context [-0.5 * sigma_n_u ?a1 ?a2 ?a3 ?a4 ?a5 ?a6 _] => set (su := sigma_n_u a1 a2 a3 a4 a5 a6) in * end.
  set (sg := sigma_n_basis kd (g_K (geometry_at kd coords f q)) (g_n (geometry_at kd coords f q)) (nth 0 c 0) (nth 1 c 0) (kd_qp_offsets kd f + q)) in *.
  set (so := sigma_n_opp (kd_gdim kd) (kd_ndofs kd) (num_points kd f) (fun x => nth (offsets kd 2 + x)%nat c 0) (g_n (geometry_at kd coords f q)) (nth 0 c 0) (nth 1 c 0) q) in *.
  set (ju := fun a => nth (offsets kd 3 + q * kd_bs kd + a) c 0 - nth (offsets kd 5 + q * kd_bs kd + a) c 0).
  rewrite (apply_row_ext _ _ _ (fun i n => ((- / 2 * su n + gamma / h * ju n) * w0) * kd_phi kd (kd_qp_offsets kd f + q) i + rsum (kd_gdim kd) (fun a => (- / 2 * theta * ju a * w0) * sg i n a)) V).
  2:{ intros i n _ _. rewrite minus_half_eq. unfold ju, gamma, theta, h. f_equal; [ring|]. apply rsum_ext. intros; ring. }
  rewrite (tested_entry _ _ _ (fun n => (- / 2 * su n + gamma / h * ju n) * w0) (fun a => - / 2 * theta * ju a * w0) (fun i _ => kd_phi kd (kd_qp_offsets kd f + q) i)).
  rewrite (rsum_ext links _ (fun k => rsum (kd_bs kd) (fun n => (/ 2 * su n - gamma / h * ju n) * w0 * rsum (kd_ndofs kd) (fun i => tie_test kd f c q k i n * Vo k i n))
      + rsum (kd_gdim kd) (fun a => (- / 2 * theta * ju a * w0) * apply_row (kd_ndofs kd) (kd_bs kd) (fun i n => so k i n a) (Vo k)))).
  2:{ intros k _. rewrite <- (tested_entry _ _ _ (fun n => (/ 2 * su n - gamma / h * ju n) * w0) (fun a => - / 2 * theta * ju a * w0) (fun i n => tie_test kd f c q k i n)).
      apply apply_row_ext. intros i n _ _. unfold tie_test. fold (test_index kd (offsets kd 1) (num_points kd f) q k i n). rewrite minus_half_eq, half_eq. unfold ju, gamma, theta, h.
      f_equal; [ring|]. apply rsum_ext. intros; ring. }
  change (forall a, (a < kd_gdim kd)%nat -> ju a = jump q U Uo a) in Ju. clearbody ju.
  rewrite rsum_plus, (rsum_swap links (kd_bs kd)), (rsum_swap links (kd_gdim kd)). rewrite Hbs in *.
  rewrite <- rsum_scal, <- !rsum_plus. apply rsum_ext. intros a Ha. rewrite !rsum_scal.
  specialize (Ju a Ha). specialize (Su a Ha). specialize (Sv a Ha). rewrite Ju, Su.
  set (x := apply_row _ _ _ V) in *. set (y := rsum links (fun k => apply_row _ _ _ (Vo k))) in *. replace y with (2 * average q V Vo a - x) by lra.
  change (jump q V Vo a) with (rsum (kd_ndofs kd) (fun i => kd_phi kd (kd_qp_offsets kd f + q) i * V i a) - rsum links (fun k => rsum (kd_ndofs kd) (fun i => tie_test kd f c q k i a * Vo k i a))).
  unfold surface_weight, w0. rewrite half_eq. set (gh := gamma / h). clearbody gh. field.
Qed.
Print Assumptions C70_meshtie_weak_form.

(** Thermal stress: the isotropic stress of the average temperature acts on the
    jump of the test function. *)
Theorem C70_thermo_weak_form :
  forall (kd : kernel_data) (junk : geometry) (b : list (list R)) (c w coords : list R) (f links : nat) (qs : list nat) (V : coeffs) (Vo : nat -> coeffs) (rhs : kernel_fn),
    generate_meshtie_kernel ThermoElasticRhs kd junk = Some rhs -> vector_buffers kd links b ->
    let mu := nth 0 c 0 in
    let lmbda := nth 1 c 0 in
    let alpha := nth 3 c 0 in
    let average_T q := (nth (offsets kd 7 + q)%nat c 0 + nth (offsets kd 8 + q)%nat c 0) / 2 in
    tested (kd_ndofs kd) (kd_bs kd) links (added_vec kd b (rhs b c w coords f links qs)) V Vo =
    lsum qs (fun q => surface_weight kd coords f q / 2 *
      rsum (kd_bs kd) (fun a => alpha * (3 * lmbda + 2 * mu) * average_T q * g_n (geometry_at kd coords f q) a * tie_jump kd f c links q V Vo a)).
Proof.
  intros kd junk b c w coords f links qs V Vo rhs E. injection E as <-. intros Hb mu lmbda alpha average_T. unfold tested.
  rewrite (apply_row_ext _ _ (added_vec kd b _ 0%nat) _ V) by (intros i n Hi Hn; apply (chg_vec kd links b _ 0 i n _ Hb ltac:(lia) Hi Hn (thermo_rhs_cell kd junk c w coords f links b qs i n Hi Hn))).
  rewrite apply_row_lsum.
  rewrite (rsum_ext links _ (fun k => apply_row (kd_ndofs kd) (kd_bs kd) _ (Vo k))) by
    (intros k Hk; apply apply_row_ext; intros i n Hi Hn; apply (chg_vec kd links b _ (k + 1) i n _ Hb ltac:(lia) Hi Hn (thermo_rhs_link kd junk c w coords f links b qs k i n Hk Hi Hn))).
  rewrite (rsum_ext links _ (fun k => lsum qs _)) by (intros k Hk; apply apply_row_lsum).
  rewrite <- lsum_rsum, <- lsum_plus. apply lsum_ext. intros q Hq. cbv beta.
  set (s := fun n => surface_weight kd coords f q / 2 * (alpha * (3 * lmbda + 2 * mu) * average_T q * g_n (geometry_at kd coords f q) n)).
  rewrite (apply_row_ext _ _ _ (fun i n => s n * kd_phi kd (kd_qp_offsets kd f + q) i) V).
  2:{ intros i n _ _. unfold s, surface_weight, average_T, alpha, lmbda, mu. rewrite half_eq. field. }
  rewrite (apply_row_components _ _ s (fun i _ => kd_phi kd (kd_qp_offsets kd f + q) i)).
  rewrite (rsum_ext links _ (fun k => rsum (kd_bs kd) (fun n => - s n * rsum (kd_ndofs kd) (fun i => tie_test kd f c q k i n * Vo k i n)))).
  2:{ intros k _. rewrite <- (apply_row_components _ _ (fun n => - s n) (fun i n => tie_test kd f c q k i n)). apply apply_row_ext. intros i n _ _.
      unfold tie_test. fold (test_index kd (offsets kd 1) (num_points kd f) q k i n). unfold s, surface_weight, average_T, alpha, lmbda, mu. rewrite half_eq. field. }
  rewrite (rsum_swap links), <- rsum_scal, <- rsum_plus. apply rsum_ext. intros a Ha. rewrite rsum_scal. unfold s, tie_jump, own, other. ring.
Qed.
Print Assumptions C70_thermo_weak_form.

(** ** C70: Poisson tie *)
Theorem C70_poisson_weak_form :
  forall (kd : kernel_data) (junk : geometry) (b : list (list R)) (c w coords : list R) (f links : nat) (qs : list nat) (T V : nat -> R) (To Vo : nat -> nat -> R) (rhs : kernel_fn),
    generate_poisson_kernel MeshTieRhs kd junk = Some rhs ->
    vector_buffers kd links b -> poisson_fields kd coords f c links qs T To ->
    let gamma := nth 0 w 0 in
    let theta := nth 1 w 0 in
    let h := nth 0 c 0 in
    let kdt := nth 1 c 0 in
    let jump q := scalar_jump kd f c links q in
    let flux q := scalar_flux kd coords f c links q in
    tested (kd_ndofs kd) 1 links (added_vec kd b (rhs b c w coords f links qs)) (fun i _ => V i) (fun k i _ => Vo k i) =
    lsum qs (fun q => kdt * (surface_weight kd coords f q / 2) *
      (- flux q T To * jump q V Vo + gamma / h * jump q T To * jump q V Vo - theta * flux q V Vo * jump q T To)).
Proof.
  intros kd junk b c w coords f links qs T V To Vo rhs E. unfold generate_poisson_kernel in E.
  destruct (Nat.eqb_spec (kd_bs kd) 1) as [Hbs|]; [|discriminate E]. cbn [negb] in E. injection E as <-.
  intros Hb F gamma theta h kdt jump flux. unfold tested, apply_row.
  rewrite (rsum_ext (kd_ndofs kd) _ (fun i => lsum qs (fun q => _) * V i)) by (intros i Hi; cbn [rsum]; rewrite Rplus_0_l, (vec_cell kd junk c w coords f links qs Hbs b i Hb Hi); reflexivity).
  rewrite (rsum_ext links _ (fun k => rsum (kd_ndofs kd) (fun i => lsum qs (fun q => _) * Vo k i))) by
    (intros k Hk; apply rsum_ext; intros i Hi; cbn [rsum]; rewrite Rplus_0_l, (vec_link kd junk c w coords f links qs Hbs b k i Hb Hk Hi); reflexivity).
  rewrite (rsum_ext (kd_ndofs kd) _ (fun i => lsum qs (fun q => _))) by (intros i _; rewrite <- lsum_scal_r; reflexivity).
  rewrite (rsum_ext links _ (fun k => rsum (kd_ndofs kd) (fun i => lsum qs (fun q => _)))) by (intros k _; apply rsum_ext; intros i _; rewrite <- lsum_scal_r; reflexivity).
  rewrite <- lsum_rsum. rewrite (rsum_ext links _ (fun k => lsum qs (fun q => _))) by (intros k _; rewrite <- lsum_rsum; reflexivity).
  rewrite <- lsum_rsum, <- lsum_plus. apply lsum_ext. intros q Hq. cbv beta.
  rewrite (average_flux kd coords f c links qs T To F q Hq).
  assert (Fl : forall X Xo, / 2 * rsum (kd_ndofs kd) (fun j => basis_normal_derivative kd (geometry_at kd coords f q) (kd_qp_offsets kd f + q) j * X j)
     + / 2 * rsum links (fun k => rsum (kd_ndofs kd) (fun j => normal_grad kd coords f c q k j * Xo k j)) = flux q X Xo).
  { intros X Xo. unfold flux, scalar_flux.
    rewrite (rsum_ext (kd_gdim kd) _ (fun a => / 2 * rsum (kd_ndofs kd) (fun j => phys_grad kd coords f q j a * g_n (geometry_at kd coords f q) a * X j)
       + / 2 * rsum links (fun k => rsum (kd_ndofs kd) (fun j => poisson_test_grad kd f c q k j a * g_n (geometry_at kd coords f q) a * Xo k j)))).
    2:{ intros a Ha. set (n := g_n (geometry_at kd coords f q) a).
        rewrite (rsum_ext (kd_ndofs kd) (fun j => phys_grad kd coords f q j a * n * X j) (fun j => n * (phys_grad kd coords f q j a * X j))) by (intros; ring).
        rewrite (rsum_ext links (fun k => rsum (kd_ndofs kd) (fun j => poisson_test_grad kd f c q k j a * n * Xo k j)) (fun k => n * rsum (kd_ndofs kd) (fun j => poisson_test_grad kd f c q k j a * Xo k j)))
          by (intros; rewrite <- rsum_scal; apply rsum_ext; intros; ring).
        rewrite !rsum_scal. field. }
    rewrite rsum_plus, !rsum_scal. symmetry. f_equal; f_equal.
    - rewrite rsum_swap. apply rsum_ext. intros j _. rewrite rsum_scal_r, basis_normal_derivative_eq. reflexivity.
    - rewrite rsum_swap. apply rsum_ext. intros k _. rewrite rsum_swap. apply rsum_ext. intros j _. rewrite rsum_scal_r. reflexivity. }
  rewrite (Fl T To). specialize (Fl V Vo). rewrite (pf_T _ _ _ _ _ _ _ _ F q Hq), (pf_T_opp _ _ _ _ _ _ _ _ F q Hq).
  change (rsum (kd_ndofs kd) (fun j => kd_phi kd (kd_qp_offsets kd f + q) j * T j) - rsum links (fun k => rsum (kd_ndofs kd) (fun j => poisson_test kd f c q k j * To k j))) with (jump q T To).
  set (jT := jump q T To). set (fT := flux q T To) in *. fold gamma h theta kdt. set (gh := gamma / h).
  set (W := 0.5 * weight kd f q * g_detJ (geometry_at kd coords f q) * kdt). 
  rewrite (rsum_ext (kd_ndofs kd) _ (fun i => ((- fT + gh * jT) * W) * (kd_phi kd (kd_qp_offsets kd f + q) i * V i) + (- theta * jT * W) * (/ 2 * (basis_normal_derivative kd (geometry_at kd coords f q) (kd_qp_offsets kd f + q) i * V i)))) by (intros; ring).
  rewrite (rsum_ext links _ (fun k => ((fT - gh * jT) * W) * rsum (kd_ndofs kd) (fun i => poisson_test kd f c q k i * Vo k i) + (- theta * jT * W * / 2) * rsum (kd_ndofs kd) (fun i => normal_grad kd coords f c q k i * Vo k i))).
  2:{ intros k _. rewrite <- !rsum_scal, <- rsum_plus. apply rsum_ext. intros; ring. }
  rewrite !rsum_plus, !rsum_scal. rewrite <- Fl. 
  change (jump q V Vo) with (rsum (kd_ndofs kd) (fun i => kd_phi kd (kd_qp_offsets kd f + q) i * V i) - rsum links (fun k => rsum (kd_ndofs kd) (fun i => poisson_test kd f c q k i * Vo k i))).
  unfold W, surface_weight. rewrite half_eq. field.
Qed.
Print Assumptions C70_poisson_weak_form.

(** ** The facets of C30_nonvacuous and C31_nonvacuous meet the hypotheses; with
    other values on the other side the jump is not zero. *)
Example C70_nonvacuous :
  (exists rhs, generate_meshtie_kernel MeshTieRhs example_kd {| g_K := fun _ _ => 0; g_n := fun _ => 0; g_detJ := 0 |} = Some rhs) /\
  tie_fields example_kd [] 0 example_row 2 [0%nat] example_U (fun _ => example_U) /\
  tie_jump example_kd 0 example_row 2 0 example_U (fun _ j n => 2 * example_U j n) 0 = - (4 / 3).
Proof.
  split; [eexists; reflexivity|]. split; [exact (proj1 (proj2 (proj2 (proj2 C30_nonvacuous))))|]. ex_eval.
Qed.
