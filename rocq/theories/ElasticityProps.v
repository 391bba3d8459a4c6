(** Tractions of linear elasticity (C41), recovered contact forces (C66) and the
    geometry used by the kernels (C65, C67). *)
From Coq Require Import List Arith Lia Bool Reals Lra.
Import ListNotations.
From Verif Require Import Prelude PreludeLemmas RSum RealLemmas RayModel AssemblyModel AssemblyProofs KernelModel KernelProofs.
Local Open Scope R_scope.

(** ** Specification: isotropic linear elasticity *)
Definition delta (a b : nat) : R := if (a =? b)%nat then 1 else 0.
(** Stress of a displacement with gradient [G] ([G a b]: derivative of component
    [a] in direction [b]). *)
Definition stress (dim : nat) (mu lmbda : R) (G : nat -> nat -> R) (a b : nat) : R :=
  mu * (G a b + G b a) + lmbda * rsum dim (fun c => G c c) * delta a b.
(** Component [a] of the traction on a surface with normal [n]. *)
Definition traction (dim : nat) (mu lmbda : R) (G : nat -> nat -> R) (n : nat -> R) (a : nat) : R :=
  rsum dim (fun b => stress dim mu lmbda G a b * n b).
(** Gradient of the vector field whose component [j] is a scalar with gradient
    [d], the others zero. *)
Definition in_direction (j : nat) (d : nat -> R) (a b : nat) : R := if (a =? j)%nat then d b else 0.

Lemma delta_sum_r n k f : (k < n)%nat -> rsum n (fun i => f i * delta k i) = f k.
Proof.
  intros Hk. rewrite (rsum_single n k) by (first [exact Hk | intros i Hi N; unfold delta; destruct (Nat.eqb_spec k i); [subst; contradiction | ring]]).
  unfold delta. rewrite Nat.eqb_refl. ring.
Qed.
Lemma delta_sum_l n k f : (k < n)%nat -> rsum n (fun i => f i * delta i k) = f k.
Proof.
  intros Hk. rewrite (rsum_single n k) by (first [exact Hk | intros i Hi N; unfold delta; destruct (Nat.eqb_spec i k); [contradiction | ring]]).
  unfold delta. rewrite Nat.eqb_refl. ring.
Qed.

Lemma in_direction_eq j d a b : in_direction j d a b = delta a j * d b.
Proof. unfold in_direction, delta. destruct (a =? j)%nat; ring. Qed.

(** Traction written out. *)
Lemma traction_eq dim mu lmbda G n a : (a < dim)%nat ->
  traction dim mu lmbda G n a = mu * rsum dim (fun b => (G a b + G b a) * n b) + lmbda * rsum dim (fun c => G c c) * n a.
Proof.
  intros Ha. unfold traction, stress.
  rewrite (rsum_ext dim _ (fun b => mu * ((G a b + G b a) * n b) + (lmbda * rsum dim (fun c => G c c)) * (n b * delta a b))) by (intros; ring).
  rewrite rsum_plus, !rsum_scal, delta_sum_r by auto. reflexivity.
Qed.

Lemma traction_in_direction dim mu lmbda d n j a : (j < dim)%nat -> (a < dim)%nat ->
  traction dim mu lmbda (in_direction j d) n a = mu * (delta a j * rsum dim (fun b => d b * n b) + n j * d a) + lmbda * d j * n a.
Proof.
  intros Hj Ha. rewrite traction_eq by auto.
  rewrite (rsum_ext dim _ (fun b => delta a j * (d b * n b) + (d a * n b) * delta b j)) by (intros; rewrite !in_direction_eq; ring).
  rewrite rsum_plus, rsum_scal, delta_sum_l by auto.
  rewrite (rsum_ext dim (fun c => in_direction j d c c) (fun c => d c * delta c j)) by (intros; rewrite in_direction_eq; ring).
  rewrite delta_sum_l by auto. ring.
Qed.

(** ** C41 *)
(** The traction table of the basis functions. *)
Theorem C41_basis_traction :
  forall (kd : kernel_data) (K : matrix) (n : nat -> R) (mu lmbda : R) (q_pos i j l : nat),
    (j < kd_gdim kd)%nat -> (l < kd_gdim kd)%nat ->
    sigma_n_basis kd K n mu lmbda q_pos i j l =
    traction (kd_gdim kd) mu lmbda (in_direction j (fun b => rsum (kd_tdim kd) (fun k => K k b * kd_dphi kd k q_pos i))) n l.
Proof.
  intros kd K n mu lmbda q_pos i j l Hj Hl. rewrite traction_in_direction by auto.
  assert (E : forall b, basis_gradient kd K q_pos i b = rsum (kd_tdim kd) (fun k => K k b * kd_dphi kd k q_pos i)) by (intros b; unfold basis_gradient; rewrite for_loop_rsum; ring).
  unfold sigma_n_basis, traction_entry. rewrite for_loop_rsum, !E.
  rewrite (rsum_ext (kd_gdim kd) (fun a => basis_gradient kd K q_pos i a * n a) (fun a => rsum (kd_tdim kd) (fun k => K k a * kd_dphi kd k q_pos i) * n a)) by (intros; now rewrite E).
  unfold delta. rewrite (Nat.eqb_sym l j). destruct (j =? l)%nat; ring.
Qed.
Print Assumptions C41_basis_traction.

(** The traction table of the other side's basis functions. *)
Theorem C41_opposite_traction :
  forall (gdim ndofs np : nat) (grad_v n : nat -> R) (mu lmbda : R) (q k i j l : nat), (j < gdim)%nat -> (l < gdim)%nat ->
    sigma_n_opp gdim ndofs np grad_v n mu lmbda q k i j l =
    traction gdim mu lmbda (in_direction j (fun b => grad_v (k * np * ndofs * gdim + i * np * gdim + q * gdim + b)%nat)) n l.
Proof.
  intros gdim ndofs np grad_v n mu lmbda q k i j l Hj Hl. rewrite traction_in_direction by auto.
  unfold sigma_n_opp, traction_entry, opposite_gradient. rewrite for_loop_rsum. unfold delta. rewrite (Nat.eqb_sym l j). destruct (j =? l)%nat; ring.
Qed.
Print Assumptions C41_opposite_traction.

(** The traction of the discrete displacement. *)
Theorem C41_displacement_traction :
  forall (gdim : nat) (grad_u n : nat -> R) (mu lmbda : R) (s : nat -> R) (i : nat), (i < gdim)%nat ->
    sigma_n_u gdim grad_u n mu lmbda s i = s i + traction gdim mu lmbda (fun a b => grad_u (a * gdim + b)%nat) n i.
Proof.
  intros gdim grad_u n mu lmbda s i Hi. rewrite traction_eq by auto. unfold sigma_n_u. rewrite for_loop_rsum. f_equal.
  rewrite (rsum_ext gdim _ (fun j => mu * ((grad_u (i * gdim + j)%nat + grad_u (j * gdim + i)%nat) * n j) + (lmbda * n i) * grad_u (j * gdim + j)%nat)) by (intros; ring).
  rewrite rsum_plus, !rsum_scal. ring.
Qed.
Print Assumptions C41_displacement_traction.

Lemma strain_trace_eq kd K q_pos j l : strain_trace kd K q_pos j l = rsum (kd_tdim kd) (fun k => K k l * kd_dphi kd k q_pos j).
Proof. unfold strain_trace. rewrite for_loop_rsum. ring. Qed.

Lemma normal_strain_eq kd K n_surf n_phys q_pos j l :
  let d b := rsum (kd_tdim kd) (fun k => K k b * kd_dphi kd k q_pos j) in
  normal_strain kd K n_surf n_phys q_pos j l =
  rsum (kd_gdim kd) (fun s => d s * n_phys s) * n_surf l + rsum (kd_gdim kd) (fun s => d s * n_surf s) * n_phys l.
Proof.
  intros d. unfold normal_strain.
  rewrite (for_loop_ext _ _ (fun k acc => acc + rsum (kd_gdim kd) (fun s => K k s * kd_dphi kd k q_pos j * (n_phys s * n_surf l + n_phys l * n_surf s)))) by (intros; apply for_loop_rsum).
  rewrite for_loop_rsum, rsum_swap, <- !rsum_scal_r, <- rsum_plus, Rplus_0_l. apply rsum_ext. intros s _. unfold d.
  rewrite <- !rsum_scal_r, <- rsum_plus. apply rsum_ext. intros; ring.
Qed.

(** The trace/strain tables give the same normal traction. *)
Theorem C41_strain_route :
  forall (kd : kernel_data) (K : matrix) (n_surf n_phys : nat -> R) (mu lmbda : R) (q_pos j l : nat), (l < kd_gdim kd)%nat ->
    let n_dot := rsum (kd_gdim kd) (fun i => n_phys i * n_surf i) in
    lmbda * strain_trace kd K q_pos j l * n_dot + mu * normal_strain kd K n_surf n_phys q_pos j l =
    rsum (kd_gdim kd) (fun a => traction (kd_gdim kd) mu lmbda (in_direction l (fun b => rsum (kd_tdim kd) (fun k => K k b * kd_dphi kd k q_pos j))) n_phys a * n_surf a).
Proof.
  intros kd K n_surf n_phys mu lmbda q_pos j l Hl n_dot. set (d := fun b => rsum (kd_tdim kd) (fun k => K k b * kd_dphi kd k q_pos j)).
  rewrite (rsum_ext (kd_gdim kd) (fun a => traction _ _ _ _ _ a * n_surf a)
    (fun a => mu * rsum (kd_gdim kd) (fun b => d b * n_phys b) * (n_surf a * delta a l) + (mu * n_phys l * (d a * n_surf a) + lmbda * d l * (n_phys a * n_surf a))))
    by (intros a Ha; rewrite traction_in_direction by auto; ring).
  rewrite !rsum_plus, !rsum_scal, delta_sum_l by auto. rewrite strain_trace_eq. pose proof (normal_strain_eq kd K n_surf n_phys q_pos j l) as E. cbv zeta in E. rewrite E. unfold n_dot, d. ring.
Qed.
Print Assumptions C41_strain_route.

(** Superposition: the traction is linear in the gradient. *)
Lemma traction_ext dim mu lmbda G G' n a : (forall b c, (b < dim)%nat -> (c < dim)%nat -> G b c = G' b c) -> (a < dim)%nat ->
  traction dim mu lmbda G n a = traction dim mu lmbda G' n a.
Proof.
  intros H Ha. rewrite !traction_eq by auto. f_equal; [|f_equal; f_equal; apply rsum_ext; auto].
  f_equal. apply rsum_ext. intros b Hb. now rewrite !H.
Qed.

Lemma traction_plus dim mu lmbda G G' n a : (a < dim)%nat ->
  traction dim mu lmbda (fun b c => G b c + G' b c) n a = traction dim mu lmbda G n a + traction dim mu lmbda G' n a.
Proof.
  intros Ha. rewrite !traction_eq by auto.
  rewrite (rsum_ext dim (fun b => (G a b + G' a b + (G b a + G' b a)) * n b) (fun b => (G a b + G b a) * n b + (G' a b + G' b a) * n b)) by (intros; ring).
  rewrite !rsum_plus. ring.
Qed.

Lemma traction_scal dim mu lmbda c G n a : (a < dim)%nat -> traction dim mu lmbda (fun b d => c * G b d) n a = c * traction dim mu lmbda G n a.
Proof.
  intros Ha. rewrite !traction_eq by auto.
  rewrite (rsum_ext dim (fun b => (c * G a b + c * G b a) * n b) (fun b => c * ((G a b + G b a) * n b))) by (intros; ring).
  rewrite !rsum_scal. ring.
Qed.

Lemma traction_zero dim mu lmbda n a : (a < dim)%nat -> traction dim mu lmbda (fun _ _ => 0) n a = 0.
Proof. intros Ha. rewrite (traction_ext dim mu lmbda _ (fun b c => 0 * 0)) by (auto; intros; ring). rewrite (traction_scal _ _ _ 0 (fun _ _ => 0)) by auto. ring. Qed.

Lemma traction_sum dim mu lmbda m G n a : (a < dim)%nat ->
  traction dim mu lmbda (fun b c => rsum m (fun j => G j b c)) n a = rsum m (fun j => traction dim mu lmbda (G j) n a).
Proof.
  intros Ha. induction m as [|m IH]; cbn [rsum]; [now apply traction_zero|]. now rewrite traction_plus, IH.
Qed.

(** Gradient of a discrete displacement with coefficients [U] over basis
    functions with gradients [d]. *)
Lemma traction_expansion dim mu lmbda nd (d U : nat -> nat -> R) n a : (a < dim)%nat ->
  traction dim mu lmbda (fun b c => rsum nd (fun j => d j c * U j b)) n a =
  rsum nd (fun j => rsum dim (fun l => traction dim mu lmbda (in_direction l (d j)) n a * U j l)).
Proof.
  intros Ha. rewrite traction_sum by auto. apply rsum_ext. intros j _.
  rewrite (traction_ext dim mu lmbda _ (fun b c => rsum dim (fun l => U j l * in_direction l (d j) b c))).
  - rewrite traction_sum by auto. apply rsum_ext. intros l _. rewrite traction_scal by auto. ring.
  - intros b c Hb _. rewrite (rsum_ext dim _ (fun l => (U j l * d j c) * delta b l)) by (intros; rewrite in_direction_eq; ring). rewrite delta_sum_r by auto. ring.
  - auto.
Qed.

(** ** C66: the recovered contact forces *)
Theorem C66_contact_forces :
  forall (grad_u n_x : list R) (nq num_facets gdim : nat) (mu lmbda : R),
    length (compute_contact_forces grad_u n_x nq num_facets gdim mu lmbda) = (num_facets * nq * gdim)%nat /\
    forall f q j, (f < num_facets)%nat -> (q < nq)%nat -> (j < gdim)%nat ->
      nth (f * nq * gdim + q * gdim + j)%nat (compute_contact_forces grad_u n_x nq num_facets gdim mu lmbda) 0 =
      traction gdim mu lmbda (fun a b => nth ((f * nq + q) * (gdim * gdim) + a * gdim + b)%nat grad_u 0)
        (fun b => nth ((f * nq + q) * gdim + b)%nat n_x 0) j.
Proof.
  intros grad_u n_x nq nf gdim mu lmbda. unfold compute_contact_forces.
  set (val := fun f q => sigma_n_u gdim (fun i => nth (nq * gdim * f * gdim + q * gdim * gdim + i)%nat grad_u 0) (fun i => nth (nq * gdim * f + q * gdim + i)%nat n_x 0) mu lmbda (fun _ => 0)).
  assert (P : forall m, (m <= nf)%nat -> forall r, r = for_loop m (fun f sign => for_loop nq (fun q sign => for_loop gdim (fun j sign => upd sign (f * nq * gdim + q * gdim + j)%nat (val f q j)) sign) sign) (repeat 0 (nf * nq * gdim)) ->
    length r = (nf * nq * gdim)%nat /\ forall f q j, (f < m)%nat -> (q < nq)%nat -> (j < gdim)%nat -> nth (f * nq * gdim + q * gdim + j)%nat r 0 = val f q j).
  { induction m as [|m IH]; intros Hm r Hr.
    - subst r. split; [apply repeat_length|]. intros; lia.
    - rewrite for_loop_S in Hr. set (r0 := for_loop m _ _) in Hr. destruct (IH ltac:(lia) r0 eq_refl) as [L0 N0].
      assert (Q : forall p, (p <= nq)%nat -> forall r1, r1 = for_loop p (fun q sign => for_loop gdim (fun j sign => upd sign (m * nq * gdim + q * gdim + j)%nat (val m q j)) sign) r0 ->
        length r1 = (nf * nq * gdim)%nat /\ (forall f q j, (f < m)%nat -> (q < nq)%nat -> (j < gdim)%nat -> nth (f * nq * gdim + q * gdim + j)%nat r1 0 = val f q j) /\
        (forall q j, (q < p)%nat -> (j < gdim)%nat -> nth (m * nq * gdim + q * gdim + j)%nat r1 0 = val m q j)).
      { induction p as [|p IHp]; intros Hp r1 Hr1.
        - subst r1. split; [auto|]. split; [auto|]. intros; lia.
        - rewrite for_loop_S in Hr1. set (r2 := for_loop p _ _) in Hr1. destruct (IHp ltac:(lia) r2 eq_refl) as (L2 & N2 & M2).
          assert (J : forall s, (s <= gdim)%nat -> forall r3, r3 = for_loop s (fun j sign => upd sign (m * nq * gdim + p * gdim + j)%nat (val m p j)) r2 ->
            length r3 = (nf * nq * gdim)%nat /\ (forall x, (x < m * nq * gdim + p * gdim)%nat -> nth x r3 0 = nth x r2 0) /\ (forall j, (j < s)%nat -> nth (m * nq * gdim + p * gdim + j)%nat r3 0 = val m p j)).
          { induction s as [|s IHs]; intros Hs r3 Hr3.
            - subst r3. split; [auto|]. split; [auto|]. intros; lia.
            - rewrite for_loop_S in Hr3. set (r4 := for_loop s _ _) in Hr3. destruct (IHs ltac:(lia) r4 eq_refl) as (L4 & N4 & M4). subst r3.
              split; [now rewrite upd_length|]. split.
              + intros x Hx. rewrite nth_upd. destruct (Nat.eqb_spec (m * nq * gdim + p * gdim + s) x); [lia|]. cbn [andb]. auto.
              + intros j Hj. rewrite nth_upd. destruct (Nat.eqb_spec (m * nq * gdim + p * gdim + s) (m * nq * gdim + p * gdim + j)) as [E|E]; cbn [andb].
                * rewrite L4. destruct (Nat.ltb_spec (m * nq * gdim + p * gdim + s) (nf * nq * gdim)) as [_|B]; [f_equal; lia|].
                  exfalso. assert (p * gdim + s < nq * gdim)%nat by nia. assert ((m + 1) * (nq * gdim) <= nf * (nq * gdim))%nat by (apply Nat.mul_le_mono_r; lia). nia.
                * apply M4. lia. }
          destruct (J gdim (le_n _) r1 Hr1) as (L3 & N3 & M3). split; [auto|]. split.
          + intros f q j Hf Hq Hj. rewrite N3; auto. assert (q * gdim + j < nq * gdim)%nat by nia. assert ((f + 1) * (nq * gdim) <= m * (nq * gdim))%nat by (apply Nat.mul_le_mono_r; lia). nia.
          + intros q j Hq Hj. destruct (Nat.eq_dec q p) as [->|Ne]; [auto|]. rewrite N3; [apply M2; lia|]. assert ((q + 1) * gdim <= p * gdim)%nat by (apply Nat.mul_le_mono_r; lia). nia. }
      destruct (Q nq (le_n _) r Hr) as (L1 & N1 & M1). split; [auto|]. intros f q j Hf Hq Hj. destruct (Nat.eq_dec f m) as [->|Ne]; auto. apply N1; auto. lia. }
  destruct (P nf (le_n _) _ eq_refl) as [L N]. split; [exact L|]. intros f q j Hf Hq Hj.
  eapply eq_trans; [exact (N f q j Hf Hq Hj)|]. unfold val. rewrite C41_displacement_traction by auto. rewrite Rplus_0_l.
  replace (nq * gdim * f + q * gdim)%nat with ((f * nq + q) * gdim)%nat by nia.
  apply traction_ext; auto. intros b c _ _. f_equal. nia.
Qed.
Print Assumptions C66_contact_forces.

Example C66_nonvacuous : compute_contact_forces [1; 2; 3; 4] [1; 0] 1 1 2 1 10 = [0 + (1 * (1 + 1) * 1 + 10 * 1 * 1) + (1 * (3 + 2) * 0 + 10 * 4 * 1); 0 + (1 * (2 + 3) * 1 + 10 * 1 * 0) + (1 * (4 + 4) * 0 + 10 * 4 * 0)].
Proof. reflexivity. Qed.

(** ** C65: geometry of each point *)
(** A kernel's contributions at a quadrature point depend on that point only,
    not on which points were visited before, nor on uninitialised memory. *)
Theorem C65_point_geometry :
  forall (kd : kernel_data) (coords : list R) (f : nat) (junk : geometry) (qs : list nat)
    (body : nat -> geometry -> list (list R) -> list (list R)) (bufs : list (list R)),
    quadrature_loop kd coords f junk qs body bufs = for_each qs (fun q b => body q (geometry_at kd coords f q) b) bufs.
Proof. exact quadrature_loop_geometry. Qed.
Print Assumptions C65_point_geometry.

(** On affine cells (derivatives of the coordinate basis constant) the geometry
    at the first point is the geometry at every point of the facet. *)
Theorem C65_affine_shortcut :
  forall (kd : kernel_data) (coords : list R) (f q : nat),
    (forall j q' a, kd_dphi_c kd j (kd_qp_offsets kd f + q') a = kd_dphi_c kd j (kd_qp_offsets kd f) a) ->
    (forall A B : matrix, (forall i j, A i j = B i j) -> kd_determinant kd A = kd_determinant kd B /\ forall i j, kd_inverse kd A i j = kd_inverse kd B i j) ->
    let exact_K := fst (compute_facet_jacobian kd coords f (kd_qp_offsets kd f + q)%nat) in
    let g := geometry_at kd coords f q in
    g_detJ g = snd (compute_facet_jacobian kd coords f (kd_qp_offsets kd f + q)%nat) /\
    (forall i j, g_K g i j = exact_K i j) /\
    (forall i, g_n g i = physical_facet_normal (kd_tdim kd) (kd_gdim kd) exact_K (kd_ref_normal kd f) i).
Proof.
  intros kd coords f q Hc Hx exact_K g. unfold g, geometry_at. destruct (kd_affine kd); [|repeat split].
  cbn [g_detJ g_K g_n fst snd compute_facet_jacobian].
  set (J := fun (p i j : nat) => for_loop (kd_nodes kd) (fun a acc => acc + nth (a * 3 + i) coords 0 * kd_dphi_c kd j p a) 0).
  assert (EJ : forall i j, J (kd_qp_offsets kd f) i j = J (kd_qp_offsets kd f + q)%nat i j).
  { intros i j. unfold J. apply for_loop_ext. intros a acc _. now rewrite Hc. }
  assert (EK : forall i j, kd_inverse kd (J (kd_qp_offsets kd f)) i j = exact_K i j) by (intros i j; apply (Hx (J (kd_qp_offsets kd f)) (J (kd_qp_offsets kd f + q)%nat) EJ)).
  split; [|split].
  - f_equal. apply Hx. intros i j. apply for_loop_ext. intros k acc _. fold (J (kd_qp_offsets kd f) i k). fold (J (kd_qp_offsets kd f + q)%nat i k). now rewrite EJ.
  - exact EK.
  - intros i. unfold physical_facet_normal.
    assert (EN : forall i, for_loop (kd_tdim kd) (fun j acc => acc + kd_inverse kd (J (kd_qp_offsets kd f)) j i * kd_ref_normal kd f j) 0 = for_loop (kd_tdim kd) (fun j acc => acc + exact_K j i * kd_ref_normal kd f j) 0).
    { intros i0. apply for_loop_ext. intros j acc _. now rewrite EK. }
    unfold J in EN. rewrite EN. f_equal. f_equal. apply for_loop_ext. intros a acc _. now rewrite EN.
Qed.
Print Assumptions C65_affine_shortcut.

(** ** C67: physical facet normals *)
(** If [K] inverts the Jacobian [J], the normal is orthogonal to the facet's
    tangents, of unit length, and on the side of the reference normal. *)
Theorem C67_physical_normal :
  forall (tdim gdim : nat) (J K Jf : matrix) (ref : nat -> R) (a : nat),
    (forall i j, (i < tdim)%nat -> (j < tdim)%nat -> rsum gdim (fun k => K i k * J k j) = delta i j) ->
    (forall j, rsum tdim (fun k => ref k * Jf k j) = 0) -> (a < tdim)%nat -> ref a <> 0 ->
    let n := physical_facet_normal tdim gdim K ref in
    rsum gdim (fun i => n i * n i) = 1 /\
    (forall j, rsum gdim (fun i => n i * rsum tdim (fun k => J i k * Jf k j)) = 0) /\
    (forall v, 0 < rsum tdim (fun k => ref k * v k) -> 0 < rsum gdim (fun i => n i * rsum tdim (fun k => J i k * v k))).
Proof.
  intros tdim gdim J K Jf ref a HK HJf Ha Hr n.
  set (m := fun i => rsum tdim (fun j => K j i * ref j)). set (N := sqrt (rsum gdim (fun i => m i * m i))).
  assert (En : forall i, n i = m i / N).
  { intros i. unfold n, physical_facet_normal, N. rewrite for_loop_rsum, Rplus_0_l. f_equal. f_equal. rewrite for_loop_rsum, Rplus_0_l. apply rsum_ext. intros k _. rewrite for_loop_rsum, Rplus_0_l. fold (m k). ring. }
  assert (D : forall v, rsum gdim (fun i => m i * rsum tdim (fun k => J i k * v k)) = rsum tdim (fun k => ref k * v k)).
  { intros v. rewrite (rsum_ext gdim _ (fun i => rsum tdim (fun k => rsum tdim (fun j => ref j * v k * (K j i * J i k))))).
    2: { intros i _. unfold m. rewrite <- rsum_scal. apply rsum_ext. intros k _. rewrite <- rsum_scal_r. apply rsum_ext. intros; ring. }
    rewrite rsum_swap. apply rsum_ext. intros k Hk. rewrite rsum_swap.
    rewrite (rsum_ext tdim _ (fun j => (ref j * v k) * delta j k)) by (intros j Hj; rewrite rsum_scal, HK by auto; ring).
    now rewrite delta_sum_l. }
  assert (Npos : 0 < rsum gdim (fun i => m i * m i)).
  { destruct (Rle_lt_or_eq_dec 0 (rsum gdim (fun i => m i * m i))) as [L|L]; auto; [apply rsum_nonneg; intros; apply Rle_0_sqr|].
    exfalso. apply Hr. assert (Z : forall i, (i < gdim)%nat -> m i = 0).
    { intros i Hi. assert (Q : m i * m i = 0) by (apply (rsum_nonneg_zero gdim (fun i => m i * m i)); auto; intros; apply Rle_0_sqr). destruct (Rmult_integral _ _ Q); auto. }
    pose proof (D (fun k => delta a k)) as Da. rewrite delta_sum_r in Da by auto. rewrite <- Da. apply rsum_zero. intros i Hi. rewrite Z by auto. ring. }
  assert (HN : 0 < N) by (apply sqrt_lt_R0; auto).
  split; [|split].
  - rewrite (rsum_ext gdim _ (fun i => m i * m i * / (N * N))) by (intros i _; rewrite En; field; lra).
    rewrite rsum_scal_r. unfold N. rewrite sqrt_sqrt by lra. field. lra.
  - intros j. rewrite (rsum_ext gdim _ (fun i => / N * (m i * rsum tdim (fun k => J i k * Jf k j)))) by (intros i _; rewrite En; unfold Rdiv; ring).
    rewrite rsum_scal, (D (fun k => Jf k j)), HJf. ring.
  - intros v Hv. rewrite (rsum_ext gdim _ (fun i => / N * (m i * rsum tdim (fun k => J i k * v k)))) by (intros i _; rewrite En; unfold Rdiv; ring).
    rewrite rsum_scal, D. apply Rmult_lt_0_compat; auto. now apply Rinv_0_lt_compat.
Qed.
Print Assumptions C67_physical_normal.

(** Reference triangle mapped by the identity, hypotenuse. *)
Example C67_nonvacuous :
  let J : matrix := fun i j => delta i j in
  let Jf : matrix := fun k _ => if (k =? 0)%nat then -1 else 1 in
  (forall i j, (i < 2)%nat -> (j < 2)%nat -> rsum 2 (fun k => J i k * J k j) = delta i j) /\ (forall j, rsum 2 (fun k => (1 : R) * Jf k j) = 0).
Proof.
  intros J Jf. split.
  - intros i j Hi Hj. destruct i as [|[|i]], j as [|[|j]]; try lia; unfold J, delta; cbn; ring.
  - intros j. unfold Jf. cbn [rsum Nat.eqb]. ring.
Qed.
