(** C122: the one-sided driver nitsche_custom at the level of the assembled system. *)
From Coq Require Import List Arith ZArith Lia Bool Reals Lra.
Import ListNotations.
From Verif Require Import Prelude PreludeLemmas RSum RealLemmas EntitiesModel PackingModel PackingProps PackUProps GhostingProofs AssemblyModel AssemblyProofs AssemblyProps GapModel GapProps RayModel OpsModel OpsProps KernelModel KernelProofs KernelSpec
  ElasticityProps ContactKernelModel ContactKernelProofs ContactKernelSpec ContactKernelProps RigidKernelModel RigidKernelProps OneSidedModel OneSidedProps
  CoefficientsModel CoefficientsProps SystemSpec TieSystemModel TieSystemProofs TieWeakProps ContactSystemSpec SystemWeakProps MonotoneProps FixedPointProofs ExistenceProps OneSidedSystemModel.
Local Open Scope R_scope.

(** ** Specification *)
(** The kernels, the packed coefficients and the assembler belong to the same P1 (or other
    blocked scalar Lagrange) space on affine cells, and the assembler has no linked cells. *)
Record driver_setting (pd : pack_data) (kd : kernel_data) (asm : assembly) : Prop := {
  dr_space : pack_space pd; dr_affine_tables : affine_tables pd; dr_transforms : pd_transforms pd = false; dr_vs : pd_vs pd = 1%nat;
  dr_dbs : pd_dofmap_bs pd = pd_bs pd; dr_vector : pd_bs pd = pd_gdim pd;
  dr_tables : same_tables kd pd; dr_gdim_pos : (0 < pd_gdim pd)%nat; dr_gdim3 : (pd_gdim pd <= 3)%nat;
  dr_strides : forall f, rigid_layout kd f;
  dr_links : a_max_links asm = 0%nat; dr_ndofs : a_ndofs asm = pd_functions pd; dr_bs : a_bs asm = pd_bs pd; dr_gdim : a_gdim asm = pd_gdim pd;
  dr_nodes : a_num_dofs_g asm = pd_nodes pd; dr_x_dofmap : forall c, a_x_dofmap asm c = pd_x_dofmap pd c; dr_x_length : forall c, length (pd_x_dofmap pd c) = pd_nodes pd;
  dr_x : a_x asm = pd_x pd; dr_dofs : forall c, a_dofs asm c = pd_dofs pd c;
  dr_active : exists entities, lists_entities ExteriorFacet (a_active asm) entities /\ (a_local asm <= length entities)%nat }.

(** The fields at quadrature point [q] of contact facet [e]. *)
Section Point.
  Context (pd : pack_data) (kd : kernel_data) (asm : assembly) (mu lmbda : R) (e q : nat).
  Definition facet_cell : nat := nth (2 * e) (a_active asm) 0%nat.
  Definition facet_index : nat := nth (2 * e + 1) (a_active asm) 0%nat.
  (** Value and gradient of a finite element function there. *)
  Definition fe_value (v : list R) (n : nat) : R :=
    rsum (pd_functions pd) (fun j => pd_basis pd 0 (pd_q_offsets pd facet_index + q) j 0 * dof_value (pd_bs pd) (pd_dofs pd facet_cell) v j n).
  Definition fe_gradient (v : list R) (a b : nat) : R :=
    rsum (pd_functions pd) (fun j => basis_derivative pd facet_cell facet_index q b j 0 * dof_value (pd_bs pd) (pd_dofs pd facet_cell) v j a).
  Definition facet_normal : nat -> R := g_n (geometry_at kd (coordinates_of asm facet_cell) facet_index q).
  Definition facet_weight : R := weight kd facet_index q * g_detJ (geometry_at kd (coordinates_of asm facet_cell) facet_index q).
  (** Component along the normal n_2 = (0, .., 0, -1), and sigma_n(v) = (sigma(v) n) . n_2. *)
  Definition along_plane (x : nat -> R) : R := rsum (pd_gdim pd) (fun a => x a * plane_normal (pd_gdim pd) a).
  Definition normal_value (v : list R) : R := along_plane (fe_value v).
  Definition normal_stress (v : list R) : R := along_plane (traction (pd_gdim pd) mu lmbda (fe_gradient v) facet_normal).
End Point.

(** ** Proofs *)
Lemma rigid_kernel_slots kd junk k kernel (slots : nat -> nat) : (forall n, (0 < slots n)%nat) -> generate_rigid_surface_kernel k kd junk true = Some kernel -> kernel_local slots kernel.
Proof.
  intros Hs E.
  destruct k; try discriminate E; injection E as <-; apply kernel_local_intro; intros bufs; intros;
    (unfold rigid_rhs, rigid_jac; cbv zeta; rewrite !quadrature_loop_geometry;
     first [ pose proof (same_shape_refl bufs) as Hrefl; solve [kernel_shape]
           | pose proof (Hs n) as Hpos; solve [kernel_agree] ]).
Qed.

Section System.
  Context (pd : pack_data) (kd : kernel_data) (asm : assembly) (mu lmbda plane_loc E gamma theta : R) (h qp : list R) (rhs jac : kernel_fn) (junk : geometry).
  Context (form_vector : list R -> list R) (form_matrix : list insertion).
  Notation nq := (pd_nq pd).
  Notation nd := (pd_functions pd).
  Notation bs := (pd_bs pd).
  Notation gdim := (pd_gdim pd).
  Context (DS : driver_setting pd kd asm) (Haff : kd_affine kd = true)
    (E_rhs : generate_rigid_surface_kernel Rhs kd junk true = Some rhs) (E_jac : generate_rigid_surface_kernel Jac kd junk true = Some jac)
    (Hw : 0 < E * gamma) (Hh : forall e, (e < a_local asm)%nat -> 0 < nth e h 0).
  Notation row := (driver_row pd asm mu lmbda plane_loc h qp).
  Notation coeffs := (driver_coeffs pd asm mu lmbda plane_loc h qp).
  Notation F := (fun x => assemble_residual pd asm mu lmbda plane_loc E gamma theta h qp rhs form_vector x x).
  Notation M := (assemble_jacobian pd asm mu lmbda plane_loc E gamma theta h qp jac form_matrix).
  Notation consts := (custom_consts gdim E gamma theta).
  Notation cell e := (nth (2 * e) (a_active asm) 0%nat).
  Notation fct e := (nth (2 * e + 1) (a_active asm) 0%nat).
  Notation T := (dr_tables _ _ _ DS).
  Notation value e q := (normal_value pd asm e q).
  Notation stress_n e q := (normal_stress pd kd asm mu lmbda e q).
  Notation ds e q := (facet_weight kd asm e q).
  Notation gap e q := (plane_gap plane_loc (nth ((e * nq + q) * gdim + (gdim - 1))%nat qp 0)).

  Lemma kg : kd_gdim kd = gdim. Proof. apply (st_gdim _ _ T). Qed.
  Lemma kb : kd_bs kd = kd_gdim kd. Proof. rewrite (st_bs _ _ T), (st_gdim _ _ T). apply (dr_vector _ _ _ DS). Qed.

  Lemma driver_coordinates c m k : (m < pd_nodes pd)%nat -> (k < gdim)%nat -> nth (m * 3 + k) (coordinates_of asm c) 0 = coordinate_dofs pd c m k.
  Proof.
    intros Hm Hk. unfold coordinates_of, coordinate_dofs. rewrite (dr_x_dofmap _ _ _ DS), (dr_x _ _ _ DS), (dr_gdim _ _ _ DS). pose proof (dr_gdim3 _ _ _ DS).
    rewrite (nth_flat_map_const _ 3 _ _ _ _ 0%nat) by (first [reflexivity | rewrite (dr_x_length _ _ _ DS); exact Hm | lia]).
    rewrite (nth_map_lt _ (seq 0 3) k 0 0%nat) by (rewrite seq_length; lia). rewrite seq_nth by lia. cbn [Nat.add].
    destruct (Nat.ltb_spec k gdim); [reflexivity|lia].
  Qed.
  Lemma driver_phys_grad c f q j b : (b < gdim)%nat -> phys_grad kd (coordinates_of asm c) f q j b = basis_derivative pd c f q b j 0%nat.
  Proof.
    intros Hb. unfold phys_grad, basis_derivative. cbv zeta. rewrite (st_tdim _ _ T). apply rsum_ext. intros k Hk.
    rewrite (st_dphi _ _ T), (st_offsets _ _ T). f_equal. unfold geometry_at. cbn [g_K]. unfold compute_facet_jacobian. cbn [fst].
    rewrite (st_affine _ _ T).
    assert (X : forall p, kd_inverse kd (fun i0 j0 => for_loop (kd_nodes kd) (fun a acc => acc + nth (a * 3 + i0) (coordinates_of asm c) 0 * kd_dphi_c kd j0 p a) 0) k b = pd_inverse pd (pack_jacobian pd c p) k b).
    { intros p. apply (st_inverse _ _ T); auto. intros i0 j0 Hi0 Hj0. unfold pack_jacobian. rewrite (st_nodes _ _ T). apply for_loop_ext. intros m s Hm. rewrite driver_coordinates by auto. now rewrite (st_dphi_c _ _ T). }
    rewrite X. rewrite !(st_offsets _ _ T). destruct (pd_affine pd) eqn:Ha; [|reflexivity].
    now rewrite (affine_jacobian pd c (pd_q_offsets pd f) (pd_q_offsets pd f + q) (dr_affine_tables _ _ _ DS) Ha).
  Qed.
  Lemma driver_coefficient u c m r : (r < bs)%nat -> cell_coefficient pd u c m r = dof_value bs (pd_dofs pd c) u m r.
  Proof.
    intros Hr. unfold cell_coefficient, dof_value. cbv zeta. rewrite (dr_dbs _ _ _ DS), (div_block m bs r Hr).
    replace ((m * bs + r) mod bs)%nat with r by (rewrite Nat.add_comm, Nat.mod_add by lia; now rewrite Nat.mod_small). reflexivity.
  Qed.
  Lemma driver_dofs c : length (pd_dofs pd c) = nd.
  Proof. pose proof (ps_dofs _ (dr_space _ _ _ DS) c) as H. pose proof (ps_bs _ (dr_space _ _ _ DS)). rewrite (dr_dbs _ _ _ DS) in H. nia. Qed.

  (** The owned facets. *)
  Lemma firstn_pairs {A} (l : list (A * A)) k : (k <= length l)%nat -> firstn (2 * k) (concat (map (fun e => [fst e; snd e]) l)) = concat (map (fun e => [fst e; snd e]) (firstn k l)).
  Proof using. revert k. induction l as [|x l IH]; intros [|k] Hk; cbn [length] in Hk; [reflexivity|lia|reflexivity|]. replace (2 * S k)%nat with (S (S (2 * k))) by lia. cbn [map concat firstn app]. rewrite IH by lia. reflexivity. Qed.
  Lemma driver_entities : exists entities, lists_entities ExteriorFacet (integral_entities asm) entities /\ length entities = a_local asm /\
    forall e, (e < a_local asm)%nat -> nth e entities (0, 0)%nat = (cell e, fct e).
  Proof.
    destruct (dr_active _ _ _ DS) as (l & HL & Hn). exists (firstn (a_local asm) l). cbn [lists_entities] in *. split; [|split].
    - unfold integral_entities. rewrite HL. now apply firstn_pairs.
    - apply firstn_length_le. exact Hn.
    - intros e He. destruct (listed_entities ExteriorFacet (a_active asm) l HL) as [_ X]. specialize (X e ltac:(lia)). transitivity (nth e l (0, 0)%nat); [|exact (eq_sym X)].
      clear -He Hn. rewrite <- (firstn_skipn (a_local asm) l) at 2. rewrite app_nth1; [reflexivity|]. rewrite firstn_length_le by exact Hn. exact He.
  Qed.
  Lemma u_packed_value u e q n : (e < a_local asm)%nat -> (q < nq)%nat -> (n < bs)%nat -> nth (e * (nq * gdim) + (q * gdim + n)) (u_packed pd asm u) 0 = fe_value pd asm e q u n.
  Proof.
    intros He Hq Hn. destruct driver_entities as (l & HL & Ln & En).
    destruct (C71_values_are_function_values pd u ExteriorFacet (integral_entities asm) l (dr_space _ _ _ DS) (dr_affine_tables _ _ _ DS) ltac:(intros; apply (dr_dbs _ _ _ DS)) HL) as (c & Ec & _ & X).
    unfold u_packed. rewrite Ec. cbn [packed fst]. specialize (X e q n 0%nat ltac:(lia) Hq Hn ltac:(rewrite (dr_vs _ _ _ DS); lia)). rewrite (En e He) in X. unfold value_size in X. rewrite (dr_vs _ _ _ DS), (dr_vector _ _ _ DS) in X.
    replace (e * (nq * gdim) + (q * gdim + n))%nat with (e * (gdim * 1 * nq) + q * (gdim * 1) + (n * 1 + 0))%nat by lia. rewrite X.
    unfold function_value, physical_basis. rewrite (dr_transforms _ _ _ DS). cbv zeta. apply rsum_ext. intros m _. now rewrite driver_coefficient.
  Qed.
  Lemma grad_packed_value u e q n b : (e < a_local asm)%nat -> (q < nq)%nat -> (n < bs)%nat -> (b < gdim)%nat ->
    nth (e * (nq * gdim * gdim) + (q * (gdim * gdim) + n * gdim + b)) (grad_u_packed pd asm u) 0 = fe_gradient pd asm e q u n b.
  Proof.
    intros He Hq Hn Hb. destruct driver_entities as (l & HL & Ln & En).
    destruct (C72_gradients_are_function_gradients pd u ExteriorFacet (integral_entities asm) l (dr_space _ _ _ DS) (dr_affine_tables _ _ _ DS) (dr_transforms _ _ _ DS) HL) as (c & Ec & _ & X).
    unfold grad_u_packed. rewrite Ec. cbn [packed fst]. specialize (X e q n 0%nat b ltac:(lia) Hq Hn ltac:(rewrite (dr_vs _ _ _ DS); lia) Hb). rewrite (En e He) in X. unfold value_size in X. rewrite (dr_vs _ _ _ DS), (dr_vector _ _ _ DS) in X.
    replace (e * (nq * gdim * gdim) + (q * (gdim * gdim) + n * gdim + b))%nat with (e * (gdim * 1 * nq * gdim) + q * (gdim * 1 * gdim) + (n * 1 + 0) * gdim + b)%nat by nia. rewrite X.
    unfold function_value. apply rsum_ext. intros m _. now rewrite driver_coefficient.
  Qed.
  Lemma packed_lengths u : length (u_packed pd asm u) = (a_local asm * (nq * gdim))%nat /\ length (grad_u_packed pd asm u) = (a_local asm * (nq * gdim * gdim))%nat.
  Proof.
    destruct driver_entities as (l & HL & Ln & En).
    destruct (C71_values_are_function_values pd u ExteriorFacet (integral_entities asm) l (dr_space _ _ _ DS) (dr_affine_tables _ _ _ DS) ltac:(intros; apply (dr_dbs _ _ _ DS)) HL) as (c & Ec & Lc & _).
    destruct (C72_gradients_are_function_gradients pd u ExteriorFacet (integral_entities asm) l (dr_space _ _ _ DS) (dr_affine_tables _ _ _ DS) (dr_transforms _ _ _ DS) HL) as (g & Eg & Lg & _).
    unfold u_packed, grad_u_packed. rewrite Ec, Eg. cbn [packed fst]. rewrite Lc, Lg, Ln. unfold value_size. rewrite (dr_vs _ _ _ DS), (dr_vector _ _ _ DS). split; nia.
  Qed.
  Lemma g_vec_length : length (g_vec pd asm plane_loc qp) = (a_local asm * (nq * gdim))%nat.
  Proof using.
    unfold g_vec, pack_gap_plane. rewrite loop_length; [rewrite repeat_length; lia|]. intros i c. apply loop_length. intros. apply upd_length.
  Qed.
  (** The row of the driver is the row of one facet. *)
  Lemma driver_row_custom u e : (e < a_local asm)%nat ->
    row u e = custom_row gdim nq mu lmbda (nth e h 0) plane_loc (array_row qp (nq * gdim) e) (array_row (u_packed pd asm u) (nq * gdim) e) (array_row (grad_u_packed pd asm u) (nq * gdim * gdim) e).
  Proof.
    intros He. unfold driver_row, custom_row. cbn [app]. do 3 f_equal. f_equal.
    pose proof (dr_gdim_pos _ _ _ DS) as Hg.
    apply (nth_ext' _ _ 0).
    - unfold array_row. rewrite slice_length by (rewrite g_vec_length; nia). now rewrite plane_gap_length.
    - intros p Hp. unfold array_row in *. rewrite slice_length in Hp by (rewrite g_vec_length; nia). rewrite nth_slice by exact Hp.
      assert (Ep : p = (p / gdim * gdim + p mod gdim)%nat) by (rewrite (Nat.div_mod p gdim) at 1 by lia; lia).
      assert (Hm : (p mod gdim < gdim)%nat) by (apply Nat.mod_upper_bound; lia). assert (Hq : (p / gdim < nq)%nat) by (apply Nat.div_lt_upper_bound; [lia|]; nia).
      set (q := (p / gdim)%nat) in *. set (k := (p mod gdim)%nat) in *. clearbody q k. subst p.
      replace (e * (nq * gdim) + (q * gdim + k))%nat with ((e * nq + q) * gdim + k)%nat by nia. unfold g_vec. rewrite C74_gap_plane by assumption.
      replace (q * gdim + k)%nat with ((0 * nq + q) * gdim + k)%nat by lia. rewrite C74_gap_plane by (assumption || lia).
      destruct (S k =? gdim)%nat; [|reflexivity]. f_equal. rewrite nth_slice by nia. f_equal. nia.
  Qed.
  Lemma driver_row_length u e : (e < a_local asm)%nat -> length (row u e) = driver_cstride pd.
  Proof.
    intros He. unfold driver_row, driver_cstride, array_row. destruct (packed_lengths u) as [Lu Lg]. rewrite !app_length, !slice_length by (rewrite ?g_vec_length, ?Lu, ?Lg; nia). reflexivity.
  Qed.
  Lemma driver_slice u e : (e < a_local asm)%nat -> slice (coeffs u) (e * driver_cstride pd) (driver_cstride pd) = row u e.
  Proof.
    intros He. unfold driver_coeffs. rewrite Nat.mul_comm. rewrite slice_concat_const.
    - rewrite (nth_map_lt _ (seq 0 (a_local asm)) e [] 0%nat) by (now rewrite seq_length). now rewrite seq_nth.
    - intros r Hr. apply in_map_iff in Hr as (e' & <- & He'). apply in_seq in He'. apply driver_row_length. lia.
    - now rewrite map_length, seq_length.
  Qed.
  Lemma driver_well_formed : well_formed asm.
  Proof.
    split; [rewrite (dr_gdim _ _ _ DS); apply (dr_gdim3 _ _ _ DS)|]. split.
    - intros i _. rewrite (dr_x_dofmap _ _ _ DS), (dr_nodes _ _ _ DS). apply (dr_x_length _ _ _ DS).
    - intros i _. unfold links_of. rewrite (dr_links _ _ _ DS). cbn. lia.
  Qed.
  Lemma no_links e : links_of asm e = [].
  Proof. unfold links_of. now rewrite (dr_links _ _ _ DS). Qed.

  (** The integrand at a point, for the fields of [u] and [v]. *)
  Definition point_form (u v : list R) (e q : nat) : R :=
    ds e q * ufl_contact_residual theta gamma E (nth e h 0) (gap e q) (stress_n e q u) (value e q u) (stress_n e q v) (value e q v).

  (** Packed fields of the row are the fields of the function. *)
  Lemma row_normal_value u e q : (e < a_local asm)%nat -> (q < nq)%nat -> along kd (value_at kd q (array_row (u_packed pd asm u) (nq * gdim) e)) = value e q u.
  Proof.
    intros He Hq. unfold along, normal_value, along_plane. rewrite kg. apply rsum_ext. intros a Ha. f_equal. unfold value_at, array_row. rewrite kg, nth_slice by nia.
    apply u_packed_value; auto. now rewrite (dr_vector _ _ _ DS).
  Qed.
  Lemma row_normal_stress u e q : (e < a_local asm)%nat -> (q < nq)%nat ->
    sigma_n kd (coordinates_of asm (cell e)) (fct e) q mu lmbda (gradient_at kd q (array_row (grad_u_packed pd asm u) (nq * gdim * gdim) e)) = stress_n e q u.
  Proof.
    intros He Hq. unfold sigma_n, along, normal_stress, along_plane. rewrite kg. apply rsum_ext. intros a Ha. f_equal. apply traction_ext; [|exact Ha].
    intros b c Hb Hc. unfold gradient_at, array_row. rewrite kg, nth_slice.
    - apply grad_packed_value; auto. now rewrite (dr_vector _ _ _ DS).
    - assert (b * gdim + c < gdim * gdim)%nat by nia. nia.
  Qed.
  Lemma restrict_dofs v c j n : restrict asm v c j n = dof_value bs (pd_dofs pd c) v j n.
  Proof. unfold restrict. now rewrite (dr_bs _ _ _ DS), (dr_dofs _ _ _ DS). Qed.
  Lemma tested_value v e q : apply_row nd bs (fun i n => along kd (basis_value kd (fct e) q i n)) (restrict asm v (cell e)) = value e q v.
  Proof.
    unfold normal_value, along_plane. unfold apply_row.
    rewrite (rsum_ext nd _ (fun j => rsum bs (fun l => plane_normal gdim l * (pd_basis pd 0 (pd_q_offsets pd (fct e) + q) j 0 * dof_value bs (pd_dofs pd (cell e)) v j l)))).
    - rewrite rsum_swap. rewrite (dr_vector _ _ _ DS) at 1. apply rsum_ext. intros a Ha. unfold fe_value, facet_cell, facet_index. rewrite rsum_scal. ring.
    - intros j _. apply rsum_ext. intros l Hl. unfold along. rewrite kg. rewrite (rsum_single gdim l); [|now rewrite <- (dr_vector _ _ _ DS)|intros a Ha N; unfold basis_value; destruct (Nat.eqb_spec a l); [lia|ring]].
      unfold basis_value. rewrite Nat.eqb_refl, (st_phi _ _ T), (st_offsets _ _ T), restrict_dofs. ring.
  Qed.
  Lemma tested_stress v e q : apply_row nd bs (fun i n => sigma_n kd (coordinates_of asm (cell e)) (fct e) q mu lmbda (basis_gradient kd (coordinates_of asm (cell e)) (fct e) q i n)) (restrict asm v (cell e)) = stress_n e q v.
  Proof.
    unfold sigma_n, normal_stress, along, along_plane. rewrite kg.
    rewrite (apply_row_ext nd bs _ (fun i n => rsum gdim (fun a => plane_normal gdim a * traction gdim mu lmbda (in_direction n (phys_grad kd (coordinates_of asm (cell e)) (fct e) q i)) (facet_normal kd asm e q) a))) by (intros; apply rsum_ext; intros; unfold basis_gradient, facet_normal, facet_cell, facet_index; ring).
    rewrite apply_row_sum. apply rsum_ext. intros a Ha. rewrite apply_row_scal. rewrite Rmult_comm. f_equal.
    rewrite (traction_ext gdim mu lmbda (fe_gradient pd asm e q v) (fun b c => rsum nd (fun j => phys_grad kd (coordinates_of asm (cell e)) (fct e) q j c * restrict asm v (cell e) j b))).
    - rewrite traction_expansion by exact Ha. unfold apply_row. rewrite (dr_vector _ _ _ DS). reflexivity.
    - intros b c Hb Hc. unfold fe_gradient. apply rsum_ext. intros j _. rewrite driver_phys_grad, restrict_dofs by exact Hc. reflexivity.
    - exact Ha.
  Qed.
  Lemma residual_tested k sv vn gp su un hh V : apply_row nd bs (fun i n => k * ufl_contact_residual theta gamma E hh gp su un (sv i n) (vn i n)) V =
    k * ufl_contact_residual theta gamma E hh gp su un (apply_row nd bs sv V) (apply_row nd bs vn V).
  Proof using.
    unfold ufl_contact_residual. set (g := gamma_scaled gamma E hh). set (r := py_R_minus _).
    rewrite (apply_row_ext nd bs _ (fun i n => (k * (- theta / g * su + 1 / g * r * theta)) * sv i n + (- (k * (1 / g * r * g))) * vn i n) V) by (intros; ring).
    rewrite apply_row_comb. ring.
  Qed.
  Lemma facet_points f : num_points kd f = nq.
  Proof. apply (st_points _ _ T). Qed.
  Lemma array_lengths u e : (e < a_local asm)%nat -> length (array_row (u_packed pd asm u) (nq * gdim) e) = (num_points kd (fct e) * kd_gdim kd)%nat.
  Proof. intros He. destruct (packed_lengths u) as [Lu _]. unfold array_row. rewrite slice_length by (rewrite Lu; nia). now rewrite facet_points, kg. Qed.
  Lemma zero_vec size s d : nth d (nth s (repeat (repeat 0 size) 1) []) 0 = 0.
  Proof using. destruct s as [|s]; cbn [repeat nth]; [apply nth_repeat_0|]. destruct s; now destruct d. Qed.

  (** One facet. *)
  Lemma facet_tested u v e : (e < a_local asm)%nat ->
    apply_row nd bs (fun i n => nth (dof bs i n) (nth 0 (facet_result asm rhs (coeffs u) (driver_cstride pd) consts 1 (bs * nd) e) []) 0) (restrict asm v (cell e)) =
    rsum nq (point_form u v e).
  Proof.
    intros He. unfold facet_result. rewrite driver_slice, driver_row_custom by exact He. rewrite <- kg, <- (facet_points (fct e)). fold (custom_consts (kd_gdim kd) E gamma theta).
    set (b0 := repeat (repeat 0 (bs * nd)) 1). set (us := array_row (u_packed pd asm u) _ e). set (gs := array_row (grad_u_packed pd asm u) _ e). set (qs := array_row qp _ e).
    assert (Hb : vector_buffers kd 0 b0) by (split; [cbn; lia|]; intros s Hs; replace s with 0%nat by lia; cbn [b0 repeat nth]; rewrite repeat_length, (st_bs _ _ T), (st_ndofs _ _ T); lia).
    assert (Lu : length us = (num_points kd (fct e) * kd_gdim kd)%nat) by (pose proof (array_lengths u e He) as L; unfold us; rewrite kg, facet_points in L |- *; exact L).
    assert (Hg : (0 < kd_gdim kd)%nat) by (rewrite kg; apply (dr_gdim_pos _ _ _ DS)).
    rewrite (apply_row_ext nd bs _ (fun i n => lsum (seq 0 (num_points kd (fct e))) (fun q => measure kd (coordinates_of asm (cell e)) (fct e) q *
      ufl_contact_residual theta gamma E (nth e h 0) (plane_gap plane_loc (nth (q * kd_gdim kd + (kd_gdim kd - 1))%nat qs 0))
        (sigma_n kd (coordinates_of asm (cell e)) (fct e) q mu lmbda (gradient_at kd q gs)) (along kd (value_at kd q us))
        (sigma_n kd (coordinates_of asm (cell e)) (fct e) q mu lmbda (basis_gradient kd (coordinates_of asm (cell e)) (fct e) q i n)) (along kd (basis_value kd (fct e) q i n))))).
    - rewrite apply_row_lsum, lsum_seq. apply rsum_ext. intros q Hq. rewrite facet_points in Hq. rewrite residual_tested, tested_stress, tested_value.
      unfold point_form. unfold us, gs, qs. rewrite !facet_points, kg, row_normal_stress, row_normal_value by assumption. unfold measure, facet_weight, facet_cell, facet_index. do 2 f_equal.
      unfold array_row. rewrite nth_slice by (pose proof (dr_gdim_pos _ _ _ DS); nia). f_equal. f_equal. nia.
    - intros i n Hi Hn.
      pose proof (C86_residual_is_form kd junk (coordinates_of asm (cell e)) (fct e) mu lmbda (nth e h 0) plane_loc E gamma theta qs us gs Hg (dr_strides _ _ _ DS _) Lu Haff kb Hw (Hh e He) b0 (length (links_of asm e)) (points_of asm e) rhs E_rhs Hb i n
        ltac:(now rewrite (st_ndofs _ _ T)) ltac:(now rewrite kg, <- (dr_vector _ _ _ DS))) as X.
      unfold added_vec in X. rewrite (st_bs _ _ T) in X. unfold b0 in X at 2. rewrite zero_vec, Rminus_0_r in X. exact X.
  Qed.

  (** The assembled residual is the form of nitsche_ufl: tested with any function it is the
      bulk and Dirichlet part plus the quadrature of the contact integrand over all owned
      contact facets. *)
  Theorem C122_residual_is_form :
    forall (u v : list R), length v = length u -> length (form_vector u) = length u ->
      length (F u) = length u /\ applied (F u) v = applied (form_vector u) v + rsum (a_local asm) (fun e => rsum nq (fun q =>
        ds e q * ufl_contact_residual theta gamma E (nth e h 0) (gap e q) (stress_n e q u) (value e q u) (stress_n e q v) (value e q v))).
  Proof.
    intros u v Hv Hf. cbv zeta.
    assert (K : kernel_local (fun n => n + 1)%nat rhs) by (apply (rigid_kernel_slots kd junk Rhs); [intros; lia|exact E_rhs]).
    set (b0 := repeat 0 (length u)). assert (L0 : length b0 = length u) by apply repeat_length.
    destruct (C20_assemble_vector asm rhs (coeffs u) (driver_cstride pd) consts b0 K driver_well_formed) as [Lr _].
    assert (LF : length (F u) = length u) by (unfold assemble_residual; rewrite map_length, seq_length; fold b0; congruence).
    split; [exact LF|].
    pose proof (C100_assembled_test asm rhs (coeffs u) (driver_cstride pd) consts b0 v K driver_well_formed ltac:(congruence)) as X.
    assert (Z : applied b0 v = 0) by (unfold applied; apply rsum_zero; intros d _; unfold b0; rewrite nth_repeat_0; ring). rewrite Z, Rplus_0_l in X.
    transitivity (applied (form_vector u) v + applied (assemble_vector asm rhs (coeffs u) (driver_cstride pd) consts b0) v).
    - unfold applied. rewrite LF, Hf, Lr, L0, <- rsum_plus. apply rsum_ext. intros d Hd. unfold assemble_residual. fold b0.
      rewrite (nth_map_lt _ _ d 0 0%nat) by (rewrite seq_length; congruence). rewrite seq_nth by congruence. cbn [Nat.add]. ring.
    - f_equal. rewrite X. apply rsum_ext. intros e He. rewrite no_links. unfold tested. cbn [length]. cbn [rsum]; rewrite Rplus_0_r.
      rewrite (dr_links _ _ _ DS), (dr_bs _ _ _ DS), (dr_ndofs _ _ _ DS). apply facet_tested. exact He.
  Qed.

  (** ** The matrix *)
  Notation clear_of u e q := (stress_n e q u + gamma_scaled gamma E (nth e h 0) * (gap e q - value e q u) <> 0).
  Lemma row_point e q : (q < nq)%nat -> nth (q * gdim + (gdim - 1)) (array_row qp (nq * gdim) e) 0 = nth ((e * nq + q) * gdim + (gdim - 1)) qp 0.
  Proof. intros Hq. pose proof (dr_gdim_pos _ _ _ DS). unfold array_row. rewrite nth_slice by nia. f_equal. nia. Qed.
  Lemma row_value u e q a : (e < a_local asm)%nat -> (q < nq)%nat -> (a < kd_gdim kd)%nat -> nth (offsets kd 4 + kd_gdim kd * q + a) (row u e) 0 = fe_value pd asm e q u a.
  Proof.
    intros He Hq Ha. assert (Hg : (0 < kd_gdim kd)%nat) by lia. rewrite driver_row_custom by exact He. rewrite <- kg, <- (facet_points (fct e)).
    assert (Lu : length (array_row (u_packed pd asm u) (num_points kd (fct e) * kd_gdim kd) e) = (num_points kd (fct e) * kd_gdim kd)%nat) by (pose proof (array_lengths u e He) as L; rewrite kg, facet_points in L |- *; exact L).
    rewrite (row_u kd junk (coordinates_of asm (cell e)) (fct e) mu lmbda (nth e h 0) plane_loc E gamma theta _ _ _ Hg (dr_strides _ _ _ DS _) Lu Haff kb q a ltac:(now rewrite facet_points) Ha).
    unfold value_at, array_row. rewrite facet_points, kg in *. rewrite nth_slice by nia. apply u_packed_value; auto. now rewrite (dr_vector _ _ _ DS).
  Qed.
  Lemma row_gradient u e q a b : (e < a_local asm)%nat -> (q < nq)%nat -> (a < kd_gdim kd)%nat -> (b < kd_gdim kd)%nat ->
    nth (offsets kd 5 + q * kd_gdim kd * kd_gdim kd + (a * kd_gdim kd + b)) (row u e) 0 = fe_gradient pd asm e q u a b.
  Proof.
    intros He Hq Ha Hb. assert (Hg : (0 < kd_gdim kd)%nat) by lia. rewrite driver_row_custom by exact He. rewrite <- kg, <- (facet_points (fct e)).
    assert (Lu : length (array_row (u_packed pd asm u) (num_points kd (fct e) * kd_gdim kd) e) = (num_points kd (fct e) * kd_gdim kd)%nat) by (pose proof (array_lengths u e He) as L; rewrite kg, facet_points in L |- *; exact L).
    rewrite (row_grad kd junk (coordinates_of asm (cell e)) (fct e) mu lmbda (nth e h 0) plane_loc E gamma theta _ _ _ Hg (dr_strides _ _ _ DS _) Lu Haff kb q a b).
    unfold gradient_at, array_row. rewrite facet_points, kg in *. rewrite nth_slice; [apply grad_packed_value; auto; now rewrite (dr_vector _ _ _ DS)|].
    assert (a * gdim + b < gdim * gdim)%nat by nia. nia.
  Qed.
  Lemma row_indicator u e q : (e < a_local asm)%nat -> (q < nq)%nat -> clear_of u e q -> rs_indicator kd (coordinates_of asm (cell e)) (fct e) true (row u e) consts q <> 0.
  Proof.
    intros He Hq N Z. apply N. rewrite driver_row_custom in Z by exact He. rewrite <- kg, <- (facet_points (fct e)) in Z.
    assert (Hg : (0 < kd_gdim kd)%nat) by (rewrite kg; apply (dr_gdim_pos _ _ _ DS)).
    assert (Lu : length (array_row (u_packed pd asm u) (num_points kd (fct e) * kd_gdim kd) e) = (num_points kd (fct e) * kd_gdim kd)%nat) by (pose proof (array_lengths u e He) as L; rewrite kg, facet_points in L |- *; exact L).
    pose proof (indicator_row kd junk (coordinates_of asm (cell e)) (fct e) mu lmbda (nth e h 0) plane_loc E gamma theta (array_row qp (num_points kd (fct e) * kd_gdim kd) e) _ (array_row (grad_u_packed pd asm u) (num_points kd (fct e) * kd_gdim kd * kd_gdim kd) e) Hg (dr_strides _ _ _ DS _) Lu Haff kb Hw (Hh e He) q ltac:(now rewrite facet_points)) as X.
    rewrite Z, Rmult_0_r in X. rewrite !facet_points, kg, row_normal_stress, row_normal_value in X by assumption.
    rewrite row_point in X by exact Hq. now rewrite <- X.
  Qed.
  Lemma row_data u u' e p : (e < a_local asm)%nat -> (p < offsets kd 4)%nat \/ (offsets kd 6 <= p)%nat -> nth p (row u e) 0 = nth p (row u' e) 0.
  Proof.
    intros He [H|H].
    - unfold driver_row. set (a := array_row (g_vec pd asm plane_loc qp) _ e). assert (La : length a = (nq * gdim)%nat) by (unfold a, array_row; apply slice_length; rewrite g_vec_length; nia).
      assert (O : offsets kd 4 = (3 + nq * gdim)%nat). { unfold offsets. rewrite (dr_strides _ _ _ DS 0). cbn [psums psums_from nth]. rewrite facet_points, kg. lia. }
      rewrite !app_assoc. set (pre := (([mu; lmbda] ++ [nth e h 0]) ++ a)). rewrite <- !app_assoc. rewrite !(app_nth1 pre) by (unfold pre; rewrite !app_length, La; cbn [length]; lia). reflexivity.
    - assert (O : offsets kd 6 = driver_cstride pd). { unfold offsets, driver_cstride. rewrite (dr_strides _ _ _ DS 0). cbn [psums psums_from nth]. rewrite facet_points, kg. nia. }
      rewrite !nth_overflow by (rewrite driver_row_length by exact He; lia). reflexivity.
  Qed.
  Lemma driver_line u w e : length w = length u -> (e < a_local asm)%nat ->
    rigid_line kd (coordinates_of asm (cell e)) (fct e) (fun t => row (moved u w t) e) (restrict asm u (cell e)) (restrict asm w (cell e)).
  Proof.
    intros L He. constructor.
    - intros t p Hp. now apply row_data.
    - intros t q n Hq Hn. rewrite facet_points in Hq. rewrite row_value by assumption. unfold fe_value. rewrite (st_ndofs _ _ T). apply rsum_ext. intros j _.
      rewrite (st_phi _ _ T), (st_offsets _ _ T), !restrict_dofs. unfold facet_cell, facet_index, dof_value. now rewrite nth_moved.
    - intros t q a b Hq Ha Hb. rewrite facet_points in Hq. rewrite row_gradient by assumption. unfold fe_gradient. rewrite (st_ndofs _ _ T). apply rsum_ext. intros j _.
      rewrite driver_phys_grad, !restrict_dofs by (now rewrite <- kg). unfold facet_cell, facet_index, dof_value. now rewrite nth_moved.
  Qed.

  Lemma driver_times_app A B w d : matrix_times bs (A ++ B) w d = matrix_times bs A w d + matrix_times bs B w d.
  Proof using. unfold matrix_times. apply lsum_app. Qed.

  (** The matrix is the derivative of the residual in every direction, if at no contact point
      the argument of the negative part is zero, and if the compiled matrix is the derivative
      of the compiled vector. *)
  Theorem C122_matrix_is_derivative :
    forall (u w : list R) (d : nat), length w = length u -> (d < length u)%nat ->
      (forall e q, (e < a_local asm)%nat -> (q < nq)%nat -> clear_of u e q) ->
      derivable_pt_lim (fun t => nth d (form_vector (moved u w t)) 0) 0 (matrix_times bs form_matrix w d) ->
      derivable_pt_lim (fun t => nth d (F (moved u w t)) 0) 0 (matrix_times bs (M u) w d).
  Proof.
    intros u w d Lw Hd HI HF.
    assert (Kr : kernel_local (fun n => n + 1)%nat rhs) by (apply (rigid_kernel_slots kd junk Rhs); [intros; lia|exact E_rhs]).
    assert (Kj : kernel_local (fun n => 3 * n + 1)%nat jac) by (apply (rigid_kernel_slots kd junk Jac); [intros; lia|exact E_jac]).
    assert (U0 : forall e, (e < a_local asm)%nat -> row (moved u w 0) e = row u e).
    { intros e _. f_equal. apply (nth_ext' _ _ 0); [apply moved_length|]. intros. rewrite nth_moved by exact Lw. ring. }
    assert (C0 : coeffs (moved u w 0) = coeffs u).
    { unfold driver_coeffs. f_equal. apply map_ext_in. intros e He. apply in_seq in He. apply U0. lia. }
    unfold assemble_jacobian. rewrite driver_times_app.
    eapply derivable_ext with (g := fun t => nth d (assemble_vector asm rhs (coeffs (moved u w t)) (driver_cstride pd) consts (repeat 0 (length u))) 0 + nth d (form_vector (moved u w t)) 0).
    - intros t. unfold assemble_residual. rewrite moved_length.
      destruct (C20_assemble_vector asm rhs (coeffs (moved u w t)) (driver_cstride pd) consts (repeat 0 (length u)) Kr driver_well_formed) as [Lr _]. rewrite repeat_length in Lr.
      rewrite (nth_map_lt _ _ d 0 0%nat) by (rewrite seq_length; congruence). rewrite seq_nth by congruence. reflexivity.
    - apply derivable_plus; [|exact HF].
      replace (matrix_times bs (assemble_matrix asm jac (coeffs u) (driver_cstride pd) consts) w d) with (0 + matrix_times (a_bs asm) (assemble_matrix asm jac (coeffs (moved u w 0)) (driver_cstride pd) consts) w d) by (rewrite (dr_bs _ _ _ DS), C0; ring).
      apply (assembled_derivative asm rhs jac (fun t => coeffs (moved u w t)) (driver_cstride pd) consts w (fun _ => repeat 0 (length u)) d 0 Kr Kj driver_well_formed).
      + intros i c _ _. rewrite (dr_dofs _ _ _ DS), (dr_ndofs _ _ _ DS). apply driver_dofs.
      + intros e He. rewrite no_links, (dr_links _ _ _ DS). cbn [length Nat.mul Nat.add]. unfold element_derivative. cbv zeta. intros i n Hi Hn. split; [|intros k Hk; lia]. cbn [rsum]. rewrite Rplus_0_r.
        rewrite (dr_ndofs _ _ _ DS), (dr_bs _ _ _ DS) in *.
        set (b0 := repeat (repeat 0 (bs * nd)) 1). set (A0 := repeat (repeat 0 (bs * nd * bs * nd)) 1).
        assert (Hb : vector_buffers kd 0 b0) by (split; [cbn; lia|]; intros s Hs; replace s with 0%nat by lia; cbn [b0 repeat nth]; rewrite repeat_length, (st_bs _ _ T), (st_ndofs _ _ T); lia).
        assert (HA : matrix_buffers kd 0 A0) by (split; [cbn; lia|]; intros s Hs; replace s with 0%nat by lia; cbn [A0 repeat nth]; rewrite repeat_length, (st_bs _ _ T), (st_ndofs _ _ T); lia).
        pose proof (C32_rigid_derivative kd junk junk true b0 A0 (fun t => row (moved u w t) e) consts (coordinates_of asm (cell e)) (fct e) 0 (points_of asm e) (restrict asm u (cell e)) (restrict asm w (cell e)) rhs jac E_rhs E_jac kb (or_introl Haff) Hb HA (dr_strides _ _ _ DS _)
          (driver_line u w e Lw He) ltac:(exact Hw) ltac:(exact (Hh e He))) as X.
        specialize (X ltac:(intros q Hq; cbv beta; rewrite facet_points in Hq; rewrite U0 by exact He; now apply row_indicator, HI)).
        specialize (X i n ltac:(now rewrite (st_ndofs _ _ T)) ltac:(now rewrite (st_bs _ _ T))).
        rewrite (st_bs _ _ T), (st_ndofs _ _ T) in X.
        eapply derivable_eq; [eapply derivable_ext; [|exact X]|].
        * intros t. unfold facet_result, added_vec. rewrite driver_slice by exact He. rewrite no_links. cbn [length]. rewrite (st_bs _ _ T). assert (Z : nth (dof bs i n) (nth 0 b0 []) 0 = 0) by apply zero_vec. rewrite Z, Rminus_0_r. reflexivity.
        * apply apply_row_ext. intros j l Hj Hl. unfold facet_result, added_mat. cbv zeta. rewrite driver_slice by exact He. rewrite no_links. cbn [length]. rewrite (st_bs _ _ T), (st_ndofs _ _ T). assert (Z : forall p, nth p (nth 0 A0 []) 0 = 0) by (intros; apply zero_vec). rewrite Z, Rminus_0_r. reflexivity.
      + intros t. now rewrite repeat_length.
      + apply derivable_const.
  Qed.

  (** ** Monotonicity *)
  Lemma stress_moved u w e q t : length w = length u -> stress_n e q (moved u w t) = stress_n e q u + t * stress_n e q w.
  Proof.
    intros L. unfold normal_stress, along_plane. rewrite <- rsum_scal, <- rsum_plus. apply rsum_ext. intros a Ha.
    rewrite (traction_ext gdim mu lmbda (fe_gradient pd asm e q (moved u w t)) (fun b c => fe_gradient pd asm e q u b c + t * fe_gradient pd asm e q w b c)).
    - rewrite traction_plus, traction_scal by exact Ha. ring.
    - intros b c _ _. unfold fe_gradient. rewrite <- rsum_scal, <- rsum_plus. apply rsum_ext. intros j _. unfold dof_value. rewrite nth_moved by exact L. ring.
    - exact Ha.
  Qed.
  Lemma value_moved u w e q t : length w = length u -> value e q (moved u w t) = value e q u + t * value e q w.
  Proof.
    intros L. unfold normal_value, along_plane. rewrite <- rsum_scal, <- rsum_plus. apply rsum_ext. intros a _. unfold fe_value.
    rewrite <- Rmult_assoc, <- rsum_scal, <- Rmult_plus_distr_r, <- rsum_plus. f_equal. apply rsum_ext. intros j _. unfold dof_value. rewrite nth_moved by exact L. ring.
  Qed.
  Lemma residual_step th hh gp su un sw wn : 0 < gamma_scaled gamma E hh ->
    - ((1 + th) * (1 + th) / 4 * (/ gamma_scaled gamma E hh * (sw * sw))) <=
    ufl_contact_residual th gamma E hh gp (su + sw) (un + wn) sw wn - ufl_contact_residual th gamma E hh gp su un sw wn.
  Proof using.
    intros Hk. unfold ufl_contact_residual. rewrite !py_R_minus_scale by exact Hk. set (k := gamma_scaled gamma E hh) in *.
    rewrite !R_minus_min. set (X := (su + sw + k * (gp - (un + wn))) / k). set (Y := (su + k * (gp - un)) / k).
    pose proof (plus_step (/ k) th wn sw (- X) (- Y) ltac:(now apply Rinv_0_lt_compat) ltac:(unfold X, Y; field; lra)) as P.
    assert (MX : forall x, Rmin x 0 = - Rmax (- x) 0) by (intros x; unfold Rmin, Rmax; destruct (Rle_dec x 0), (Rle_dec (- x) 0); lra). rewrite !MX.
    rewrite Rinv_inv in P. set (a := Rmax (- X) 0) in *. set (b := Rmax (- Y) 0) in *.
    replace (k * (a - b) * (wn - th * / k * sw)) with ((a - b) * (k * wn - th * sw)) in P by (field; lra). unfold Rdiv. nra.
  Qed.
  (** Weighted square of the normal stress of a displacement on the contact surface. *)
  Definition contact_stress (w : list R) : R := rsum (a_local asm) (fun e => rsum nq (fun q => ds e q * (nth e h 0 / (gamma * E)) * (stress_n e q w * stress_n e q w))).

  (** The change of the residual over a displacement, tested with it, is at least that of the
      bulk less a multiple of the stress of the displacement on the contact surface, which is
      zero for theta = -1. *)
  Theorem C122_monotone :
    forall (u w : list R), length w = length u -> (forall v, length (form_vector v) = length v) ->
      (forall e q, (e < a_local asm)%nat -> (q < nq)%nat -> 0 <= ds e q) ->
      applied (form_vector (moved u w 1)) w - applied (form_vector u) w - (1 + theta) * (1 + theta) / 4 * contact_stress w <=
      applied (F (moved u w 1)) w - applied (F u) w.
  Proof.
    intros u w Lw Hf Hds.
    destruct (C122_residual_is_form (moved u w 1) w ltac:(now rewrite moved_length) (Hf _)) as [_ E1].
    destruct (C122_residual_is_form u w Lw (Hf _)) as [_ E0]. cbv beta in E1, E0. rewrite E1, E0.
    set (S1 := rsum (a_local asm) _). set (S0 := rsum (a_local asm) (fun e => rsum nq (fun q => ds e q * ufl_contact_residual theta gamma E (nth e h 0) (gap e q) (stress_n e q u) (value e q u) (stress_n e q w) (value e q w)))).
    enough (X : - ((1 + theta) * (1 + theta) / 4 * contact_stress w) <= S1 - S0) by lra. unfold S1, S0.
    unfold contact_stress. rewrite Ropp_mult_distr_l, <- rsum_minus, <- rsum_scal.
    apply rsum_le. intros e He. rewrite <- rsum_minus, <- rsum_scal. apply rsum_le. intros q Hq.
    rewrite stress_moved, value_moved by exact Lw. rewrite !Rmult_1_l.
    assert (Hk : 0 < gamma_scaled gamma E (nth e h 0)) by (unfold gamma_scaled; apply Rdiv_lt_0_compat; [lra|apply Hh; exact He]).
    pose proof (residual_step theta (nth e h 0) (gap e q) (stress_n e q u) (value e q u) (stress_n e q w) (value e q w) Hk) as P.
    apply (Rmult_le_compat_l (ds e q)) in P; [|now apply Hds].
    replace (/ gamma_scaled gamma E (nth e h 0)) with (nth e h 0 / (gamma * E)) in P by (unfold gamma_scaled; pose proof (Hh e He); field; repeat split; intros Z; rewrite ?Z in *; lra).
    lra.
  Qed.

  (** ** Existence *)
  Lemma lip_value n e q : lipschitz n (fun u => value e q u).
  Proof using.
    unfold normal_value, along_plane, fe_value. apply (lip_rsum n gdim (fun a u => _)). intros a _. apply lip_scal_r. apply (lip_rsum n nd (fun j u => _)). intros j _. apply lip_scal. unfold dof_value. apply lip_nth.
  Qed.
  Lemma lip_stress n e q : lipschitz n (fun u => stress_n e q u).
  Proof using.
    unfold normal_stress, along_plane. apply (lip_rsum n gdim (fun a u => _)). intros a _. apply lip_scal_r. unfold traction, stress, fe_gradient, dof_value.
    assert (G : forall a b, lipschitz n (fun u => rsum nd (fun j => basis_derivative pd (facet_cell asm e) (facet_index asm e) q b j 0 * nth (bs * nth j (pd_dofs pd (facet_cell asm e)) 0 + a)%nat u 0))).
    { intros a' b. apply (lip_rsum n nd (fun j u => _)). intros j _. apply lip_scal, lip_nth. }
    apply (lip_rsum n gdim (fun b u => _)). intros b _. apply lip_scal_r. apply lip_plus; [apply lip_scal, lip_plus; apply G|]. apply lip_scal_r, lip_scal. apply (lip_rsum n gdim (fun c u => _)). intros c _. apply G.
  Qed.
  Lemma lip_point n v e q : (e < a_local asm)%nat -> lipschitz n (fun u => point_form u v e q).
  Proof using Hw Hh.
    intros He. assert (Hk : 0 < gamma_scaled gamma E (nth e h 0)) by (unfold gamma_scaled; apply Rdiv_lt_0_compat; [lra|apply Hh; exact He]).
    unfold point_form. apply lip_scal. unfold ufl_contact_residual. set (k := gamma_scaled gamma E (nth e h 0)) in *.
    apply lip_plus; [apply lip_scal_r, lip_scal, lip_stress|]. apply lip_scal_r.
    apply (lip_ext n (fun u => - (1) * Rmax (- (1) * ((stress_n e q u + k * (gap e q - value e q u)) * / k)) 0)).
    - intros u _. rewrite py_R_minus_scale by exact Hk. rewrite R_minus_min. unfold Rdiv. set (x := (stress_n e q u + k * (gap e q - value e q u)) * / k). unfold Rmin, Rmax. destruct (Rle_dec x 0), (Rle_dec (- (1) * x) 0); lra.
    - apply lip_scal, lip_pos, lip_scal, lip_scal_r, lip_plus; [apply lip_stress|]. apply lip_scal, lip_minus; [apply lip_const|apply lip_value].
  Qed.

  (** If the bulk and Dirichlet part is strongly monotone, beyond the stress term for theta
      other than -1, and Lipschitz, the driver's nonlinear system has exactly one solution. *)
  Theorem C122_exactly_one_solution :
    forall (n : nat) (alpha K : R),
      (forall v, length (form_vector v) = length v) ->
      (forall e q, (e < a_local asm)%nat -> (q < nq)%nat -> 0 <= ds e q) ->
      0 < alpha -> 0 <= K ->
      (forall u w, length u = n -> length w = n ->
         alpha * rsum n (fun d => nth d w 0 * nth d w 0) + (1 + theta) * (1 + theta) / 4 * contact_stress w <= applied (form_vector (moved u w 1)) w - applied (form_vector u) w) ->
      (forall u v, length u = n -> length v = n -> distance2 n (form_vector v) (form_vector u) <= K * distance2 n v u) ->
      exists u, length u = n /\ F u = repeat 0 n /\ forall u', length u' = n -> F u' = repeat 0 n -> u' = u.
  Proof.
    intros n alpha K LB HW Ha K0 ST LIP.
    set (FF := F). change (exists u, length u = n /\ FF u = repeat 0 n /\ forall u', length u' = n -> FF u' = repeat 0 n -> u' = u).
    assert (LF : forall v, length (FF v) = length v) by (intros v; exact (proj1 (C122_residual_is_form v v eq_refl (LB v)))).
    set (form := fun u v => rsum (a_local asm) (fun e => rsum nq (fun q => point_form u v e q))).
    assert (X : forall v w, length v = n -> length w = n -> applied (FF v) w = applied (form_vector v) w + form v w) by (intros v w Lv Lw; exact (proj2 (C122_residual_is_form v w ltac:(congruence) (LB v)))).
    set (unit_vector := fun d => map (fun k => if (k =? d)%nat then 1 else 0) (seq 0 n)).
    assert (LU : forall d, length (unit_vector d) = n) by (intros; unfold unit_vector; now rewrite map_length, seq_length).
    assert (AU : forall b d, length b = n -> (d < n)%nat -> applied b (unit_vector d) = nth d b 0).
    { intros b d Lb Hd. unfold applied. rewrite Lb, <- (rsum_delta n d (fun k => nth k b 0) Hd). apply rsum_ext. intros k Hk. unfold unit_vector. rewrite (nth_map_lt _ _ _ _ 0%nat) by (now rewrite seq_length). rewrite seq_nth by exact Hk. cbn [Nat.add]. ring. }
    destruct (lip_all n n (fun d u => form u (unit_vector d))) as (C & C0 & HC).
    { intros d _. unfold form. apply (lip_rsum n (a_local asm) (fun e u => _)). intros e He. apply (lip_rsum n nq (fun q u => _)). intros q _. now apply lip_point. }
    assert (EN : forall v d, length v = n -> (d < n)%nat -> nth d (FF v) 0 = nth d (form_vector v) 0 + form v (unit_vector d)).
    { intros v d Lv Hd. pose proof (X v (unit_vector d) Lv (LU d)) as E1. rewrite !AU in E1 by (rewrite ?LF, ?LB; auto). exact E1. }
    clearbody form.
    set (L := 2 * K + 2 * (INR n * (C * C * INR n))). assert (L0 : 0 <= L) by (unfold L; pose proof (pos_INR n); assert (0 <= INR n * (C * C * INR n)) by (apply Rmult_le_pos; [assumption|]; apply Rmult_le_pos; [apply Rle_0_sqr|assumption]); lra).
    set (fixed := fun _ : nat => false).
    assert (lip : forall u v, agree n fixed u v -> distance2 n (FF v) (FF u) <= L * distance2 n v u).
    { intros u v (Lu & Lv & _). set (c := fun d => form v (unit_vector d) - form u (unit_vector d)).
      assert (Q : distance2 n (FF v) (FF u) <= 2 * distance2 n (form_vector v) (form_vector u) + 2 * rsum n (fun d => c d * c d)).
      { unfold distance2. rewrite <- !rsum_scal, <- rsum_plus. apply rsum_le. intros d Hd. rewrite !EN by auto. set (b := nth d (form_vector v) 0 - nth d (form_vector u) 0).
        replace (nth d (form_vector v) 0 + form v (unit_vector d) - (nth d (form_vector u) 0 + form u (unit_vector d))) with (b + c d) by (unfold b, c; ring).
        assert (0 <= (b - c d) * (b - c d)) by apply Rle_0_sqr. lra. }
      assert (C2 : rsum n (fun d => c d * c d) <= INR n * (C * C * (INR n * distance2 n v u))).
      { rewrite <- rsum_const. apply rsum_le. intros d Hd. pose proof (HC d u v Hd Lu Lv) as B. cbv beta in B. fold (c d) in B. pose proof (change_pos n u v) as CP. pose proof (change_sq n u v) as CQ.
        assert (B0 : 0 <= C * change n u v) by (now apply Rmult_le_pos). assert (E1 : c d * c d = Rabs (c d) * Rabs (c d)) by (rewrite <- Rabs_mult; symmetry; apply Rabs_right, Rle_ge, Rle_0_sqr). rewrite E1.
        apply (Rle_trans _ (C * change n u v * (C * change n u v))); [apply Rmult_le_compat; auto using Rabs_pos|]. replace (C * change n u v * (C * change n u v)) with (C * C * (change n u v * change n u v)) by ring.
        apply Rmult_le_compat_l; [apply Rle_0_sqr|exact CQ]. }
      specialize (LIP u v Lu Lv). unfold L. lra. }
    assert (mono : forall u v, agree n fixed u v -> alpha * distance2 n v u <= rsum n (fun d => (nth d (FF v) 0 - nth d (FF u) 0) * (nth d v 0 - nth d u 0))).
    { intros u v (Lu & Lv & _). set (w := moved v u (-1)). assert (Lw : length w = n) by (unfold w; now rewrite moved_length).
      assert (Nw : forall k, nth k w 0 = nth k v 0 - nth k u 0) by (intros k; unfold w; rewrite nth_moved by congruence; ring).
      assert (MV : moved u w 1 = v) by (apply (nth_ext _ _ 0 0); [rewrite moved_length; congruence|]; intros k _; rewrite nth_moved, Nw by congruence; ring).
      specialize (ST u w Lu Lw). rewrite MV in ST. pose proof (C122_monotone u w ltac:(congruence) LB HW) as FC. cbv beta in FC. rewrite MV in FC. fold FF in FC.
      assert (E3 : rsum n (fun d => (nth d (FF v) 0 - nth d (FF u) 0) * (nth d v 0 - nth d u 0)) = applied (FF v) w - applied (FF u) w).
      { unfold applied. rewrite !LF, Lv, Lu, <- rsum_minus. apply rsum_ext. intros d _. rewrite Nw. ring. }
      assert (E4 : distance2 n v u = rsum n (fun d => nth d w 0 * nth d w 0)) by (apply rsum_ext; intros d _; now rewrite Nw).
      rewrite E3, E4. unfold FF. lra. }
    assert (ZF : forall u, length u = n -> (FF u = repeat 0 n <-> forall d, (d < n)%nat -> fixed d = false -> nth d (FF u) 0 = nth d (repeat 0 n) 0)).
    { intros u Lu. split; [now intros ->|]. intros H. apply (nth_ext' _ _ 0); [rewrite LF, repeat_length; exact Lu|]. intros d Hd. rewrite LF, Lu in Hd. now apply H. }
    destruct (iteration_converges n fixed FF (repeat 0 n) alpha L Ha L0 mono lip (repeat 0 n) (repeat_length _ _)) as (u & (Lu & _ & _) & SU). exists u. split; [exact Lu|]. split; [now apply ZF|].
    intros u' Lu' S'. symmetry. apply (iteration_unique n fixed FF (repeat 0 n) alpha Ha mono); [|exact SU|now apply ZF]. split; [exact Lu'|split; [exact Lu|]]. intros d _ Q. discriminate Q.
  Qed.
End System.
Print Assumptions C122_residual_is_form.
Print Assumptions C122_matrix_is_derivative.
Print Assumptions C122_monotone.
Print Assumptions C122_exactly_one_solution.
