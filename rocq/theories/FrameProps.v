(** Property C114: objectivity.  If the bodies, the surfaces and all displacements handed over
    are turned (or reflected) and shifted, the contact forces are turned with them. *)
From Coq Require Import List Arith ZArith Lia Bool Reals Lra.
Import ListNotations.
From Verif Require Import Prelude PreludeLemmas RSum RealLemmas LayoutModel LayoutProps ContactProblemModel ContactProblemProps.
From Verif Require Import EntitiesModel PackingModel PackUProps AssemblyModel AssemblyProofs AssemblyProps RayModel KernelModel KernelProofs KernelSpec
  ElasticityProps ContactKernelModel ContactKernelProofs ContactKernelSpec ContactCurveProofs ContactKernelProps FrictionKernelProofs FrictionKernelProps CoefficientsModel CoefficientsProps SystemSpec TieSystemModel TieSystemProofs TieSystemProps
  TieWeakProps ContactWeakProps ContactSystemModel ContactSystemSpec ContactSystemProofs ContactSystemProps SystemWeakProps BasisProps MonotoneProps TieFormProps ContactFormProps RigidBalanceProps FrameProofs.
Local Open Scope R_scope.

(** ** Interface quantities *)
Section Interface.
  Context (O : nat -> nat -> R) (t : nat -> R) (pd : pack_data) (kd : kernel_data) (num_pairs : nat) (pair pair' : nat -> tie_pair) (ml : nat).
  Notation pd' := (turned_space O t pd).
  Notation gdim := (pd_gdim pd).
  Notation nq := (pd_nq pd).
  Context (TS : tie_setting pd kd num_pairs pair ml) (HP : forall i, (i < num_pairs)%nat -> pair' i = turned_pair O t (pair i)).
  Context (HO : orthogonal gdim O) (Hb : pd_bs pd = gdim) (Hd : pd_tdim pd = gdim) (HI : inverts gdim (pd_inverse pd)) (HA : area_element gdim (gdim - 1) (kd_determinant kd)).
  Notation turn := (turn gdim O).
  Notation turned := (turned_field gdim O).

  Lemma gdim_pos : (0 < gdim)%nat.
  Proof using TS Hb. rewrite <- Hb. apply (ps_bs _ (ts_space _ _ _ _ _ TS)). Qed.
  Lemma turned_setting : tie_setting pd' kd num_pairs pair' ml.
  Proof using TS HP.
    destruct TS as [T1 T2 T3 T4 T5 T6 T7]. constructor; auto.
    - destruct T1. constructor; auto.
    - destruct T6. constructor; auto.
    - intros i Hi. rewrite (HP i Hi). destruct (T7 i Hi) as [E1 E2 E3 E4 E5 E6 E7 E8 E9 E10 E11 E12 E13 E14 E15]. constructor; auto.
      cbn [turned_pair pr_asm turned_assembly a_x turned_space pd_x]. now rewrite E4, E9.
  Qed.

  Section Point.
    Context (i e q : nat) (Hi : (i < num_pairs)%nat) (Hq : (q < nq)%nat).
    Notation p := (pair i).
    Notation p' := (turned_pair O t (pair i)).
    Notation cell := (own_cell p e).
    Notation facet := (own_facet p e).
    Context (HT : turnable pd cell facet).

    Lemma coefficient_turned u m j a : (a < gdim)%nat -> coefficient pd' (turned u) m j a = turn (coefficient pd u m j) a.
    Proof using TS Hb.
      intros Ha. unfold coefficient, dof_value. cbn [turned_space pd_bs pd_dofs]. rewrite Hb. apply field_value; [exact gdim_pos|exact Ha].
    Qed.
    Lemma jump_turned u a : (a < gdim)%nat -> interface_jump pd' p' e q (turned u) a = turn (interface_jump pd p e q u) a.
    Proof using TS Hb.
      intros Ha. unfold interface_jump. rewrite turn_minus. unfold value_own, value_tied. rewrite !turn_sum. cbn [turned_space pd_functions pd_basis pd_q_offsets turned_pair pr_basis pr_asm].
      f_equal; apply rsum_ext; intros j _; rewrite turn_scal; f_equal; now apply coefficient_turned.
    Qed.
    Lemma gdim_le : (gdim <= 3)%nat.
    Proof using TS Hi. apply (se_gdim3 _ _ _ (ts_pairs _ _ _ _ _ TS i Hi)). Qed.
    Lemma gradient_turned u a b : (a < gdim)%nat -> (b < gdim)%nat -> gradient_own pd' p' e q (turned u) a b = turn_matrix gdim O (gradient_own pd p e q u) a b.
    Proof using TS Hb Hd HO HI HT Hi Hq.
      intros Ha Hbd. rewrite turn_matrix_alt. unfold gradient_own.
      rewrite (turn_ext gdim O _ (fun c => rsum (pd_functions pd) (fun j => turn (fun d => basis_derivative pd cell facet q d j 0 * coefficient pd u cell j c) b))) by (intros c Hc; apply turn_sum).
      rewrite turn_sum. apply rsum_ext. intros j _. change (own_cell p' e) with cell. change (own_facet p' e) with facet.
      rewrite (derivative_turned O t pd cell facet HO HT Hd gdim_le HI q b j 0 Hq Hbd), coefficient_turned by exact Ha.
      unfold RigidBalanceProps.turn at 2. rewrite <- rsum_scal. unfold RigidBalanceProps.turn at 2. apply rsum_ext. intros c Hc.
      unfold RigidBalanceProps.turn. rewrite <- rsum_scal_r, <- rsum_scal. apply rsum_ext. intros. ring.
    Qed.

    (** The Jacobian that the kernels use. *)
    Notation pos := (if kd_affine kd then kd_qp_offsets kd facet else kd_qp_offsets kd facet + q)%nat.
    Notation J asm := (fun a j : nat => for_loop (kd_nodes kd) (fun m acc => acc + nth (m * 3 + a) (coordinates_of asm cell) 0 * kd_dphi_c kd j pos m) 0).
    Lemma position : exists q', (q' < nq)%nat /\ pos = (pd_q_offsets pd facet + q')%nat.
    Proof using TS Hq Hi Hd Hb.
      pose proof (ts_tables _ _ _ _ _ TS) as T. rewrite (st_offsets _ _ T). destruct (kd_affine kd); [exists 0%nat; split; lia|exists q; split; [exact Hq|reflexivity]].
    Qed.
    Lemma jacobian_used a j : (a < gdim)%nat -> J (pr_asm p) a j = pack_jacobian pd cell pos a j.
    Proof using TS Hi.
      intros Ha. pose proof (ts_tables _ _ _ _ _ TS) as T. unfold pack_jacobian. rewrite (st_nodes _ _ T). apply for_loop_ext. intros m s Hm.
      rewrite (setting_coordinates pd kd num_pairs pair ml TS i Hi) by auto. now rewrite (st_dphi_c _ _ T).
    Qed.
    Lemma jacobian_used' a j : (a < gdim)%nat -> J (pr_asm p') a j = pack_jacobian pd' cell pos a j.
    Proof using TS HP Hi.
      intros Ha. pose proof (ts_tables _ _ _ _ _ TS) as T. unfold pack_jacobian. cbn [turned_space pd_nodes]. rewrite (st_nodes _ _ T). apply for_loop_ext. intros m s Hm.
      rewrite <- (HP i Hi). rewrite (setting_coordinates pd' kd num_pairs pair' ml turned_setting i Hi) by auto. cbn [turned_space pd_dphi_c]. now rewrite (st_dphi_c _ _ T).
    Qed.
    Lemma normal_turned a : (a < gdim)%nat -> interface_normal kd p' e q a = turn (interface_normal kd p e q) a.
    Proof using TS HP HO Hd HI HT Hi Hq Hb.
      intros Ha. pose proof (ts_tables _ _ _ _ _ TS) as T. destruct position as (q' & Hq' & Ep).
      unfold interface_normal, geometry_at. cbn [g_n]. unfold compute_facet_jacobian. cbn [fst]. change (own_cell p' e) with cell. change (own_facet p' e) with facet. unfold physical_facet_normal.
      set (K := kd_inverse kd (J (pr_asm p))). set (K' := kd_inverse kd (J (pr_asm p'))). rewrite (st_gdim _ _ T), (st_tdim _ _ T), Hd.
      assert (EK : forall k b, (k < gdim)%nat -> (b < gdim)%nat -> K' k b = turn (K k) b).
      { intros k b Hk Hbb. unfold K, K'.
        rewrite (st_inverse _ _ T _ (pack_jacobian pd' cell pos)) by (rewrite ?Hd; auto; intros; now apply jacobian_used').
        rewrite Ep, (inverse_turned O t pd cell facet HO HT gdim_le HI q' k b Hq' Hk Hbb). apply turn_ext. intros c Hc. rewrite <- Ep. symmetry. apply (st_inverse _ _ T); rewrite ?Hd; auto. intros; now apply jacobian_used. }
      set (ref := kd_ref_normal kd facet). cbv zeta.
      assert (EN : forall b, (b < gdim)%nat -> for_loop gdim (fun k acc => acc + K' k b * ref k) 0 = turn (fun c => for_loop gdim (fun k acc => acc + K k c * ref k) 0) b).
      { intros b Hbb. rewrite for_loop_rsum, Rplus_0_l. rewrite (turn_ext gdim O _ (fun c => rsum gdim (fun k => K k c * ref k))) by (intros; now rewrite for_loop_rsum, Rplus_0_l).
        rewrite turn_sum. apply rsum_ext. intros k Hk. rewrite EK by auto. unfold RigidBalanceProps.turn. rewrite <- rsum_scal_r. apply rsum_ext. intros. ring. }
      rewrite EN by auto. unfold Rdiv.
      assert (ES : for_loop gdim (fun b acc => acc + for_loop gdim (fun k acc0 => acc0 + K' k b * ref k) 0 ^ 2) 0 = for_loop gdim (fun b acc => acc + for_loop gdim (fun k acc0 => acc0 + K k b * ref k) 0 ^ 2) 0).
      { rewrite !for_loop_rsum, !Rplus_0_l. rewrite (rsum_ext gdim _ (fun b => turn (fun c => for_loop gdim (fun k acc => acc + K k c * ref k) 0) b * turn (fun c => for_loop gdim (fun k acc => acc + K k c * ref k) 0) b)) by (intros; rewrite EN by auto; ring).
        rewrite (contract gdim O HO). apply rsum_ext. intros. ring. }
      rewrite ES. unfold RigidBalanceProps.turn at 1. rewrite <- rsum_scal_r. unfold RigidBalanceProps.turn. apply rsum_ext. intros. ring.
    Qed.
    Lemma weight_turned : interface_weight kd p' e q = interface_weight kd p e q.
    Proof using TS HP HO Hd HA HT Hi Hq Hb.
      pose proof (ts_tables _ _ _ _ _ TS) as T. destruct position as (q' & Hq' & Ep).
      unfold interface_weight, surface_weight, geometry_at. cbn [g_detJ]. unfold compute_facet_jacobian. cbn [snd]. change (own_cell p' e) with cell. change (own_facet p' e) with facet. f_equal.
      apply HA. intros x y Hx Hy. rewrite (st_tdim _ _ T), Hd. set (ref := kd_ref_jacobian kd facet).
      assert (E : forall a z, (a < gdim)%nat -> for_loop gdim (fun k acc => acc + J (pr_asm p') a k * ref k z) 0 = turn (fun c => for_loop gdim (fun k acc => acc + J (pr_asm p) c k * ref k z) 0) a).
      { intros a z Ha. rewrite for_loop_rsum, Rplus_0_l. rewrite (turn_ext gdim O _ (fun c => rsum gdim (fun k => J (pr_asm p) c k * ref k z))) by (intros; now rewrite for_loop_rsum, Rplus_0_l).
        rewrite turn_sum. apply rsum_ext. intros k Hk. rewrite jacobian_used' by auto. pose proof (jacobian_turned O t pd cell facet HT gdim_le q' a k Hq' Ha Hk) as JT. rewrite <- Ep in JT. rewrite JT.
        unfold RigidBalanceProps.turn. rewrite <- rsum_scal_r. apply rsum_ext. intros c Hc. rewrite jacobian_used by auto. ring. }
      rewrite (rsum_ext gdim _ (fun a => turn (fun c => for_loop gdim (fun k acc => acc + J (pr_asm p) c k * ref k x) 0) a * turn (fun c => for_loop gdim (fun k acc => acc + J (pr_asm p) c k * ref k y) 0) a)).
      - apply (contract gdim O HO).
      - intros a Ha. now rewrite !E.
    Qed.
  End Point.
End Interface.

(** ** Histories *)
(** The same calls with all displacements turned; material parameters are scalars. *)
Definition turned_dict (dim : nat) (O : nat -> nat -> R) (d : @coefficient_dict (list R)) : @coefficient_dict (list R) :=
  mkDict (d_mu d) (d_lambda d) (d_fric d) (option_map (turned_field dim O) (d_u d)) (option_map (turned_field dim O) (d_du d)).
Definition turned_call (dim : nat) (O : nat -> nat -> R) (c : @call (list R) (nat -> list Z)) : @call (list R) (nat -> list Z) :=
  match c with
  | CallGenerate d gamma theta => CallGenerate (turned_dict dim O d) gamma theta
  | CallUpdateData du => CallUpdateData (turned_field dim O du)
  | CallDetection u => CallDetection (turned_field dim O u)
  | CallNitsche gamma theta => CallNitsche gamma theta
  | CallCrop m => CallCrop m
  end.

(** What does not depend on displacements: readiness, constants, and the columns of the parameters. *)
Section ScalarEntries.
  Context {G : Type}.
  Notation D := (nat -> list Z).
  Context (move : G -> list R -> G) (detect : G -> D) (pg pn pt : nat -> G -> D -> list (list R)) (pu pgr : nat -> list R -> list (list R)) (po : nat -> G -> D -> list R -> list (list R))
    (pack_param : nat -> list R -> list (list R)) (pack_h : nat -> list (list R)) (num_pairs : nat) (num_rows num_local : nat -> nat) (nq nd gdim : nat).
  Notation step := (do_call move detect pg pn pt pu pgr po pack_param pack_h num_pairs num_rows num_local nq nd gdim).
  Notation gen := (generate detect pg pn pt pu pgr po pack_param pack_h num_pairs num_rows num_local nq nd gdim).
  Notation shapes := (ContactProblemProps.shapes num_pairs num_rows nq nd gdim).
  Notation NC := (4 + 5 * A1 nq gdim + T1 nq nd gdim + B1 nq gdim)%nat.
  Lemma update_scalars du (s : @cp_state G D) : shapes s -> cp_ready s = true -> forall i r c, (i < num_pairs)%nat -> (r < num_rows i)%nat -> (c < 4)%nat ->
    ContactProblemProps.entry (update_data pu pgr po num_pairs num_local nq nd gdim du s) i r c = ContactProblemProps.entry s i r c.
  Proof using.
    intros Hs Hr i r c Hi Hrow Hc. rewrite (update_data_entries pu pgr po num_pairs num_rows num_local nq nd gdim du s i r c Hs Hr Hi Hrow) by lia.
    repeat match goal with |- context [(?x <=? c)%nat] => destruct (Nat.leb_spec x c); [lia|] end. cbn [andb]. now rewrite andb_false_r.
  Qed.
  Lemma generate_scalars d ga th (s : @cp_state G D) keys : (0 < nq * gdim)%nat -> shapes s -> material_keys d = Some keys -> forall i r c, (i < num_pairs)%nat -> (r < num_rows i)%nat -> (c < 4)%nat ->
    ContactProblemProps.entry (gen d ga th s) i r c = if (c =? 3)%nat then at2 (pack_h i) r 0 else match nth_error keys c with Some f => at2 (pack_param i f) r 0 | None => if cp_ready s then ContactProblemProps.entry s i r c else 0 end.
  Proof using.
    intros Hpos Hs Ek i r c Hi Hrow Hc.
    assert (Lk : (length keys <= 3)%nat). { unfold material_keys in Ek. destruct (d_mu d); [|discriminate]. destruct (d_lambda d); [|discriminate]. injection Ek as <-. destruct (d_fric d); cbn; lia. }
    assert (W : forall du t, shapes t -> cp_ready t = true -> ContactProblemProps.entry (match du with Some x => update_data pu pgr po num_pairs num_local nq nd gdim x t | None => t end) i r c = ContactProblemProps.entry t i r c).
    { intros [x|] t Ht Hrt; [now apply update_scalars|reflexivity]. }
    unfold generate. rewrite Ek. cbn [cp_geom cp_map cp_coeffs cp_grad cp_consts cp_ready]. cbv zeta.
    pose proof (columns_eq nq nd gdim) as (EQ1 & EQ2 & EQ3 & EQ4 & EQ5 & EQ6 & EQ7 & EQ8 & EQ9).
    assert (EO : py_old_normals_init nq gdim NC = (NC - nq * gdim, NC)%nat) by (unfold py_old_normals_init; destruct (Nat.eqb_spec (nq * gdim) 0); [lia|reflexivity]).
    unfold numcoeffs, ml. rewrite EQ1, EQ2, EQ3, EQ7, EO.
    set (new := (length (cp_coeffs s) =? 0)%nat).
    assert (Hnew : new = negb (cp_ready s)).
    { unfold new. unfold ContactProblemProps.shapes in Hs. destruct (cp_ready s).
      - destruct Hs as [Hs _]. rewrite Hs. destruct num_pairs; [lia|reflexivity].
      - rewrite Hs. reflexivity. }
    set (M0 := if new then map (fun i => zeros (num_rows i) NC) (seq 0 num_pairs) else cp_coeffs s).
    assert (SM : forall j, (j < num_pairs)%nat -> shape (nth j M0 []) (num_rows j) NC).
    { intros j Hj. unfold M0. rewrite Hnew. unfold ContactProblemProps.shapes in Hs. destruct (cp_ready s); cbn [negb]; cbv iota; [now apply Hs|].
      rewrite (nth_map_lt (fun i => zeros (num_rows i) NC) (seq 0 num_pairs) j [] 0%nat) by now rewrite seq_length. rewrite seq_nth by auto. apply zeros_shape. }
    rewrite W.
    2:{ unfold ContactProblemProps.shapes. cbn [cp_ready cp_coeffs]. split; [apply each_pair_length|]. intros j Hj. rewrite !each_pair_nth by auto. destruct new; repeat (apply write_params_shape || apply write_shape); now apply SM. }
    2: reflexivity.
    unfold ContactProblemProps.entry. cbn [cp_coeffs]. rewrite !each_pair_nth by auto.
    assert (SP : shape (write_params pack_param pack_h i keys (nth i M0 [])) (num_rows i) NC) by (apply write_params_shape; now apply SM).
    assert (EN : (4 <= NC - nq * gdim)%nat) by (unfold A1; lia).
    assert (X : at2 (write_params pack_param pack_h i keys (nth i M0 [])) r c = if (c =? 3)%nat then at2 (pack_h i) r 0 else match nth_error keys c with Some f => at2 (pack_param i f) r 0 | None => if cp_ready s then at2 (nth i (cp_coeffs s) []) r c else 0 end).
    { rewrite (params_entries pack_param pack_h i keys _ (num_rows i) NC r c (SM i Hi) Lk Hrow Hc ltac:(lia)). destruct (c =? 3)%nat; [reflexivity|]. destruct (nth_error keys c); [reflexivity|]. unfold M0. rewrite Hnew.
      destruct (cp_ready s); cbn [negb]; cbv iota; [reflexivity|]. rewrite (nth_map_lt (fun i => zeros (num_rows i) NC) (seq 0 num_pairs) i [] 0%nat) by now rewrite seq_length. apply at2_zeros. }
    rewrite <- X.
    assert (B : forall nr a b Y M, (4 <= a)%nat -> shape M (num_rows i) NC -> at2 (write_block nr (a, b) Y M) r c = at2 M r c).
    { intros nr a b Y M Ha HM. rewrite (at2_write M (num_rows i) NC) by (auto; lia). destruct (Nat.leb_spec a c); [lia|]. cbn [andb]. now rewrite andb_false_r. }
    destruct new; rewrite !B; auto; try lia; repeat (exact SP || apply write_shape).
  Qed.
  Lemma detection_scalars u (s : @cp_state G D) : shapes s -> cp_ready s = true -> forall i r c, (i < num_pairs)%nat -> (r < num_rows i)%nat -> (c < 4)%nat ->
    ContactProblemProps.entry (update_detection move detect pg pn pt pgr num_pairs num_local nq nd gdim u s) i r c = ContactProblemProps.entry s i r c.
  Proof using.
    intros Hs Hr i r c Hi Hrow Hc. unfold update_detection. rewrite Hr. cbn [negb]. cbv zeta. unfold ContactProblemProps.entry. cbn [cp_coeffs]. rewrite !each_pair_nth by auto.
    pose proof (columns_eq nq nd gdim) as (EQ1 & EQ2 & EQ3 & EQ4 & EQ5 & EQ6 & EQ7 & EQ8 & EQ9). unfold numcoeffs, ml. rewrite EQ1, EQ2, EQ3, EQ7, EQ8.
    unfold ContactProblemProps.shapes in Hs. rewrite Hr in Hs. destruct Hs as [_ Hs]. specialize (Hs i Hi).
    assert (B : forall nr a b Y M, (4 <= a)%nat -> shape M (num_rows i) NC -> at2 (write_block nr (a, b) Y M) r c = at2 M r c).
    { intros nr a b Y M Ha HM. rewrite (at2_write M (num_rows i) NC) by (auto; lia). destruct (Nat.leb_spec a c); [lia|]. cbn [andb]. now rewrite andb_false_r. }
    rewrite !B; auto; try lia; repeat (exact Hs || apply write_shape).
  Qed.
End ScalarEntries.

Definition same_call (c c' : @call (list R) (nat -> list Z)) : Prop :=
  match c, c' with
  | CallGenerate d ga th, CallGenerate d' ga' th' => d_mu d' = d_mu d /\ d_lambda d' = d_lambda d /\ d_fric d' = d_fric d /\ ga' = ga /\ th' = th
  | CallUpdateData _, CallUpdateData _ | CallDetection _, CallDetection _ | CallCrop _, CallCrop _ => True
  | CallNitsche ga th, CallNitsche ga' th' => ga' = ga /\ th' = th
  | _, _ => False
  end.
Section Scalars.
  Context {G G' : Type}.
  Notation D := (nat -> list Z).
  Context (pack_param : nat -> list R -> list (list R)) (pack_h : nat -> list (list R)) (num_pairs : nat) (num_rows num_local : nat -> nat) (nq nd gdim : nat).
  Context (move : G -> list R -> G) (detect : G -> D) (pg pn pt : nat -> G -> D -> list (list R)) (pu pgr : nat -> list R -> list (list R)) (po : nat -> G -> D -> list R -> list (list R)).
  Context (move' : G' -> list R -> G') (detect' : G' -> D) (pg' pn' pt' : nat -> G' -> D -> list (list R)) (pu' pgr' : nat -> list R -> list (list R)) (po' : nat -> G' -> D -> list R -> list (list R)).
  Notation run := (run_calls move detect pg pn pt pu pgr po pack_param pack_h num_pairs num_rows num_local nq nd gdim).
  Notation run' := (run_calls move' detect' pg' pn' pt' pu' pgr' po' pack_param pack_h num_pairs num_rows num_local nq nd gdim).
  Notation step := (do_call move detect pg pn pt pu pgr po pack_param pack_h num_pairs num_rows num_local nq nd gdim).
  Notation step' := (do_call move' detect' pg' pn' pt' pu' pgr' po' pack_param pack_h num_pairs num_rows num_local nq nd gdim).
  Definition same_scalars (s : @cp_state G D) (s' : @cp_state G' D) : Prop :=
    cp_ready s' = cp_ready s /\ cp_consts s' = cp_consts s /\
    (cp_ready s = true -> forall i r c, (i < num_pairs)%nat -> (r < num_rows i)%nat -> (c < 4)%nat -> ContactProblemProps.entry s' i r c = ContactProblemProps.entry s i r c).
  Lemma update_rest {G0} (u g : nat -> list R -> list (list R)) (o : nat -> G0 -> D -> list R -> list (list R)) du (s : @cp_state G0 D) :
    let s1 := update_data u g o num_pairs num_local nq nd gdim du s in cp_ready s1 = cp_ready s /\ cp_consts s1 = cp_consts s.
  Proof using. cbv zeta. unfold update_data. destruct (cp_ready s) eqn:E; cbn [negb cp_ready cp_consts]; auto. Qed.
  Lemma step_scalars s s' c c' : (0 < nq * gdim)%nat -> ContactProblemProps.shapes num_pairs num_rows nq nd gdim s -> ContactProblemProps.shapes num_pairs num_rows nq nd gdim s' -> same_call c c' -> same_scalars s s' -> same_scalars (step s c) (step' s' c').
  Proof using.
    intros Hpos Hs Hs' Hc (ER & EC & EE). destruct c as [d ga th|du|u|ga th|m], c' as [d' ga' th'|du'|u'|ga' th'|m']; try contradiction; cbn [do_call].
    - destruct Hc as (E1 & E2 & E3 & -> & ->).
      assert (EK : material_keys d' = material_keys d) by (unfold material_keys; now rewrite E1, E2, E3).
      destruct (material_keys d) as [keys|] eqn:Ek.
      + assert (R : forall G0 (de : G0 -> D) (g1 n1 t1 : nat -> G0 -> D -> list (list R)) u1 gr1 (o1 : nat -> G0 -> D -> list R -> list (list R)) dd (s0 : @cp_state G0 D), material_keys dd = Some keys ->
            let s1 := generate de g1 n1 t1 u1 gr1 o1 pack_param pack_h num_pairs num_rows num_local nq nd gdim dd ga th s0 in cp_ready s1 = true /\ cp_consts s1 = Some (ga, th)).
        { intros G0 de g1 n1 t1 u1 gr1 o1 dd s0 E. cbv zeta. unfold generate. rewrite E. cbv zeta. destruct (d_du dd); [|split; reflexivity]. unfold update_data. cbn [cp_ready negb]. split; reflexivity. }
        destruct (R _ detect pg pn pt pu pgr po d s Ek) as [A1' A2']. destruct (R _ detect' pg' pn' pt' pu' pgr' po' d' s' EK) as [B1' B2']. cbv zeta in A1', A2', B1', B2'.
        split; [congruence|]. split; [congruence|]. intros _ i r c Hi Hr Hc.
        rewrite (generate_scalars detect pg pn pt pu pgr po pack_param pack_h num_pairs num_rows num_local nq nd gdim d ga th s keys Hpos Hs Ek i r c Hi Hr Hc).
        rewrite (generate_scalars detect' pg' pn' pt' pu' pgr' po' pack_param pack_h num_pairs num_rows num_local nq nd gdim d' ga th s' keys Hpos Hs' EK i r c Hi Hr Hc).
        destruct (c =? 3)%nat; [reflexivity|]. destruct (nth_error keys c); [reflexivity|]. rewrite ER. destruct (cp_ready s) eqn:Er; [now apply EE|reflexivity].
      + unfold generate. rewrite Ek, EK. split; [exact ER|]. split; [reflexivity|exact EE].
    - destruct (update_rest pu pgr po du s) as [A B]. destruct (update_rest pu' pgr' po' du' s') as [A' B']. split; [congruence|]. split; [congruence|]. rewrite A. intros Hr i r c Hi Hrow Hc'.
      rewrite (update_scalars pu pgr po num_pairs num_rows num_local nq nd gdim du s Hs Hr i r c Hi Hrow Hc'). rewrite (update_scalars pu' pgr' po' num_pairs num_rows num_local nq nd gdim du' s' Hs' ltac:(congruence) i r c Hi Hrow Hc'). now apply EE.
    - assert (A : forall G0 (mv : G0 -> list R -> G0) (de : G0 -> D) (g1 n1 t1 : nat -> G0 -> D -> list (list R)) gr1 w (s0 : @cp_state G0 D), let s1 := update_detection mv de g1 n1 t1 gr1 num_pairs num_local nq nd gdim w s0 in cp_ready s1 = cp_ready s0 /\ cp_consts s1 = cp_consts s0).
      { intros G0 mv de g1 n1 t1 gr1 w s0. cbv zeta. unfold update_detection. destruct (cp_ready s0) eqn:E; cbn [negb]; cbv zeta; cbn [cp_ready cp_consts]; split; try reflexivity; exact E. }
      destruct (A _ move detect pg pn pt pgr u s) as [A1' A2']. destruct (A _ move' detect' pg' pn' pt' pgr' u' s') as [B1' B2']. cbv zeta in A1', A2', B1', B2'. split; [congruence|]. split; [congruence|]. rewrite A1'. intros Hr i r c Hi Hrow Hc'.
      rewrite (detection_scalars move detect pg pn pt pgr num_pairs num_rows num_local nq nd gdim u s Hs Hr i r c Hi Hrow Hc'). rewrite (detection_scalars move' detect' pg' pn' pt' pgr' num_pairs num_rows num_local nq nd gdim u' s' Hs' ltac:(congruence) i r c Hi Hrow Hc'). now apply EE.
    - destruct Hc as [-> ->]. unfold update_nitsche. rewrite EC. destruct (cp_consts s) eqn:Ec; (split; [exact ER|]); (split; [try reflexivity; rewrite Ec; exact EC|exact EE]).
    - unfold crop_map. split; [exact ER|]. split; [exact EC|exact EE].
  Qed.
  Lemma run_scalars g g' calls calls' : (0 < nq * gdim)%nat -> Forall2 same_call calls calls' -> same_scalars (run g calls) (run' g' calls').
  Proof using.
    intros Hpos H. unfold run_calls.
    assert (X : forall s s', ContactProblemProps.shapes num_pairs num_rows nq nd gdim s -> ContactProblemProps.shapes num_pairs num_rows nq nd gdim s' -> same_scalars s s' -> same_scalars (fold_left step calls s) (fold_left step' calls' s')).
    { induction H as [|c c' calls calls' Hc _ IH]; intros s s' Hs Hs' E; cbn [fold_left]; [exact E|]. apply IH; [now apply step_shapes|now apply step_shapes|now apply step_scalars]. }
    apply X; [reflexivity|reflexivity|]. split; [reflexivity|]. split; [reflexivity|discriminate].
  Qed.
End Scalars.

(** ** Quantities held by the object *)
Lemma acc_latest {G} (move : G -> list R -> G) (calls : list (@call (list R) (nat -> list Z))) : forall (h : @history G) (o : option (option (list R))),
  (h_latest h = None <-> o = None) -> (h_latest (fold_left (hist_step move) calls h) = None <-> fold_left acc_step calls o = None).
Proof.
  induction calls as [|c calls IH]; intros h o H; cbn [fold_left]; [exact H|]. apply IH. destruct c as [d ga th|du|u|ga th|m]; cbn [hist_step acc_step]; auto.
  - destruct (given (d_mu d) && given (d_lambda d)); [|exact H]. cbn [h_latest]. destruct (h_latest h) as [[x y]|]; split; discriminate.
  - cbn [h_latest]. destruct (h_latest h) as [[x y]|], o; split; try discriminate; try reflexivity; intros _; exfalso; (assert (X : Some (x, y) = None) by now apply H) || (assert (X : Some o = None) by now apply H); discriminate.
Qed.
Section Gradient.
  Context {G : Type} (pd : pack_data) (kd : kernel_data) (num_pairs : nat) (surfaces : nat -> tie_pair) (basis : G -> (nat -> list Z) -> nat -> nat -> nat -> R)
    (num_rows : nat -> nat) (move : G -> list R -> G) (detect : G -> nat -> list Z) (pack_gap pack_normals : nat -> G -> (nat -> list Z) -> list (list R))
    (pack_param : nat -> list R -> list (list R)) (pack_h : nat -> list (list R)).
  Notation gdim := (pd_gdim pd).
  Notation after := (contact_after pd num_pairs surfaces basis num_rows move detect pack_gap pack_normals pack_param pack_h).
  Notation pairs s := (pair_at pd surfaces basis (cp_geom s) (cp_map s)).
  Lemma stored_gradient_value g calls : let s := after g calls in
    cp_ready s = true -> (forall i, (num_local surfaces i <= num_rows i)%nat) -> tie_setting pd kd num_pairs (pairs s) (pd_nq pd) -> pd_bs pd = gdim ->
    exists o, fold_left acc_step calls None = Some o /\ forall i e q a b, (i < num_pairs)%nat -> (e < num_local surfaces i)%nat -> (q < pd_nq pd)%nat -> (a < gdim)%nat -> (b < gdim)%nat ->
      stored_gradient pd s i e q a b = match o with Some u => gradient_own pd (pairs s i) e q u a b | None => 0 end.
  Proof using.
    intros s HR HL TS Hb.
    destruct (run_inv move detect pack_gap pack_normals (cp_pack_test pd surfaces basis) (cp_pack_u pd surfaces num_rows) (cp_pack_grad pd surfaces num_rows) (cp_pack_u_opp pd surfaces basis) pack_param pack_h num_pairs num_rows (num_local surfaces) (pd_nq pd) (pd_functions pd) gdim HL g calls) as (_ & _ & I).
    change (run_calls _ _ _ _ _ _ _ _ _ _ _ _ _ _ _ _ g calls) with s in I.
    destruct (fold_left acc_step calls None) as [o|] eqn:EA.
    2:{ exfalso. assert (E : h_latest (history_of move g calls) = None) by (apply (acc_latest move calls (mkH g None) None); [split; reflexivity|exact EA]). rewrite E in I. congruence. }
    exists o. split; [reflexivity|]. intros i e q a b Hi He Hq Ha Hbb. unfold stored_gradient.
    pose proof (C49_accumulated_gradient move detect pack_gap pack_normals (cp_pack_test pd surfaces basis) (cp_pack_u pd surfaces num_rows) (cp_pack_grad pd surfaces num_rows) (cp_pack_u_opp pd surfaces basis) pack_param pack_h num_pairs num_rows (num_local surfaces) (pd_nq pd) (pd_functions pd) gdim g calls o EA) as X.
    change (run_calls _ _ _ _ _ _ _ _ _ _ _ _ _ _ _ _ g calls) with s in X. rewrite X. clear X.
    assert (EN : forall f : nat -> list (list R), nth i (map f (seq 0 num_pairs)) [] = f i).
    { intros f. rewrite (nth_map_lt f (seq 0 num_pairs) i [] 0%nat) by now rewrite seq_length. now rewrite seq_nth. }
    refine (eq_trans (f_equal (fun M => at2 M e _) (EN _)) _). clear EN.
    destruct o as [u|]; [|apply at2_zeros]. unfold cp_pack_grad.
    change (tie_grad_q pd surfaces i u) with (tie_grad_q pd (pairs s) i u).
    assert (Hes : snd (tie_grad_q pd (pairs s) i u) = (pd_nq pd * gdim * gdim)%nat).
    { unfold tie_grad_q, pack_gradient_quadrature, num_active_entities, value_size. rewrite (ts_transforms _ _ _ _ _ TS). cbn [packed snd]. rewrite (ts_vs _ _ _ _ _ TS), Hb. ring. }
    rewrite at2_rows_of by (specialize (HL i); rewrite ?Hes; try lia; nia). rewrite Hes.
    pose proof (row_value_grad pd kd num_pairs (pairs s) (pd_nq pd) TS i Hi e He u q a b Hq ltac:(lia) Hbb) as Y. rewrite Hb in Y.
    replace (e * (pd_nq pd * gdim * gdim) + (q * gdim * gdim + (a * gdim + b)))%nat with (e * (pd_nq pd * gdim * gdim) + q * gdim * gdim + a * gdim + b)%nat by lia.
    rewrite Y. unfold gradient_own. apply rsum_ext. intros j Hj. rewrite (restrict_value pd kd num_pairs (pairs s) (pd_nq pd) TS i Hi). f_equal.
    exact (setting_phys_grad pd kd num_pairs (pairs s) (pd_nq pd) TS i Hi _ _ q j b Hbb).
  Qed.
End Gradient.

Lemma traction_normal_ext dim mu lm H n n' a : (forall b, (b < dim)%nat -> n b = n' b) -> (a < dim)%nat -> traction dim mu lm H n a = traction dim mu lm H n' a.
Proof. intros E Ha. unfold traction. apply rsum_ext. intros b Hb. now rewrite E. Qed.

(** Turned vectors tested with each other; turning back. *)
Lemma applied_turned dim O n x y : orthogonal dim O -> (0 < dim)%nat -> length x = (n * dim)%nat -> applied (turned_field dim O x) (turned_field dim O y) = applied x y.
Proof.
  intros HO Hd Hx. unfold applied. rewrite (field_length dim O x n Hd Hx), Hx, <- !rsum_blocks. apply rsum_ext. intros D HD.
  rewrite (rsum_ext dim _ (fun a => turn dim O (fun k => nth (D * dim + k) x 0) a * turn dim O (fun k => nth (D * dim + k) y 0) a)).
  - apply (contract dim O HO).
  - intros a Ha. rewrite !(Nat.mul_comm D dim), !field_value by auto. reflexivity.
Qed.
Lemma turned_back dim O n w : orthogonal dim O -> (0 < dim)%nat -> length w = (n * dim)%nat -> turned_field dim O (turned_field dim (fun a b => O b a) w) = w.
Proof.
  intros HO Hd Hw. assert (L : length (turned_field dim (fun a b => O b a) w) = length w) by now apply (field_length _ _ _ n).
  apply (nth_ext _ _ 0 0); [rewrite (field_length dim O _ n Hd); congruence|]. rewrite (field_length dim O _ n Hd) by congruence. rewrite L. intros d Hlt.
  rewrite (Nat.div_mod d dim) by lia. pose proof (Nat.mod_upper_bound d dim ltac:(lia)) as Hm. set (D := (d / dim)%nat). set (a := (d mod dim)%nat) in *. rewrite field_value by auto.
  rewrite (turn_ext dim O _ (turn dim (fun a b => O b a) (fun k => nth (dim * D + k) w 0))) by (intros k Hk; now apply field_value).
  unfold turn. rewrite (rsum_ext dim _ (fun k => rsum dim (fun j => O a k * O j k * nth (dim * D + j) w 0))) by (intros k Hk; rewrite <- rsum_scal; apply rsum_ext; intros; ring).
  rewrite rsum_swap. rewrite (rsum_single _ a); [|exact Hm|].
  - rewrite rsum_scal_r. rewrite (proj2 (HO a a Hm Hm)). unfold delta. rewrite Nat.eqb_refl. ring.
  - intros j Hj Hne. rewrite rsum_scal_r. rewrite (proj2 (HO a j Hm Hj)). unfold delta. destruct (Nat.eqb_spec a j); [congruence|ring].
Qed.

(** ** C114 *)
(** The routines on the geometries [ok] commute with the motion [TG] of geometries. *)
Record turned_routines {G G' : Type} (O : nat -> nat -> R) (pd : pack_data) (num_pairs : nat) (surfaces : nat -> tie_pair) (TG : G -> G') (ok : G -> Prop)
    (basis : G -> (nat -> list Z) -> nat -> nat -> nat -> R) (move : G -> list R -> G) (detect : G -> nat -> list Z) (pack_gap pack_normals : nat -> G -> (nat -> list Z) -> list (list R))
    (basis' : G' -> (nat -> list Z) -> nat -> nat -> nat -> R) (move' : G' -> list R -> G') (detect' : G' -> nat -> list Z) (pack_gap' pack_normals' : nat -> G' -> (nat -> list Z) -> list (list R)) : Prop := {
  tr_move : forall g u, ok g -> move' (TG g) (turned_field (pd_gdim pd) O u) = TG (move g u);
  tr_detect : forall g, ok g -> detect' (TG g) = detect g;
  tr_basis : forall g, ok g -> basis' (TG g) (detect g) = basis g (detect g);
  tr_gap : forall g i r q a, ok g -> (i < num_pairs)%nat -> (r < num_local surfaces i)%nat -> (q < pd_nq pd)%nat -> (a < pd_gdim pd)%nat ->
    at2 (pack_gap' i (TG g) (detect g)) r (q * pd_gdim pd + a) = turn (pd_gdim pd) O (fun k => at2 (pack_gap i g (detect g)) r (q * pd_gdim pd + k)) a;
  tr_normals : forall g i r q a, ok g -> (i < num_pairs)%nat -> (r < num_local surfaces i)%nat -> (q < pd_nq pd)%nat -> (a < pd_gdim pd)%nat ->
    at2 (pack_normals' i (TG g) (detect g)) r (q * pd_gdim pd + a) = turn (pd_gdim pd) O (fun k => at2 (pack_normals i g (detect g)) r (q * pd_gdim pd + k)) a }.

Section Objectivity.
  Context {G G' : Type} (O : nat -> nat -> R) (t : nat -> R) (pd : pack_data) (kd : kernel_data) (num_pairs : nat) (surfaces : nat -> tie_pair) (num_rows : nat -> nat)
    (pack_param : nat -> list R -> list (list R)) (pack_h : nat -> list (list R)) (TG : G -> G') (ok : G -> Prop)
    (basis : G -> (nat -> list Z) -> nat -> nat -> nat -> R) (move : G -> list R -> G) (detect : G -> nat -> list Z) (pack_gap pack_normals : nat -> G -> (nat -> list Z) -> list (list R))
    (basis' : G' -> (nat -> list Z) -> nat -> nat -> nat -> R) (move' : G' -> list R -> G') (detect' : G' -> nat -> list Z) (pack_gap' pack_normals' : nat -> G' -> (nat -> list Z) -> list (list R)).
  Notation nq := (pd_nq pd).
  Notation nd := (pd_functions pd).
  Notation gdim := (pd_gdim pd).
  Notation pd' := (turned_space O t pd).
  Notation turned := (turned_field gdim O).
  Notation surfaces' := (fun i => turned_pair O t (surfaces i)).
  Notation after := (contact_after pd num_pairs surfaces basis num_rows move detect pack_gap pack_normals pack_param pack_h).
  Notation after' := (contact_after pd' num_pairs surfaces' basis' num_rows move' detect' pack_gap' pack_normals' pack_param pack_h).
  Notation updated := (contact_updated pd num_pairs surfaces basis num_rows).
  Notation updated' := (contact_updated pd' num_pairs surfaces' basis' num_rows).
  Notation pairs s := (pair_at pd surfaces basis (cp_geom s) (cp_map s)).
  Notation pairs' s := (pair_at pd' surfaces' basis' (cp_geom s) (cp_map s)).
  Notation history_at := (history_of move).
  Context (TR : turned_routines O pd num_pairs surfaces TG ok basis move detect pack_gap pack_normals basis' move' detect' pack_gap' pack_normals').

  Definition TH (h : @history G) : @history G' := mkH (TG (h_geom h)) (option_map (fun p => (TG (fst p), TG (snd p))) (h_latest h)).
  (** Geometries and pairs of geometries met on the way. *)
  Definition all_ok (h : @history G) (calls : list (@call (list R) (nat -> list Z))) : Prop := forall pre post, calls = pre ++ post -> ok (h_geom (fold_left (hist_step move) pre h)).
  Lemma all_ok_cons h c calls : all_ok h (c :: calls) -> ok (h_geom h) /\ all_ok (hist_step move h c) calls.
  Proof using. intros H. split; [exact (H [] (c :: calls) eq_refl)|]. intros pre post ->. exact (H (c :: pre) post eq_refl). Qed.
  Lemma latest_ok calls : forall h, all_ok h calls -> (forall cur old, h_latest h = Some (cur, old) -> ok cur /\ ok old) ->
    forall cur old, h_latest (fold_left (hist_step move) calls h) = Some (cur, old) -> ok cur /\ ok old.
  Proof using.
    induction calls as [|c calls IH]; intros h H H0; cbn [fold_left]; [exact H0|]. pose proof (H [c] calls eq_refl) as H2. apply all_ok_cons in H. destruct H as [H1 H]. apply IH; [exact H|]. cbn [fold_left] in H2.
    intros cur old E. destruct c as [d ga th|du|u|ga th|m]; cbn [hist_step] in *; try (now apply H0).
    - destruct (given (d_mu d) && given (d_lambda d)); [|now apply H0]. cbn [h_latest h_geom] in *. destruct (h_latest h) as [[x y]|]; injection E as <- <-; [|exact (conj H1 H1)]. split; [exact H1|]. now apply (H0 x y).
    - cbn [h_latest h_geom] in *. destruct (h_latest h) as [[x y]|]; [|discriminate]. injection E as <- <-. split; [exact H2|]. now apply (H0 x y).
  Qed.
  Lemma history_turned calls : forall h, all_ok h calls -> fold_left (hist_step move') (map (turned_call gdim O) calls) (TH h) = TH (fold_left (hist_step move) calls h).
  Proof using TR.
    induction calls as [|c calls IH]; intros h Hok; cbn [map fold_left]; [reflexivity|]. apply all_ok_cons in Hok. destruct Hok as [Hg Hok]. rewrite <- (IH _ Hok). f_equal. destruct c as [d ga th|du|u|ga th|m]; cbn [turned_call hist_step turned_dict d_mu d_lambda]; try reflexivity.
    - destruct (given (d_mu d) && given (d_lambda d)); [|reflexivity]. unfold TH. cbn [h_geom h_latest]. destruct (h_latest h) as [[x y]|]; reflexivity.
    - unfold TH. cbn [h_geom h_latest]. rewrite (tr_move _ _ _ _ _ _ _ _ _ _ _ _ _ _ _ _ TR) by exact Hg. destruct (h_latest h) as [[x y]|]; reflexivity.
  Qed.
  Lemma accumulated_turned calls : forall o, fold_left acc_step (map (turned_call gdim O) calls) (option_map (option_map turned) o) = option_map (option_map turned) (fold_left acc_step calls o).
  Proof using.
    induction calls as [|c calls IH]; intros o; cbn [map fold_left]; [reflexivity|]. rewrite <- IH. f_equal. destruct c as [d ga th|du|u|ga th|m]; cbn [turned_call acc_step turned_dict d_mu d_lambda d_u]; try reflexivity.
    - destruct (given (d_mu d) && given (d_lambda d)); reflexivity.
    - destruct o; reflexivity.
  Qed.
  Lemma calls_same calls : Forall2 same_call calls (map (turned_call gdim O) calls).
  Proof using. induction calls as [|c calls IH]; constructor; auto. destruct c; cbn; auto. Qed.
  Lemma calls_not_cropped calls : Forall no_crop calls -> Forall no_crop (map (turned_call gdim O) calls).
  Proof using. induction 1 as [|c calls Hc _ IH]; constructor; auto. destruct c; exact Hc. Qed.

  Section State.
    Context (g : G) (calls : list (@call (list R) (nat -> list Z))).
    Notation s := (after g calls).
    Notation s' := (after' (TG g) (map (turned_call gdim O) calls)).
    Context (OK : all_ok (mkH g None) calls) (HC : Forall no_crop calls) (HR : cp_ready s = true) (HL : forall i, (num_local surfaces i <= num_rows i)%nat) (TS : tie_setting pd kd num_pairs (pairs s) nq).
    Context (Hb : pd_bs pd = gdim) (Hd : pd_tdim pd = gdim) (Hq0 : (0 < nq)%nat) (HO : orthogonal gdim O) (HI : inverts gdim (pd_inverse pd)) (HA : area_element gdim (gdim - 1) (kd_determinant kd)).
    Context (HT : forall i e, (i < num_pairs)%nat -> (e < num_local surfaces i)%nat -> turnable pd (own_cell (surfaces i) e) (own_facet (surfaces i) e)).

    Lemma inv_s : ContactProblemProps.inv detect pack_gap pack_normals (cp_pack_test pd surfaces basis) num_pairs num_rows (num_local surfaces) nq nd gdim (history_of move g calls) s.
    Proof using HL. apply run_inv. exact HL. Qed.
    Lemma inv_s' : ContactProblemProps.inv detect' pack_gap' pack_normals' (cp_pack_test pd' surfaces' basis') num_pairs num_rows (num_local surfaces) nq nd gdim (TH (history_of move g calls)) s'.
    Proof using HL TR OK. unfold history_of. rewrite <- history_turned by exact OK. apply (run_inv move' detect' pack_gap' pack_normals' (cp_pack_test pd' surfaces' basis') (cp_pack_u pd' surfaces' num_rows) (cp_pack_grad pd' surfaces' num_rows) (cp_pack_u_opp pd' surfaces' basis') pack_param pack_h num_pairs num_rows (num_local surfaces')). exact HL. Qed.
    Lemma scalars_s : same_scalars num_pairs num_rows s s'.
    Proof using Hb Hq0 TS. apply run_scalars; [|apply calls_same]. exact (Nat.mul_pos_pos _ _ Hq0 (gdim_pos pd kd num_pairs (pairs s) nq TS Hb)). Qed.
    Lemma ready_s' : cp_ready s' = true.
    Proof using HR Hb Hq0 TS. destruct scalars_s as (E & _). now rewrite E. Qed.
    Lemma constants_s' : constants_of s' = constants_of s.
    Proof using Hb Hq0 TS. destruct scalars_s as (_ & E & _). unfold constants_of. now rewrite E. Qed.
    Lemma geom_s' : cp_geom s' = TG (cp_geom s).
    Proof using HL TR OK. destruct inv_s as (_ & E & _). destruct inv_s' as (_ & E' & _). rewrite E, E'. reflexivity. Qed.
    Lemma geom_ok : ok (cp_geom s).
    Proof using HL OK. destruct inv_s as (_ & E & _). rewrite E. apply (OK calls []). now rewrite app_nil_r. Qed.
    Lemma map_s : cp_map s = detect (cp_geom s).
    Proof using HC. now apply map_detected. Qed.
    Lemma map_s' : cp_map s' = cp_map s.
    Proof using HL TR HC OK.
      rewrite map_s, <- (tr_detect _ _ _ _ _ _ _ _ _ _ _ _ _ _ _ _ TR _ geom_ok), <- geom_s'. apply map_detected. now apply calls_not_cropped.
    Qed.
    Lemma pairs_s' i : pairs' s' i = turned_pair O t (pairs s i).
    Proof using HL TR HC OK.
      rewrite geom_s', map_s', map_s. unfold pair_at. now rewrite (tr_basis _ _ _ _ _ _ _ _ _ _ _ _ _ _ _ _ TR _ geom_ok).
    Qed.

    Lemma scalar_block i e x : (i < num_pairs)%nat -> (e < num_local surfaces i)%nat -> (x < 4)%nat -> ContactProblemProps.entry s' i e (column nq nd gdim 0 x) = ContactProblemProps.entry s i e (column nq nd gdim 0 x).
    Proof using Hb Hq0 TS HR HL. intros Hi He Hx. destruct scalars_s as (_ & _ & E). apply E; auto. exact (Nat.lt_le_trans _ _ _ He (HL i)). Qed.

    Section Facet.
      Context (i e q : nat) (Hi : (i < num_pairs)%nat) (He : (e < num_local surfaces i)%nat) (Hq : (q < nq)%nat).
      Lemma blocks_turned a : (a < gdim)%nat ->
        ContactProblemProps.entry s' i e (column nq nd gdim 1 (q * gdim + a)) = turn gdim O (fun k => ContactProblemProps.entry s i e (column nq nd gdim 1 (q * gdim + k))) a /\
        ContactProblemProps.entry s' i e (column nq nd gdim 2 (q * gdim + a)) = turn gdim O (fun k => ContactProblemProps.entry s i e (column nq nd gdim 2 (q * gdim + k))) a /\
        ContactProblemProps.entry s' i e (column nq nd gdim 7 (q * gdim + a)) = turn gdim O (fun k => ContactProblemProps.entry s i e (column nq nd gdim 7 (q * gdim + k))) a.
      Proof using TR OK HL HR Hi He Hq.
        intros Ha. destruct inv_s as (_ & _ & I). destruct inv_s' as (_ & _ & I'). cbn [TH h_latest] in I'. pose proof (latest_ok calls (mkH g None) OK ltac:(discriminate)) as LO. unfold history_of in *. destruct (h_latest (fold_left (hist_step move) calls (mkH g None))) as [[cur old]|]; [|congruence]. destruct (LO cur old eq_refl) as [Oc Oo]. clear LO.
        cbn [option_map fst snd] in I'. destruct I as [_ I]. destruct I' as [_ I']. destruct (I i e Hi He) as [B _]. destruct (I' i e Hi He) as [B' _].
        assert (L : forall k, (k < gdim)%nat -> (q * gdim + k < nq * gdim)%nat) by (intros k Hk; clear -Hq Hk; nia).
        destruct (B' _ (L a Ha)) as (E1 & E2 & E3). rewrite E1, E2, E3.
        rewrite !(tr_detect _ _ _ _ _ _ _ _ _ _ _ _ _ _ _ _ TR) by auto.
        rewrite (tr_gap _ _ _ _ _ _ _ _ _ _ _ _ _ _ _ _ TR), !(tr_normals _ _ _ _ _ _ _ _ _ _ _ _ _ _ _ _ TR) by auto.
        repeat split; apply turn_ext; intros k Hk; destruct (B _ (L k Hk)) as (F1 & F2 & F3); auto.
      Qed.
      Lemma normal_stored a : (a < gdim)%nat -> stored_normal pd' s' i e q a = turn gdim O (stored_normal pd s i e q) a.
      Proof using TR OK HL HR Hi He Hq. intros Ha. destruct (blocks_turned a Ha) as (_ & E & _). unfold stored_normal. rewrite turn_opp. f_equal. exact E. Qed.
      Lemma old_normal_stored a : (a < gdim)%nat -> stored_old_normal pd' s' i e q a = turn gdim O (stored_old_normal pd s i e q) a.
      Proof using TR OK HL HR Hi He Hq. intros Ha. destruct (blocks_turned a Ha) as (_ & _ & E). unfold stored_old_normal. rewrite turn_opp. f_equal. exact E. Qed.
      Lemma gap_stored : stored_gap pd' s' i e q = stored_gap pd s i e q.
      Proof using TR OK HL HR HO Hi He Hq.
        unfold stored_gap at 1. rewrite (product_ext _ _ (turn gdim O (fun k => ContactProblemProps.entry s i e (column nq nd gdim 1 (q * gdim + k)))) _ (turn gdim O (stored_normal pd s i e q))).
        - apply product_turn. exact HO.
        - intros a Ha. apply (blocks_turned a Ha).
        - intros a Ha. now apply normal_stored.
      Qed.
      Lemma gradient_at u a b : (a < gdim)%nat -> (b < gdim)%nat -> gradient_own pd' (pairs' s' i) e q (turned u) a b = turn_matrix gdim O (gradient_own pd (pairs s i) e q u) a b.
      Proof using TR OK HC HL HO HI HT TS Hb Hd Hi He Hq.
        intros Ha Hbb. rewrite pairs_s'. apply (gradient_turned O t pd kd num_pairs (pairs s) nq TS HO Hb Hd HI i e q Hi Hq (HT i e Hi He)); auto.
      Qed.
      Lemma gradient_stored a b : (a < gdim)%nat -> (b < gdim)%nat -> stored_gradient pd' s' i e q a b = turn_matrix gdim O (stored_gradient pd s i e q) a b.
      Proof using TR OK HC HR HL HO HI HT TS Hb Hd Hi He Hq Hq0.
        intros Ha Hbb. destruct (stored_gradient_value pd kd num_pairs surfaces basis num_rows move detect pack_gap pack_normals pack_param pack_h g calls HR HL TS Hb) as (o & EO & E).
        assert (TS' : tie_setting pd' kd num_pairs (pairs' s') nq) by (apply (turned_setting O t pd kd num_pairs (pairs s)); [exact TS|intros; apply pairs_s']).
        destruct (stored_gradient_value pd' kd num_pairs surfaces' basis' num_rows move' detect' pack_gap' pack_normals' pack_param pack_h (TG g) (map (turned_call gdim O) calls) ready_s' HL TS' Hb) as (o' & EO' & E').
        pose proof (accumulated_turned calls None) as EA. cbn [option_map] in EA. rewrite EO, EO' in EA. cbn [option_map] in EA. injection EA as ->.
        rewrite (E' i e q a b Hi He Hq Ha Hbb). rewrite (turn_matrix_ext gdim O _ (fun c d => match o with Some u => gradient_own pd (pairs s i) e q u c d | None => 0 end)) by (intros; now apply E).
        destruct o as [u|]; cbn [option_map]; [now apply gradient_at|]. unfold turn_matrix. symmetry. apply rsum_zero. intros c _. apply rsum_zero. intros d _. ring.
      Qed.
    End Facet.

    Lemma form_turned law gamma theta u v :
      contact_form pd' kd num_pairs (pairs' s') law gamma theta s' (turned u) (turned v) = contact_form pd kd num_pairs (pairs s) law gamma theta s u v.
    Proof using All.
      unfold contact_form, over_interface. apply rsum_ext. intros i Hi. rewrite pairs_s'. cbn [turned_pair pr_asm turned_assembly a_local]. apply rsum_ext. intros e He.
      change (points_of (turned_assembly O t (pr_asm (pairs s i))) e) with (points_of (pr_asm (pairs s i)) e). apply lsum_ext. intros q Hqq.
      assert (Hq : (q < nq)%nat).
      { exact (proj1 (row_links pd kd num_pairs surfaces basis num_rows move detect pack_gap pack_normals pack_param pack_h g calls TS i Hi e He q Hqq)). }
      assert (HTe := HT i e Hi He).
      f_equal; [f_equal; exact (weight_turned O t pd kd num_pairs (pairs s) (pairs' s') nq TS (fun i _ => pairs_s' i) HO Hb Hd HA i e q Hi Hq HTe)|].
      cbv zeta. cbn [turned_space pd_gdim].
      assert (EG : forall w a b, (a < gdim)%nat -> (b < gdim)%nat -> gradient_own pd' (turned_pair O t (pairs s i)) e q (turned w) a b = turn_matrix gdim O (gradient_own pd (pairs s i) e q w) a b).
      { intros w a b Ha Hbb. rewrite <- pairs_s'. now apply gradient_at. }
      assert (EN : forall a, (a < gdim)%nat -> interface_normal kd (turned_pair O t (pairs s i)) e q a = turn gdim O (interface_normal kd (pairs s i) e q) a).
      { intros a Ha. exact (normal_turned O t pd kd num_pairs (pairs s) (pairs' s') nq TS (fun i _ => pairs_s' i) HO Hb Hd HI i e q Hi Hq HTe a Ha). }
      assert (EJ : forall w a, (a < gdim)%nat -> interface_jump pd' (turned_pair O t (pairs s i)) e q (turned w) a = turn gdim O (interface_jump pd (pairs s i) e q w) a).
      { intros w a Ha. exact (jump_turned O t pd kd num_pairs (pairs s) nq TS Hb i e q w a Ha). }
      rewrite <- (functional_turn gdim O HO law (stored_normal pd s i e q)).
      unfold stored_mu, stored_lambda, stored_friction, stored_h. cbn [turned_space pd_gdim pd_nq pd_functions]. rewrite !scalar_block by (auto; lia).
      apply functional_ext; auto.
      - intros a Ha. now apply normal_stored.
      - intros a Ha. now apply old_normal_stored.
      - now apply gap_stored.
      - intros a Ha. rewrite <- traction_turn by auto. rewrite (traction_normal_ext gdim _ _ _ _ (turn gdim O (interface_normal kd (pairs s i) e q)) a) by auto. apply traction_ext; [|exact Ha]. intros x y Hx Hy. rewrite turn_matrix_plus. f_equal; [now apply EG|now apply gradient_stored].
      - intros a Ha. rewrite <- traction_turn by auto. rewrite (traction_normal_ext gdim _ _ _ _ (turn gdim O (interface_normal kd (pairs s i) e q)) a) by auto. apply traction_ext; [|exact Ha]. intros x y Hx Hy. now apply EG.
    Qed.
  End State.

  Notation strides := (contact_kernel_strides nq nd gdim gdim nq).
  Notation kd' := (with_strides kd strides).
  (** What the object holds after a history, and after the same history in the other frame. *)
  Theorem C114_stored_data :
    forall (g : G) (calls : list (@call (list R) (nat -> list Z))),
    let s := after g calls in
    let s' := after' (TG g) (map (turned_call gdim O) calls) in
    all_ok (mkH g None) calls -> Forall no_crop calls -> cp_ready s = true -> (forall i, (num_local surfaces i <= num_rows i)%nat) -> tie_setting pd kd num_pairs (pairs s) nq ->
    pd_bs pd = gdim -> pd_tdim pd = gdim -> (0 < nq)%nat -> orthogonal gdim O -> inverts gdim (pd_inverse pd) ->
    (forall i e, (i < num_pairs)%nat -> (e < num_local surfaces i)%nat -> turnable pd (own_cell (surfaces i) e) (own_facet (surfaces i) e)) ->
    cp_ready s' = true /\ cp_consts s' = cp_consts s /\ cp_geom s' = TG (cp_geom s) /\ cp_map s' = cp_map s /\
    forall i e q, (i < num_pairs)%nat -> (e < num_local surfaces i)%nat -> (q < nq)%nat ->
      stored_mu pd' s' i e = stored_mu pd s i e /\ stored_lambda pd' s' i e = stored_lambda pd s i e /\ stored_friction pd' s' i e = stored_friction pd s i e /\ stored_h pd' s' i e = stored_h pd s i e /\
      stored_gap pd' s' i e q = stored_gap pd s i e q /\
      forall a, (a < gdim)%nat ->
        stored_normal pd' s' i e q a = turn gdim O (stored_normal pd s i e q) a /\ stored_old_normal pd' s' i e q a = turn gdim O (stored_old_normal pd s i e q) a /\
        forall b, (b < gdim)%nat -> stored_gradient pd' s' i e q a b = turn_matrix gdim O (stored_gradient pd s i e q) a b.
  Proof using TR.
    intros g calls s s' OK HC HR HL TS Hb Hd Hq0 HO HI HT. split; [now apply ready_s'|]. split; [now apply (scalars_s g calls TS Hb Hq0)|]. split; [now apply geom_s'|]. split; [now apply map_s'|].
    intros i e q Hi He Hq. pose proof (fun x => scalar_block g calls HR HL TS Hb Hq0 i e x Hi He) as SB.
    split; [apply SB; lia|]. split; [apply SB; lia|]. split; [apply SB; lia|]. split; [apply SB; lia|]. split; [now apply gap_stored|].
    intros a Ha. split; [now apply normal_stored|]. split; [now apply old_normal_stored|]. intros b Hbb. now apply gradient_stored.
  Qed.

  (** The virtual work of the contact forces is the same in both frames. *)
  Theorem C114_work_is_objective :
    forall (law : friction_law) (g : G) (calls : list (@call (list R) (nat -> list Z))) (u v b : list R) (kernels : list kernel_fn) (n : nat),
    let s := after g calls in
    let s' := after' (TG g) (map (turned_call gdim O) calls) in
    all_ok (mkH g None) calls -> Forall no_crop calls -> cp_ready s = true -> (forall i, (num_local surfaces i <= num_rows i)%nat) -> tie_setting pd kd num_pairs (pairs s) nq ->
    pd_bs pd = gdim -> pd_tdim pd = gdim -> (0 < nq)%nat -> orthogonal gdim O -> inverts gdim (pd_inverse pd) -> area_element gdim (gdim - 1) (kd_determinant kd) ->
    (forall i e, (i < num_pairs)%nat -> (e < num_local surfaces i)%nat -> turnable pd (own_cell (surfaces i) e) (own_facet (surfaces i) e)) ->
    length b = (n * gdim)%nat -> length v = length b -> generated kd' (vector_kinds law) kernels -> 0 < nth 0 (constants_of s) 0 ->
    (forall i e, (i < num_pairs)%nat -> (e < num_local surfaces i)%nat -> 0 <= stored_friction pd s i e /\ 0 < stored_h pd s i e) ->
    applied (contact_vector pd' num_pairs surfaces' basis' kernels (updated' (turned u) s') (turned b)) (turned v) = applied (contact_vector pd num_pairs surfaces basis kernels (updated u s) b) v.
  Proof using TR.
    intros law g calls u v b kernels n s s' OK HC HR HL TS Hb Hd Hq0 HO HI HA HT Lb Lv HK Hw H. pose proof (gdim_pos pd kd num_pairs (pairs s) nq TS Hb) as Hpos.
    pose proof (C107_residual_is_functional pd kd num_pairs surfaces basis num_rows move detect pack_gap pack_normals pack_param pack_h law g calls u v b kernels HC HR HL TS Hb Lv HK Hw H) as X. cbv zeta in X. fold s in X. rewrite X. clear X.
    assert (TS' : tie_setting pd' kd num_pairs (pairs' s') nq) by (apply (turned_setting O t pd kd num_pairs (pairs s)); [exact TS|intros; now apply pairs_s']).
    pose proof (C107_residual_is_functional pd' kd num_pairs surfaces' basis' num_rows move' detect' pack_gap' pack_normals' pack_param pack_h law (TG g) (map (turned_call gdim O) calls) (turned u) (turned v) (turned b) kernels
      (calls_not_cropped calls HC) (ready_s' g calls HR TS Hb Hq0) HL TS' Hb) as X. cbv zeta in X. change (contact_after _ _ _ _ _ _ _ _ _ _ _ (TG g) (map (turned_call gdim O) calls)) with s' in X.
    rewrite X; clear X.
    - rewrite (applied_turned gdim O n b v HO Hpos Lb). f_equal. unfold s'. rewrite (constants_s' g calls TS Hb Hq0). now apply form_turned.
    - rewrite !(field_length gdim O _ n) by (auto; congruence). exact Lv.
    - exact HK.
    - unfold s'. rewrite (constants_s' g calls TS Hb Hq0). exact Hw.
    - intros i e Hi He. pose proof (fun x => scalar_block g calls HR HL TS Hb Hq0 i e x Hi He) as SB. destruct (H i e Hi He) as [H1 H2]. split.
      + refine (Rle_trans _ _ _ H1 (Req_le _ _ _)). symmetry. apply SB. lia.
      + refine (Rlt_le_trans _ _ _ H2 (Req_le _ _ _)). symmetry. apply SB. lia.
  Qed.

  (** The forces themselves turn with the bodies. *)
  Theorem C114_forces_turn :
    forall (law : friction_law) (g : G) (calls : list (@call (list R) (nat -> list Z))) (u b : list R) (kernels : list kernel_fn) (n : nat),
    let s := after g calls in
    let s' := after' (TG g) (map (turned_call gdim O) calls) in
    all_ok (mkH g None) calls -> Forall no_crop calls -> cp_ready s = true -> (forall i, (num_local surfaces i <= num_rows i)%nat) -> tie_setting pd kd num_pairs (pairs s) nq ->
    pd_bs pd = gdim -> pd_tdim pd = gdim -> (0 < nq)%nat -> orthogonal gdim O -> inverts gdim (pd_inverse pd) -> area_element gdim (gdim - 1) (kd_determinant kd) ->
    (forall i e, (i < num_pairs)%nat -> (e < num_local surfaces i)%nat -> turnable pd (own_cell (surfaces i) e) (own_facet (surfaces i) e)) ->
    length b = (n * gdim)%nat -> generated kd' (vector_kinds law) kernels -> 0 < nth 0 (constants_of s) 0 ->
    (forall i e, (i < num_pairs)%nat -> (e < num_local surfaces i)%nat -> 0 <= stored_friction pd s i e /\ 0 < stored_h pd s i e) ->
    contact_vector pd' num_pairs surfaces' basis' kernels (updated' (turned u) s') (turned b) = turned (contact_vector pd num_pairs surfaces basis kernels (updated u s) b).
  Proof using TR.
    intros law g calls u b kernels n s s' OK HC HR HL TS Hb Hd Hq0 HO HI HA HT Lb HK Hw H. pose proof (gdim_pos pd kd num_pairs (pairs s) nq TS Hb) as Hpos.
    assert (TS' : tie_setting pd' kd num_pairs (pairs' s') nq) by (apply (turned_setting O t pd kd num_pairs (pairs s)); [exact TS|intros; now apply pairs_s']).
    pose proof (contact_vector_length pd kd num_pairs surfaces basis num_rows move detect pack_gap pack_normals pack_param pack_h law g calls u b kernels HR TS HK) as L. cbv zeta in L. fold s in L.
    pose proof (contact_vector_length pd' kd num_pairs surfaces' basis' num_rows move' detect' pack_gap' pack_normals' pack_param pack_h law (TG g) (map (turned_call gdim O) calls) (turned u) (turned b) kernels (ready_s' g calls HR TS Hb Hq0) TS' HK) as L'.
    cbv zeta in L'. change (contact_after _ _ _ _ _ _ _ _ _ _ _ (TG g) (map (turned_call gdim O) calls)) with s' in L'.
    pose proof (fun v Hv => C114_work_is_objective law g calls u v b kernels n OK HC HR HL TS Hb Hd Hq0 HO HI HA HT Lb Hv HK Hw H) as W. cbv zeta in W. fold s in W. fold s' in W.
    set (r := contact_vector pd num_pairs surfaces basis kernels (updated u s) b) in *. set (r' := contact_vector pd' num_pairs surfaces' basis' kernels (updated' (turned u) s') (turned b)) in *.
    assert (Lr : length r = (n * gdim)%nat) by congruence. assert (Lt : length (turned r) = length r) by now apply (field_length gdim O r n). assert (Lr' : length r' = length r) by (rewrite L', (field_length gdim O b n) by auto; congruence).
    apply (nth_ext _ _ 0 0); [congruence|]. intros d Hlt. rewrite Lr' in Hlt.
    set (w := unit_vector (length r) d). assert (Lw : length w = (n * gdim)%nat) by (unfold w, unit_vector; now rewrite map_length, seq_length).
    pose proof (field_length gdim (fun a b => O b a) w n Hpos Lw) as Lv.
    specialize (W (turned_field gdim (fun a b => O b a) w) ltac:(congruence)).
    rewrite <- (applied_turned gdim O n r _ HO Hpos Lr) in W. rewrite (turned_back gdim O n w HO Hpos Lw) in W.
    unfold w in W. rewrite <- Lr' in W at 1. rewrite applied_unit in W by (rewrite Lr'; exact Hlt). rewrite W. rewrite <- Lt. apply applied_unit. now rewrite Lt.
  Qed.
End Objectivity.
Print Assumptions C114_stored_data.
Print Assumptions C114_work_is_objective.
Print Assumptions C114_forces_turn.
