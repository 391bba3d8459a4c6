(** C125: the driver for contact with a rigid body, nitsche_rigid_surface_custom, at the level of
    the assembled system. *)
From Coq Require Import List Arith ZArith Lia Bool Reals Lra.
Import ListNotations.
From Verif Require Import Prelude PreludeLemmas RSum RealLemmas EntitiesModel PackingModel PackingProps PackUProps GhostingProofs AssemblyModel AssemblyProofs AssemblyProps GapModel GapProps RayModel OpsModel OpsProps KernelModel KernelProofs KernelSpec
  ElasticityProps ContactKernelModel ContactKernelProofs ContactKernelSpec ContactKernelProps RigidKernelModel RigidKernelProps OneSidedModel OneSidedProps
  CoefficientsModel CoefficientsProps SystemSpec TieSystemModel TieSystemProofs TieWeakProps ContactSystemSpec SystemWeakProps MonotoneProps FixedPointProofs ExistenceProps OneSidedSystemModel OneSidedSystemProps
  RigidDriverModel RigidDriverProps RigidSystemModel.
Local Open Scope R_scope.

(** ** Specification *)
(** At quadrature point [q] of contact facet [e]: the direction into the rigid body, against its
    packed normal, components along it, the normal gap and the normal stress. *)
Section Point.
  Context (pd : pack_data) (kd : kernel_data) (asm : assembly) (mu lmbda : R) (g_vec n_surf : list R) (e q : nat).
  Definition into_body (a : nat) : R := - nth ((e * pd_nq pd + q) * pd_gdim pd + a)%nat n_surf 0.
  Definition along_body (x : nat -> R) : R := rsum (pd_gdim pd) (fun a => x a * into_body a).
  Definition body_gap : R := along_body (fun a => nth ((e * pd_nq pd + q) * pd_gdim pd + a)%nat g_vec 0).
  Definition body_value (v : list R) : R := along_body (fe_value pd asm e q v).
  Definition body_stress (v : list R) : R := along_body (traction (pd_gdim pd) mu lmbda (fe_gradient pd asm e q v) (facet_normal kd asm e q)).
End Point.

(** ** Proofs *)
Lemma surface_kernel_slots kd junk k kernel (slots : nat -> nat) : (forall n, (0 < slots n)%nat) -> generate_rigid_surface_kernel k kd junk false = Some kernel -> kernel_local slots kernel.
Proof.
  intros Hs E.
  destruct k; try discriminate E; injection E as <-; apply kernel_local_intro; intros bufs; intros;
    (unfold rigid_rhs, rigid_jac; cbv zeta; rewrite !quadrature_loop_geometry;
     first [ pose proof (same_shape_refl bufs) as Hrefl; solve [kernel_shape]
           | pose proof (Hs n) as Hpos; solve [kernel_agree] ]).
Qed.

Section System.
  Context (pd : pack_data) (kd : kernel_data) (asm : assembly) (mu lmbda E gamma theta : R) (h g_vec n_surf : list R) (rhs jac : kernel_fn) (junk : geometry).
  Context (form_vector : list R -> list R) (form_matrix : list insertion).
  Notation nq := (pd_nq pd).
  Notation nd := (pd_functions pd).
  Notation bs := (pd_bs pd).
  Notation gdim := (pd_gdim pd).
  Context (DS : driver_setting pd kd asm)
    (E_rhs : generate_rigid_surface_kernel Rhs kd junk false = Some rhs) (E_jac : generate_rigid_surface_kernel Jac kd junk false = Some jac)
    (Hw : 0 < gamma * E) (Hh : forall e, (e < a_local asm)%nat -> 0 < nth e h 0)
    (Lgv : length g_vec = (a_local asm * (nq * gdim))%nat) (Lns : length n_surf = (a_local asm * (nq * gdim))%nat).
  (** What was packed before: the function when the array was made, the initial guess, and the
      vectors of earlier calls. *)
  Context (u0 u1 : list R) (history : list (list R)).
  Notation row := (initial_row pd asm mu lmbda h g_vec n_surf).
  Notation state := (after_packing pd asm mu lmbda h g_vec n_surf u0 u1).
  Notation F := (fun x => compute_residual pd asm E gamma theta rhs form_vector x (state (history ++ [x]))).
  Notation M := (fun x => compute_jacobian pd asm E gamma theta jac form_matrix (state (history ++ [x]))).
  Notation consts := (surface_consts E gamma theta).
  Notation cstride := (surface_cstride pd).
  Notation cell e := (nth (2 * e) (a_active asm) 0%nat).
  Notation fct e := (nth (2 * e + 1) (a_active asm) 0%nat).
  Notation T := (dr_tables _ _ _ DS).
  Notation value e q := (body_value pd asm n_surf e q).
  Notation stress_n e q := (body_stress pd kd asm mu lmbda n_surf e q).
  Notation ds e q := (facet_weight kd asm e q).
  Notation gap e q := (body_gap pd g_vec n_surf e q).
  Notation dir e q := (into_body pd n_surf e q).
  Notation urow u e := (array_row (u_packed pd asm u) (nq * gdim) e).
  Notation grow u e := (array_row (grad_u_packed pd asm u) (nq * gdim * gdim) e).
  Notation gvrow e := (array_row g_vec (nq * gdim) e).
  Notation nsrow e := (array_row n_surf (nq * gdim) e).
  Notation coeffs u := (concat (map (row u) (seq 0 (a_local asm)))).

  Let KG : kd_gdim kd = gdim := kg pd kd asm DS.
  Let KB : kd_bs kd = kd_gdim kd := kb pd kd asm DS.
  Let FP : forall f, num_points kd f = nq := facet_points pd kd asm DS.
  Let WF : well_formed asm := driver_well_formed pd kd asm DS.
  Let NL : forall e, links_of asm e = [] := no_links pd kd asm DS.
  Let RD := restrict_dofs pd kd asm DS.
  Let PG := driver_phys_grad pd kd asm DS.
  Let UV := u_packed_value pd kd asm DS.
  Let GV := grad_packed_value pd kd asm DS.
  Let PL := packed_lengths pd kd asm DS.

  Lemma row_lengths u e : (e < a_local asm)%nat -> length (gvrow e) = (nq * gdim)%nat /\ length (urow u e) = (nq * gdim)%nat /\ length (grow u e) = (nq * (gdim * gdim))%nat /\ length (nsrow e) = (nq * gdim)%nat.
  Proof.
    intros He. destruct (PL u) as [Lu Lg]. unfold array_row. repeat split; rewrite slice_length; rewrite ?Lgv, ?Lu, ?Lg, ?Lns; nia.
  Qed.

  (** The rows after any calls of pack_coefficients are those of the last vector. *)
  Lemma packed_rows x rows : length rows = a_local asm -> (forall e, (e < a_local asm)%nat -> exists u, nth e rows [] = row u e) ->
    ds_rows (pack_coefficients pd asm x (mkDriverState u1 rows)) = map (row x) (seq 0 (a_local asm)).
  Proof.
    intros L H. unfold pack_coefficients. cbn [ds_rows]. rewrite L. apply map_ext_in. intros e He. apply in_seq in He. assert (He' : (e < a_local asm)%nat) by lia. destruct (H e He') as [u ->].
    destruct (row_lengths u e He') as (A1 & A2 & A3 & A4). destruct (row_lengths x e He') as (_ & B2 & B3 & _).
    pose proof (C89_update mu lmbda (nth e h 0) (gvrow e) (nsrow e) (urow u e) (grow u e) [] (urow x e) (grow x e) ltac:(intros p []) ltac:(congruence) ltac:(congruence)) as X.
    cbn [fold_left] in X. rewrite A1 in X. exact X.
  Qed.
  Lemma state_shape hist : length (ds_rows (state hist)) = a_local asm /\ forall e, (e < a_local asm)%nat -> exists u, nth e (ds_rows (state hist)) [] = row u e.
  Proof.
    induction hist as [|x hist IH] using rev_ind.
    - cbn. rewrite map_length, seq_length. split; [reflexivity|]. intros e He. exists u0. rewrite (nth_map_lt _ _ e [] 0%nat) by (now rewrite seq_length). now rewrite seq_nth.
    - unfold after_packing in *. rewrite fold_left_app. cbn [fold_left]. set (st := fold_left _ _ _) in *. destruct IH as [L H].
      assert (X : ds_rows (pack_coefficients pd asm x st) = map (row x) (seq 0 (a_local asm))) by (exact (packed_rows x (ds_rows st) L H)).
      rewrite X. rewrite map_length, seq_length. split; [reflexivity|]. intros e He. exists x. rewrite (nth_map_lt _ _ e [] 0%nat) by (now rewrite seq_length). now rewrite seq_nth.
  Qed.
  Lemma state_last x : state (history ++ [x]) = mkDriverState x (map (row x) (seq 0 (a_local asm))).
  Proof.
    destruct (state_shape history) as [L H]. unfold after_packing in *. rewrite fold_left_app. cbn [fold_left]. set (st := fold_left _ _ _) in *.
    pose proof (packed_rows x (ds_rows st) L H) as X. unfold pack_coefficients in *. cbn [ds_rows] in *. now rewrite X.
  Qed.
  Lemma row_length u e : (e < a_local asm)%nat -> length (row u e) = cstride.
  Proof.
    intros He. destruct (row_lengths u e He) as (A1 & A2 & A3 & A4). unfold initial_row, surface_row, surface_cstride. rewrite !app_length, A1, A2, A3, A4. cbn [length]. nia.
  Qed.
  Lemma row_slice u e : (e < a_local asm)%nat -> slice (coeffs u) (e * cstride) cstride = row u e.
  Proof.
    intros He. rewrite Nat.mul_comm. rewrite slice_concat_const.
    - rewrite (nth_map_lt _ (seq 0 (a_local asm)) e [] 0%nat) by (now rewrite seq_length). now rewrite seq_nth.
    - intros r Hr. apply in_map_iff in Hr as (e' & <- & He'). apply in_seq in He'. apply row_length. lia.
    - now rewrite map_length, seq_length.
  Qed.

  (** The integrand at a point, for the fields of [u] and [v]. *)
  Definition body_form (u v : list R) (e q : nat) : R :=
    ds e q * ufl_contact_residual theta gamma E (nth e h 0) (gap e q) (stress_n e q u) (value e q u) (stress_n e q v) (value e q v).

  Lemma dir_row e q a : (e < a_local asm)%nat -> (q < nq)%nat -> (a < gdim)%nat -> n_2 kd (nsrow e) q a = dir e q a.
  Proof. intros He Hq Ha. unfold n_2, into_body, array_row. rewrite KG, nth_slice by nia. do 2 f_equal. nia. Qed.
  Lemma along_row e q x y : (e < a_local asm)%nat -> (q < nq)%nat -> (forall a, (a < gdim)%nat -> x a = y a) -> along_2 kd (nsrow e) q x = along_body pd n_surf e q y.
  Proof. intros He Hq H. unfold along_2, along_body. rewrite KG. apply rsum_ext. intros a Ha. now rewrite dir_row, H. Qed.
  Lemma row_gap e q : (e < a_local asm)%nat -> (q < nq)%nat -> along_2 kd (nsrow e) q (value_at kd q (gvrow e)) = gap e q.
  Proof. intros He Hq. apply along_row; auto. intros a Ha. unfold value_at, array_row. rewrite KG, nth_slice by nia. f_equal. nia. Qed.
  Lemma value_row u e q : (e < a_local asm)%nat -> (q < nq)%nat -> along_2 kd (nsrow e) q (value_at kd q (urow u e)) = value e q u.
  Proof. intros He Hq. apply along_row; auto. intros a Ha. unfold value_at, array_row. rewrite KG, nth_slice by nia. apply UV; auto. now rewrite (dr_vector _ _ _ DS). Qed.
  Lemma stress_row u e q : (e < a_local asm)%nat -> (q < nq)%nat ->
    sigma_2 kd (coordinates_of asm (cell e)) (fct e) mu lmbda (nsrow e) q (gradient_at kd q (grow u e)) = stress_n e q u.
  Proof.
    intros He Hq. apply along_row; auto. intros a Ha. rewrite KG. apply traction_ext; [|exact Ha].
    intros b c Hb Hc. unfold gradient_at, array_row. rewrite KG, nth_slice.
    - apply GV; auto. now rewrite (dr_vector _ _ _ DS).
    - assert (b * gdim + c < gdim * gdim)%nat by nia. nia.
  Qed.
  Lemma value_tested v e q : (e < a_local asm)%nat -> (q < nq)%nat -> apply_row nd bs (fun i n => along_2 kd (nsrow e) q (basis_value kd (fct e) q i n)) (restrict asm v (cell e)) = value e q v.
  Proof.
    intros He Hq. unfold body_value, along_body. unfold apply_row.
    rewrite (rsum_ext nd _ (fun j => rsum bs (fun l => dir e q l * (pd_basis pd 0 (pd_q_offsets pd (fct e) + q) j 0 * dof_value bs (pd_dofs pd (cell e)) v j l)))).
    - rewrite rsum_swap. rewrite (dr_vector _ _ _ DS) at 1. apply rsum_ext. intros a Ha. unfold fe_value, facet_cell, facet_index. rewrite rsum_scal. ring.
    - intros j _. apply rsum_ext. intros l Hl. unfold along_2. rewrite KG. rewrite (rsum_single gdim l); [|now rewrite <- (dr_vector _ _ _ DS)|intros a Ha N; unfold basis_value; destruct (Nat.eqb_spec a l); [lia|ring]].
      rewrite dir_row by (auto; now rewrite <- (dr_vector _ _ _ DS)). unfold basis_value. rewrite Nat.eqb_refl, (st_phi _ _ T), (st_offsets _ _ T), RD. ring.
  Qed.
  Lemma stress_tested v e q : (e < a_local asm)%nat -> (q < nq)%nat ->
    apply_row nd bs (fun i n => sigma_2 kd (coordinates_of asm (cell e)) (fct e) mu lmbda (nsrow e) q (basis_gradient kd (coordinates_of asm (cell e)) (fct e) q i n)) (restrict asm v (cell e)) = stress_n e q v.
  Proof.
    intros He Hq. unfold body_stress, along_body.
    rewrite (apply_row_ext nd bs _ (fun i n => rsum gdim (fun a => dir e q a * traction gdim mu lmbda (in_direction n (phys_grad kd (coordinates_of asm (cell e)) (fct e) q i)) (facet_normal kd asm e q) a))).
    2:{ intros. unfold sigma_2, along_2. rewrite KG. apply rsum_ext. intros a Ha. rewrite dir_row by auto. unfold basis_gradient, facet_normal, facet_cell, facet_index. ring. }
    rewrite apply_row_sum. apply rsum_ext. intros a Ha. rewrite apply_row_scal. rewrite Rmult_comm. f_equal.
    rewrite (traction_ext gdim mu lmbda (fe_gradient pd asm e q v) (fun b c => rsum nd (fun j => phys_grad kd (coordinates_of asm (cell e)) (fct e) q j c * restrict asm v (cell e) j b))).
    - rewrite traction_expansion by exact Ha. unfold apply_row. rewrite (dr_vector _ _ _ DS). reflexivity.
    - intros b c Hb Hc. unfold fe_gradient. apply rsum_ext. intros j _. rewrite PG, RD by exact Hc. reflexivity.
    - exact Ha.
  Qed.
  Lemma row_hyps u e : (e < a_local asm)%nat -> length (gvrow e) = (num_points kd (fct e) * kd_gdim kd)%nat /\ length (urow u e) = (num_points kd (fct e) * kd_gdim kd)%nat /\ length (grow u e) = (num_points kd (fct e) * (kd_gdim kd * kd_gdim kd))%nat.
  Proof. intros He. rewrite FP, KG. destruct (row_lengths u e He) as (A1 & A2 & A3 & _). auto. Qed.

  (** One facet. *)
  Lemma facet_form u v e : (e < a_local asm)%nat ->
    apply_row nd bs (fun i n => nth (dof bs i n) (nth 0 (facet_result asm rhs (coeffs u) cstride consts 1 (bs * nd) e) []) 0) (restrict asm v (cell e)) =
    rsum nq (body_form u v e).
  Proof.
    intros He. unfold facet_result. rewrite row_slice by exact He. unfold initial_row. destruct (row_hyps u e He) as (A1 & A2 & A3).
    set (b0 := repeat (repeat 0 (bs * nd)) 1).
    assert (Hb : vector_buffers kd 0 b0) by (split; [cbn; lia|]; intros s Hs; replace s with 0%nat by lia; cbn [b0 repeat nth]; rewrite repeat_length, (st_bs _ _ T), (st_ndofs _ _ T); lia).
    rewrite (apply_row_ext nd bs _ (fun i n => lsum (seq 0 (num_points kd (fct e))) (fun q => measure kd (coordinates_of asm (cell e)) (fct e) q *
      ufl_contact_residual theta gamma E (nth e h 0) (along_2 kd (nsrow e) q (value_at kd q (gvrow e)))
        (sigma_2 kd (coordinates_of asm (cell e)) (fct e) mu lmbda (nsrow e) q (gradient_at kd q (grow u e))) (along_2 kd (nsrow e) q (value_at kd q (urow u e)))
        (sigma_2 kd (coordinates_of asm (cell e)) (fct e) mu lmbda (nsrow e) q (basis_gradient kd (coordinates_of asm (cell e)) (fct e) q i n)) (along_2 kd (nsrow e) q (basis_value kd (fct e) q i n))))).
    - rewrite apply_row_lsum, lsum_seq, FP. apply rsum_ext. intros q Hq. rewrite residual_tested, stress_tested, value_tested, row_gap, stress_row, value_row by assumption. reflexivity.
    - intros i n Hi Hn.
      pose proof (C89_residual_is_form kd junk (coordinates_of asm (cell e)) (fct e) mu lmbda (nth e h 0) E gamma theta (gvrow e) (urow u e) (grow u e) (nsrow e) (dr_strides _ _ _ DS _) A1 A2 A3 KB Hw (Hh e He) b0 (length (links_of asm e)) (points_of asm e) rhs E_rhs Hb i n
        ltac:(now rewrite (st_ndofs _ _ T)) ltac:(now rewrite KG, <- (dr_vector _ _ _ DS))) as X.
      unfold added_vec in X. rewrite (st_bs _ _ T) in X. unfold b0 in X at 2. rewrite zero_vec, Rminus_0_r in X. exact X.
  Qed.

  (** Whatever was packed before, the residual after pack_coefficients(x) is the form of
      nitsche_rigid_surface at [x]: tested with any function it is the bulk and Dirichlet part
      plus the quadrature of the contact integrand over all owned contact facets, with the gap
      and the direction of the packed arrays. *)
  Theorem C125_residual_is_form :
    forall (u v : list R), length v = length u -> length (form_vector u) = length u ->
      length (F u) = length u /\ applied (F u) v = applied (form_vector u) v + rsum (a_local asm) (fun e => rsum nq (fun q =>
        ds e q * ufl_contact_residual theta gamma E (nth e h 0) (gap e q) (stress_n e q u) (value e q u) (stress_n e q v) (value e q v))).
  Proof.
    intros u v Hv Hf. cbv beta. rewrite state_last.
    assert (K : kernel_local (fun n => n + 1)%nat rhs) by (apply (surface_kernel_slots kd junk Rhs); [intros; lia|exact E_rhs]).
    unfold compute_residual. cbn [ds_rows ds_u].
    set (b0 := repeat 0 (length u)). assert (L0 : length b0 = length u) by apply repeat_length.
    destruct (C20_assemble_vector asm rhs (coeffs u) cstride consts b0 K WF) as [Lr _].
    set (FU := map _ (seq 0 _)).
    assert (LF : length FU = length u) by (unfold FU; rewrite map_length, seq_length; congruence).
    split; [exact LF|].
    pose proof (C100_assembled_test asm rhs (coeffs u) cstride consts b0 v K WF ltac:(congruence)) as X.
    assert (Z : applied b0 v = 0) by (unfold applied; apply rsum_zero; intros d _; unfold b0; rewrite nth_repeat_0; ring). rewrite Z, Rplus_0_l in X.
    transitivity (applied (form_vector u) v + applied (assemble_vector asm rhs (coeffs u) cstride consts b0) v).
    - unfold applied. rewrite LF, Hf, Lr, L0, <- rsum_plus. apply rsum_ext. intros d Hd. unfold FU.
      rewrite (nth_map_lt _ _ d 0 0%nat) by (rewrite seq_length; congruence). rewrite seq_nth by congruence. cbn [Nat.add]. ring.
    - f_equal. rewrite X. apply rsum_ext. intros e He. rewrite NL. unfold tested. cbn [length]. cbn [rsum]; rewrite Rplus_0_r.
      rewrite (dr_links _ _ _ DS), (dr_bs _ _ _ DS), (dr_ndofs _ _ _ DS). apply facet_form. exact He.
  Qed.

  (** ** The matrix *)
  Notation clear_of u e q := (stress_n e q u + gamma_scaled gamma E (nth e h 0) * (gap e q - value e q u) <> 0).
  Lemma row_values u e q a : (e < a_local asm)%nat -> (q < nq)%nat -> (a < kd_gdim kd)%nat -> nth (offsets kd 4 + kd_gdim kd * q + a) (row u e) 0 = fe_value pd asm e q u a.
  Proof.
    intros He Hq Ha. destruct (row_hyps u e He) as (A1 & A2 & A3). unfold initial_row.
    rewrite (s_u kd junk [] (fct e) mu lmbda (nth e h 0) E gamma theta (gvrow e) (urow u e) (grow u e) (nsrow e) (dr_strides _ _ _ DS _) A1 A2 A3 KB q a ltac:(now rewrite FP) Ha).
    unfold value_at, array_row. rewrite KG in *. rewrite nth_slice by nia. apply UV; auto. now rewrite (dr_vector _ _ _ DS).
  Qed.
  Lemma row_gradients u e q a b : (e < a_local asm)%nat -> (q < nq)%nat -> (a < kd_gdim kd)%nat -> (b < kd_gdim kd)%nat ->
    nth (offsets kd 5 + q * kd_gdim kd * kd_gdim kd + (a * kd_gdim kd + b)) (row u e) 0 = fe_gradient pd asm e q u a b.
  Proof.
    intros He Hq Ha Hb. destruct (row_hyps u e He) as (A1 & A2 & A3). unfold initial_row.
    rewrite (s_grad kd junk [] (fct e) mu lmbda (nth e h 0) E gamma theta (gvrow e) (urow u e) (grow u e) (nsrow e) (dr_strides _ _ _ DS _) A1 A2 A3 KB q a b ltac:(now rewrite FP) Ha Hb).
    unfold gradient_at, array_row. rewrite KG in *. rewrite nth_slice; [apply GV; auto; now rewrite (dr_vector _ _ _ DS)|].
    assert (a * gdim + b < gdim * gdim)%nat by nia. nia.
  Qed.
  Lemma row_clear u e q : (e < a_local asm)%nat -> (q < nq)%nat -> clear_of u e q -> rs_indicator kd (coordinates_of asm (cell e)) (fct e) false (row u e) consts q <> 0.
  Proof.
    intros He Hq N Z. apply N. unfold initial_row in Z. destruct (row_hyps u e He) as (A1 & A2 & A3).
    pose proof (s_indicator kd junk (coordinates_of asm (cell e)) (fct e) mu lmbda (nth e h 0) E gamma theta (gvrow e) (urow u e) (grow u e) (nsrow e) (dr_strides _ _ _ DS _) A1 A2 A3 KB Hw (Hh e He) q ltac:(now rewrite FP)) as X.
    rewrite Z, Rmult_0_r in X. rewrite stress_row, value_row, row_gap in X by assumption. now rewrite <- X.
  Qed.
  Lemma row_constant u u' e p : (e < a_local asm)%nat -> (p < offsets kd 4)%nat \/ (offsets kd 6 <= p)%nat -> nth p (row u e) 0 = nth p (row u' e) 0.
  Proof.
    intros He. destruct (row_lengths u e He) as (A1 & A2 & A3 & _). destruct (row_lengths u' e He) as (_ & B2 & B3 & _). unfold initial_row, surface_row.
    assert (O4 : offsets kd 4 = (3 + nq * gdim)%nat). { unfold offsets. rewrite (dr_strides _ _ _ DS 0). cbn [psums psums_from nth]. rewrite FP, KG. lia. }
    assert (O6 : offsets kd 6 = (3 + nq * gdim + (nq * gdim + nq * (gdim * gdim)))%nat). { unfold offsets. rewrite (dr_strides _ _ _ DS 0). cbn [psums psums_from nth]. rewrite FP, KG. nia. }
    set (pre := [mu; lmbda] ++ [nth e h 0] ++ gvrow e).
    assert (LP : length pre = (3 + nq * gdim)%nat) by (unfold pre; rewrite !app_length, A1; reflexivity).
    assert (R1 : forall a b c : list R, [mu; lmbda] ++ [nth e h 0] ++ gvrow e ++ a ++ b ++ c = (pre ++ a ++ b) ++ c) by (intros; unfold pre; now rewrite <- !app_assoc). rewrite !R1.
    assert (LU : length (pre ++ urow u e ++ grow u e) = offsets kd 6) by (rewrite !app_length, LP, A2, A3, O6; lia).
    assert (LU' : length (pre ++ urow u' e ++ grow u' e) = offsets kd 6) by (rewrite !app_length, LP, B2, B3, O6; lia).
    intros [H|H].
    - rewrite !(app_nth1 (pre ++ _)) by (rewrite ?LU, ?LU'; lia). rewrite !(app_nth1 pre) by lia. reflexivity.
    - rewrite !app_nth2 by (rewrite ?LU, ?LU'; lia). now rewrite LU, LU'.
  Qed.
  Lemma surface_line u w e : length w = length u -> (e < a_local asm)%nat ->
    rigid_line kd (coordinates_of asm (cell e)) (fct e) (fun t => row (moved u w t) e) (restrict asm u (cell e)) (restrict asm w (cell e)).
  Proof.
    intros L He. constructor.
    - intros t p Hp. now apply row_constant.
    - intros t q n Hq Hn. rewrite FP in Hq. rewrite row_values by assumption. unfold fe_value. rewrite (st_ndofs _ _ T). apply rsum_ext. intros j _.
      rewrite (st_phi _ _ T), (st_offsets _ _ T), !RD. unfold facet_cell, facet_index, dof_value. now rewrite nth_moved.
    - intros t q a b Hq Ha Hb. rewrite FP in Hq. rewrite row_gradients by assumption. unfold fe_gradient. rewrite (st_ndofs _ _ T). apply rsum_ext. intros j _.
      rewrite PG, !RD by (now rewrite <- KG). unfold facet_cell, facet_index, dof_value. now rewrite nth_moved.
  Qed.

  (** The matrix is the derivative of the residual in every direction, if at no contact point
      the argument of the negative part is zero, and if the compiled matrix is the derivative
      of the compiled vector. *)
  Theorem C125_matrix_is_derivative :
    forall (u w : list R) (d : nat), length w = length u -> (d < length u)%nat ->
      (forall e q, (e < a_local asm)%nat -> (q < nq)%nat -> clear_of u e q) ->
      derivable_pt_lim (fun t => nth d (form_vector (moved u w t)) 0) 0 (matrix_times bs form_matrix w d) ->
      derivable_pt_lim (fun t => nth d (F (moved u w t)) 0) 0 (matrix_times bs (M u) w d).
  Proof.
    intros u w d Lw Hd HI HF. cbv beta.
    assert (Kr : kernel_local (fun n => n + 1)%nat rhs) by (apply (surface_kernel_slots kd junk Rhs); [intros; lia|exact E_rhs]).
    assert (Kj : kernel_local (fun n => 3 * n + 1)%nat jac) by (apply (surface_kernel_slots kd junk Jac); [intros; lia|exact E_jac]).
    assert (U0 : forall e, (e < a_local asm)%nat -> row (moved u w 0) e = row u e).
    { intros e _. f_equal. apply (nth_ext' _ _ 0); [apply moved_length|]. intros. rewrite nth_moved by exact Lw. ring. }
    assert (C0 : coeffs (moved u w 0) = coeffs u).
    { f_equal. apply map_ext_in. intros e He. apply in_seq in He. apply U0. lia. }
    rewrite state_last. unfold compute_jacobian. cbn [ds_rows]. rewrite driver_times_app.
    eapply derivable_ext with (g := fun t => nth d (assemble_vector asm rhs (coeffs (moved u w t)) cstride consts (repeat 0 (length u))) 0 + nth d (form_vector (moved u w t)) 0).
    - intros t. rewrite state_last. unfold compute_residual. cbn [ds_rows ds_u]. rewrite moved_length.
      destruct (C20_assemble_vector asm rhs (coeffs (moved u w t)) cstride consts (repeat 0 (length u)) Kr WF) as [Lr _]. rewrite repeat_length in Lr.
      rewrite (nth_map_lt _ _ d 0 0%nat) by (rewrite seq_length; congruence). rewrite seq_nth by congruence. reflexivity.
    - apply derivable_plus; [|exact HF].
      replace (matrix_times bs (assemble_matrix asm jac (coeffs u) cstride consts) w d) with (0 + matrix_times (a_bs asm) (assemble_matrix asm jac (coeffs (moved u w 0)) cstride consts) w d) by (rewrite (dr_bs _ _ _ DS), C0; ring).
      apply (assembled_derivative asm rhs jac (fun t => coeffs (moved u w t)) cstride consts w (fun _ => repeat 0 (length u)) d 0 Kr Kj WF).
      + intros i c _ _. rewrite (dr_dofs _ _ _ DS), (dr_ndofs _ _ _ DS). apply (driver_dofs pd kd asm DS).
      + intros e He. rewrite NL, (dr_links _ _ _ DS). cbn [length Nat.mul Nat.add]. unfold element_derivative. cbv zeta. intros i n Hi Hn. split; [|intros k Hk; lia]. cbn [rsum]. rewrite Rplus_0_r.
        rewrite (dr_ndofs _ _ _ DS), (dr_bs _ _ _ DS) in *.
        set (b0 := repeat (repeat 0 (bs * nd)) 1). set (A0 := repeat (repeat 0 (bs * nd * bs * nd)) 1).
        assert (Hb : vector_buffers kd 0 b0) by (split; [cbn; lia|]; intros s Hs; replace s with 0%nat by lia; cbn [b0 repeat nth]; rewrite repeat_length, (st_bs _ _ T), (st_ndofs _ _ T); lia).
        assert (HA : matrix_buffers kd 0 A0) by (split; [cbn; lia|]; intros s Hs; replace s with 0%nat by lia; cbn [A0 repeat nth]; rewrite repeat_length, (st_bs _ _ T), (st_ndofs _ _ T); lia).
        pose proof (C32_rigid_derivative kd junk junk false b0 A0 (fun t => row (moved u w t) e) consts (coordinates_of asm (cell e)) (fct e) 0 (points_of asm e) (restrict asm u (cell e)) (restrict asm w (cell e)) rhs jac E_rhs E_jac KB (or_intror eq_refl) Hb HA (dr_strides _ _ _ DS _)
          (surface_line u w e Lw He) ltac:(exact Hw) ltac:(exact (Hh e He))) as X.
        specialize (X ltac:(intros q Hq; cbv beta; rewrite FP in Hq; rewrite U0 by exact He; now apply row_clear, HI)).
        specialize (X i n ltac:(now rewrite (st_ndofs _ _ T)) ltac:(now rewrite (st_bs _ _ T))).
        rewrite (st_bs _ _ T), (st_ndofs _ _ T) in X.
        eapply derivable_eq; [eapply derivable_ext; [|exact X]|].
        * intros t. unfold facet_result, added_vec. rewrite row_slice by exact He. rewrite NL. cbn [length]. rewrite (st_bs _ _ T). assert (Z : nth (dof bs i n) (nth 0 b0 []) 0 = 0) by apply zero_vec. rewrite Z, Rminus_0_r. reflexivity.
        * apply apply_row_ext. intros j l Hj Hl. unfold facet_result, added_mat. cbv zeta. rewrite row_slice by exact He. rewrite NL. cbn [length]. rewrite (st_bs _ _ T), (st_ndofs _ _ T). assert (Z : forall p, nth p (nth 0 A0 []) 0 = 0) by (intros; apply zero_vec). rewrite Z, Rminus_0_r. reflexivity.
      + intros t. now rewrite repeat_length.
      + apply derivable_const.
  Qed.

  (** ** Monotonicity *)
  Lemma body_stress_moved u w e q t : length w = length u -> stress_n e q (moved u w t) = stress_n e q u + t * stress_n e q w.
  Proof using.
    intros L. unfold body_stress, along_body. rewrite <- rsum_scal, <- rsum_plus. apply rsum_ext. intros a Ha.
    rewrite (traction_ext gdim mu lmbda (fe_gradient pd asm e q (moved u w t)) (fun b c => fe_gradient pd asm e q u b c + t * fe_gradient pd asm e q w b c)).
    - rewrite traction_plus, traction_scal by exact Ha. ring.
    - intros b c _ _. unfold fe_gradient. rewrite <- rsum_scal, <- rsum_plus. apply rsum_ext. intros j _. unfold dof_value. rewrite nth_moved by exact L. ring.
    - exact Ha.
  Qed.
  Lemma body_value_moved u w e q t : length w = length u -> value e q (moved u w t) = value e q u + t * value e q w.
  Proof using.
    intros L. unfold body_value, along_body. rewrite <- rsum_scal, <- rsum_plus. apply rsum_ext. intros a _. unfold fe_value.
    rewrite <- Rmult_assoc, <- rsum_scal, <- Rmult_plus_distr_r, <- rsum_plus. f_equal. apply rsum_ext. intros j _. unfold dof_value. rewrite nth_moved by exact L. ring.
  Qed.
  (** Weighted square of the normal stress of a displacement on the contact surface. *)
  Definition body_contact_stress (w : list R) : R := rsum (a_local asm) (fun e => rsum nq (fun q => ds e q * (nth e h 0 / (gamma * E)) * (stress_n e q w * stress_n e q w))).

  (** The change of the residual over a displacement, tested with it, is at least that of the
      bulk less a multiple of the stress of the displacement on the contact surface, which is
      zero for theta = -1. *)
  Theorem C125_monotone :
    forall (u w : list R), length w = length u -> (forall v, length (form_vector v) = length v) ->
      (forall e q, (e < a_local asm)%nat -> (q < nq)%nat -> 0 <= ds e q) ->
      applied (form_vector (moved u w 1)) w - applied (form_vector u) w - (1 + theta) * (1 + theta) / 4 * body_contact_stress w <=
      applied (F (moved u w 1)) w - applied (F u) w.
  Proof.
    intros u w Lw Hf Hds.
    destruct (C125_residual_is_form (moved u w 1) w ltac:(now rewrite moved_length) (Hf _)) as [_ E1].
    destruct (C125_residual_is_form u w Lw (Hf _)) as [_ E0]. cbv beta in E1, E0. rewrite E1, E0.
    set (S1 := rsum (a_local asm) _). set (S0 := rsum (a_local asm) (fun e => rsum nq (fun q => ds e q * ufl_contact_residual theta gamma E (nth e h 0) (gap e q) (stress_n e q u) (value e q u) (stress_n e q w) (value e q w)))).
    enough (X : - ((1 + theta) * (1 + theta) / 4 * body_contact_stress w) <= S1 - S0) by lra. unfold S1, S0.
    unfold body_contact_stress. rewrite Ropp_mult_distr_l, <- rsum_minus, <- rsum_scal.
    apply rsum_le. intros e He. rewrite <- rsum_minus, <- rsum_scal. apply rsum_le. intros q Hq.
    rewrite body_stress_moved, body_value_moved by exact Lw. rewrite !Rmult_1_l.
    assert (Hk : 0 < gamma_scaled gamma E (nth e h 0)) by (unfold gamma_scaled; apply Rdiv_lt_0_compat; [lra|apply Hh; exact He]).
    pose proof (residual_step E gamma theta (nth e h 0) (gap e q) (stress_n e q u) (value e q u) (stress_n e q w) (value e q w) Hk) as P.
    apply (Rmult_le_compat_l (ds e q)) in P; [|now apply Hds].
    replace (/ gamma_scaled gamma E (nth e h 0)) with (nth e h 0 / (gamma * E)) in P by (unfold gamma_scaled; pose proof (Hh e He); field; repeat split; intros Z; rewrite ?Z in *; lra).
    lra.
  Qed.

  (** ** Existence *)
  Lemma lip_body_value n e q : lipschitz n (fun u => value e q u).
  Proof using.
    unfold body_value, along_body, fe_value. apply (lip_rsum n gdim (fun a u => _)). intros a _. apply lip_scal_r. apply (lip_rsum n nd (fun j u => _)). intros j _. apply lip_scal. unfold dof_value. apply lip_nth.
  Qed.
  Lemma lip_body_stress n e q : lipschitz n (fun u => stress_n e q u).
  Proof using.
    unfold body_stress, along_body. apply (lip_rsum n gdim (fun a u => _)). intros a _. apply lip_scal_r. unfold traction, stress, fe_gradient, dof_value.
    assert (G : forall a b, lipschitz n (fun u => rsum nd (fun j => basis_derivative pd (facet_cell asm e) (facet_index asm e) q b j 0 * nth (bs * nth j (pd_dofs pd (facet_cell asm e)) 0 + a)%nat u 0))).
    { intros a' b. apply (lip_rsum n nd (fun j u => _)). intros j _. apply lip_scal, lip_nth. }
    apply (lip_rsum n gdim (fun b u => _)). intros b _. apply lip_scal_r. apply lip_plus; [apply lip_scal, lip_plus; apply G|]. apply lip_scal_r, lip_scal. apply (lip_rsum n gdim (fun c u => _)). intros c _. apply G.
  Qed.
  Lemma lip_body_form n v e q : (e < a_local asm)%nat -> lipschitz n (fun u => body_form u v e q).
  Proof using Hw Hh.
    intros He. assert (Hk : 0 < gamma_scaled gamma E (nth e h 0)) by (unfold gamma_scaled; apply Rdiv_lt_0_compat; [lra|apply Hh; exact He]).
    unfold body_form. apply lip_scal. unfold ufl_contact_residual. set (k := gamma_scaled gamma E (nth e h 0)) in *.
    apply lip_plus; [apply lip_scal_r, lip_scal, lip_body_stress|]. apply lip_scal_r.
    apply (lip_ext n (fun u => - (1) * Rmax (- (1) * ((stress_n e q u + k * (gap e q - value e q u)) * / k)) 0)).
    - intros u _. rewrite py_R_minus_scale by exact Hk. rewrite R_minus_min. unfold Rdiv. set (x := (stress_n e q u + k * (gap e q - value e q u)) * / k). unfold Rmin, Rmax. destruct (Rle_dec x 0), (Rle_dec (- (1) * x) 0); lra.
    - apply lip_scal, lip_pos, lip_scal, lip_scal_r, lip_plus; [apply lip_body_stress|]. apply lip_scal, lip_minus; [apply lip_const|apply lip_body_value].
  Qed.

  (** If the bulk and Dirichlet part is strongly monotone, beyond the stress term for theta
      other than -1, and Lipschitz, the driver's nonlinear system has exactly one solution. *)
  Theorem C125_exactly_one_solution :
    forall (n : nat) (alpha K : R),
      (forall v, length (form_vector v) = length v) ->
      (forall e q, (e < a_local asm)%nat -> (q < nq)%nat -> 0 <= ds e q) ->
      0 < alpha -> 0 <= K ->
      (forall u w, length u = n -> length w = n ->
         alpha * rsum n (fun d => nth d w 0 * nth d w 0) + (1 + theta) * (1 + theta) / 4 * body_contact_stress w <= applied (form_vector (moved u w 1)) w - applied (form_vector u) w) ->
      (forall u v, length u = n -> length v = n -> distance2 n (form_vector v) (form_vector u) <= K * distance2 n v u) ->
      exists u, length u = n /\ F u = repeat 0 n /\ forall u', length u' = n -> F u' = repeat 0 n -> u' = u.
  Proof.
    intros n alpha K LB HW Ha K0 ST LIP.
    set (FF := F). change (exists u, length u = n /\ FF u = repeat 0 n /\ forall u', length u' = n -> FF u' = repeat 0 n -> u' = u).
    assert (LF : forall v, length (FF v) = length v) by (intros v; exact (proj1 (C125_residual_is_form v v eq_refl (LB v)))).
    set (form := fun u v => rsum (a_local asm) (fun e => rsum nq (fun q => body_form u v e q))).
    assert (X : forall v w, length v = n -> length w = n -> applied (FF v) w = applied (form_vector v) w + form v w) by (intros v w Lv Lw; exact (proj2 (C125_residual_is_form v w ltac:(congruence) (LB v)))).
    set (unit_vector := fun d => map (fun k => if (k =? d)%nat then 1 else 0) (seq 0 n)).
    assert (LU : forall d, length (unit_vector d) = n) by (intros; unfold unit_vector; now rewrite map_length, seq_length).
    assert (AU : forall b d, length b = n -> (d < n)%nat -> applied b (unit_vector d) = nth d b 0).
    { intros b d Lb Hd. unfold applied. rewrite Lb, <- (rsum_delta n d (fun k => nth k b 0) Hd). apply rsum_ext. intros k Hk. unfold unit_vector. rewrite (nth_map_lt _ _ _ _ 0%nat) by (now rewrite seq_length). rewrite seq_nth by exact Hk. cbn [Nat.add]. ring. }
    destruct (lip_all n n (fun d u => form u (unit_vector d))) as (C & C0 & HC).
    { intros d _. unfold form. apply (lip_rsum n (a_local asm) (fun e u => _)). intros e He. apply (lip_rsum n nq (fun q u => _)). intros q _. now apply lip_body_form. }
    assert (EN : forall v d, length v = n -> (d < n)%nat -> nth d (FF v) 0 = nth d (form_vector v) 0 + form v (unit_vector d)).
    { intros v d Lv Hd. pose proof (X v (unit_vector d) Lv (LU d)) as E1. rewrite !AU in E1 by (rewrite ?LF, ?LB; auto). exact E1. }
    clearbody form.
    set (L := 2 * K + 2 * (INR n * (C * C * INR n))). assert (L0 : 0 <= L) by (unfold L; pose proof (pos_INR n); assert (0 <= INR n * (C * C * INR n)) by (apply Rmult_le_pos; [assumption|]; apply Rmult_le_pos; [apply Rle_0_sqr|assumption]); lra).
    set (fixed := fun _ : nat => false).
    assert (lip : forall u v, agree n fixed u v -> distance2 n (FF v) (FF u) <= L * distance2 n v u).
    { intros u v (Lu & Lv & _). set (c := fun d => form v (unit_vector d) - form u (unit_vector d)).
      assert (Q : distance2 n (FF v) (FF u) <= 2 * distance2 n (form_vector v) (form_vector u) + 2 * rsum n (fun d => c d * c d)).
      { unfold distance2. rewrite <- !rsum_scal, <- rsum_plus. apply rsum_le. intros d Hd. rewrite !EN by auto. set (b := nth d (form_vector v) 0 - nth d (form_vector u) 0).
        replace (nth d (form_vector v) 0 + form v (unit_vector d) - (nth d (form_vector u) 0 + form u (unit_vector d))) with (b + c d) by (unfold b, c; ring).
        assert (0 <= (b - c d) * (b - c d)) by apply Rle_0_sqr. lra. }
      assert (C2 : rsum n (fun d => c d * c d) <= INR n * (C * C * (INR n * distance2 n v u))).
      { rewrite <- rsum_const. apply rsum_le. intros d Hd. pose proof (HC d u v Hd Lu Lv) as B. cbv beta in B. fold (c d) in B. pose proof (change_pos n u v) as CP. pose proof (change_sq n u v) as CQ.
        assert (B0 : 0 <= C * change n u v) by (now apply Rmult_le_pos). assert (E1 : c d * c d = Rabs (c d) * Rabs (c d)) by (rewrite <- Rabs_mult; symmetry; apply Rabs_right, Rle_ge, Rle_0_sqr). rewrite E1.
        apply (Rle_trans _ (C * change n u v * (C * change n u v))); [apply Rmult_le_compat; auto using Rabs_pos|]. replace (C * change n u v * (C * change n u v)) with (C * C * (change n u v * change n u v)) by ring.
        apply Rmult_le_compat_l; [apply Rle_0_sqr|exact CQ]. }
      specialize (LIP u v Lu Lv). unfold L. lra. }
    assert (mono : forall u v, agree n fixed u v -> alpha * distance2 n v u <= rsum n (fun d => (nth d (FF v) 0 - nth d (FF u) 0) * (nth d v 0 - nth d u 0))).
    { intros u v (Lu & Lv & _). set (w := moved v u (-1)). assert (Lw : length w = n) by (unfold w; now rewrite moved_length).
      assert (Nw : forall k, nth k w 0 = nth k v 0 - nth k u 0) by (intros k; unfold w; rewrite nth_moved by congruence; ring).
      assert (MV : moved u w 1 = v) by (apply (nth_ext _ _ 0 0); [rewrite moved_length; congruence|]; intros k _; rewrite nth_moved, Nw by congruence; ring).
      specialize (ST u w Lu Lw). rewrite MV in ST. pose proof (C125_monotone u w ltac:(congruence) LB HW) as FC. cbv beta in FC. rewrite MV in FC. fold FF in FC.
      assert (E3 : rsum n (fun d => (nth d (FF v) 0 - nth d (FF u) 0) * (nth d v 0 - nth d u 0)) = applied (FF v) w - applied (FF u) w).
      { unfold applied. rewrite !LF, Lv, Lu, <- rsum_minus. apply rsum_ext. intros d _. rewrite Nw. ring. }
      assert (E4 : distance2 n v u = rsum n (fun d => nth d w 0 * nth d w 0)) by (apply rsum_ext; intros d _; now rewrite Nw).
      rewrite E3, E4. unfold FF. lra. }
    assert (ZF : forall u, length u = n -> (FF u = repeat 0 n <-> forall d, (d < n)%nat -> fixed d = false -> nth d (FF u) 0 = nth d (repeat 0 n) 0)).
    { intros u Lu. split; [now intros ->|]. intros H. apply (nth_ext' _ _ 0); [rewrite LF, repeat_length; exact Lu|]. intros d Hd. rewrite LF, Lu in Hd. now apply H. }
    destruct (iteration_converges n fixed FF (repeat 0 n) alpha L Ha L0 mono lip (repeat 0 n) (repeat_length _ _)) as (u & (Lu & _ & _) & SU). exists u. split; [exact Lu|]. split; [now apply ZF|].
    intros u' Lu' S'. symmetry. apply (iteration_unique n fixed FF (repeat 0 n) alpha Ha mono); [|exact SU|now apply ZF]. split; [exact Lu'|split; [exact Lu|]]. intros d _ Q. discriminate Q.
  Qed.
End System.
Print Assumptions C125_residual_is_form.
Print Assumptions C125_matrix_is_derivative.
Print Assumptions C125_monotone.
Print Assumptions C125_exactly_one_solution.

(** A rigid body that is the plane: the two drivers compute the same residual. *)
Theorem C125_agrees_with_plane :
  forall (pd : pack_data) (kd : kernel_data) (asm : assembly) (mu lmbda plane_loc E gamma theta : R) (h qp n_surf : list R) (rhs rhs' : kernel_fn) (junk junk' : geometry) (form_vector : list R -> list R)
    (u0 u1 : list R) (history : list (list R)) (u : list R),
    driver_setting pd kd asm -> kd_affine kd = true ->
    generate_rigid_surface_kernel Rhs kd junk true = Some rhs -> generate_rigid_surface_kernel Rhs kd junk' false = Some rhs' ->
    0 < gamma * E -> (forall e, (e < a_local asm)%nat -> 0 < nth e h 0) ->
    length n_surf = (a_local asm * (pd_nq pd * pd_gdim pd))%nat ->
    (forall e q a, (e < a_local asm)%nat -> (q < pd_nq pd)%nat -> (a < pd_gdim pd)%nat -> nth ((e * pd_nq pd + q) * pd_gdim pd + a)%nat n_surf 0 = if (S a =? pd_gdim pd)%nat then 1 else 0) ->
    length (form_vector u) = length u ->
    compute_residual pd asm E gamma theta rhs' form_vector u (after_packing pd asm mu lmbda h (g_vec pd asm plane_loc qp) n_surf u0 u1 (history ++ [u])) =
    assemble_residual pd asm mu lmbda plane_loc E gamma theta h qp rhs form_vector u u.
Proof.
  intros pd kd asm mu lmbda plane_loc E gamma theta h qp n_surf rhs rhs' junk junk' fv u0 u1 history u DS Haff E_rhs E_rhs' Hw Hh Lns HN Lf.
  pose proof (fun v Lv => C125_residual_is_form pd kd asm mu lmbda E gamma theta h (g_vec pd asm plane_loc qp) n_surf rhs' junk' fv DS E_rhs' Hw Hh (g_vec_length pd asm plane_loc qp) Lns u0 u1 history u v Lv Lf) as X. cbv beta in X.
  pose proof (fun v Lv => C122_residual_is_form pd kd asm mu lmbda plane_loc E gamma theta h qp rhs junk fv DS Haff E_rhs ltac:(lra) Hh u v Lv Lf) as Y. cbv beta in Y.
  set (A := compute_residual _ _ _ _ _ _ _ _ _) in *. set (B := assemble_residual _ _ _ _ _ _ _ _ _ _ _ _ _ _) in *.
  destruct (X u eq_refl) as [LA _]. destruct (Y u eq_refl) as [LB _].
  apply (nth_ext' _ _ 0); [congruence|]. intros d Hd. rewrite LA in Hd.
  set (v := map (fun k => if (k =? d)%nat then 1 else 0) (seq 0 (length u))).
  assert (Lv : length v = length u) by (unfold v; now rewrite map_length, seq_length).
  assert (AU : forall b, length b = length u -> applied b v = nth d b 0).
  { intros b Lb. unfold applied. rewrite Lb, <- (rsum_delta (length u) d (fun k => nth k b 0) Hd). apply rsum_ext. intros k Hk. unfold v. rewrite (nth_map_lt _ _ _ _ 0%nat) by (now rewrite seq_length). rewrite seq_nth by exact Hk. cbn [Nat.add]. ring. }
  destruct (X v Lv) as [_ XV]. destruct (Y v Lv) as [_ YV]. rewrite AU in XV, YV by assumption. rewrite XV, YV. f_equal. apply rsum_ext. intros e He. apply rsum_ext. intros q Hq.
  assert (DI : forall a, (a < pd_gdim pd)%nat -> into_body pd n_surf e q a = plane_normal (pd_gdim pd) a).
  { intros a Ha. unfold into_body. rewrite HN by assumption. unfold plane_normal. destruct (S a =? pd_gdim pd)%nat; ring. }
  assert (AL : forall x, along_body pd n_surf e q x = along_plane pd x) by (intros x; apply rsum_ext; intros a Ha; now rewrite DI).
  assert (GP : body_gap pd (g_vec pd asm plane_loc qp) n_surf e q = plane_gap plane_loc (nth ((e * pd_nq pd + q) * pd_gdim pd + (pd_gdim pd - 1))%nat qp 0)).
  { unfold body_gap. rewrite AL. unfold along_plane. pose proof (dr_gdim_pos _ _ _ DS) as Hg. rewrite (rsum_single _ (pd_gdim pd - 1)%nat); [|lia|].
    - unfold g_vec. rewrite C74_gap_plane by lia. unfold plane_normal, plane_gap. destruct (Nat.eqb_spec (S (pd_gdim pd - 1)) (pd_gdim pd)); [|lia]. ring.
    - intros a Ha N. unfold plane_normal. destruct (Nat.eqb_spec (S a) (pd_gdim pd)); [lia|ring]. }
  rewrite GP. unfold body_stress, body_value. rewrite !AL. reflexivity.
Qed.
Print Assumptions C125_agrees_with_plane.
