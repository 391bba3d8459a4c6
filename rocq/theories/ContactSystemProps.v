(** Property C78: the assembled contact matrix is the derivative of the assembled
    contact residual. *)
From Coq Require Import List Arith ZArith Lia Bool Reals Lra.
Import ListNotations.
From Verif Require Import Prelude PreludeLemmas RSum RealLemmas LayoutModel LayoutProps ContactProblemModel ContactProblemProps.
From Verif Require Import EntitiesModel PackingModel PackUProps AssemblyModel AssemblyProofs AssemblyProps RayModel KernelModel KernelProofs KernelSpec
  ContactKernelModel ContactKernelSpec ContactKernelProps FrictionKernelProps CoefficientsModel CoefficientsProps SystemSpec TieSystemModel TieSystemProofs TieSystemProps
  ContactSystemModel ContactSystemSpec ContactSystemProofs.
Local Open Scope R_scope.

(** ** Specification *)
(** crop_invalid_points replaces the contact map but not the packed data. *)
Definition no_crop {F D : Type} (c : @call F D) : Prop := match c with CallCrop _ => False | _ => True end.
(** The kernels in the list were generated for these kinds. *)
Definition generated (kd : kernel_data) : list kernel_type -> list kernel_fn -> Prop :=
  Forall2 (fun kind kernel => exists junk, generate_contact_kernel kind kd junk = Some kernel).
(** Point [q] is not at a switch between open and closed, stick and slip. *)
Definition off_kinks (law : friction_law) (kd : kernel_data) (coords : list R) (f : nat) (row constants : list R) (q : nat) : Prop :=
  contact_indicator kd coords f row constants q <> 0 /\
  match law with
  | Frictionless => True
  | Tresca => off_tresca_kink kd coords f row constants q /\ unit_normal kd row q
  | Coulomb => off_coulomb_kink kd coords f row constants q /\ unit_normal kd row q
  end.

(** ** Loops *)
Section Loops.
  Context (dir : list R) (d bs : nat) (w : list R) (cstride : nat).
  Definition kernel_pair (a : assembly) (cf : R -> list R) (rhs jac : kernel_fn) : Prop :=
    kernel_local (fun n => n + 1)%nat rhs /\ kernel_local (fun n => 3 * n + 1)%nat jac /\
    forall i, (i < a_local a)%nat ->
      element_derivative (a_ndofs a) (a_bs a) (length (links_of a i))
        (fun t => facet_result a rhs (cf t) cstride w (a_max_links a + 1) (a_bs a * a_ndofs a) i)
        (facet_result a jac (cf 0) cstride w (3 * a_max_links a + 1) (a_bs a * a_ndofs a * a_bs a * a_ndofs a) i)
        (restrict a dir (nth (2 * i) (a_active a) 0%nat)) (fun k => restrict a dir (nth k (links_of a i) 0%nat)).

  Lemma matrix_times_app A B u : matrix_times bs (A ++ B) u d = matrix_times bs A u d + matrix_times bs B u d.
  Proof. unfold matrix_times. apply lsum_app. Qed.

  Lemma kernels_derivative a cf vks mks (b : R -> list R) out :
    well_formed a -> (forall i c, (i < a_local a)%nat -> In c (nth (2 * i) (a_active a) 0%nat :: links_of a i) -> length (a_dofs a c) = a_ndofs a) -> a_bs a = bs ->
    Forall2 (kernel_pair a cf) vks mks ->
    (forall t, (d < length (b t))%nat) -> derivable_pt_lim (fun t => nth d (b t) 0) 0 (matrix_times bs out dir d) ->
    (forall t, (d < length (for_each vks (fun kernel b => assemble_vector a kernel (cf t) cstride w b) (b t)))%nat) /\
    derivable_pt_lim (fun t => nth d (for_each vks (fun kernel b => assemble_vector a kernel (cf t) cstride w b) (b t)) 0) 0
      (matrix_times bs (for_each mks (fun kernel out => out ++ assemble_matrix a kernel (cf 0) cstride w) out) dir d).
  Proof.
    intros HW HD Hbs HF. revert b out. induction HF as [|rhs jac vks mks (HR & HJ & HE) HF IH]; intros b out Hd Hb; [split; auto|].
    unfold for_each. cbn [fold_left]. fold (for_each mks (fun kernel out => out ++ assemble_matrix a kernel (cf 0) cstride w) (out ++ assemble_matrix a jac (cf 0) cstride w)).
    apply (IH (fun t => assemble_vector a rhs (cf t) cstride w (b t))).
    - intros t. destruct (C20_assemble_vector a rhs (cf t) cstride w (b t) HR HW) as [-> _]. apply Hd.
    - rewrite matrix_times_app. rewrite <- Hbs at 2. apply assembled_derivative; auto.
  Qed.

  Lemma pairs_derivative n (asm : nat -> assembly) (cf : nat -> R -> list R) vks mks (b : list R) :
    (forall i, (i < n)%nat -> well_formed (asm i) /\
       (forall e c, (e < a_local (asm i))%nat -> In c (nth (2 * e) (a_active (asm i)) 0%nat :: links_of (asm i) e) -> length (a_dofs (asm i) c) = a_ndofs (asm i)) /\ a_bs (asm i) = bs /\
       Forall2 (kernel_pair (asm i) (cf i)) vks mks) ->
    (d < length b)%nat ->
    (forall t, (d < length (for_loop n (fun i b => for_each vks (fun kernel b => assemble_vector (asm i) kernel (cf i t) cstride w b) b) b))%nat) /\
    derivable_pt_lim (fun t => nth d (for_loop n (fun i b => for_each vks (fun kernel b => assemble_vector (asm i) kernel (cf i t) cstride w b) b) b) 0) 0
      (matrix_times bs (for_loop n (fun i out => for_each mks (fun kernel out => out ++ assemble_matrix (asm i) kernel (cf i 0) cstride w) out) []) dir d).
  Proof.
    intros H Hd. induction n as [|n IH].
    - split; [intros t; exact Hd|]. exact (derivable_const (nth d b 0) 0).
    - destruct IH as [L D]; [intros i Hi; apply H; lia|]. destruct (H n ltac:(lia)) as (HW & HD & Hbs & HF).
      destruct (kernels_derivative (asm n) (cf n) vks mks (fun t => for_loop n (fun i b => for_each vks (fun kernel b => assemble_vector (asm i) kernel (cf i t) cstride w b) b) b)
        (for_loop n (fun i out => for_each mks (fun kernel out => out ++ assemble_matrix (asm i) kernel (cf i 0) cstride w) out) []) HW HD Hbs HF L D) as [L' D'].
      split; [intros t; rewrite for_loop_S; apply L'|]. rewrite for_loop_S. eapply derivable_ext; [intros t; rewrite for_loop_S; reflexivity|]. exact D'.
  Qed.
End Loops.

(** ** Arrays *)
Lemma nth_concat (M : list (list R)) n m e c : shape M n m -> (e < n)%nat -> (c < m)%nat -> nth (e * m + c) (concat M) 0 = at2 M e c.
Proof.
  intros [H1 H2]. revert n e H1 H2. induction M as [|r M IH]; intros n e H1 H2 He Hc; [cbn in H1; lia|]. cbn [concat].
  pose proof (H2 0%nat ltac:(lia)) as Lr. cbn [nth] in Lr. destruct e as [|e].
  - cbn [Nat.mul Nat.add]. rewrite app_nth1 by lia. reflexivity.
  - rewrite app_nth2 by (rewrite Lr; lia). replace (S e * m + c - length r)%nat with (e * m + c)%nat by (rewrite Lr; lia).
    rewrite (IH (pred n)); [reflexivity|cbn in H1; lia| |lia|exact Hc]. intros k Hk. apply (H2 (S k)). lia.
Qed.
Lemma rows_of_shape n p : shape (rows_of n p) n (snd p).
Proof.
  unfold rows_of. split; [now rewrite map_length, seq_length|]. intros r Hr. rewrite (nth_map_lt _ (seq 0 n) r [] 0%nat) by now rewrite seq_length. now rewrite map_length, seq_length.
Qed.
Lemma at2_rows_of n p r c : (r < n)%nat -> (c < snd p)%nat -> at2 (rows_of n p) r c = nth (r * snd p + c) (fst p) 0.
Proof.
  intros Hr Hc. unfold at2, rows_of. rewrite (nth_map_lt _ (seq 0 n) r [] 0%nat) by now rewrite seq_length. rewrite seq_nth by auto.
  rewrite (nth_map_lt _ (seq 0 (snd p)) c 0 0%nat) by now rewrite seq_length. now rewrite seq_nth.
Qed.

(** ** The object *)
Section Object.
  Context {G : Type} (pd : pack_data) (kd : kernel_data) (num_pairs : nat) (surfaces : nat -> tie_pair) (basis : G -> (nat -> list Z) -> nat -> nat -> nat -> R)
    (num_rows : nat -> nat) (move : G -> list R -> G) (detect : G -> nat -> list Z) (pack_gap pack_normals : nat -> G -> (nat -> list Z) -> list (list R))
    (pack_param : nat -> list R -> list (list R)) (pack_h : nat -> list (list R)).
  Notation nq := (pd_nq pd).
  Notation nd := (pd_functions pd).
  Notation bs := (pd_bs pd).
  Notation gdim := (pd_gdim pd).
  Notation after := (contact_after pd num_pairs surfaces basis num_rows move detect pack_gap pack_normals pack_param pack_h).
  Notation updated := (contact_updated pd num_pairs surfaces basis num_rows).
  Notation pairs s := (pair_at pd surfaces basis (cp_geom s) (cp_map s)).
  Notation strides := (contact_kernel_strides nq nd gdim gdim nq).
  Notation kd' := (with_strides kd strides).
  Notation NC := (stride pd).
  Notation row s i e := (slice (concat (nth i (cp_coeffs s) [])) (e * NC) NC).

  Lemma map_detected g calls : Forall no_crop calls -> cp_map (after g calls) = detect (cp_geom (after g calls)).
  Proof.
    intros H. unfold contact_after, run_calls.
    match goal with |- cp_map (fold_left ?st calls ?s0) = _ => enough (X : forall s, cp_map s = detect (cp_geom s) -> cp_map (fold_left st calls s) = detect (cp_geom (fold_left st calls s))) by (apply X; reflexivity) end.
    induction H as [|c calls Hc _ IH]; intros s Hs; cbn [fold_left]; [exact Hs|]. apply IH.
    assert (U : forall pu pg po n l q f di du (t : @cp_state G (nat -> list Z)), cp_map t = detect (cp_geom t) -> cp_map (update_data pu pg po n l q f di du t) = detect (cp_geom (update_data pu pg po n l q f di (du : list R) t))).
    { intros. unfold update_data. destruct (cp_ready t); assumption. }
    destruct c as [dc ga th|du|u|ga th|dm]; cbn [do_call no_crop] in *.
    - unfold generate. destruct (material_keys dc); [|exact Hs]. cbv zeta. destruct (d_du dc); [apply U|]; reflexivity.
    - now apply U.
    - unfold update_detection. destruct (cp_ready s); reflexivity.
    - unfold update_nitsche. destruct (cp_consts s); exact Hs.
    - contradiction.
  Qed.
  Lemma latest_is_current (h : @history G) (calls : list (@call (list R) (nat -> list Z))) :
    (forall cur old, h_latest h = Some (cur, old) -> cur = h_geom h) -> forall cur old, h_latest (fold_left (hist_step move) calls h) = Some (cur, old) -> cur = h_geom (fold_left (hist_step move) calls h).
  Proof.
    revert h. induction calls as [|c calls IH]; intros h H; cbn [fold_left]; [exact H|]. apply IH. destruct c as [dc ga th|du|u|ga th|dm]; cbn [hist_step]; auto.
    - destruct (_ && _); [|exact H]. cbn [h_latest h_geom]. intros cur old. destruct (h_latest h) as [[c o]|]; intros E; now injection E.
    - cbn [h_latest h_geom]. intros cur old. destruct (h_latest h) as [[c o]|]; intros E; [now injection E|discriminate].
  Qed.

  Section State.
    Context (g : G) (calls : list (@call (list R) (nat -> list Z))).
    Notation s := (after g calls).
    Context (HC : Forall no_crop calls) (HR : cp_ready s = true) (HL : forall i, (num_local surfaces i <= num_rows i)%nat).
    Context (TS : tie_setting pd kd num_pairs (pairs s) nq) (Hg : bs = gdim).
    Context (i : nat) (Hi : (i < num_pairs)%nat).
    Notation asm := (pr_asm (pairs s i)).
    Notation PS := (ts_pairs _ _ _ _ _ TS i Hi).
    Notation T := (ts_tables _ _ _ _ _ TS).
    Context (e : nat) (He : (e < a_local asm)%nat).
    Notation cell := (nth (2 * e) (a_active asm) 0%nat).
    Notation f := (nth (2 * e + 1) (a_active asm) 0%nat).

    Lemma state_reachable : reachable move detect pack_gap pack_normals (cp_pack_test pd surfaces basis) (cp_pack_u pd surfaces num_rows) (cp_pack_grad pd surfaces num_rows) (cp_pack_u_opp pd surfaces basis) pack_param pack_h
      num_pairs num_rows (num_local surfaces) nq nd gdim s.
    Proof. exists g, calls. reflexivity. Qed.
    Lemma e_row : (e < num_rows i)%nat.
    Proof. specialize (HL i). cbn [pair_at pr_asm with_map a_local] in He. unfold num_local in HL. lia. Qed.
    Lemma state_shape du : shape (nth i (cp_coeffs (updated du s)) []) (num_rows i) NC.
    Proof.
      pose proof (run_shapes move detect pack_gap pack_normals (cp_pack_test pd surfaces basis) (cp_pack_u pd surfaces num_rows) (cp_pack_grad pd surfaces num_rows) (cp_pack_u_opp pd surfaces basis) pack_param pack_h
        num_pairs num_rows (num_local surfaces) nq nd gdim g calls) as H.
      apply (update_data_shapes (cp_pack_u pd surfaces num_rows) (cp_pack_grad pd surfaces num_rows) (cp_pack_u_opp pd surfaces basis) num_pairs num_rows (num_local surfaces) nq nd gdim du) in H.
      unfold shapes in H. change (update_data _ _ _ _ _ _ _ _ du _) with (updated du s) in H.
      assert (R1 : cp_ready (updated du s) = true) by (unfold contact_updated, update_data; rewrite HR; reflexivity). rewrite R1 in H. destruct H as [_ H]. specialize (H i Hi).
      destruct (columns_eq nq nd gdim) as (_ & _ & _ & _ & _ & _ & E & _). unfold stride, numcoeffs, ml. rewrite E. exact H.
    Qed.
    Lemma row_entry du c : (c < NC)%nat -> nth c (row (updated du s) i e) 0 = ContactProblemProps.entry (updated du s) i e c.
    Proof. intros Hc. rewrite nth_slice by auto. apply (nth_concat _ (num_rows i) NC); auto using state_shape, e_row. Qed.
    Lemma row_overflow du c : (NC <= c)%nat -> nth c (row (updated du s) i e) 0 = 0.
    Proof. intros Hc. apply nth_overflow. unfold slice. rewrite firstn_length. lia. Qed.
    Lemma column_offset k x : (offsets kd' k + x)%nat = column nq nd gdim k x.
    Proof. reflexivity. Qed.
    Lemma column_bound k x : (k < 8)%nat -> (x < nth k strides 0)%nat -> (column nq nd gdim k x < NC)%nat.
    Proof.
      intros Hk Hx. unfold column, kernel_block, kernel_offsets. cbn [fst]. change NC with (sum_nat strides).
      pose proof (psums_step strides k Hk). pose proof (psums_mono strides (S k) (length strides) ltac:(cbn [length contact_kernel_strides]; lia) ltac:(lia)). rewrite psums_last in *. lia.
    Qed.

    Lemma stride_q u : snd (tie_q pd surfaces i u) = (nq * gdim)%nat.
    Proof. unfold tie_q, pack_coefficient_quadrature, num_active_entities, value_size. cbn [packed snd]. rewrite (ts_vs _ _ _ _ _ TS), Hg. ring. Qed.
    Lemma stride_grad u : snd (tie_grad_q pd surfaces i u) = (nq * gdim * gdim)%nat.
    Proof. unfold tie_grad_q, pack_gradient_quadrature, num_active_entities, value_size. rewrite (ts_transforms _ _ _ _ _ TS). cbn [packed snd]. rewrite (ts_vs _ _ _ _ _ TS), Hg. ring. Qed.
    Lemma at_opp u x : (x < nq * gdim)%nat -> at2 (cp_pack_u_opp pd surfaces basis i (cp_geom s) (cp_map s) u) e x = nth (e * (nq * gdim) + x) (fst (tie_opp pd (pairs s) i u)) 0.
    Proof. intros Hx. unfold cp_pack_u_opp. rewrite at2_rows_of; [| exact He |]; unfold tie_opp; cbn [snd]; rewrite Hg; auto. Qed.

    (** The blocks of a row. *)
    Lemma row_u u q n : (q < nq)%nat -> (n < gdim)%nat ->
      nth (offsets kd' 4 + gdim * q + n) (row (updated u s) i e) 0 = rsum nd (fun j => kd_phi kd (kd_qp_offsets kd f + q) j * restrict asm u cell j n).
    Proof.
      intros Hq Hn. pose proof (idx2_lt q n nq gdim Hq Hn) as B. destruct (C49_update_contact_data move detect pack_gap pack_normals _ _ _ _ pack_param pack_h num_pairs num_rows _ nq nd gdim s u state_reachable HR) as (_ & _ & _ & _ & H).
      destruct (H i e Hi e_row) as (H4 & _). rewrite <- Nat.add_assoc, column_offset, row_entry by (apply column_bound; [lia|cbn [nth contact_kernel_strides]; lia]).
      rewrite H4 by lia. unfold cp_pack_u. rewrite at2_rows_of; [|apply e_row|rewrite stride_q; lia]. rewrite stride_q.
      assert (Hn' : (n < bs)%nat) by (rewrite Hg; exact Hn).
      rewrite <- (row_value_q pd kd num_pairs (pairs s) nq TS i Hi e He u q n Hq Hn'). rewrite Hg. apply f_equal3; [lia|reflexivity|reflexivity].
    Qed.
    Lemma row_grad u q a b : (q < nq)%nat -> (a < gdim)%nat -> (b < gdim)%nat ->
      nth (offsets kd' 5 + q * gdim * gdim + (a * gdim + b)) (row (updated u s) i e) 0 =
      rsum nd (fun j => phys_grad kd' (coordinates_of asm cell) f q j b * restrict asm u cell j a) + at2 (nth i (ContactProblemModel.cp_grad s) []) e (q * gdim * gdim + (a * gdim + b)).
    Proof.
      intros Hq Ha Hb. pose proof (idx2_lt (q * gdim + a) b (nq * gdim) gdim (idx2_lt q a nq gdim Hq Ha) Hb) as B.
      destruct (C49_update_contact_data move detect pack_gap pack_normals _ _ _ _ pack_param pack_h num_pairs num_rows _ nq nd gdim s u state_reachable HR) as (_ & _ & _ & _ & H).
      destruct (H i e Hi e_row) as (_ & H5 & _). rewrite <- Nat.add_assoc, column_offset, row_entry by (apply column_bound; [lia|cbn [nth contact_kernel_strides]; nia]).
      rewrite H5; [|unfold cp_pack_grad; pose proof (rows_of_shape (num_rows i) (tie_grad_q pd surfaces i u)) as S; rewrite stride_grad in S; exact S|nia]. f_equal.
      unfold cp_pack_grad. rewrite at2_rows_of; [|apply e_row|rewrite stride_grad; nia]. rewrite stride_grad.
      assert (Ha' : (a < bs)%nat) by (rewrite Hg; exact Ha).
      change (phys_grad kd' (coordinates_of asm cell) f q) with (phys_grad kd (coordinates_of asm cell) f q).
      rewrite <- (row_value_grad pd kd num_pairs (pairs s) nq TS i Hi e He u q a b Hq Ha' Hb). rewrite Hg. apply f_equal3; [nia|reflexivity|reflexivity].
    Qed.
    Lemma row_frame u c : (c < offsets kd' 4)%nat \/ (offsets kd' 7 <= c)%nat -> (c < NC)%nat -> nth c (row (updated u s) i e) 0 = ContactProblemProps.entry s i e c.
    Proof.
      intros Hc HN. destruct (C49_update_contact_data move detect pack_gap pack_normals _ _ _ _ pack_param pack_h num_pairs num_rows _ nq nd gdim s u state_reachable HR) as (_ & _ & _ & _ & H).
      destruct (H i e Hi e_row) as (_ & _ & _ & H7). rewrite row_entry by auto. apply H7; [exact HN|]. rewrite <- !column_offset, !Nat.add_0_r. exact Hc.
    Qed.
    Lemma test_entry q k j n : (q < nq)%nat -> (k < nq)%nat -> (j < nd)%nat -> (n < gdim)%nat ->
      let x := (k * nq * nd * gdim + (j * nq * gdim + (q * gdim + n)))%nat in
      (column nq nd gdim 3 x < offsets kd' 4)%nat /\ (column nq nd gdim 3 x < NC)%nat /\ ContactProblemProps.entry s i e (column nq nd gdim 3 x) = packed_test pd (pairs s) nq i e k j q n.
    Proof.
      intros Hq Hk Hj Hn x. pose proof (idx4_lt k j q n nq nd nq gdim Hk Hj Hq Hn) as B.
      destruct (run_inv move detect pack_gap pack_normals (cp_pack_test pd surfaces basis) (cp_pack_u pd surfaces num_rows) (cp_pack_grad pd surfaces num_rows) (cp_pack_u_opp pd surfaces basis) pack_param pack_h
        num_pairs num_rows (num_local surfaces) nq nd gdim HL g calls) as (_ & EG & I). change (run_calls _ _ _ _ _ _ _ _ _ _ _ _ _ _ _ _ g calls) with s in EG, I.
      destruct (h_latest (history_of move g calls)) as [[cur old]|] eqn:EL; [|rewrite HR in I; discriminate]. destruct I as [_ I].
      assert (EC : cur = cp_geom s) by (rewrite EG; apply (latest_is_current (mkH g None) calls) with (old := old); [discriminate|exact EL]).
      destruct (I i e Hi He) as [_ I3]. assert (Ex : x = (((k * nd + j) * nq + q) * gdim + n)%nat) by (unfold x; ring).
      assert (Bx : (x < nq * gdim * nq * nd)%nat) by (rewrite Ex; nia).
      split; [|split].
      - unfold column, kernel_block, kernel_offsets. cbn [fst]. pose proof (psums_step strides 3 ltac:(cbn [length contact_kernel_strides]; lia)) as P. cbn [nth contact_kernel_strides] in P. unfold offsets. cbn [with_strides kd_cstrides]. nia.
      - apply column_bound; [lia|cbn [nth contact_kernel_strides]; nia].
      - rewrite (I3 x Bx), EC, <- (map_detected g calls HC). unfold cp_pack_test, packed_test. rewrite Hg.
        assert (S3 : snd (tie_test_pack pd (pairs s) nq i) = (nq * nq * nd * gdim)%nat) by (unfold tie_test_pack, len_test; cbn [snd]; now rewrite Hg).
        rewrite at2_rows_of; [|exact He|rewrite S3; nia]. rewrite S3. apply f_equal3; [|reflexivity|reflexivity]. rewrite Ex. ring.
    Qed.
    Lemma contact_test_column row q k j n : contact_test kd' f row q k j n = nth (column nq nd gdim 3 (k * nq * nd * gdim + (j * nq * gdim + (q * gdim + n)))) row 0.
    Proof.
      unfold contact_test. change (num_points kd' f) with (num_points kd f). cbn [with_strides kd_ndofs kd_bs]. rewrite (st_points _ _ T), (st_ndofs _ _ T), (st_bs _ _ T).
      rewrite <- !Nat.add_assoc, Hg. now rewrite column_offset.
    Qed.
    Lemma row_test u q k j n : (q < nq)%nat -> (k < nq)%nat -> (j < nd)%nat -> (n < gdim)%nat -> contact_test kd' f (row (updated u s) i e) q k j n = packed_test pd (pairs s) nq i e k j q n.
    Proof. intros Hq Hk Hj Hn. destruct (test_entry q k j n Hq Hk Hj Hn) as (B4 & BN & E). now rewrite contact_test_column, row_frame by auto. Qed.
    Lemma row_test_stored q k j n : (q < nq)%nat -> (k < nq)%nat -> (j < nd)%nat -> (n < gdim)%nat -> contact_test kd' f (row s i e) q k j n = packed_test pd (pairs s) nq i e k j q n.
    Proof.
      intros Hq Hk Hj Hn. destruct (test_entry q k j n Hq Hk Hj Hn) as (_ & BN & E). rewrite contact_test_column, nth_slice by exact BN. rewrite <- E. apply (nth_concat _ (num_rows i) NC); auto using e_row.
      pose proof (run_shapes move detect pack_gap pack_normals (cp_pack_test pd surfaces basis) (cp_pack_u pd surfaces num_rows) (cp_pack_grad pd surfaces num_rows) (cp_pack_u_opp pd surfaces basis) pack_param pack_h
        num_pairs num_rows (num_local surfaces) nq nd gdim g calls) as H. unfold shapes in H. change (run_calls _ _ _ _ _ _ _ _ _ _ _ _ _ _ _ _ g calls) with s in H. rewrite HR in H. destruct H as [_ H]. specialize (H i Hi).
      destruct (columns_eq nq nd gdim) as (_ & _ & _ & _ & _ & _ & E7 & _). unfold stride, numcoeffs, ml. rewrite E7. exact H.
    Qed.
    Lemma row_links q : In q (points_of asm e) -> (q < nq)%nat /\ (length (links_of asm e) <= nq)%nat.
    Proof. intros Hp. destruct (point_found pd kd num_pairs (pairs s) nq TS i Hi e He q Hp) as (Hq & _ & ->). split; [exact Hq|]. apply (se_links _ _ _ PS e He). Qed.
    Lemma row_opp u q n : In q (points_of asm e) -> (n < gdim)%nat ->
      nth (offsets kd' 6 + q * gdim + n) (row (updated u s) i e) 0 = rsum (length (links_of asm e)) (fun k => rsum nd (fun j => packed_test pd (pairs s) nq i e k j q n * restrict asm u (nth k (links_of asm e) 0%nat) j n)).
    Proof.
      intros Hp Hn. destruct (row_links q Hp) as [Hq _]. pose proof (idx2_lt q n nq gdim Hq Hn) as B. destruct (C49_update_contact_data move detect pack_gap pack_normals _ _ _ _ pack_param pack_h num_pairs num_rows _ nq nd gdim s u state_reachable HR) as (_ & _ & _ & _ & H).
      destruct (H i e Hi e_row) as (_ & _ & H6 & _). rewrite <- Nat.add_assoc, column_offset, row_entry by (apply column_bound; [lia|cbn [nth contact_kernel_strides]; lia]).
      rewrite H6 by lia. assert (Hel : (e < num_local surfaces i)%nat) by exact He. destruct (Nat.ltb_spec e (num_local surfaces i)); [|lia].
      rewrite at_opp by lia. assert (Hn' : (n < bs)%nat) by (rewrite Hg; exact Hn).
      rewrite <- (row_value_opp pd kd num_pairs (pairs s) nq TS i Hi e He u q n Hp Hn'). rewrite Hg. apply f_equal3; [lia|reflexivity|reflexivity].
    Qed.

    Context (u w : list R) (Huw : length w = length u).
    Notation W := (restrict asm w cell).
    Notation Wo := (fun k => restrict asm w (nth k (links_of asm e) 0%nat)).
    Notation C := (fun t => row (updated (moved u w t) s) i e).
    Lemma object_line : contact_line kd' (coordinates_of asm cell) f C (length (links_of asm e)) (points_of asm e) W Wo.
    Proof.
      intros t. split.
      - intros c Hc. destruct (Nat.lt_ge_cases c NC) as [L|L]; [now rewrite !row_frame|now rewrite !row_overflow].
      - assert (M : forall c j l, restrict asm (moved u w t) c j l = restrict asm (moved u w 0) c j l + t * restrict asm w c j l) by (intros; rewrite !restrict_moved by auto; ring).
        constructor; cbn [with_strides kd_gdim kd_ndofs kd_bs kd_phi kd_qp_offsets]; rewrite ?(st_gdim _ _ T), (st_ndofs _ _ T), ?(st_bs _ _ T), ?Hg; cbv zeta.
        + intros q n Hp Hn. destruct (row_links q Hp) as [Hq _]. rewrite !row_u by auto. rewrite <- rsum_scal, <- rsum_plus. apply rsum_ext. intros j _. rewrite M. ring.
        + intros q a b Hp Ha Hb. destruct (row_links q Hp) as [Hq _]. rewrite !row_grad by auto.
          rewrite (rsum_ext nd _ (fun j => phys_grad kd' (coordinates_of asm cell) f q j b * restrict asm (moved u w 0) cell j a + t * (phys_grad kd' (coordinates_of asm cell) f q j b * W j a))) by (intros j _; rewrite M; ring).
          rewrite rsum_plus, rsum_scal. ring.
        + intros q n Hp Hn. destruct (row_links q Hp) as [Hq Hl]. rewrite !row_opp by auto. rewrite <- rsum_scal, <- rsum_plus. apply rsum_ext. intros k Hk. rewrite <- rsum_scal, <- rsum_plus. apply rsum_ext. intros j Hj.
          rewrite (row_test (moved u w 0)) by (auto; lia). rewrite M. ring.
    Qed.
    Lemma object_layout : contact_layout kd' f (length (links_of asm e)) (points_of asm e).
    Proof.
      exists nq. change (num_points kd' f) with (num_points kd f). cbn [with_strides kd_cstrides kd_gdim kd_ndofs kd_bs]. rewrite (st_points _ _ T), (st_gdim _ _ T), (st_ndofs _ _ T), (st_bs _ _ T), Hg.
      split; [|split; [unfold contact_kernel_strides; repeat (f_equal; try ring)|intros q Hp; apply (row_links q Hp)]].
      destruct (pair_well_formed pd kd num_pairs (pairs s) nq TS i Hi) as (_ & _ & H). specialize (H e He). now rewrite (se_ml _ _ _ PS) in H.
    Qed.
    Lemma object_one_link : contact_one_link kd' f (C 0) (length (links_of asm e)) (points_of asm e).
    Proof.
      intros q Hp. destruct (row_links q Hp) as [Hq Hl]. destruct (point_link pd kd num_pairs (pairs s) nq TS i Hi e He q Hp) as (k0 & _ & H & _).
      exists k0. cbn [with_strides kd_ndofs kd_bs]. rewrite (st_ndofs _ _ T), (st_bs _ _ T). intros k j n Hk Hne Hj Hn. rewrite row_test by (auto; lia).
      rewrite H by auto. destruct (Nat.eqb_spec k k0); [contradiction|reflexivity].
    Qed.
  End State.

  (** ** C78 *)
  Theorem C78_matrix_is_derivative :
    forall (law : friction_law) (g : G) (calls : list (@call (list R) (nat -> list Z))) (u w b : list R) (vector_kernels matrix_kernels : list kernel_fn) (d : nat),
    let s := after g calls in
    Forall no_crop calls -> cp_ready s = true -> (forall i, (num_local surfaces i <= num_rows i)%nat) ->
    tie_setting pd kd num_pairs (pairs s) nq -> bs = gdim -> length w = length u ->
    generated kd' (vector_kinds law) vector_kernels -> generated kd' (matrix_kinds law) matrix_kernels ->
    (forall i e q, (i < num_pairs)%nat -> let asm := pr_asm (pairs s i) in (e < a_local asm)%nat -> In q (points_of asm e) ->
       off_kinks law kd' (coordinates_of asm (nth (2 * e) (a_active asm) 0%nat)) (nth (2 * e + 1) (a_active asm) 0%nat) (row (updated u s) i e) (constants_of s) q) ->
    (d < length b)%nat ->
    derivable_pt_lim (fun t => nth d (contact_vector pd num_pairs surfaces basis vector_kernels (updated (moved u w t) s) b) 0) 0
      (matrix_times gdim (contact_matrix pd num_pairs surfaces basis matrix_kernels (updated u s)) w d).
  Proof.
    intros law g calls u w b vks mks d s HC HR HL TS Hg Huw Hv Hm HK Hd.
    assert (E0 : moved u w 0 = u).
    { apply (nth_ext _ _ 0 0); [apply moved_length|]. intros n _. rewrite nth_moved by auto. ring. }
    assert (U : forall v, cp_geom (updated v s) = cp_geom s /\ cp_map (updated v s) = cp_map s /\ constants_of (updated v s) = constants_of s).
    { intros v. unfold constants_of, contact_updated, update_data. rewrite HR. auto. }
    assert (Hgd : (gdim <= 3)%nat \/ num_pairs = 0%nat).
    { destruct num_pairs eqn:En; [auto|left]. apply (se_gdim3 _ _ _ (ts_pairs _ _ _ _ _ TS 0%nat ltac:(lia))). }
    destruct (pairs_derivative w d gdim (constants_of s) NC num_pairs (fun i => pr_asm (pairs s i)) (fun i t => concat (nth i (cp_coeffs (updated (moved u w t) s)) [])) vks mks b) as [_ D]; [|exact Hd|].
    - intros i Hi. pose proof (ts_pairs _ _ _ _ _ TS i Hi) as PS. split; [apply (pair_well_formed pd kd num_pairs (pairs s) nq TS i Hi)|].
      split; [intros e c _ _; apply (pair_dofs pd kd num_pairs (pairs s) nq TS i Hi)|]. split; [rewrite <- Hg; apply (se_bs _ _ _ PS)|].
      assert (G3 : (gdim <= 3)%nat) by (destruct Hgd; [auto|lia]). pose proof (ts_tables _ _ _ _ _ TS) as T.
      assert (Hnd : a_ndofs (pr_asm (pairs s i)) = kd_ndofs kd') by (cbn [with_strides kd_ndofs]; rewrite (st_ndofs _ _ T); apply (se_ndofs _ _ _ PS)).
      assert (Hbs : a_bs (pr_asm (pairs s i)) = kd_bs kd') by (cbn [with_strides kd_bs]; rewrite (st_bs _ _ T); apply (se_bs _ _ _ PS)).
      assert (Hgk : kd_bs kd' = kd_gdim kd') by (cbn [with_strides kd_bs kd_gdim]; now rewrite (st_bs _ _ T), (st_gdim _ _ T)).
      assert (G3' : (kd_gdim kd' <= 3)%nat) by (cbn [with_strides kd_gdim]; now rewrite (st_gdim _ _ T)).
      assert (Hll : forall e, (e < a_local (pr_asm (pairs s i)))%nat -> (length (links_of (pr_asm (pairs s i)) e) <= a_max_links (pr_asm (pairs s i)))%nat) by apply (pair_well_formed pd kd num_pairs (pairs s) nq TS i Hi).
      assert (LR : forall k r, In k [Rhs; TrescaRhs; CoulombRhs] -> (exists junk, generate_contact_kernel k kd' junk = Some r) -> kernel_local (fun n => n + 1)%nat r).
      { intros k r Hk [junk E]. destruct (C68_contact_kernels_local kd' junk) as [X _]. destruct (X k Hk) as (r' & E' & L). congruence. }
      assert (LJ : forall k r, In k [Jac; TrescaJac; CoulombJac] -> (exists junk, generate_contact_kernel k kd' junk = Some r) -> kernel_local (fun n => 3 * n + 1)%nat r).
      { intros k r Hk [junk E]. destruct (C68_contact_kernels_local kd' junk) as [_ X]. destruct (X k Hk) as (r' & E' & L). congruence. }
      assert (K0 : forall e q, (e < a_local (pr_asm (pairs s i)))%nat -> In q (points_of (pr_asm (pairs s i)) e) -> off_kinks law kd' (coordinates_of (pr_asm (pairs s i)) (nth (2 * e) (a_active (pr_asm (pairs s i))) 0%nat)) (nth (2 * e + 1) (a_active (pr_asm (pairs s i))) 0%nat) (row (updated (moved u w 0) s) i e) (constants_of s) q).
      { intros e q He Hq. rewrite E0. now apply HK. }
      assert (KP1 : forall r m, (exists junk, generate_contact_kernel Rhs kd' junk = Some r) -> (exists junk, generate_contact_kernel Jac kd' junk = Some m) ->
        kernel_pair w (constants_of s) NC (pr_asm (pairs s i)) (fun t => concat (nth i (cp_coeffs (updated (moved u w t) s)) [])) r m).
      { intros r m Er Em. split; [apply (LR Rhs); cbn [In]; auto|]. split; [apply (LJ Jac); cbn [In]; auto|]. destruct Er as [j1 Er], Em as [j2 Em]. intros e He.
        apply (unbiased_element kd' (pr_asm (pairs s i)) (fun t => concat (nth i (cp_coeffs (updated (moved u w t) s)) [])) NC (constants_of s) w e Hnd Hbs (Hll e He) Hgk
          (object_layout g calls TS Hg i Hi e He) (object_line g calls HC HR HL TS Hg i Hi e He u w Huw) (object_one_link g calls HC HR HL TS Hg i Hi e He u w Huw) j1 j2 r m Er Em).
        intros q Hq. apply (K0 e q He Hq). }
      unfold vector_kinds, matrix_kinds in Hv, Hm. cbn [app] in Hv, Hm. inversion Hv as [|? r1 ? rl Er1 Hv1]; subst. inversion Hm as [|? m1 ? ml1 Em1 Hm1]; subst. constructor; [now apply KP1|].
      destruct law; cbn [app] in Hv1, Hm1.
      + inversion Hv1; inversion Hm1; subst; constructor.
      + inversion Hv1 as [|? r2 ? rl2 Er2 Hv2]; subst. inversion Hm1 as [|? m2 ? ml2 Em2 Hm2]; subst. inversion Hv2; inversion Hm2; subst. constructor; [|constructor].
        split; [apply (LR CoulombRhs); cbn [In]; auto|]. split; [apply (LJ CoulombJac); cbn [In]; auto|]. destruct Er2 as [j1 Er], Em2 as [j2 Em]. intros e He.
        apply (coulomb_element kd' (pr_asm (pairs s i)) (fun t => concat (nth i (cp_coeffs (updated (moved u w t) s)) [])) NC (constants_of s) w e Hnd Hbs (Hll e He) Hgk
          (object_layout g calls TS Hg i Hi e He) (object_line g calls HC HR HL TS Hg i Hi e He u w Huw) (object_one_link g calls HC HR HL TS Hg i Hi e He u w Huw) j1 j2 r2 m2 Er Em G3');
        intros q Hq; apply (K0 e q He Hq).
      + inversion Hv1 as [|? r2 ? rl2 Er2 Hv2]; subst. inversion Hm1 as [|? m2 ? ml2 Em2 Hm2]; subst. inversion Hv2; inversion Hm2; subst. constructor; [|constructor].
        split; [apply (LR TrescaRhs); cbn [In]; auto|]. split; [apply (LJ TrescaJac); cbn [In]; auto|]. destruct Er2 as [j1 Er], Em2 as [j2 Em]. intros e He.
        apply (tresca_element kd' (pr_asm (pairs s i)) (fun t => concat (nth i (cp_coeffs (updated (moved u w t) s)) [])) NC (constants_of s) w e Hnd Hbs (Hll e He) Hgk
          (object_layout g calls TS Hg i Hi e He) (object_line g calls HC HR HL TS Hg i Hi e He u w Huw) (object_one_link g calls HC HR HL TS Hg i Hi e He u w Huw) j1 j2 r2 m2 Er Em G3');
        intros q Hq; apply (K0 e q He Hq).
    - rewrite E0 in D. unfold contact_vector, contact_matrix. destruct (U u) as (-> & -> & ->).
      eapply derivable_ext; [|exact D]. intros t. cbv beta. destruct (U (moved u w t)) as (-> & -> & ->). reflexivity.
  Qed.
End Object.
Print Assumptions C78_matrix_is_derivative.
