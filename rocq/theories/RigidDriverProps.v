(** C89: the drivers for contact with a rigid body. *)
From Coq Require Import List Arith Lia Bool Permutation Sorted Reals Lra.
Import ListNotations.
From Verif Require Import Prelude PreludeLemmas Scatter RSum RealLemmas CropModel RayModel OpsModel OpsProps GapModel AssemblyModel KernelModel KernelProofs KernelSpec
  SubMeshModel SubMeshProofs EntitiesModel EntitiesProofs EntitiesProps
  ElasticityProps ContactKernelProofs ContactKernelProps RigidKernelModel RigidKernelProps OneSidedModel OneSidedProps RigidDriverModel.

(** ** The gap function of the UFL driver *)
(** Cells along a list of facets never decrease. *)
Definition cells_ascend (f_to_c : nat -> list nat) (facets : list nat) : Prop :=
  forall i j, i <= j < length facets -> hd 0 (f_to_c (nth i facets 0)) <= hd 0 (f_to_c (nth j facets 0)).

Lemma isort_id {A} (leb : A -> A -> bool) (l : list A) : StronglySorted (fun a b => leb a b = true) l -> isort leb l = l.
Proof.
  induction 1 as [|a l H IH F]; [reflexivity|]. cbn [isort]. rewrite IH. destruct l as [|b l]; [reflexivity|]. cbn [insert_sorted].
  inversion F as [|? ? E]; subst. now rewrite E.
Qed.
Lemma flat2_pair (l : list (nat * nat)) k : k < length l -> nth (2 * k) (flat2 l) 0 = fst (nth k l (0, 0)) /\ nth (2 * k + 1) (flat2 l) 0 = snd (nth k l (0, 0)).
Proof.
  revert k. induction l as [|[a b] l IH]; intros k Hk; [cbn in Hk; lia|]. destruct k as [|k]; [split; reflexivity|].
  replace (2 * S k) with (S (S (2 * k))) by lia. cbn [flat2 flat_map app nth Nat.add]. replace (2 * k + 1)%nat with (2 * k + 1) by lia. apply IH. cbn in Hk. lia.
Qed.
Lemma seq_sorted (P : nat -> nat -> Prop) n a : (forall i j, a <= i -> i < j -> j < a + n -> P i j) -> StronglySorted P (seq a n).
Proof.
  revert a. induction n as [|n IH]; intros a H; cbn [seq]; constructor.
  - apply IH. intros. apply H; lia.
  - apply Forall_forall. intros x Hx. apply in_seq in Hx. apply H; lia.
Qed.

Section Gap.
  Context (f_to_c c_to_f : nat -> list nat) (facets : list nat) (Hext : forall f, In f facets -> exterior f_to_c c_to_f f) (Hnd : NoDup facets).
  Notation key := (fun i => fst (facet_pair f_to_c c_to_f (nth i facets 0))).
  Notation perm := (argsort key (length facets)).
  Notation row_facet i := (facet_of_row c_to_f (active_facets f_to_c c_to_f facets) i).

  Lemma row_facet_perm i : i < length facets -> row_facet i = nth (nth i perm 0) facets 0 /\ nth i perm 0 < length facets.
  Proof using Hext.
    intros Hi. assert (Lp : length perm = length facets) by (rewrite (Permutation_length (argsort_perm _ _)); apply seq_length).
    assert (Hp : nth i perm 0 < length facets).
    { assert (In (nth i perm 0) perm) by (apply nth_In; lia). apply (Permutation_in _ (argsort_perm _ _)) in H. apply in_seq in H. lia. }
    split; [|exact Hp]. unfold facet_of_row. rewrite active_facets_flat. destruct (flat2_pair (map (fun p => facet_pair f_to_c c_to_f (nth p facets 0)) perm) i) as [E1 E2]; [rewrite map_length; lia|].
    rewrite E1, E2. rewrite (nth_map_lt _ perm i (0, 0) 0) by lia. clear E1 E2. revert Hp. generalize (nth i perm 0). intros p Hp. destruct (Hext (nth p facets 0) (nth_In _ _ Hp)) as (c & Ec & Hc). unfold facet_pair. rewrite Ec. cbn [hd fst snd]. now apply find_index_spec.
  Qed.
  Lemma find_index_nth i : i < length facets -> find_index (nth i facets 0) facets = i.
  Proof using Hnd.
    intros Hi. destruct (find_index_spec (nth i facets 0) facets (nth_In _ _ Hi)) as [H1 H2]. apply (proj1 (NoDup_nth facets 0) Hnd); auto.
  Qed.

  (** The row that the gap function reads for a facet belongs to that facet, for all facets,
      exactly if the cells never decrease along the facet numbers. *)
  Theorem C89_gap_rows_exact :
    (forall f, In f facets -> row_facet (find_index f facets) = f) <-> cells_ascend f_to_c facets.
  Proof using Hext Hnd.
    split.
    - intros H i j [Hij Hj].
      assert (P : forall k, k < length facets -> nth k perm 0 = k).
      { intros k Hk. destruct (row_facet_perm k Hk) as [E1 E2]. specialize (H (nth k facets 0) (nth_In _ _ Hk)). rewrite find_index_nth in H by exact Hk. rewrite E1 in H.
        apply (proj1 (NoDup_nth facets 0) Hnd); auto. }
      assert (Lp : length perm = length facets) by (rewrite (Permutation_length (argsort_perm _ _)); apply seq_length).
      assert (Ep : perm = seq 0 (length facets)).
      { apply (nth_ext _ _ 0 0); [rewrite seq_length; exact Lp|]. intros k Hk. rewrite Lp in Hk. rewrite seq_nth by lia. now apply P. }
      destruct (Nat.eq_dec i j) as [->|N]; [lia|].
      pose proof (argsort_sorted key (length facets)) as SS. rewrite Ep in SS.
      assert (G : forall n a i j, StronglySorted (fun x y => key x <= key y) (seq a n) -> a <= i -> i < j -> j < a + n -> key i <= key j).
      { clear. induction n as [|n IH]; intros a i j SS H1 H2 H3; [lia|]. cbn [seq] in SS. inversion SS as [|? ? S' F]; subst. destruct (Nat.eq_dec i a) as [->|N].
        - rewrite Forall_forall in F. apply F, in_seq. lia.
        - apply (IH (S a)); auto; lia. }
      exact (G (length facets) 0 i j SS ltac:(lia) ltac:(lia) ltac:(lia)).
    - intros H f Hf. assert (Ep : perm = seq 0 (length facets)).
      { unfold argsort. apply isort_id, seq_sorted. intros i j _ Hij Hj. apply Nat.leb_le. exact (H i j ltac:(lia)). }
      destruct (find_index_spec f facets Hf) as [H1 H2]. destruct (row_facet_perm _ H1) as [E _]. rewrite E, Ep, seq_nth by lia. exact H2.
  Qed.

  (** Then the gap at a point of the contact surface runs to the rigid facet nearest to the
      facet of the point. *)
  Theorem C89_gap_partial :
    forall (point vector : Type) (nearest : nat -> nat) (distance : nat -> point -> vector), cells_ascend f_to_c facets ->
      forall f x, In f facets -> gap_at f_to_c c_to_f nearest distance facets f x = distance (nearest f) x.
  Proof using Hext Hnd.
    intros point vector nearest distance H f x Hf. unfold gap_at, lookup. cbn [hd]. now rewrite (proj2 C89_gap_rows_exact H f Hf).
  Qed.
End Gap.
Print Assumptions C89_gap_rows_exact.
Print Assumptions C89_gap_partial.

(** Two triangles, the contact facets 0 and 1 numbered against the cells: the gap of each
    facet is the distance to the rigid facet nearest to the other one. *)
Definition twisted_f_to_c (f : nat) : list nat := match f with 0 => [1] | 1 => [0] | _ => [] end.
Definition twisted_c_to_f (c : nat) : list nat := match c with 0 => [1; 2; 3] | _ => [0; 3; 4] end.
Theorem C89_gap_refuted :
  (forall f, In f [0; 1] -> exterior twisted_f_to_c twisted_c_to_f f) /\ NoDup [0; 1] /\
  forall (point vector : Type) (nearest : nat -> nat) (distance : nat -> point -> vector) (x : point),
    gap_at twisted_f_to_c twisted_c_to_f nearest distance [0; 1] 0 x = distance (nearest 1) x /\
    gap_at twisted_f_to_c twisted_c_to_f nearest distance [0; 1] 1 x = distance (nearest 0) x.
Proof.
  split; [|split; [repeat constructor; cbn; lia|intros; split; reflexivity]].
  intros f [<-|[<-|[]]]; eexists; (split; [reflexivity|]); cbn; auto.
Qed.
Print Assumptions C89_gap_refuted.

Local Open Scope R_scope.
(** ** The kernels on the rows of the custom driver *)
Section Custom.
  Context (kd : kernel_data) (junk : geometry) (coords : list R) (f : nat) (mu lmbda h E gamma theta : R) (g u grad n_surf : list R).
  Notation dim := (kd_gdim kd).
  Notation np := (num_points kd f).
  Notation c := (surface_row mu lmbda h g u grad n_surf).
  Notation w := (surface_consts E gamma theta).
  Context (HL : rigid_layout kd f) (Lg : length g = (np * dim)%nat) (Lu : length u = (np * dim)%nat) (Lgr : length grad = (np * (dim * dim))%nat) (Hbs : kd_bs kd = dim).

  (** The direction n_2 at a point: into the rigid body, against its packed normal. *)
  Definition n_2 (q a : nat) : R := - nth (q * dim + a)%nat n_surf 0.
  Definition along_2 (q : nat) (v : nat -> R) : R := rsum dim (fun a => v a * n_2 q a).
  Definition sigma_2 (q : nat) (G : nat -> nat -> R) : R := along_2 q (traction dim mu lmbda G (g_n (geometry_at kd coords f q))).

  Lemma s_gap q a : (q < np)%nat -> (a < dim)%nat -> nth (offsets kd 3 + q * dim + a)%nat c 0 = value_at kd q g a.
  Proof using All.
    intros Hq Hk. unfold surface_row. replace (offsets kd 3 + q * dim + a)%nat with (3 + (q * dim + a))%nat by (unfold offsets; rewrite HL; cbn [psums psums_from nth]; lia).
    cbn [app Nat.add nth]. unfold value_at. assert (q * dim + a < np * dim)%nat by nia. now rewrite app_nth1 by lia.
  Qed.
  Lemma s_u q a : (q < np)%nat -> (a < dim)%nat -> nth (offsets kd 4 + dim * q + a)%nat c 0 = value_at kd q u a.
  Proof using All.
    intros Hq Hk. unfold surface_row. replace (offsets kd 4 + dim * q + a)%nat with (3 + (length g + (q * dim + a)))%nat by (unfold offsets; rewrite HL; cbn [psums psums_from nth]; lia).
    cbn [app Nat.add nth]. rewrite app_nth2_plus. unfold value_at. assert (q * dim + a < np * dim)%nat by nia. now rewrite app_nth1 by lia.
  Qed.
  Lemma s_grad q a b : (q < np)%nat -> (a < dim)%nat -> (b < dim)%nat -> nth (offsets kd 5 + q * dim * dim + (a * dim + b))%nat c 0 = gradient_at kd q grad a b.
  Proof using All.
    intros Hq Ha Hb. unfold surface_row. replace (offsets kd 5 + q * dim * dim + (a * dim + b))%nat with (3 + (length g + (length u + (q * (dim * dim) + a * dim + b))))%nat by (unfold offsets; rewrite HL; cbn [psums psums_from nth]; lia).
    cbn [app Nat.add nth]. rewrite !app_nth2_plus. unfold gradient_at. assert (a * dim + b < dim * dim)%nat by nia. assert (q * (dim * dim) + a * dim + b < np * (dim * dim))%nat by nia. now rewrite app_nth1 by lia.
  Qed.
  Lemma s_normal q a : rs_normal kd false c w q a = n_2 q a.
  Proof using All.
    unfold rs_normal, n_2. f_equal. unfold surface_row. replace (offsets kd 6 + q * dim + a)%nat with (3 + (length g + (length u + (length grad + (q * dim + a)))))%nat by (unfold offsets; rewrite HL; cbn [psums psums_from nth]; lia).
    cbn [app Nat.add nth]. now rewrite !app_nth2_plus.
  Qed.
  Lemma s_along q v : rs_along kd false c w q v = along_2 q v.
  Proof using All. unfold rs_along, along_2. apply rsum_ext. intros a Hk. now rewrite s_normal. Qed.
  Lemma s_sigma q : (q < np)%nat -> rs_sigma kd coords f false c w q = sigma_2 q (gradient_at kd q grad).
  Proof using All.
    intros Hq. unfold rs_sigma. rewrite s_along. unfold sigma_2, along_2. apply rsum_ext. intros a Hk. f_equal. apply traction_ext; try exact Hk; intros; first [now apply s_grad | reflexivity].
  Qed.
  Lemma s_test q i n : rs_test kd coords f false c w q i n = sigma_2 q (basis_gradient kd coords f q i n).
  Proof using All. unfold rs_test. now rewrite s_along. Qed.
  Lemma s_un q : (q < np)%nat -> rs_u kd false c w q = along_2 q (value_at kd q u).
  Proof using All. intros Hq. unfold rs_u. rewrite s_along. apply rsum_ext. intros a Hk. now rewrite s_u. Qed.
  Lemma s_gn q : (q < np)%nat -> rs_gap kd false c w q = along_2 q (value_at kd q g).
  Proof using All. intros Hq. unfold rs_gap. rewrite s_along. apply rsum_ext. intros a Hk. now rewrite s_gap. Qed.
  Lemma s_basis q i n : (n < dim)%nat -> along_2 q (basis_value kd f q i n) = n_2 q n * kd_phi kd (kd_qp_offsets kd f + q) i.
  Proof using All.
    intros Hn. unfold along_2. rewrite (rsum_single dim n); [|exact Hn|intros a Hk N; unfold basis_value; destruct (Nat.eqb_spec a n); [lia|ring]]. unfold basis_value. rewrite Nat.eqb_refl. ring.
  Qed.
  Lemma s_gamma : rs_gamma c w = gamma_scaled gamma E h.
  Proof using All. unfold rs_gamma, gamma_scaled. cbn. reflexivity. Qed.

  Context (Hw : 0 < gamma * E) (Hh : 0 < h).
  Lemma s_gamma_pos : 0 < gamma_scaled gamma E h.
  Proof using All. unfold gamma_scaled. apply Rdiv_lt_0_compat; lra. Qed.

  Notation gap q := (along_2 q (value_at kd q g)).
  Notation su q := (sigma_2 q (gradient_at kd q grad)).
  Notation un q := (along_2 q (value_at kd q u)).
  Notation sv q i n := (sigma_2 q (basis_gradient kd coords f q i n)).
  Notation vn q i n := (along_2 q (basis_value kd f q i n)).

  Lemma s_indicator q : (q < np)%nat -> gamma_scaled gamma E h * rs_indicator kd coords f false c w q = su q + gamma_scaled gamma E h * (gap q - un q).
  Proof using All.
    intros Hq. unfold rs_indicator. rewrite s_sigma, s_gn, s_un by exact Hq. unfold gamma_scaled. cbn [surface_row surface_consts app nth]. field. repeat split; try lra; intros Z; rewrite Z in Hw; lra.
  Qed.

  Theorem C89_residual_is_form :
    forall (b : list (list R)) (links : nat) (qs : list nat) (rhs : kernel_fn),
      generate_rigid_surface_kernel Rhs kd junk false = Some rhs -> vector_buffers kd 0 b ->
      forall i n, (i < kd_ndofs kd)%nat -> (n < dim)%nat ->
        added_vec kd b (rhs b c w coords f links qs) 0 i n =
        lsum (seq 0 np) (fun q => measure kd coords f q * ufl_contact_residual theta gamma E h (gap q) (su q) (un q) (sv q i n) (vn q i n)).
  Proof using All.
    intros b links qs rhs E_rhs Hb i n Hi Hn. injection E_rhs as <-.
    rewrite (chg_vec kd 0 b _ 0 i n _ Hb ltac:(lia) Hi ltac:(rewrite Hbs; exact Hn) (rigid_rhs_entry kd junk false c w coords f Hbs (or_intror eq_refl) b links qs i n Hi ltac:(rewrite Hbs; exact Hn))).
    apply lsum_ext. intros q Hq. apply in_seq in Hq. assert (Hq' : (q < np)%nat) by lia. pose proof s_gamma_pos as G.
    unfold ufl_contact_residual. rewrite py_R_minus_scale by exact G. rewrite <- s_indicator by exact Hq'.
    replace (gamma_scaled gamma E h * rs_indicator kd coords f false c w q / gamma_scaled gamma E h) with (rs_indicator kd coords f false c w q) by (field; lra).
    rewrite s_test, s_sigma, s_normal, s_gamma, s_basis by auto. unfold rs_weight, measure.
    replace (nth 2 c 0 / nth 0 w 0) with (/ gamma_scaled gamma E h) by (unfold gamma_scaled; cbn; field; repeat split; try lra; intros Z; rewrite Z in Hw; lra).
    replace (nth 1 w 0) with theta by reflexivity. unfold Rdiv. ring.
  Qed.

  Theorem C89_jacobian_is_form_exact :
    forall (A : list (list R)) (links : nat) (qs : list nat) (jac : kernel_fn),
      generate_rigid_surface_kernel Jac kd junk false = Some jac -> matrix_buffers kd 0 A ->
      forall i n j l, (i < kd_ndofs kd)%nat -> (n < dim)%nat -> (j < kd_ndofs kd)%nat -> (l < dim)%nat ->
        added_mat kd A (jac A c w coords f links qs) 0 i n j l =
        lsum (seq 0 np) (fun q => measure kd coords f q * (ufl_contact_jacobian theta gamma E h (gap q) (su q) (un q) (sv q j l) (vn q j l) (sv q i n) (vn q i n)
          - (if Req_EM_T (su q + gamma_scaled gamma E h * (gap q - un q)) 0
             then 1 / 2 * / gamma_scaled gamma E h * (sv q j l - gamma_scaled gamma E h * vn q j l) * (theta * sv q i n - gamma_scaled gamma E h * vn q i n) else 0))).
  Proof using All.
    intros A links qs jac E_jac HA i n j l Hi Hn Hj Hl. injection E_jac as <-.
    rewrite (chg_mat kd 0 A _ 0 i n j l _ HA ltac:(lia) Hi ltac:(rewrite Hbs; exact Hn) Hj ltac:(rewrite Hbs; exact Hl) (rigid_jac_entry kd junk false c w coords f Hbs (or_intror eq_refl) A links qs i n j l Hi ltac:(rewrite Hbs; exact Hn) Hj ltac:(rewrite Hbs; exact Hl))).
    apply lsum_ext. intros q Hq. apply in_seq in Hq. assert (Hq' : (q < np)%nat) by lia. pose proof s_gamma_pos as G.
    unfold ufl_contact_jacobian. cbv zeta. rewrite !s_test, s_sigma, !s_normal, s_gamma, !s_basis, s_gn, s_un by auto. unfold rs_weight, measure.
    replace (nth 2 c 0 / nth 0 w 0) with (/ gamma_scaled gamma E h) by (unfold gamma_scaled; cbn; field; repeat split; try lra; intros Z; rewrite Z in Hw; lra).
    replace (nth 1 w 0) with theta by reflexivity.
    set (x := su q + gamma_scaled gamma E h * (gap q - un q)).
    destruct (proj2 (C38_python_agrees)) as [D [D1 [D2 [D3 D4]]]].
    destruct (Req_EM_T x 0) as [X|X].
    - rewrite X. unfold py_dR_minus in D3. replace (1 / gamma_scaled gamma E h * 0.5 * (1 - sgn 0)) with (1 / gamma_scaled gamma E h * (0.5 * (1 - sgn 0))) by ring. rewrite D3, D4. field. lra.
    - destruct (D x X) as [_ DX]. unfold py_dR_minus in DX. replace (1 / gamma_scaled gamma E h * 0.5 * (1 - sgn x)) with (1 / gamma_scaled gamma E h * (0.5 * (1 - sgn x))) by ring. rewrite DX. field. lra.
  Qed.
End Custom.
Print Assumptions C89_residual_is_form.
Print Assumptions C89_jacobian_is_form_exact.

(** ** The update in the Newton solver *)
Lemma assign_block (a b v d : list R) : length v = length b -> assign_slice (a ++ b ++ d) (length a) v = a ++ v ++ d.
Proof.
  intros L. unfold assign_slice. rewrite firstn_app, firstn_all, Nat.sub_diag. cbn [firstn]. rewrite app_nil_r. do 2 f_equal.
  rewrite L, app_assoc, <- app_length, skipn_app, skipn_all, Nat.sub_diag. reflexivity.
Qed.
(** After any number of updates the row is the one of the last displacement; the other
    columns never change. *)
Theorem C89_update :
  forall (mu lmbda h : R) (g n_surf u0 grad0 : list R) (history : list (list R * list R)) (u grad : list R),
    (forall p, In p history -> length (fst p) = length u0 /\ length (snd p) = length grad0) -> length u = length u0 -> length grad = length grad0 ->
    surface_update (length g) u grad (fold_left (fun row p => surface_update (length g) (fst p) (snd p) row) history (surface_row mu lmbda h g u0 grad0 n_surf)) =
    surface_row mu lmbda h g u grad n_surf.
Proof.
  intros mu lmbda h g n_surf.
  assert (One : forall u0 grad0 u grad, length u = length u0 -> length grad = length grad0 -> surface_update (length g) u grad (surface_row mu lmbda h g u0 grad0 n_surf) = surface_row mu lmbda h g u grad n_surf).
  { intros u0 grad0 u grad L1 L2. unfold surface_update. cbv zeta.
    assert (R : forall x y : list R, surface_row mu lmbda h g x y n_surf = ([mu; lmbda] ++ [h] ++ g) ++ x ++ y ++ n_surf) by (intros; unfold surface_row; now rewrite <- !app_assoc).
    rewrite !R. replace (2 + 1 + length g)%nat with (length ([mu; lmbda] ++ [h] ++ g)) by reflexivity. rewrite assign_block by exact L1.
    rewrite app_assoc, <- app_length, assign_block by exact L2. now rewrite <- app_assoc. }
  intros u0 grad0 history. revert u0 grad0. induction history as [|[u1 g1] history IH]; intros u0 grad0 u grad H L1 L2; cbn [fold_left fst snd]; [now apply One|].
  destruct (H _ (or_introl eq_refl)) as [E1 E2]. cbn [fst snd] in E1, E2. rewrite One by auto. apply IH; try congruence. intros p Hp. rewrite E1, E2. apply H. now right.
Qed.
Print Assumptions C89_update.
