(** Property C105: the assembled mesh tie matrix is the Nitsche form of the interface;
    symmetric for theta = 1, and for theta = -1 its energy is the penalty of the jump. *)
From Coq Require Import List Arith ZArith Lia Bool Reals Lra.
Import ListNotations.
From Verif Require Import Prelude PreludeLemmas RSum EntitiesModel PackingModel PackingProps PackUProps AssemblyModel AssemblyProofs AssemblyProps LayoutModel LayoutProps
  MeshTieModel MeshTieProps MeshTieHistoryProps RayModel KernelModel KernelProofs KernelSpec MeshTieKernelModel ElasticityProps MeshTieKernelProps PoissonKernelProps CoefficientsModel CoefficientsProps
  SystemSpec TieSystemModel TieSystemProofs TieSystemProps TieWeakProps SystemWeakProps TieFormProofs.
Local Open Scope R_scope.

(** ** Specification *)
(** A discrete function with coefficients [v] at quadrature point [q] of facet [e] of a
    pair of surfaces: from the cell of the facet, and from the cell of the facet that
    the point is tied to. *)
Section Interface.
  Context (pd : pack_data) (kd : kernel_data) (p : tie_pair) (e q : nat).
  Notation asm := (pr_asm p).
  Definition own_cell : nat := nth (2 * e) (a_active asm) 0%nat.
  Definition own_facet : nat := nth (2 * e + 1) (a_active asm) 0%nat.
  Definition tied_cell : nat := contact_cell (a_facet_map asm) (a_parent asm) (nth q (slice (pr_facets p) (e * pd_nq pd) (pd_nq pd)) (-1)%Z).
  Definition coefficient (v : list R) (cell j n : nat) : R := dof_value (pd_bs pd) (pd_dofs pd cell) v j n.
  Definition value_own (v : list R) (n : nat) : R := rsum (pd_functions pd) (fun j => pd_basis pd 0 (pd_q_offsets pd own_facet + q) j 0 * coefficient v own_cell j n).
  Definition value_tied (v : list R) (n : nat) : R := rsum (pd_functions pd) (fun j => pr_basis p (e * pd_nq pd + q)%nat j * coefficient v tied_cell j n).
  Definition gradient_own (v : list R) (a b : nat) : R := rsum (pd_functions pd) (fun j => basis_derivative pd own_cell own_facet q b j 0 * coefficient v own_cell j a).
  Definition gradient_tied (v : list R) (a b : nat) : R := rsum (pd_functions pd) (fun j => pr_grad p tied_cell (e * pd_nq pd + q)%nat j b * coefficient v tied_cell j a).
  Definition interface_normal : nat -> R := g_n (geometry_at kd (coordinates_of asm own_cell) own_facet q).
  Definition interface_weight : R := surface_weight kd (coordinates_of asm own_cell) own_facet q.
  (** Jump of the values; mean of the tractions, mean of the normal derivatives. *)
  Definition interface_jump (v : list R) (n : nat) : R := value_own v n - value_tied v n.
  Definition mean_traction (mu lm : R) (v : list R) (a : nat) : R :=
    (traction (pd_gdim pd) mu lm (gradient_own v) interface_normal a + traction (pd_gdim pd) mu lm (gradient_tied v) interface_normal a) / 2.
  Definition mean_flux (v : list R) : R := rsum (pd_gdim pd) (fun b => (gradient_own v 0 b + gradient_tied v 0 b) / 2 * interface_normal b).
End Interface.

(** Sum over the quadrature points of all facets of all pairs that are tied. *)
Definition over_interface (num_pairs : nat) (pair : nat -> tie_pair) (g : nat -> nat -> nat -> R) : R :=
  rsum num_pairs (fun i => rsum (a_local (pr_asm (pair i))) (fun e => lsum (points_of (pr_asm (pair i)) e) (fun q => g i e q))).

(** The Nitsche forms.  [mu], [lm], [h]: data of a facet. *)
Definition elastic_form (pd : pack_data) (kd : kernel_data) (num_pairs : nat) (pair : nat -> tie_pair) (mu lm h : nat -> nat -> R) (gamma theta : R) (u v : list R) : R :=
  over_interface num_pairs pair (fun i e q => interface_weight kd (pair i) e q / 2 * rsum (pd_gdim pd) (fun a =>
    let J w := interface_jump pd (pair i) e q w a in
    let T w := mean_traction pd kd (pair i) e q (mu i e) (lm i e) w a in
    - T u * J v + gamma / h i e * J u * J v - theta * T v * J u)).
Definition poisson_form (pd : pack_data) (kd : kernel_data) (num_pairs : nat) (pair : nat -> tie_pair) (k h : nat -> nat -> R) (gamma theta : R) (T v : list R) : R :=
  over_interface num_pairs pair (fun i e q => k i e * (interface_weight kd (pair i) e q / 2) *
    let J w := interface_jump pd (pair i) e q w 0 in
    let F w := mean_flux pd kd (pair i) e q w in
    - F T * J v + gamma / h i e * J T * J v - theta * F v * J T).

(** All weights and diameters are positive. *)
Definition positive_data (kd : kernel_data) (num_pairs : nat) (pair : nat -> tie_pair) (h : nat -> nat -> R) : Prop :=
  forall i e q, (i < num_pairs)%nat -> (e < a_local (pr_asm (pair i)))%nat -> In q (points_of (pr_asm (pair i)) e) -> 0 < interface_weight kd (pair i) e q /\ 0 < h i e.
(** No jump at any tied point. *)
Definition continuous (pd : pack_data) (num_pairs : nat) (pair : nat -> tie_pair) (w : list R) : Prop :=
  forall i e q n, (i < num_pairs)%nat -> (e < a_local (pr_asm (pair i)))%nat -> In q (points_of (pr_asm (pair i)) e) -> (n < pd_bs pd)%nat -> interface_jump pd (pair i) e q w n = 0.

(** ** Lemmas *)
Lemma over_interface_ext n pair g g' : (forall i e q, (i < n)%nat -> (e < a_local (pr_asm (pair i)))%nat -> In q (points_of (pr_asm (pair i)) e) -> g i e q = g' i e q) -> over_interface n pair g = over_interface n pair g'.
Proof. intros H. apply rsum_ext. intros i Hi. apply rsum_ext. intros e He. apply lsum_ext. intros q Hq. now apply H. Qed.
Lemma lsum_nonneg {A} (l : list A) f : (forall a, In a l -> 0 <= f a) -> 0 <= lsum l f.
Proof. induction l as [|a l IH]; intros H; cbn [lsum]; [lra|]. pose proof (H a ltac:(now left)). assert (0 <= lsum l f) by (apply IH; intros; apply H; now right). lra. Qed.
Lemma over_interface_nonneg n pair g : (forall i e q, (i < n)%nat -> (e < a_local (pr_asm (pair i)))%nat -> In q (points_of (pr_asm (pair i)) e) -> 0 <= g i e q) -> 0 <= over_interface n pair g.
Proof. intros H. apply rsum_nonneg. intros i Hi. apply rsum_nonneg. intros e He. apply lsum_nonneg. intros q Hq. now apply H. Qed.

Lemma added_zeros_vec kd a rhs cf cs w e nb size s i n : added_vec kd (repeat (repeat 0 size) nb) (facet_result a rhs cf cs w nb size e) s i n = nth (dof (kd_bs kd) i n) (nth s (facet_result a rhs cf cs w nb size e) []) 0.
Proof. unfold added_vec. now rewrite nth_zeros, Rminus_0_r. Qed.

(** Testing the vector that all pairs add to. *)
Lemma tested_pairs asm kernel st data stride w n b v : kernel_local (fun m => m + 1)%nat (kernel st) -> (forall i, (i < n)%nat -> well_formed (asm i)) -> length v = length b ->
  exists r, run_vector asm (map (fun i => (kernel, (i, Some st, data i, stride, w))) (seq 0 n)) b = Some r /\ length r = length b /\
    applied r v = applied b v + rsum n (fun i => rsum (a_local (asm i)) (fun e => tested (a_ndofs (asm i)) (a_bs (asm i)) (length (links_of (asm i) e))
      (fun s j m => nth (dof (a_bs (asm i)) j m) (nth s (facet_result (asm i) (kernel st) (data i) stride w (a_max_links (asm i) + 1) (a_bs (asm i) * a_ndofs (asm i)) e) []) 0)
      (restrict (asm i) v (nth (2 * e) (a_active (asm i)) 0%nat)) (fun k => restrict (asm i) v (nth k (links_of (asm i) e) 0%nat)))).
Proof.
  intros HK. induction n as [|n IH]; intros HW Hv.
  - exists b. cbn. repeat split; auto. ring.
  - destruct IH as (r & E & L & X); [auto|auto|]. rewrite seq_S, map_app. cbn [map Nat.add]. rewrite run_vector_snoc, E.
    destruct (C20_assemble_vector (asm n) (kernel st) (data n) stride w r HK (HW n ltac:(lia))) as [L2 _].
    eexists. split; [reflexivity|]. split; [congruence|]. rewrite (C100_assembled_test (asm n) (kernel st) (data n) stride w r v HK (HW n ltac:(lia)) ltac:(congruence)), X. cbn [rsum]. ring.
Qed.

Lemma rsum_nonneg_zero n f : (forall i, (i < n)%nat -> 0 <= f i) -> rsum n f = 0 -> forall i, (i < n)%nat -> f i = 0.
Proof.
  induction n as [|n IH]; intros H E i Hi; [lia|]. cbn [rsum] in E.
  assert (0 <= rsum n f) by (apply rsum_nonneg; intros; apply H; lia). pose proof (H n ltac:(lia)).
  destruct (Nat.eq_dec i n) as [-> | Hne]; [lra|]. apply IH; [intros; apply H; lia|lra|lia].
Qed.
Lemma lsum_nonneg_zero {A} (l : list A) f : (forall a, In a l -> 0 <= f a) -> lsum l f = 0 -> forall a, In a l -> f a = 0.
Proof.
  induction l as [|b l IH]; intros H E a Ha; [destruct Ha|]. cbn [lsum] in E.
  assert (0 <= lsum l f) by (apply lsum_nonneg; intros; apply H; now right). pose proof (H b ltac:(now left)).
  destruct Ha as [<- | Ha]; [lra|]. apply IH; [intros; apply H; now right|lra|exact Ha].
Qed.
Lemma over_interface_zero n pair g : (forall i e q, (i < n)%nat -> (e < a_local (pr_asm (pair i)))%nat -> In q (points_of (pr_asm (pair i)) e) -> 0 <= g i e q) -> over_interface n pair g = 0 ->
  forall i e q, (i < n)%nat -> (e < a_local (pr_asm (pair i)))%nat -> In q (points_of (pr_asm (pair i)) e) -> g i e q = 0.
Proof.
  intros H E i e q Hi He Hq. unfold over_interface in E.
  pose proof (rsum_nonneg_zero _ _ (fun i Hi => rsum_nonneg _ _ (fun e He => lsum_nonneg _ _ (fun q Hq => H i e q Hi He Hq))) E i Hi) as E1. cbv beta in E1.
  pose proof (rsum_nonneg_zero _ _ (fun e He => lsum_nonneg _ _ (fun q Hq => H i e q Hi He Hq)) E1 e He) as E2. cbv beta in E2.
  exact (lsum_nonneg_zero _ _ (fun q Hq => H i e q Hi He Hq) E2 q Hq).
Qed.

Section Traces.
  Context (pd : pack_data) (kd : kernel_data) (num_pairs : nat) (pair : nat -> tie_pair) (ml : nat).
  Context (TS : tie_setting pd kd num_pairs pair ml) (i : nat) (Hi : (i < num_pairs)%nat) (e : nat) (He : (e < a_local (pr_asm (pair i)))%nat) (q : nat) (Hq : In q (points_of (pr_asm (pair i)) e)).
  Notation asm := (pr_asm (pair i)).
  Notation PS := (ts_pairs _ _ _ _ _ TS i Hi).
  Notation T := (ts_tables _ _ _ _ _ TS).
  Notation nd := (pd_functions pd).
  Notation U v := (restrict asm v (nth (2 * e) (a_active asm) 0%nat)).
  Notation Uo v := (fun k => restrict asm v (nth k (links_of asm e) 0%nat)).

  Lemma tied_value v n : (n < pd_bs pd)%nat -> rsum (length (links_of asm e)) (fun k => rsum nd (fun j => packed_test pd pair ml i e k j q n * Uo v k j n)) = value_tied pd (pair i) e q v n.
  Proof using TS Hi He Hq.
    intros Hn. destruct (point_link pd kd num_pairs pair ml TS i Hi e He q Hq) as (k0 & [Hk0 Ec] & P1 & _).
    rewrite (rsum_single _ k0) by first [exact Hk0 | intros k Hk Hne; apply rsum_zero; intros j Hj; rewrite P1 by auto; destruct (Nat.eqb_spec k k0); [contradiction|ring]].
    apply rsum_ext. intros j Hj. rewrite P1, Nat.eqb_refl by auto. unfold coefficient. rewrite (restrict_value pd kd num_pairs pair ml TS i Hi). now rewrite Ec.
  Qed.
  Lemma tied_gradient v a b : (b < pd_gdim pd)%nat -> rsum (length (links_of asm e)) (fun k => rsum nd (fun j => packed_test_grad pd pair ml i e k j q b * Uo v k j a)) = gradient_tied pd (pair i) e q v a b.
  Proof using TS Hi He Hq.
    intros Hb. destruct (point_link pd kd num_pairs pair ml TS i Hi e He q Hq) as (k0 & [Hk0 Ec] & _ & P2).
    rewrite (rsum_single _ k0) by first [exact Hk0 | intros k Hk Hne; apply rsum_zero; intros j Hj; rewrite P2 by auto; destruct (Nat.eqb_spec k k0); [contradiction|ring]].
    apply rsum_ext. intros j Hj. rewrite P2, Nat.eqb_refl by auto. unfold coefficient. rewrite (restrict_value pd kd num_pairs pair ml TS i Hi). now rewrite Ec.
  Qed.
  Lemma own_value st v n : rsum (kd_ndofs (with_strides kd st)) (fun j => kd_phi (with_strides kd st) (kd_qp_offsets (with_strides kd st) (nth (2 * e + 1) (a_active asm) 0%nat) + q) j * U v j n) = value_own pd (pair i) e q v n.
  Proof using TS Hi.
    cbn [with_strides kd_ndofs kd_phi kd_qp_offsets]. rewrite (st_ndofs _ _ T). apply rsum_ext. intros j _. rewrite (st_phi _ _ T), (st_offsets _ _ T), (restrict_value pd kd num_pairs pair ml TS i Hi). reflexivity.
  Qed.
  Lemma own_gradient st v a b : (b < pd_gdim pd)%nat ->
    rsum (kd_ndofs (with_strides kd st)) (fun j => phys_grad (with_strides kd st) (coordinates_of asm (nth (2 * e) (a_active asm) 0%nat)) (nth (2 * e + 1) (a_active asm) 0%nat) q j b * U v j a) = gradient_own pd (pair i) e q v a b.
  Proof using TS Hi.
    intros Hb. cbn [with_strides kd_ndofs]. rewrite (st_ndofs _ _ T). apply rsum_ext. intros j _. rewrite (restrict_value pd kd num_pairs pair ml TS i Hi). f_equal.
    exact (setting_phys_grad pd kd num_pairs pair ml TS i Hi _ _ q j b Hb).
  Qed.
End Traces.

Section System.
  Context (pd : bool -> pack_data) (num_pairs : nat) (pair : bool -> nat -> tie_pair) (num_facets : nat -> nat) (nq nd gdim ml : nat)
    (pack_h : nat -> list R) (pack_coeff0 : nat -> field -> list R * nat).
  Notation after := (tie_after pd num_pairs pair num_facets nq nd gdim ml pack_h pack_coeff0).
  Notation asm vec := (fun i : nat => pr_asm (pair vec i)).
  Notation setting := (object_setting pd num_pairs pair num_facets nq nd gdim ml pack_coeff0).
  (** Data of a facet. *)
  Notation scalar f := (fun i e => nth e (fst (pack_coeff0 i f)) 0).
  Notation diameter := (fun i e => nth e (pack_h i) 0).

  Section Elastic.
    Context (kd : kernel_data) (OS : setting true kd).
    Notation st := (elastic_strides nq nd gdim gdim ml).
    Notation TS := (os_tie _ _ _ _ _ _ _ _ _ _ _ OS).
    Notation T := (ts_tables _ _ _ _ _ TS).
    Notation kd' := (with_strides kd st).
    Notation form p := (elastic_form (pd true) kd num_pairs (pair true) (scalar (e_mu p)) (scalar (e_lambda p)) diameter (e_gamma p) (e_theta p)).

    Lemma elastic_history calls p : Forall fields_given calls -> Forall (fun k => call_type k <> ThermoElasticity) calls -> fold_left elastic_step calls None = Some p ->
      let s := after calls in
      kernel_rhs s = Some st /\ kernel_jac s = Some st /\ cstride s = sum_nat st /\ consts s = [e_gamma p; e_theta p] /\
      forall i, (i < num_pairs)%nat ->
        (forall e, (e < a_local (pr_asm (pair true i)))%nat -> let r := slice (nth i (MeshTieModel.coeffs s) []) (e * sum_nat st) (sum_nat st) in
           nth 0 r 0 = nth e (fst (pack_coeff0 i (e_mu p))) 0 /\ nth 1 r 0 = nth e (fst (pack_coeff0 i (e_lambda p))) 0 /\ nth 2 r 0 = nth e (pack_h i) 0) /\
        (block_holds num_facets st (MeshTieModel.coeffs s) i 1 (fst (tie_test_pack (pd true) (pair true) ml i)) /\ block_holds num_facets st (MeshTieModel.coeffs s) i 2 (fst (tie_grad_test_pack (pd true) (pair true) ml i))) /\
        forall u, e_u p = Some (true, u) ->
          block_holds num_facets st (MeshTieModel.coeffs s) i 3 (fst (tie_q (pd true) (pair true) i u)) /\ block_holds num_facets st (MeshTieModel.coeffs s) i 4 (fst (tie_grad_q (pd true) (pair true) i u)) /\
          block_holds num_facets st (MeshTieModel.coeffs s) i 5 (fst (tie_opp (pd true) (pair true) i u)) /\ block_holds num_facets st (MeshTieModel.coeffs s) i 6 (fst (tie_grad_opp (pd true) (pair true) i u)).
    Proof using OS.
      intros Hf Ht Ep s.
      pose proof (C63_elastic_history pack_h pack_coeff0 _ _ _ _ _ _ num_pairs num_facets nq nd gdim ml (os_coeff0 _ _ _ _ _ _ _ _ _ _ _ OS)
        (test_strides pd num_pairs pair num_facets nq nd gdim ml pack_coeff0 true kd OS) (grad_test_strides pd num_pairs pair num_facets nq nd gdim ml pack_coeff0 true kd OS) calls
        ltac:(eapply Forall_impl; [|exact Hf]; intros k; apply (fields_ok pd num_pairs pair num_facets nq nd gdim ml pack_coeff0 true kd OS)) Ht) as A.
      rewrite Ep in A. cbn [elastic_agrees] in A. fold (after calls) in A. fold s in A. destruct A as (G2 & G3 & G5 & G6 & G7 & G8 & G9). repeat (split; [assumption|]).
      intros i Hi. destruct (G8 i Hi) as (C0 & C1 & C2 & T1 & T2). split; [|split; [split; [exact T1|exact T2]|]].
      - intros e He. rewrite <- (os_facets _ _ _ _ _ _ _ _ _ _ _ OS i Hi) in He. cbv zeta.
        assert (L : (3 <= sum_nat st)%nat) by (unfold elastic_strides, sum_nat; cbn [fold_right]; lia).
        unfold scalar_column, entry in C0, C1, C2. rewrite !nth_slice by lia. rewrite <- C0, <- C1, <- C2 by auto. auto.
      - intros u Eu. destruct (G9 i Hi) as (D3 & D4 & D5 & D6). rewrite Eu in D3, D4, D5, D6. cbn [data_of fst snd] in *. auto.
    Qed.

    (** Facts about one facet of the object after a history. *)
    Section Facet.
      Context (calls : list (tie_call (F := field))) (p : elastic_input (F := field)) (Hf : Forall fields_given calls) (Ht : Forall (fun k => call_type k <> ThermoElasticity) calls)
        (Ep : fold_left elastic_step calls None = Some p).
      Context (i : nat) (Hi : (i < num_pairs)%nat) (e : nat) (He : (e < a_local (pr_asm (pair true i)))%nat).
      Notation a := (pr_asm (pair true i)).
      Notation row := (slice (nth i (MeshTieModel.coeffs (after calls)) []) (e * sum_nat st) (sum_nat st)).
      Notation f := (nth (2 * e + 1) (a_active a) 0%nat).
      Notation coords := (coordinates_of a (nth (2 * e) (a_active a) 0%nat)).
      Notation U v := (restrict a v (nth (2 * e) (a_active a) 0%nat)).
      Notation Uo v := (fun k => restrict a v (nth k (links_of a e) 0%nat)).
      Notation links := (length (links_of a e)).

      Lemma shapes : pd_nq (pd true) = nq /\ pd_gdim (pd true) = gdim /\ pd_bs (pd true) = gdim /\ pd_functions (pd true) = nd.
      Proof using OS. destruct (os_shapes _ _ _ _ _ _ _ _ _ _ _ OS true) as [H1 H2 H3 _ _]. repeat split; auto. apply (os_nd _ _ _ _ _ _ _ _ _ _ _ OS). Qed.
      Lemma bs_gdim : kd_bs kd' = kd_gdim kd'.
      Proof using OS. destruct shapes as (_ & H2 & H3 & _). cbn [with_strides kd_bs kd_gdim]. rewrite (st_bs _ _ T), (st_gdim _ _ T). congruence. Qed.
      Lemma row_tests q k j : In q (points_of a e) -> (k < links)%nat -> (j < nd)%nat ->
        (forall n, (n < gdim)%nat -> tie_test kd' f row q k j n = packed_test (pd true) (pair true) ml i e k j q n) /\
        (forall b, (b < gdim)%nat -> tie_test_grad kd' f row q k j b = packed_test_grad (pd true) (pair true) ml i e k j q b).
      Proof using OS Hf Ht Ep Hi He.
        intros Hq Hk Hj. destruct (elastic_history calls p Hf Ht Ep) as (_ & _ & _ & _ & H). destruct (H i Hi) as (_ & (B1 & B2) & _). destruct shapes as (H1 & H2 & H3 & H4).
        destruct (point_found (pd true) kd num_pairs (pair true) ml TS i Hi e He q Hq) as (Hq' & _). pose proof (links_bound (pd true) kd num_pairs (pair true) ml TS i Hi e He q Hq) as Hl.
        pose proof (os_facets _ _ _ _ _ _ _ _ _ _ _ OS i Hi) as Hnf.
        split; intros n Hn.
        - apply (row_test (pd true) kd num_pairs (pair true) ml TS i Hi num_facets Hnf st); rewrite ?H1, ?H2, ?H3, ?H4; auto; try lia; try reflexivity.
        - apply (row_test_grad (pd true) kd num_pairs (pair true) ml TS i Hi num_facets Hnf st); rewrite ?H1, ?H2, ?H3, ?H4; auto; try lia; try reflexivity.
      Qed.
      Lemma jump_of q v n : In q (points_of a e) -> (n < gdim)%nat -> tie_jump kd' f row links q (U v) (Uo v) n = interface_jump (pd true) (pair true i) e q v n.
      Proof using OS Hf Ht Ep Hi He.
        intros Hq Hn. destruct shapes as (H1 & H2 & H3 & H4). unfold tie_jump, interface_jump, own, other. f_equal.
        - exact (own_value (pd true) kd num_pairs (pair true) ml TS i Hi e q st v n).
        - rewrite <- (tied_value (pd true) kd num_pairs (pair true) ml TS i Hi e He q Hq v n) by (now rewrite H3). apply rsum_ext. intros k Hk. cbn [with_strides kd_ndofs]. rewrite (st_ndofs _ _ T).
          apply rsum_ext. intros j Hj. rewrite H4 in Hj. destruct (row_tests q k j Hq Hk Hj) as [X _]. now rewrite X.
      Qed.
      Lemma traction_of q v x : In q (points_of a e) -> (x < gdim)%nat ->
        tie_traction kd' coords f row links q (U v) (Uo v) x = mean_traction (pd true) kd (pair true i) e q (nth e (fst (pack_coeff0 i (e_mu p))) 0) (nth e (fst (pack_coeff0 i (e_lambda p))) 0) v x.
      Proof using OS Hf Ht Ep Hi He.
        intros Hq Hx. destruct shapes as (H1 & H2 & H3 & H4). destruct (elastic_history calls p Hf Ht Ep) as (_ & _ & _ & _ & H). destruct (H i Hi) as (HC & _ & _). destruct (HC e He) as (C0 & C1 & _).
        unfold tie_traction, mean_traction. rewrite C0, C1. cbn [with_strides kd_gdim]. rewrite (st_gdim _ _ T). change (g_n (geometry_at kd' coords f q)) with (interface_normal kd (pair true i) e q).
        assert (Hx' : (x < pd_gdim (pd true))%nat) by (now rewrite H2). f_equal. f_equal.
        - apply traction_ext; auto. intros c b Hc Hb. exact (own_gradient (pd true) kd num_pairs (pair true) ml TS i Hi e q st v c b Hb).
        - apply traction_ext; auto. intros c b Hc Hb. unfold other_grad. rewrite <- (tied_gradient (pd true) kd num_pairs (pair true) ml TS i Hi e He q Hq v c b Hb). apply rsum_ext. intros k Hk. cbn [with_strides kd_ndofs]. rewrite (st_ndofs _ _ T).
          apply rsum_ext. intros j Hj. rewrite H4 in Hj. rewrite H2 in Hb. destruct (row_tests q k j Hq Hk Hj) as [_ X]. now rewrite X.
      Qed.
    End Facet.

    (** The assembled vector, tested. *)
    Lemma elastic_vector_form rhs thermo rhs_p jac calls p u b v :
      elastic_kernels kd rhs thermo jac -> Forall fields_given calls -> Forall (fun k => call_type k <> ThermoElasticity) calls ->
      fold_left elastic_step calls None = Some p -> e_u p = Some (true, u) -> length v = length b ->
      exists r, tie_vector (asm true) num_pairs rhs thermo rhs_p Elasticity (after calls) b = Some r /\ length r = length b /\ applied r v = applied b v + form p u v.
    Proof using OS.
      intros HK Hf Ht Ep Eu Hv. destruct (elastic_history calls p Hf Ht Ep) as (G2 & G3 & G5 & G7 & H). set (s := after calls) in *.
      unfold tie_vector, assemble_vector_calls. rewrite combine_kernels, G2. cbn match.
      destruct (HK st) as ((j1 & K1) & _). destruct (C68_meshtie_kernels_local kd' j1) as [LR _]. destruct (LR MeshTieRhs ltac:(now left)) as (k1 & E1 & L1). rewrite K1 in E1. injection E1 as <-.
      destruct (tested_pairs (asm true) rhs st (fun i => nth i (MeshTieModel.coeffs s) []) (cstride s) (consts s) num_pairs b v L1 ltac:(intros; now apply (pair_well_formed _ _ _ _ _ TS)) Hv) as (r & Er & Lr & X).
      exists r. split; [exact Er|]. split; [exact Lr|]. rewrite X. f_equal. unfold elastic_form, over_interface. apply rsum_ext. intros i Hi. apply rsum_ext. intros e He. rewrite G5, G7.
      pose proof (ts_pairs _ _ _ _ _ TS i Hi) as PS. set (a := pr_asm (pair true i)) in *. destruct shapes as (H1 & H2 & H3 & H4).
      assert (Ll : (length (links_of a e) <= a_max_links a)%nat) by now apply (pair_well_formed _ _ _ _ _ TS i Hi).
      assert (Hnd : a_ndofs a = kd_ndofs kd') by (cbn [with_strides kd_ndofs]; rewrite (st_ndofs _ _ T); apply (se_ndofs _ _ _ PS)).
      assert (Hbs : a_bs a = kd_bs kd') by (cbn [with_strides kd_bs]; rewrite (st_bs _ _ T); apply (se_bs _ _ _ PS)).
      assert (Bv : vector_buffers kd' (length (links_of a e)) (repeat (repeat 0 (a_bs a * a_ndofs a)) (a_max_links a + 1))) by (apply zero_vectors; [auto|rewrite Hnd, Hbs; lia]).
      destruct (H i Hi) as (HC & (B1 & B2) & HU). destruct (HU u Eu) as (B3 & B4 & B5 & B6). destruct (HC e He) as (_ & _ & C2).
      pose proof (os_facets _ _ _ _ _ _ _ _ _ _ _ OS i Hi) as Hnf.
      assert (F : tie_fields kd' (coordinates_of a (nth (2 * e) (a_active a) 0%nat)) (nth (2 * e + 1) (a_active a) 0%nat) (slice (nth i (MeshTieModel.coeffs s) []) (e * sum_nat st) (sum_nat st))
        (length (links_of a e)) (points_of a e) (restrict a u (nth (2 * e) (a_active a) 0%nat)) (fun k => restrict a u (nth k (links_of a e) 0%nat))).
      { apply (elastic_fields (pd true) kd num_pairs (pair true) ml TS i Hi num_facets Hnf st); rewrite ?H1, ?H2, ?H3, ?H4; auto; try reflexivity. }
      pose proof (C70_meshtie_weak_form kd' j1 _ _ [e_gamma p; e_theta p] _ _ _ _ _ (restrict a v (nth (2 * e) (a_active a) 0%nat)) _ (fun k => restrict a v (nth k (links_of a e) 0%nat)) (rhs st) K1 bs_gdim Bv F) as W.
      cbv zeta in W. rewrite <- Hnd, <- Hbs in W. etransitivity; [|etransitivity; [exact W|]].
      - apply tested_ext. intros s0 j m _ _ _. unfold facet_result. unfold added_vec. rewrite nth_zeros, Rminus_0_r, Hbs. reflexivity.
      - apply lsum_ext. intros q Hq. change (surface_weight kd' _ _ q) with (interface_weight kd (pair true i) e q). f_equal. cbn [with_strides kd_gdim]. rewrite (st_gdim _ _ T). apply rsum_ext. intros x Hx. rewrite H2 in Hx.
        cbv zeta. rewrite !(jump_of calls p Hf Ht Ep i Hi e He q _ x Hq Hx), !(traction_of calls p Hf Ht Ep i Hi e He q _ x Hq Hx). rewrite C2. reflexivity.
    Qed.

    (** The matrix depends on the material and the constants only. *)
    Lemma elastic_matrix_same rhs thermo jac jac_p calls calls' p p' :
      elastic_kernels kd rhs thermo jac -> Forall fields_given calls -> Forall (fun k => call_type k <> ThermoElasticity) calls -> Forall fields_given calls' -> Forall (fun k => call_type k <> ThermoElasticity) calls' ->
      fold_left elastic_step calls None = Some p -> fold_left elastic_step calls' None = Some p' ->
      e_mu p = e_mu p' -> e_lambda p = e_lambda p' -> e_gamma p = e_gamma p' -> e_theta p = e_theta p' ->
      exists M M', tie_matrix (asm true) num_pairs jac jac_p Elasticity (after calls) = Some M /\ tie_matrix (asm true) num_pairs jac jac_p Elasticity (after calls') = Some M' /\
        forall w d, matrix_times gdim M w d = matrix_times gdim M' w d.
    Proof using OS.
      intros HK Hf Ht Hf' Ht' Ep Ep' Q1 Q2 Q3 Q4.
      destruct (elastic_history calls p Hf Ht Ep) as (_ & G3 & G5 & G7 & H). destruct (elastic_history calls' p' Hf' Ht' Ep') as (_ & G3' & G5' & G7' & H').
      pose proof (row_tests calls p Hf Ht Ep) as R1. pose proof (row_tests calls' p' Hf' Ht' Ep') as R2.
      set (s := after calls) in *. set (s' := after calls') in *.
      unfold tie_matrix, assemble_matrix_calls. rewrite !combine_repeat, G3, G3'. cbn match. rewrite G5, G5', G7, G7', <- Q3, <- Q4. clear Ep Ep'.
      destruct (run_matrix_pairs (asm true) jac st (fun i => nth i (MeshTieModel.coeffs s) []) (sum_nat st) [e_gamma p; e_theta p] num_pairs) as (M & EM & XM).
      destruct (run_matrix_pairs (asm true) jac st (fun i => nth i (MeshTieModel.coeffs s') []) (sum_nat st) [e_gamma p; e_theta p] num_pairs) as (M' & EM' & XM').
      exists M, M'. split; [exact EM|]. split; [exact EM'|]. intros w d. rewrite XM, XM'. apply rsum_ext. intros i Hi.
      destruct (HK st) as (_ & _ & (j3 & K3)). destruct (C68_meshtie_kernels_local kd' j3) as [_ (k3 & E3 & L3)]. rewrite K3 in E3. injection E3 as <-. injection K3 as K3.
      pose proof (ts_pairs _ _ _ _ _ TS i Hi) as PS. set (a := pr_asm (pair true i)) in *. destruct shapes as (H1 & H2 & H3 & H4).
      assert (Hnd : a_ndofs a = kd_ndofs kd') by (cbn [with_strides kd_ndofs]; rewrite (st_ndofs _ _ T); apply (se_ndofs _ _ _ PS)).
      assert (Hbs : a_bs a = kd_bs kd') by (cbn [with_strides kd_bs]; rewrite (st_bs _ _ T); apply (se_bs _ _ _ PS)).
      assert (Hg : a_bs a = gdim) by (rewrite <- H3; apply (se_bs _ _ _ PS)). replace (matrix_times gdim) with (matrix_times (a_bs a)) by now rewrite Hg.
      apply matrix_times_ext; auto.
      - apply (pair_well_formed _ _ _ _ _ TS i Hi).
      - intros e c He _. now apply (pair_dofs _ _ _ _ _ TS i Hi).
      - intros e r m n j l He Hr Hm Hn Hj Hl. cbv zeta. assert (Ll : (length (links_of a e) <= a_max_links a)%nat) by now apply (pair_well_formed _ _ _ _ _ TS i Hi).
        assert (Bm : matrix_buffers kd' (length (links_of a e)) (repeat (repeat 0 (a_bs a * a_ndofs a * a_bs a * a_ndofs a)) (3 * a_max_links a + 1))) by (apply zero_matrices; [auto|rewrite Hnd, Hbs; lia]).
        destruct (H i Hi) as (HC & _). destruct (HC e He) as (C0 & C1 & C2). destruct (H' i Hi) as (HC' & _). destruct (HC' e He) as (C0' & C1' & C2').
        assert (S : same_tie_data kd' (slice (nth i (MeshTieModel.coeffs s) []) (e * sum_nat st) (sum_nat st)) (slice (nth i (MeshTieModel.coeffs s') []) (e * sum_nat st) (sum_nat st)) (nth (2 * e + 1) (a_active a) 0%nat) (length (links_of a e)) (points_of a e)).
        { split; [now rewrite C0, C0', Q1|]. split; [now rewrite C1, C1', Q2|]. split; [now rewrite C2, C2'|]. intros q k x Hq Hk Hx. cbn [with_strides kd_ndofs kd_bs kd_gdim] in *. rewrite (st_ndofs _ _ T), H4 in Hx. rewrite (st_bs _ _ T), (st_gdim _ _ T), H2, H3.
          destruct (R1 i Hi e He q k x Hq Hk Hx) as [X1 X2]. destruct (R2 i Hi e He q k x Hq Hk Hx) as [Y1 Y2]. split; intros y Hy; [rewrite X1, Y1 | rewrite X2, Y2]; auto. }
        rewrite Hnd in Hm, Hj. rewrite Hbs in Hn, Hl.
        pose proof (meshtie_jac_same kd' j3 j3 _ _ [e_gamma p; e_theta p] (coordinates_of a (nth (2 * e) (a_active a) 0%nat)) _ _ _ _ r m n j l S bs_gdim Bm Hr Hm Hn Hj Hl) as X.
        unfold added_mat in X. cbv zeta in X. rewrite !nth_zeros, !Rminus_0_r in X. unfold facet_result. rewrite Hnd, Hbs in *. rewrite <- K3. exact X.
    Qed.

    (** The bilinear form of the matrix. *)
    Lemma elastic_matrix_form rhs thermo jac jac_p calls p :
      elastic_kernels kd rhs thermo jac -> Forall fields_given calls -> Forall (fun k => call_type k <> ThermoElasticity) calls -> fold_left elastic_step calls None = Some p ->
      exists M, tie_matrix (asm true) num_pairs jac jac_p Elasticity (after calls) = Some M /\
        forall w v, rsum (length v) (fun d => matrix_times gdim M w d * nth d v 0) = form p w v.
    Proof using OS.
      intros HK Hf Ht Ep.
      set (given w := TUpdate (F := field) Elasticity {| c_mu := None; c_lambda := None; c_alpha := None; c_kdt := None; c_u := Some (true, w); c_T := None |}).
      set (p' w := {| e_mu := e_mu p; e_lambda := e_lambda p; e_gamma := e_gamma p; e_theta := e_theta p; e_u := Some (true, w) |}).
      assert (Hf' : forall w, Forall fields_given (calls ++ [given w])).
      { intros w. apply Forall_app. split; [exact Hf|]. constructor; [|constructor]. split; intros f E; cbn in E; [injection E as <-; reflexivity|discriminate]. }
      assert (Ht' : forall w, Forall (fun k => call_type k <> ThermoElasticity) (calls ++ [given w])) by (intros w; apply Forall_app; split; [exact Ht|]; constructor; [discriminate|constructor]).
      assert (Ep' : forall w, fold_left elastic_step (calls ++ [given w]) None = Some (p' w)) by (intros w; now rewrite fold_left_app, Ep).
      destruct (elastic_matrix_same rhs thermo jac jac_p calls (calls ++ [given []]) p (p' []) HK Hf Ht (Hf' []) (Ht' []) Ep (Ep' []) eq_refl eq_refl eq_refl eq_refl) as (M & _ & EM & _).
      exists M. split; [exact EM|]. intros w v.
      destruct (elastic_matrix_same rhs thermo jac jac_p calls (calls ++ [given w]) p (p' w) HK Hf Ht (Hf' w) (Ht' w) Ep (Ep' w) eq_refl eq_refl eq_refl eq_refl) as (M1 & M' & EM1 & EM' & X). rewrite EM in EM1. injection EM1 as <-.
      destruct (C73_elastic_residual_is_matrix_times_displacement pd num_pairs pair num_facets nq nd gdim ml pack_h pack_coeff0 kd rhs thermo rhs jac jac_p (calls ++ [given w]) (p' w) w (repeat 0 (length v)) OS HK (Hf' w) (Ht' w) (Ep' w) eq_refl) as (r & M2 & Er & EM2 & Lr & Y).
      rewrite EM' in EM2. injection EM2 as <-.
      destruct (elastic_vector_form rhs thermo rhs jac (calls ++ [given w]) (p' w) w (repeat 0 (length v)) v HK (Hf' w) (Ht' w) (Ep' w) eq_refl ltac:(now rewrite repeat_length)) as (r2 & Er2 & Lr2 & Z).
      rewrite Er in Er2. injection Er2 as <-. rewrite repeat_length in Lr, Y.
      transitivity (applied r v); [|rewrite Z].
      - unfold applied. rewrite Lr. apply rsum_ext. intros d Hd. rewrite Y, nth_repeat, X by auto. ring.
      - unfold applied at 1. rewrite (rsum_zero _ (fun d => nth d (repeat 0 (length v)) 0 * nth d v 0)) by (intros; rewrite nth_repeat; ring). rewrite Rplus_0_l. reflexivity.
    Qed.
  End Elastic.

  Section PoissonTie.
    Context (kd : kernel_data) (OS : setting false kd).
    Notation st := (poisson_strides nq nd gdim ml).
    Notation TS := (os_tie _ _ _ _ _ _ _ _ _ _ _ OS).
    Notation T := (ts_tables _ _ _ _ _ TS).
    Notation kd' := (with_strides kd st).
    Notation form p := (poisson_form (pd false) kd num_pairs (pair false) (scalar (p_kdt p)) diameter (p_gamma p) (p_theta p)).

    Lemma poisson_history calls p : Forall fields_given calls -> fold_left poisson_step calls None = Some p ->
      let s := after calls in
      kernel_rhs_poisson s = Some st /\ kernel_jac_poisson s = Some st /\ cstride_poisson s = sum_nat st /\ consts_poisson s = [p_gamma p; p_theta p] /\
      forall i, (i < num_pairs)%nat ->
        (forall e, (e < a_local (pr_asm (pair false i)))%nat -> let r := slice (nth i (coeffs_poisson s) []) (e * sum_nat st) (sum_nat st) in
           nth 0 r 0 = nth e (pack_h i) 0 /\ nth 1 r 0 = nth e (fst (pack_coeff0 i (p_kdt p))) 0) /\
        (block_holds num_facets st (coeffs_poisson s) i 1 (fst (tie_test_pack (pd false) (pair false) ml i)) /\ block_holds num_facets st (coeffs_poisson s) i 2 (fst (tie_grad_test_pack (pd false) (pair false) ml i))) /\
        forall u, p_T p = Some (false, u) ->
          block_holds num_facets st (coeffs_poisson s) i 3 (fst (tie_q (pd false) (pair false) i u)) /\ block_holds num_facets st (coeffs_poisson s) i 4 (fst (tie_grad_q (pd false) (pair false) i u)) /\
          block_holds num_facets st (coeffs_poisson s) i 5 (fst (tie_opp (pd false) (pair false) i u)) /\ block_holds num_facets st (coeffs_poisson s) i 6 (fst (tie_grad_opp (pd false) (pair false) i u)).
    Proof using OS.
      intros Hf Ep s.
      pose proof (C63_poisson_history pack_h pack_coeff0 _ _ _ _ _ _ num_pairs num_facets nq nd gdim ml (os_coeff0 _ _ _ _ _ _ _ _ _ _ _ OS)
        (test_strides pd num_pairs pair num_facets nq nd gdim ml pack_coeff0 false kd OS) (grad_test_strides pd num_pairs pair num_facets nq nd gdim ml pack_coeff0 false kd OS) calls
        ltac:(eapply Forall_impl; [|exact Hf]; intros k; apply (fields_ok pd num_pairs pair num_facets nq nd gdim ml pack_coeff0 false kd OS))) as A.
      rewrite Ep in A. cbn [poisson_agrees] in A. fold (after calls) in A. fold s in A. destruct A as (G2 & G3 & G5 & G6 & G7 & G8 & G9). repeat (split; [assumption|]).
      intros i Hi. destruct (G8 i Hi) as (C0 & C1 & T1 & T2). split; [|split; [split; [exact T1|exact T2]|]].
      - intros e He. rewrite <- (os_facets _ _ _ _ _ _ _ _ _ _ _ OS i Hi) in He. cbv zeta.
        assert (L : (2 <= sum_nat st)%nat) by (unfold poisson_strides, sum_nat; cbn [fold_right]; lia).
        unfold scalar_column, entry in C0, C1. rewrite !nth_slice by lia. rewrite <- C0, <- C1 by auto. auto.
      - intros u Eu. destruct (G9 i Hi) as (D3 & D4 & D5 & D6). rewrite Eu in D3, D4, D5, D6. cbn [data_of fst snd] in *. auto.
    Qed.

    Section Facet.
      Context (calls : list (tie_call (F := field))) (p : poisson_input (F := field)) (Hf : Forall fields_given calls) (Ep : fold_left poisson_step calls None = Some p).
      Context (i : nat) (Hi : (i < num_pairs)%nat) (e : nat) (He : (e < a_local (pr_asm (pair false i)))%nat).
      Notation a := (pr_asm (pair false i)).
      Notation row := (slice (nth i (coeffs_poisson (after calls)) []) (e * sum_nat st) (sum_nat st)).
      Notation f := (nth (2 * e + 1) (a_active a) 0%nat).
      Notation coords := (coordinates_of a (nth (2 * e) (a_active a) 0%nat)).
      Notation U v := (fun j => restrict a v (nth (2 * e) (a_active a) 0%nat) j 0%nat).
      Notation Uo v := (fun k j => restrict a v (nth k (links_of a e) 0%nat) j 0%nat).
      Notation links := (length (links_of a e)).

      Lemma shapes1 : pd_nq (pd false) = nq /\ pd_gdim (pd false) = gdim /\ pd_bs (pd false) = 1%nat /\ pd_functions (pd false) = nd.
      Proof using OS. destruct (os_shapes _ _ _ _ _ _ _ _ _ _ _ OS false) as [H1 H2 H3 _ _]. repeat split; auto. apply (os_nd _ _ _ _ _ _ _ _ _ _ _ OS). Qed.
      Lemma bs1 : kd_bs kd' = 1%nat.
      Proof using OS. destruct shapes1 as (_ & H2 & H3 & _). cbn [with_strides kd_bs]. rewrite (st_bs _ _ T). exact H3. Qed.
      Lemma row_tests1 q k j : In q (points_of a e) -> (k < links)%nat -> (j < nd)%nat ->
        poisson_test kd' f row q k j = packed_test (pd false) (pair false) ml i e k j q 0 /\
        (forall b, (b < gdim)%nat -> poisson_test_grad kd' f row q k j b = packed_test_grad (pd false) (pair false) ml i e k j q b).
      Proof using OS Hf Ep Hi He.
        intros Hq Hk Hj. destruct (poisson_history calls p Hf Ep) as (_ & _ & _ & _ & H). destruct (H i Hi) as (_ & (B1 & B2) & _). destruct shapes1 as (H1 & H2 & H3 & H4).
        destruct (point_found (pd false) kd num_pairs (pair false) ml TS i Hi e He q Hq) as (Hq' & _). pose proof (links_bound (pd false) kd num_pairs (pair false) ml TS i Hi e He q Hq) as Hl.
        pose proof (os_facets _ _ _ _ _ _ _ _ _ _ _ OS i Hi) as Hnf.
        split; [|intros n Hn].
        - apply (row_test1 (pd false) kd num_pairs (pair false) ml TS i Hi num_facets Hnf st); rewrite ?H1, ?H2, ?H3, ?H4; auto; try lia; try reflexivity.
        - apply (row_test_grad1 (pd false) kd num_pairs (pair false) ml TS i Hi num_facets Hnf st); rewrite ?H1, ?H2, ?H3, ?H4; auto; try lia; try reflexivity.
      Qed.
      Lemma jump1 q v : In q (points_of a e) -> scalar_jump kd' f row links q (U v) (Uo v) = interface_jump (pd false) (pair false i) e q v 0.
      Proof using OS Hf Ep Hi He.
        intros Hq. destruct shapes1 as (H1 & H2 & H3 & H4). unfold scalar_jump, interface_jump, other_scalar. f_equal.
        - exact (own_value (pd false) kd num_pairs (pair false) ml TS i Hi e q st v 0).
        - rewrite <- (tied_value (pd false) kd num_pairs (pair false) ml TS i Hi e He q Hq v 0) by (rewrite H3; lia). apply rsum_ext. intros k Hk. cbn [with_strides kd_ndofs]. rewrite (st_ndofs _ _ T).
          apply rsum_ext. intros j Hj. rewrite H4 in Hj. destruct (row_tests1 q k j Hq Hk Hj) as [X _]. now rewrite X.
      Qed.
      Lemma flux1 q v : In q (points_of a e) -> scalar_flux kd' coords f row links q (U v) (Uo v) = mean_flux (pd false) kd (pair false i) e q v.
      Proof using OS Hf Ep Hi He.
        intros Hq. destruct shapes1 as (H1 & H2 & H3 & H4).
        unfold scalar_flux, mean_flux. cbn [with_strides kd_gdim]. rewrite (st_gdim _ _ T). change (g_n (geometry_at kd' coords f q)) with (interface_normal kd (pair false i) e q).
        apply rsum_ext. intros b Hb. f_equal. f_equal. f_equal.
        - exact (own_gradient (pd false) kd num_pairs (pair false) ml TS i Hi e q st v 0 b Hb).
        - rewrite <- (tied_gradient (pd false) kd num_pairs (pair false) ml TS i Hi e He q Hq v 0 b Hb). apply rsum_ext. intros k Hk. cbn [with_strides kd_ndofs]. rewrite (st_ndofs _ _ T).
          apply rsum_ext. intros j Hj. rewrite H4 in Hj. rewrite H2 in Hb. destruct (row_tests1 q k j Hq Hk Hj) as [_ X]. now rewrite X.
      Qed.
    End Facet.

    Lemma poisson_vector_form rhs thermo rhs_p jac_p calls p u b v :
      poisson_kernels kd rhs_p jac_p -> Forall fields_given calls ->
      fold_left poisson_step calls None = Some p -> p_T p = Some (false, u) -> length v = length b ->
      exists r, tie_vector (asm false) num_pairs rhs thermo rhs_p Poisson (after calls) b = Some r /\ length r = length b /\ applied r v = applied b v + form p u v.
    Proof using OS.
      intros HK Hf Ep Eu Hv. destruct (poisson_history calls p Hf Ep) as (G2 & G3 & G5 & G7 & H). set (s := after calls) in *.
      unfold tie_vector, assemble_vector_calls. rewrite combine_kernels, G2. cbn match.
      destruct (HK st) as ((j1 & K1) & _). destruct (C68_poisson_kernels_local kd' j1 bs1) as [(k1 & E1 & L1) _]. rewrite K1 in E1. injection E1 as <-.
      destruct (tested_pairs (asm false) rhs_p st (fun i => nth i (coeffs_poisson s) []) (cstride_poisson s) (consts_poisson s) num_pairs b v L1 ltac:(intros; now apply (pair_well_formed _ _ _ _ _ TS)) Hv) as (r & Er & Lr & X).
      exists r. split; [exact Er|]. split; [exact Lr|]. rewrite X. f_equal. unfold poisson_form, over_interface. apply rsum_ext. intros i Hi. apply rsum_ext. intros e He. rewrite G5, G7.
      pose proof (ts_pairs _ _ _ _ _ TS i Hi) as PS. set (a := pr_asm (pair false i)) in *. destruct shapes1 as (H1 & H2 & H3 & H4).
      assert (Ll : (length (links_of a e) <= a_max_links a)%nat) by now apply (pair_well_formed _ _ _ _ _ TS i Hi).
      assert (Hnd : a_ndofs a = kd_ndofs kd') by (cbn [with_strides kd_ndofs]; rewrite (st_ndofs _ _ T); apply (se_ndofs _ _ _ PS)).
      assert (Hbs : a_bs a = kd_bs kd') by (cbn [with_strides kd_bs]; rewrite (st_bs _ _ T); apply (se_bs _ _ _ PS)).
      assert (Bv : vector_buffers kd' (length (links_of a e)) (repeat (repeat 0 (a_bs a * a_ndofs a)) (a_max_links a + 1))) by (apply zero_vectors; [auto|rewrite Hnd, Hbs; lia]).
      destruct (H i Hi) as (HC & (B1 & B2) & HU). destruct (HU u Eu) as (B3 & B4 & B5 & B6). destruct (HC e He) as (C0 & C1).
      pose proof (os_facets _ _ _ _ _ _ _ _ _ _ _ OS i Hi) as Hnf.
      assert (F : poisson_fields kd' (coordinates_of a (nth (2 * e) (a_active a) 0%nat)) (nth (2 * e + 1) (a_active a) 0%nat) (slice (nth i (coeffs_poisson s) []) (e * sum_nat st) (sum_nat st))
        (length (links_of a e)) (points_of a e) (fun j => restrict a u (nth (2 * e) (a_active a) 0%nat) j 0%nat) (fun k j => restrict a u (nth k (links_of a e) 0%nat) j 0%nat)).
      { apply (poisson_row_fields (pd false) kd num_pairs (pair false) ml TS i Hi num_facets Hnf st); rewrite ?H1, ?H2, ?H3, ?H4; auto; try reflexivity. }
      pose proof (C70_poisson_weak_form kd' j1 _ _ [p_gamma p; p_theta p] _ _ _ _ _ (fun j => restrict a v (nth (2 * e) (a_active a) 0%nat) j 0%nat) _ (fun k j => restrict a v (nth k (links_of a e) 0%nat) j 0%nat) (rhs_p st) K1 Bv F) as W.
      cbv zeta in W. rewrite <- Hnd in W. pose proof bs1 as Hb1. rewrite Hb1 in Hbs. etransitivity; [|etransitivity; [exact W|]].
      - unfold tested, apply_row. rewrite Hbs. f_equal; [|apply rsum_ext; intros k _]; apply rsum_ext; intros j _; cbn [rsum]; unfold facet_result, added_vec; rewrite nth_zeros, Rminus_0_r, ?Hb1, ?Hbs; reflexivity.
      - apply lsum_ext. intros q Hq. change (surface_weight kd' _ _ q) with (interface_weight kd (pair false i) e q).
        cbv zeta. rewrite !(jump1 calls p Hf Ep i Hi e He q _ Hq), !(flux1 calls p Hf Ep i Hi e He q _ Hq). rewrite C0, C1. reflexivity.
    Qed.

    Lemma poisson_matrix_same rhs_p jac jac_p calls calls' p p' :
      poisson_kernels kd rhs_p jac_p -> Forall fields_given calls -> Forall fields_given calls' ->
      fold_left poisson_step calls None = Some p -> fold_left poisson_step calls' None = Some p' ->
      p_kdt p = p_kdt p' -> p_gamma p = p_gamma p' -> p_theta p = p_theta p' ->
      exists M M', tie_matrix (asm false) num_pairs jac jac_p Poisson (after calls) = Some M /\ tie_matrix (asm false) num_pairs jac jac_p Poisson (after calls') = Some M' /\
        forall w d, matrix_times 1 M w d = matrix_times 1 M' w d.
    Proof using OS.
      intros HK Hf Hf' Ep Ep' Q1 Q3 Q4.
      destruct (poisson_history calls p Hf Ep) as (_ & G3 & G5 & G7 & H). destruct (poisson_history calls' p' Hf' Ep') as (_ & G3' & G5' & G7' & H').
      pose proof (row_tests1 calls p Hf Ep) as R1. pose proof (row_tests1 calls' p' Hf' Ep') as R2.
      set (s := after calls) in *. set (s' := after calls') in *.
      unfold tie_matrix, assemble_matrix_calls. rewrite !combine_repeat, G3, G3'. cbn match. rewrite G5, G5', G7, G7', <- Q3, <- Q4. clear Ep Ep'.
      destruct (run_matrix_pairs (asm false) jac_p st (fun i => nth i (coeffs_poisson s) []) (sum_nat st) [p_gamma p; p_theta p] num_pairs) as (M & EM & XM).
      destruct (run_matrix_pairs (asm false) jac_p st (fun i => nth i (coeffs_poisson s') []) (sum_nat st) [p_gamma p; p_theta p] num_pairs) as (M' & EM' & XM').
      exists M, M'. split; [exact EM|]. split; [exact EM'|]. intros w d. rewrite XM, XM'. apply rsum_ext. intros i Hi.
      destruct (HK st) as (_ & (j3 & K3)). destruct (C68_poisson_kernels_local kd' j3 bs1) as [_ (k3 & E3 & L3)]. rewrite K3 in E3. injection E3 as <-.
      unfold generate_poisson_kernel in K3. rewrite bs1 in K3. cbn [Nat.eqb negb] in K3. injection K3 as K3.
      pose proof (ts_pairs _ _ _ _ _ TS i Hi) as PS. set (a := pr_asm (pair false i)) in *. destruct shapes1 as (H1 & H2 & H3 & H4).
      assert (Hnd : a_ndofs a = kd_ndofs kd') by (cbn [with_strides kd_ndofs]; rewrite (st_ndofs _ _ T); apply (se_ndofs _ _ _ PS)).
      assert (Hbs : a_bs a = kd_bs kd') by (cbn [with_strides kd_bs]; rewrite (st_bs _ _ T); apply (se_bs _ _ _ PS)).
      assert (Hg : a_bs a = 1%nat) by (rewrite <- H3; apply (se_bs _ _ _ PS)). replace (matrix_times 1) with (matrix_times (a_bs a)) by now rewrite Hg.
      apply matrix_times_ext; auto.
      - apply (pair_well_formed _ _ _ _ _ TS i Hi).
      - intros e c He _. now apply (pair_dofs _ _ _ _ _ TS i Hi).
      - intros e r m n j l He Hr Hm Hn Hj Hl. cbv zeta. assert (Ll : (length (links_of a e) <= a_max_links a)%nat) by now apply (pair_well_formed _ _ _ _ _ TS i Hi).
        assert (Bm : matrix_buffers kd' (length (links_of a e)) (repeat (repeat 0 (a_bs a * a_ndofs a * a_bs a * a_ndofs a)) (3 * a_max_links a + 1))) by (apply zero_matrices; [auto|rewrite Hnd, Hbs; lia]).
        destruct (H i Hi) as (HC & _). destruct (HC e He) as (C0 & C1). destruct (H' i Hi) as (HC' & _). destruct (HC' e He) as (C0' & C1').
        assert (S : same_poisson_data kd' (slice (nth i (coeffs_poisson s) []) (e * sum_nat st) (sum_nat st)) (slice (nth i (coeffs_poisson s') []) (e * sum_nat st) (sum_nat st)) (nth (2 * e + 1) (a_active a) 0%nat) (length (links_of a e)) (points_of a e)).
        { split; [now rewrite C0, C0'|]. split; [now rewrite C1, C1', Q1|]. intros q k x Hq Hk Hx. cbn [with_strides kd_ndofs kd_bs kd_gdim] in *. rewrite (st_ndofs _ _ T), H4 in Hx. rewrite (st_gdim _ _ T), H2.
          destruct (R1 i Hi e He q k x Hq Hk Hx) as [X1 X2]. destruct (R2 i Hi e He q k x Hq Hk Hx) as [Y1 Y2]. split; [exact (eq_trans X1 (eq_sym Y1))|]. intros y Hy. exact (eq_trans (X2 y Hy) (eq_sym (Y2 y Hy))). }
        rewrite Hnd in Hm, Hj. rewrite Hg in Hn, Hl. assert (n = 0)%nat as -> by lia. assert (l = 0)%nat as -> by lia.
        pose proof (poisson_jac_same kd' j3 j3 _ _ [p_gamma p; p_theta p] (coordinates_of a (nth (2 * e) (a_active a) 0%nat)) _ _ _ _ r m j S bs1 Bm Hr Hm Hj) as X.
        unfold added_mat in X. cbv zeta in X. rewrite !nth_zeros, !Rminus_0_r in X. unfold facet_result. rewrite Hnd, Hbs in *. rewrite <- K3. exact X.
    Qed.

    Lemma poisson_matrix_form rhs_p jac jac_p calls p :
      poisson_kernels kd rhs_p jac_p -> Forall fields_given calls -> fold_left poisson_step calls None = Some p ->
      exists M, tie_matrix (asm false) num_pairs jac jac_p Poisson (after calls) = Some M /\
        forall w v, rsum (length v) (fun d => matrix_times 1 M w d * nth d v 0) = form p w v.
    Proof using OS.
      intros HK Hf Ep.
      set (given w := TUpdate (F := field) Poisson {| c_mu := None; c_lambda := None; c_alpha := None; c_kdt := None; c_u := None; c_T := Some (false, w) |}).
      set (p' w := {| p_kdt := p_kdt p; p_gamma := p_gamma p; p_theta := p_theta p; p_T := Some (false, w) |}).
      assert (Hf' : forall w, Forall fields_given (calls ++ [given w])).
      { intros w. apply Forall_app. split; [exact Hf|]. constructor; [|constructor]. split; intros f E; cbn in E; [discriminate|injection E as <-; reflexivity]. }
      assert (Ep' : forall w, fold_left poisson_step (calls ++ [given w]) None = Some (p' w)) by (intros w; now rewrite fold_left_app, Ep).
      destruct (poisson_matrix_same rhs_p jac jac_p calls (calls ++ [given []]) p (p' []) HK Hf (Hf' []) Ep (Ep' []) eq_refl eq_refl eq_refl) as (M & _ & EM & _).
      exists M. split; [exact EM|]. intros w v.
      destruct (poisson_matrix_same rhs_p jac jac_p calls (calls ++ [given w]) p (p' w) HK Hf (Hf' w) Ep (Ep' w) eq_refl eq_refl eq_refl) as (M1 & M' & EM1 & EM' & X). rewrite EM in EM1. injection EM1 as <-.
      destruct (C73_poisson_residual_is_matrix_times_temperature pd num_pairs pair num_facets nq nd gdim ml pack_h pack_coeff0 kd rhs_p rhs_p rhs_p jac jac_p (calls ++ [given w]) (p' w) w (repeat 0 (length v)) OS HK (Hf' w) (Ep' w) eq_refl) as (r & M2 & Er & EM2 & Lr & Y).
      rewrite EM' in EM2. injection EM2 as <-.
      destruct (poisson_vector_form rhs_p rhs_p rhs_p jac_p (calls ++ [given w]) (p' w) w (repeat 0 (length v)) v HK (Hf' w) (Ep' w) eq_refl ltac:(now rewrite repeat_length)) as (r2 & Er2 & Lr2 & Z).
      rewrite Er in Er2. injection Er2 as <-. rewrite repeat_length in Lr, Y.
      transitivity (applied r v); [|rewrite Z].
      - unfold applied. rewrite Lr. apply rsum_ext. intros d Hd. rewrite Y, nth_repeat, X by auto. ring.
      - unfold applied at 1. rewrite (rsum_zero _ (fun d => nth d (repeat 0 (length v)) 0 * nth d v 0)) by (intros; rewrite nth_repeat; ring). rewrite Rplus_0_l. reflexivity.
    Qed.
  End PoissonTie.

  (** ** C105: elasticity *)
  (** The matrix of the object after any history of calls, applied to [w] and tested with
      [v], is the Nitsche form with the material and constants given last. *)
  Theorem C105_elastic_matrix_is_form :
    forall (kd : kernel_data) (rhs thermo jac jac_p : list nat -> kernel_fn) (calls : list tie_call) (p : elastic_input),
      setting true kd -> elastic_kernels kd rhs thermo jac -> Forall fields_given calls -> Forall (fun k => call_type k <> ThermoElasticity) calls -> fold_left elastic_step calls None = Some p ->
      exists M, tie_matrix (asm true) num_pairs jac jac_p Elasticity (after calls) = Some M /\
        forall w v, rsum (length v) (fun d => matrix_times gdim M w d * nth d v 0) =
          elastic_form (pd true) kd num_pairs (pair true) (scalar (e_mu p)) (scalar (e_lambda p)) diameter (e_gamma p) (e_theta p) w v.
  Proof. intros kd rhs thermo jac jac_p calls p OS HK Hf Ht Ep. exact (elastic_matrix_form kd OS rhs thermo jac jac_p calls p HK Hf Ht Ep). Qed.

  (** The same for the vector, with the displacement given last; for a displacement
      without jump only the work of the mean traction is left. *)
  Theorem C105_elastic_residual :
    forall (kd : kernel_data) (rhs thermo rhs_p jac : list nat -> kernel_fn) (calls : list tie_call) (p : elastic_input) (u b v : list R),
      setting true kd -> elastic_kernels kd rhs thermo jac -> Forall fields_given calls -> Forall (fun k => call_type k <> ThermoElasticity) calls -> fold_left elastic_step calls None = Some p ->
      e_u p = Some (true, u) -> length v = length b ->
      exists r, tie_vector (asm true) num_pairs rhs thermo rhs_p Elasticity (after calls) b = Some r /\ length r = length b /\
        applied r v = applied b v + elastic_form (pd true) kd num_pairs (pair true) (scalar (e_mu p)) (scalar (e_lambda p)) diameter (e_gamma p) (e_theta p) u v /\
        (continuous (pd true) num_pairs (pair true) u ->
         applied r v = applied b v - over_interface num_pairs (pair true) (fun i e q => interface_weight kd (pair true i) e q / 2 *
           rsum gdim (fun a => mean_traction (pd true) kd (pair true i) e q (scalar (e_mu p) i e) (scalar (e_lambda p) i e) u a * interface_jump (pd true) (pair true i) e q v a))).
  Proof.
    intros kd rhs thermo rhs_p jac calls p u b v OS HK Hf Ht Ep Eu Hv. destruct (elastic_vector_form kd OS rhs thermo rhs_p jac calls p u b v HK Hf Ht Ep Eu Hv) as (r & Er & Lr & X).
    exists r. repeat (split; [assumption|]). intros HC. rewrite X. unfold Rminus. f_equal. destruct (shapes kd OS) as (H1 & H2 & H3 & H4).
    unfold elastic_form, over_interface. rewrite <- rsum_opp. apply rsum_ext. intros i Hi. rewrite <- rsum_opp. apply rsum_ext. intros e He. rewrite <- lsum_opp. apply lsum_ext. intros q Hq.
    rewrite Ropp_mult_distr_r, H2, <- rsum_opp. f_equal. apply rsum_ext. intros a Ha. cbv zeta. rewrite (HC i e q a Hi He Hq ltac:(now rewrite H3)). ring.
  Qed.

  (** theta = 1: the assembled matrix is symmetric. *)
  Theorem C105_elastic_symmetric :
    forall (kd : kernel_data) (rhs thermo jac jac_p : list nat -> kernel_fn) (calls : list tie_call) (p : elastic_input),
      setting true kd -> elastic_kernels kd rhs thermo jac -> Forall fields_given calls -> Forall (fun k => call_type k <> ThermoElasticity) calls -> fold_left elastic_step calls None = Some p ->
      e_theta p = 1 ->
      exists M, tie_matrix (asm true) num_pairs jac jac_p Elasticity (after calls) = Some M /\
        forall w v, rsum (length v) (fun d => matrix_times gdim M w d * nth d v 0) = rsum (length w) (fun d => matrix_times gdim M v d * nth d w 0).
  Proof.
    intros kd rhs thermo jac jac_p calls p OS HK Hf Ht Ep E1. destruct (elastic_matrix_form kd OS rhs thermo jac jac_p calls p HK Hf Ht Ep) as (M & EM & X). exists M. split; [exact EM|]. intros w v. rewrite !X, E1.
    apply over_interface_ext. intros i e q _ _ _. f_equal. apply rsum_ext. intros a _. cbv zeta. ring.
  Qed.

  (** theta = -1: the energy of [w] is the penalty of its jump; so it is never negative,
      and zero only if [w] has no jump. *)
  Theorem C105_elastic_energy :
    forall (kd : kernel_data) (rhs thermo jac jac_p : list nat -> kernel_fn) (calls : list tie_call) (p : elastic_input),
      setting true kd -> elastic_kernels kd rhs thermo jac -> Forall fields_given calls -> Forall (fun k => call_type k <> ThermoElasticity) calls -> fold_left elastic_step calls None = Some p ->
      e_theta p = -1 ->
      exists M, tie_matrix (asm true) num_pairs jac jac_p Elasticity (after calls) = Some M /\
        forall w, let energy := rsum (length w) (fun d => matrix_times gdim M w d * nth d w 0) in
          energy = over_interface num_pairs (pair true) (fun i e q => interface_weight kd (pair true i) e q / 2 * (e_gamma p / diameter i e) * rsum gdim (fun a => Rsqr (interface_jump (pd true) (pair true i) e q w a))) /\
          (positive_data kd num_pairs (pair true) diameter -> 0 <= e_gamma p -> 0 <= energy) /\
          (positive_data kd num_pairs (pair true) diameter -> 0 < e_gamma p -> (energy = 0 <-> continuous (pd true) num_pairs (pair true) w)).
  Proof.
    intros kd rhs thermo jac jac_p calls p OS HK Hf Ht Ep E1. destruct (elastic_matrix_form kd OS rhs thermo jac jac_p calls p HK Hf Ht Ep) as (M & EM & X). exists M. split; [exact EM|]. intros w energy.
    destruct (shapes kd OS) as (H1 & H2 & H3 & H4).
    assert (E : energy = over_interface num_pairs (pair true) (fun i e q => interface_weight kd (pair true i) e q / 2 * (e_gamma p / diameter i e) * rsum gdim (fun a => Rsqr (interface_jump (pd true) (pair true i) e q w a)))).
    { unfold energy. rewrite X, E1. apply over_interface_ext. intros i e q _ _ _. rewrite Rmult_assoc. f_equal. rewrite <- rsum_scal, H2. apply rsum_ext. intros a _. cbv zeta. unfold Rsqr. ring. }
    assert (NN : positive_data kd num_pairs (pair true) diameter -> 0 <= e_gamma p -> forall i e q, (i < num_pairs)%nat -> (e < a_local (pr_asm (pair true i)))%nat -> In q (points_of (pr_asm (pair true i)) e) ->
      0 <= interface_weight kd (pair true i) e q / 2 * (e_gamma p / diameter i e) * rsum gdim (fun a => Rsqr (interface_jump (pd true) (pair true i) e q w a))).
    { intros HP Hg i e q Hi He Hq. destruct (HP i e q Hi He Hq) as [P1 P2]. apply Rmult_le_pos; [apply Rmult_le_pos; [lra|]|apply rsum_nonneg; intros; apply Rle_0_sqr].
      apply Rmult_le_pos; [exact Hg|]. apply Rlt_le, Rinv_0_lt_compat, P2. }
    split; [exact E|]. split.
    - intros HP Hg. rewrite E. apply over_interface_nonneg. now apply NN.
    - intros HP Hg. rewrite E. split.
      + intros E0 i e q n Hi He Hq Hn. rewrite H3 in Hn. destruct (HP i e q Hi He Hq) as [P1 P2].
        pose proof (over_interface_zero _ _ _ (NN HP ltac:(lra)) E0 i e q Hi He Hq) as Z. cbv beta in Z.
        assert (0 < interface_weight kd (pair true i) e q / 2 * (e_gamma p / nth e (pack_h i) 0)) by (apply Rmult_lt_0_compat; [lra|]; apply Rmult_lt_0_compat; [exact Hg|]; now apply Rinv_0_lt_compat).
        apply Rmult_integral in Z. destruct Z as [Z | Z]; [lra|]. apply Rsqr_0_uniq. exact (rsum_nonneg_zero _ _ (fun _ _ => Rle_0_sqr _) Z n Hn).
      + intros HC. unfold over_interface. apply rsum_zero. intros i Hi. apply rsum_zero. intros e He. apply lsum_zero. intros q Hq. rewrite (rsum_zero gdim); [ring|]. intros a Ha.
        rewrite (HC i e q a Hi He Hq ltac:(now rewrite H3)). unfold Rsqr. ring.
  Qed.

  (** ** C105: the Poisson tie *)
  Theorem C105_poisson_matrix_is_form :
    forall (kd : kernel_data) (rhs_p jac jac_p : list nat -> kernel_fn) (calls : list tie_call) (p : poisson_input),
      setting false kd -> poisson_kernels kd rhs_p jac_p -> Forall fields_given calls -> fold_left poisson_step calls None = Some p ->
      exists M, tie_matrix (asm false) num_pairs jac jac_p Poisson (after calls) = Some M /\
        forall w v, rsum (length v) (fun d => matrix_times 1 M w d * nth d v 0) =
          poisson_form (pd false) kd num_pairs (pair false) (scalar (p_kdt p)) diameter (p_gamma p) (p_theta p) w v.
  Proof. intros kd rhs_p jac jac_p calls p OS HK Hf Ep. exact (poisson_matrix_form kd OS rhs_p jac jac_p calls p HK Hf Ep). Qed.

  Theorem C105_poisson_residual :
    forall (kd : kernel_data) (rhs thermo rhs_p jac_p : list nat -> kernel_fn) (calls : list tie_call) (p : poisson_input) (u b v : list R),
      setting false kd -> poisson_kernels kd rhs_p jac_p -> Forall fields_given calls -> fold_left poisson_step calls None = Some p ->
      p_T p = Some (false, u) -> length v = length b ->
      exists r, tie_vector (asm false) num_pairs rhs thermo rhs_p Poisson (after calls) b = Some r /\ length r = length b /\
        applied r v = applied b v + poisson_form (pd false) kd num_pairs (pair false) (scalar (p_kdt p)) diameter (p_gamma p) (p_theta p) u v /\
        (continuous (pd false) num_pairs (pair false) u ->
         applied r v = applied b v - over_interface num_pairs (pair false) (fun i e q => scalar (p_kdt p) i e * (interface_weight kd (pair false i) e q / 2) *
           (mean_flux (pd false) kd (pair false i) e q u * interface_jump (pd false) (pair false i) e q v 0))).
  Proof.
    intros kd rhs thermo rhs_p jac_p calls p u b v OS HK Hf Ep Eu Hv. destruct (poisson_vector_form kd OS rhs thermo rhs_p jac_p calls p u b v HK Hf Ep Eu Hv) as (r & Er & Lr & X).
    exists r. repeat (split; [assumption|]). intros HC. rewrite X. unfold Rminus. f_equal. destruct (shapes1 kd OS) as (H1 & H2 & H3 & H4).
    unfold poisson_form, over_interface. rewrite <- rsum_opp. apply rsum_ext. intros i Hi. rewrite <- rsum_opp. apply rsum_ext. intros e He. rewrite <- lsum_opp. apply lsum_ext. intros q Hq.
    cbv zeta. rewrite (HC i e q 0%nat Hi He Hq ltac:(rewrite H3; lia)). ring.
  Qed.

  Theorem C105_poisson_symmetric :
    forall (kd : kernel_data) (rhs_p jac jac_p : list nat -> kernel_fn) (calls : list tie_call) (p : poisson_input),
      setting false kd -> poisson_kernels kd rhs_p jac_p -> Forall fields_given calls -> fold_left poisson_step calls None = Some p ->
      p_theta p = 1 ->
      exists M, tie_matrix (asm false) num_pairs jac jac_p Poisson (after calls) = Some M /\
        forall w v, rsum (length v) (fun d => matrix_times 1 M w d * nth d v 0) = rsum (length w) (fun d => matrix_times 1 M v d * nth d w 0).
  Proof.
    intros kd rhs_p jac jac_p calls p OS HK Hf Ep E1. destruct (poisson_matrix_form kd OS rhs_p jac jac_p calls p HK Hf Ep) as (M & EM & X). exists M. split; [exact EM|]. intros w v. rewrite !X, E1.
    apply over_interface_ext. intros i e q _ _ _. cbv zeta. ring.
  Qed.

  Theorem C105_poisson_energy :
    forall (kd : kernel_data) (rhs_p jac jac_p : list nat -> kernel_fn) (calls : list tie_call) (p : poisson_input),
      setting false kd -> poisson_kernels kd rhs_p jac_p -> Forall fields_given calls -> fold_left poisson_step calls None = Some p ->
      p_theta p = -1 ->
      exists M, tie_matrix (asm false) num_pairs jac jac_p Poisson (after calls) = Some M /\
        forall w, let energy := rsum (length w) (fun d => matrix_times 1 M w d * nth d w 0) in
          let conducting := forall i e, (i < num_pairs)%nat -> (e < a_local (pr_asm (pair false i)))%nat -> 0 < scalar (p_kdt p) i e in
          energy = over_interface num_pairs (pair false) (fun i e q => scalar (p_kdt p) i e * (interface_weight kd (pair false i) e q / 2) * (p_gamma p / diameter i e) * Rsqr (interface_jump (pd false) (pair false i) e q w 0)) /\
          (positive_data kd num_pairs (pair false) diameter -> conducting -> 0 <= p_gamma p -> 0 <= energy) /\
          (positive_data kd num_pairs (pair false) diameter -> conducting -> 0 < p_gamma p -> (energy = 0 <-> continuous (pd false) num_pairs (pair false) w)).
  Proof.
    intros kd rhs_p jac jac_p calls p OS HK Hf Ep E1. destruct (poisson_matrix_form kd OS rhs_p jac jac_p calls p HK Hf Ep) as (M & EM & X). exists M. split; [exact EM|]. intros w energy conducting.
    destruct (shapes1 kd OS) as (H1 & H2 & H3 & H4).
    assert (E : energy = over_interface num_pairs (pair false) (fun i e q => scalar (p_kdt p) i e * (interface_weight kd (pair false i) e q / 2) * (p_gamma p / diameter i e) * Rsqr (interface_jump (pd false) (pair false i) e q w 0))).
    { unfold energy. rewrite X, E1. apply over_interface_ext. intros i e q _ _ _. cbv zeta. unfold Rsqr. ring. }
    assert (NN : positive_data kd num_pairs (pair false) diameter -> conducting -> 0 <= p_gamma p -> forall i e q, (i < num_pairs)%nat -> (e < a_local (pr_asm (pair false i)))%nat -> In q (points_of (pr_asm (pair false i)) e) ->
      0 <= scalar (p_kdt p) i e * (interface_weight kd (pair false i) e q / 2) * (p_gamma p / diameter i e) * Rsqr (interface_jump (pd false) (pair false i) e q w 0)).
    { intros HP HK' Hg i e q Hi He Hq. destruct (HP i e q Hi He Hq) as [P1 P2]. pose proof (HK' i e Hi He) as P3. apply Rmult_le_pos; [apply Rmult_le_pos; [apply Rmult_le_pos; lra|]|apply Rle_0_sqr].
      apply Rmult_le_pos; [exact Hg|]. apply Rlt_le, Rinv_0_lt_compat, P2. }
    split; [exact E|]. split.
    - intros HP HK' Hg. rewrite E. apply over_interface_nonneg. now apply NN.
    - intros HP HK' Hg. rewrite E. split.
      + intros E0 i e q n Hi He Hq Hn. rewrite H3 in Hn. assert (n = 0)%nat as -> by lia. destruct (HP i e q Hi He Hq) as [P1 P2]. pose proof (HK' i e Hi He) as P3. cbv beta in P3.
        pose proof (over_interface_zero _ _ _ (NN HP HK' ltac:(lra)) E0 i e q Hi He Hq) as Z. cbv beta in Z.
        assert (0 < nth e (fst (pack_coeff0 i (p_kdt p))) 0 * (interface_weight kd (pair false i) e q / 2) * (p_gamma p / nth e (pack_h i) 0)).
        { apply Rmult_lt_0_compat; [apply Rmult_lt_0_compat; lra|]. apply Rmult_lt_0_compat; [exact Hg|]. now apply Rinv_0_lt_compat. }
        apply Rmult_integral in Z. destruct Z as [Z | Z]; [lra|]. now apply Rsqr_0_uniq.
      + intros HC. unfold over_interface. apply rsum_zero. intros i Hi. apply rsum_zero. intros e He. apply lsum_zero. intros q Hq.
        rewrite (HC i e q 0%nat Hi He Hq ltac:(rewrite H3; lia)). unfold Rsqr. ring.
  Qed.
End System.
Print Assumptions C105_elastic_matrix_is_form.
Print Assumptions C105_elastic_residual.
Print Assumptions C105_elastic_symmetric.
Print Assumptions C105_elastic_energy.
Print Assumptions C105_poisson_matrix_is_form.
Print Assumptions C105_poisson_residual.
Print Assumptions C105_poisson_symmetric.
Print Assumptions C105_poisson_energy.
