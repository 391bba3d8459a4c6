(** Rows of the mesh tie object hold the traces of the discrete solution. *)
From Coq Require Import List Arith ZArith Lia Bool Reals Lra Sorted.
Import ListNotations.
From Verif Require Import Prelude PreludeLemmas RSum EntitiesModel EntitiesProofs EntitiesProps PackingModel PackingProofs PackingProps PackUProps AssemblyModel AssemblyProofs AssemblyProps LayoutModel LayoutProps
  MeshTieModel MeshTieProps MeshTieHistoryProps RayModel KernelModel KernelProofs KernelSpec MeshTieKernelModel MeshTieKernelProps PoissonKernelProps CoefficientsModel CoefficientsProps SystemSpec TieSystemModel.
Local Open Scope R_scope.

(** ** Specification: what is assumed of the data *)
(** The kernel was generated from the space, mesh and quadrature rule that the
    coefficients are packed with.  The two Jacobian inverses depend only on the
    entries of the Jacobian. *)
Record same_tables (kd : kernel_data) (pd : pack_data) : Prop := {
  st_gdim : kd_gdim kd = pd_gdim pd; st_tdim : kd_tdim kd = pd_tdim pd; st_bs : kd_bs kd = pd_bs pd; st_ndofs : kd_ndofs kd = pd_functions pd;
  st_nodes : kd_nodes kd = pd_nodes pd; st_affine : kd_affine kd = pd_affine pd;
  st_offsets : forall f, kd_qp_offsets kd f = pd_q_offsets pd f; st_points : forall f, num_points kd f = pd_nq pd;
  st_phi : forall p j, kd_phi kd p j = pd_basis pd 0 p j 0%nat; st_dphi : forall k p j, kd_dphi kd k p j = pd_basis pd (k + 1) p j 0%nat;
  st_dphi_c : forall k p m, kd_dphi_c kd k p m = pd_dphi_c pd k p m;
  st_inverse : forall J J' : matrix, (forall i j, (i < pd_gdim pd)%nat -> (j < pd_tdim pd)%nat -> J i j = J' i j) ->
    forall k b, (k < pd_tdim pd)%nat -> (b < pd_gdim pd)%nat -> kd_inverse kd J k b = pd_inverse pd J' k b }.

(** Every quadrature point of a facet has a contact facet, or none has (see C16
    and C17 for facets of which some points are missing). *)
Definition found_or_missing (row : list Z) : Prop := (forall f, In f row -> (0 <= f)%Z) \/ (forall f, In f row -> (f < 0)%Z).

Record pair_setting (pd : pack_data) (ml : nat) (p : tie_pair) : Prop := {
  se_ml : a_max_links (pr_asm p) = ml; se_ndofs : a_ndofs (pr_asm p) = pd_functions pd; se_bs : a_bs (pr_asm p) = pd_bs pd;
  se_gdim : a_gdim (pr_asm p) = pd_gdim pd; se_gdim3 : (pd_gdim pd <= 3)%nat; se_nodes : a_num_dofs_g (pr_asm p) = pd_nodes pd;
  se_x_dofmap : forall c, a_x_dofmap (pr_asm p) c = pd_x_dofmap pd c; se_x_length : forall c, length (pd_x_dofmap pd c) = pd_nodes pd;
  se_x : a_x (pr_asm p) = pd_x pd; se_dofs : forall c, a_dofs (pr_asm p) c = pd_dofs pd c;
  se_active : exists entities, lists_entities ExteriorFacet (a_active (pr_asm p)) entities /\ (a_local (pr_asm p) <= length entities)%nat;
  se_map : forall e, (e < a_local (pr_asm p))%nat -> a_map (pr_asm p) e = slice (pr_facets p) (e * pd_nq pd) (pd_nq pd);
  se_links : forall e, (e < a_local (pr_asm p))%nat -> (length (linked_cells (slice (pr_facets p) (e * pd_nq pd) (pd_nq pd)) (a_facet_map (pr_asm p)) (a_parent (pr_asm p))) <= ml)%nat;
  se_packing : packing_setting (a_local (pr_asm p)) (pd_nq pd) (pd_functions pd) (pr_n_sub p) (pr_nds p) (a_facet_map (pr_asm p)) (a_parent (pr_asm p)) (pr_f_to_c p) (pr_dofs_sub p) (a_dofs (pr_asm p)) (pr_facets p);
  se_found : forall e, (e < a_local (pr_asm p))%nat -> found_or_missing (slice (pr_facets p) (e * pd_nq pd) (pd_nq pd)) }.

Record tie_setting (pd : pack_data) (kd : kernel_data) (num_pairs : nat) (pair : nat -> tie_pair) (ml : nat) : Prop := {
  ts_space : pack_space pd; ts_affine : affine_tables pd; ts_transforms : pd_transforms pd = false; ts_vs : pd_vs pd = 1%nat;
  ts_dbs : pd_dofmap_bs pd = pd_bs pd;
  ts_tables : same_tables kd pd;
  ts_pairs : forall i, (i < num_pairs)%nat -> pair_setting pd ml (pair i) }.

(** ** Proofs *)
Section Rows.
  Context (pd : pack_data) (kd : kernel_data) (num_pairs : nat) (pair : nat -> tie_pair) (ml : nat).
  Context (TS : tie_setting pd kd num_pairs pair ml).
  Notation nq := (pd_nq pd).
  Notation nd := (pd_functions pd).
  Notation bs := (pd_bs pd).
  Notation gdim := (pd_gdim pd).

  Lemma setting_dofs c : length (pd_dofs pd c) = nd.
  Proof. pose proof (ps_dofs _ (ts_space _ _ _ _ _ TS) c) as H. pose proof (ps_bs _ (ts_space _ _ _ _ _ TS)). rewrite (ts_dbs _ _ _ _ _ TS) in H. nia. Qed.
  Lemma setting_coefficient u c m r : (r < bs)%nat -> cell_coefficient pd u c m r = dof_value bs (pd_dofs pd c) u m r.
  Proof.
    intros Hr. unfold cell_coefficient, dof_value. cbv zeta. rewrite (ts_dbs _ _ _ _ _ TS), (div_block m bs r Hr).
    replace ((m * bs + r) mod bs)%nat with r by (rewrite Nat.add_comm, Nat.mod_add by lia; now rewrite Nat.mod_small). reflexivity.
  Qed.

  Section Pair.
    Context (i : nat) (Hi : (i < num_pairs)%nat).
    Notation asm := (pr_asm (pair i)).
    Notation PS := (ts_pairs _ _ _ _ _ TS i Hi).

    Lemma setting_coordinates cell m k : (m < pd_nodes pd)%nat -> (k < gdim)%nat -> nth (m * 3 + k) (coordinates_of asm cell) 0 = coordinate_dofs pd cell m k.
    Proof.
      intros Hm Hk. unfold coordinates_of, coordinate_dofs. rewrite (se_x_dofmap _ _ _ PS), (se_x _ _ _ PS), (se_gdim _ _ _ PS). pose proof (se_gdim3 _ _ _ PS).
      rewrite (nth_flat_map_const _ 3 _ _ _ _ 0%nat) by (first [reflexivity | rewrite (se_x_length _ _ _ PS); exact Hm | lia]).
      rewrite (nth_map_lt _ (seq 0 3) k 0 0%nat) by (rewrite seq_length; lia). rewrite seq_nth by lia. cbn [Nat.add].
      destruct (Nat.ltb_spec k gdim); [reflexivity|lia].
    Qed.
    Lemma setting_phys_grad cell f q j b : (b < gdim)%nat -> phys_grad kd (coordinates_of asm cell) f q j b = basis_derivative pd cell f q b j 0%nat.
    Proof.
      intros Hb. pose proof (ts_tables _ _ _ _ _ TS) as T. unfold phys_grad, basis_derivative. cbv zeta. rewrite (st_tdim _ _ T). apply rsum_ext. intros k Hk.
      rewrite (st_dphi _ _ T), (st_offsets _ _ T). f_equal. unfold geometry_at. cbn [g_K]. unfold compute_facet_jacobian. cbn [fst].
      rewrite (st_affine _ _ T).
      assert (X : forall p, kd_inverse kd (fun i0 j0 => for_loop (kd_nodes kd) (fun a acc => acc + nth (a * 3 + i0) (coordinates_of asm cell) 0 * kd_dphi_c kd j0 p a) 0) k b = pd_inverse pd (pack_jacobian pd cell p) k b).
      { intros p. apply (st_inverse _ _ T); auto. intros i0 j0 Hi0 Hj0. unfold pack_jacobian. rewrite (st_nodes _ _ T). apply for_loop_ext. intros m s Hm. rewrite setting_coordinates by auto. now rewrite (st_dphi_c _ _ T). }
      rewrite X. rewrite !(st_offsets _ _ T). destruct (pd_affine pd) eqn:Ha; [|reflexivity].
      now rewrite (affine_jacobian pd cell (pd_q_offsets pd f) (pd_q_offsets pd f + q) (ts_affine _ _ _ _ _ TS) Ha).
    Qed.

    Section Facet.
      Context (e : nat) (He : (e < a_local asm)%nat) (u : list R).
      Notation cell := (nth (2 * e) (a_active asm) 0%nat).
      Notation f := (nth (2 * e + 1) (a_active asm) 0%nat).
      Notation U := (restrict asm u cell).
      Notation Uo := (fun k => restrict asm u (nth k (links_of asm e) 0%nat)).

      Lemma active_cell : exists entities, lists_entities ExteriorFacet (a_active asm) entities /\ (e < length entities)%nat /\ nth e entities (0, 0)%nat = (cell, f).
      Proof.
        destruct (se_active _ _ _ PS) as (entities & HL & Hn). exists entities. split; [exact HL|]. split; [lia|].
        destruct (listed_entities _ _ _ HL) as [_ E]. now rewrite <- (E e) by lia.
      Qed.
      Lemma restrict_value c m r : restrict asm u c m r = dof_value bs (pd_dofs pd c) u m r.
      Proof. unfold restrict. now rewrite (se_bs _ _ _ PS), (se_dofs _ _ _ PS). Qed.

      Lemma row_value_q q n : (q < nq)%nat -> (n < bs)%nat ->
        nth (e * (nq * bs) + q * bs + n) (fst (tie_q pd pair i u)) 0 = rsum nd (fun j => kd_phi kd (kd_qp_offsets kd f + q) j * U j n).
      Proof.
        intros Hq Hn. pose proof (ts_tables _ _ _ _ _ TS) as T. destruct active_cell as (entities & HL & Hl & Ec).
        destruct (C71_values_are_function_values pd u ExteriorFacet (a_active asm) entities (ts_space _ _ _ _ _ TS) (ts_affine _ _ _ _ _ TS) ltac:(intros; apply (ts_dbs _ _ _ _ _ TS)) HL) as (c & E & _ & X).
        unfold tie_q. rewrite E. cbn [packed fst]. specialize (X e q n 0%nat Hl Hq Hn ltac:(rewrite (ts_vs _ _ _ _ _ TS); lia)). rewrite Ec in X. unfold value_size in X. rewrite (ts_vs _ _ _ _ _ TS) in X.
        replace (e * (nq * bs) + q * bs + n)%nat with (e * (bs * 1 * nq) + q * (bs * 1) + (n * 1 + 0))%nat by lia. rewrite X.
        unfold function_value, physical_basis. rewrite (ts_transforms _ _ _ _ _ TS). cbv zeta. apply rsum_ext. intros m _. rewrite setting_coefficient, restrict_value by auto.
        now rewrite (st_phi _ _ T), (st_offsets _ _ T).
      Qed.
      Lemma row_value_grad q n b : (q < nq)%nat -> (n < bs)%nat -> (b < gdim)%nat ->
        nth (e * (nq * bs * gdim) + q * bs * gdim + n * gdim + b) (fst (tie_grad_q pd pair i u)) 0 = rsum nd (fun j => phys_grad kd (coordinates_of asm cell) f q j b * U j n).
      Proof.
        intros Hq Hn Hb. destruct active_cell as (entities & HL & Hl & Ec).
        destruct (C72_gradients_are_function_gradients pd u ExteriorFacet (a_active asm) entities (ts_space _ _ _ _ _ TS) (ts_affine _ _ _ _ _ TS) (ts_transforms _ _ _ _ _ TS) HL) as (c & E & _ & X).
        unfold tie_grad_q. rewrite E. cbn [packed fst]. specialize (X e q n 0%nat b Hl Hq Hn ltac:(rewrite (ts_vs _ _ _ _ _ TS); lia) Hb). rewrite Ec in X. unfold value_size in X. rewrite (ts_vs _ _ _ _ _ TS) in X.
        replace (e * (nq * bs * gdim) + q * bs * gdim + n * gdim + b)%nat with (e * (bs * 1 * nq * gdim) + q * (bs * 1 * gdim) + (n * 1 + 0) * gdim + b)%nat by nia. rewrite X.
        unfold function_value. apply rsum_ext. intros m _. rewrite setting_coefficient, restrict_value by auto. now rewrite setting_phys_grad.
      Qed.

      (** Test functions of the linked cells at point [q]. *)
      Definition packed_test (k j q n : nat) : R := nth (((((e * ml + k) * nd + j) * nq + q) * bs + n)) (fst (tie_test_pack pd pair ml i)) 0.
      Definition packed_test_grad (k j q b : nat) : R := nth (((((e * ml + k) * nd + j) * nq + q) * gdim + b)) (fst (tie_grad_test_pack pd pair ml i)) 0.

      Lemma point_found q : In q (points_of asm e) -> (q < nq)%nat /\ (forall x, In x (slice (pr_facets (pair i)) (e * nq) nq) -> (0 <= x)%Z) /\
        links_of asm e = linked_cells (slice (pr_facets (pair i)) (e * nq) nq) (a_facet_map asm) (a_parent asm).
      Proof.
        unfold points_of, links_of. destruct (a_max_links asm =? 0)%nat; [intros []|]. rewrite (se_map _ _ _ PS) by auto. intros H. apply filter_In in H as [H1 H2]. apply in_seq in H1.
        assert (L : length (slice (pr_facets (pair i)) (e * nq) nq) = nq).
        { apply slice_length. destruct (se_packing _ _ _ PS) as (-> & _). nia. }
        rewrite L in H1. split; [lia|]. split; [|reflexivity].
        destruct (se_found _ _ _ PS e He) as [A|A]; [exact A|]. apply Z.leb_le in H2. assert (Hin : In (nth q (slice (pr_facets (pair i)) (e * nq) nq) 0%Z) (slice (pr_facets (pair i)) (e * nq) nq)) by (apply nth_In; lia). specialize (A _ Hin). lia.
      Qed.
      Lemma row_value_opp q n : In q (points_of asm e) -> (n < bs)%nat ->
        nth (e * (nq * bs) + q * bs + n) (fst (tie_opp pd pair i u)) 0 = rsum (length (links_of asm e)) (fun k => rsum nd (fun j => packed_test k j q n * Uo k j n)).
      Proof.
        intros Hp Hn. destruct (point_found q Hp) as (Hq & Hall & El).
        destruct (C18_consistent_with_test_functions (a_local asm) nq nd bs ml (pr_n_sub (pair i)) (pr_nds (pair i)) (a_facet_map asm) (a_parent asm) (pr_f_to_c (pair i)) (pr_dofs_sub (pair i)) (a_dofs asm) (pr_facets (pair i)) u (pr_basis (pair i))
          (se_packing _ _ _ PS) (se_links _ _ _ PS)) as (t & E & X).
        cbn zeta in X. unfold tie_opp. cbn [fst]. rewrite (X e q n He Hq Hn Hall). unfold from_test_functions. rewrite <- El. apply rsum_ext. intros k _. apply rsum_ext. intros j _.
        unfold packed_test, tie_test_pack, restrict. cbn [fst]. rewrite E, (se_bs _ _ _ PS). reflexivity.
      Qed.
      Lemma row_value_grad_opp q n b : In q (points_of asm e) -> (n < bs)%nat -> (b < gdim)%nat ->
        nth (e * (nq * bs * gdim) + q * bs * gdim + n * gdim + b) (fst (tie_grad_opp pd pair i u)) 0 = rsum (length (links_of asm e)) (fun k => rsum nd (fun j => packed_test_grad k j q b * Uo k j n)).
      Proof.
        intros Hp Hn Hb. destruct (point_found q Hp) as (Hq & Hall & El).
        destruct (C18_consistent_with_grad_test_functions (a_local asm) nq nd bs ml gdim (pr_n_sub (pair i)) (pr_nds (pair i)) (a_facet_map asm) (a_parent asm) (pr_f_to_c (pair i)) (pr_dofs_sub (pair i)) (a_dofs asm) (pr_facets (pair i)) u (pr_grad (pair i))
          (se_packing _ _ _ PS) (se_links _ _ _ PS)) as (t & E & X).
        cbn zeta in X. unfold tie_grad_opp. cbn [fst]. rewrite (X e q n b He Hq Hn Hb Hall). unfold from_test_functions. rewrite <- El. apply rsum_ext. intros k _. apply rsum_ext. intros j _.
        unfold packed_test_grad, tie_grad_test_pack, restrict. cbn [fst]. rewrite E, (se_bs _ _ _ PS). reflexivity.
      Qed.

      (** A point lies in one linked cell; there the test functions are the basis
          functions at the contact point. *)
      Lemma point_link q : In q (points_of asm e) -> exists k0, ((k0 < length (links_of asm e))%nat /\ nth k0 (links_of asm e) 0%nat = contact_cell (a_facet_map asm) (a_parent asm) (nth q (slice (pr_facets (pair i)) (e * nq) nq) (-1)%Z)) /\
        (forall k j n, (k < length (links_of asm e))%nat -> (j < nd)%nat -> (n < bs)%nat -> packed_test k j q n = if (k =? k0)%nat then pr_basis (pair i) (e * nq + q)%nat j else 0) /\
        (forall k j b, (k < length (links_of asm e))%nat -> (j < nd)%nat -> (b < gdim)%nat -> packed_test_grad k j q b = if (k =? k0)%nat then pr_grad (pair i) (nth k0 (links_of asm e) 0%nat) (e * nq + q)%nat j b else 0).
      Proof.
        intros Hp. destruct (point_found q Hp) as (Hq & Hall & El). pose proof (se_packing _ _ _ PS) as HS. pose proof HS as (Hlen & Hcf & Hb & Hd & Hn & Hpc & Hf).
        set (row := slice (pr_facets (pair i)) (e * nq) nq) in *.
        assert (L : length row = nq) by (apply slice_length; rewrite Hlen; nia).
        destruct (C16_pack_test_functions_partial 0 (a_local asm) nq ml nd bs (a_facet_map asm) (a_parent asm) (pr_facets (pair i)) (pr_basis (pair i)) Hlen (se_links _ _ _ PS)) as (t & Et & _ & Ht).
        destruct (C17_pack_grad_test_functions_partial 0 (a_local asm) nq ml nd gdim (a_facet_map asm) (a_parent asm) (pr_facets (pair i)) (pr_grad (pair i)) Hlen Hpc) as (g & Eg & _ & Hg); [|apply (se_links _ _ _ PS)|].
        { intros x Hin Lx. rewrite <- Hn. apply Hf; auto. }
        assert (Hin : In (nth q row (-1)%Z) row) by (apply nth_In; lia).
        assert (Hc : In (contact_cell (a_facet_map asm) (a_parent asm) (nth q row (-1)%Z)) (links_of asm e)).
        { rewrite El. apply linked_cells_in. exists (nth q row (-1)%Z). split; [exact Hin|]. split; [apply Hall; exact Hin|reflexivity]. }
        apply (In_nth _ _ 0%nat) in Hc. destruct Hc as (k0 & Hk0 & E0). exists k0. split; [split; [exact Hk0|exact E0]|].
        pose proof (se_links _ _ _ PS e He) as Hml. fold row in Hml. rewrite <- El in Hml.
        assert (ND : NoDup (links_of asm e)) by (rewrite El; eapply StronglySorted_lt_NoDup; [|apply linked_sorted]; apply Nat.lt_irrefl).
        assert (Hin0 : in_link (a_facet_map asm) (a_parent asm) row q k0).
        { split; [apply Hall; exact Hin|]. rewrite <- El. split; [exact Hk0|exact E0]. }
        assert (Hno : forall k, (k < length (links_of asm e))%nat -> k <> k0 -> ~ in_link (a_facet_map asm) (a_parent asm) row q k).
        { intros k Hk Hne (_ & _ & En). apply Hne. rewrite <- El in En. apply (proj1 (NoDup_nth _ 0%nat) ND); auto. exact (eq_trans En (eq_sym E0)). }
        split; intros k j n Hk Hj Hn'; unfold packed_test, packed_test_grad, tie_test_pack, tie_grad_test_pack; cbn [fst]; rewrite ?Et, ?Eg.
        - destruct (Ht e k j q n He ltac:(lia) Hj Hq Hn' Hall) as [X1 X2]. destruct (Nat.eqb_spec k k0) as [->|Hne]; [apply X1; exact Hin0|apply X2, Hno; auto].
        - destruct (Hg e k j q n He ltac:(lia) Hj Hq Hn' Hall) as [X1 X2]. destruct (Nat.eqb_spec k k0) as [->|Hne]; [rewrite El; apply X1; exact Hin0|apply X2, Hno; auto].
      Qed.
    End Facet.
  End Pair.
End Rows.
