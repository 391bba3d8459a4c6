(** Property C79: assembled contact forces and heat flows are in balance. *)
From Coq Require Import List Arith ZArith Lia Bool Reals Lra.
Import ListNotations.
From Verif Require Import Prelude PreludeLemmas RSum RealLemmas LayoutModel LayoutProps ContactProblemModel ContactProblemProps.
From Verif Require Import EntitiesModel PackingModel PackUProps AssemblyModel AssemblyProofs AssemblyProps MeshTieModel MeshTieProps MeshTieHistoryProps RayModel KernelModel KernelProofs KernelSpec
  MeshTieKernelModel MeshTieKernelProps PoissonKernelProps ContactKernelModel ContactKernelSpec ContactKernelProps FrictionKernelProps CoefficientsModel CoefficientsProps SystemSpec TieSystemModel TieSystemProofs TieSystemProps
  ContactSystemModel ContactSystemSpec ContactSystemProofs ContactSystemProps SystemBalanceSpec.
Local Open Scope R_scope.

(** ** Specification *)
(** The basis functions of the space sum to one at the quadrature points, their
    derivatives to zero; so do the basis functions of the other surface at the
    contact points, and their derivatives. *)
Definition cell_partition (kd : kernel_data) (num_pairs : nat) (pair : nat -> tie_pair) : Prop :=
  forall i e q, (i < num_pairs)%nat -> let a := pr_asm (pair i) in (e < a_local a)%nat -> In q (points_of a e) ->
    let p := (kd_qp_offsets kd (nth (2 * e + 1) (a_active a) 0%nat) + q)%nat in
    rsum (kd_ndofs kd) (fun j => kd_phi kd p j) = 1 /\ forall k, (k < kd_tdim kd)%nat -> rsum (kd_ndofs kd) (fun j => kd_dphi kd k p j) = 0.
Definition opposite_partition (pd : pack_data) (num_pairs : nat) (pair : nat -> tie_pair) : Prop :=
  forall i e q, (i < num_pairs)%nat -> (e < a_local (pr_asm (pair i)))%nat -> In q (points_of (pr_asm (pair i)) e) ->
    rsum (pd_functions pd) (fun j => pr_basis (pair i) (e * pd_nq pd + q)%nat j) = 1.
Definition opposite_gradients (pd : pack_data) (num_pairs : nat) (pair : nat -> tie_pair) : Prop :=
  forall i e q c b, (i < num_pairs)%nat -> (e < a_local (pr_asm (pair i)))%nat -> In q (points_of (pr_asm (pair i)) e) -> (b < pd_gdim pd)%nat ->
    rsum (pd_functions pd) (fun j => pr_grad (pair i) c (e * pd_nq pd + q)%nat j b) = 0.

(** ** Lemmas *)
Lemma phys_grad_total kd coords f q b : (forall k, (k < kd_tdim kd)%nat -> rsum (kd_ndofs kd) (fun j => kd_dphi kd k (kd_qp_offsets kd f + q) j) = 0) ->
  rsum (kd_ndofs kd) (fun j => phys_grad kd coords f q j b) = 0.
Proof.
  intros H. unfold phys_grad. rewrite rsum_swap. apply rsum_zero. intros k Hk. rewrite rsum_scal, H by auto. ring.
Qed.
Lemma element_balanced_from_added kd a (kernel : kernel_fn) cf cstride w e n :
  a_ndofs a = kd_ndofs kd -> a_bs a = kd_bs kd -> (n < a_bs a)%nat ->
  let Bv := repeat (repeat 0 (a_bs a * a_ndofs a)) (a_max_links a + 1) in
  let vec := added_vec kd Bv (kernel Bv (slice cf (e * cstride) cstride) w (coordinates_of a (nth (2 * e) (a_active a) 0%nat)) (nth (2 * e + 1) (a_active a) 0%nat) (length (links_of a e)) (points_of a e)) in
  rsum (kd_ndofs kd) (fun i => vec 0%nat i n) + rsum (length (links_of a e)) (fun k => rsum (kd_ndofs kd) (fun i => vec (k + 1)%nat i n)) = 0 ->
  element_balanced (a_ndofs a) (a_bs a) (length (links_of a e)) (facet_result a kernel cf cstride w (a_max_links a + 1) (a_bs a * a_ndofs a) e) n.
Proof.
  intros Hnd Hbs Hn Bv vec X. unfold element_balanced. cbv zeta. refine (eq_trans _ X). unfold vec, added_vec, facet_result, Bv. cbv zeta. rewrite Hnd, Hbs. f_equal.
  - apply rsum_ext. intros i Hi. now rewrite nth_zeros, Rminus_0_r.
  - apply rsum_ext. intros k _. apply rsum_ext. intros i Hi. now rewrite nth_zeros, Rminus_0_r.
Qed.

(** ** Contact *)
Section Object.
  Context {G : Type} (pd : pack_data) (kd : kernel_data) (num_pairs : nat) (surfaces : nat -> tie_pair) (basis : G -> (nat -> list Z) -> nat -> nat -> nat -> R)
    (num_rows : nat -> nat) (move : G -> list R -> G) (detect : G -> nat -> list Z) (pack_gap pack_normals : nat -> G -> (nat -> list Z) -> list (list R))
    (pack_param : nat -> list R -> list (list R)) (pack_h : nat -> list (list R)).
  Notation nq := (pd_nq pd).
  Notation nd := (pd_functions pd).
  Notation bs := (pd_bs pd).
  Notation gdim := (pd_gdim pd).
  Notation after := (contact_after pd num_pairs surfaces basis num_rows move detect pack_gap pack_normals pack_param pack_h).
  Notation pairs s := (pair_at pd surfaces basis (cp_geom s) (cp_map s)).
  Notation strides := (contact_kernel_strides nq nd gdim gdim nq).
  Notation kd' := (with_strides kd strides).
  Notation NC := (stride pd).
  Notation row s i e := (slice (concat (nth i (cp_coeffs s) [])) (e * NC) NC).

  Lemma object_partition g calls (s := after g calls) : Forall no_crop calls -> cp_ready s = true -> (forall i, (num_local surfaces i <= num_rows i)%nat) ->
    tie_setting pd kd num_pairs (pairs s) nq -> bs = gdim -> cell_partition kd num_pairs (pairs s) -> opposite_partition pd num_pairs (pairs s) ->
    forall i e, (i < num_pairs)%nat -> let asm := pr_asm (pairs s i) in (e < a_local asm)%nat ->
    contact_partition kd' (coordinates_of asm (nth (2 * e) (a_active asm) 0%nat)) (nth (2 * e + 1) (a_active asm) 0%nat) (row s i e) (length (links_of asm e)) (points_of asm e).
  Proof.
    intros HC HR HL TS Hg P1 PO i e Hi asm He. pose proof (ts_tables _ _ _ _ _ TS) as T. constructor.
    - intros q Hp. exact (proj1 (P1 i e q Hi He Hp)).
    - intros q b Hp _. apply phys_grad_total. exact (proj2 (P1 i e q Hi He Hp)).
    - cbn [with_strides kd_bs kd_ndofs]. rewrite (st_bs _ _ T), (st_ndofs _ _ T). intros q n Hp Hn.
      pose proof (row_links pd kd num_pairs surfaces basis num_rows move detect pack_gap pack_normals pack_param pack_h g calls TS i Hi e He q Hp) as [Hq Hl].
      destruct (point_link pd kd num_pairs (pairs s) nq TS i Hi e He q Hp) as (k0 & [Hk0 _] & H & _).
      rewrite (rsum_single _ k0); [|exact Hk0|].
      + rewrite <- (PO i e q Hi He Hp). apply rsum_ext. intros j Hj.
        refine (eq_trans (row_test_stored pd kd num_pairs surfaces basis num_rows move detect pack_gap pack_normals pack_param pack_h g calls HC HR HL TS Hg i Hi e He q k0 j n Hq (Nat.lt_le_trans _ _ _ Hk0 Hl) Hj ltac:(lia)) _).
        rewrite H by auto. now rewrite Nat.eqb_refl.
      + intros k Hk Hne. apply rsum_zero. intros j Hj.
        refine (eq_trans (row_test_stored pd kd num_pairs surfaces basis num_rows move detect pack_gap pack_normals pack_param pack_h g calls HC HR HL TS Hg i Hi e He q k j n Hq (Nat.lt_le_trans _ _ _ Hk Hl) Hj ltac:(lia)) _).
        rewrite H by auto. destruct (Nat.eqb_spec k k0); [contradiction|reflexivity].
  Qed.

  Theorem C79_contact_forces_balance :
    forall (law : friction_law) (g : G) (calls : list (@call (list R) (nat -> list Z))) (b : list R) (vector_kernels : list kernel_fn) (n : nat),
    let s := after g calls in
    Forall no_crop calls -> cp_ready s = true -> (forall i, (num_local surfaces i <= num_rows i)%nat) ->
    tie_setting pd kd num_pairs (pairs s) nq -> bs = gdim ->
    cell_partition kd num_pairs (pairs s) -> opposite_partition pd num_pairs (pairs s) ->
    generated kd' (vector_kinds law) vector_kernels ->
    (forall i, (i < num_pairs)%nat -> dofs_fit (pr_asm (pairs s i)) (length b)) -> (n < gdim)%nat ->
    let v := contact_vector pd num_pairs surfaces basis vector_kernels s b in
    length v = length b /\ resultant gdim n v = resultant gdim n b.
  Proof.
    intros law g calls b vks n s HC HR HL TS Hg P1 P2 Hv HF Hn. unfold contact_vector. cbv zeta.
    pose proof (ts_tables _ _ _ _ _ TS) as T.
    assert (Hgk : kd_bs kd' = kd_gdim kd') by (cbn [with_strides kd_bs kd_gdim]; now rewrite (st_bs _ _ T), (st_gdim _ _ T)).
    apply (for_loop_inv (fun _ v => length v = length b /\ resultant gdim n v = resultant gdim n b)); [auto|].
    intros i v Hi [Lv Rv]. pose proof (ts_pairs _ _ _ _ _ TS i Hi) as PS. set (asm := pr_asm (pairs s i)) in *.
    pose proof (pair_well_formed pd kd num_pairs (pairs s) nq TS i Hi) as WF. fold asm in WF.
    assert (Hnd : a_ndofs asm = kd_ndofs kd') by (cbn [with_strides kd_ndofs]; rewrite (st_ndofs _ _ T); apply (se_ndofs _ _ _ PS)).
    assert (Hbs : a_bs asm = kd_bs kd') by (cbn [with_strides kd_bs]; rewrite (st_bs _ _ T); apply (se_bs _ _ _ PS)).
    assert (Hba : a_bs asm = gdim) by (rewrite <- Hg; apply (se_bs _ _ _ PS)).
    assert (K : forall kind kernel v, In kind [Rhs; TrescaRhs; CoulombRhs] -> (exists junk, generate_contact_kernel kind kd' junk = Some kernel) ->
      length v = length b -> resultant gdim n v = resultant gdim n b ->
      length (assemble_vector asm kernel (concat (nth i (cp_coeffs s) [])) NC (constants_of s) v) = length b /\
      resultant gdim n (assemble_vector asm kernel (concat (nth i (cp_coeffs s) [])) NC (constants_of s) v) = resultant gdim n b).
    { intros kind kernel v' Hk [junk E] Lv' Rv'. destruct (C68_contact_kernels_local kd' junk) as [X _]. destruct (X kind Hk) as (k' & E' & LK). assert (k' = kernel) by congruence. subst k'.
      rewrite <- Rv', <- Lv', <- Hba. apply assembled_balance; auto; [lia|rewrite Lv'; now apply HF|intros e c _ _; apply (pair_dofs pd kd num_pairs (pairs s) nq TS i Hi)|].
      intros e He. apply (element_balanced_from_added kd'); auto; [lia|]. cbv zeta.
      assert (Lb : vector_buffers kd' (length (links_of asm e)) (repeat (repeat 0 (a_bs asm * a_ndofs asm)) (a_max_links asm + 1))).
      { apply zero_vectors; [now apply WF|]. rewrite Hnd, Hbs. lia. }
      pose proof (object_partition g calls HC HR HL TS Hg P1 P2 i e Hi He) as CP. fold s in CP. fold asm in CP.
      assert (Hn' : (n < kd_bs kd')%nat) by lia.
      destruct Hk as [<-|Hk].
      - exact (C34_unbiased_balance kd' junk _ _ (constants_of s) _ _ _ _ kernel E Hgk Lb CP n Hn').
      - exact (C34_friction_balance kd' junk _ _ (constants_of s) _ _ _ _ kind kernel Hk E Hgk Lb CP n Hn'). }
    unfold vector_kinds in Hv. cbn [app] in Hv. inversion Hv as [|? k1 ? ks E1 Hv1]; subst. unfold for_each. cbn [fold_left].
    destruct (K Rhs k1 v ltac:(cbn [In]; auto) E1 Lv Rv) as [L1 R1].
    destruct law; cbn [app] in Hv1.
    - inversion Hv1; subst. now split.
    - inversion Hv1 as [|? k2 ? ks2 E2 Hv2]; subst. inversion Hv2; subst. cbn [fold_left]. apply (K CoulombRhs); auto. cbn [In]; auto.
    - inversion Hv1 as [|? k2 ? ks2 E2 Hv2]; subst. inversion Hv2; subst. cbn [fold_left]. apply (K TrescaRhs); auto. cbn [In]; auto.
  Qed.
End Object.
Print Assumptions C79_contact_forces_balance.

(** ** Mesh tie *)
Lemma pairs_balance asm (kernel : kernel_fn) (data : nat -> list R) stride w n N bs len :
  (forall i, (i < N)%nat -> a_bs (asm i) = bs) -> (n < bs)%nat -> (forall i, (i < N)%nat -> dofs_fit (asm i) len) ->
  (forall i c, (i < N)%nat -> length (a_dofs (asm i) c) = a_ndofs (asm i)) ->
  (forall i e, (i < N)%nat -> (e < a_local (asm i))%nat -> element_balanced (a_ndofs (asm i)) (a_bs (asm i)) (length (links_of (asm i) e))
     (facet_result (asm i) kernel (data i) stride w (a_max_links (asm i) + 1) (a_bs (asm i) * a_ndofs (asm i)) e) n) ->
  rsum (len / bs) (fun d => rsum N (fun i => pair_vector (asm i) kernel (data i) stride w (bs * d + n)%nat)) = 0.
Proof.
  intros Hb Hn HF HD HE. rewrite rsum_swap. apply rsum_zero. intros i Hi. unfold pair_vector. rewrite rsum_swap. apply rsum_zero. intros e He.
  rewrite <- (Hb i Hi). apply facet_total; auto. now rewrite Hb.
Qed.
Lemma resultant_added bs n (b v : list R) (f : nat -> R) : (n < bs)%nat -> length v = length b ->
  (forall d, (d < length b)%nat -> nth d v 0 = nth d b 0 + f d) -> rsum (length b / bs) (fun d => f (bs * d + n)%nat) = 0 -> resultant bs n v = resultant bs n b.
Proof.
  intros Hn L X H0. unfold resultant. rewrite L. rewrite (rsum_ext _ _ (fun d => nth (bs * d + n) b 0 + f (bs * d + n)%nat)) by (intros d Hd; apply X; now apply resultant_bound).
  rewrite rsum_plus, H0. ring.
Qed.

Section Tie.
  Context (pd : bool -> pack_data) (num_pairs : nat) (pair : bool -> nat -> tie_pair) (num_facets : nat -> nat) (nq nd gdim ml : nat)
    (pack_h : nat -> list R) (pack_coeff0 : nat -> field -> list R * nat).
  Notation after := (tie_after pd num_pairs pair num_facets nq nd gdim ml pack_h pack_coeff0).
  Notation asm vec := (fun i : nat => pr_asm (pair vec i)).
  Notation setting := (object_setting pd num_pairs pair num_facets nq nd gdim ml pack_coeff0).

  Section Facts.
    Context (vec : bool) (kd : kernel_data) (OS : setting vec kd) (P1 : cell_partition kd num_pairs (pair vec)) (P2 : opposite_partition (pd vec) num_pairs (pair vec)) (P3 : opposite_gradients (pd vec) num_pairs (pair vec)).
    Context (st : list nat) (arr : list (list R)) (i : nat) (Hi : (i < num_pairs)%nat).
    Context (B1 : block_holds num_facets st arr i 1 (fst (tie_test_pack (pd vec) (pair vec) ml i))) (B2 : block_holds num_facets st arr i 2 (fst (tie_grad_test_pack (pd vec) (pair vec) ml i))).
    Notation a := (pr_asm (pair vec i)).
    Notation row e := (slice (nth i arr []) (e * sum_nat st) (sum_nat st)).

    Lemma elastic_partition e : vec = true -> (e < a_local a)%nat ->
      (exists rest, st = [nth 0 st 0; nq * nd * gdim * ml; nq * nd * gdim * ml; nq * gdim; nq * gdim * gdim; nq * gdim; nq * gdim * gdim]%nat ++ rest) ->
      tie_partition (with_strides kd st) (coordinates_of a (nth (2 * e) (a_active a) 0%nat)) (nth (2 * e + 1) (a_active a) 0%nat) (row e) (length (links_of a e)) (points_of a e).
    Proof using All.
      intros Hv He (rest & Est). subst vec. destruct (os_shapes _ _ _ _ _ _ _ _ _ _ _ OS true) as [H1 H2 H3 H4 H5]. pose proof (os_tie _ _ _ _ _ _ _ _ _ _ _ OS) as TS.
      pose proof (ts_tables _ _ _ _ _ TS) as T. assert (Hg : pd_bs (pd true) = pd_gdim (pd true)) by now rewrite H2, H3.
      assert (Hnf : num_facets i = a_local (pr_asm (pair true i))) by now apply (os_facets _ _ _ _ _ _ _ _ _ _ _ OS).
      assert (Hl : (7 <= length st)%nat) by (rewrite Est, app_length; cbn [length]; lia).
      rewrite <- H1, <- H2, <- (os_nd _ _ _ _ _ _ _ _ _ _ _ OS true) in Est.
      assert (S1 : nth 1 st 0%nat = (pd_nq (pd true) * pd_functions (pd true) * pd_gdim (pd true) * ml)%nat) by (rewrite Est; reflexivity).
      assert (S2 : nth 2 st 0%nat = (pd_nq (pd true) * pd_functions (pd true) * pd_gdim (pd true) * ml)%nat) by (rewrite Est; reflexivity).
      assert (S3 : nth 3 st 0%nat = (pd_nq (pd true) * pd_gdim (pd true))%nat) by (rewrite Est; reflexivity).
      assert (S4 : nth 4 st 0%nat = (pd_nq (pd true) * pd_gdim (pd true) * pd_gdim (pd true))%nat) by (rewrite Est; reflexivity).
      assert (S5 : nth 5 st 0%nat = (pd_nq (pd true) * pd_gdim (pd true))%nat) by (rewrite Est; reflexivity).
      assert (S6 : nth 6 st 0%nat = (pd_nq (pd true) * pd_gdim (pd true) * pd_gdim (pd true))%nat) by (rewrite Est; reflexivity).
      constructor; [intros q Hp; exact (proj1 (P1 i e q Hi He Hp))|intros q b Hp _; apply phys_grad_total; exact (proj2 (P1 i e q Hi He Hp))| |];
        cbn [with_strides kd_bs kd_gdim kd_ndofs]; rewrite ?(st_bs _ _ T), ?(st_gdim _ _ T), (st_ndofs _ _ T); intros q n Hp Hn;
        destruct (point_link _ _ _ _ _ TS i Hi e He q Hp) as (k0 & [Hk0 _] & X1 & X2); destruct (point_found _ _ _ _ _ TS i Hi e He q Hp) as (Hq & _);
        pose proof (links_bound _ _ _ _ _ TS i Hi e He q Hp) as Lb; rewrite (rsum_single _ k0 _ Hk0).
      - rewrite <- (P2 i e q Hi He Hp). apply rsum_ext. intros j Hj. rewrite (TieSystemProps.row_test (pd true) kd num_pairs (pair true) ml TS i Hi num_facets Hnf st arr) by (auto; lia).
        rewrite X1 by auto. now rewrite Nat.eqb_refl.
      - intros k Hk Hne. apply rsum_zero. intros j Hj. rewrite (TieSystemProps.row_test (pd true) kd num_pairs (pair true) ml TS i Hi num_facets Hnf st arr) by (auto; lia).
        rewrite X1 by auto. now destruct (Nat.eqb_spec k k0).
      - rewrite <- (P3 i e q (nth k0 (links_of (pr_asm (pair true i)) e) 0%nat) n Hi He Hp Hn). apply rsum_ext. intros j Hj. rewrite (TieSystemProps.row_test_grad (pd true) kd num_pairs (pair true) ml TS i Hi num_facets Hnf st arr) by (auto; lia).
        rewrite X2 by auto. now rewrite Nat.eqb_refl.
      - intros k Hk Hne. apply rsum_zero. intros j Hj. rewrite (TieSystemProps.row_test_grad (pd true) kd num_pairs (pair true) ml TS i Hi num_facets Hnf st arr) by (auto; lia).
        rewrite X2 by auto. now destruct (Nat.eqb_spec k k0).
    Qed.
    Lemma heat_partition e : vec = false -> (e < a_local a)%nat ->
      (exists rest, st = [nth 0 st 0; nq * nd * ml; nq * nd * gdim * ml; nq; nq * gdim; nq; nq * gdim]%nat ++ rest) ->
      poisson_partition (with_strides kd st) (coordinates_of a (nth (2 * e) (a_active a) 0%nat)) (nth (2 * e + 1) (a_active a) 0%nat) (row e) (length (links_of a e)) (points_of a e).
    Proof using All.
      intros Hv He (rest & Est). subst vec. destruct (os_shapes _ _ _ _ _ _ _ _ _ _ _ OS false) as [H1 H2 H3 H4 H5]. pose proof (os_tie _ _ _ _ _ _ _ _ _ _ _ OS) as TS.
      pose proof (ts_tables _ _ _ _ _ TS) as T.
      assert (Hnf : num_facets i = a_local (pr_asm (pair false i))) by now apply (os_facets _ _ _ _ _ _ _ _ _ _ _ OS).
      assert (Hl : (7 <= length st)%nat) by (rewrite Est, app_length; cbn [length]; lia).
      rewrite <- H1, <- H2, <- (os_nd _ _ _ _ _ _ _ _ _ _ _ OS false) in Est.
      assert (S1 : nth 1 st 0%nat = (pd_nq (pd false) * pd_functions (pd false) * ml)%nat) by (rewrite Est; reflexivity).
      assert (S2 : nth 2 st 0%nat = (pd_nq (pd false) * pd_functions (pd false) * pd_gdim (pd false) * ml)%nat) by (rewrite Est; reflexivity).
      assert (S3 : nth 3 st 0%nat = pd_nq (pd false)) by (rewrite Est; reflexivity).
      assert (S4 : nth 4 st 0%nat = (pd_nq (pd false) * pd_gdim (pd false))%nat) by (rewrite Est; reflexivity).
      assert (S5 : nth 5 st 0%nat = pd_nq (pd false)) by (rewrite Est; reflexivity).
      assert (S6 : nth 6 st 0%nat = (pd_nq (pd false) * pd_gdim (pd false))%nat) by (rewrite Est; reflexivity).
      constructor; [intros q Hp; exact (proj1 (P1 i e q Hi He Hp))|intros q b Hp _; apply phys_grad_total; exact (proj2 (P1 i e q Hi He Hp))|intros q Hp|intros q n Hp Hn];
        cbn [with_strides kd_bs kd_gdim kd_ndofs] in *; rewrite ?(st_gdim _ _ T) in *; rewrite (st_ndofs _ _ T);
        destruct (point_link _ _ _ _ _ TS i Hi e He q Hp) as (k0 & [Hk0 _] & X1 & X2); destruct (point_found _ _ _ _ _ TS i Hi e He q Hp) as (Hq & _);
        pose proof (links_bound _ _ _ _ _ TS i Hi e He q Hp) as Lb; rewrite (rsum_single _ k0 _ Hk0).
      - rewrite <- (P2 i e q Hi He Hp). apply rsum_ext. intros j Hj. rewrite (TieSystemProps.row_test1 (pd false) kd num_pairs (pair false) ml TS i Hi num_facets Hnf st arr) by (auto; lia).
        rewrite X1 by (auto; lia). now rewrite Nat.eqb_refl.
      - intros k Hk Hne. apply rsum_zero. intros j Hj. rewrite (TieSystemProps.row_test1 (pd false) kd num_pairs (pair false) ml TS i Hi num_facets Hnf st arr) by (auto; lia).
        rewrite X1 by (auto; lia). now destruct (Nat.eqb_spec k k0).
      - rewrite <- (P3 i e q (nth k0 (links_of (pr_asm (pair false i)) e) 0%nat) n Hi He Hp Hn). apply rsum_ext. intros j Hj. rewrite (TieSystemProps.row_test_grad1 (pd false) kd num_pairs (pair false) ml TS i Hi num_facets Hnf st arr) by (auto; lia).
        rewrite X2 by auto. now rewrite Nat.eqb_refl.
      - intros k Hk Hne. apply rsum_zero. intros j Hj. rewrite (TieSystemProps.row_test_grad1 (pd false) kd num_pairs (pair false) ml TS i Hi num_facets Hnf st arr) by (auto; lia).
        rewrite X2 by auto. now destruct (Nat.eqb_spec k k0).
    Qed.
    (** Facts of the assembly of the pair. *)
    Lemma asm_facts : a_ndofs a = kd_ndofs (with_strides kd st) /\ a_bs a = kd_bs (with_strides kd st) /\ a_bs a = (if vec then gdim else 1)%nat /\ well_formed a.
    Proof using OS Hi.
      clear - OS Hi.
      pose proof (os_tie _ _ _ _ _ _ _ _ _ _ _ OS) as TS. pose proof (ts_pairs _ _ _ _ _ TS i Hi) as PS. pose proof (ts_tables _ _ _ _ _ TS) as T.
      cbn [with_strides kd_ndofs kd_bs]. rewrite (st_ndofs _ _ T), (st_bs _ _ T), (se_ndofs _ _ _ PS), (se_bs _ _ _ PS). repeat split; auto; [apply (os_shapes _ _ _ _ _ _ _ _ _ _ _ OS)| | |]; now apply (pair_well_formed _ _ _ _ _ TS i Hi).
    Qed.
    Lemma pair_buffers e : (e < a_local a)%nat -> vector_buffers (with_strides kd st) (length (links_of a e)) (repeat (repeat 0 (a_bs a * a_ndofs a)) (a_max_links a + 1)).
    Proof using OS Hi. intros He. destruct asm_facts as (E1 & E2 & _ & WF). apply zero_vectors; [now apply WF|]. rewrite E1, E2. lia. Qed.
  End Facts.

  Theorem C79_tie_forces_balance :
    forall (kd : kernel_data) (rhs thermo rhs_p jac : list nat -> kernel_fn) (calls : list tie_call) (p : elastic_input) (b : list R) (n : nat),
      setting true kd -> elastic_kernels kd rhs thermo jac -> Forall fields_given calls -> Forall (fun k => call_type k <> ThermoElasticity) calls ->
      fold_left elastic_step calls None = Some p ->
      cell_partition kd num_pairs (pair true) -> opposite_partition (pd true) num_pairs (pair true) -> opposite_gradients (pd true) num_pairs (pair true) ->
      (forall i, (i < num_pairs)%nat -> dofs_fit (pr_asm (pair true i)) (length b)) -> (n < gdim)%nat ->
      exists v, tie_vector (asm true) num_pairs rhs thermo rhs_p Elasticity (after calls) b = Some v /\ length v = length b /\ resultant gdim n v = resultant gdim n b.
  Proof.
    intros kd rhs thermo rhs_p jac calls p b n OS HK Hf Ht Ep P1 P2 P3 HF Hn.
    pose proof (C63_elastic_history pack_h pack_coeff0 _ _ _ _ _ _ num_pairs num_facets nq nd gdim ml (os_coeff0 _ _ _ _ _ _ _ _ _ _ _ OS)
      (test_strides pd num_pairs pair num_facets nq nd gdim ml pack_coeff0 true kd OS) (grad_test_strides pd num_pairs pair num_facets nq nd gdim ml pack_coeff0 true kd OS) calls
      ltac:(eapply Forall_impl; [|exact Hf]; intros k; apply (fields_ok pd num_pairs pair num_facets nq nd gdim ml pack_coeff0 true kd OS)) Ht) as A.
    rewrite Ep in A. cbn [elastic_agrees] in A. fold (after calls) in A. set (s := after calls) in *. destruct A as (G2 & G3 & G5 & G6 & G7 & G8 & _).
    unfold tie_vector, assemble_vector_calls. rewrite combine_kernels. cbn match. rewrite G2.
    set (st := elastic_strides nq nd gdim gdim ml) in *. pose proof (os_tie _ _ _ _ _ _ _ _ _ _ _ OS) as TS.
    destruct (HK st) as ((j1 & K1) & _). destruct (C68_meshtie_kernels_local (with_strides kd st) j1) as [LR _]. destruct (LR MeshTieRhs ltac:(now left)) as (k1 & E1 & L1). rewrite K1 in E1. injection E1 as <-.
    destruct (run_vector_pairs (asm true) rhs st (fun i => nth i (MeshTieModel.coeffs s) []) (cstride s) (consts s) num_pairs b L1 ltac:(intros; now apply (pair_well_formed _ _ _ _ _ TS))) as (v & Ev & Lv & Xv).
    exists v. split; [exact Ev|]. split; [exact Lv|]. refine (resultant_added gdim n b v _ Hn Lv Xv _).
    apply (pairs_balance (asm true)); auto.
    - intros i Hi. apply (asm_facts true kd OS st i Hi).
    - intros i c Hi. now apply (pair_dofs _ _ _ _ _ TS).
    - intros i e Hi He. destruct (asm_facts true kd OS st i Hi) as (E1 & E2 & E3 & _). cbn match in E3. apply (element_balanced_from_added (with_strides kd st)); auto; [lia|]. cbv zeta. rewrite G5.
      destruct (G8 i Hi) as (_ & _ & _ & T1 & T2).
      refine (C34_meshtie_balance (with_strides kd st) j1 _ _ (consts s) _ _ _ _ (rhs st) K1 _ (pair_buffers true kd OS st i Hi e He) (elastic_partition true kd OS P1 P2 P3 st _ i Hi T1 T2 e eq_refl He _) n ltac:(lia)).
      + cbn [with_strides kd_bs kd_gdim]. rewrite (st_gdim _ _ (ts_tables _ _ _ _ _ TS)). cbn [with_strides kd_bs] in E2. rewrite <- E2, E3. symmetry. apply (os_shapes _ _ _ _ _ _ _ _ _ _ _ OS true).
      + exists []. reflexivity.
  Qed.

  Theorem C79_thermo_tie_forces_balance :
    forall (kd : kernel_data) (rhs thermo rhs_p jac : list nat -> kernel_fn) (calls : list tie_call) (p : thermo_input) (b : list R) (n : nat),
      setting true kd -> elastic_kernels kd rhs thermo jac -> Forall fields_given calls -> Forall (fun k => call_type k <> Elasticity) calls ->
      fold_left thermo_step calls None = Some p ->
      cell_partition kd num_pairs (pair true) -> opposite_partition (pd true) num_pairs (pair true) -> opposite_gradients (pd true) num_pairs (pair true) ->
      (forall i, (i < num_pairs)%nat -> dofs_fit (pr_asm (pair true i)) (length b)) -> (n < gdim)%nat ->
      exists v, tie_vector (asm true) num_pairs rhs thermo rhs_p ThermoElasticity (after calls) b = Some v /\ length v = length b /\ resultant gdim n v = resultant gdim n b.
  Proof.
    intros kd rhs thermo rhs_p jac calls p b n OS HK Hf Ht Ep P1 P2 P3 HF Hn.
    pose proof (C63_thermo_history pack_h pack_coeff0 _ _ _ _ _ _ num_pairs num_facets nq nd gdim ml (os_coeff0 _ _ _ _ _ _ _ _ _ _ _ OS)
      (test_strides pd num_pairs pair num_facets nq nd gdim ml pack_coeff0 true kd OS) (grad_test_strides pd num_pairs pair num_facets nq nd gdim ml pack_coeff0 true kd OS) calls
      ltac:(eapply Forall_impl; [|exact Hf]; intros k; apply (fields_ok pd num_pairs pair num_facets nq nd gdim ml pack_coeff0 true kd OS)) Ht) as A.
    rewrite Ep in A. cbn [thermo_agrees] in A. fold (after calls) in A. set (s := after calls) in *. destruct A as (G2 & G3 & G4 & G5 & G6 & G7 & G8 & _).
    unfold tie_vector, assemble_vector_calls. rewrite combine_kernels2. cbn match. rewrite G2, G4.
    set (st := thermo_strides nq nd gdim gdim ml) in *. pose proof (os_tie _ _ _ _ _ _ _ _ _ _ _ OS) as TS.
    destruct (HK st) as ((j1 & K1) & (j2 & K2) & _). destruct (C68_meshtie_kernels_local (with_strides kd st) j1) as [LR _]. destruct (LR MeshTieRhs ltac:(now left)) as (k1 & E1 & L1). rewrite K1 in E1. injection E1 as <-.
    destruct (C68_meshtie_kernels_local (with_strides kd st) j2) as [LR2 _]. destruct (LR2 ThermoElasticRhs ltac:(right; now left)) as (k2 & E2 & L2). rewrite K2 in E2. injection E2 as <-.
    destruct (run_vector_pairs2 (asm true) rhs thermo st st (fun i => nth i (MeshTieModel.coeffs s) []) (cstride s) (consts s) num_pairs b L1 L2 ltac:(intros; now apply (pair_well_formed _ _ _ _ _ TS))) as (v & Ev & Lv & Xv).
    exists v. split; [exact Ev|]. split; [exact Lv|].
    refine (resultant_added gdim n b v (fun d => rsum num_pairs (fun i => pair_vector (pr_asm (pair true i)) (rhs st) (nth i (MeshTieModel.coeffs s) []) (cstride s) (consts s) d) +
      rsum num_pairs (fun i => pair_vector (pr_asm (pair true i)) (thermo st) (nth i (MeshTieModel.coeffs s) []) (cstride s) (consts s) d)) Hn Lv _ _).
    { intros d Hd. rewrite (Xv d Hd). ring. }
    rewrite rsum_plus.
    rewrite (pairs_balance (asm true) (rhs st)), (pairs_balance (asm true) (thermo st)); auto; [ring| | | | | |];
      try (intros i Hi; apply (asm_facts true kd OS st i Hi)); try (intros i c Hi; now apply (pair_dofs _ _ _ _ _ TS));
      intros i e Hi He; destruct (asm_facts true kd OS st i Hi) as (E1 & E2 & E3 & _); cbn match in E3; (apply (element_balanced_from_added (with_strides kd st)); auto; [lia|]); cbv zeta; rewrite G5;
      destruct (G8 i Hi) as (_ & _ & _ & T1 & T2).
    - refine (C34_thermo_balance (with_strides kd st) j2 _ _ (consts s) _ _ _ _ (thermo st) K2 (pair_buffers true kd OS st i Hi e He) (elastic_partition true kd OS P1 P2 P3 st _ i Hi T1 T2 e eq_refl He _) n ltac:(lia)).
      exists [nq; nq]. reflexivity.
    - refine (C34_meshtie_balance (with_strides kd st) j1 _ _ (consts s) _ _ _ _ (rhs st) K1 _ (pair_buffers true kd OS st i Hi e He) (elastic_partition true kd OS P1 P2 P3 st _ i Hi T1 T2 e eq_refl He _) n ltac:(lia)).
      + cbn [with_strides kd_bs kd_gdim]. rewrite (st_gdim _ _ (ts_tables _ _ _ _ _ TS)). cbn [with_strides kd_bs] in E2. rewrite <- E2, E3. symmetry. apply (os_shapes _ _ _ _ _ _ _ _ _ _ _ OS true).
      + exists [nq; nq]. reflexivity.
  Qed.

  Theorem C79_heat_flow_balance :
    forall (kd : kernel_data) (rhs thermo rhs_p jac_p : list nat -> kernel_fn) (calls : list tie_call) (p : poisson_input) (b : list R),
      setting false kd -> poisson_kernels kd rhs_p jac_p -> Forall fields_given calls ->
      fold_left poisson_step calls None = Some p ->
      cell_partition kd num_pairs (pair false) -> opposite_partition (pd false) num_pairs (pair false) -> opposite_gradients (pd false) num_pairs (pair false) ->
      (forall i, (i < num_pairs)%nat -> dofs_fit (pr_asm (pair false i)) (length b)) ->
      exists v, tie_vector (asm false) num_pairs rhs thermo rhs_p Poisson (after calls) b = Some v /\ length v = length b /\ resultant 1 0 v = resultant 1 0 b.
  Proof.
    intros kd rhs thermo rhs_p jac_p calls p b OS HK Hf Ep P1 P2 P3 HF.
    pose proof (C63_poisson_history pack_h pack_coeff0 _ _ _ _ _ _ num_pairs num_facets nq nd gdim ml (os_coeff0 _ _ _ _ _ _ _ _ _ _ _ OS)
      (test_strides pd num_pairs pair num_facets nq nd gdim ml pack_coeff0 false kd OS) (grad_test_strides pd num_pairs pair num_facets nq nd gdim ml pack_coeff0 false kd OS) calls
      ltac:(eapply Forall_impl; [|exact Hf]; intros k; apply (fields_ok pd num_pairs pair num_facets nq nd gdim ml pack_coeff0 false kd OS))) as A.
    rewrite Ep in A. cbn [poisson_agrees] in A. fold (after calls) in A. set (s := after calls) in *. destruct A as (G2 & G3 & G5 & G6 & G7 & G8 & _).
    unfold tie_vector, assemble_vector_calls. rewrite combine_kernels. cbn match. rewrite G2.
    set (st := poisson_strides nq nd gdim ml) in *. pose proof (os_tie _ _ _ _ _ _ _ _ _ _ _ OS) as TS.
    assert (Hb1 : kd_bs (with_strides kd st) = 1%nat) by (cbn [with_strides kd_bs]; rewrite (st_bs _ _ (ts_tables _ _ _ _ _ TS)); apply (os_shapes _ _ _ _ _ _ _ _ _ _ _ OS false)).
    destruct (HK st) as ((j1 & K1) & _). destruct (C68_poisson_kernels_local (with_strides kd st) j1 Hb1) as [(k1 & E1 & L1) _]. rewrite K1 in E1. injection E1 as <-.
    destruct (run_vector_pairs (asm false) rhs_p st (fun i => nth i (coeffs_poisson s) []) (cstride_poisson s) (consts_poisson s) num_pairs b L1 ltac:(intros; now apply (pair_well_formed _ _ _ _ _ TS))) as (v & Ev & Lv & Xv).
    exists v. split; [exact Ev|]. split; [exact Lv|]. refine (resultant_added 1 0 b v _ ltac:(lia) Lv Xv _).
    apply (pairs_balance (asm false)); auto.
    - intros i Hi. apply (asm_facts false kd OS st i Hi).
    - intros i c Hi. now apply (pair_dofs _ _ _ _ _ TS).
    - intros i e Hi He. destruct (asm_facts false kd OS st i Hi) as (E1 & E2 & E3 & _). cbn match in E3. apply (element_balanced_from_added (with_strides kd st)); auto; [lia|]. cbv zeta. rewrite G5.
      destruct (G8 i Hi) as (_ & _ & T1 & T2).
      refine (C34_poisson_balance (with_strides kd st) j1 _ _ (consts_poisson s) _ _ _ _ (rhs_p st) K1 Hb1 (pair_buffers false kd OS st i Hi e He) (heat_partition false kd OS P1 P2 P3 st _ i Hi T1 T2 e eq_refl He _)).
      exists []. reflexivity.
  Qed.
End Tie.
Print Assumptions C79_tie_forces_balance.
Print Assumptions C79_thermo_tie_forces_balance.
Print Assumptions C79_heat_flow_balance.
