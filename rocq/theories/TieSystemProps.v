(** Property C73: the assembled mesh tie residual is the assembled matrix applied
    to the discrete solution. *)
From Coq Require Import List Arith ZArith Lia Bool Reals Lra.
Import ListNotations.
From Verif Require Import Prelude PreludeLemmas RSum EntitiesModel PackingModel PackUProps AssemblyModel AssemblyProofs AssemblyProps LayoutModel LayoutProps
  MeshTieModel MeshTieProps MeshTieHistoryProps RayModel KernelModel KernelProofs KernelSpec MeshTieKernelModel MeshTieKernelProps PoissonKernelProps CoefficientsModel CoefficientsProps SystemSpec TieSystemModel TieSystemProofs.
Local Open Scope R_scope.

(** ** Element consistency from the kernels *)
Lemma nth_repeat_lt {A} (x d : A) n i : (i < n)%nat -> nth i (repeat x n) d = x.
Proof. intros H. rewrite (nth_indep _ d x) by (rewrite repeat_length; lia). apply nth_repeat. Qed.
Lemma zero_vectors kd links m size : (links <= m)%nat -> size = (kd_ndofs kd * kd_bs kd)%nat -> vector_buffers kd links (repeat (repeat 0 size) (m + 1)).
Proof. intros H ->. split; [rewrite repeat_length; lia|]. intros s Hs. rewrite nth_repeat_lt by lia. apply repeat_length. Qed.
Lemma zero_matrices kd links m size : (links <= m)%nat -> size = (kd_ndofs kd * kd_bs kd * (kd_ndofs kd * kd_bs kd))%nat -> matrix_buffers kd links (repeat (repeat 0 size) (3 * m + 1)).
Proof. intros H ->. split; [rewrite repeat_length; lia|]. intros s Hs. rewrite nth_repeat_lt by lia. apply repeat_length. Qed.
Lemma nth_zeros k size m s : nth k (nth s (repeat (repeat 0 size) m) []) 0 = 0.
Proof.
  destruct (Nat.lt_ge_cases s m) as [H|H]; [rewrite nth_repeat_lt by auto; apply nth_repeat|]. rewrite (nth_overflow (repeat (repeat 0 size) m)) by (rewrite repeat_length; lia). now destruct k.
Qed.

Section Consistent.
  Context (kd : kernel_data) (a : assembly) (cf : list R) (cstride : nat) (w u : list R) (e : nat).
  Context (Hnd : a_ndofs a = kd_ndofs kd) (Hbs : a_bs a = kd_bs kd) (Hl : (length (links_of a e) <= a_max_links a)%nat).
  Notation cell := (nth (2 * e) (a_active a) 0%nat).
  Notation f := (nth (2 * e + 1) (a_active a) 0%nat).
  Notation row := (slice cf (e * cstride) cstride).
  Notation U := (restrict a u cell).
  Notation Uo := (fun k => restrict a u (nth k (links_of a e) 0%nat)).
  Notation V rhs := (facet_result a rhs cf cstride w (a_max_links a + 1) (a_bs a * a_ndofs a) e).
  Notation M jac := (facet_result a jac cf cstride w (3 * a_max_links a + 1) (a_bs a * a_ndofs a * a_bs a * a_ndofs a) e).

  Lemma elastic_element junk junk' rhs jac :
    generate_meshtie_kernel MeshTieRhs kd junk = Some rhs -> generate_meshtie_kernel MeshTieJac kd junk' = Some jac -> kd_bs kd = kd_gdim kd ->
    tie_fields kd (coordinates_of a cell) f row (length (links_of a e)) (points_of a e) U Uo -> one_link kd f row (length (links_of a e)) (points_of a e) ->
    element_consistent (a_ndofs a) (a_bs a) (length (links_of a e)) (V rhs) (M jac) U Uo.
  Proof.
    intros Er Ej Hg F HL i n Hi Hn.
    assert (Bv : vector_buffers kd (length (links_of a e)) (repeat (repeat 0 (a_bs a * a_ndofs a)) (a_max_links a + 1))) by (apply zero_vectors; [auto|rewrite Hnd, Hbs; lia]).
    assert (Bm : matrix_buffers kd (length (links_of a e)) (repeat (repeat 0 (a_bs a * a_ndofs a * a_bs a * a_ndofs a)) (3 * a_max_links a + 1))) by (apply zero_matrices; [auto|rewrite Hnd, Hbs; lia]).
    rewrite Hnd in Hi. rewrite Hbs in Hn. pose proof (C30_meshtie_consistent kd junk junk' _ _ row w _ f _ _ U Uo rhs jac Er Ej Hg Bv Bm F HL) as X. cbv zeta in X. specialize (X i n Hi Hn).
    unfold added_vec, added_mat in X. cbv zeta in X. rewrite Hnd, Hbs in *. unfold facet_result. destruct X as [X1 X2]. split.
    - rewrite nth_zeros, Rminus_0_r in X1. rewrite X1. f_equal; [|apply rsum_ext; intros k _]; unfold apply_row; apply rsum_ext; intros j _; apply rsum_ext; intros l _; now rewrite nth_zeros, Rminus_0_r.
    - intros k Hk. specialize (X2 k Hk). rewrite nth_zeros, Rminus_0_r in X2. rewrite X2. f_equal; unfold apply_row; apply rsum_ext; intros j _; apply rsum_ext; intros l _; now rewrite nth_zeros, Rminus_0_r.
  Qed.
  Lemma poisson_element junk junk' rhs jac :
    generate_poisson_kernel MeshTieRhs kd junk = Some rhs -> generate_poisson_kernel MeshTieJac kd junk' = Some jac -> kd_bs kd = 1%nat ->
    poisson_fields kd (coordinates_of a cell) f row (length (links_of a e)) (points_of a e) (fun j => U j 0%nat) (fun k j => Uo k j 0%nat) -> poisson_one_link kd f row (length (links_of a e)) (points_of a e) ->
    element_consistent (a_ndofs a) (a_bs a) (length (links_of a e)) (V rhs) (M jac) U Uo.
  Proof.
    intros Er Ej Hg F HL i n Hi Hn.
    assert (Bv : vector_buffers kd (length (links_of a e)) (repeat (repeat 0 (a_bs a * a_ndofs a)) (a_max_links a + 1))) by (apply zero_vectors; [auto|rewrite Hnd, Hbs; lia]).
    assert (Bm : matrix_buffers kd (length (links_of a e)) (repeat (repeat 0 (a_bs a * a_ndofs a * a_bs a * a_ndofs a)) (3 * a_max_links a + 1))) by (apply zero_matrices; [auto|rewrite Hnd, Hbs; lia]).
    rewrite Hnd in Hi. rewrite Hbs in Hn. pose proof (C31_poisson_consistent kd junk junk' _ _ row w _ f _ _ _ _ rhs jac Er Ej Hg Bv Bm F HL) as X. cbv zeta in X. specialize (X i Hi).
    unfold added_vec, added_mat in X. cbv zeta in X. rewrite Hnd, Hbs in *. unfold facet_result. rewrite Hg in *. assert (n = 0)%nat as -> by lia. destruct X as [X1 X2]. split.
    - rewrite nth_zeros, Rminus_0_r in X1. rewrite X1. f_equal; [|apply rsum_ext; intros k _]; unfold apply_row; apply rsum_ext; intros j _; cbn [rsum]; rewrite Rplus_0_l, nth_zeros, Rminus_0_r; reflexivity.
    - intros k Hk. specialize (X2 k Hk). rewrite nth_zeros, Rminus_0_r in X2. rewrite X2. f_equal; unfold apply_row; apply rsum_ext; intros j _; cbn [rsum]; rewrite Rplus_0_l, nth_zeros, Rminus_0_r; reflexivity.
  Qed.
End Consistent.

(** ** The rows of a pair *)
Lemma idx2_lt a b n m : (a < n)%nat -> (b < m)%nat -> (a * m + b < n * m)%nat.
Proof. intros. nia. Qed.
Lemma idx4_lt k j q n ml nd nq g : (k < ml)%nat -> (j < nd)%nat -> (q < nq)%nat -> (n < g)%nat -> (((k * nd + j) * nq + q) * g + n < ml * nd * nq * g)%nat.
Proof. intros. apply idx2_lt; auto. apply idx2_lt; auto. now apply idx2_lt. Qed.
Section Rows.
  Context (pd : pack_data) (kd : kernel_data) (num_pairs : nat) (pair : nat -> tie_pair) (ml : nat).
  Context (TS : tie_setting pd kd num_pairs pair ml) (i : nat) (Hi : (i < num_pairs)%nat).
  Context (num_facets : nat -> nat) (Hnf : num_facets i = a_local (pr_asm (pair i))).
  Context (st : list nat) (arr : list (list R)).
  Notation asm := (pr_asm (pair i)).
  Notation nq := (pd_nq pd).
  Notation nd := (pd_functions pd).
  Notation bs := (pd_bs pd).
  Notation gdim := (pd_gdim pd).
  Notation kd' := (with_strides kd st).
  Notation row e := (slice (nth i arr []) (e * sum_nat st) (sum_nat st)).

  Lemma row_block k src e x : (k < length st)%nat -> block_holds num_facets st arr i k src -> (e < a_local asm)%nat -> (x < nth k st 0)%nat ->
    nth (offsets kd' k + x) (row e) 0 = nth (e * nth k st 0%nat + x) src 0.
  Proof.
    intros Hk H He Hx. unfold offsets, with_strides. cbn [kd_cstrides]. rewrite nth_slice.
    - specialize (H e x). rewrite Hnf in H. specialize (H He Hx). unfold entry, kernel_block, kernel_offsets in H. cbn [fst] in H. rewrite <- H. reflexivity.
    - pose proof (psums_step st k Hk). pose proof (psums_mono st (S k) (length st) ltac:(lia) ltac:(lia)). rewrite psums_last in *. lia.
  Qed.

  Section Elastic.
    Context (Hg : bs = gdim) (Hlen : (7 <= length st)%nat).
    Context (S1 : nth 1 st 0%nat = (nq * nd * gdim * ml)%nat) (S2 : nth 2 st 0%nat = (nq * nd * gdim * ml)%nat) (S3 : nth 3 st 0%nat = (nq * gdim)%nat)
      (S4 : nth 4 st 0%nat = (nq * gdim * gdim)%nat) (S5 : nth 5 st 0%nat = (nq * gdim)%nat) (S6 : nth 6 st 0%nat = (nq * gdim * gdim)%nat).
    Context (u : list R).
    Context (B1 : block_holds num_facets st arr i 1 (fst (tie_test_pack pd pair ml i))) (B2 : block_holds num_facets st arr i 2 (fst (tie_grad_test_pack pd pair ml i)))
      (B3 : block_holds num_facets st arr i 3 (fst (tie_q pd pair i u))) (B4 : block_holds num_facets st arr i 4 (fst (tie_grad_q pd pair i u)))
      (B5 : block_holds num_facets st arr i 5 (fst (tie_opp pd pair i u))) (B6 : block_holds num_facets st arr i 6 (fst (tie_grad_opp pd pair i u))).
    Context (e : nat) (He : (e < a_local asm)%nat).
    Notation cell := (nth (2 * e) (a_active asm) 0%nat).
    Notation f := (nth (2 * e + 1) (a_active asm) 0%nat).
    Notation PS := (ts_pairs _ _ _ _ _ TS i Hi).
    Notation T := (ts_tables _ _ _ _ _ TS).

    Lemma links_bound q : In q (points_of asm e) -> (length (links_of asm e) <= ml)%nat.
    Proof. intros Hp. destruct (point_found pd kd num_pairs pair ml TS i Hi e He q Hp) as (_ & _ & ->). apply (se_links _ _ _ PS e He). Qed.
    Lemma row_test q k j n : (q < nq)%nat -> (k < ml)%nat -> (j < nd)%nat -> (n < bs)%nat -> tie_test kd' f (row e) q k j n = packed_test pd pair ml i e k j q n.
    Proof.
      intros Hq Hk Hj Hn. unfold tie_test, packed_test. change (num_points kd' f) with (num_points kd f). cbn [with_strides kd_ndofs kd_bs]. rewrite (st_points _ _ T), (st_ndofs _ _ T), (st_bs _ _ T).
      rewrite <- !Nat.add_assoc. rewrite (row_block 1 _ e _ ltac:(lia) B1 He).
      - f_equal. rewrite S1. rewrite Hg. ring.
      - rewrite S1. pose proof (idx4_lt k j q n ml nd nq bs Hk Hj Hq Hn). rewrite Hg in *. nia.
    Qed.
    Lemma row_test_grad q k j b : (q < nq)%nat -> (k < ml)%nat -> (j < nd)%nat -> (b < gdim)%nat -> tie_test_grad kd' f (row e) q k j b = packed_test_grad pd pair ml i e k j q b.
    Proof.
      intros Hq Hk Hj Hn. unfold tie_test_grad, packed_test_grad. change (num_points kd' f) with (num_points kd f). cbn [with_strides kd_ndofs kd_gdim]. rewrite (st_points _ _ T), (st_ndofs _ _ T), (st_gdim _ _ T).
      rewrite (row_block 2 _ e _ ltac:(lia) B2 He).
      - f_equal. rewrite S2. ring.
      - rewrite S2. pose proof (idx4_lt k j q b ml nd nq gdim Hk Hj Hq Hn). nia.
    Qed.
    Lemma elastic_fields : tie_fields kd' (coordinates_of asm cell) f (row e) (length (links_of asm e)) (points_of asm e) (restrict asm u cell) (fun k => restrict asm u (nth k (links_of asm e) 0%nat)).
    Proof.
      constructor; cbn [with_strides kd_bs kd_gdim kd_ndofs kd_phi kd_qp_offsets]; rewrite ?(st_bs _ _ T), ?(st_gdim _ _ T), (st_ndofs _ _ T).
      - intros q n Hp Hn. destruct (point_found pd kd num_pairs pair ml TS i Hi e He q Hp) as (Hq & _).
        rewrite <- (row_value_q pd kd num_pairs pair ml TS i Hi e He u q n Hq Hn), <- Nat.add_assoc. rewrite (row_block 3 _ e _ ltac:(lia) B3 He).
        + f_equal. rewrite S3, Hg. ring.
        + rewrite S3. pose proof (idx2_lt q n nq bs Hq Hn). rewrite Hg in *. lia.
      - intros q n b Hp Hn Hb. rewrite <- Hg in Hn. destruct (point_found pd kd num_pairs pair ml TS i Hi e He q Hp) as (Hq & _).
        change (phys_grad kd' (coordinates_of asm cell) f q) with (phys_grad kd (coordinates_of asm cell) f q).
        rewrite <- (row_value_grad pd kd num_pairs pair ml TS i Hi e He u q n b Hq Hn Hb), <- Nat.add_assoc. rewrite (row_block 4 _ e _ ltac:(lia) B4 He).
        + f_equal. rewrite S4, Hg. ring.
        + rewrite S4. pose proof (idx2_lt _ b _ gdim (idx2_lt q n nq bs Hq Hn) Hb). rewrite Hg in *. nia.
      - intros q n Hp Hn. destruct (point_found pd kd num_pairs pair ml TS i Hi e He q Hp) as (Hq & _). pose proof (links_bound q Hp).
        transitivity (nth (e * (nq * bs) + q * bs + n) (fst (tie_opp pd pair i u)) 0).
        + rewrite <- Nat.add_assoc. rewrite (row_block 5 _ e _ ltac:(lia) B5 He).
          * f_equal. rewrite S5, Hg. ring.
          * rewrite S5. pose proof (idx2_lt q n nq bs Hq Hn). rewrite Hg in *. lia.
        + rewrite (row_value_opp pd kd num_pairs pair ml TS i Hi e He u q n Hp Hn). apply rsum_ext. intros k Hk. apply rsum_ext. intros j Hj. rewrite row_test by (auto; lia). reflexivity.
      - intros q n b Hp Hn Hb. rewrite <- Hg in Hn. destruct (point_found pd kd num_pairs pair ml TS i Hi e He q Hp) as (Hq & _). pose proof (links_bound q Hp).
        transitivity (nth (e * (nq * bs * gdim) + q * bs * gdim + n * gdim + b) (fst (tie_grad_opp pd pair i u)) 0).
        + rewrite <- Nat.add_assoc. rewrite (row_block 6 _ e _ ltac:(lia) B6 He).
          * f_equal. rewrite S6, Hg. ring.
          * rewrite S6. pose proof (idx2_lt _ b _ gdim (idx2_lt q n nq bs Hq Hn) Hb). rewrite Hg in *. nia.
        + rewrite (row_value_grad_opp pd kd num_pairs pair ml TS i Hi e He u q n b Hp Hn Hb). apply rsum_ext. intros k Hk. apply rsum_ext. intros j Hj. rewrite row_test_grad by (auto; lia). reflexivity.
    Qed.
    Lemma elastic_one_link : one_link kd' f (row e) (length (links_of asm e)) (points_of asm e).
    Proof.
      intros q Hp. destruct (point_link pd kd num_pairs pair ml TS i Hi e He q Hp) as (k0 & _ & P1 & P2). destruct (point_found pd kd num_pairs pair ml TS i Hi e He q Hp) as (Hq & _). pose proof (links_bound q Hp).
      exists k0. intros k j Hk Hne Hj. cbn [with_strides kd_bs kd_gdim kd_ndofs] in *. rewrite (st_ndofs _ _ T) in Hj. rewrite (st_bs _ _ T), (st_gdim _ _ T). split; intros n Hn.
      - rewrite row_test by (auto; lia). rewrite P1 by auto. now destruct (Nat.eqb_spec k k0).
      - rewrite row_test_grad by (auto; lia). rewrite P2 by auto. now destruct (Nat.eqb_spec k k0).
    Qed.
  End Elastic.

  Section PoissonRows.
    Context (Hg : bs = 1%nat) (Hlen : (7 <= length st)%nat).
    Context (S1 : nth 1 st 0%nat = (nq * nd * ml)%nat) (S2 : nth 2 st 0%nat = (nq * nd * gdim * ml)%nat) (S3 : nth 3 st 0%nat = nq)
      (S4 : nth 4 st 0%nat = (nq * gdim)%nat) (S5 : nth 5 st 0%nat = nq) (S6 : nth 6 st 0%nat = (nq * gdim)%nat).
    Context (u : list R).
    Context (B1 : block_holds num_facets st arr i 1 (fst (tie_test_pack pd pair ml i))) (B2 : block_holds num_facets st arr i 2 (fst (tie_grad_test_pack pd pair ml i)))
      (B3 : block_holds num_facets st arr i 3 (fst (tie_q pd pair i u))) (B4 : block_holds num_facets st arr i 4 (fst (tie_grad_q pd pair i u)))
      (B5 : block_holds num_facets st arr i 5 (fst (tie_opp pd pair i u))) (B6 : block_holds num_facets st arr i 6 (fst (tie_grad_opp pd pair i u))).
    Context (e : nat) (He : (e < a_local asm)%nat).
    Notation cell := (nth (2 * e) (a_active asm) 0%nat).
    Notation f := (nth (2 * e + 1) (a_active asm) 0%nat).
    Notation PS := (ts_pairs _ _ _ _ _ TS i Hi).
    Notation T := (ts_tables _ _ _ _ _ TS).

    Lemma row_test1 q k j : (q < nq)%nat -> (k < ml)%nat -> (j < nd)%nat -> poisson_test kd' f (row e) q k j = packed_test pd pair ml i e k j q 0.
    Proof.
      intros Hq Hk Hj. unfold poisson_test, packed_test. change (num_points kd' f) with (num_points kd f). cbn [with_strides kd_ndofs kd_bs]. rewrite (st_points _ _ T), (st_ndofs _ _ T).
      rewrite <- !Nat.add_assoc. rewrite (row_block 1 _ e _ ltac:(lia) B1 He).
      - f_equal. rewrite S1. rewrite Hg. ring.
      - rewrite S1. pose proof (idx4_lt k j q 0 ml nd nq 1 Hk Hj Hq ltac:(lia)). nia.
    Qed.
    Lemma row_test_grad1 q k j b : (q < nq)%nat -> (k < ml)%nat -> (j < nd)%nat -> (b < gdim)%nat -> poisson_test_grad kd' f (row e) q k j b = packed_test_grad pd pair ml i e k j q b.
    Proof.
      intros Hq Hk Hj Hn. unfold poisson_test_grad, packed_test_grad. change (num_points kd' f) with (num_points kd f). cbn [with_strides kd_ndofs kd_gdim]. rewrite (st_points _ _ T), (st_ndofs _ _ T), (st_gdim _ _ T).
      rewrite <- !Nat.add_assoc. rewrite (row_block 2 _ e _ ltac:(lia) B2 He).
      - f_equal. rewrite S2. ring.
      - rewrite S2. pose proof (idx4_lt k j q b ml nd nq gdim Hk Hj Hq Hn). nia.
    Qed.
    Lemma poisson_row_fields : poisson_fields kd' (coordinates_of asm cell) f (row e) (length (links_of asm e)) (points_of asm e) (fun j => restrict asm u cell j 0%nat) (fun k j => restrict asm u (nth k (links_of asm e) 0%nat) j 0%nat).
    Proof.
      assert (H0 : (0 < bs)%nat) by lia.
      constructor; cbn [with_strides kd_bs kd_gdim kd_ndofs kd_phi kd_qp_offsets]; rewrite ?(st_gdim _ _ T), (st_ndofs _ _ T).
      - intros q Hp. destruct (point_found pd kd num_pairs pair ml TS i Hi e He q Hp) as (Hq & _).
        rewrite <- (row_value_q pd kd num_pairs pair ml TS i Hi e He u q 0 Hq H0). rewrite (row_block 3 _ e _ ltac:(lia) B3 He).
        + f_equal. rewrite S3, Hg. ring.
        + rewrite S3. lia.
      - intros q b Hp Hb. destruct (point_found pd kd num_pairs pair ml TS i Hi e He q Hp) as (Hq & _).
        change (phys_grad kd' (coordinates_of asm cell) f q) with (phys_grad kd (coordinates_of asm cell) f q).
        rewrite <- (row_value_grad pd kd num_pairs pair ml TS i Hi e He u q 0 b Hq H0 Hb), <- Nat.add_assoc. rewrite (row_block 4 _ e _ ltac:(lia) B4 He).
        + f_equal. rewrite S4, Hg. ring.
        + rewrite S4. apply idx2_lt; auto.
      - intros q Hp. destruct (point_found pd kd num_pairs pair ml TS i Hi e He q Hp) as (Hq & _). pose proof (links_bound e He q Hp).
        transitivity (nth (e * (nq * bs) + q * bs + 0) (fst (tie_opp pd pair i u)) 0).
        + rewrite (row_block 5 _ e _ ltac:(lia) B5 He).
          * f_equal. rewrite S5, Hg. ring.
          * rewrite S5. lia.
        + rewrite (row_value_opp pd kd num_pairs pair ml TS i Hi e He u q 0 Hp H0). apply rsum_ext. intros k Hk. apply rsum_ext. intros j Hj. rewrite row_test1 by (auto; lia). reflexivity.
      - intros q b Hp Hb. destruct (point_found pd kd num_pairs pair ml TS i Hi e He q Hp) as (Hq & _). pose proof (links_bound e He q Hp).
        transitivity (nth (e * (nq * bs * gdim) + q * bs * gdim + 0 * gdim + b) (fst (tie_grad_opp pd pair i u)) 0).
        + rewrite <- Nat.add_assoc. rewrite (row_block 6 _ e _ ltac:(lia) B6 He).
          * f_equal. rewrite S6, Hg. ring.
          * rewrite S6. apply idx2_lt; auto.
        + rewrite (row_value_grad_opp pd kd num_pairs pair ml TS i Hi e He u q 0 b Hp H0 Hb). apply rsum_ext. intros k Hk. apply rsum_ext. intros j Hj. rewrite row_test_grad1 by (auto; lia). reflexivity.
    Qed.
    Lemma poisson_row_one_link : poisson_one_link kd' f (row e) (length (links_of asm e)) (points_of asm e).
    Proof.
      intros q Hp. destruct (point_link pd kd num_pairs pair ml TS i Hi e He q Hp) as (k0 & _ & P1 & P2). destruct (point_found pd kd num_pairs pair ml TS i Hi e He q Hp) as (Hq & _). pose proof (links_bound e He q Hp).
      exists k0. intros k j Hk Hne Hj. cbn [with_strides kd_bs kd_gdim kd_ndofs] in *. rewrite (st_ndofs _ _ T) in Hj. rewrite (st_gdim _ _ T). split; [|intros n Hn].
      - rewrite row_test1 by (auto; lia). rewrite P1 by (auto; lia). now destruct (Nat.eqb_spec k k0).
      - rewrite row_test_grad1 by (auto; lia). rewrite P2 by auto. now destruct (Nat.eqb_spec k k0).
    Qed.
  End PoissonRows.

  Lemma pair_well_formed : well_formed asm.
  Proof using TS Hi. clear Hnf num_facets.
    pose proof (ts_pairs _ _ _ _ _ TS i Hi) as PS. split; [rewrite (se_gdim _ _ _ PS); apply (se_gdim3 _ _ _ PS)|]. split; intros e He.
    - rewrite (se_x_dofmap _ _ _ PS), (se_nodes _ _ _ PS). apply (se_x_length _ _ _ PS).
    - unfold links_of. destruct (a_max_links asm =? 0)%nat; cbn [length]; [lia|]. rewrite (se_map _ _ _ PS), (se_ml _ _ _ PS) by auto. now apply (se_links _ _ _ PS).
  Qed.
  Lemma pair_dofs c : length (a_dofs asm c) = a_ndofs asm.
  Proof using TS Hi. pose proof (ts_pairs _ _ _ _ _ TS i Hi) as PS. rewrite (se_dofs _ _ _ PS), (se_ndofs _ _ _ PS). apply (setting_dofs pd kd num_pairs pair ml TS). Qed.
End Rows.

(** ** All pairs *)
Lemma combine_kernels {A B} (k : A) (g : nat -> B) n : combine (flat_map (fun _ => [k]) (seq 0 n)) (map g (seq 0 n)) = map (fun i => (k, g i)) (seq 0 n).
Proof. induction (seq 0 n) as [|x l IH]; cbn; [reflexivity|]. now rewrite IH. Qed.
Lemma combine_kernels2 {A B} (k k' : A) (g g' : nat -> B) n :
  combine (flat_map (fun _ => [k; k']) (seq 0 n)) (flat_map (fun i => [g i; g' i]) (seq 0 n)) = flat_map (fun i => [(k, g i); (k', g' i)]) (seq 0 n).
Proof. induction (seq 0 n) as [|x l IH]; cbn; [reflexivity|]. now rewrite IH. Qed.
Lemma combine_repeat {A B} (k : A) (g : nat -> B) n : combine (repeat k n) (map g (seq 0 n)) = map (fun i => (k, g i)) (seq 0 n).
Proof.
  assert (H : forall s, combine (repeat k n) (map g (seq s n)) = map (fun i => (k, g i)) (seq s n)); [|apply H].
  induction n as [|n IH]; intros s; cbn; [reflexivity|]. now rewrite IH.
Qed.

(** What the assembly of one pair with one kernel adds to entry [d]. *)
Definition pair_vector (a : assembly) (kernel : kernel_fn) (data : list R) (stride : nat) (w : list R) (d : nat) : R :=
  rsum (a_local a) (fun e => facet_vector a kernel data stride w e d).

Section Loop.
  Context (asm : nat -> assembly) (kernel : list nat -> kernel_fn) (st : list nat) (data : nat -> list R) (stride : nat) (w : list R).

  Lemma run_vector_snoc calls c b : run_vector asm (calls ++ [c]) b =
    match run_vector asm calls b, c with Some v, (k, (i, Some s, dt, sr, cs)) => Some (assemble_vector (asm i) (k s) dt sr cs v) | _, _ => None end.
  Proof. unfold run_vector. rewrite fold_left_app. cbn [fold_left]. destruct c as [k [[[[i o] dt] sr] cs]]. now destruct (fold_left _ calls (Some b)), o. Qed.
  Lemma run_matrix_snoc calls c : run_matrix asm (calls ++ [c]) =
    match run_matrix asm calls, c with Some M, (k, (i, Some s, dt, sr, cs)) => Some (M ++ assemble_matrix (asm i) (k s) dt sr cs) | _, _ => None end.
  Proof. unfold run_matrix. rewrite fold_left_app. cbn [fold_left]. destruct c as [k [[[[i o] dt] sr] cs]]. now destruct (fold_left _ calls (Some [])), o. Qed.
  Lemma run_vector_pairs n b : kernel_local (fun m => m + 1)%nat (kernel st) -> (forall i, (i < n)%nat -> well_formed (asm i)) ->
    exists v, run_vector asm (map (fun i => (kernel, (i, Some st, data i, stride, w))) (seq 0 n)) b = Some v /\ length v = length b /\
      forall d, (d < length b)%nat -> nth d v 0 = nth d b 0 + rsum n (fun i => pair_vector (asm i) (kernel st) (data i) stride w d).
  Proof.
    intros HK. induction n as [|n IH]; intros HW.
    - exists b. cbn. repeat split; auto. intros d _. ring.
    - destruct IH as (v & E & L & X); [auto|]. rewrite seq_S, map_app. cbn [map Nat.add]. rewrite run_vector_snoc, E.
      destruct (C20_assemble_vector (asm n) (kernel st) (data n) stride w v HK (HW n ltac:(lia))) as [L2 X2].
      eexists. split; [reflexivity|]. split; [now rewrite L2|]. intros d Hd. rewrite X2, X by lia. cbn [rsum]. unfold pair_vector. ring.
  Qed.
  Lemma run_matrix_pairs n : exists M, run_matrix asm (map (fun i => (kernel, (i, Some st, data i, stride, w))) (seq 0 n)) = Some M /\
    forall bs u d, matrix_times bs M u d = rsum n (fun i => matrix_times bs (assemble_matrix (asm i) (kernel st) (data i) stride w) u d).
  Proof.
    induction n as [|n (M & E & X)].
    - exists []. split; reflexivity.
    - rewrite seq_S, map_app. cbn [map Nat.add]. rewrite run_matrix_snoc, E. eexists. split; [reflexivity|].
      intros bs u d. unfold matrix_times in *. rewrite lsum_app, X. reflexivity.
  Qed.
End Loop.
Lemma run_vector_pairs2 asm kernel kernel' st st' data stride w n b :
  kernel_local (fun m => m + 1)%nat (kernel st) -> kernel_local (fun m => m + 1)%nat (kernel' st') -> (forall i, (i < n)%nat -> well_formed (asm i)) ->
  exists v, run_vector asm (flat_map (fun i => [(kernel, (i, Some st, data i, stride, w)); (kernel', (i, Some st', data i, stride, w))]) (seq 0 n)) b = Some v /\ length v = length b /\
    forall d, (d < length b)%nat -> nth d v 0 = nth d b 0 + rsum n (fun i => pair_vector (asm i) (kernel st) (data i) stride w d) + rsum n (fun i => pair_vector (asm i) (kernel' st') (data i) stride w d).
Proof.
  intros HK HK'. induction n as [|n IH]; intros HW.
  - exists b. cbn. repeat split; auto. intros d _. ring.
  - destruct IH as (v & E & L & X); [auto|]. rewrite seq_S, flat_map_app. cbn [flat_map Nat.add app].
    match goal with |- context [run_vector asm (?l ++ [?x; ?y]) b] => replace (l ++ [x; y]) with ((l ++ [x]) ++ [y]) by now rewrite <- app_assoc end.
    rewrite !run_vector_snoc, E.
    destruct (C20_assemble_vector (asm n) (kernel st) (data n) stride w v HK (HW n ltac:(lia))) as [L2 X2].
    destruct (C20_assemble_vector (asm n) (kernel' st') (data n) stride w (assemble_vector (asm n) (kernel st) (data n) stride w v) HK' (HW n ltac:(lia))) as [L3 X3].
    eexists. split; [reflexivity|]. split; [rewrite L3, L2; auto|]. intros d Hd. rewrite X3 by (rewrite L2; lia). rewrite X2, X by lia. cbn [rsum]. unfold pair_vector. ring.
Qed.

(** ** Specification *)
(** A space of the object: its rule, dimension and block size. *)
Record space_shape (vec : bool) (pd : pack_data) (nq gdim : nat) : Prop := {
  sh_nq : pd_nq pd = nq; sh_gdim : pd_gdim pd = gdim; sh_bs : pd_bs pd = (if vec then gdim else 1)%nat; sh_vs : pd_vs pd = 1%nat; sh_transforms : pd_transforms pd = false }.
(** Functions are given under the right name: "u" in the displacement space, "T"
    in the temperature space. *)
Definition fields_given (k : tie_call (F := field)) : Prop :=
  match k with TGenerate _ c _ _ | TUpdate _ c => (forall f, c_u c = Some f -> fst f = true) /\ (forall f, c_T c = Some f -> fst f = false) end.
(** The kernels of the object, generated for the given strides. *)
Definition elastic_kernels (kd : kernel_data) (rhs thermo jac : list nat -> kernel_fn) : Prop :=
  forall st, (exists junk, generate_meshtie_kernel MeshTieRhs (with_strides kd st) junk = Some (rhs st)) /\
    (exists junk, generate_meshtie_kernel ThermoElasticRhs (with_strides kd st) junk = Some (thermo st)) /\
    (exists junk, generate_meshtie_kernel MeshTieJac (with_strides kd st) junk = Some (jac st)).
Definition poisson_kernels (kd : kernel_data) (rhs jac : list nat -> kernel_fn) : Prop :=
  forall st, (exists junk, generate_poisson_kernel MeshTieRhs (with_strides kd st) junk = Some (rhs st)) /\ (exists junk, generate_poisson_kernel MeshTieJac (with_strides kd st) junk = Some (jac st)).

Section System.
  Context (pd : bool -> pack_data) (num_pairs : nat) (pair : bool -> nat -> tie_pair) (num_facets : nat -> nat) (nq nd gdim ml : nat)
    (pack_h : nat -> list R) (pack_coeff0 : nat -> field -> list R * nat).
  Notation after := (tie_after pd num_pairs pair num_facets nq nd gdim ml pack_h pack_coeff0).
  Notation asm vec := (fun i : nat => pr_asm (pair vec i)).

  Record object_setting (vec : bool) (kd : kernel_data) : Prop := {
    os_shapes : forall v, space_shape v (pd v) nq gdim; os_nd : forall v, pd_functions (pd v) = nd;
    os_coeff0 : forall i f, snd (pack_coeff0 i f) = 1%nat;
    os_tie : tie_setting (pd vec) kd num_pairs (pair vec) ml;
    os_facets : forall i, (i < num_pairs)%nat -> num_facets i = a_local (pr_asm (pair vec i)) }.

  Section Facts.
    Context (vec : bool) (kd : kernel_data) (OS : object_setting vec kd).
    Notation q' := (fun i (f : field) => tie_q (pd (fst f)) (pair (fst f)) i (snd f)).
    Notation gq' := (fun i (f : field) => tie_grad_q (pd (fst f)) (pair (fst f)) i (snd f)).
    Notation o' := (fun i (f : field) => tie_opp (pd (fst f)) (pair (fst f)) i (snd f)).
    Notation go' := (fun i (f : field) => tie_grad_opp (pd (fst f)) (pair (fst f)) i (snd f)).

    Lemma field_strides (v : bool) (u : list R) (i : nat) : let n := (if v then gdim else 1)%nat in snd (q' i (v, u)) = len_u nq n /\ snd (o' i (v, u)) = len_u nq n /\ snd (gq' i (v, u)) = len_grad_u nq n gdim /\ snd (go' i (v, u)) = len_grad_u nq n gdim.
    Proof using OS.
      destruct (os_shapes _ _ OS v) as [H1 H2 H3 H4 H5]. cbn [fst snd]. unfold tie_q, tie_grad_q, tie_opp, tie_grad_opp, pack_coefficient_quadrature, pack_gradient_quadrature, num_active_entities, value_size.
      rewrite H5. cbn [packed snd]. unfold len_u, len_grad_u. rewrite H1, H2, H3, H4. repeat split; nia.
    Qed.
    Lemma fields_ok k : fields_given k -> call_functions_ok q' gq' o' go' nq gdim k.
    Proof using OS.
      destruct k as [pt c g t|pt c]; intros [Hu HT]; split; intros [v u] E i; first [apply Hu in E | apply HT in E]; cbn [fst] in E; subst v; apply field_strides.
    Qed.
    Lemma test_strides v i : snd (tie_test_pack (pd v) (pair v) ml i) = len_test nq nd (if v then gdim else 1) ml.
    Proof using OS. destruct (os_shapes _ _ OS v) as [H1 H2 H3 H4 H5]. unfold tie_test_pack. cbn [snd]. now rewrite H1, H3, (os_nd _ _ OS). Qed.
    Lemma grad_test_strides v i : snd (tie_grad_test_pack (pd v) (pair v) ml i) = len_grad_test nq nd gdim ml.
    Proof using OS. destruct (os_shapes _ _ OS v) as [H1 H2 H3 H4 H5]. unfold tie_grad_test_pack. cbn [snd]. now rewrite H1, H2, (os_nd _ _ OS). Qed.

    (** One pair. *)
    Lemma elastic_pair rhs thermo jac st arr w u i d : vec = true -> elastic_kernels kd rhs thermo jac -> (i < num_pairs)%nat ->
      (exists rest, st = [nth 0 st 0; nq * nd * gdim * ml; nq * nd * gdim * ml; nq * gdim; nq * gdim * gdim; nq * gdim; nq * gdim * gdim]%nat ++ rest) ->
      (block_holds num_facets st arr i 1 (fst (tie_test_pack (pd true) (pair true) ml i)) /\ block_holds num_facets st arr i 2 (fst (tie_grad_test_pack (pd true) (pair true) ml i))) ->
      (block_holds num_facets st arr i 3 (fst (tie_q (pd true) (pair true) i u)) /\ block_holds num_facets st arr i 4 (fst (tie_grad_q (pd true) (pair true) i u)) /\
       block_holds num_facets st arr i 5 (fst (tie_opp (pd true) (pair true) i u)) /\ block_holds num_facets st arr i 6 (fst (tie_grad_opp (pd true) (pair true) i u))) ->
      pair_vector (pr_asm (pair true i)) (rhs st) (nth i arr []) (sum_nat st) w d =
      matrix_times gdim (assemble_matrix (pr_asm (pair true i)) (jac st) (nth i arr []) (sum_nat st) w) u d.
    Proof using OS.
      intros -> HK Hi (rest & Est) (B1 & B2) (B3 & B4 & B5 & B6). destruct (os_shapes _ _ OS true) as [H1 H2 H3 H4 H5]. pose proof (os_tie _ _ OS) as TS. pose proof (ts_pairs _ _ _ _ _ TS i Hi) as PS.
      destruct (HK st) as ((j1 & K1) & _ & (j3 & K3)). pose proof (ts_tables _ _ _ _ _ TS) as T.
      destruct (C68_meshtie_kernels_local (with_strides kd st) j1) as [LR _]. destruct (LR MeshTieRhs ltac:(now left)) as (k1 & E1 & L1). rewrite K1 in E1. injection E1 as <-.
      destruct (C68_meshtie_kernels_local (with_strides kd st) j3) as [_ (k3 & E3 & L3)]. rewrite K3 in E3. injection E3 as <-.
      pose proof (assembled_consistent (pr_asm (pair true i)) (rhs st) (jac st) (nth i arr []) (sum_nat st) w u (repeat 0 (S d)) L1 L3 (pair_well_formed _ _ _ _ _ TS i Hi)) as X.
      destruct (C20_assemble_vector (pr_asm (pair true i)) (rhs st) (nth i arr []) (sum_nat st) w (repeat 0 (S d)) L1 (pair_well_formed _ _ _ _ _ TS i Hi)) as [_ X0].
      rewrite repeat_length in X, X0. specialize (X0 d ltac:(lia)). rewrite X in X0; auto; [|intros e c He _; now apply (pair_dofs _ _ _ _ _ TS i Hi)|].
      - rewrite (se_bs _ _ _ PS), H3 in X0. unfold pair_vector. lra.
      - intros e He. assert (Hg : pd_bs (pd true) = pd_gdim (pd true)) by now rewrite H2, H3.
        assert (Hnf : num_facets i = a_local (pr_asm (pair true i))) by now apply (os_facets _ _ OS).
        assert (Ll : (length (links_of (pr_asm (pair true i)) e) <= a_max_links (pr_asm (pair true i)))%nat) by now apply (pair_well_formed _ _ _ _ _ TS i Hi).
        assert (Hl : (7 <= length st)%nat) by (rewrite Est, app_length; cbn [length]; lia).
        rewrite <- H1, <- H2, <- (os_nd _ _ OS true) in Est.
        assert (S1 : nth 1 st 0%nat = (pd_nq (pd true) * pd_functions (pd true) * pd_gdim (pd true) * ml)%nat) by (rewrite Est; reflexivity).
        assert (S2 : nth 2 st 0%nat = (pd_nq (pd true) * pd_functions (pd true) * pd_gdim (pd true) * ml)%nat) by (rewrite Est; reflexivity).
        assert (S3 : nth 3 st 0%nat = (pd_nq (pd true) * pd_gdim (pd true))%nat) by (rewrite Est; reflexivity).
        assert (S4 : nth 4 st 0%nat = (pd_nq (pd true) * pd_gdim (pd true) * pd_gdim (pd true))%nat) by (rewrite Est; reflexivity).
        assert (S5 : nth 5 st 0%nat = (pd_nq (pd true) * pd_gdim (pd true))%nat) by (rewrite Est; reflexivity).
        assert (S6 : nth 6 st 0%nat = (pd_nq (pd true) * pd_gdim (pd true) * pd_gdim (pd true))%nat) by (rewrite Est; reflexivity).
        apply (elastic_element (with_strides kd st)) with (junk := j1) (junk' := j3); auto.
        + rewrite (se_ndofs _ _ _ PS). symmetry. apply (st_ndofs _ _ T).
        + rewrite (se_bs _ _ _ PS). symmetry. apply (st_bs _ _ T).
        + cbn [with_strides kd_bs kd_gdim]. now rewrite (st_bs _ _ T), (st_gdim _ _ T).
        + apply (elastic_fields (pd true) kd num_pairs (pair true) ml TS i Hi num_facets Hnf st arr); auto.
        + apply (elastic_one_link (pd true) kd num_pairs (pair true) ml TS i Hi num_facets Hnf st arr); auto.
    Qed.
    Lemma poisson_pair rhs jac st arr w u i d : vec = false -> poisson_kernels kd rhs jac -> (i < num_pairs)%nat ->
      (exists rest, st = [nth 0 st 0; nq * nd * ml; nq * nd * gdim * ml; nq; nq * gdim; nq; nq * gdim]%nat ++ rest) ->
      (block_holds num_facets st arr i 1 (fst (tie_test_pack (pd false) (pair false) ml i)) /\ block_holds num_facets st arr i 2 (fst (tie_grad_test_pack (pd false) (pair false) ml i))) ->
      (block_holds num_facets st arr i 3 (fst (tie_q (pd false) (pair false) i u)) /\ block_holds num_facets st arr i 4 (fst (tie_grad_q (pd false) (pair false) i u)) /\
       block_holds num_facets st arr i 5 (fst (tie_opp (pd false) (pair false) i u)) /\ block_holds num_facets st arr i 6 (fst (tie_grad_opp (pd false) (pair false) i u))) ->
      pair_vector (pr_asm (pair false i)) (rhs st) (nth i arr []) (sum_nat st) w d =
      matrix_times 1 (assemble_matrix (pr_asm (pair false i)) (jac st) (nth i arr []) (sum_nat st) w) u d.
    Proof using OS.
      intros -> HK Hi (rest & Est) (B1 & B2) (B3 & B4 & B5 & B6). destruct (os_shapes _ _ OS false) as [H1 H2 H3 H4 H5]. pose proof (os_tie _ _ OS) as TS. pose proof (ts_pairs _ _ _ _ _ TS i Hi) as PS.
      destruct (HK st) as ((j1 & K1) & (j3 & K3)). pose proof (ts_tables _ _ _ _ _ TS) as T.
      assert (Hb1 : kd_bs (with_strides kd st) = 1%nat) by (cbn [with_strides kd_bs]; now rewrite (st_bs _ _ T)).
      destruct (C68_poisson_kernels_local (with_strides kd st) j1 Hb1) as [(k1 & E1 & L1) _]. rewrite K1 in E1. injection E1 as <-.
      destruct (C68_poisson_kernels_local (with_strides kd st) j3 Hb1) as [_ (k3 & E3 & L3)]. rewrite K3 in E3. injection E3 as <-.
      pose proof (assembled_consistent (pr_asm (pair false i)) (rhs st) (jac st) (nth i arr []) (sum_nat st) w u (repeat 0 (S d)) L1 L3 (pair_well_formed _ _ _ _ _ TS i Hi)) as X.
      destruct (C20_assemble_vector (pr_asm (pair false i)) (rhs st) (nth i arr []) (sum_nat st) w (repeat 0 (S d)) L1 (pair_well_formed _ _ _ _ _ TS i Hi)) as [_ X0].
      rewrite repeat_length in X, X0. specialize (X0 d ltac:(lia)). rewrite X in X0; auto; [|intros e c He _; now apply (pair_dofs _ _ _ _ _ TS i Hi)|].
      - rewrite (se_bs _ _ _ PS), H3 in X0. unfold pair_vector. lra.
      - intros e He.
        assert (Hnf : num_facets i = a_local (pr_asm (pair false i))) by now apply (os_facets _ _ OS).
        assert (Ll : (length (links_of (pr_asm (pair false i)) e) <= a_max_links (pr_asm (pair false i)))%nat) by now apply (pair_well_formed _ _ _ _ _ TS i Hi).
        assert (Hl : (7 <= length st)%nat) by (rewrite Est, app_length; cbn [length]; lia).
        rewrite <- H1, <- H2, <- (os_nd _ _ OS false) in Est.
        assert (S1 : nth 1 st 0%nat = (pd_nq (pd false) * pd_functions (pd false) * ml)%nat) by (rewrite Est; reflexivity).
        assert (S2 : nth 2 st 0%nat = (pd_nq (pd false) * pd_functions (pd false) * pd_gdim (pd false) * ml)%nat) by (rewrite Est; reflexivity).
        assert (S3 : nth 3 st 0%nat = pd_nq (pd false)) by (rewrite Est; reflexivity).
        assert (S4 : nth 4 st 0%nat = (pd_nq (pd false) * pd_gdim (pd false))%nat) by (rewrite Est; reflexivity).
        assert (S5 : nth 5 st 0%nat = pd_nq (pd false)) by (rewrite Est; reflexivity).
        assert (S6 : nth 6 st 0%nat = (pd_nq (pd false) * pd_gdim (pd false))%nat) by (rewrite Est; reflexivity).
        apply (poisson_element (with_strides kd st)) with (junk := j1) (junk' := j3); auto.
        + rewrite (se_ndofs _ _ _ PS). symmetry. apply (st_ndofs _ _ T).
        + rewrite (se_bs _ _ _ PS). symmetry. apply (st_bs _ _ T).
        + apply (poisson_row_fields (pd false) kd num_pairs (pair false) ml TS i Hi num_facets Hnf st arr); auto.
        + apply (poisson_row_one_link (pd false) kd num_pairs (pair false) ml TS i Hi num_facets Hnf st arr); auto.
    Qed.
  End Facts.

  (** Elasticity: after any history of calls, the vector that is assembled is the
      assembled matrix applied to the displacement given last. *)
  Theorem C73_elastic_residual_is_matrix_times_displacement :
    forall (kd : kernel_data) (rhs thermo rhs_p jac jac_p : list nat -> kernel_fn) (calls : list tie_call) (p : elastic_input) (u b : list R),
      object_setting true kd -> elastic_kernels kd rhs thermo jac ->
      Forall fields_given calls -> Forall (fun k => call_type k <> ThermoElasticity) calls ->
      fold_left elastic_step calls None = Some p -> e_u p = Some (true, u) ->
      exists v M, tie_vector (asm true) num_pairs rhs thermo rhs_p Elasticity (after calls) b = Some v /\
        tie_matrix (asm true) num_pairs jac jac_p Elasticity (after calls) = Some M /\ length v = length b /\
        forall d, (d < length b)%nat -> nth d v 0 = nth d b 0 + matrix_times gdim M u d.
  Proof.
    intros kd rhs thermo rhs_p jac jac_p calls p u b OS HK Hf Ht Ep Eu.
    pose proof (C63_elastic_history pack_h pack_coeff0 _ _ _ _ _ _ num_pairs num_facets nq nd gdim ml (os_coeff0 _ _ OS) (test_strides true kd OS) (grad_test_strides true kd OS) calls
      ltac:(eapply Forall_impl; [|exact Hf]; intros k; apply (fields_ok true kd OS)) Ht) as A.
    rewrite Ep in A. cbn [elastic_agrees] in A. fold (after calls) in A. set (s := after calls) in *. destruct A as (G2 & G3 & G5 & G6 & G7 & G8 & G9).
    unfold tie_vector, tie_matrix, assemble_vector_calls, assemble_matrix_calls. rewrite combine_kernels, combine_repeat. cbn match. rewrite G2, G3.
    set (st := elastic_strides nq nd gdim gdim ml) in *. pose proof (os_tie _ _ OS) as TS.
    assert (LR : kernel_local (fun m => m + 1)%nat (rhs st)).
    { destruct (HK st) as ((j & K) & _). destruct (C68_meshtie_kernels_local (with_strides kd st) j) as [LR _]. destruct (LR MeshTieRhs ltac:(now left)) as (k1 & E1 & L1). rewrite K in E1. injection E1 as <-. exact L1. }
    destruct (run_vector_pairs (asm true) rhs st (fun i => nth i (MeshTieModel.coeffs s) []) (cstride s) (consts s) num_pairs b LR ltac:(intros; now apply (pair_well_formed _ _ _ _ _ TS))) as (v & Ev & Lv & Xv).
    destruct (run_matrix_pairs (asm true) jac st (fun i => nth i (MeshTieModel.coeffs s) []) (cstride s) (consts s) num_pairs) as (M & EM & XM).
    exists v, M. repeat (split; [assumption|]). intros d Hd. rewrite Xv by auto. f_equal. rewrite XM. apply rsum_ext. intros i Hi. rewrite G5.
    destruct (G8 i Hi) as (_ & _ & _ & T1 & T2). destruct (G9 i Hi) as (D3 & D4 & D5 & D6). rewrite Eu in D3, D4, D5, D6. cbn [data_of fst snd] in *.
    apply (elastic_pair true kd OS rhs thermo jac st (MeshTieModel.coeffs s)); auto. exists []. reflexivity.
  Qed.

  (** Thermo-elasticity: the same, plus the load of the temperature. *)
  Theorem C73_thermo_elastic_residual :
    forall (kd : kernel_data) (rhs thermo rhs_p jac jac_p : list nat -> kernel_fn) (calls : list tie_call) (p : thermo_input) (u b : list R),
      object_setting true kd -> elastic_kernels kd rhs thermo jac ->
      Forall fields_given calls -> Forall (fun k => call_type k <> Elasticity) calls ->
      fold_left thermo_step calls None = Some p -> t_u p = Some (true, u) ->
      let s := after calls in
      exists v M load, tie_vector (asm true) num_pairs rhs thermo rhs_p ThermoElasticity s b = Some v /\
        tie_matrix (asm true) num_pairs jac jac_p ThermoElasticity s = Some M /\ length v = length b /\
        run_vector (asm true) (map (fun i => (thermo, (i, kernel_thermo_el s, nth i (MeshTieModel.coeffs s) [], cstride s, consts s))) (seq 0 num_pairs)) (repeat 0 (length b)) = Some load /\
        forall d, (d < length b)%nat -> nth d v 0 = nth d b 0 + matrix_times gdim M u d + nth d load 0.
  Proof.
    intros kd rhs thermo rhs_p jac jac_p calls p u b OS HK Hf Ht Ep Eu s.
    pose proof (C63_thermo_history pack_h pack_coeff0 _ _ _ _ _ _ num_pairs num_facets nq nd gdim ml (os_coeff0 _ _ OS) (test_strides true kd OS) (grad_test_strides true kd OS) calls
      ltac:(eapply Forall_impl; [|exact Hf]; intros k; apply (fields_ok true kd OS)) Ht) as A.
    rewrite Ep in A. cbn [thermo_agrees] in A. fold (after calls) in A. fold s in A. destruct A as (G2 & G3 & G4 & G5 & G6 & G7 & G8 & G9 & G10 & G11).
    unfold tie_vector, tie_matrix, assemble_vector_calls, assemble_matrix_calls. rewrite combine_kernels2, combine_repeat. cbn match. rewrite G2, G3, G4.
    set (st := thermo_strides nq nd gdim gdim ml) in *. pose proof (os_tie _ _ OS) as TS.
    assert (LR : kernel_local (fun m => m + 1)%nat (rhs st)).
    { destruct (HK st) as ((j & K) & _). destruct (C68_meshtie_kernels_local (with_strides kd st) j) as [LR _]. destruct (LR MeshTieRhs ltac:(now left)) as (k1 & E1 & L1). rewrite K in E1. injection E1 as <-. exact L1. }
    assert (LT : kernel_local (fun m => m + 1)%nat (thermo st)).
    { destruct (HK st) as (_ & (j & K) & _). destruct (C68_meshtie_kernels_local (with_strides kd st) j) as [LT _]. destruct (LT ThermoElasticRhs ltac:(right; now left)) as (k1 & E1 & L1). rewrite K in E1. injection E1 as <-. exact L1. }
    assert (HW : forall i, (i < num_pairs)%nat -> well_formed (pr_asm (pair true i))) by (intros; now apply (pair_well_formed _ _ _ _ _ TS)).
    destruct (run_vector_pairs2 (asm true) rhs thermo st st (fun i => nth i (MeshTieModel.coeffs s) []) (cstride s) (consts s) num_pairs b LR LT HW) as (v & Ev & Lv & Xv).
    destruct (run_vector_pairs (asm true) thermo st (fun i => nth i (MeshTieModel.coeffs s) []) (cstride s) (consts s) num_pairs (repeat 0 (length b)) LT HW) as (load & El & Ll & Xl).
    destruct (run_matrix_pairs (asm true) jac st (fun i => nth i (MeshTieModel.coeffs s) []) (cstride s) (consts s) num_pairs) as (M & EM & XM).
    exists v, M, load. repeat (split; [assumption|]). intros d Hd. rewrite Xv by auto. rewrite Xl by (rewrite repeat_length; auto). rewrite nth_repeat, Rplus_0_l. f_equal. f_equal. rewrite XM. apply rsum_ext. intros i Hi. rewrite G5.
    destruct (G8 i Hi) as (_ & _ & _ & T1 & T2). destruct (G10 i Hi) as (D3 & D4 & D5 & D6). rewrite Eu in D3, D4, D5, D6. cbn [data_of fst snd] in *.
    apply (elastic_pair true kd OS rhs thermo jac st (MeshTieModel.coeffs s)); auto. exists [nq; nq]. reflexivity.
  Qed.

  Theorem C73_poisson_residual_is_matrix_times_temperature :
    forall (kd : kernel_data) (rhs thermo rhs_p jac jac_p : list nat -> kernel_fn) (calls : list tie_call) (p : poisson_input) (T b : list R),
      object_setting false kd -> poisson_kernels kd rhs_p jac_p ->
      Forall fields_given calls ->
      fold_left poisson_step calls None = Some p -> p_T p = Some (false, T) ->
      exists v M, tie_vector (asm false) num_pairs rhs thermo rhs_p Poisson (after calls) b = Some v /\
        tie_matrix (asm false) num_pairs jac jac_p Poisson (after calls) = Some M /\ length v = length b /\
        forall d, (d < length b)%nat -> nth d v 0 = nth d b 0 + matrix_times 1 M T d.
  Proof.
    intros kd rhs thermo rhs_p jac jac_p calls p u b OS HK Hf Ep Eu.
    pose proof (C63_poisson_history pack_h pack_coeff0 _ _ _ _ _ _ num_pairs num_facets nq nd gdim ml (os_coeff0 _ _ OS) (test_strides false kd OS) (grad_test_strides false kd OS) calls
      ltac:(eapply Forall_impl; [|exact Hf]; intros k; apply (fields_ok false kd OS))) as A.
    rewrite Ep in A. cbn [poisson_agrees] in A. fold (after calls) in A. set (s := after calls) in *. destruct A as (G2 & G3 & G5 & G6 & G7 & G8 & G9).
    unfold tie_vector, tie_matrix, assemble_vector_calls, assemble_matrix_calls. rewrite combine_kernels, combine_repeat. cbn match. rewrite G2, G3.
    set (st := poisson_strides nq nd gdim ml) in *. pose proof (os_tie _ _ OS) as TS.
    assert (LR : kernel_local (fun m => m + 1)%nat (rhs_p st)).
    { destruct (HK st) as ((j & K) & _). destruct (C68_poisson_kernels_local (with_strides kd st) j) as [(k1 & E1 & L1) _]; [|rewrite K in E1; injection E1 as <-; exact L1].
      cbn [with_strides kd_bs]. rewrite (st_bs _ _ (ts_tables _ _ _ _ _ TS)). apply (os_shapes _ _ OS false). }
    destruct (run_vector_pairs (asm false) rhs_p st (fun i => nth i (coeffs_poisson s) []) (cstride_poisson s) (consts_poisson s) num_pairs b LR ltac:(intros; now apply (pair_well_formed _ _ _ _ _ TS))) as (v & Ev & Lv & Xv).
    destruct (run_matrix_pairs (asm false) jac_p st (fun i => nth i (coeffs_poisson s) []) (cstride_poisson s) (consts_poisson s) num_pairs) as (M & EM & XM).
    exists v, M. repeat (split; [assumption|]). intros d Hd. rewrite Xv by auto. f_equal. rewrite XM. apply rsum_ext. intros i Hi. rewrite G5.
    destruct (G8 i Hi) as (_ & _ & T1 & T2). destruct (G9 i Hi) as (D3 & D4 & D5 & D6). rewrite Eu in D3, D4, D5, D6. cbn [data_of fst snd] in *.
    apply (poisson_pair false kd OS rhs_p jac_p st (coeffs_poisson s)); auto. exists []. reflexivity.
  Qed.
End System.
Print Assumptions C73_elastic_residual_is_matrix_times_displacement.
Print Assumptions C73_thermo_elastic_residual.
Print Assumptions C73_poisson_residual_is_matrix_times_temperature.
