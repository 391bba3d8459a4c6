(** The tie matrices depend on the coefficients of a facet only through the material
    data and the packed test functions. *)
From Coq Require Import List Arith ZArith Lia Bool Reals Lra.
Import ListNotations.
From Verif Require Import Prelude PreludeLemmas RSum EntitiesModel PackingModel PackUProps AssemblyModel AssemblyProofs AssemblyProps LayoutModel LayoutProps
  RayModel KernelModel KernelProofs KernelSpec MeshTieKernelModel ElasticityProps MeshTieKernelProofs MeshTieKernelProps PoissonKernelProofs PoissonKernelProps SystemSpec.
Local Open Scope R_scope.

Lemma block_number links s : (s <= 3 * links)%nat -> s = 0%nat \/ exists k, (k < links)%nat /\ (s = 3 * k + 1 \/ s = 3 * k + 2 \/ s = 3 * k + 3)%nat.
Proof.
  intros H. destruct s as [|s]; [now left|]. right. exists (s / 3)%nat. pose proof (Nat.div_mod s 3 ltac:(lia)). pose proof (Nat.mod_upper_bound s 3 ltac:(lia)). split; lia.
Qed.

Section Same.
  Context (kd : kernel_data) (junk junk' : geometry) (c c' w coords : list R) (f links : nat) (qs : list nat).
  (** Material data and packed test functions. *)
  Definition same_tie_data : Prop := nth 0 c 0 = nth 0 c' 0 /\ nth 1 c 0 = nth 1 c' 0 /\ nth 2 c 0 = nth 2 c' 0 /\
    forall q k j, In q qs -> (k < links)%nat -> (j < kd_ndofs kd)%nat ->
      (forall n, (n < kd_bs kd)%nat -> tie_test kd f c q k j n = tie_test kd f c' q k j n) /\ (forall b, (b < kd_gdim kd)%nat -> tie_test_grad kd f c q k j b = tie_test_grad kd f c' q k j b).
  Lemma same_opposite q k i j l : same_tie_data -> In q qs -> (k < links)%nat -> (i < kd_ndofs kd)%nat -> (j < kd_gdim kd)%nat -> (l < kd_gdim kd)%nat -> forall n,
    sigma_n_opp (kd_gdim kd) (kd_ndofs kd) (num_points kd f) (fun x => nth (offsets kd 2 + x)%nat c 0) n (nth 0 c 0) (nth 1 c 0) q k i j l =
    sigma_n_opp (kd_gdim kd) (kd_ndofs kd) (num_points kd f) (fun x => nth (offsets kd 2 + x)%nat c' 0) n (nth 0 c' 0) (nth 1 c' 0) q k i j l.
  Proof.
    intros (E0 & E1 & _ & H) Hq Hk Hi Hj Hl n. rewrite !C41_opposite_traction, E0, E1 by auto. apply traction_ext; auto. intros a b Ha Hb. unfold in_direction.
    destruct (H q k i Hq Hk Hi) as [_ Hg]. specialize (Hg b Hb). unfold tie_test_grad in Hg. now rewrite Hg.
  Qed.
  Lemma meshtie_jac_same A s i n j l : same_tie_data -> kd_bs kd = kd_gdim kd -> matrix_buffers kd links A -> (s <= 3 * links)%nat ->
    (i < kd_ndofs kd)%nat -> (n < kd_bs kd)%nat -> (j < kd_ndofs kd)%nat -> (l < kd_bs kd)%nat ->
    added_mat kd A (meshtie_jac kd junk A c w coords f links qs) s i n j l = added_mat kd A (meshtie_jac kd junk' A c' w coords f links qs) s i n j l.
  Proof.
    intros HS Hbs HA Hs Hi Hn Hj Hl. pose proof HS as (E0 & E1 & E2 & H).
    assert (Ht : forall q k m x, In q qs -> (k < links)%nat -> (m < kd_ndofs kd)%nat -> (x < kd_bs kd)%nat -> nth (test_index kd (offsets kd 1) (num_points kd f) q k m x) c 0 = nth (test_index kd (offsets kd 1) (num_points kd f) q k m x) c' 0).
    { intros q k m x Hq Hk Hm Hx. destruct (H q k m Hq Hk Hm) as [X _]. exact (X x Hx). }
    assert (Hn' : (n < kd_gdim kd)%nat) by lia. assert (Hl' : (l < kd_gdim kd)%nat) by lia.
    destruct (block_number links s Hs) as [-> | (k & Hk & [-> | [-> | ->]])].
    - rewrite (chg_mat kd links A _ 0 i n j l _ HA Hs Hi Hn Hj Hl (meshtie_jac_cell kd junk c w coords f links A qs i n j l Hi Hn Hj Hl)).
      rewrite (chg_mat kd links A _ 0 i n j l _ HA Hs Hi Hn Hj Hl (meshtie_jac_cell kd junk' c' w coords f links A qs i n j l Hi Hn Hj Hl)).
      apply lsum_ext. intros q Hq. now rewrite E0, E1, E2.
    - rewrite (chg_mat kd links A _ _ i n j l _ HA Hs Hi Hn Hj Hl (meshtie_jac_cell_link kd junk c w coords f links A qs k i n j l Hk Hi Hn Hj Hl)).
      rewrite (chg_mat kd links A _ _ i n j l _ HA Hs Hi Hn Hj Hl (meshtie_jac_cell_link kd junk' c' w coords f links A qs k i n j l Hk Hi Hn Hj Hl)).
      apply lsum_ext. intros q Hq. rewrite (same_opposite q k j l n HS Hq Hk Hj Hl' Hn'). now rewrite E0, E1, E2, !Ht by auto.
    - rewrite (chg_mat kd links A _ _ i n j l _ HA Hs Hi Hn Hj Hl (meshtie_jac_link_cell kd junk c w coords f links A qs k i n j l Hk Hi Hn Hj Hl)).
      rewrite (chg_mat kd links A _ _ i n j l _ HA Hs Hi Hn Hj Hl (meshtie_jac_link_cell kd junk' c' w coords f links A qs k i n j l Hk Hi Hn Hj Hl)).
      apply lsum_ext. intros q Hq. rewrite (same_opposite q k i n l HS Hq Hk Hi Hn' Hl'). now rewrite E0, E1, E2, !Ht by auto.
    - rewrite (chg_mat kd links A _ _ i n j l _ HA Hs Hi Hn Hj Hl (meshtie_jac_link_link kd junk c w coords f links A qs k i n j l Hk Hi Hn Hj Hl)).
      rewrite (chg_mat kd links A _ _ i n j l _ HA Hs Hi Hn Hj Hl (meshtie_jac_link_link kd junk' c' w coords f links A qs k i n j l Hk Hi Hn Hj Hl)).
      apply lsum_ext. intros q Hq. rewrite (same_opposite q k i n l HS Hq Hk Hi Hn' Hl'), (same_opposite q k j l n HS Hq Hk Hj Hl' Hn'). now rewrite E2, !Ht by auto.
  Qed.
  (** The same for the Poisson tie; its rows hold two scalars. *)
  Definition same_poisson_data : Prop := nth 0 c 0 = nth 0 c' 0 /\ nth 1 c 0 = nth 1 c' 0 /\
    forall q k j, In q qs -> (k < links)%nat -> (j < kd_ndofs kd)%nat ->
      poisson_test kd f c q k j = poisson_test kd f c' q k j /\ (forall b, (b < kd_gdim kd)%nat -> poisson_test_grad kd f c q k j b = poisson_test_grad kd f c' q k j b).
  Lemma poisson_jac_same A s i j : same_poisson_data -> kd_bs kd = 1%nat -> matrix_buffers kd links A -> (s <= 3 * links)%nat -> (i < kd_ndofs kd)%nat -> (j < kd_ndofs kd)%nat ->
    added_mat kd A (poisson_jac kd junk A c w coords f links qs) s i 0 j 0 = added_mat kd A (poisson_jac kd junk' A c' w coords f links qs) s i 0 j 0.
  Proof.
    intros HS Hbs HA Hs Hi Hj. pose proof HS as (E0 & E1 & H).
    assert (Ht : forall q k m, In q qs -> (k < links)%nat -> (m < kd_ndofs kd)%nat -> poisson_test kd f c q k m = poisson_test kd f c' q k m) by (intros; now apply H).
    assert (Hg : forall q k m a, In q qs -> (k < links)%nat -> (m < kd_ndofs kd)%nat -> (a < kd_gdim kd)%nat -> poisson_test_grad kd f c q k m a = poisson_test_grad kd f c' q k m a) by (intros; now apply H).
    unfold poisson_test, poisson_test_grad in Ht, Hg.
    destruct (block_number links s Hs) as [-> | (k & Hk & [-> | [-> | ->]])].
    - rewrite (chg_mat1 kd links Hbs A _ 0 i j _ HA Hs Hi Hj (poisson_jac_cell kd junk c w coords f links A qs i j Hi Hj)).
      rewrite (chg_mat1 kd links Hbs A _ 0 i j _ HA Hs Hi Hj (poisson_jac_cell kd junk' c' w coords f links A qs i j Hi Hj)).
      apply lsum_ext. intros q Hq. now rewrite E0, E1.
    - rewrite (chg_mat1 kd links Hbs A _ _ i j _ HA Hs Hi Hj (poisson_jac_cell_link kd junk c w coords f links A qs k i j Hk Hi Hj)).
      rewrite (chg_mat1 kd links Hbs A _ _ i j _ HA Hs Hi Hj (poisson_jac_cell_link kd junk' c' w coords f links A qs k i j Hk Hi Hj)).
      apply lsum_ext. intros q Hq. rewrite E0, E1, !Ht by auto. f_equal. apply rsum_ext. intros a Ha. now rewrite !Hg.
    - rewrite (chg_mat1 kd links Hbs A _ _ i j _ HA Hs Hi Hj (poisson_jac_link_cell kd junk c w coords f links A qs k i j Hk Hi Hj)).
      rewrite (chg_mat1 kd links Hbs A _ _ i j _ HA Hs Hi Hj (poisson_jac_link_cell kd junk' c' w coords f links A qs k i j Hk Hi Hj)).
      apply lsum_ext. intros q Hq. rewrite E0, E1, !Ht by auto. f_equal. apply rsum_ext. intros a Ha. now rewrite !Hg.
    - rewrite (chg_mat1 kd links Hbs A _ _ i j _ HA Hs Hi Hj (poisson_jac_link_link kd junk c w coords f links A qs k i j Hk Hi Hj)).
      rewrite (chg_mat1 kd links Hbs A _ _ i j _ HA Hs Hi Hj (poisson_jac_link_link kd junk' c' w coords f links A qs k i j Hk Hi Hj)).
      apply lsum_ext. intros q Hq. rewrite E0, E1, !Ht by auto. f_equal. apply rsum_ext. intros a Ha. now rewrite !Hg.
  Qed.
End Same.

(** Assembled matrices with the same element matrices act alike. *)
Lemma matrix_times_ext (a : assembly) (jac jac' : kernel_fn) (cf cf' : list R) (cstride cstride' : nat) (w w' u : list R) (d : nat) :
  kernel_local (fun n => 3 * n + 1)%nat jac -> kernel_local (fun n => 3 * n + 1)%nat jac' -> well_formed a ->
  (forall i c, (i < a_local a)%nat -> In c (nth (2 * i) (a_active a) 0%nat :: links_of a i) -> length (a_dofs a c) = a_ndofs a) ->
  (forall e s i n j l, (e < a_local a)%nat -> (s <= 3 * length (links_of a e))%nat -> (i < a_ndofs a)%nat -> (n < a_bs a)%nat -> (j < a_ndofs a)%nat -> (l < a_bs a)%nat ->
     let E k cf cs w := facet_result a k cf cs w (3 * a_max_links a + 1) (a_bs a * a_ndofs a * a_bs a * a_ndofs a) e in
     let p := row_col (a_ndofs a * a_bs a) (dof (a_bs a) i n) (dof (a_bs a) j l) in
     nth p (nth s (E jac cf cstride w) []) 0 = nth p (nth s (E jac' cf' cstride' w') []) 0) ->
  matrix_times (a_bs a) (assemble_matrix a jac cf cstride w) u d = matrix_times (a_bs a) (assemble_matrix a jac' cf' cstride' w') u d.
Proof.
  intros HJ HJ' HW HD HE. rewrite !C21_assemble_matrix by auto. unfold matrix_times. rewrite !lsum_flat_map. apply lsum_ext. intros e He. apply in_seq in He. cbv zeta. cbn [lsum].
  assert (He' : (e < a_local a)%nat) by lia. specialize (fun s i n j l => HE e s i n j l He'). cbv zeta in HE.
  set (E := facet_result a jac _ _ _ _ _ e) in *. set (E' := facet_result a jac' _ _ _ _ _ e) in *.
  assert (Dc : length (a_dofs a (nth (2 * e) (a_active a) 0%nat)) = a_ndofs a) by (apply (HD e); [auto | now left]).
  assert (Dl : forall k, (k < length (links_of a e))%nat -> length (a_dofs a (nth k (links_of a e) 0%nat)) = a_ndofs a) by (intros k Hk; apply (HD e); [auto | right; now apply nth_In]).
  assert (G : forall s c c', (s <= 3 * length (links_of a e))%nat -> length (a_dofs a c) = a_ndofs a -> length (a_dofs a c') = a_ndofs a ->
    insertion_times (a_bs a) (a_dofs a c, a_dofs a c', nth s E []) u d = insertion_times (a_bs a) (a_dofs a c, a_dofs a c', nth s E' []) u d).
  { intros s c c' Hs Lc Lc'. rewrite !insertion_scatter by auto. apply scatter_ext. intros i n Hi Hn. apply apply_row_ext. intros j l Hj Hl. now apply HE. }
  rewrite (G 0%nat) by (auto; lia). f_equal. rewrite !lsum_flat_map. apply lsum_ext. intros k Hk. apply in_seq in Hk. cbn [lsum]. specialize (Dl k ltac:(lia)). rewrite !G by (auto; lia). reflexivity.
Qed.
