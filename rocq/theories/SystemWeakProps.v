(** C100: the assembled contact residual as a functional of the test function. *)
From Coq Require Import List Arith ZArith Lia Bool Reals Lra.
Import ListNotations.
From Verif Require Import Prelude PreludeLemmas RSum RealLemmas LayoutModel LayoutProps ContactProblemModel ContactProblemProps.
From Verif Require Import EntitiesModel PackingModel PackUProps AssemblyModel AssemblyProofs AssemblyProps RayModel KernelModel KernelProofs KernelSpec
  ElasticityProps ContactKernelModel ContactKernelSpec ContactKernelProps FrictionKernelProps CoefficientsModel CoefficientsProps SystemSpec TieSystemModel TieSystemProofs TieSystemProps
  TieWeakProps ContactWeakProps ContactSystemModel ContactSystemSpec ContactSystemProofs ContactSystemProps TieSystemExamples ContactSystemExamples.
Local Open Scope R_scope.

(** ** Specification *)
(** A residual applied to a test function. *)
Definition applied (b v : list R) : R := rsum (length b) (fun d => nth d b 0 * nth d v 0).
(** The contact conditions at point [q] of a facet with stored row [row]: contact, and the
    law of friction chosen. *)
Definition conditions (law : friction_law) (kd : kernel_data) (coords : list R) (f : nat) (row : list R) (q : nat) : Prop :=
  unit_normal kd row q /\ signorini_at kd coords f row q /\
  match law with
  | Frictionless => forall a, (a < kd_gdim kd)%nat -> tangential kd row q (ck_traction kd coords f row q) a = 0
  | Tresca => tresca_at kd coords f row q
  | Coulomb => coulomb_at kd coords f row q
  end.

(** ** Lemmas *)
Lemma applied_scatter a cell P v N : N = length v -> rsum N (fun d => scatter a d cell P * nth d v 0) = apply_row (a_ndofs a) (a_bs a) P (restrict a v cell).
Proof.
  intros ->. unfold scatter, apply_row, restrict, dof_value.
  rewrite (rsum_ext (length v) _ (fun d => rsum (a_ndofs a) (fun i => rsum (a_bs a) (fun n => (if (a_bs a * nth i (a_dofs a cell) 0 + n =? d)%nat then P i n else 0) * nth d v 0)))).
  2:{ intros d _. rewrite <- rsum_scal_r. apply rsum_ext. intros i _. now rewrite <- rsum_scal_r. }
  rewrite rsum_swap. apply rsum_ext. intros i _. rewrite rsum_swap. apply rsum_ext. intros n _. set (x := (a_bs a * nth i (a_dofs a cell) 0 + n)%nat).
  destruct (Nat.lt_ge_cases x (length v)) as [L|L].
  - rewrite (rsum_single (length v) x); [now rewrite Nat.eqb_refl|exact L|]. intros d _ Nd. destruct (Nat.eqb_spec x d); [congruence|ring].
  - rewrite (nth_overflow v) by auto. rewrite rsum_zero; [ring|]. intros d Hd. destruct (Nat.eqb_spec x d); [lia|ring].
Qed.
Lemma applied_plus x y v : length x = length v -> (forall d, (d < length x)%nat -> True) -> applied x v + rsum (length v) (fun d => y d * nth d v 0) = rsum (length v) (fun d => (nth d x 0 + y d) * nth d v 0).
Proof. intros L _. unfold applied. rewrite L, <- rsum_plus. apply rsum_ext. intros; ring. Qed.

(** Assembly and testing commute: the assembled vector applied to a test function is the
    sum of the element vectors tested with its restrictions. *)
Theorem C100_assembled_test :
  forall (a : assembly) (kernel : kernel_fn) (cf : list R) (cstride : nat) (w b v : list R),
    kernel_local (fun n => n + 1)%nat kernel -> well_formed a -> length v = length b ->
    applied (assemble_vector a kernel cf cstride w b) v = applied b v +
    rsum (a_local a) (fun e => tested (a_ndofs a) (a_bs a) (length (links_of a e))
      (fun s i n => nth (dof (a_bs a) i n) (nth s (facet_result a kernel cf cstride w (a_max_links a + 1) (a_bs a * a_ndofs a) e) []) 0)
      (restrict a v (nth (2 * e) (a_active a) 0%nat)) (fun k => restrict a v (nth k (links_of a e) 0%nat))).
Proof.
  intros a kernel cf cstride w b v HK HW Hv. destruct (C20_assemble_vector a kernel cf cstride w b HK HW) as [Lr Er].
  unfold applied at 1. rewrite Lr.
  rewrite (rsum_ext (length b) _ (fun d => (nth d b 0 + rsum (a_local a) (fun i => facet_vector a kernel cf cstride w i d)) * nth d v 0)) by (intros d Hd; now rewrite Er).
  rewrite <- Hv, <- applied_plus by auto. f_equal.
  rewrite (rsum_ext (length v) _ (fun d => rsum (a_local a) (fun i => facet_vector a kernel cf cstride w i d * nth d v 0))) by (intros d _; now rewrite rsum_scal_r).
  rewrite rsum_swap. apply rsum_ext. intros e _. unfold facet_vector. cbv zeta. set (E := facet_result _ _ _ _ _ _ _ e).
  rewrite (rsum_ext (length v) _ (fun d => scattered a (nth (2 * e) (a_active a) 0%nat) (nth 0 E []) d * nth d v 0 + rsum (length (links_of a e)) (fun l => scattered a (nth l (links_of a e) 0%nat) (nth (l + 1) E []) d * nth d v 0)))
    by (intros d _; rewrite rsum_scal_r; ring).
  rewrite rsum_plus. unfold tested. f_equal.
  - rewrite (rsum_ext (length v) _ _ (fun d _ => f_equal (fun z => z * nth d v 0) (scattered_scatter a d _ _))). now apply applied_scatter.
  - rewrite rsum_swap. apply rsum_ext. intros k _.
    rewrite (rsum_ext (length v) _ _ (fun d _ => f_equal (fun z => z * nth d v 0) (scattered_scatter a d _ _))). now apply applied_scatter.
Qed.
Print Assumptions C100_assembled_test.

Lemma lsum_opp {A} (l : list A) f : lsum l (fun a => - f a) = - lsum l f.
Proof. induction l as [|a l IH]; cbn [lsum]; [ring|]. rewrite IH. ring. Qed.
Lemma tested_ext nd bs links vec vec' V Vo :
  (forall s i n, (s <= links)%nat -> (i < nd)%nat -> (n < bs)%nat -> vec s i n = vec' s i n) -> tested nd bs links vec V Vo = tested nd bs links vec' V Vo.
Proof.
  intros H. unfold tested. f_equal; [apply apply_row_ext; intros; apply H; auto; lia|]. apply rsum_ext. intros k Hk. apply apply_row_ext. intros. apply H; auto; lia.
Qed.
Lemma applied_kernels a cf cstride w v kernels : well_formed a -> Forall (kernel_local (fun n => n + 1)%nat) kernels -> forall b, length v = length b ->
  length (for_each kernels (fun kernel b => assemble_vector a kernel cf cstride w b) b) = length b /\
  applied (for_each kernels (fun kernel b => assemble_vector a kernel cf cstride w b) b) v = applied b v +
  rsum (a_local a) (fun e => lsum kernels (fun kernel => tested (a_ndofs a) (a_bs a) (length (links_of a e))
      (fun s i n => nth (dof (a_bs a) i n) (nth s (facet_result a kernel cf cstride w (a_max_links a + 1) (a_bs a * a_ndofs a) e) []) 0)
      (restrict a v (nth (2 * e) (a_active a) 0%nat)) (fun k => restrict a v (nth k (links_of a e) 0%nat)))).
Proof.
  intros HW HK. unfold for_each. induction HK as [|k ks Hk HK IH]; intros b Hb; cbn [fold_left].
  - split; [reflexivity|]. cbn [lsum]. rewrite rsum_0. ring.
  - destruct (C20_assemble_vector a k cf cstride w b Hk HW) as [Lr _]. destruct (IH (assemble_vector a k cf cstride w b)) as [L E]; [congruence|].
    split; [congruence|]. rewrite E, (C100_assembled_test a k cf cstride w b v Hk HW Hb). cbn [lsum]. rewrite rsum_plus. ring.
Qed.

Section Object.
  Context {G : Type} (pd : pack_data) (kd : kernel_data) (num_pairs : nat) (surfaces : nat -> tie_pair) (basis : G -> (nat -> list Z) -> nat -> nat -> nat -> R)
    (num_rows : nat -> nat) (move : G -> list R -> G) (detect : G -> nat -> list Z) (pack_gap pack_normals : nat -> G -> (nat -> list Z) -> list (list R))
    (pack_param : nat -> list R -> list (list R)) (pack_h : nat -> list (list R)).
  Notation nq := (pd_nq pd).
  Notation nd := (pd_functions pd).
  Notation bs := (pd_bs pd).
  Notation gdim := (pd_gdim pd).
  Notation after := (contact_after pd num_pairs surfaces basis num_rows move detect pack_gap pack_normals pack_param pack_h).
  Notation updated := (contact_updated pd num_pairs surfaces basis num_rows).
  Notation pairs s := (pair_at pd surfaces basis (cp_geom s) (cp_map s)).
  Notation strides := (contact_kernel_strides nq nd gdim gdim nq).
  Notation kd' := (with_strides kd strides).
  Notation NC := (stride pd).
  Notation row s i e := (slice (concat (nth i (cp_coeffs s) [])) (e * NC) NC).

  (** A displacement increment [u] that meets the contact conditions at all contact points
      with the data of the last detection: the assembled residual is the work of the
      traction on the jump of the test function over all pairs and facets. *)
  Theorem C100_residual_is_work :
    forall (law : friction_law) (g : G) (calls : list (@call (list R) (nat -> list Z))) (u v b : list R) (kernels : list kernel_fn),
    let s := after g calls in
    cp_ready s = true -> tie_setting pd kd num_pairs (pairs s) nq -> bs = gdim -> length v = length b ->
    generated kd' (vector_kinds law) kernels -> 0 < nth 0 (constants_of s) 0 ->
    (forall i e, (i < num_pairs)%nat -> let asm := pr_asm (pairs s i) in (e < a_local asm)%nat ->
       0 <= ck_friction (row (updated u s) i e) /\ 0 < nth 3 (row (updated u s) i e) 0 /\
       forall q, In q (points_of asm e) -> conditions law kd' (coordinates_of asm (nth (2 * e) (a_active asm) 0%nat)) (nth (2 * e + 1) (a_active asm) 0%nat) (row (updated u s) i e) q) ->
    applied (contact_vector pd num_pairs surfaces basis kernels (updated u s) b) v = applied b v -
    rsum num_pairs (fun i => let asm := pr_asm (pairs s i) in rsum (a_local asm) (fun e =>
      let cell := nth (2 * e) (a_active asm) 0%nat in
      let f := nth (2 * e + 1) (a_active asm) 0%nat in
      let links := links_of asm e in
      lsum (points_of asm e) (fun q => surface_weight kd' (coordinates_of asm cell) f q / 2 *
        inner kd' (ck_traction kd' (coordinates_of asm cell) f (row (updated u s) i e) q)
          (test_jump kd' f (row (updated u s) i e) (length links) q (restrict asm v cell) (fun k => restrict asm v (nth k links 0%nat)))))).
  Proof.
    intros law g calls u v b kernels s HR TS Hg Hv HK Hw H.
    assert (U : cp_geom (updated u s) = cp_geom s /\ cp_map (updated u s) = cp_map s /\ constants_of (updated u s) = constants_of s).
    { unfold constants_of, contact_updated, update_data. rewrite HR. auto. }
    destruct U as (U1 & U2 & U3). unfold contact_vector. rewrite U1, U2, U3. clear U1 U2 U3.
    assert (LR : Forall (kernel_local (fun n => n + 1)%nat) kernels).
    { assert (X : forall k r, In k [Rhs; TrescaRhs; CoulombRhs] -> (exists junk, generate_contact_kernel k kd' junk = Some r) -> kernel_local (fun n => n + 1)%nat r).
      { intros k r Hk [junk E]. destruct (C68_contact_kernels_local kd' junk) as [X _]. destruct (X k Hk) as (r' & E' & L). congruence. }
      unfold generated in HK. apply Forall_forall. intros r Hr. destruct (In_nth _ _ r Hr) as (n & Hn & En).
      assert (Y : Forall (fun k => In k [Rhs; TrescaRhs; CoulombRhs]) (vector_kinds law)) by (destruct law; repeat constructor; cbn [In]; auto).
      clear - HK Hr X Y. induction HK as [|k r' ks rs E HK IH]; [contradiction|]. inversion Y; subst. destruct Hr as [<-|Hr]; [now apply (X k)|auto]. }
    assert (T := ts_tables _ _ _ _ _ TS).
    assert (Hgk : kd_bs kd' = kd_gdim kd') by (cbn [with_strides kd_bs kd_gdim]; now rewrite (st_bs _ _ T), (st_gdim _ _ T)).
    (* one facet *)
    assert (F : forall i e, (i < num_pairs)%nat -> (e < a_local (pr_asm (pairs s i)))%nat -> let asm := pr_asm (pairs s i) in
      lsum kernels (fun kernel => tested (a_ndofs asm) (a_bs asm) (length (links_of asm e))
        (fun s' i' n => nth (dof (a_bs asm) i' n) (nth s' (facet_result asm kernel (concat (nth i (cp_coeffs (updated u s)) [])) NC (constants_of s) (a_max_links asm + 1) (a_bs asm * a_ndofs asm) e) []) 0)
        (restrict asm v (nth (2 * e) (a_active asm) 0%nat)) (fun k => restrict asm v (nth k (links_of asm e) 0%nat))) =
      lsum (points_of asm e) (fun q => - (surface_weight kd' (coordinates_of asm (nth (2 * e) (a_active asm) 0%nat)) (nth (2 * e + 1) (a_active asm) 0%nat) q / 2 *
        inner kd' (ck_traction kd' (coordinates_of asm (nth (2 * e) (a_active asm) 0%nat)) (nth (2 * e + 1) (a_active asm) 0%nat) (row (updated u s) i e) q)
          (test_jump kd' (nth (2 * e + 1) (a_active asm) 0%nat) (row (updated u s) i e) (length (links_of asm e)) q (restrict asm v (nth (2 * e) (a_active asm) 0%nat)) (fun k => restrict asm v (nth k (links_of asm e) 0%nat)))))).
    { intros i e Hi He asm. pose proof (ts_pairs _ _ _ _ _ TS i Hi) as PS. destruct (H i e Hi He) as (Hf & Hh & Hc). fold asm in He, Hc.
      assert (G3 : (kd_gdim kd' <= 3)%nat) by (cbn [with_strides kd_gdim]; rewrite (st_gdim _ _ T); apply (se_gdim3 _ _ _ PS)).
      assert (Hnd : a_ndofs asm = kd_ndofs kd') by (cbn [with_strides kd_ndofs]; rewrite (st_ndofs _ _ T); apply (se_ndofs _ _ _ PS)).
      assert (Hbs : a_bs asm = kd_bs kd') by (cbn [with_strides kd_bs]; rewrite (st_bs _ _ T); apply (se_bs _ _ _ PS)).
      assert (Hll : (length (links_of asm e) <= a_max_links asm)%nat) by (now apply (pair_well_formed pd kd num_pairs (pairs s) nq TS i Hi)).
      set (cell := nth (2 * e) (a_active asm) 0%nat) in *. set (f := nth (2 * e + 1) (a_active asm) 0%nat) in *. set (lk := links_of asm e) in *.
      set (V := restrict asm v cell). set (Vo := fun k => restrict asm v (nth k lk 0%nat)). set (c := row (updated u s) i e) in *.
      set (B := repeat (repeat 0 (a_bs asm * a_ndofs asm)) (a_max_links asm + 1)).
      assert (HB : vector_buffers kd' (length lk) B) by (apply vector_bufs; auto).
      assert (Z : forall kernel, tested (a_ndofs asm) (a_bs asm) (length lk)
        (fun s' i' n => nth (dof (a_bs asm) i' n) (nth s' (facet_result asm kernel (concat (nth i (cp_coeffs (updated u s)) [])) NC (constants_of s) (a_max_links asm + 1) (a_bs asm * a_ndofs asm) e) []) 0) V Vo =
        tested (kd_ndofs kd') (kd_bs kd') (length lk) (added_vec kd' B (kernel B c (constants_of s) (coordinates_of asm cell) f (length lk) (points_of asm e))) V Vo).
      { intros kernel. rewrite Hnd, Hbs. apply tested_ext. intros s' i' n _ _ _. unfold added_vec, B. rewrite nth_zeros, Rminus_0_r. unfold facet_result. now rewrite Hnd, Hbs. }
      unfold generated, vector_kinds in HK. cbn [app] in HK. inversion HK as [|k1 r1 ks rs [j1 E1] HK1]; subst. cbn [lsum]. rewrite Z.
      assert (HS : forall q, In q (points_of asm e) -> signorini_at kd' (coordinates_of asm cell) f c q) by (intros q Hq; apply (Hc q Hq)).
      assert (Hrest : forall type r2, In type [TrescaRhs; CoulombRhs] -> (exists junk, generate_contact_kernel type kd' junk = Some r2) ->
         (forall q, In q (points_of asm e) -> unit_normal kd' c q /\ signorini_at kd' (coordinates_of asm cell) f c q /\ match type with TrescaRhs => tresca_at kd' (coordinates_of asm cell) f c q | _ => coulomb_at kd' (coordinates_of asm cell) f c q end) ->
         tested (kd_ndofs kd') (kd_bs kd') (length lk) (added_vec kd' B (r1 B c (constants_of s) (coordinates_of asm cell) f (length lk) (points_of asm e))) V Vo +
         (tested (kd_ndofs kd') (kd_bs kd') (length lk) (added_vec kd' B (r2 B c (constants_of s) (coordinates_of asm cell) f (length lk) (points_of asm e))) V Vo + 0) =
         lsum (points_of asm e) (fun q => - (surface_weight kd' (coordinates_of asm cell) f q / 2 * inner kd' (ck_traction kd' (coordinates_of asm cell) f c q) (test_jump kd' f c (length lk) q V Vo)))).
      { intros type r2 Ht [j2 E2] HQ. rewrite Rplus_0_r.
        assert (E2' : generate_contact_kernel type kd' j1 = Some r2 \/ True) by (right; exact I). clear E2'.
        rewrite (C99_contact_consistent kd' j1 B c (constants_of s) (coordinates_of asm cell) f (length lk) (points_of asm e) V Vo r1 E1 Hgk HB Hw Hh HS).
        rewrite <- (C99_contact_consistent kd' j2 B c (constants_of s) (coordinates_of asm cell) f (length lk) (points_of asm e) V Vo _ eq_refl Hgk HB Hw Hh HS).
        apply (C99_consistent kd' j2 B c (constants_of s) (coordinates_of asm cell) f (length lk) (points_of asm e) V Vo type _ r2 Ht eq_refl E2 Hgk G3 HB Hf Hw Hh HQ). }
      destruct law; cbn [conditions] in Hc; cbn [app] in HK1.
      - inversion HK1; subst. cbn [lsum]. rewrite Rplus_0_r.
        rewrite (C99_contact_consistent kd' j1 B c (constants_of s) (coordinates_of asm cell) f (length lk) (points_of asm e) V Vo r1 E1 Hgk HB Hw Hh HS).
        apply lsum_ext. intros q Hq. cbv beta. destruct (Hc q Hq) as (Un & _ & Ht). f_equal. f_equal.
        set (x := ck_traction kd' (coordinates_of asm cell) f c q) in *. set (y := test_jump kd' f c (length lk) q V Vo).
        unfold inner. rewrite (rsum_ext (kd_gdim kd') (fun a => x a * y a) (fun a => along kd' (ck_normal kd' c q) x * (y a * ck_normal kd' c q a))).
        + now rewrite rsum_scal.
        + intros a Ha. specialize (Ht a Ha). unfold tangential in Ht. replace (x a) with (along kd' (ck_normal kd' c q) x * ck_normal kd' c q a) by lra. ring.
      - inversion HK1 as [|k2 r2 ks2 rs2 E2 HK2]; subst. inversion HK2; subst. cbn [lsum]. rewrite Z. apply (Hrest CoulombRhs); [cbn [In]; auto|exact E2|exact Hc].
      - inversion HK1 as [|k2 r2 ks2 rs2 E2 HK2]; subst. inversion HK2; subst. cbn [lsum]. rewrite Z. apply (Hrest TrescaRhs); [cbn [In]; auto|exact E2|exact Hc]. }
    (* all pairs *)
    assert (P : forall n, (n <= num_pairs)%nat ->
      let r := for_loop n (fun i b => for_each kernels (fun kernel b => assemble_vector (pr_asm (pairs s i)) kernel (concat (nth i (cp_coeffs (updated u s)) [])) NC (constants_of s) b) b) b in
      length r = length b /\ applied r v = applied b v -
        rsum n (fun i => rsum (a_local (pr_asm (pairs s i))) (fun e => lsum (points_of (pr_asm (pairs s i)) e) (fun q =>
          surface_weight kd' (coordinates_of (pr_asm (pairs s i)) (nth (2 * e) (a_active (pr_asm (pairs s i))) 0%nat)) (nth (2 * e + 1) (a_active (pr_asm (pairs s i))) 0%nat) q / 2 *
          inner kd' (ck_traction kd' (coordinates_of (pr_asm (pairs s i)) (nth (2 * e) (a_active (pr_asm (pairs s i))) 0%nat)) (nth (2 * e + 1) (a_active (pr_asm (pairs s i))) 0%nat) (row (updated u s) i e) q)
            (test_jump kd' (nth (2 * e + 1) (a_active (pr_asm (pairs s i))) 0%nat) (row (updated u s) i e) (length (links_of (pr_asm (pairs s i)) e)) q (restrict (pr_asm (pairs s i)) v (nth (2 * e) (a_active (pr_asm (pairs s i))) 0%nat)) (fun k => restrict (pr_asm (pairs s i)) v (nth k (links_of (pr_asm (pairs s i)) e) 0%nat))))))).
    { induction n as [|n IH]; intros Hn; cbv zeta.
      - split; [reflexivity|]. change (applied b v = applied b v - 0). now rewrite Rminus_0_r.
      - rewrite for_loop_S. set (r := for_loop n _ b). destruct (IH ltac:(lia)) as [L E]. fold r in L, E. cbv beta.
        destruct (applied_kernels (pr_asm (pairs s n)) (concat (nth n (cp_coeffs (updated u s)) [])) NC (constants_of s) v kernels
          (pair_well_formed pd kd num_pairs (pairs s) nq TS n Hn) LR r ltac:(congruence)) as [L' E'].
        split; [congruence|]. rewrite E', E. cbn [rsum].
        rewrite (rsum_ext (a_local (pr_asm (pairs s n))) _ _ (fun e He => F n e Hn He)).
        match goal with |- ?x - ?y + ?z = ?x - (?y + ?t) => enough (X : z = - t) by (rewrite X; ring) end.
        rewrite <- rsum_opp. apply rsum_ext. intros e _. apply lsum_opp. }
    destruct (P num_pairs (le_n _)) as [_ E]. exact E.
  Qed.

  (** The jump the residual sees is that of the displacement increment itself, and the
      gradient is its gradient plus the one stored at the last detection. *)
  Theorem C100_jump_of_displacement :
    forall (g : G) (calls : list (@call (list R) (nat -> list Z))) (u : list R) (i e q a : nat),
    let s := after g calls in
    let asm := pr_asm (pairs s i) in
    let cell := nth (2 * e) (a_active asm) 0%nat in
    let f := nth (2 * e + 1) (a_active asm) 0%nat in
    let c := row (updated u s) i e in
    Forall no_crop calls -> cp_ready s = true -> (forall i, (num_local surfaces i <= num_rows i)%nat) -> tie_setting pd kd num_pairs (pairs s) nq -> bs = gdim ->
    (i < num_pairs)%nat -> (e < a_local asm)%nat -> In q (points_of asm e) -> (a < gdim)%nat ->
    ck_jump kd' c q a = test_jump kd' f c (length (links_of asm e)) q (restrict asm u cell) (fun k => restrict asm u (nth k (links_of asm e) 0%nat)) a /\
    (forall b, (b < gdim)%nat -> nth (offsets kd' 5 + q * gdim * gdim + (a * gdim + b)) c 0 =
       own_grad kd' (coordinates_of asm cell) f q (restrict asm u cell) a b + at2 (nth i (ContactProblemModel.cp_grad s) []) e (q * gdim * gdim + (a * gdim + b))).
  Proof.
    intros g calls u i e q a s asm cell f c HC HR HL TS Hg Hi He Hp Ha. assert (T := ts_tables _ _ _ _ _ TS).
    destruct (row_links pd kd num_pairs surfaces basis num_rows move detect pack_gap pack_normals pack_param pack_h g calls TS i Hi e He q Hp) as [Hq Hl]. fold s asm in Hl.
    assert (Gd : kd_gdim kd' = gdim) by (cbn [with_strides kd_gdim]; apply (st_gdim _ _ T)). assert (Nd : kd_ndofs kd' = nd) by (cbn [with_strides kd_ndofs]; apply (st_ndofs _ _ T)).
    assert (Bd : kd_bs kd' = gdim) by (cbn [with_strides kd_bs]; rewrite (st_bs _ _ T); exact Hg).
    split.
    - unfold ck_jump, test_jump. rewrite Gd, Bd. unfold c, s.
      rewrite (row_u pd kd num_pairs surfaces basis num_rows move detect pack_gap pack_normals pack_param pack_h g calls HR HL TS Hg i Hi e He u q a Hq Ha).
      rewrite (row_opp pd kd num_pairs surfaces basis num_rows move detect pack_gap pack_normals pack_param pack_h g calls HR HL TS Hg i Hi e He u q a Hp Ha).
      fold s asm cell f. f_equal.
      + unfold own. rewrite Nd. apply rsum_ext. intros j _. cbn [with_strides kd_phi kd_qp_offsets]. ring.
      + apply rsum_ext. intros k Hk. rewrite Nd. apply rsum_ext. intros j Hj. f_equal. symmetry.
        apply (row_test pd kd num_pairs surfaces basis num_rows move detect pack_gap pack_normals pack_param pack_h g calls HC HR HL TS Hg i Hi e He u q k j a); auto. lia.
    - intros b Hb. unfold c, s. rewrite (row_grad pd kd num_pairs surfaces basis num_rows move detect pack_gap pack_normals pack_param pack_h g calls HR HL TS Hg i Hi e He u q a b Hq Ha Hb).
      fold s asm cell f. f_equal. unfold own_grad. rewrite Nd. apply rsum_ext. intros; ring.
  Qed.
End Object.
Print Assumptions C100_jump_of_displacement.
Print Assumptions C100_residual_is_work.

(** ** The two-triangle object: the first triangle is pressed against the second *)
(** The first triangle moves by 1/2 at the contact point and is compressed along the first axis. *)
Definition press_u : list R := [3/2; -1/2; -1/2; -1/2; 3/2; 1/2; 0; 0; 0; 0; 0; 0].
Definition press_row (i : nat) : list R := slice (concat (nth i (cp_coeffs (two_updated press_u two_s)) [])) (0 * stride (tri_pd true)) (stride (tri_pd true)).
Lemma press_row_eq i : slice (concat (nth i (cp_coeffs (two_updated press_u two_s)) [])) 0 (stride (tri_pd true)) = press_row i.
Proof. unfold press_row. rewrite Nat.mul_0_l. reflexivity. Qed.
Lemma press_rows : press_row 0 = [1; 2; 1; 1; 1/2; 0; -1; 0; 0; 0; 1/2; 1/2; 1/2; 1/2; 1/2; 0; -2; 0; 0; 1; 0; 0; -1; 0] /\
  press_row 1 = [1; 2; 1; 1; -1/2; 0; 1; 0; 0; 0; 1/2; 1/2; 1/2; 1/2; 0; 0; 0; 0; 0; 0; 1/2; 0; 1; 0].
Proof.
  split; cbv -[IZR Rdiv Rminus Rinv Rmult Rplus Ropp sqrt]; repeat (apply f_equal2; [first [reflexivity | field; apply Rgt_not_eq; lra | lra]|]); reflexivity.
Qed.
Lemma press_normal : g_n (geometry_at two_kd (two_coords 0) 0 0) 0%nat = sqrt (1/2).
Proof.
  cbv -[IZR Rdiv Rminus Rinv Rmult Rplus Ropp sqrt]. assert (Hs : sqrt (1/2) * sqrt (1/2) = 1/2) by (apply sqrt_sqrt; lra). set (r := sqrt (1/2)) in *.
  match goal with |- ?x / sqrt (0 + ?x * (?x * 1) + ?z * (?z * 1)) = _ => assert (Ex : x = r) by (field; lra); assert (Ez : z = r) by (field; lra); rewrite Ex, Ez end.
  replace (0 + r * (r * 1) + r * (r * 1)) with 1 by lra. rewrite sqrt_1. field.
Qed.
Lemma press_traction a : (a < 2)%nat -> ck_traction two_kd (two_coords 0) 0 (press_row 0) 0 a = (if (a =? 0)%nat then - 6 * sqrt (1/2) else 0).
Proof.
  intros Ha. rewrite (proj1 press_rows). unfold ck_traction. pose proof press_normal as E. set (n := g_n _) in *. change (kd_gdim two_kd) with 2%nat. unfold traction, stress. cbn [rsum]. rewrite E.
  destruct a as [|[|a]]; [| |lia]; cbv -[IZR Rdiv Rminus Rinv Rmult Rplus Ropp sqrt n]; ring.
Qed.
Lemma press_traction_1 a : (a < 2)%nat -> ck_traction two_kd (two_coords 1) 0 (press_row 1) 0 a = 0.
Proof. intros Ha. rewrite (proj2 press_rows). apply zero_traction; auto. intros x y Hx Hy. destruct x as [|[|x]]; try lia; destruct y as [|[|y]]; try lia; reflexivity. Qed.
Lemma size_0 x : (forall a, (a < 2)%nat -> x a = 0) -> size 2 x = 0.
Proof. intros H. unfold size. rewrite rsum_zero; [apply sqrt_0|]. intros a Ha. rewrite H by auto. ring. Qed.
Lemma press_conditions law i : (i < 2)%nat -> conditions law two_kd (two_coords i) 0 (press_row i) 0.
Proof.
  intros Hi. pose proof (sqrt_pos (1/2)) as Hs.
  assert (U : unit_normal two_kd (press_row i) 0) by (destruct i as [|[|i]]; [rewrite (proj1 press_rows)|rewrite (proj2 press_rows)|lia]; cbv -[IZR Rdiv Rminus Rinv Rmult Rplus Ropp sqrt]; lra).
  assert (N : along two_kd (ck_normal two_kd (press_row i) 0) (ck_traction two_kd (two_coords i) 0 (press_row i) 0) = (if (i =? 0)%nat then - 6 * sqrt (1/2) else 0)).
  { unfold along. change (kd_gdim two_kd) with 2%nat. cbn [rsum]. destruct i as [|[|i]]; [rewrite !press_traction by lia; rewrite (proj1 press_rows)|rewrite !press_traction_1 by lia; rewrite (proj2 press_rows)|lia]; cbv -[IZR Rdiv Rminus Rinv Rmult Rplus Ropp sqrt]; ring. }
  assert (T : forall a, (a < 2)%nat -> tangential two_kd (press_row i) 0 (ck_traction two_kd (two_coords i) 0 (press_row i) 0) a = 0).
  { intros a Ha. unfold tangential. rewrite N. destruct i as [|[|i]]; [rewrite press_traction by lia; rewrite (proj1 press_rows)|rewrite press_traction_1 by lia; rewrite (proj2 press_rows)|lia];
    (destruct a as [|[|a]]; [| |lia]); cbv -[IZR Rdiv Rminus Rinv Rmult Rplus Ropp sqrt]; ring. }
  assert (J : forall a, (a < 2)%nat -> tangential two_kd (press_row i) 0 (ck_jump two_kd (press_row i) 0) a = 0).
  { intros a Ha. destruct i as [|[|i]]; [rewrite (proj1 press_rows)|rewrite (proj2 press_rows)|lia]; (destruct a as [|[|a]]; [| |lia]); cbv -[IZR Rdiv Rminus Rinv Rmult Rplus Ropp sqrt]; field. }
  split; [exact U|]. split.
  - unfold signorini_at, signorini. rewrite N.
    replace (along two_kd (ck_normal two_kd (press_row i) 0) (ck_jump two_kd (press_row i) 0) - ck_gap two_kd (press_row i) 0) with 0.
    + destruct (i =? 0)%nat; repeat split; lra.
    + destruct i as [|[|i]]; [rewrite (proj1 press_rows)|rewrite (proj2 press_rows)|lia]; cbv -[IZR Rdiv Rminus Rinv Rmult Rplus Ropp sqrt]; lra.
  - assert (F : ck_friction (press_row i) = 1) by (destruct i as [|[|i]]; [rewrite (proj1 press_rows)|rewrite (proj2 press_rows)|lia]; reflexivity).
    destruct law; [exact T| |]; unfold coulomb_at, tresca_at, friction_at; change (kd_gdim two_kd) with 2%nat; rewrite (size_0 _ T), (size_0 _ J), F, ?N.
    + split; [destruct (i =? 0)%nat; lra|]. intros X; now elim X.
    + split; [lra|]. intros X; now elim X.
Qed.

Example C100_example : forall law kernels v b, generated two_kd (vector_kinds law) kernels -> length v = length b ->
  exists work, work <> 0 /\
  applied (contact_vector (tri_pd true) 2 (tri_pair true) two_basis kernels (two_updated press_u two_s) b) v = applied b v + work * (((nth 2 v 0 + nth 4 v 0) - (nth 8 v 0 + nth 10 v 0)) / 2).
Proof.
  intros law kernels v b HK Hv. pose proof (sqrt_lt_R0 (1/2) ltac:(lra)) as Hs.
  exists (6 * sqrt (1/2) * (surface_weight two_kd (two_coords 0) 0 0 / 2)). split.
  - assert (X : surface_weight two_kd (two_coords 0) 0 0 <> 0); [|intros E; destruct (Rmult_integral _ _ E); lra].
    cbv -[IZR Rdiv Rminus Rinv Rmult Rplus Ropp sqrt Rabs]. match goal with |- context [sqrt ?x] => replace x with 2 by ring end. pose proof (sqrt_lt_R0 2 ltac:(lra)). rewrite Rabs_pos_eq by lra. lra.
  - assert (H1 : 0 < nth 0 (constants_of two_s) 0) by (change (0 < 2); lra).
    assert (P : forall i e, (i < 2)%nat -> (e < 1)%nat -> e = 0%nat /\ points_of (pr_asm (pair_at (tri_pd true) (tri_pair true) two_basis (cp_geom two_s) (cp_map two_s) i)) e = [0%nat]).
    { intros i e Hi He. assert (e = 0)%nat as -> by lia. split; [reflexivity|]. destruct i as [|[|i]]; [reflexivity|reflexivity|lia]. }
    etransitivity; [apply (C100_residual_is_work (tri_pd true) (tri_kd true) 2 (tri_pair true) two_basis (fun _ => 1%nat) (fun g _ => g) two_detect
      (fun i _ _ => [[- two_axis i * (1/2); 0]]) (fun i _ _ => [[two_axis i; 0]]) (fun _ f => [f]) (fun _ => [[1]]) law tt two_calls press_u v b kernels eq_refl two_setting eq_refl Hv HK H1)|].
    + intros i e Hi asm He. destruct (P i e Hi He) as [-> Ep]. split; [|split].
      * change (0 <= ck_friction (press_row i)). destruct i as [|[|i]]; [rewrite (proj1 press_rows)|rewrite (proj2 press_rows)|lia]; change (0 <= 1); lra.
      * change (0 < nth 3 (press_row i) 0). destruct i as [|[|i]]; [rewrite (proj1 press_rows)|rewrite (proj2 press_rows)|lia]; change (0 < 1); lra.
      * intros q Hq. unfold asm in Hq. change (In q (points_of (pr_asm (pair_at (tri_pd true) (tri_pair true) two_basis (cp_geom two_s) (cp_map two_s) i)) 0)) in Hq. rewrite Ep in Hq. destruct Hq as [<-|[]]. exact (press_conditions law i Hi).
    + cbv zeta. cbn [rsum]. unfold Rminus at 1. f_equal.
      set (Vt := fun (i : nat) (j n : nat) => nth (2 * nth j (tri_cells i) 0 + n)%nat v 0).
      set (X i := surface_weight two_kd (two_coords i) 0 0 / 2 * inner two_kd (ck_traction two_kd (two_coords i) 0 (press_row i) 0) (test_jump two_kd 0 (press_row i) 1 0 (Vt i) (fun k => Vt (nth k [(1 - i)%nat] 0%nat)))).
      fold two_after two_s.
      assert (EX : forall i, (i < 2)%nat -> let asm := pr_asm (pair_at (tri_pd true) (tri_pair true) two_basis (cp_geom two_s) (cp_map two_s) i) in
        links_of asm 0 = [(1 - i)%nat] /\ points_of asm 0 = [0%nat] /\ coordinates_of asm i = two_coords i /\ nth 0 (a_active asm) 0%nat = i).
      { intros i Hi. destruct i as [|[|i]]; [repeat split; reflexivity|repeat split; reflexivity|lia]. }
      match goal with |- - (0 + ?A + ?B) = _ => assert (EA : A = X 0%nat); [|assert (EB : B = X 1%nat); [|rewrite EA, EB]] end.
      { destruct (EX 0%nat ltac:(lia)) as (El & Ep & Ec & Ea). set (asm := pr_asm (pair_at (tri_pd true) (tri_pair true) two_basis (cp_geom two_s) (cp_map two_s) 0)) in *. change (a_local asm) with 1%nat. cbn [rsum Nat.mul Nat.add]. rewrite Ea, Ec, El, Ep. cbn [lsum length]. rewrite Rplus_0_l, Rplus_0_r.
        change (nth 1 (a_active asm) 0%nat) with 0%nat. fold two_kd. change (restrict asm v) with Vt. fold two_updated. change (with_strides _ _) with two_kd. rewrite press_row_eq. reflexivity. }
      { destruct (EX 1%nat ltac:(lia)) as (El & Ep & Ec & Ea). set (asm := pr_asm (pair_at (tri_pd true) (tri_pair true) two_basis (cp_geom two_s) (cp_map two_s) 1)) in *. change (a_local asm) with 1%nat. cbn [rsum Nat.mul Nat.add]. rewrite Ea, Ec, El, Ep. cbn [lsum length]. rewrite Rplus_0_l, Rplus_0_r.
        change (nth 1 (a_active asm) 0%nat) with 0%nat. fold two_kd. change (restrict asm v) with Vt. fold two_updated. change (with_strides _ _) with two_kd. rewrite press_row_eq. reflexivity. }
      assert (E1 : X 1%nat = 0).
      { unfold X, inner. change (kd_gdim two_kd) with 2%nat. cbn [rsum]. rewrite !press_traction_1 by lia. ring. }
      rewrite E1. unfold X, inner. change (kd_gdim two_kd) with 2%nat. cbn [rsum]. rewrite !press_traction by lia. cbn [Nat.eqb].
      replace (test_jump two_kd 0 (press_row 0) 1 0 (Vt 0%nat) (fun k => Vt (nth k [(1 - 0)%nat] 0%nat)) 0%nat) with ((nth 2 v 0 + nth 4 v 0 - (nth 8 v 0 + nth 10 v 0)) / 2); [field|].
      rewrite (proj1 press_rows). unfold test_jump, own. change (kd_ndofs two_kd) with 3%nat. cbn [rsum]. unfold Vt. cbv -[IZR Rdiv Rminus Rinv Rmult Rplus Ropp sqrt nth]. cbn [nth]. field.
Qed.
