(** Property C121: Newton's method for linear bodies in frictionless contact.  From every
    start close enough to a solution with no point at the threshold of contact, one step
    gives that solution exactly. *)
From Coq Require Import List Arith ZArith Lia Bool Reals Lra.
Import ListNotations.
From Verif Require Import Prelude PreludeLemmas RSum RealLemmas LayoutModel LayoutProps ContactProblemModel ContactProblemProps.
From Verif Require Import EntitiesModel PackingModel PackingProps PackUProps AssemblyModel AssemblyProofs AssemblyProps RayModel KernelModel KernelProofs KernelSpec
  ElasticityProps ContactKernelModel ContactKernelProofs ContactKernelSpec ContactKernelProps FrictionKernelProps CoefficientsModel CoefficientsProps SystemSpec TieSystemModel TieSystemProofs TieSystemProps
  TieWeakProps ContactWeakProps ContactSystemModel ContactSystemSpec ContactSystemProofs ContactSystemProps SystemWeakProps MonotoneProps TieFormProps ActiveSetProps ContactFormProps ContactEnergyProps UniqueProps FixedPointProofs ExistenceProps.
Local Open Scope R_scope.

(** ** Specification *)
(** Penetration minus the scaled normal traction at a point: the point is in contact where
    this is positive and open where it is negative. *)
Definition contact_measure {G : Type} (pd : pack_data) (kd : kernel_data) (pair : nat -> tie_pair) (gamma : R) (s : @cp_state G (nat -> list Z)) (u : list R) (i e q : nat) : R :=
  let n := stored_normal pd s i e q in
  let stress_vector := traction (pd_gdim pd) (stored_mu pd s i e) (stored_lambda pd s i e) (fun a b => gradient_own pd (pair i) e q u a b + stored_gradient pd s i e q a b) (interface_normal kd (pair i) e q) in
  scalar_product (pd_gdim pd) (interface_jump pd (pair i) e q u) n - stored_gap pd s i e q - stored_h pd s i e / gamma * scalar_product (pd_gdim pd) stress_vector n.

(** ** Lemmas *)
Lemma matrix_times_move bs (M : list insertion) u w t d : length w = length u -> matrix_times bs M (moved u w t) d = matrix_times bs M u d + t * matrix_times bs M w d.
Proof.
  intros L. unfold matrix_times. induction M as [|((rows, cols), block) M IH]; cbn [lsum]; [ring|]. rewrite IH. clear IH. unfold insertion_times.
  assert (E : forall i n, rsum (length cols) (fun j => rsum bs (fun l => nth ((i * bs + n) * (length cols * bs) + (j * bs + l)) block 0 * nth (bs * nth j cols 0 + l)%nat (moved u w t) 0)) =
    rsum (length cols) (fun j => rsum bs (fun l => nth ((i * bs + n) * (length cols * bs) + (j * bs + l)) block 0 * nth (bs * nth j cols 0 + l)%nat u 0)) +
    t * rsum (length cols) (fun j => rsum bs (fun l => nth ((i * bs + n) * (length cols * bs) + (j * bs + l)) block 0 * nth (bs * nth j cols 0 + l)%nat w 0))).
  { intros i n. rewrite <- rsum_scal, <- rsum_plus. apply rsum_ext. intros j _. rewrite <- rsum_scal, <- rsum_plus. apply rsum_ext. intros l _. rewrite nth_moved by exact L. ring. }
  match goal with |- ?a + _ = ?b + _ + t * (?c + _) => assert (EQ : a = b + t * c); [|rewrite EQ; ring] end.
  rewrite <- rsum_scal, <- rsum_plus. apply rsum_ext. intros i _. rewrite <- rsum_scal, <- rsum_plus. apply rsum_ext. intros n _. destruct (_ =? d)%nat; [apply E|ring].
Qed.

(** A positive number below finitely many positive numbers. *)
Lemma below_all {A} (l : list A) (phi : A -> R) : (forall a, In a l -> 0 < phi a) -> exists r, 0 < r /\ forall a, In a l -> r <= phi a.
Proof.
  induction l as [|a l IH]; intros H; [exists 1; split; [lra|intros x []]|]. destruct IH as (r & Hr & IH); [intros; apply H; now right|]. exists (Rmin r (phi a)). split; [apply Rmin_glb_lt; [exact Hr|apply H; now left]|].
  intros b [<- |Hb]; [apply Rmin_r|]. eapply Rle_trans; [apply Rmin_l|now apply IH].
Qed.
Lemma below_indices n (phi : nat -> R -> Prop) : (forall i r r', phi i r -> r' <= r -> phi i r') -> (forall i, (i < n)%nat -> exists r, 0 < r /\ phi i r) -> exists r, 0 < r /\ forall i, (i < n)%nat -> phi i r.
Proof.
  intros M. induction n as [|n IH]; intros H; [exists 1; split; [lra|intros; lia]|]. destruct IH as (r & Hr & IH); [intros; apply H; lia|]. destruct (H n ltac:(lia)) as (r' & Hr' & Hn). exists (Rmin r r'). split; [now apply Rmin_glb_lt|].
  intros i Hi. destruct (Nat.eq_dec i n) as [-> |N]; [apply (M n r'); [exact Hn|apply Rmin_r]|]. apply (M i r); [apply IH; lia|apply Rmin_l].
Qed.

Section Object.
  Context {G : Type} (pd : pack_data) (kd : kernel_data) (num_pairs : nat) (surfaces : nat -> tie_pair) (basis : G -> (nat -> list Z) -> nat -> nat -> nat -> R)
    (num_rows : nat -> nat) (move : G -> list R -> G) (detect : G -> nat -> list Z) (pack_gap pack_normals : nat -> G -> (nat -> list Z) -> list (list R))
    (pack_param : nat -> list R -> list (list R)) (pack_h : nat -> list (list R)).
  Notation nq := (pd_nq pd).
  Notation nd := (pd_functions pd).
  Notation bs := (pd_bs pd).
  Notation gdim := (pd_gdim pd).
  Notation after := (contact_after pd num_pairs surfaces basis num_rows move detect pack_gap pack_normals pack_param pack_h).
  Notation updated := (contact_updated pd num_pairs surfaces basis num_rows).
  Notation pairs s := (pair_at pd surfaces basis (cp_geom s) (cp_map s)).
  Notation strides := (contact_kernel_strides nq nd gdim gdim nq).
  Notation kd' := (with_strides kd strides).
  Notation NC := (stride pd).
  Notation row s i e := (slice (concat (nth i (cp_coeffs s) [])) (e * NC) NC).
  Notation cell_of asm e := (nth (2 * e) (a_active asm) 0%nat).
  Notation facet_of asm e := (nth (2 * e + 1) (a_active asm) 0%nat).

  Lemma stored_scalars g calls u i e : let s := after g calls in
    cp_ready s = true -> (forall i, (num_local surfaces i <= num_rows i)%nat) -> bs = gdim -> (i < num_pairs)%nat -> (e < num_local surfaces i)%nat ->
    let c := row (updated u s) i e in ck_friction c = stored_friction pd s i e /\ nth 3 c 0 = stored_h pd s i e.
  Proof.
    intros s HR HL Hg Hi He c. pose proof (column_bound pd num_pairs surfaces basis num_rows move detect pack_gap pack_normals pack_param pack_h g calls Hg i Hi e He) as CB.
    assert (FR : forall k x, (k < 4)%nat \/ k = 7%nat -> (x < nth k strides 0)%nat -> nth (offsets kd' k + x) c 0 = ContactProblemProps.entry s i e (column nq nd gdim k x)).
    { intros k x Hk Hx.
      pose proof (row_frame pd kd num_pairs surfaces basis num_rows move detect pack_gap pack_normals pack_param pack_h g calls HR HL Hg i Hi e He u (column nq nd gdim k x)) as RF. fold s in RF.
      apply RF; [|apply CB; [lia|exact Hx]]. unfold column, kernel_block, kernel_offsets. cbn [fst]. unfold offsets. cbn [with_strides kd_cstrides].
      destruct Hk as [Hk | ->]; [left|right; lia].
      pose proof (psums_step strides k ltac:(cbn [length contact_kernel_strides]; lia)). pose proof (psums_mono strides (S k) 4 ltac:(lia) ltac:(cbn [length contact_kernel_strides]; lia)). lia. }
    assert (SC : forall x, (x < 4)%nat -> nth x c 0 = ContactProblemProps.entry s i e (column nq nd gdim 0 x)) by (intros x Hx; apply (FR 0%nat x); [lia|exact Hx]).
    split; [unfold ck_friction; apply SC; lia|apply SC; lia].
  Qed.

  (** The kernels' switch is the measure above. *)
  Lemma indicator_measure g calls u i e q : let s := after g calls in
    Forall no_crop calls -> cp_ready s = true -> (forall i, (num_local surfaces i <= num_rows i)%nat) ->
    tie_setting pd kd num_pairs (pairs s) nq -> bs = gdim -> (i < num_pairs)%nat -> (e < num_local surfaces i)%nat -> In q (points_of (pr_asm (pairs s i)) e) ->
    let asm := pr_asm (pairs s i) in
    let c := row (updated u s) i e in
    contact_indicator kd' (coordinates_of asm (cell_of asm e)) (facet_of asm e) c (constants_of s) q = contact_measure pd kd (pairs s) (nth 0 (constants_of s) 0) s u i e q.
  Proof.
    intros s HC HR HL TS Hg Hi He Hq. assert (T := ts_tables _ _ _ _ _ TS). pose proof (ts_pairs _ _ _ _ _ TS i Hi) as PS. intros asm c.
    assert (Gd : kd_gdim kd' = gdim) by (cbn [with_strides kd_gdim]; apply (st_gdim _ _ T)).
    pose proof (column_bound pd num_pairs surfaces basis num_rows move detect pack_gap pack_normals pack_param pack_h g calls Hg i Hi e He) as CB.
    assert (FR : forall k x, (k < 4)%nat \/ k = 7%nat -> (x < nth k strides 0)%nat -> nth (offsets kd' k + x) c 0 = ContactProblemProps.entry s i e (column nq nd gdim k x)).
    { intros k x Hk Hx.
      pose proof (row_frame pd kd num_pairs surfaces basis num_rows move detect pack_gap pack_normals pack_param pack_h g calls HR HL Hg i Hi e He u (column nq nd gdim k x)) as RF. fold s in RF.
      apply RF; [|apply CB; [lia|exact Hx]]. unfold column, kernel_block, kernel_offsets. cbn [fst]. unfold offsets. cbn [with_strides kd_cstrides].
      destruct Hk as [Hk | ->]; [left|right; lia].
      pose proof (psums_step strides k ltac:(cbn [length contact_kernel_strides]; lia)). pose proof (psums_mono strides (S k) 4 ltac:(lia) ltac:(cbn [length contact_kernel_strides]; lia)). lia. }
    assert (SC : forall x, (x < 4)%nat -> nth x c 0 = ContactProblemProps.entry s i e (column nq nd gdim 0 x)) by (intros x Hx; apply (FR 0%nat x); [lia|exact Hx]).
    destruct (row_links pd kd num_pairs surfaces basis num_rows move detect pack_gap pack_normals pack_param pack_h g calls TS i Hi e He q Hq) as [Hq' Hl]. fold s asm in Hl.
    assert (JJ : forall w a, (a < gdim)%nat -> test_jump kd' (facet_of asm e) c (length (links_of asm e)) q (restrict asm w (cell_of asm e)) (fun k => restrict asm w (nth k (links_of asm e) 0%nat)) a = interface_jump pd (pairs s i) e q w a).
    { intros w a Ha. unfold test_jump, interface_jump, own. f_equal.
      - exact (own_value pd kd num_pairs (pairs s) nq TS i Hi e q strides w a).
      - rewrite <- (tied_value pd kd num_pairs (pairs s) nq TS i Hi e He q Hq w a) by (now rewrite Hg). apply rsum_ext. intros k Hk. cbn [with_strides kd_ndofs]. rewrite (st_ndofs _ _ T).
        apply rsum_ext. intros j Hj. f_equal. fold asm in Hk.
        apply (row_test pd kd num_pairs surfaces basis num_rows move detect pack_gap pack_normals pack_param pack_h g calls HC HR HL TS Hg i Hi e He u q k j a); auto. lia. }
    assert (JG : forall a, (a < gdim)%nat -> ck_jump kd' c q a = interface_jump pd (pairs s i) e q u a).
    { intros a Ha. destruct (C100_jump_of_displacement pd kd num_pairs surfaces basis num_rows move detect pack_gap pack_normals pack_param pack_h g calls u i e q a HC HR HL TS Hg Hi He Hq Ha) as [J _]. fold s asm c in J. rewrite J. now apply JJ. }
    assert (GG : forall a b', (a < gdim)%nat -> (b' < gdim)%nat -> nth (offsets kd' 5 + q * gdim * gdim + (a * gdim + b')) c 0 = gradient_own pd (pairs s i) e q u a b' + stored_gradient pd s i e q a b').
    { intros a b' Ha Hb. destruct (C100_jump_of_displacement pd kd num_pairs surfaces basis num_rows move detect pack_gap pack_normals pack_param pack_h g calls u i e q a HC HR HL TS Hg Hi He Hq Ha) as [_ J]. fold s asm c in J. rewrite (J b' Hb). f_equal.
      unfold own_grad. exact (own_gradient pd kd num_pairs (pairs s) nq TS i Hi e q strides u a b' Hb). }
    assert (QB : forall a, (a < gdim)%nat -> (q * gdim + a < nq * gdim)%nat) by (intros a Ha; nia).
    assert (NN : forall a, (a < gdim)%nat -> ck_normal kd' c q a = stored_normal pd s i e q a).
    { intros a Ha. unfold ck_normal, stored_normal. rewrite Gd. f_equal. rewrite <- Nat.add_assoc. apply FR; [lia|]. cbn [nth contact_kernel_strides]. now apply QB. }
    assert (GP : ck_gap kd' c q = stored_gap pd s i e q).
    { unfold ck_gap, along, stored_gap. rewrite Gd. apply rsum_ext. intros a Ha. rewrite NN by auto. f_equal. rewrite <- Nat.add_assoc. apply FR; [lia|]. cbn [nth contact_kernel_strides]. now apply QB. }
    unfold contact_indicator, contact_measure. cbv zeta. rewrite GP. f_equal.
    - f_equal. unfold along, scalar_product. rewrite Gd. apply rsum_ext. intros a Ha. now rewrite JG, NN.
    - f_equal; [unfold ck_gamma; now rewrite SC by lia|]. unfold along, scalar_product. rewrite Gd. apply rsum_ext. intros a Ha. rewrite NN by exact Ha. f_equal.
      unfold ck_traction, ck_mu, ck_lambda. rewrite !SC by lia. rewrite Gd. apply (traction_ext gdim); [|exact Ha]. intros x y Hx Hy. now apply GG.
  Qed.

  Lemma lip_measure n s gamma i e q : lipschitz n (fun u => contact_measure pd kd (pairs s) gamma s u i e q).
  Proof.
    unfold contact_measure. cbv zeta.
    assert (CO : forall c j a, lipschitz n (fun u => coefficient pd u c j a)) by (intros; unfold coefficient, dof_value; apply lip_nth).
    assert (GR : forall a b, lipschitz n (fun u => gradient_own pd (pairs s i) e q u a b + stored_gradient pd s i e q a b)).
    { intros a b. apply lip_plus; [|apply lip_const]. unfold gradient_own. apply (lip_rsum n _ (fun j u => _ * coefficient pd u _ j a)). intros j _. apply lip_scal, CO. }
    apply lip_minus; [apply lip_minus; [|apply lip_const]|apply lip_scal]; unfold scalar_product.
    - apply (lip_rsum n _ (fun a u => interface_jump pd (pairs s i) e q u a * _)). intros a _. apply lip_scal_r. unfold interface_jump, value_own, value_tied.
      apply lip_minus; [apply (lip_rsum n _ (fun j u => _ * coefficient pd u _ j a))|apply (lip_rsum n _ (fun j u => _ * coefficient pd u _ j a))]; intros j _; apply lip_scal, CO.
    - apply (lip_rsum n _ (fun a u => traction _ _ _ _ _ a * _)). intros a _. apply lip_scal_r. unfold traction. apply (lip_rsum n _ (fun b u => _ * _)). intros b _. apply lip_scal_r. unfold stress. apply lip_plus.
      + apply lip_scal, lip_plus; apply GR.
      + apply lip_scal_r, lip_scal. apply (lip_rsum n gdim (fun c u => gradient_own pd (pairs s i) e q u c c + stored_gradient pd s i e q c c)). intros c _. apply GR.
  Qed.

  (** No point changes between contact and open within a small distance of [u]. *)
  Lemma statuses_stable n s gamma u : length u = n ->
    (forall i e q, (i < num_pairs)%nat -> (e < num_local surfaces i)%nat -> In q (points_of (pr_asm (pairs s i)) e) -> contact_measure pd kd (pairs s) gamma s u i e q <> 0) ->
    exists r, 0 < r /\ forall v, length v = n -> change n u v < r -> forall i e q, (i < num_pairs)%nat -> (e < num_local surfaces i)%nat -> In q (points_of (pr_asm (pairs s i)) e) ->
      let a := contact_measure pd kd (pairs s) gamma s u i e q in let b := contact_measure pd kd (pairs s) gamma s v i e q in (0 < a /\ 0 < b) \/ (a < 0 /\ b < 0).
  Proof.
    intros Lu H.
    assert (P : forall i e q, (i < num_pairs)%nat -> (e < num_local surfaces i)%nat -> In q (points_of (pr_asm (pairs s i)) e) -> exists r, 0 < r /\ forall v, length v = n -> change n u v < r ->
      let a := contact_measure pd kd (pairs s) gamma s u i e q in let b := contact_measure pd kd (pairs s) gamma s v i e q in (0 < a /\ 0 < b) \/ (a < 0 /\ b < 0)).
    { intros i e q Hi He Hq. destruct (lip_measure n s gamma i e q) as (K & K0 & HK). specialize (H i e q Hi He Hq). set (m := fun v => contact_measure pd kd (pairs s) gamma s v i e q) in *. change (m u <> 0) in H.
      exists (Rabs (m u) / (K + 1)). assert (A0 : 0 < Rabs (m u)) by (now apply Rabs_pos_lt). split; [apply Rdiv_lt_0_compat; lra|]. intros v Lv C. cbv zeta. change ((0 < m u /\ 0 < m v) \/ (m u < 0 /\ m v < 0)).
      specialize (HK u v Lu Lv). cbv beta in HK. change (Rabs (m v - m u) <= K * change n u v) in HK. pose proof (change_pos n u v) as CP.
      assert (B : Rabs (m v - m u) < Rabs (m u)).
      { apply (Rle_lt_trans _ ((K + 1) * change n u v)); [nra|]. apply (Rmult_lt_compat_l (K + 1)) in C; [|lra]. replace ((K + 1) * (Rabs (m u) / (K + 1))) with (Rabs (m u)) in C by (field; lra). exact C. }
      revert B. unfold Rabs. destruct (Rcase_abs (m v - m u)), (Rcase_abs (m u)); intros B; [right|left|right|left]; split; lra. }
    set (ok := fun i e q r => forall v, length v = n -> change n u v < r ->
      let a := contact_measure pd kd (pairs s) gamma s u i e q in let b := contact_measure pd kd (pairs s) gamma s v i e q in (0 < a /\ 0 < b) \/ (a < 0 /\ b < 0)) in *.
    assert (OM : forall i e q r r', ok i e q r -> r' <= r -> ok i e q r') by (intros i e q r r' X Hr v Lv C; apply (X v Lv); lra).
    assert (P' : forall i e q, (i < num_pairs)%nat -> (e < num_local surfaces i)%nat -> In q (points_of (pr_asm (pairs s i)) e) -> exists r, 0 < r /\ ok i e q r) by exact P.
    clear P H.
    assert (Q : forall i, (i < num_pairs)%nat -> exists r, 0 < r /\ forall e, (e < num_local surfaces i)%nat -> forall q, In q (points_of (pr_asm (pairs s i)) e) -> ok i e q r).
    { intros i Hi. apply (below_indices _ (fun e r => forall q, In q (points_of (pr_asm (pairs s i)) e) -> ok i e q r)).
      - intros e r r' X Hr q Hq. apply (OM i e q r); [now apply X|exact Hr].
      - intros e He. specialize (P' i e). revert P'. generalize (points_of (pr_asm (pairs s i)) e) as k. induction k as [|q k IH]; intros PQ; [exists 1; split; [lra|]; intros q []|].
        destruct (PQ q Hi He (or_introl eq_refl)) as (r & Hr & X). destruct IH as (r' & Hr' & X'); [intros q' A B C; apply PQ; auto; now right|]. exists (Rmin r r'). split; [now apply Rmin_glb_lt|].
        intros q' [<- |Hq']; [apply (OM i e q r); [exact X|apply Rmin_l]|apply (OM i e q' r'); [now apply X'|apply Rmin_r]]. }
    destruct (below_indices num_pairs (fun i r => forall e, (e < num_local surfaces i)%nat -> forall q, In q (points_of (pr_asm (pairs s i)) e) -> ok i e q r)) as (r & Hr & X).
    - intros i r r' X Hr e He q Hq. apply (OM i e q r); [now apply X|exact Hr].
    - exact Q.
    - exists r. split; [exact Hr|]. intros v Lv C i e q Hi He Hq. revert v Lv C. change (ok i e q r). exact (X i Hi e He q Hq).
  Qed.

  (** ** C121 *)
  Theorem C121_newton_reaches_solution :
    forall (g : G) (calls : list (@call (list R) (nat -> list Z))) (vector_kernels matrix_kernels : list kernel_fn) (A : nat -> nat -> R) (n : nat) (fixed : nat -> bool) (solution f : list R) (alpha : R),
    let s := after g calls in
    let gamma := nth 0 (constants_of s) 0 in
    let theta := nth 1 (constants_of s) 0 in
    let F v := contact_vector pd num_pairs surfaces basis vector_kernels (updated v s) (stiffness A v) in
    Forall no_crop calls -> cp_ready s = true -> (forall i, (num_local surfaces i <= num_rows i)%nat) ->
    tie_setting pd kd num_pairs (pairs s) nq -> bs = gdim ->
    generated kd' (vector_kinds Frictionless) vector_kernels -> generated kd' (matrix_kinds Frictionless) matrix_kernels -> 0 < gamma ->
    (forall i e, (i < num_pairs)%nat -> (e < num_local surfaces i)%nat -> 0 <= stored_friction pd s i e /\ 0 < stored_h pd s i e) ->
    (forall i e q, (i < num_pairs)%nat -> (e < num_local surfaces i)%nat -> In q (points_of (pr_asm (pairs s i)) e) -> 0 <= interface_weight kd (pairs s i) e q) ->
    0 < alpha ->
    (forall w, length w = n -> (forall d, (d < n)%nat -> fixed d = true -> nth d w 0 = 0) ->
       alpha * rsum n (fun d => nth d w 0 * nth d w 0) + (1 + theta) * (1 + theta) / 4 * surface_traction pd kd num_pairs (pairs s) Frictionless gamma s w <= rsum n (fun d => rsum n (fun e => nth d w 0 * A d e * nth e w 0))) ->
    length solution = n -> (forall d, (d < n)%nat -> fixed d = false -> nth d (F solution) 0 = nth d f 0) ->
    (forall i e q, (i < num_pairs)%nat -> (e < num_local surfaces i)%nat -> In q (points_of (pr_asm (pairs s i)) e) -> contact_measure pd kd (pairs s) gamma s solution i e q <> 0) ->
    exists eps, 0 < eps /\
      forall u, length u = n -> (forall d, (d < n)%nat -> fixed d = true -> nth d u 0 = nth d solution 0) -> distance2 n u solution < eps ->
        let K := contact_matrix pd num_pairs surfaces basis matrix_kernels (updated u s) in
        let newton_step w := length w = n /\ (forall d, (d < n)%nat -> fixed d = true -> nth d w 0 = 0) /\
          (forall d, (d < n)%nat -> fixed d = false -> nth d (stiffness A w) 0 + matrix_times gdim K w d = nth d f 0 - nth d (F u) 0) in
        (exists w, newton_step w) /\ (forall w, newton_step w -> moved u w 1 = solution).
  Proof.
    intros g calls vks mks A n fixed us f alpha s gamma theta F HC HR HB TS Hg HV HM Hw H HW Ha ST Lus SOL ND.
    assert (SN : forall v d, length v = n -> (d < n)%nat -> nth d (stiffness A v) 0 = rsum n (fun e => A d e * nth e v 0)).
    { intros v d Lv Hd. unfold stiffness. rewrite Lv, (nth_map_lt _ _ _ _ 0%nat) by (now rewrite seq_length). now rewrite seq_nth. }
    assert (SL : forall v, length (stiffness A v) = length v) by (intros v; unfold stiffness; now rewrite map_length, seq_length).
    assert (LF : forall v, length (F v) = length v) by (intros v; rewrite <- (SL v); apply (contact_vector_length pd kd num_pairs surfaces basis num_rows move detect pack_gap pack_normals pack_param pack_h Frictionless g calls v (stiffness A v) vks HR TS HV)).
    set (form := fun v w => contact_form pd kd num_pairs (pairs s) Frictionless gamma theta s v w).
    assert (X : forall b v w, length b = n -> length v = n -> length w = n -> applied (contact_vector pd num_pairs surfaces basis vks (updated v s) b) w = applied b w + form v w).
    { intros b v w Lb Lv Lw. apply (C107_residual_is_functional pd kd num_pairs surfaces basis num_rows move detect pack_gap pack_normals pack_param pack_h Frictionless g calls v w b vks HC HR HB TS Hg); auto. congruence. }
    set (unit_vector := fun d => map (fun k => if (k =? d)%nat then 1 else 0) (seq 0 n)).
    assert (LU : forall d, length (unit_vector d) = n) by (intros; unfold unit_vector; now rewrite map_length, seq_length).
    assert (AU : forall b d, length b = n -> (d < n)%nat -> applied b (unit_vector d) = nth d b 0).
    { intros b d Lb Hd. unfold applied. rewrite Lb, <- (rsum_delta n d (fun k => nth k b 0) Hd). apply rsum_ext. intros k Hk. unfold unit_vector. rewrite (nth_map_lt _ _ _ _ 0%nat) by (now rewrite seq_length). rewrite seq_nth by exact Hk. cbn [Nat.add]. ring. }
    assert (LC : forall v b, length (contact_vector pd num_pairs surfaces basis vks (updated v s) b) = length b) by (intros v b; apply (contact_vector_length pd kd num_pairs surfaces basis num_rows move detect pack_gap pack_normals pack_param pack_h Frictionless g calls v b vks HR TS HV)).
    assert (EN : forall b v d, length b = n -> length v = n -> (d < n)%nat -> nth d (contact_vector pd num_pairs surfaces basis vks (updated v s) b) 0 = nth d b 0 + form v (unit_vector d)).
    { intros b v d Lb Lv Hd. pose proof (X b v (unit_vector d) Lb Lv (LU d)) as E. rewrite !AU in E by (rewrite ?LC; auto). exact E. }
    (* the tangent between displacements of the same status *)
    assert (TG : forall u w t, length u = n -> length w = n -> 0 <= t <= 1 ->
      (forall i e q, (i < num_pairs)%nat -> (e < num_local surfaces i)%nat -> In q (points_of (pr_asm (pairs s i)) e) ->
         let a := contact_measure pd kd (pairs s) gamma s u i e q in let b := contact_measure pd kd (pairs s) gamma s (moved u w 1) i e q in (0 < a /\ 0 < b) \/ (a < 0 /\ b < 0)) ->
      forall d, (d < n)%nat -> nth d (F (moved u w t)) 0 = nth d (F u) 0 + t * (nth d (stiffness A w) 0 + matrix_times gdim (contact_matrix pd num_pairs surfaces basis mks (updated u s)) w d)).
    { intros u w t Lu Lw Ht HS d Hd. assert (Lm : length (moved u w t) = n) by (now rewrite moved_length).
      assert (SK : status_kept pd kd num_pairs surfaces basis num_rows Frictionless s u (moved u w 1)).
      { intros i e Hi asm He. change (a_local asm) with (num_local surfaces i) in He. destruct (H i e Hi He) as [Hf Hh].
        assert (P := fun v q Hq => indicator_measure g calls v i e q HC HR HB TS Hg Hi He Hq). cbv zeta in P. fold s gamma asm in P.
        pose proof (stored_scalars g calls u i e HR HB Hg Hi He) as FRI. cbv zeta in FRI. fold s in FRI. destruct FRI as [-> ->]. split; [exact Hf|split; [exact Hh|]]. intros q Hq. unfold keeps_status. cbv zeta. split; [|exact I].
        rewrite (P u q Hq), (P (moved u w 1) q Hq). specialize (HS i e q Hi He Hq). cbv zeta in HS. lra. }
      pose proof (C106_residual_follows_tangent pd kd num_pairs surfaces basis num_rows move detect pack_gap pack_normals pack_param pack_h Frictionless g calls u w (stiffness A u) vks mks HC HR HB TS Hg ltac:(congruence) HV HM Hw SK t d Ht ltac:(rewrite SL; lia)) as E.
      cbv zeta in E. fold s in E. unfold F. rewrite !EN in E by (rewrite ?SL; auto). rewrite !EN by (rewrite ?SL; auto).
      assert (SM : nth d (stiffness A (moved u w t)) 0 = nth d (stiffness A u) 0 + t * nth d (stiffness A w) 0).
      { rewrite !SN by auto. rewrite <- rsum_scal, <- rsum_plus. apply rsum_ext. intros e _. rewrite nth_moved by congruence. ring. }
      rewrite SM. lra. }
    destruct (statuses_stable n s gamma us Lus ND) as (r & Hr & STB).
    exists (r * r / (INR n + 1)). pose proof (pos_INR n) as N0. split; [apply Rdiv_lt_0_compat; nra|].
    intros u Lu AG DU K newton_step.
    assert (CU : change n us u < r).
    { pose proof (change_sq n us u) as CQ. pose proof (change_pos n us u) as CP. apply (Rmult_lt_compat_r (INR n + 1)) in DU; [|lra]. replace (r * r / (INR n + 1) * (INR n + 1)) with (r * r) in DU by (field; lra).
      assert (0 <= distance2 n u us) by (apply rsum_nonneg; intros; apply Rle_0_sqr). nra. }
    assert (SG := STB u Lu CU). cbv zeta in SG.
    set (w0 := moved us u (-1)). assert (L0 : length w0 = n) by (unfold w0; now rewrite moved_length).
    assert (N0' : forall k, nth k w0 0 = nth k us 0 - nth k u 0) by (intros k; unfold w0; rewrite nth_moved by congruence; ring).
    assert (MV : moved u w0 1 = us) by (apply (nth_ext _ _ 0 0); [rewrite moved_length; congruence|]; intros k _; rewrite nth_moved, N0' by congruence; ring).
    assert (S0 : newton_step w0).
    { split; [exact L0|]. split; [intros d Hd Hf; rewrite N0', (AG d Hd Hf); ring|]. intros d Hd Hf.
      pose proof (TG u w0 1 Lu L0 ltac:(lra)) as E. rewrite MV in E. specialize (E ltac:(intros i e q Hi He Hq; specialize (SG i e q Hi He Hq); cbv zeta; lra) d Hd). rewrite (SOL d Hd Hf) in E. unfold K. lra. }
    split; [now exists w0|]. intros w SW. destruct S0 as (_ & F0 & E0). destruct SW as (Lw & F1 & E1).
    (* the difference of two steps solves the homogeneous system *)
    set (z := moved w w0 (-1)). assert (Lz : length z = n) by (unfold z; now rewrite moved_length).
    assert (Nz : forall k, nth k z 0 = nth k w 0 - nth k w0 0) by (intros k; unfold z; rewrite nth_moved by congruence; ring).
    assert (Fz : forall d, (d < n)%nat -> fixed d = true -> nth d z 0 = 0) by (intros d Hd Hf; rewrite Nz, (F0 d Hd Hf), (F1 d Hd Hf); ring).
    assert (Ez : forall d, (d < n)%nat -> fixed d = false -> nth d (stiffness A z) 0 + matrix_times gdim K z d = 0).
    { intros d Hd Hf. specialize (E0 d Hd Hf). specialize (E1 d Hd Hf).
      assert (SM : nth d (stiffness A z) 0 = nth d (stiffness A w) 0 - nth d (stiffness A w0) 0).
      { rewrite !SN by auto. rewrite <- rsum_minus. apply rsum_ext. intros e _. rewrite Nz. ring. }
      unfold z at 2. rewrite matrix_times_move by congruence. rewrite SM. lra. }
    assert (Z0 : forall d, (d < n)%nat -> nth d z 0 = 0).
    { destruct (statuses_stable n s gamma u Lu) as (r' & Hr' & STB').
      { intros i e q Hi He Hq. specialize (SG i e q Hi He Hq). cbv zeta in SG. lra. }
      set (C := change n (repeat 0 n) z). pose proof (change_pos n (repeat 0 n) z) as C0. fold C in C0. set (t := r' / (C + r')). assert (Ht : 0 < t) by (apply Rdiv_lt_0_compat; lra).
      assert (T1 : t * C < r') by (unfold t; apply (Rmult_lt_reg_r (C + r')); [lra|]; replace (r' / (C + r') * C * (C + r')) with (r' * C) by (field; lra); nra).
      set (y := moved (repeat 0 n) z t). assert (Ly : length y = n) by (unfold y; now rewrite moved_length, repeat_length).
      assert (Ny : forall k, (k < n)%nat -> nth k y 0 = t * nth k z 0) by (intros k Hk; unfold y; rewrite nth_moved, nth_repeat by (now rewrite repeat_length); ring).
      assert (CY : change n u (moved u y 1) < r').
      { apply (Rle_lt_trans _ (t * C)); [|exact T1]. right. unfold C, change. rewrite <- rsum_scal. apply rsum_ext. intros k Hk. rewrite nth_moved, Ny, nth_repeat by (auto; congruence).
        replace (nth k u 0 + 1 * (t * nth k z 0) - nth k u 0) with (t * nth k z 0) by ring. rewrite Rabs_mult, (Rabs_right t) by lra. f_equal. f_equal. ring. }
      assert (MY : forall d, (d < n)%nat -> nth d (F (moved u y 1)) 0 = nth d (F u) 0 + t * (nth d (stiffness A z) 0 + matrix_times gdim K z d)).
      { intros d Hd. rewrite (TG u y 1 Lu Ly ltac:(lra)) by (auto; intros i e q Hi He Hq; apply (STB' (moved u y 1)); auto; now rewrite moved_length). fold K.
        unfold y at 2. rewrite matrix_times_move by (now rewrite repeat_length).
        assert (SZ : nth d (stiffness A y) 0 = t * nth d (stiffness A z) 0) by (rewrite !SN by auto; rewrite <- rsum_scal; apply rsum_ext; intros e He; rewrite Ny by exact He; ring).
        assert (MZ : matrix_times gdim K (repeat 0 n) d = 0).
        { pose proof (matrix_times_move gdim K (repeat 0 n) (repeat 0 n) 1 d eq_refl) as Q. replace (moved (repeat 0 n) (repeat 0 n) 1) with (repeat 0 n) in Q; [lra|].
          apply (nth_ext _ _ 0 0); [now rewrite moved_length|]. intros k Hk. rewrite nth_moved, nth_repeat by reflexivity. ring. }
        rewrite SZ, MZ. ring. }
      assert (Lm : length (moved u y 1) = n) by (now rewrite moved_length).
      pose proof (form_change pd kd num_pairs surfaces basis Frictionless gamma theta s u y ltac:(discriminate) Hw ltac:(congruence) H HW) as FC. 
      pose proof (X (stiffness A (moved u y 1)) (moved u y 1) y ltac:(now rewrite SL) Lm Ly) as P1. pose proof (X (stiffness A u) u y ltac:(now rewrite SL) Lu Ly) as P2. fold (F (moved u y 1)) in P1. fold (F u) in P2.
      specialize (ST y Ly ltac:(intros d Hd Hf; rewrite Ny, (Fz d Hd Hf) by exact Hd; ring)).
      assert (P3 : applied (F (moved u y 1)) y - applied (F u) y = 0).
      { unfold applied. rewrite !LF, Lm, Lu, <- rsum_minus. apply rsum_zero. intros d Hd. rewrite (MY d Hd), (Ny d Hd). destruct (fixed d) eqn:Ef; [rewrite (Fz d Hd Ef); ring|rewrite (Ez d Hd Ef); ring]. }
      assert (P4 : applied (stiffness A (moved u y 1)) y - applied (stiffness A u) y = rsum n (fun d => rsum n (fun e => nth d y 0 * A d e * nth e y 0))).
      { unfold applied. rewrite !SL, moved_length, Lu, <- rsum_minus. apply rsum_ext. intros d Hd.
        rewrite !SN by (rewrite ?moved_length; auto). rewrite <- Rmult_minus_distr_r, <- rsum_minus, Rmult_comm, <- rsum_scal. apply rsum_ext. intros e _. rewrite nth_moved by congruence. ring. }
      unfold form in P1, P2.
      assert (Y0 : rsum n (fun d => nth d y 0 * nth d y 0) <= 0) by nra.
      intros d Hd. pose proof (rsum_nonneg_zero n (fun d => nth d y 0 * nth d y 0) ltac:(intros; apply Rle_0_sqr)) as Q.
      assert (QQ : nth d y 0 * nth d y 0 = 0) by (apply Q; [|exact Hd]; apply Rle_antisym; [exact Y0|apply rsum_nonneg; intros; apply Rle_0_sqr]).
      apply Rsqr_0_uniq in QQ. rewrite Ny in QQ by exact Hd. apply Rmult_integral in QQ. destruct QQ; lra. }
    rewrite <- MV. apply (nth_ext _ _ 0 0); [now rewrite !moved_length|]. intros k Hk. rewrite moved_length in Hk. rewrite !nth_moved by congruence. specialize (Z0 k ltac:(lia)). rewrite Nz in Z0. f_equal. lra.
  Qed.
End Object.
Print Assumptions C121_newton_reaches_solution.
