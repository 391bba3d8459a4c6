(** Property C110: for theta = -1, or for a large penalty, the discrete contact problem
    without friction or with Tresca friction has at most one solution, which depends
    continuously on the loads. *)
From Coq Require Import List Arith ZArith Lia Bool Reals Lra.
Import ListNotations.
From Verif Require Import Prelude PreludeLemmas RSum RealLemmas LayoutModel LayoutProps ContactProblemModel ContactProblemProps.
From Verif Require Import EntitiesModel PackingModel PackingProps PackUProps AssemblyModel AssemblyProofs AssemblyProps RayModel KernelModel KernelProofs KernelSpec
  ElasticityProps ContactKernelModel ContactKernelProofs ContactKernelSpec ContactKernelProps FrictionKernelProps CoefficientsModel CoefficientsProps SystemSpec TieSystemModel TieSystemProofs TieSystemProps
  TieWeakProps ContactWeakProps ContactSystemModel ContactSystemSpec ContactSystemProofs ContactSystemProps SystemWeakProps MonotoneProps TieFormProps ContactFormProps ContactEnergyProps.
Local Open Scope R_scope.

(** ** Specification *)
(** Squared traction of [w] on the contact surfaces, scaled with h / gamma: the normal part,
    and the tangential part if there is friction. *)
Definition surface_traction {G : Type} (pd : pack_data) (kd : kernel_data) (num_pairs : nat) (pair : nat -> tie_pair) (law : friction_law) (gamma : R) (s : @cp_state G (nat -> list Z)) (w : list R) : R :=
  over_interface num_pairs pair (fun i e q => interface_weight kd (pair i) e q / 2 * (stored_h pd s i e / gamma *
    let n := stored_normal pd s i e q in
    let Sw := traction (pd_gdim pd) (stored_mu pd s i e) (stored_lambda pd s i e) (gradient_own pd (pair i) e q w) (interface_normal kd (pair i) e q) in
    (scalar_product (pd_gdim pd) Sw n * scalar_product (pd_gdim pd) Sw n + match law with Tresca => scalar_product (pd_gdim pd) (tangent (pd_gdim pd) n Sw) (tangent (pd_gdim pd) n Sw) | _ => 0 end))).

(** ** Lemmas *)
Section Point.
  Context (dim : nat).
  Notation dot := (scalar_product dim).
  Lemma ball_firm r x y : 0 <= r -> let p := onto_ball dim r x in let q := onto_ball dim r y in
    dot (fun a => p a - q a) (fun a => p a - q a) <= dot (fun a => p a - q a) (fun a => x a - y a).
  Proof.
    intros Hr p q. destruct (slip_energy_value dim r x Hr) as [_ Bx]. destruct (slip_energy_value dim r y Hr) as [_ By].
    pose proof (onto_ball_variational dim r x q Hr By) as V1. pose proof (onto_ball_variational dim r y p Hr Bx) as V2. fold p q in V1, V2.
    rewrite !product_minus, !(product_sym _ _ (fun a => p a - q a)), !(product_sym _ _ (fun a => x a - y a)), !product_minus.
    pose proof (product_sym dim q p). pose proof (product_sym dim y p). pose proof (product_sym dim y q). pose proof (product_sym dim x q). pose proof (product_sym dim x p). lra.
  Qed.
  (** Change of the functional at a point, tested with the change. *)
  Lemma functional_step law n o gap fr g th Ju Su Jw Sw : law <> Coulomb -> 0 <= fr -> 0 < g ->
    - ((1 + th) * (1 + th) / 4 * (g * (dot Sw n * dot Sw n + match law with Tresca => dot (tangent dim n Sw) (tangent dim n Sw) | _ => 0 end))) <=
    contact_functional dim law n o gap fr g th (fun a => Ju a + 1 * Jw a) (fun a => Su a + 1 * Sw a) Jw Sw - contact_functional dim law n o gap fr g th Ju Su Jw Sw.
  Proof.
    intros HL Hf Hg. unfold contact_functional. cbv zeta.
    assert (NP : forall x y, dot (fun a => x a + 1 * y a) n = dot x n + dot y n) by (intros; rewrite product_plus, product_scal; ring). rewrite !NP.
    pose proof (plus_step g th (dot Jw n) (dot Sw n) (dot Ju n + dot Jw n - gap - g * (dot Su n + dot Sw n)) (dot Ju n - gap - g * dot Su n) Hg ltac:(ring)) as A.
    destruct law; [rewrite Rplus_0_r; lra|contradiction|]. set (T := tangent dim n).
    assert (ET : forall y z a, T (fun b => y b + 1 * z b) a = T y a + 1 * T z a) by (intros; apply tangent_move).
    set (x := fun a => T Ju a - g * T Su a). set (y := fun a => T (fun b => Ju b + 1 * Jw b) a - g * T (fun b => Su b + 1 * Sw b) a).
    set (p := onto_ball dim (g * fr) y). set (q := onto_ball dim (g * fr) x).
    assert (F : dot (fun a => p a - q a) (fun a => p a - q a) <= dot (fun a => p a - q a) (fun a => T Jw a - g * T Sw a)).
    { assert (R0 : 0 <= g * fr) by nra. pose proof (ball_firm (g * fr) y x R0) as F. cbv zeta in F. fold p q in F. eapply Rle_trans; [exact F|]. right. apply rsum_ext. intros a _. unfold y, x. rewrite !ET. ring. }
    assert (B : - ((1 + th) * (1 + th) / 4 * (g * dot (T Sw) (T Sw))) <= / g * dot (fun a => p a - q a) (fun a => T Jw a - th * g * T Sw a) - th * g * dot (T Sw) (T Sw)).
    { set (d := fun a => p a - q a) in *. set (S := T Sw) in *. set (J := T Jw) in *.
      assert (K : 0 <= / g * dot (fun a => d a + (1 - th) / 2 * (g * S a)) (fun a => d a + (1 - th) / 2 * (g * S a))) by (apply Rmult_le_pos; [left; now apply Rinv_0_lt_compat|apply product_nonneg]).
      assert (K2 : 0 <= / g * (dot d (fun a => J a - g * S a) - dot d d)) by (apply Rmult_le_pos; [left; now apply Rinv_0_lt_compat|lra]).
      assert (E1 : dot (fun a => d a + (1 - th) / 2 * (g * S a)) (fun a => d a + (1 - th) / 2 * (g * S a)) = dot d d + 2 * ((1 - th) / 2 * g) * dot d S + ((1 - th) / 2 * g) * ((1 - th) / 2 * g) * dot S S).
      { unfold scalar_product. rewrite <- !rsum_scal, <- !rsum_plus. apply rsum_ext. intros; ring. }
      assert (E2 : forall k, dot d (fun a => J a - k * g * S a) = dot d J - k * g * dot d S).
      { intros k. unfold scalar_product. rewrite <- rsum_scal, <- rsum_minus. apply rsum_ext. intros; ring. }
      assert (E3 : dot d (fun a => J a - g * S a) = dot d J - g * dot d S).
      { unfold scalar_product. rewrite <- rsum_scal, <- rsum_minus. apply rsum_ext. intros; ring. }
      rewrite E1 in K. rewrite E3 in K2. rewrite E2.
      set (dd := dot d d) in *. set (ds := dot d S) in *. set (dj := dot d J) in *. set (ss := dot S S) in *. clearbody dd ds dj ss.
      apply Rminus_le.
      replace (- ((1 + th) * (1 + th) / 4 * (g * ss)) - (/ g * (dj - th * g * ds) - th * g * ss)) with
        (- (/ g * (dd + 2 * ((1 - th) / 2 * g) * ds + (1 - th) / 2 * g * ((1 - th) / 2 * g) * ss)) - / g * (dj - g * ds - dd)) by (field; lra). lra. }
    assert (C : dot (fun a => p a - q a) (fun a => T Jw a - th * g * T Sw a) = dot p (fun a => T Jw a - th * g * T Sw a) - dot q (fun a => T Jw a - th * g * T Sw a)) by apply product_minus.
    assert (D : dot (T (fun a => Su a + 1 * Sw a)) (T Sw) = dot (T Su) (T Sw) + dot (T Sw) (T Sw)) by (rewrite <- product_plus; apply rsum_ext; intros a _; rewrite ET; ring).
    rewrite C in B. rewrite D. rewrite Rmult_minus_distr_l in B. fold x. clearbody p q. lra.
  Qed.
End Point.

Lemma over_interface_minus n pair f g : over_interface n pair (fun i e q => f i e q - g i e q) = over_interface n pair f - over_interface n pair g.
Proof.
  unfold over_interface. rewrite <- rsum_minus. apply rsum_ext. intros i _. rewrite <- rsum_minus. apply rsum_ext. intros e _.
  induction (points_of (pr_asm (pair i)) e) as [|q l IH]; cbn [lsum]; [ring|rewrite IH; ring].
Qed.
Lemma over_interface_scal n pair c f : over_interface n pair (fun i e q => c * f i e q) = c * over_interface n pair f.
Proof.
  unfold over_interface. rewrite <- rsum_scal. apply rsum_ext. intros i _. rewrite <- rsum_scal. apply rsum_ext. intros e _.
  induction (points_of (pr_asm (pair i)) e) as [|q l IH]; cbn [lsum]; [ring|rewrite IH; ring].
Qed.

Section Object.
  Context {G : Type} (pd : pack_data) (kd : kernel_data) (num_pairs : nat) (surfaces : nat -> tie_pair) (basis : G -> (nat -> list Z) -> nat -> nat -> nat -> R)
    (num_rows : nat -> nat) (move : G -> list R -> G) (detect : G -> nat -> list Z) (pack_gap pack_normals : nat -> G -> (nat -> list Z) -> list (list R))
    (pack_param : nat -> list R -> list (list R)) (pack_h : nat -> list (list R)).
  Notation nq := (pd_nq pd).
  Notation nd := (pd_functions pd).
  Notation bs := (pd_bs pd).
  Notation gdim := (pd_gdim pd).
  Notation after := (contact_after pd num_pairs surfaces basis num_rows move detect pack_gap pack_normals pack_param pack_h).
  Notation updated := (contact_updated pd num_pairs surfaces basis num_rows).
  Notation pairs s := (pair_at pd surfaces basis (cp_geom s) (cp_map s)).
  Notation strides := (contact_kernel_strides nq nd gdim gdim nq).
  Notation kd' := (with_strides kd strides).

  Lemma form_change law gamma th s u w : law <> Coulomb -> 0 < gamma -> length w = length u ->
    (forall i e, (i < num_pairs)%nat -> (e < num_local surfaces i)%nat -> 0 <= stored_friction pd s i e /\ 0 < stored_h pd s i e) ->
    (forall i e q, (i < num_pairs)%nat -> (e < num_local surfaces i)%nat -> In q (points_of (pr_asm (pairs s i)) e) -> 0 <= interface_weight kd (pairs s i) e q) ->
    - ((1 + th) * (1 + th) / 4 * surface_traction pd kd num_pairs (pairs s) law gamma s w) <=
    contact_form pd kd num_pairs (pairs s) law gamma th s (moved u w 1) w - contact_form pd kd num_pairs (pairs s) law gamma th s u w.
  Proof.
    intros HL Hg L H HW. unfold contact_form, surface_traction. rewrite <- over_interface_minus, <- over_interface_scal.
    match goal with |- - over_interface ?n ?p ?ga <= over_interface ?n ?p ?fb => assert (K0 : 0 <= over_interface n p (fun i e q => fb i e q - -1 * ga i e q)); [|rewrite over_interface_minus, over_interface_scal in K0; lra] end.
    apply over_interface_nonneg. intros i e q Hi He Hq. cbv beta zeta. destruct (H i e Hi He) as [Hf Hh]. specialize (HW i e q Hi He Hq).
    set (n := stored_normal pd s i e q). set (gg := stored_h pd s i e / gamma). assert (Pg : 0 < gg) by (now apply Rdiv_lt_0_compat).
    set (S0 := traction gdim (stored_mu pd s i e) (stored_lambda pd s i e) (fun a b => gradient_own pd (pairs s i) e q u a b + stored_gradient pd s i e q a b) (interface_normal kd (pairs s i) e q)).
    set (Sw := traction gdim (stored_mu pd s i e) (stored_lambda pd s i e) (gradient_own pd (pairs s i) e q w) (interface_normal kd (pairs s i) e q)).
    pose proof (functional_step gdim law n (stored_old_normal pd s i e q) (stored_gap pd s i e q) (stored_friction pd s i e) gg th (interface_jump pd (pairs s i) e q u) S0 (interface_jump pd (pairs s i) e q w) Sw HL Hf Pg) as K.
    rewrite (functional_ext gdim law n n (stored_old_normal pd s i e q) (stored_old_normal pd s i e q) (stored_gap pd s i e q) (stored_gap pd s i e q) (stored_friction pd s i e) (stored_friction pd s i e) gg gg th
      (interface_jump pd (pairs s i) e q (moved u w 1)) (fun a => interface_jump pd (pairs s i) e q u a + 1 * interface_jump pd (pairs s i) e q w a)
      (traction gdim (stored_mu pd s i e) (stored_lambda pd s i e) (fun a b => gradient_own pd (pairs s i) e q (moved u w 1) a b + stored_gradient pd s i e q a b) (interface_normal kd (pairs s i) e q)) (fun a => S0 a + 1 * Sw a)
      (interface_jump pd (pairs s i) e q w) (interface_jump pd (pairs s i) e q w) Sw Sw); auto.
    - match type of K with - ?k <= ?x - ?y => set (X := x) in *; set (Y := y) in *; set (k0 := k) in * end. clearbody X Y.
      match goal with |- 0 <= ?l => replace l with (interface_weight kd (pairs s i) e q / 2 * (X - Y + k0)) by (unfold k0; destruct law; field) end.
      apply Rmult_le_pos; lra.
    - intros a Ha. now apply jump_move.
    - intros a Ha. unfold S0, Sw. rewrite <- traction_move. apply traction_ext; auto. intros x y _ _. rewrite gradient_move by auto. ring.
  Qed.

  (** ** C110 *)
  (** [bulk]: residual of the bodies and their loads; [fixed]: the degrees of freedom with
      prescribed values.  If the bodies are stiff compared with the scaled surface tractions,
      for theta = -1 if their residual is strictly monotone at all, then two displacements
      with the same prescribed values at which the assembled residual vanishes in the other
      degrees of freedom are equal. *)
  Theorem C110_at_most_one_solution :
    forall (law : friction_law) (g : G) (calls : list (@call (list R) (nat -> list Z))) (u u' : list R) (kernels : list kernel_fn) (bulk : list R -> list R) (fixed : nat -> Prop),
    let s := after g calls in
    let gamma := nth 0 (constants_of s) 0 in
    let theta := nth 1 (constants_of s) 0 in
    let F v := contact_vector pd num_pairs surfaces basis kernels (updated v s) (bulk v) in
    law <> Coulomb ->
    Forall no_crop calls -> cp_ready s = true -> (forall i, (num_local surfaces i <= num_rows i)%nat) ->
    tie_setting pd kd num_pairs (pairs s) nq -> bs = gdim ->
    generated kd' (vector_kinds law) kernels -> 0 < gamma ->
    (forall i e, (i < num_pairs)%nat -> (e < num_local surfaces i)%nat -> 0 <= stored_friction pd s i e /\ 0 < stored_h pd s i e) ->
    (forall i e q, (i < num_pairs)%nat -> (e < num_local surfaces i)%nat -> In q (points_of (pr_asm (pairs s i)) e) -> 0 <= interface_weight kd (pairs s i) e q) ->
    (forall v, length (bulk v) = length v) ->
    length u' = length u ->
    (forall w, length w = length u -> (forall d, fixed d -> nth d w 0 = 0) -> (exists d, nth d w 0 <> 0) ->
       (1 + theta) * (1 + theta) / 4 * surface_traction pd kd num_pairs (pairs s) law gamma s w < applied (bulk (moved u w 1)) w - applied (bulk u) w) ->
    (forall d, fixed d -> nth d u 0 = nth d u' 0) ->
    (forall d, ~ fixed d -> nth d (F u) 0 = 0) -> (forall d, ~ fixed d -> nth d (F u') 0 = 0) ->
    u = u'.
  Proof.
    intros law g calls u u' kernels bulk fixed s gamma theta F HL HC HR HB TS Hg HK Hw H HW LB L ST HF Z Z'.
    apply (nth_ext _ _ 0 0); [congruence|]. intros d _. destruct (Req_dec (nth d u 0) (nth d u' 0)) as [E|NE]; [exact E|]. exfalso.
    set (w := moved u' u (-1)). assert (Lw : length w = length u) by (unfold w; rewrite moved_length; exact L).
    assert (Nw : forall k, nth k w 0 = nth k u' 0 - nth k u 0) by (intros k; unfold w; rewrite nth_moved by congruence; ring).
    assert (M : moved u w 1 = u') by (apply (nth_ext _ _ 0 0); [rewrite moved_length; congruence|]; intros k _; rewrite nth_moved, Nw by congruence; ring).
    assert (F0 : forall k, fixed k -> nth k w 0 = 0) by (intros k Hk; rewrite Nw, (HF k Hk); ring).
    assert (ND : nth d w 0 <> 0) by (rewrite Nw; lra). specialize (ST w Lw F0 (ex_intro _ d ND)). rewrite M in ST.
    assert (LF : forall v, length (F v) = length v) by (intros v; rewrite <- (LB v); apply (contact_vector_length pd kd num_pairs surfaces basis num_rows move detect pack_gap pack_normals pack_param pack_h law g calls v (bulk v) kernels HR TS HK)).
    assert (ZF : forall v, (forall k, ~ fixed k -> nth k (F v) 0 = 0) -> applied (F v) w = 0).
    { intros v Zv. apply rsum_zero. intros k _. destruct (Req_dec (nth k w 0) 0) as [-> |N0]; [ring|]. rewrite (Zv k); [ring|]. intros Hk. apply N0, F0, Hk. }
    assert (X : forall v, length v = length u -> applied (F v) w = applied (bulk v) w + contact_form pd kd num_pairs (pairs s) law gamma theta s v w).
    { intros v Lv. apply (C107_residual_is_functional pd kd num_pairs surfaces basis num_rows move detect pack_gap pack_normals pack_param pack_h law g calls v w (bulk v) kernels HC HR HB TS Hg); auto. rewrite LB. congruence. }
    pose proof (X u eq_refl) as X1. pose proof (X u' L) as X2. rewrite (ZF u Z) in X1. rewrite (ZF u' Z') in X2.
    pose proof (form_change law gamma theta s u w HL Hw Lw H HW) as K. rewrite M in K. lra.
  Qed.

  (** Two loads: the distance of the solutions is bounded by the distance of the loads. *)
  Theorem C110_continuous_in_the_loads :
    forall (law : friction_law) (g : G) (calls : list (@call (list R) (nat -> list Z))) (u u' f f' : list R) (kernels : list kernel_fn) (bulk : list R -> list R) (fixed : nat -> Prop) (alpha : R),
    let s := after g calls in
    let gamma := nth 0 (constants_of s) 0 in
    let theta := nth 1 (constants_of s) 0 in
    let F v := contact_vector pd num_pairs surfaces basis kernels (updated v s) (bulk v) in
    let difference x y := rsum (length u) (fun d => (nth d x 0 - nth d y 0) * (nth d x 0 - nth d y 0)) in
    law <> Coulomb ->
    Forall no_crop calls -> cp_ready s = true -> (forall i, (num_local surfaces i <= num_rows i)%nat) ->
    tie_setting pd kd num_pairs (pairs s) nq -> bs = gdim ->
    generated kd' (vector_kinds law) kernels -> 0 < gamma ->
    (forall i e, (i < num_pairs)%nat -> (e < num_local surfaces i)%nat -> 0 <= stored_friction pd s i e /\ 0 < stored_h pd s i e) ->
    (forall i e q, (i < num_pairs)%nat -> (e < num_local surfaces i)%nat -> In q (points_of (pr_asm (pairs s i)) e) -> 0 <= interface_weight kd (pairs s i) e q) ->
    (forall v, length (bulk v) = length v) ->
    length u' = length u -> 0 < alpha ->
    (forall w, length w = length u -> (forall d, fixed d -> nth d w 0 = 0) ->
       alpha * rsum (length u) (fun d => nth d w 0 * nth d w 0) + (1 + theta) * (1 + theta) / 4 * surface_traction pd kd num_pairs (pairs s) law gamma s w <= applied (bulk (moved u w 1)) w - applied (bulk u) w) ->
    (forall d, fixed d -> nth d u 0 = nth d u' 0) ->
    (forall d, ~ fixed d -> nth d (F u) 0 = nth d f 0) -> (forall d, ~ fixed d -> nth d (F u') 0 = nth d f' 0) ->
    alpha * alpha * difference u' u <= difference f' f.
  Proof.
    intros law g calls u u' f f' kernels bulk fixed alpha s gamma theta F difference HL HC HR HB TS Hg HK Hw H HW LB L Ha ST HF Z Z'.
    set (w := moved u' u (-1)). assert (Lw : length w = length u) by (unfold w; rewrite moved_length; exact L).
    assert (Nw : forall k, nth k w 0 = nth k u' 0 - nth k u 0) by (intros k; unfold w; rewrite nth_moved by congruence; ring).
    assert (M : moved u w 1 = u') by (apply (nth_ext _ _ 0 0); [rewrite moved_length; congruence|]; intros k _; rewrite nth_moved, Nw by congruence; ring).
    assert (F0 : forall k, fixed k -> nth k w 0 = 0) by (intros k Hk; rewrite Nw, (HF k Hk); ring).
    specialize (ST w Lw F0). rewrite M in ST.
    assert (LF : forall v, length (F v) = length v) by (intros v; rewrite <- (LB v); apply (contact_vector_length pd kd num_pairs surfaces basis num_rows move detect pack_gap pack_normals pack_param pack_h law g calls v (bulk v) kernels HR TS HK)).
    assert (ZF : forall v h, length v = length u -> (forall k, ~ fixed k -> nth k (F v) 0 = nth k h 0) -> applied (F v) w = rsum (length u) (fun k => nth k h 0 * nth k w 0)).
    { intros v h Lv Zv. unfold applied. rewrite LF, Lv. apply rsum_ext. intros k _. destruct (Req_dec (nth k w 0) 0) as [-> |N0]; [ring|]. rewrite (Zv k); [ring|]. intros Hk. apply N0, F0, Hk. }
    assert (X : forall v, length v = length u -> applied (F v) w = applied (bulk v) w + contact_form pd kd num_pairs (pairs s) law gamma theta s v w).
    { intros v Lv. apply (C107_residual_is_functional pd kd num_pairs surfaces basis num_rows move detect pack_gap pack_normals pack_param pack_h law g calls v w (bulk v) kernels HC HR HB TS Hg); auto. rewrite LB. congruence. }
    pose proof (X u eq_refl) as X1. pose proof (X u' L) as X2. rewrite (ZF u f eq_refl Z) in X1. rewrite (ZF u' f' L Z') in X2.
    pose proof (form_change law gamma theta s u w HL Hw Lw H HW) as K. rewrite M in K.
    assert (W : rsum (length u) (fun d => nth d w 0 * nth d w 0) = difference u' u) by (apply rsum_ext; intros d _; now rewrite Nw).
    assert (Q : alpha * difference u' u <= rsum (length u) (fun k => (nth k f' 0 - nth k f 0) * nth k w 0)).
    { rewrite (rsum_ext _ _ (fun k => nth k f' 0 * nth k w 0 - nth k f 0 * nth k w 0)) by (intros; ring). rewrite rsum_minus, <- W. lra. }
    pose proof (cauchy_schwarz_sq (length u) (fun k => nth k f' 0 - nth k f 0) (fun k => nth k w 0)) as CS. cbv beta in CS. rewrite W in CS. change (rsum (length u) (fun i => (nth i f' 0 - nth i f 0) * (nth i f' 0 - nth i f 0))) with (difference f' f) in CS.
    assert (P : 0 <= difference u' u) by (apply rsum_nonneg; intros; apply Rle_0_sqr). assert (P' : 0 <= difference f' f) by (apply rsum_nonneg; intros; apply Rle_0_sqr).
    set (A := difference u' u) in *. set (B := difference f' f) in *. set (C := rsum (length u) (fun k => (nth k f' 0 - nth k f 0) * nth k w 0)) in *.
    destruct (Rle_lt_or_eq_dec 0 A P) as [PA|ZA]; [|rewrite <- ZA; lra].
    assert (alpha * A * (alpha * A) <= B * A) by (assert (0 <= alpha * A) by nra; nra). apply (Rmult_le_reg_r A); [exact PA|]. lra.
  Qed.
End Object.
Print Assumptions C110_at_most_one_solution.
Print Assumptions C110_continuous_in_the_loads.
