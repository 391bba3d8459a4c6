(** C129: load steps of the two-sided problem with strong boundary conditions. *)
From Coq Require Import List Arith ZArith Lia Bool Reals Lra.
Import ListNotations.
From Verif Require Import Prelude PreludeLemmas RSum RealLemmas LayoutModel LayoutProps ContactProblemModel ContactProblemProps.
From Verif Require Import Scatter EntitiesModel EntitiesProofs PackingModel PackingProofs PackingProps PackUProps AssemblyModel AssemblyProofs AssemblyProps RayModel KernelModel KernelProofs KernelSpec
  ElasticityProps ContactKernelModel ContactKernelSpec ContactKernelProps FrictionKernelProps CoefficientsModel CoefficientsProps SystemSpec TieSystemModel TieSystemProofs TieSystemProps
  TieWeakProps ContactWeakProps ContactSystemModel ContactSystemSpec ContactSystemProofs ContactSystemProps SystemWeakProps TieFormProps
  ContactFormProps ContactEnergyProps MonotoneProps UniqueProps FixedPointProofs ExistenceProps OneSidedModel NewtonModel NewtonProofs NewtonProps NewtonHistoryProps OneSidedSystemModel OneSidedSystemProps OneSidedSolveModel OneSidedSolveProps
  RigidSolveProps NewtonLocalProps LoadStepModel LoadStepProps LiftModel.
Local Open Scope R_scope.

Lemma in_pairs_loop m (asm : nat -> assembly) ks cfs st cst (ins : insertion) :
  In ins (for_loop m (fun i out => for_each ks (fun kernel out => out ++ assemble_matrix (asm i) kernel (cfs i) st cst) out) []) ->
  exists j kernel, (j < m)%nat /\ In kernel ks /\ In ins (assemble_matrix (asm j) kernel (cfs j) st cst).
Proof.
  induction m as [|m IH]; [contradiction|]. rewrite for_loop_S. intros HI.
  assert (FE : forall ks' out, In ins (for_each ks' (fun kernel out => out ++ assemble_matrix (asm m) kernel (cfs m) st cst) out) -> In ins out \/ exists kernel, In kernel ks' /\ In ins (assemble_matrix (asm m) kernel (cfs m) st cst)).
  { unfold for_each. induction ks' as [|k ks' IHk]; intros out Ho; [now left|]. cbn [fold_left] in Ho. destruct (IHk _ Ho) as [Ho'|(k' & A & B)]; [|right; exists k'; split; [now right|exact B]].
    apply in_app_iff in Ho'. destruct Ho' as [Ho'|Ho']; [now left|]. right. exists k. split; [now left|exact Ho']. }
  destruct (FE _ _ HI) as [Ho|(k & A & B)]; [destruct (IH Ho) as (j & k & A & B); exists j, k; split; [lia|exact B]|exists m, k; split; [lia|auto]].
Qed.

Section Lift.
  Context {G : Type} (pd : pack_data) (kd : kernel_data) (num_pairs : nat) (surfaces : nat -> tie_pair) (basis : G -> (nat -> list Z) -> nat -> nat -> nat -> R)
    (num_rows : nat -> nat) (move : G -> list R -> G) (detect : G -> nat -> list Z) (pack_gap pack_normals : nat -> G -> (nat -> list Z) -> list (list R))
    (pack_param : nat -> list R -> list (list R)) (pack_h : nat -> list (list R)).
  Context (kernels mkernels : list kernel_fn) (form_vector : nat -> list R -> list R -> list R) (form_matrix : nat -> list R -> list R -> list insertion)
    (fixed : nat -> bool) (g_value : nat -> list R) (linear_solve : list insertion * list insertion -> list R -> list R * nat * bool) (rank : bool).
  Notation nq := (pd_nq pd).
  Notation nd := (pd_functions pd).
  Notation bs := (pd_bs pd).
  Notation gdim := (pd_gdim pd).
  Notation after := (contact_after pd num_pairs surfaces basis num_rows move detect pack_gap pack_normals pack_param pack_h).
  Notation updated := (contact_updated pd num_pairs surfaces basis num_rows).
  Notation pairs s := (pair_at pd surfaces basis (cp_geom s) (cp_map s)).
  Notation strides := (contact_kernel_strides nq nd gdim gdim nq).
  Notation kd' := (with_strides kd strides).
  Notation calls_of := (list (@call (list R) (nat -> list Z))).
  Notation load_state := (@load_state G).
  Notation solver := (state (list R) unit (list R) (list insertion * list insertion) load_state).
  Notation pb i u := (lifted_problem pd num_pairs surfaces basis num_rows kernels mkernels form_vector form_matrix fixed g_value linear_solve rank i u).
  Notation cf := (fun (x : iterate (list R) unit) (st : load_state) => load_coefficients pd num_pairs surfaces basis num_rows (owned x) st).
  Notation residual := (load_residual pd num_pairs surfaces basis kernels form_vector).
  Notation lifted := (lifted_residual pd num_pairs surfaces basis kernels form_vector form_matrix fixed g_value).
  Notation rf i u := (fun (x : iterate (list R) unit) (st : load_state) => lifted i u (owned x) st).
  Notation jf i u := (fun (_ : iterate (list R) unit) (st : load_state) (_ : list insertion * list insertion) => lifted_jacobian pd num_pairs surfaces basis mkernels form_matrix i u st).
  Notation F i u p := (fun v => contact_vector pd num_pairs surfaces basis kernels (updated v p) (form_vector i u v)).
  Notation at_increment p x := {| ls_du := x; ls_problem := updated x p |}.

  Lemma matrix_times_zero A w d : (forall k, nth k w 0 = 0) -> matrix_times bs A w d = 0.
  Proof using Type.
    intros H. apply lsum_zero. intros [[rows cols] block] _. apply rsum_zero. intros a _. apply rsum_zero. intros c _. destruct (_ =? d)%nat; [|reflexivity].
    apply rsum_zero. intros j _. apply rsum_zero. intros l _. rewrite H. ring.
  Qed.
  Lemma lifted_nth i u x st d : (d < length (residual i u x st))%nat ->
    nth d (lifted i u x st) 0 = if fixed d then nth d x 0 - nth d (g_value i) 0 else nth d (residual i u x st) 0 + matrix_times bs (form_matrix i u (ls_du st)) (boundary_defect fixed (g_value i) x) d.
  Proof using Type.
    intros Hd. unfold lifted_residual, set_bc, apply_lifting. rewrite (nth_map_lt _ _ d 0 0%nat) by (now rewrite seq_length, map_length, seq_length). rewrite seq_nth by (now rewrite map_length, seq_length). cbn [Nat.add].
    destruct (fixed d); [ring|]. rewrite (nth_map_lt _ _ d 0 0%nat) by (now rewrite seq_length). rewrite seq_nth by exact Hd. cbn [Nat.add]. ring.
  Qed.
  Lemma lifted_length i u x st : length (lifted i u x st) = length (residual i u x st).
  Proof using Type. unfold lifted_residual, set_bc, apply_lifting. now rewrite ?map_length, ?seq_length, ?map_length, ?seq_length. Qed.
  Lemma defect_nth g x k : (k < length x)%nat -> nth k (boundary_defect fixed g x) 0 = if fixed k then nth k g 0 - nth k x 0 else 0.
  Proof using Type. intros Hk. unfold boundary_defect. rewrite (nth_map_lt _ _ k 0 0%nat) by (now rewrite seq_length). now rewrite seq_nth. Qed.
  Lemma defect_length g x : length (boundary_defect fixed g x) = length x.
  Proof using Type. unfold boundary_defect. now rewrite map_length, seq_length. Qed.

  (** ** C129 *)
  (** The lifted residual vanishes exactly where the boundary conditions hold and the residual
      vanishes at the other degrees of freedom: lifting changes the equations, not the solutions. *)
  Theorem C129_lifting_keeps_solutions :
    forall i u x (st : load_state), length (residual i u x st) = length x ->
      (lifted i u x st = repeat 0 (length x) <->
       (forall d, (d < length x)%nat -> fixed d = true -> nth d x 0 = nth d (g_value i) 0) /\ (forall d, (d < length x)%nat -> fixed d = false -> nth d (residual i u x st) 0 = 0)).
  Proof using Type.
    intros i u x st L.
    assert (Z : (forall d, (d < length x)%nat -> fixed d = true -> nth d x 0 = nth d (g_value i) 0) -> forall k, nth k (boundary_defect fixed (g_value i) x) 0 = 0).
    { intros H k. destruct (Nat.lt_ge_cases k (length x)) as [Hk|Hk]; [|apply nth_overflow; now rewrite defect_length]. rewrite defect_nth by exact Hk. destruct (fixed k) eqn:E; [rewrite (H k Hk E); ring|reflexivity]. }
    split.
    - intros E. assert (N : forall d, (d < length x)%nat -> nth d (lifted i u x st) 0 = 0) by (intros; rewrite E; apply nth_repeat_0).
      assert (B : forall d, (d < length x)%nat -> fixed d = true -> nth d x 0 = nth d (g_value i) 0).
      { intros d Hd Hf. specialize (N d Hd). rewrite lifted_nth, Hf in N by (now rewrite L). lra. }
      split; [exact B|]. intros d Hd Hf. specialize (N d Hd). rewrite lifted_nth, Hf, (matrix_times_zero _ _ _ (Z B)) in N by (now rewrite L). lra.
    - intros [B E]. apply (nth_ext _ _ 0 0); [now rewrite lifted_length, repeat_length|]. intros d Hd. rewrite lifted_length, L in Hd. rewrite nth_repeat_0, lifted_nth by (now rewrite L).
      destruct (fixed d) eqn:Hf; [rewrite (B d Hd Hf); ring|]. rewrite (matrix_times_zero _ _ _ (Z B)), (E d Hd Hf). ring.
  Qed.

  (** A direction solving the assembled system is the Newton direction of the problem with prescribed
      values: a full step meets the boundary conditions, and at the other degrees of freedom the
      whole Jacobian (no row or column dropped) times the direction is the residual. *)
  Lemma matrix_times_no_row A w d : (forall rows cols block a c, In (rows, cols, block) A -> (a < length rows)%nat -> (c < bs)%nat -> (bs * nth a rows 0 + c)%nat <> d) -> matrix_times bs A w d = 0.
  Proof using Type.
    intros NR. apply lsum_zero. intros [[rows cols] block] HI. apply rsum_zero. intros a Ha. apply rsum_zero. intros c Hc. destruct (Nat.eqb_spec (bs * nth a rows 0 + c)%nat d) as [E|_]; [|reflexivity]. now destruct (NR rows cols block a c HI Ha Hc).
  Qed.
  Theorem C129_newton_direction :
    forall i u x dx (st : load_state), length (residual i u x st) = length x -> length dx = length x ->
      (forall rows cols block a c, In (rows, cols, block) (contact_matrix pd num_pairs surfaces basis mkernels (ls_problem st)) -> (a < length rows)%nat -> (c < bs)%nat -> fixed (bs * nth a rows 0 + c)%nat = false) ->
      (forall d, (d < length x)%nat -> system_times pd fixed (lifted_jacobian pd num_pairs surfaces basis mkernels form_matrix i u st) dx d = nth d (lifted i u x st) 0) ->
      (forall d, (d < length x)%nat -> fixed d = true -> nth d (vector_axpy 1 dx x) 0 = nth d (g_value i) 0) /\
      (forall d, (d < length x)%nat -> fixed d = false ->
         matrix_times bs (contact_matrix pd num_pairs surfaces basis mkernels (ls_problem st) ++ form_matrix i u (ls_du st)) dx d = nth d (residual i u x st) 0).
  Proof using Type.
    intros i u x dx st L Ld NR EQ.
    assert (B : forall d, (d < length x)%nat -> fixed d = true -> nth d dx 0 = nth d x 0 - nth d (g_value i) 0).
    { intros d Hd Hf. specialize (EQ d Hd). rewrite lifted_nth, Hf in EQ by (now rewrite L). unfold system_times in EQ. rewrite Hf in EQ. cbn [fst lifted_jacobian] in EQ.
      rewrite matrix_times_no_row in EQ; [lra|]. intros rows cols block a c HI Ha Hc E. specialize (NR rows cols block a c HI Ha Hc). rewrite E in NR. congruence. }
    split.
    - intros d Hd Hf. unfold vector_axpy. rewrite (nth_map_lt _ _ d 0 0%nat) by (now rewrite seq_length). rewrite seq_nth by exact Hd. cbn [Nat.add]. rewrite (B d Hd Hf). ring.
    - intros d Hd Hf. specialize (EQ d Hd). rewrite lifted_nth, Hf in EQ by (now rewrite L). unfold system_times in EQ. rewrite Hf in EQ. cbn [fst snd lifted_jacobian] in EQ.
      rewrite driver_times_app. assert (WF : without_fixed fixed dx = moved dx (boundary_defect fixed (g_value i) x) 1).
      { apply (nth_ext _ _ 0 0); [unfold without_fixed; now rewrite moved_length, map_length, seq_length|]. intros e He. unfold without_fixed in He. rewrite map_length, seq_length in He. rewrite nth_moved by (rewrite defect_length; congruence).
        unfold without_fixed. rewrite (nth_map_lt _ _ e 0 0%nat) by (now rewrite seq_length). rewrite seq_nth by exact He. cbn [Nat.add]. rewrite Ld in He. rewrite defect_nth by exact He. destruct (fixed e) eqn:Ef; [rewrite (B e He Ef)|]; ring. }
      rewrite WF, matrix_times_move in EQ by (rewrite defect_length; congruence). lra.
  Qed.

  (** *** The residual by its entries *)
  Definition unit_vector (n d : nat) : list R := map (fun k => if (k =? d)%nat then 1 else 0) (seq 0 n).
  Lemma unit_length n d : length (unit_vector n d) = n.
  Proof using Type. unfold unit_vector. now rewrite map_length, seq_length. Qed.
  Lemma applied_unit n d b : length b = n -> (d < n)%nat -> applied b (unit_vector n d) = nth d b 0.
  Proof using Type.
    intros Lb Hd. unfold applied. rewrite Lb, <- (rsum_delta n d (fun k => nth k b 0) Hd). apply rsum_ext. intros m Hm. unfold unit_vector. rewrite (nth_map_lt _ _ _ _ 0%nat) by (now rewrite seq_length). rewrite seq_nth by exact Hm. cbn [Nat.add]. ring.
  Qed.

  Section Object.
    Context (law : friction_law) (g : G) (calls : calls_of) (i : nat) (u : list R).
    Notation p := (after g calls).
    Notation gamma := (nth 0 (constants_of p) 0).
    Notation theta := (nth 1 (constants_of p) 0).
    Hypothesis HL : law <> Coulomb.
    Hypothesis HC : Forall no_crop calls.
    Hypothesis HR : cp_ready p = true.
    Hypothesis HB : forall j, (num_local surfaces j <= num_rows j)%nat.
    Hypothesis TS : tie_setting pd kd num_pairs (pairs p) nq.
    Hypothesis Hg : bs = gdim.
    Hypothesis HK : generated kd' (vector_kinds law) kernels.
    Hypothesis Hw : 0 < gamma.
    Hypothesis H : forall j e, (j < num_pairs)%nat -> (e < num_local surfaces j)%nat -> 0 <= stored_friction pd p j e /\ 0 < stored_h pd p j e.
    Hypothesis LB : forall v, length (form_vector i u v) = length v.
    Notation form v w := (contact_form pd kd num_pairs (pairs p) law gamma theta p v w).

    Lemma force_length v b : length (contact_vector pd num_pairs surfaces basis kernels (updated v p) b) = length b.
    Proof using HR TS HK. apply (contact_vector_length pd kd num_pairs surfaces basis num_rows move detect pack_gap pack_normals pack_param pack_h law g calls v b kernels HR TS HK). Qed.
    Lemma force_nth v b d : (d < length b)%nat -> nth d (contact_vector pd num_pairs surfaces basis kernels (updated v p) b) 0 = nth d b 0 + form v (unit_vector (length b) d).
    Proof using HC HR HB TS Hg HK Hw H.
      intros Hd. pose proof (C107_residual_is_functional pd kd num_pairs surfaces basis num_rows move detect pack_gap pack_normals pack_param pack_h law g calls v (unit_vector (length b) d) b kernels HC HR HB TS Hg ltac:(now rewrite unit_length) HK Hw H) as X.
      cbv zeta in X. rewrite !applied_unit in X by (rewrite ?force_length; auto). exact X.
    Qed.
    Lemma residual_is x : residual i u x (at_increment p x) = F i u p x.
    Proof using HC HR HB TS Hg HK Hw H LB.
      unfold load_residual. cbn [ls_problem ls_du]. apply (nth_ext _ _ 0 0); [rewrite map_length, seq_length, !force_length, repeat_length; symmetry; apply LB|].
      intros d Hd. rewrite map_length, seq_length, force_length, repeat_length in Hd. rewrite (nth_map_lt _ _ d 0 0%nat) by (now rewrite seq_length, force_length, repeat_length). rewrite seq_nth by (now rewrite force_length, repeat_length). cbn [Nat.add].
      rewrite !force_nth by (rewrite ?repeat_length, ?LB; exact Hd). rewrite nth_repeat_0, repeat_length, LB. ring.
    Qed.
    Lemma F_length v : length (F i u p v) = length v.
    Proof using HR TS HK LB. cbv beta. now rewrite force_length, LB. Qed.

    Hypothesis HW : forall j e q, (j < num_pairs)%nat -> (e < num_local surfaces j)%nat -> In q (points_of (pr_asm (pairs p j)) e) -> 0 <= interface_weight kd (pairs p j) e q.
    Context (n : nat) (alpha K : R).
    Hypothesis Lg : length (g_value i) = n.
    Hypothesis Ha : 0 < alpha.
    Hypothesis K0 : 0 <= K.
    Hypothesis ST : forall v w, length v = n -> length w = n -> (forall d, (d < n)%nat -> fixed d = true -> nth d w 0 = 0) ->
       alpha * rsum n (fun d => nth d w 0 * nth d w 0) + (1 + theta) * (1 + theta) / 4 * surface_traction pd kd num_pairs (pairs p) law gamma p w <= applied (form_vector i u (moved v w 1)) w - applied (form_vector i u v) w.
    Hypothesis LIP : forall v w, length v = n -> length w = n -> distance2 n (form_vector i u w) (form_vector i u v) <= K * distance2 n w v.

    (** There is exactly one increment at which the lifted residual vanishes. *)
    Theorem C129_exactly_one_increment :
      exists solution, length solution = n /\ lifted i u solution (at_increment p solution) = repeat 0 n /\
        forall x, length x = n -> lifted i u x (at_increment p x) = repeat 0 n -> x = solution.
    Proof using All.
      destruct (C120_exactly_one_solution pd kd num_pairs surfaces basis num_rows move detect pack_gap pack_normals pack_param pack_h law g calls kernels (form_vector i u) n fixed (g_value i) (repeat 0 n) alpha K HL HC HR HB TS Hg HK Hw H HW LB Lg Ha K0 ST LIP) as (us & (Ls & Bs & Zs) & UN & _).
      assert (EQ : forall x, length x = n -> (lifted i u x (at_increment p x) = repeat 0 n <-> (forall d, (d < n)%nat -> fixed d = true -> nth d x 0 = nth d (g_value i) 0) /\ (forall d, (d < n)%nat -> fixed d = false -> nth d (F i u p x) 0 = nth d (repeat 0 n) 0))).
      { intros x Lx. pose proof (C129_lifting_keeps_solutions i u x (at_increment p x) ltac:(rewrite residual_is; apply F_length)) as X. rewrite Lx, residual_is in X. rewrite X. split; intros [A B]; (split; [exact A|]); intros d Hd Hf; specialize (B d Hd Hf); rewrite ?nth_repeat_0 in *; exact B. }
      exists us. split; [exact Ls|]. split; [apply EQ; auto|]. intros x Lx Zx. apply UN. split; [exact Lx|]. now apply EQ.
    Qed.

    (** *** Boundary conditions away from the contact surfaces *)
    (** No degree of freedom of a cell at a contact surface is prescribed. *)
    Definition clear_of_contact : Prop := forall j e k a, (j < num_pairs)%nat -> (e < num_local surfaces j)%nat -> (k < nd)%nat -> (a < gdim)%nat ->
      fixed (bs * nth k (pd_dofs pd (own_cell (pairs p j) e)) 0 + a)%nat = false /\
      forall q, In q (points_of (pr_asm (pairs p j)) e) -> fixed (bs * nth k (pd_dofs pd (tied_cell pd (pairs p j) e q)) 0 + a)%nat = false.
    Lemma contact_rows x rows cols block : generated kd' (matrix_kinds law) mkernels -> In (rows, cols, block) (contact_matrix pd num_pairs surfaces basis mkernels (updated x p)) ->
      exists j e, (j < num_pairs)%nat /\ (e < num_local surfaces j)%nat /\
        (rows = pd_dofs pd (own_cell (pairs p j) e) \/ exists q, In q (points_of (pr_asm (pairs p j)) e) /\ rows = pd_dofs pd (tied_cell pd (pairs p j) e q)).
    Proof using TS HR.
      intros HM HI. assert (ML : Forall (kernel_local (fun n => 3 * n + 1)%nat) mkernels).
      { assert (X : forall k r, In k [Jac; TrescaJac; CoulombJac] -> (exists junk, generate_contact_kernel k kd' junk = Some r) -> kernel_local (fun n => 3 * n + 1)%nat r).
        { intros k r Hk [junk E]. destruct (C68_contact_kernels_local kd' junk) as [_ X]. destruct (X k Hk) as (r' & E' & L). rewrite E' in E. injection E as <-. exact L. }
        unfold generated in HM. apply Forall_forall. intros r Hr.
        assert (Y : Forall (fun k => In k [Jac; TrescaJac; CoulombJac]) (matrix_kinds law)) by (clear; destruct law; repeat constructor; cbn [In]; auto).
        clear - HM Hr X Y. induction HM as [|k r' ks rs E HM IH]; [contradiction|]. inversion Y; subst. destruct Hr as [<-|Hr]; [now apply (X k)|auto]. }
      assert (SP : exists j kernel, (j < num_pairs)%nat /\ In kernel mkernels /\ In (rows, cols, block) (assemble_matrix (pr_asm (pairs p j)) kernel (concat (nth j (cp_coeffs (updated x p)) [])) (stride pd) (constants_of (updated x p)))).
      { unfold contact_matrix in HI. assert (U1 : cp_geom (updated x p) = cp_geom p) by (unfold contact_updated, update_data; rewrite HR; reflexivity). assert (U2 : cp_map (updated x p) = cp_map p) by (unfold contact_updated, update_data; rewrite HR; reflexivity).
        rewrite U1, U2 in HI. exact (in_pairs_loop num_pairs (fun j => pr_asm (pairs p j)) mkernels (fun j => concat (nth j (cp_coeffs (updated x p)) [])) (stride pd) (constants_of (updated x p)) _ HI). }
      destruct SP as (j & kernel & Hj & Hk & HA). rewrite Forall_forall in ML. pose proof (ts_pairs _ _ _ _ _ TS j Hj) as PS.
      rewrite (C21_assemble_matrix _ _ _ _ _ (ML kernel Hk) (pair_well_formed pd kd num_pairs (pairs p) nq TS j Hj)) in HA. apply in_flat_map_seq in HA. destruct HA as (e & He & HA). exists j, e. split; [exact Hj|]. split; [exact He|].
      cbv zeta in HA. destruct HA as [E|HA]; [injection E as <- _ _; left; apply (se_dofs _ _ _ PS)|]. apply in_flat_map_seq in HA. destruct HA as (l & Hl & HA).
      set (c := nth l (links_of (pr_asm (pairs p j)) e) 0%nat) in *. assert (Hc : In c (links_of (pr_asm (pairs p j)) e)) by (apply nth_In; exact Hl). clearbody c.
      assert (TC : exists q, In q (points_of (pr_asm (pairs p j)) e) /\ c = tied_cell pd (pairs p j) e q).
      { unfold links_of in Hc. unfold points_of. destruct (_ =? 0)%nat; [contradiction|]. apply linked_cells_in in Hc. destruct Hc as (f & Hf & F0 & <-). apply (In_nth _ _ (-1)%Z) in Hf. destruct Hf as (q & Hq & Eq).
        exists q. split; [apply filter_In; split; [apply in_seq; split; [apply Nat.le_0_l|exact Hq]|]; apply Z.leb_le; rewrite (nth_indep _ 0%Z (-1)%Z Hq); now rewrite Eq|]. unfold tied_cell. rewrite <- (se_map _ _ _ PS e He), Eq. reflexivity. }
      destruct TC as (q & Hq & ->). destruct HA as [E|[E|[E|[]]]]; injection E as <- _ _; [left; apply (se_dofs _ _ _ PS)|right; exists q; split; [exact Hq|apply (se_dofs _ _ _ PS)]|right; exists q; split; [exact Hq|apply (se_dofs _ _ _ PS)]].
    Qed.
    (** The direction in a step of the solver, at the data of the iterate. *)
    Theorem C129_direction_in_a_step :
      forall x dx, clear_of_contact -> generated kd' (matrix_kinds law) mkernels -> length dx = length x ->
        (forall d, (d < length x)%nat -> system_times pd fixed (lifted_jacobian pd num_pairs surfaces basis mkernels form_matrix i u (at_increment p x)) dx d = nth d (lifted i u x (at_increment p x)) 0) ->
        (forall d, (d < length x)%nat -> fixed d = true -> nth d (vector_axpy 1 dx x) 0 = nth d (g_value i) 0) /\
        (forall d, (d < length x)%nat -> fixed d = false ->
           matrix_times bs (contact_matrix pd num_pairs surfaces basis mkernels (updated x p) ++ form_matrix i u x) dx d = nth d (contact_vector pd num_pairs surfaces basis kernels (updated x p) (form_vector i u x)) 0).
    Proof using HC HR HB TS Hg HK Hw H LB.
      intros x dx CL HM Ld EQ. rewrite <- residual_is. apply (C129_newton_direction i u x dx (at_increment p x)); auto; [rewrite residual_is; apply F_length|].
      intros rows cols block a c HI Ia Hc. cbn [ls_problem] in HI. destruct (contact_rows x rows cols block HM HI) as (j & e & Hj & He & [->|(q & Hq & ->)]); rewrite (setting_dofs pd kd num_pairs (pairs p) nq TS) in Ia; rewrite Hg in Hc at 1.
      - exact (proj1 (CL j e a c Hj He Ia Hc)).
      - exact (proj2 (CL j e a c Hj He Ia Hc) q Hq).
    Qed.
    Lemma form_away v v' w : clear_of_contact -> (forall d, fixed d = false -> nth d v 0 = nth d v' 0) -> form v w = form v' w.
    Proof using Type.
      intros CL E. unfold contact_form. apply over_interface_ext. intros j e q Hj He Hq. f_equal. cbv zeta.
      assert (C1 : forall k a, (k < nd)%nat -> (a < gdim)%nat -> coefficient pd v (own_cell (pairs p j) e) k a = coefficient pd v' (own_cell (pairs p j) e) k a) by (intros k a Hk Ha'; apply E; exact (proj1 (CL j e k a Hj He Hk Ha'))).
      assert (C2 : forall k a, (k < nd)%nat -> (a < gdim)%nat -> coefficient pd v (tied_cell pd (pairs p j) e q) k a = coefficient pd v' (tied_cell pd (pairs p j) e q) k a) by (intros k a Hk Ha'; apply E; exact (proj2 (CL j e k a Hj He Hk Ha') q Hq)).
      apply functional_ext; auto.
      - intros a Ha'. unfold interface_jump, value_own, value_tied. f_equal; apply rsum_ext; intros k Hk; f_equal; auto.
      - intros a Ha'. apply traction_ext; [|exact Ha']. intros b c Hb _. f_equal. unfold gradient_own. apply rsum_ext. intros k Hk. f_equal. auto.
    Qed.

    (** The solver of a step returned with the flag set (residual criterion), linear bodies with the
        assembled matrix: the increment is closer than max(1, 1/alpha) atol to the solution. *)
    Theorem C129_increment_is_close :
      forall (s : solver) k s', clear_of_contact ->
        (forall v w d, length v = n -> length w = n -> (d < n)%nat -> nth d (form_vector i u (moved v w 1)) 0 = nth d (form_vector i u v) 0 + matrix_times bs (form_matrix i u v) w d) ->
        ls_problem (s_coeffs s) = p -> length (owned (s_x s)) = n -> criterion s = CResidual ->
        solve (pb i u) (max_it s + 7) false s = (Ret (k, true), s') ->
        exists solution, length solution = n /\ lifted i u solution (at_increment p solution) = repeat 0 n /\ length (owned (s_x s')) = n /\
          (forall d, (d < n)%nat -> fixed d = true -> Rabs (nth d (owned (s_x s')) 0 - nth d (g_value i) 0) < atol s) /\
          sqrt (distance2 n (owned (s_x s')) solution) <= Rmax 1 (/ alpha) * atol s.
    Proof using All.
      intros s k s' CL AF Hs Ln0 EC E0. destruct C129_exactly_one_increment as (us & Ls & Zs & _). exists us. split; [exact Ls|]. split; [exact Zs|].
      destruct (solve_function_inv _ _ _ _ _ E0) as (s1 & E1 & Xs & _).
      destruct (C43_residual_flag_truthful (pb i u) cf (rf i u) (jf i u) eq_refl eq_refl eq_refl s _ k s1 (le_n _) EC E1) as (_ & Eb & (gh & c0 & Ecs) & NB & _).
      assert (Ln : length (owned (s_x s1)) = n).
      { destruct (C44_line_search (pb i u) cf (rf i u) (jf i u) eq_refl eq_refl eq_refl s _ _ s1 (le_n _) E1 ltac:(discriminate)) as (st & ks & _ & _ & X0 & XL & _ & STP).
        rewrite <- Ln0, <- X0, <- XL at 1.
        assert (KL : forall m, (m <= iteration s1)%nat -> length (owned (s_x (nth m st s1))) = length (owned (s_x (nth 0 st s1)))).
        { induction m as [|m IH]; intros Hm; [reflexivity|]. destruct (STP m ltac:(lia)) as (_ & X & _). cbv zeta in X. rewrite X. cbn [axpy lifted_problem]. rewrite vector_axpy_length. apply IH. lia. }
        now apply KL. }
      pose proof (solve_keeps (pb i u) cf eq_refl (up_to_date pd num_pairs surfaces basis num_rows p) (some_data pd num_pairs surfaces basis num_rows p)
        (fun x c => coefficients_fresh pd num_pairs surfaces basis num_rows move detect pack_gap pack_normals pack_param pack_h g calls (owned x) c) (fun c Hc => or_intror (ex_intro _ (ls_du c) Hc)) (max_it s + 7) s (or_introl Hs)) as FR.
      rewrite E1 in FR. cbn [snd] in FR. unfold up_to_date in FR.
      assert (UX : ls_du (s_coeffs s1) = owned (s_x s1)) by (rewrite Ecs; reflexivity). rewrite UX in FR.
      assert (EST : s_coeffs s1 = at_increment p (owned (s_x s1))) by (destruct (s_coeffs s1) as [a b]; cbn [ls_du ls_problem] in *; subst; reflexivity).
      rewrite Xs. set (v := owned (s_x s1)) in *. split; [exact Ln|]. rewrite Eb, EST in NB. cbv beta in NB. fold v in NB. cbn [normB lifted_problem] in NB. clear Eb Ecs E1 E0 FR UX EST Xs.
      set (r := lifted i u v (at_increment p v)) in *.
      assert (Lr : length r = n) by (unfold r; rewrite lifted_length, residual_is, F_length; exact Ln).
      pose (y := moved v (boundary_defect fixed (g_value i) v) 1). assert (Ly : length y = n) by (unfold y; rewrite moved_length; exact Ln).
      assert (Ny : forall d, (d < n)%nat -> nth d y 0 = if fixed d then nth d (g_value i) 0 else nth d v 0).
      { intros d Hd. unfold y. rewrite nth_moved by (apply defect_length). rewrite defect_nth by (rewrite Ln; exact Hd). destruct (fixed d); ring. }
      assert (Rf : forall d, (d < n)%nat -> fixed d = true -> nth d r 0 = nth d v 0 - nth d y 0).
      { intros d Hd Hf. unfold r. rewrite lifted_nth, Hf by (rewrite residual_is, F_length, Ln; exact Hd). now rewrite Ny, Hf. }
      assert (Rr : forall d, (d < n)%nat -> fixed d = false -> nth d r 0 = nth d (F i u p y) 0).
      { intros d Hd Hf. unfold r. rewrite lifted_nth, Hf by (rewrite residual_is, F_length, Ln; exact Hd). rewrite residual_is. cbn [ls_du]. cbv beta. rewrite !force_nth by (rewrite LB; congruence).
        rewrite !LB, Ln, Ly. unfold y at 1. rewrite AF by (rewrite ?defect_length; auto).
        assert (VY : forall e, fixed e = false -> nth e v 0 = nth e y 0) by (intros e He; destruct (Nat.lt_ge_cases e n) as [Hn|Hn]; [now rewrite Ny, He|rewrite !nth_overflow by congruence; reflexivity]).
        rewrite (form_away v y _ CL VY). ring. }
      assert (PT : forall d, (d < n)%nat -> nth d r 0 * nth d r 0 <= rsum n (fun d => nth d r 0 * nth d r 0)).
      { intros d Hd. rewrite <- (rsum_delta n d (fun d => nth d r 0 * nth d r 0) Hd) at 1. apply rsum_le. intros e He. pose proof (Rle_0_sqr (nth e r 0)) as Q. unfold Rsqr in Q. destruct (e =? d)%nat; lra. }
      unfold norm2 in NB. rewrite Lr in NB. assert (Q0 : 0 <= rsum n (fun d => nth d r 0 * nth d r 0)) by (apply rsum_nonneg; intros; apply Rle_0_sqr).
      split.
      { intros d Hd Hf. replace (nth d (g_value i) 0) with (nth d y 0) by (rewrite Ny, Hf by exact Hd; reflexivity). rewrite <- (Rf d Hd Hf). refine (Rle_lt_trans _ _ _ _ NB).
        rewrite <- sqrt_Rsqr_abs. apply sqrt_le_1_alt. exact (PT d Hd). }
      (* Distance of the corrected increment. *)
      pose proof (C129_lifting_keeps_solutions i u us (at_increment p us) ltac:(rewrite residual_is; apply F_length)) as X. rewrite Ls, residual_is in X. apply X in Zs. clear X. destruct Zs as [Bs Zs].
      set (rr := fun d => if fixed d then 0 else nth d r 0).
      set (w := moved y us (-1)). assert (Lw : length w = n) by (unfold w; rewrite moved_length; exact Ly).
      assert (Nw : forall d, nth d w 0 = nth d y 0 - nth d us 0) by (intros d; unfold w; rewrite nth_moved by congruence; ring).
      assert (MV : moved us w 1 = y) by (apply (nth_ext _ _ 0 0); [rewrite moved_length; congruence|]; intros d _; rewrite nth_moved, Nw by congruence; ring).
      assert (W0 : forall d, (d < n)%nat -> fixed d = true -> nth d w 0 = 0) by (intros d Hd Hf; rewrite Nw, Ny, Hf, Bs by auto; ring).
      specialize (ST us w Ls Lw W0). rewrite MV in ST.
      pose proof (form_change pd kd num_pairs surfaces basis law gamma theta p us w HL Hw ltac:(congruence) H HW) as FC. rewrite MV in FC.
      assert (AP : forall z, length z = n -> applied (F i u p z) w = applied (form_vector i u z) w + form z w).
      { intros z Lz. apply (C107_residual_is_functional pd kd num_pairs surfaces basis num_rows move detect pack_gap pack_normals pack_param pack_h law g calls z w (form_vector i u z) kernels HC HR HB TS Hg); auto. rewrite LB. congruence. }
      pose proof (AP y Ly) as A1. pose proof (AP us Ls) as A2.
      assert (Z2 : applied (F i u p us) w = 0).
      { unfold applied. rewrite F_length, Ls. apply rsum_zero. intros d Hd. destruct (fixed d) eqn:Hf; [rewrite W0 by auto; ring|rewrite (Zs d Hd Hf); ring]. }
      assert (Z1 : applied (F i u p y) w = rsum n (fun d => rr d * nth d w 0)).
      { unfold applied. rewrite F_length, Ly. apply rsum_ext. intros d Hd. unfold rr. destruct (fixed d) eqn:Hf; [rewrite W0 by auto; ring|rewrite (Rr d Hd Hf); reflexivity]. }
      pose proof (residual_bounds_error n alpha rr (fun d => nth d w 0) Ha ltac:(cbv beta; lra)) as RB. cbv beta in RB.
      set (N2 := rsum n (fun d => nth d r 0 * nth d r 0)) in *.
      set (M := Rmax 1 (/ alpha)). assert (M1 : 1 <= M) by apply Rmax_l. assert (M2 : / alpha <= M) by apply Rmax_r. assert (IA : 0 < / alpha) by (now apply Rinv_0_lt_compat).
      set (A := rsum n (fun d => if fixed d then nth d r 0 * nth d r 0 else 0)). set (B := rsum n (fun d => rr d * rr d)) in *. set (W := rsum n (fun d => nth d w 0 * nth d w 0)) in *.
      assert (SP : N2 = A + B) by (unfold N2, A, B; rewrite <- rsum_plus; apply rsum_ext; intros d _; unfold rr; destruct (fixed d); ring).
      assert (A0 : 0 <= A) by (apply rsum_nonneg; intros d _; destruct (fixed d); [apply Rle_0_sqr|lra]). assert (B0 : 0 <= B) by (apply rsum_nonneg; intros; apply Rle_0_sqr). assert (W00 : 0 <= W) by (apply rsum_nonneg; intros; apply Rle_0_sqr).
      assert (DD : distance2 n v us = A + W).
      { unfold distance2, A, W. rewrite <- rsum_plus. apply rsum_ext. intros d Hd. rewrite Nw. destruct (fixed d) eqn:Hf; [rewrite (Rf d Hd Hf), Ny, Hf, Bs by auto; ring|rewrite Ny, Hf by auto; ring]. }
      assert (WB : W <= / alpha * / alpha * B).
      { assert (S1 : alpha * sqrt W <= sqrt B) by exact RB. pose proof (sqrt_pos W). assert (S2 : (alpha * sqrt W) * (alpha * sqrt W) <= sqrt B * sqrt B) by (apply Rmult_le_compat; auto; apply Rmult_le_pos; lra).
        rewrite (sqrt_sqrt B B0) in S2. replace (alpha * sqrt W * (alpha * sqrt W)) with (alpha * alpha * (sqrt W * sqrt W)) in S2 by ring. rewrite (sqrt_sqrt W W00) in S2.
        replace W with (/ alpha * / alpha * (alpha * alpha * W)) by (field; lra). apply Rmult_le_compat_l; [apply Rmult_le_pos; lra|exact S2]. }
      rewrite DD. apply (Rle_trans _ (sqrt (M * M * N2))).
      - apply sqrt_le_1_alt. rewrite SP. assert (I1 : 1 * 1 <= M * M) by (apply Rmult_le_compat; lra). assert (I2 : / alpha * / alpha <= M * M) by (apply Rmult_le_compat; lra).
        assert (1 * A <= M * M * A) by (apply Rmult_le_compat_r; lra). assert (/ alpha * / alpha * B <= M * M * B) by (apply Rmult_le_compat_r; lra). lra.
      - rewrite sqrt_mult by (try apply Rmult_le_pos; lra). rewrite sqrt_square by lra. apply Rmult_le_compat_l; lra.
    Qed.
  End Object.
End Lift.
Print Assumptions C129_lifting_keeps_solutions.
Print Assumptions C129_newton_direction.
Print Assumptions C129_direction_in_a_step.
Print Assumptions C129_exactly_one_increment.
Print Assumptions C129_increment_is_close.
