(** Property C120: in the situation of C110 the discrete contact problem has exactly one
    solution for every load and all prescribed values, and a relaxed iteration converges to
    it from every start. *)
From Coq Require Import List Arith ZArith Lia Bool Reals Lra.
Import ListNotations.
From Verif Require Import Prelude PreludeLemmas RSum RealLemmas LayoutModel LayoutProps ContactProblemModel ContactProblemProps.
From Verif Require Import EntitiesModel PackingModel PackingProps PackUProps AssemblyModel AssemblyProofs AssemblyProps RayModel KernelModel KernelProofs KernelSpec
  ElasticityProps ContactKernelModel ContactKernelProofs ContactKernelSpec ContactKernelProps FrictionKernelProps CoefficientsModel CoefficientsProps SystemSpec TieSystemModel TieSystemProofs TieSystemProps
  TieWeakProps ContactWeakProps ContactSystemModel ContactSystemSpec ContactSystemProofs ContactSystemProps SystemWeakProps MonotoneProps TieFormProps ContactFormProps ContactEnergyProps UniqueProps FixedPointProofs.
Local Open Scope R_scope.

(** ** Lipschitz functions of the displacement *)
Section Lipschitz.
  Context (n : nat).
  Definition change (u v : list R) : R := rsum n (fun d => Rabs (nth d v 0 - nth d u 0)).
  Definition lipschitz (phi : list R -> R) : Prop := exists K, 0 <= K /\ forall u v, length u = n -> length v = n -> Rabs (phi v - phi u) <= K * change u v.
  Lemma change_pos u v : 0 <= change u v.
  Proof. apply rsum_nonneg. intros. apply Rabs_pos. Qed.
  Lemma lip_ext phi psi : (forall u, length u = n -> phi u = psi u) -> lipschitz phi -> lipschitz psi.
  Proof. intros E (K & HK & H). exists K. split; [exact HK|]. intros u v Hu Hv. rewrite <- !E by assumption. now apply H. Qed.
  Lemma lip_const c : lipschitz (fun _ => c).
  Proof. exists 0. split; [lra|]. intros. rewrite Rminus_eq_0, Rabs_R0. lra. Qed.
  Lemma lip_plus phi psi : lipschitz phi -> lipschitz psi -> lipschitz (fun u => phi u + psi u).
  Proof.
    intros (K & HK & H) (M & HM & H'). exists (K + M). split; [lra|]. intros u v Hu Hv. replace (phi v + psi v - (phi u + psi u)) with ((phi v - phi u) + (psi v - psi u)) by ring.
    eapply Rle_trans; [apply Rabs_triang|]. specialize (H u v Hu Hv). specialize (H' u v Hu Hv). lra.
  Qed.
  Lemma lip_scal c phi : lipschitz phi -> lipschitz (fun u => c * phi u).
  Proof.
    intros (K & HK & H). exists (Rabs c * K). pose proof (Rabs_pos c). split; [now apply Rmult_le_pos|]. intros u v Hu Hv. rewrite <- Rmult_minus_distr_l, Rabs_mult, Rmult_assoc. apply Rmult_le_compat_l; [assumption|now apply H].
  Qed.
  Lemma lip_scal_r c phi : lipschitz phi -> lipschitz (fun u => phi u * c).
  Proof. intros H. apply (lip_ext (fun u => c * phi u)); [intros; ring|now apply lip_scal]. Qed.
  Lemma lip_minus phi psi : lipschitz phi -> lipschitz psi -> lipschitz (fun u => phi u - psi u).
  Proof. intros H H'. apply (lip_ext (fun u => phi u + (-1) * psi u)); [intros; ring|]. apply lip_plus; [exact H|now apply lip_scal]. Qed.
  Lemma lip_rsum m (phi : nat -> list R -> R) : (forall i, (i < m)%nat -> lipschitz (phi i)) -> lipschitz (fun u => rsum m (fun i => phi i u)).
  Proof. induction m as [|m IH]; intros H; cbn [rsum]; [apply lip_const|]. apply lip_plus; [apply IH; intros; apply H; lia|apply H; lia]. Qed.
  Lemma lip_lsum {A} (l : list A) (phi : A -> list R -> R) : (forall a, In a l -> lipschitz (phi a)) -> lipschitz (fun u => lsum l (fun a => phi a u)).
  Proof. induction l as [|a l IH]; intros H; cbn [lsum]; [apply lip_const|]. apply lip_plus; [apply H; now left|apply IH; intros; apply H; now right]. Qed.
  Lemma lip_pos phi : lipschitz phi -> lipschitz (fun u => Rmax (phi u) 0).
  Proof.
    intros (K & HK & H). exists K. split; [exact HK|]. intros u v Hu Hv. eapply Rle_trans; [|exact (H u v Hu Hv)].
    unfold Rmax. destruct (Rle_dec (phi v) 0), (Rle_dec (phi u) 0); unfold Rabs; repeat destruct (Rcase_abs _); lra.
  Qed.
  Lemma lip_nth d : lipschitz (fun u => nth d u 0).
  Proof.
    exists 1. split; [lra|]. intros u v Hu Hv. rewrite Rmult_1_l. destruct (Nat.lt_ge_cases d n) as [Hd|Hd]; [|rewrite !nth_overflow, Rminus_eq_0, Rabs_R0 by lia; apply change_pos].
    pose proof (rsum_delta n d (fun i => Rabs (nth i v 0 - nth i u 0)) Hd) as E. rewrite <- E. apply rsum_le. intros i _. pose proof (Rabs_pos (nth i v 0 - nth i u 0)). destruct (i =? d)%nat; lra.
  Qed.
  Lemma lip_ball dim r (X : nat -> list R -> R) a : 0 <= r -> (a < dim)%nat -> (forall b, (b < dim)%nat -> lipschitz (X b)) -> lipschitz (fun u => onto_ball dim r (fun b => X b u) a).
  Proof.
    intros Hr Ha H.
    assert (S : exists K, 0 <= K /\ forall u v, length u = n -> length v = n -> rsum dim (fun b => Rabs (X b v - X b u)) <= K * change u v).
    { clear Ha a. induction dim as [|m IH]; [exists 0; split; [lra|]; intros; cbn [rsum]; lra|]. destruct IH as (K & HK & IH); [intros; apply H; lia|]. destruct (H m ltac:(lia)) as (M & HM & HX).
      exists (K + M). split; [lra|]. intros u v Hu Hv. cbn [rsum]. specialize (IH u v Hu Hv). specialize (HX u v Hu Hv). lra. }
    destruct S as (K & HK & S). exists K. split; [exact HK|]. intros u v Hu Hv. eapply Rle_trans; [|exact (S u v Hu Hv)].
    set (x := fun b => X b v). set (y := fun b => X b u). set (p := onto_ball dim r x). set (q := onto_ball dim r y).
    pose proof (ball_firm dim r x y Hr) as F. cbv zeta in F. fold p q in F.
    pose proof (cauchy_schwarz_sq dim (fun a => p a - q a) (fun a => x a - y a)) as CS. cbv beta in CS.
    set (A := rsum dim (fun i => (p i - q i) * (p i - q i))) in *. set (B := rsum dim (fun i => (x i - y i) * (x i - y i))) in *. change (scalar_product dim (fun a => p a - q a) (fun a => p a - q a)) with A in F.
    change (scalar_product dim (fun a => p a - q a) (fun a => x a - y a)) with (rsum dim (fun i => (p i - q i) * (x i - y i))) in F. set (C := rsum dim (fun i => (p i - q i) * (x i - y i))) in *.
    assert (A0 : 0 <= A) by (apply rsum_nonneg; intros; apply Rle_0_sqr). assert (B0 : 0 <= B) by (apply rsum_nonneg; intros; apply Rle_0_sqr).
    assert (AB : A <= B) by (destruct (Rle_lt_or_eq_dec 0 A A0) as [P|P]; [apply (Rmult_le_reg_l A); [exact P|nra]|rewrite <- P; exact B0]).
    assert (PA : (p a - q a) * (p a - q a) <= A).
    { pose proof (rsum_delta dim a (fun i => (p i - q i) * (p i - q i)) Ha) as E. cbv beta in E. rewrite <- E. apply rsum_le. intros i _. assert (0 <= (p i - q i) * (p i - q i)) by apply Rle_0_sqr. destruct (i =? a)%nat; lra. }
    set (N := rsum dim (fun b => Rabs (x b - y b))). assert (N0 : 0 <= N) by (apply rsum_nonneg; intros; apply Rabs_pos).
    assert (BN : B <= N * N).
    { unfold B, N. clear. induction dim as [|m IH]; cbn [rsum]; [lra|]. set (z := x m - y m). set (M := rsum m (fun b => Rabs (x b - y b))) in *. assert (0 <= M) by (apply rsum_nonneg; intros; apply Rabs_pos).
      pose proof (Rabs_pos z). assert (z * z = Rabs z * Rabs z) by (rewrite <- Rabs_mult; symmetry; apply Rabs_right, Rle_ge, Rle_0_sqr). nra. }
    change (Rabs (p a - q a) <= N). rewrite <- (Rabs_right N) by lra. apply Rsqr_le_abs_0. unfold Rsqr. lra.
  Qed.
  (** One constant for finitely many functions. *)
  Lemma lip_all m (phi : nat -> list R -> R) : (forall d, (d < m)%nat -> lipschitz (phi d)) -> exists K, 0 <= K /\ forall d u v, (d < m)%nat -> length u = n -> length v = n -> Rabs (phi d v - phi d u) <= K * change u v.
  Proof.
    induction m as [|m IH]; intros H; [exists 0; split; [lra|]; intros; lia|]. destruct IH as (K & HK & IH); [intros; apply H; lia|]. destruct (H m ltac:(lia)) as (M & HM & HX).
    exists (K + M). split; [lra|]. intros d u v Hd Hu Hv. pose proof (change_pos u v). destruct (Nat.eq_dec d m) as [-> |N]; [specialize (HX u v Hu Hv)|specialize (IH d u v ltac:(lia) Hu Hv)]; nra.
  Qed.
  Lemma change_sq u v : change u v * change u v <= INR n * distance2 n v u.
  Proof.
    pose proof (cauchy_schwarz_sq n (fun _ => 1) (fun d => Rabs (nth d v 0 - nth d u 0))) as CS. cbv beta in CS.
    rewrite (rsum_ext n (fun i => 1 * Rabs _) (fun d => Rabs (nth d v 0 - nth d u 0))) in CS by (intros; ring). rewrite (rsum_ext n (fun _ => 1 * 1) (fun _ => 1)), rsum_const, Rmult_1_r in CS by (intros; ring).
    rewrite (rsum_ext n (fun i => Rabs _ * Rabs _) (fun d => (nth d v 0 - nth d u 0) * (nth d v 0 - nth d u 0))) in CS by (intros; rewrite <- Rabs_mult; apply Rabs_right, Rle_ge, Rle_0_sqr). exact CS.
  Qed.

  Lemma lip_functional dim law nn o gap fr g th (Ju Su : nat -> list R -> R) Jw Sw : law <> Coulomb -> 0 <= g * fr ->
    (forall a, (a < dim)%nat -> lipschitz (Ju a)) -> (forall a, (a < dim)%nat -> lipschitz (Su a)) ->
    lipschitz (fun u => contact_functional dim law nn o gap fr g th (fun a => Ju a u) (fun a => Su a u) Jw Sw).
  Proof.
    intros HL Hr HJ HS. unfold contact_functional. cbv zeta.
    assert (P : forall (X : nat -> list R -> R) y, (forall a, (a < dim)%nat -> lipschitz (X a)) -> lipschitz (fun u => scalar_product dim (fun a => X a u) y)).
    { intros X y H. unfold scalar_product. apply (lip_rsum dim (fun a u => X a u * y a)). intros a Ha. now apply lip_scal_r, H. }
    assert (T : forall (X : nat -> list R -> R) a, (a < dim)%nat -> (forall a, (a < dim)%nat -> lipschitz (X a)) -> lipschitz (fun u => tangent dim nn (fun b => X b u) a)).
    { intros X a Ha H. unfold tangent. apply lip_minus; [now apply H|]. apply lip_scal_r. now apply P. }
    apply lip_plus.
    - apply lip_minus.
      + apply lip_scal_r. apply lip_scal, lip_pos. apply lip_minus; [apply lip_minus; [now apply P|apply lip_const]|apply lip_scal; now apply P].
      + apply lip_scal_r. apply lip_scal. now apply P.
    - destruct law; [apply lip_const|contradiction|]. apply lip_minus.
      + apply lip_scal. apply (P (fun a u => onto_ball dim (g * fr) (fun b => tangent dim nn (fun a => Ju a u) b - g * tangent dim nn (fun a => Su a u) b) a)).
        intros a Ha. apply (lip_ball dim (g * fr) (fun b u => tangent dim nn (fun a => Ju a u) b - g * tangent dim nn (fun a => Su a u) b) a Hr Ha).
        intros b Hb. apply lip_minus; [now apply T|apply lip_scal; now apply T].
      + apply lip_scal. apply (P (fun a u => tangent dim nn (fun a => Su a u) a)). intros a Ha. now apply T.
  Qed.
End Lipschitz.

(** A stiffness matrix applied to a displacement. *)
Definition stiffness (A : nat -> nat -> R) (v : list R) : list R := map (fun d => rsum (length v) (fun e => A d e * nth e v 0)) (seq 0 (length v)).

Section Object.
  Context {G : Type} (pd : pack_data) (kd : kernel_data) (num_pairs : nat) (surfaces : nat -> tie_pair) (basis : G -> (nat -> list Z) -> nat -> nat -> nat -> R)
    (num_rows : nat -> nat) (move : G -> list R -> G) (detect : G -> nat -> list Z) (pack_gap pack_normals : nat -> G -> (nat -> list Z) -> list (list R))
    (pack_param : nat -> list R -> list (list R)) (pack_h : nat -> list (list R)).
  Notation nq := (pd_nq pd).
  Notation nd := (pd_functions pd).
  Notation bs := (pd_bs pd).
  Notation gdim := (pd_gdim pd).
  Notation after := (contact_after pd num_pairs surfaces basis num_rows move detect pack_gap pack_normals pack_param pack_h).
  Notation updated := (contact_updated pd num_pairs surfaces basis num_rows).
  Notation pairs s := (pair_at pd surfaces basis (cp_geom s) (cp_map s)).
  Notation strides := (contact_kernel_strides nq nd gdim gdim nq).
  Notation kd' := (with_strides kd strides).

  Lemma lip_form n law gamma th s w : law <> Coulomb -> 0 < gamma ->
    (forall i e, (i < num_pairs)%nat -> (e < num_local surfaces i)%nat -> 0 <= stored_friction pd s i e /\ 0 < stored_h pd s i e) ->
    lipschitz n (fun u => contact_form pd kd num_pairs (pairs s) law gamma th s u w).
  Proof.
    intros HL Hg H. unfold contact_form, over_interface.
    apply (lip_rsum n num_pairs (fun i u => rsum _ (fun e => lsum _ (fun q => _)))). intros i Hi.
    apply (lip_rsum n _ (fun e u => lsum _ (fun q => _))). intros e He.
    apply (lip_lsum n _ (fun q u => _)). intros q Hq. apply lip_scal. cbv beta zeta. destruct (H i e Hi He) as [Hf Hh].
    assert (CO : forall c j a, lipschitz n (fun u => coefficient pd u c j a)).
    { intros c j a. unfold coefficient, dof_value. apply lip_nth. }
    assert (GR : forall a b, lipschitz n (fun u => gradient_own pd (pairs s i) e q u a b + stored_gradient pd s i e q a b)).
    { intros a b. apply lip_plus; [|apply lip_const]. unfold gradient_own. apply (lip_rsum n _ (fun j u => _ * coefficient pd u _ j a)). intros j _. apply lip_scal, CO. }
    apply (lip_functional n gdim law _ _ _ _ _ _ (fun a u => interface_jump pd (pairs s i) e q u a)
      (fun a u => traction gdim (stored_mu pd s i e) (stored_lambda pd s i e) (fun a b => gradient_own pd (pairs s i) e q u a b + stored_gradient pd s i e q a b) (interface_normal kd (pairs s i) e q) a)); [exact HL| | |].
    - apply Rmult_le_pos; [left; now apply Rdiv_lt_0_compat|exact Hf].
    - intros a _. unfold interface_jump, value_own, value_tied. apply lip_minus; [apply (lip_rsum n _ (fun j u => _ * coefficient pd u _ j a))|apply (lip_rsum n _ (fun j u => _ * coefficient pd u _ j a))]; intros j _; apply lip_scal, CO.
    - intros a _. unfold traction. apply (lip_rsum n _ (fun b u => _ * _)). intros b _. apply lip_scal_r. unfold stress. apply lip_plus.
      + apply lip_scal, lip_plus; apply GR.
      + apply lip_scal_r, lip_scal. apply (lip_rsum n gdim (fun c u => gradient_own pd (pairs s i) e q u c c + stored_gradient pd s i e q c c)). intros c _. apply GR.
  Qed.

  (** ** C120 *)
  (** [bulk]: residual of the bodies, Lipschitz; [fixed], [prescribed]: degrees of freedom with
      prescribed values; [f]: loads.  [alpha]: stiffness of the bodies beyond what C110 asks for. *)
  Theorem C120_exactly_one_solution :
    forall (law : friction_law) (g : G) (calls : list (@call (list R) (nat -> list Z))) (kernels : list kernel_fn) (bulk : list R -> list R) (n : nat) (fixed : nat -> bool) (prescribed f : list R) (alpha K : R),
    let s := after g calls in
    let gamma := nth 0 (constants_of s) 0 in
    let theta := nth 1 (constants_of s) 0 in
    let F v := contact_vector pd num_pairs surfaces basis kernels (updated v s) (bulk v) in
    let solution u := length u = n /\ (forall d, (d < n)%nat -> fixed d = true -> nth d u 0 = nth d prescribed 0) /\ (forall d, (d < n)%nat -> fixed d = false -> nth d (F u) 0 = nth d f 0) in
    law <> Coulomb ->
    Forall no_crop calls -> cp_ready s = true -> (forall i, (num_local surfaces i <= num_rows i)%nat) ->
    tie_setting pd kd num_pairs (pairs s) nq -> bs = gdim ->
    generated kd' (vector_kinds law) kernels -> 0 < gamma ->
    (forall i e, (i < num_pairs)%nat -> (e < num_local surfaces i)%nat -> 0 <= stored_friction pd s i e /\ 0 < stored_h pd s i e) ->
    (forall i e q, (i < num_pairs)%nat -> (e < num_local surfaces i)%nat -> In q (points_of (pr_asm (pairs s i)) e) -> 0 <= interface_weight kd (pairs s i) e q) ->
    (forall v, length (bulk v) = length v) ->
    length prescribed = n -> 0 < alpha -> 0 <= K ->
    (forall u w, length u = n -> length w = n -> (forall d, (d < n)%nat -> fixed d = true -> nth d w 0 = 0) ->
       alpha * rsum n (fun d => nth d w 0 * nth d w 0) + (1 + theta) * (1 + theta) / 4 * surface_traction pd kd num_pairs (pairs s) law gamma s w <= applied (bulk (moved u w 1)) w - applied (bulk u) w) ->
    (forall u v, length u = n -> length v = n -> distance2 n (bulk v) (bulk u) <= K * distance2 n v u) ->
    exists u, solution u /\ (forall u', solution u' -> u' = u) /\
      exists rho q, 0 < rho /\ 0 <= q < 1 /\
        forall x k, length x = n -> (forall d, (d < n)%nat -> fixed d = true -> nth d x 0 = nth d prescribed 0) ->
          distance2 n (Nat.iter k (relax n fixed F f rho) x) u <= q ^ k * distance2 n x u.
  Proof.
    intros law g calls kernels bulk n fixed prescribed f alpha K s gamma theta F solution HL HC HR HB TS Hg HK Hw H HW LB LP Ha K0 ST LIP.
    assert (LF : forall v, length (F v) = length v) by (intros v; rewrite <- (LB v); apply (contact_vector_length pd kd num_pairs surfaces basis num_rows move detect pack_gap pack_normals pack_param pack_h law g calls v (bulk v) kernels HR TS HK)).
    assert (X : forall v w, length v = n -> length w = n -> applied (F v) w = applied (bulk v) w + contact_form pd kd num_pairs (pairs s) law gamma theta s v w).
    { intros v w Lv Lw. apply (C107_residual_is_functional pd kd num_pairs surfaces basis num_rows move detect pack_gap pack_normals pack_param pack_h law g calls v w (bulk v) kernels HC HR HB TS Hg); auto. rewrite LB. congruence. }
    (* entries of the residual *)
    set (unit_vector := fun d => map (fun k => if (k =? d)%nat then 1 else 0) (seq 0 n)).
    assert (LU : forall d, length (unit_vector d) = n) by (intros; unfold unit_vector; now rewrite map_length, seq_length).
    assert (AU : forall b d, length b = n -> (d < n)%nat -> applied b (unit_vector d) = nth d b 0).
    { intros b d Lb Hd. unfold applied. rewrite Lb, <- (rsum_delta n d (fun k => nth k b 0) Hd). apply rsum_ext. intros k Hk. unfold unit_vector. rewrite (nth_map_lt _ _ _ _ 0%nat) by (now rewrite seq_length). rewrite seq_nth by exact Hk. cbn [Nat.add]. ring. }
    destruct (lip_all n n (fun d u => contact_form pd kd num_pairs (pairs s) law gamma theta s u (unit_vector d))) as (M & M0 & HM); [intros d _; now apply lip_form|].
    assert (EN : forall v d, length v = n -> (d < n)%nat -> nth d (F v) 0 = nth d (bulk v) 0 + contact_form pd kd num_pairs (pairs s) law gamma theta s v (unit_vector d)).
    { intros v d Lv Hd. pose proof (X v (unit_vector d) Lv (LU d)) as E. rewrite !AU in E by (rewrite ?LF, ?LB; auto). exact E. }
    set (L := 2 * K + 2 * (INR n * (M * M * INR n))). assert (L0 : 0 <= L) by (unfold L; pose proof (pos_INR n); assert (0 <= INR n * (M * M * INR n)) by (apply Rmult_le_pos; [assumption|]; apply Rmult_le_pos; [apply Rle_0_sqr|assumption]); lra).
    assert (lip : forall u v, agree n fixed u v -> distance2 n (F v) (F u) <= L * distance2 n v u).
    { intros u v (Lu & Lv & _). set (c := fun d => contact_form pd kd num_pairs (pairs s) law gamma theta s v (unit_vector d) - contact_form pd kd num_pairs (pairs s) law gamma theta s u (unit_vector d)).
      assert (S : distance2 n (F v) (F u) <= 2 * distance2 n (bulk v) (bulk u) + 2 * rsum n (fun d => c d * c d)).
      { unfold distance2. rewrite <- !rsum_scal, <- rsum_plus. apply rsum_le. intros d Hd. rewrite !EN by auto. set (b := nth d (bulk v) 0 - nth d (bulk u) 0).
        replace (nth d (bulk v) 0 + contact_form pd kd num_pairs (pairs s) law gamma theta s v (unit_vector d) - (nth d (bulk u) 0 + contact_form pd kd num_pairs (pairs s) law gamma theta s u (unit_vector d))) with (b + c d) by (unfold b, c; ring).
        assert (0 <= (b - c d) * (b - c d)) by apply Rle_0_sqr. lra. }
      assert (C2 : rsum n (fun d => c d * c d) <= INR n * (M * M * (INR n * distance2 n v u))).
      { rewrite <- rsum_const. apply rsum_le. intros d Hd. pose proof (HM d u v Hd Lu Lv) as B. cbv beta in B. change (Rabs (c d) <= M * change n u v) in B. pose proof (change_pos n u v) as CP. pose proof (change_sq n u v) as CQ.
        assert (B0 : 0 <= M * change n u v) by (now apply Rmult_le_pos). assert (E : c d * c d = Rabs (c d) * Rabs (c d)) by (rewrite <- Rabs_mult; symmetry; apply Rabs_right, Rle_ge, Rle_0_sqr). rewrite E.
        apply (Rle_trans _ (M * change n u v * (M * change n u v))); [apply Rmult_le_compat; auto using Rabs_pos|]. replace (M * change n u v * (M * change n u v)) with (M * M * (change n u v * change n u v)) by ring.
        apply Rmult_le_compat_l; [apply Rle_0_sqr|exact CQ]. }
      specialize (LIP u v Lu Lv). unfold L. lra. }
    assert (mono : forall u v, agree n fixed u v -> alpha * distance2 n v u <= rsum n (fun d => (nth d (F v) 0 - nth d (F u) 0) * (nth d v 0 - nth d u 0))).
    { intros u v (Lu & Lv & A). set (w := moved v u (-1)). assert (Lw : length w = n) by (unfold w; now rewrite moved_length).
      assert (Nw : forall k, nth k w 0 = nth k v 0 - nth k u 0) by (intros k; unfold w; rewrite nth_moved by congruence; ring).
      assert (MV : moved u w 1 = v) by (apply (nth_ext _ _ 0 0); [rewrite moved_length; congruence|]; intros k _; rewrite nth_moved, Nw by congruence; ring).
      specialize (ST u w Lu Lw). rewrite MV in ST. specialize (ST ltac:(intros d Hd Hf; rewrite Nw, (A d Hd Hf); ring)).
      pose proof (form_change pd kd num_pairs surfaces basis law gamma theta s u w HL Hw ltac:(congruence) H HW) as FC. rewrite MV in FC.
      pose proof (X v w Lv Lw) as E1. pose proof (X u w Lu Lw) as E2.
      assert (E3 : rsum n (fun d => (nth d (F v) 0 - nth d (F u) 0) * (nth d v 0 - nth d u 0)) = applied (F v) w - applied (F u) w).
      { unfold applied. rewrite !LF, Lv, Lu, <- rsum_minus. apply rsum_ext. intros d _. rewrite Nw. ring. }
      assert (E4 : distance2 n v u = rsum n (fun d => nth d w 0 * nth d w 0)) by (apply rsum_ext; intros d _; now rewrite Nw).
      rewrite E3, E4. lra. }
    destruct (iteration_converges n fixed F f alpha L Ha L0 mono lip prescribed LP) as (u & (Lu & _ & AG) & SU). exists u.
    assert (SOL : solution u) by (split; [exact Lu|split; [exact AG|exact SU]]). split; [exact SOL|]. split.
    - intros u' (Lu' & AG' & SU'). symmetry. apply (iteration_unique n fixed F f alpha Ha mono); [|exact SU|exact SU']. split; [exact Lu'|split; [exact Lu|]]. intros d Hd Hf. now rewrite AG, AG'.
    - exists (rho alpha L), (rate alpha L). split; [now apply rho_pos|]. split; [now apply rate_range|]. intros x k Lx Hx.
      assert (IT : Nat.iter k (relax n fixed F f (rho alpha L)) x = iterate n fixed F f alpha L k x) by (induction k as [|k IH]; [reflexivity|cbn [Nat.iter nat_rect iterate]; f_equal; exact IH]).
      rewrite IT. apply (iteration_rate n fixed F f alpha L Ha L0 mono lip); [|exact SU]. split; [exact Lx|split; [exact Lu|]]. intros d Hd Hf. now rewrite AG, Hx.
  Qed.
  (** Linear bodies with stiffness matrix [A]: the conditions on the bodies are one inequality,
      for theta = -1 that the stiffness is positive definite where nothing is prescribed. *)
  Corollary C120_linear_bodies :
    forall (law : friction_law) (g : G) (calls : list (@call (list R) (nat -> list Z))) (kernels : list kernel_fn) (A : nat -> nat -> R) (n : nat) (fixed : nat -> bool) (prescribed f : list R) (alpha : R),
    let s := after g calls in
    let gamma := nth 0 (constants_of s) 0 in
    let theta := nth 1 (constants_of s) 0 in
    let F v := contact_vector pd num_pairs surfaces basis kernels (updated v s) (stiffness A v) in
    let solution u := length u = n /\ (forall d, (d < n)%nat -> fixed d = true -> nth d u 0 = nth d prescribed 0) /\ (forall d, (d < n)%nat -> fixed d = false -> nth d (F u) 0 = nth d f 0) in
    law <> Coulomb ->
    Forall no_crop calls -> cp_ready s = true -> (forall i, (num_local surfaces i <= num_rows i)%nat) ->
    tie_setting pd kd num_pairs (pairs s) nq -> bs = gdim ->
    generated kd' (vector_kinds law) kernels -> 0 < gamma ->
    (forall i e, (i < num_pairs)%nat -> (e < num_local surfaces i)%nat -> 0 <= stored_friction pd s i e /\ 0 < stored_h pd s i e) ->
    (forall i e q, (i < num_pairs)%nat -> (e < num_local surfaces i)%nat -> In q (points_of (pr_asm (pairs s i)) e) -> 0 <= interface_weight kd (pairs s i) e q) ->
    length prescribed = n -> 0 < alpha ->
    (forall w, length w = n -> (forall d, (d < n)%nat -> fixed d = true -> nth d w 0 = 0) ->
       alpha * rsum n (fun d => nth d w 0 * nth d w 0) + (1 + theta) * (1 + theta) / 4 * surface_traction pd kd num_pairs (pairs s) law gamma s w <= rsum n (fun d => rsum n (fun e => nth d w 0 * A d e * nth e w 0))) ->
    exists u, solution u /\ (forall u', solution u' -> u' = u).
  Proof.
    intros law g calls kernels A n fixed prescribed f alpha s gamma theta F solution HL HC HR HB TS Hg HK Hw H HW LP Ha ST.
    assert (SN : forall v d, length v = n -> (d < n)%nat -> nth d (stiffness A v) 0 = rsum n (fun e => A d e * nth e v 0)).
    { intros v d Lv Hd. unfold stiffness. rewrite Lv, (nth_map_lt _ _ _ _ 0%nat) by (now rewrite seq_length). now rewrite seq_nth. }
    assert (SL : forall v, length (stiffness A v) = length v) by (intros v; unfold stiffness; now rewrite map_length, seq_length).
    assert (N0 : 0 <= rsum n (fun d => rsum n (fun e => A d e * A d e))) by (apply rsum_nonneg; intros; apply rsum_nonneg; intros; apply Rle_0_sqr).
    pose proof (C120_exactly_one_solution law g calls kernels (stiffness A) n fixed prescribed f alpha (rsum n (fun d => rsum n (fun e => A d e * A d e))) HL HC HR HB TS Hg HK Hw H HW SL LP Ha N0) as E. cbv zeta in E.
    destruct E as (u & S1 & S2 & _).
    - intros u w Lu Lw Hf. eapply Rle_trans; [exact (ST w Lw Hf)|]. right. unfold applied. rewrite !SL, moved_length, Lu, <- rsum_minus. apply rsum_ext. intros d Hd.
      rewrite !SN by (rewrite ?moved_length; auto). rewrite <- Rmult_minus_distr_r, <- rsum_minus, Rmult_comm, <- rsum_scal. apply rsum_ext. intros e _. rewrite nth_moved by congruence. ring.
    - intros u v Lu Lv. unfold distance2. rewrite <- rsum_scal_r. apply rsum_le. intros d Hd. rewrite !SN by auto. rewrite <- rsum_minus.
      rewrite (rsum_ext n _ (fun e => A d e * (nth e v 0 - nth e u 0))) by (intros; ring). apply (cauchy_schwarz_sq n (fun e => A d e) (fun e => nth e v 0 - nth e u 0)).
    - exists u. split; [exact S1|exact S2].
  Qed.
End Object.
Print Assumptions C120_exactly_one_solution.
Print Assumptions C120_linear_bodies.
