(** Property C117: objectivity of the whole computation, contact search included. *)
From Coq Require Import List Arith ZArith Lia Bool Reals Lra FunctionalExtensionality.
Import ListNotations.
From Verif Require Import Prelude PreludeLemmas RSum RealLemmas EntitiesModel CropModel CandidatesModel CandidatesProps SubMeshModel SubMeshProofs LayoutModel LayoutProps ContactProblemModel ContactProblemProps.
From Verif Require Import PackingModel PackUProps AssemblyModel AssemblyProofs AssemblyProps RayModel KernelModel KernelProofs KernelSpec DistanceModel GapModel GapSpec DistanceProofs GapProps ContactNormalProps RaySearchModel RayFrameProps
  ElasticityProps ContactKernelModel ContactKernelProofs ContactKernelSpec ContactCurveProofs ContactKernelProps FrictionKernelProofs FrictionKernelProps CoefficientsModel CoefficientsProps SystemSpec TieSystemModel TieSystemProofs TieSystemProps
  TieWeakProps ContactWeakProps ContactSystemModel ContactSystemSpec ContactSystemProofs ContactSystemProps SystemWeakProps BasisProps MonotoneProps TieFormProps ContactFormProps RigidBalanceProps FrameProofs FrameProps MeshFrameProofs SearchFrameProofs SearchFrameProps MeshContactModel.
Local Open Scope R_scope.

(** ** Moving the submesh *)
Section Related.
  Context (dim : nat) (O : nat -> nat -> R).
  (** Arrays of blocks of length [s]: the first [dim] numbers of each block turned, the others the same. *)
  Definition related (s : nat) (w w' : list R) : Prop := length w' = length w /\ forall D a, (a < s)%nat ->
    nth (s * D + a) w' 0 = if (a <? dim)%nat then turn dim O (fun k => nth (s * D + k) w 0) a else nth (s * D + a) w 0.
  Lemma in_block s n N a k : (s * n + a < N * s)%nat -> (k < s)%nat -> (s * n + k < N * s)%nat.
  Proof using. intros H Hk. assert (n < N)%nat by (apply Nat.nle_gt; intros K; apply (Nat.mul_le_mono_l _ _ s) in K; lia). assert (s * (n + 1) <= s * N)%nat by (apply Nat.mul_le_mono_l; lia). lia. Qed.
  Lemma block_entry s n (v : nat -> R) w D a : (dim <= s)%nat -> (a < s)%nat ->
    nth (s * D + a) (for_loop dim (fun j w => upd w (s * n + j) (v j)) w) 0 =
    if ((D =? n) && (a <? dim) && (s * D + a <? length w))%nat then v a else nth (s * D + a) w 0.
  Proof using.
    intros Hs Ha. assert (G : forall d, (d <= dim)%nat -> length (for_loop d (fun j w => upd w (s * n + j) (v j)) w) = length w /\
      nth (s * D + a) (for_loop d (fun j w => upd w (s * n + j) (v j)) w) 0 = if ((D =? n) && (a <? d) && (s * D + a <? length w))%nat then v a else nth (s * D + a) w 0).
    { induction d as [|d IH]; intros Hd; [split; [reflexivity|]; cbn [for_loop]; rewrite andb_comm, andb_assoc; replace (a <? 0)%nat with false by (symmetry; apply Nat.ltb_ge; lia); now rewrite andb_false_r|].
      destruct (IH ltac:(lia)) as [L E]. rewrite for_loop_S. split; [now rewrite upd_length|].
      destruct (Nat.eq_dec (s * n + d) (s * D + a)) as [Q|Q].
      - assert (n = D /\ d = a) as [<- <-] by (apply (block_index s); [lia|exact Ha|exact Q]). destruct (Nat.ltb_spec (s * n + d) (length w)) as [K|K].
        + rewrite nth_upd_same by (rewrite L; exact K). rewrite Nat.eqb_refl. destruct (Nat.ltb_spec d (S d)); [reflexivity|lia].
        + rewrite nth_overflow by (rewrite upd_length, L; exact K). rewrite andb_false_r. now rewrite nth_overflow.
      - rewrite nth_upd_other by exact Q. rewrite E. destruct (Nat.eqb_spec D n) as [->|]; [|reflexivity]. cbn [andb]. destruct (Nat.ltb_spec a d), (Nat.ltb_spec a (S d)); try lia; reflexivity. }
    apply (G dim). lia.
  Qed.
  Lemma block_related s N n (v v' : nat -> R) w w' : (dim <= s)%nat -> length w = (N * s)%nat -> (forall a, (a < dim)%nat -> v' a = turn dim O v a) -> related s w w' ->
    related s (for_loop dim (fun j w => upd w (s * n + j) (v j)) w) (for_loop dim (fun j w => upd w (s * n + j) (v' j)) w').
  Proof using.
    intros Hs Lw Hv [L E]. assert (LL : forall (v : nat -> R) w d, length (for_loop d (fun j w => upd w (s * n + j) (v j)) w) = length w) by (intros; apply (for_loop_inv (fun _ w1 => length w1 = length w0)); [reflexivity|intros; now rewrite upd_length]).
    split; [now rewrite !LL|]. intros D a Ha. rewrite block_entry by auto. rewrite L. destruct (Nat.ltb_spec a dim) as [Hd|Hd].
    - rewrite andb_true_r. destruct (Nat.eqb_spec D n) as [->|Ne]; cbn [andb].
      + destruct (Nat.ltb_spec (s * n + a) (length w)) as [K|K].
        * rewrite Hv by exact Hd. apply turn_ext. intros k Hk. rewrite block_entry by (auto; lia). rewrite Nat.eqb_refl. destruct (Nat.ltb_spec k dim); [|lia]. destruct (Nat.ltb_spec (s * n + k) (length w)); [reflexivity|]. rewrite Lw in *. pose proof (in_block s n N a k K ltac:(lia)). lia.
        * rewrite E by exact Ha. destruct (Nat.ltb_spec a dim); [|lia]. apply turn_ext. intros k Hk. rewrite block_entry by (auto; lia). destruct (Nat.ltb_spec (s * n + k) (length w)); [rewrite Lw in *; pose proof (in_block s n N k a ltac:(assumption) Ha); lia|]. now rewrite andb_false_r.
      + rewrite E by exact Ha. destruct (Nat.ltb_spec a dim); [|lia]. apply turn_ext. intros k Hk. rewrite block_entry by (auto; lia). destruct (Nat.eqb_spec D n); [contradiction|reflexivity].
    - rewrite andb_false_r. cbn [andb]. rewrite E by exact Ha. destruct (Nat.ltb_spec a dim); [lia|]. rewrite block_entry by auto. destruct (Nat.ltb_spec a dim); [lia|]. now rewrite andb_false_r.
  Qed.
  Lemma loop_related {A} (P : A -> A -> Prop) n (f f' : nat -> A -> A) a a' : P a a' -> (forall i x x', (i < n)%nat -> P x x' -> P (f i x) (f' i x')) -> P (for_loop n f a) (for_loop n f' a').
  Proof using. intros H0 H. induction n as [|n IH]; [exact H0|]. rewrite !for_loop_S. apply H; [lia|]. apply IH. intros; apply H; auto. Qed.

  (** Displacements on the submesh and the displacements of its nodes. *)
  Lemma copy_related n pc ds dp u N : (0 < dim)%nat -> related dim (copy_function 0 dim n pc ds dp u (repeat 0 (dim * N))) (copy_function 0 dim n pc ds dp (turned_field dim O u) (repeat 0 (dim * N))).
  Proof using.
    intros Hd. unfold copy_function. apply (loop_related (fun w w' => length w = (N * dim)%nat /\ related dim w w')).
    - split; [rewrite repeat_length; lia|]. split; [reflexivity|]. intros D a Ha. rewrite nth_repeat. destruct (Nat.ltb_spec a dim); [|lia]. symmetry. apply rsum_zero. intros k Hk. rewrite nth_repeat. ring.
    - intros c w w' Hc HW. apply (loop_related (fun w w' => length w = (N * dim)%nat /\ related dim w w')); [exact HW|]. intros i x x' Hi [Lx Rx]. split.
      + apply (for_loop_inv (fun _ x => length x = (N * dim)%nat)); [exact Lx|]. intros. now rewrite upd_length.
      + apply (block_related dim N); auto. intros a Ha. now apply field_value.
  Qed.
  Lemma update_related n ds dx u u' x x' (t : nat -> R) N : (0 < dim)%nat -> (dim <= 3)%nat -> length x = (3 * N)%nat -> related dim u u' -> x' = turned_points dim O t x ->
    SubMeshModel.update_geometry Rplus 0 dim n ds dx u' x' = turned_points dim O t (SubMeshModel.update_geometry Rplus 0 dim n ds dx u x).
  Proof using.
    intros H0 H3 Lx [Lu Ru] ->. unfold SubMeshModel.update_geometry.
    assert (Lp : forall y, length (turned_points dim O t y) = length y) by (intros; unfold turned_points; now rewrite map_length, seq_length). rewrite Lp.
    set (f := fun (u : list R) (c : nat) (d : list R) => for_loop (length (ds c)) (fun i dx0 => for_loop dim (fun j dx0 => upd dx0 (3 * nth i (dx c) 0 + j)%nat (nth (dim * nth i (ds c) 0 + j)%nat u 0)) dx0) d).
    assert (HR : length (for_loop n (fun c d => f u c d) (repeat 0 (length x))) = (N * 3)%nat /\ related 3 (for_loop n (fun c d => f u c d) (repeat 0 (length x))) (for_loop n (fun c d => f u' c d) (repeat 0 (length x)))).
    { apply (loop_related (fun w w' => length w = (N * 3)%nat /\ related 3 w w')).
      - split; [rewrite repeat_length; lia|]. split; [reflexivity|]. intros D a Ha. rewrite nth_repeat. destruct (Nat.ltb_spec a dim); [|reflexivity]. symmetry. apply rsum_zero. intros k Hk. rewrite nth_repeat. ring.
      - intros c w w' Hc HW. unfold f. apply (loop_related (fun w w' => length w = (N * 3)%nat /\ related 3 w w')); [exact HW|]. intros i y y' Hi [Ly Ry]. split.
        + apply (for_loop_inv (fun _ x => length x = (N * 3)%nat)); [exact Ly|]. intros. now rewrite upd_length.
        + apply (block_related 3 N); auto. intros a Ha. rewrite Ru by exact Ha. destruct (Nat.ltb_spec a dim); [reflexivity|lia]. }
    unfold f in HR. destruct HR as [LD [LD' RD]]. set (d := for_loop n _ (repeat 0 (length x))) in LD, LD', RD |- *. set (d' := for_loop n _ (repeat 0 (length x))) in LD', RD |- *.
    set (y := map (fun p => fst p + snd p) (combine x d)).
    assert (Ey : forall k, nth k y 0 = nth k x 0 + nth k d 0).
    { intros k. unfold y. destruct (Nat.lt_ge_cases k (length x)) as [L|L].
      - rewrite (nth_map_lt _ _ k 0 (0, 0)) by (rewrite combine_length; lia). rewrite combine_nth by lia. reflexivity.
      - rewrite !nth_overflow; [ring| | |]; rewrite ?map_length, ?combine_length; lia. }
    apply (nth_ext _ _ 0 0); [rewrite Lp; unfold y; rewrite !map_length, !combine_length, Lp; lia|]. rewrite map_length, combine_length, Lp. intros k Hk.
    rewrite (nth_map_lt _ _ k 0 (0, 0)) by (rewrite combine_length, Lp; lia). rewrite combine_nth by (rewrite Lp; lia). cbn [fst snd].
    assert (Ek : k = (3 * (k / 3) + k mod 3)%nat) by (apply Nat.div_mod; lia). pose proof (Nat.mod_upper_bound k 3 ltac:(lia)) as Hm. set (D := (k / 3)%nat) in *. set (a := (k mod 3)%nat) in *. clearbody D a. subst k.
    rewrite RD by exact Hm. unfold turned_points. rewrite !(nth_map_lt _ _ (3 * D + a) 0 0%nat) by (rewrite seq_length; unfold y; rewrite ?map_length, ?combine_length; lia). rewrite !seq_nth by (unfold y; rewrite ?map_length, ?combine_length; lia). cbn [Nat.add].
    assert (E1 : ((3 * D + a) / 3 = D)%nat) by (symmetry; apply (Nat.div_unique _ _ D a); lia). assert (E2 : ((3 * D + a) mod 3 = a)%nat) by (symmetry; apply (Nat.mod_unique _ _ D a); lia). rewrite E1, E2.
    destruct (a <? dim)%nat; [|now rewrite Ey]. unfold turn. rewrite (rsum_ext dim (fun k => O a k * nth (D * 3 + k) y 0) (fun k => O a k * nth (D * 3 + k) x 0 + O a k * nth (3 * D + k) d 0)) by (intros k Hk'; rewrite Ey, (Nat.mul_comm D 3); ring).
    rewrite rsum_plus. ring.
  Qed.
  Lemma restore_turned xm pg g (t : nat -> R) N : (dim <= 3)%nat -> length g = (3 * N)%nat -> (forall i, (i < N)%nat -> (3 * nth i xm 0 + 2 < length pg)%nat) ->
    restore_geometry 0 xm (turned_points dim O t pg) (turned_points dim O t g) = turned_points dim O t (restore_geometry 0 xm pg g).
  Proof using.
    intros H3 Lg Hx. assert (Lp : forall y, length (turned_points dim O t y) = length y) by (intros; unfold turned_points; now rewrite map_length, seq_length).
    apply (nth_ext _ _ 0 0); [now rewrite Lp, !restore_length, Lp|]. rewrite restore_length, Lp. intros k Hk.
    assert (Ek : k = (3 * (k / 3) + k mod 3)%nat) by (apply Nat.div_mod; lia). pose proof (Nat.mod_upper_bound k 3 ltac:(lia)) as Hm. set (D := (k / 3)%nat) in *. set (a := (k mod 3)%nat) in *. clearbody D a. subst k.
    assert (E1 : ((3 * D + a) / 3 = D)%nat) by (symmetry; apply (Nat.div_unique _ _ D a); lia). assert (E2 : ((3 * D + a) mod 3 = a)%nat) by (symmetry; apply (Nat.mod_unique _ _ D a); lia).
    rewrite (restore_nth 0 xm _ _ N) by (rewrite ?Lp; lia). rewrite E1, E2. pose proof (Hx D ltac:(lia)) as HD. set (M := nth D xm 0%nat) in *.
    unfold turned_points. rewrite (nth_map_lt _ _ (3 * M + a) 0 0%nat) by (rewrite seq_length; lia). rewrite seq_nth by lia. rewrite (nth_map_lt _ _ (3 * D + a) 0 0%nat) by (rewrite seq_length, restore_length; lia). rewrite seq_nth by (rewrite restore_length; lia). cbn [Nat.add].
    rewrite E1, E2. assert (F1 : ((3 * M + a) / 3 = M)%nat) by (symmetry; apply (Nat.div_unique _ _ M a); lia). assert (F2 : ((3 * M + a) mod 3 = a)%nat) by (symmetry; apply (Nat.mod_unique _ _ M a); lia). rewrite F1, F2.
    assert (RN : forall k, (k < 3)%nat -> nth (3 * D + k) (restore_geometry 0 xm pg g) 0 = nth (3 * M + k) pg 0).
    { intros k Hk'. rewrite (restore_nth 0 xm pg g N) by lia. f_equal. assert (((3 * D + k) / 3 = D)%nat) as -> by (symmetry; apply (Nat.div_unique _ _ D k); lia). assert (((3 * D + k) mod 3 = k)%nat) as -> by (symmetry; apply (Nat.mod_unique _ _ D k); lia). reflexivity. }
    destruct (Nat.ltb_spec a dim); [|now rewrite RN]. f_equal. apply rsum_ext. intros k Hk'. f_equal. rewrite (Nat.mul_comm D 3), (Nat.mul_comm M 3). now rewrite RN by lia.
  Qed.
End Related.

(** ** The motion of the submesh commutes with a change of frame *)
(** Nodes and degrees of freedom of the submesh are those of the parent mesh named by its tables. *)
Definition submesh_nodes (pd : pack_data) (sub : submesh_tables) (N : nat) : Prop := forall n, (n < N)%nat -> (3 * nth n (sm_x_map sub) 0 + 2 < length (pd_x pd))%nat.
Theorem C117_move :
  forall (O : nat -> nat -> R) (t : nat -> R) (pd : pack_data) (sub : submesh_tables) (x u : list R) (N : nat),
    (0 < pd_gdim pd <= 3)%nat -> pd_bs pd = pd_gdim pd -> submesh_nodes pd sub N -> length x = (3 * N)%nat ->
    mesh_move (turned_space O t pd) sub (turned_points (pd_gdim pd) O t x) (turned_field (pd_gdim pd) O u) = turned_points (pd_gdim pd) O t (mesh_move pd sub x u).
Proof.
  intros O t pd sub x u N Hg Hb HN Lx. unfold mesh_move, submesh_update_geometry. cbn [turned_space pd_bs pd_x]. rewrite Hb.
  apply (update_related _ O _ _ _ _ _ _ _ t N); try lia.
  - now rewrite restore_length.
  - apply copy_related. lia.
  - now apply (restore_turned _ O _ _ _ t N).
Qed.
Print Assumptions C117_move.

(** ** The whole computation *)
(** A geometry of the submesh that can be searched: surface cells are not degenerate, the search
    does not throw, and the choice of the closest facets is the same in both frames. *)
Record searchable (O : nat -> nat -> R) (t : nat -> R) (m : mesh_data) (vertices : nat -> list nat) (closest closest' : list R -> list nat -> list R -> nat) (cmap : adj nat) (num_pairs : nat) (pairs : nat -> contact_pair)
    (found : list R -> nat -> option detection) (N : nat) (x : list R) : Prop := {
  sx_size : length x = (3 * N)%nat;
  sx_mesh : volume_mesh (at_geometry m x);
  sx_pairs : forall i, (i < num_pairs)%nat -> exists Q C, cp_quadrature (pairs i) = flat2 Q /\ cp_candidate (pairs i) = flat2 C /\ (cp_local (pairs i) <= length Q)%nat /\
    search_facets (at_geometry m x) (map (sub_pair cmap) Q) /\ search_facets (at_geometry m x) (map (sub_pair cmap) C) /\
    forall c, In c (map (sub_pair cmap) (Q ++ C)) -> facet_nodes_exist x (vertices (facet_index m (fst c) (snd c)));
  sx_found : forall i, (i < num_pairs)%nat -> found x i <> None;
  sx_closest : same_closest (m_gdim m) O t (closest x) (closest' (turned_points (m_gdim m) O t x));
  sx_pull_back : frame_free_pull_back O t (at_geometry m x) }.

Section Whole.
  Context (O : nat -> nat -> R) (t : nat -> R) (pd : pack_data) (kd : kernel_data) (num_pairs : nat) (surfaces : nat -> tie_pair) (num_rows : nat -> nat)
    (pack_param : nat -> list R -> list (list R)) (pack_h : nat -> list (list R)).
  Context (m : mesh_data) (sub : submesh_tables) (ct : cell_type) (vertex : nat -> nat -> nat -> R) (facet_jac : nat -> matrix) (vertices : nat -> list nat)
    (closest closest' : list R -> list nat -> list R -> nat) (gjk : list (list R) -> list R -> list R)
    (cmap : adj nat) (point : nat -> list R) (offsets : nat -> nat) (raytracing : nat -> bool) (search_radius : R) (pairs : nat -> contact_pair) (table : list R -> nat -> R) (N : nat).
  Notation gdim := (pd_gdim pd).
  Notation nq := (pd_nq pd).
  Notation TG := (turned_points gdim O t).
  Notation pd' := (turned_space O t pd).
  Notation turned := (turned_field gdim O).
  Notation surfaces' := (fun i => turned_pair O t (surfaces i)).
  Notation found_by c := (mesh_found m ct vertex facet_jac vertices c gjk cmap point offsets raytracing search_radius num_pairs pairs).
  Notation detect_by c := (mesh_detect m ct vertex facet_jac vertices c gjk cmap point offsets raytracing search_radius num_pairs pairs).
  Notation gap_by c := (mesh_gap m ct vertex facet_jac vertices c gjk cmap point offsets raytracing search_radius num_pairs pairs).
  Notation normals_by c := (mesh_normals m ct vertex facet_jac vertices c gjk cmap point offsets raytracing search_radius num_pairs pairs).
  Notation basis_by c := (mesh_basis m ct vertex facet_jac vertices c gjk cmap point offsets raytracing search_radius num_pairs pairs table).
  Notation ok := (searchable O t m vertices closest closest' cmap num_pairs pairs (found_by closest) N).
  Context (Hdim : m_gdim m = gdim) (Hbs : pd_bs pd = gdim) (Hnq : nq = num_q offsets) (Hoff : forall f, offsets f = (f * num_q offsets)%nat) (HO : orthogonal gdim O)
    (Hnorm : forall f, nonzero m (m_ref_normal m f)) (Hgjk : gjk_exact (length (m_closure m 0)) gjk) (Hlocal : forall i, cp_local (pairs i) = num_local surfaces i) (Hnodes : submesh_nodes pd sub N).

  Lemma same_offsets a : {| adj_data := adj_data a; adj_off := adj_off a |} = a :> adj Z.
  Proof using. now destruct a. Qed.
  Lemma detection_eta d : {| det_map := det_map d; det_ref := det_ref d; det_qp := det_qp d |} = d.
  Proof using. now destruct d. Qed.
  Lemma point_lt q k n : (q < n)%nat -> (k < gdim)%nat -> (q * gdim + k < n * gdim)%nat.
  Proof using. intros Hq Hk. clear - Hq Hk. assert (q * gdim + gdim <= n * gdim)%nat by (replace (q * gdim + gdim)%nat with ((q + 1) * gdim)%nat by ring; apply Nat.mul_le_mono_r; lia). lia. Qed.
  Lemma row_of_entry n (l : list R) w r c : (r < n)%nat -> (c < w)%nat -> at2 (rows_of n (l, w)) r c = nth (r * w + c) l 0.
  Proof using.
    intros Hr Hc. unfold at2, rows_of. cbn [fst snd]. rewrite (@nth_map_lt nat (list R) _ _ r [] 0%nat) by (now rewrite seq_length). rewrite (nth_map_lt _ _ c 0 0%nat) by (now rewrite seq_length). now rewrite !seq_nth by auto.
  Qed.
  Lemma search_turned x i : ok x -> (i < num_pairs)%nat -> exists d d', found_by closest x i = Some d /\ found_by closest' (TG x) i = Some d' /\ det_map d' = det_map d /\ det_ref d' = det_ref d /\
    forall r q a, (r < num_local surfaces i)%nat -> (q < nq)%nat -> (a < gdim)%nat ->
      let at_point (l : list R) k := nth ((r * nq + q) * gdim + k) l 0 in
      at_point (contact_gap offsets (at_geometry m (TG x)) (pairs i) d') a = turn gdim O (at_point (contact_gap offsets (at_geometry m x) (pairs i) d)) a /\
      at_point (pack_normals cmap point offsets (raytracing i) (at_geometry m (TG x)) (pairs i) d') a = turn gdim O (at_point (pack_normals cmap point offsets (raytracing i) (at_geometry m x) (pairs i) d)) a.
  Proof using Hdim Hbs Hnq Hoff HO Hnorm Hgjk Hlocal.
    intros Hok Hi. destruct (sx_pairs _ _ _ _ _ _ _ _ _ _ _ _ Hok i Hi) as (Q & C & EQ & EC & HL & SQ & SC & HV). pose proof (sx_found _ _ _ _ _ _ _ _ _ _ _ _ Hok i Hi) as HF.
    destruct (found_by closest x i) as [d|] eqn:E; [|congruence]. clear HF. unfold mesh_found in E. destruct (Nat.ltb_spec i num_pairs) as [_|]; [|lia]. cbn [negb] in E.
    pose proof (C115_contact_data (raytracing i) O t (at_geometry m x) ct vertex facet_jac vertices (closest x) (closest' (TG x)) gjk cmap point offsets search_radius (pairs i) Q C (mkDetection (mkAdj [] []) [] []) (mkDetection (mkAdj [] []) [] []) d EQ EC HL Hoff (sx_mesh _ _ _ _ _ _ _ _ _ _ _ _ Hok)) as X.
    cbn [at_geometry m_gdim m_x m_closure] in X. change (m_gdim (at_geometry m x)) with (m_gdim m) in X. specialize (X ltac:(now rewrite Hdim) SQ SC Hnorm HV Hgjk).
    pose proof (sx_closest _ _ _ _ _ _ _ _ _ _ _ _ Hok) as HC. rewrite Hdim in HC. rewrite Hdim in X. specialize (X HC (sx_pull_back _ _ _ _ _ _ _ _ _ _ _ _ Hok)). cbv zeta in X. specialize (X E). destruct X as (d' & E' & M & Rf & P).
    assert (EG : turned_geometry O t (at_geometry m x) = at_geometry m (TG x)) by (unfold turned_geometry, at_geometry; cbn [m_gdim m_x]; now rewrite Hdim). rewrite EG in *.
    exists d, d'. split; [reflexivity|]. split; [unfold mesh_found; destruct (Nat.ltb_spec i num_pairs); [exact E'|lia]|]. split; [exact M|]. split; [exact Rf|]. rewrite Hnq. intros r q a Hr Hq Ha. cbv zeta. rewrite <- Hlocal in Hr. exact (P r q a Hr Hq Ha).
  Qed.
  Lemma mesh_routines : (0 < gdim <= 3)%nat -> turned_routines O pd num_pairs surfaces TG ok
    (basis_by closest) (mesh_move pd sub) (detect_by closest) (gap_by closest) (normals_by closest)
    (basis_by closest') (mesh_move pd' sub) (detect_by closest') (gap_by closest') (normals_by closest').
  Proof using Hdim Hbs Hnq Hoff HO Hnorm Hgjk Hlocal Hnodes.
    intros Hg. constructor.
    - intros g u Hok. apply (C117_move O t pd sub g u N); auto. apply (sx_size _ _ _ _ _ _ _ _ _ _ _ _ Hok).
    - intros g Hok. apply functional_extensionality. intros i. unfold mesh_detect. destruct (Nat.lt_ge_cases i num_pairs) as [Hi|Hi].
      + destruct (search_turned g i Hok Hi) as (d & d' & E & E' & M & _). now rewrite E, E', M.
      + unfold mesh_found. destruct (Nat.ltb_spec i num_pairs); [lia|reflexivity].
    - intros g Hok. apply functional_extensionality. intros i. unfold mesh_basis. destruct (Nat.lt_ge_cases i num_pairs) as [Hi|Hi].
      + destruct (search_turned g i Hok Hi) as (d & d' & E & E' & _ & Rf & _). now rewrite E, E', Rf.
      + unfold mesh_found. destruct (Nat.ltb_spec i num_pairs); [lia|reflexivity].
    - intros g i r q a Hok Hi Hr Hq Ha. destruct (search_turned g i Hok Hi) as (d & d' & E & E' & M & Rf & P). destruct (P r q a Hr Hq Ha) as [P1 _]. clear P. unfold mesh_gap, mesh_held. rewrite E, E'.
      unfold mesh_detect. rewrite E. rewrite <- M at 1. rewrite !same_offsets. rewrite detection_eta, detection_eta. rewrite Hdim, <- Hnq, Hlocal. rewrite row_of_entry by (auto; now apply point_lt).
      cbv zeta in P1. replace (r * (nq * gdim) + (q * gdim + a))%nat with ((r * nq + q) * gdim + a)%nat by ring. rewrite P1. apply turn_ext. intros k Hk. rewrite row_of_entry by (auto; now apply point_lt). f_equal. ring.
    - intros g i r q a Hok Hi Hr Hq Ha. destruct (search_turned g i Hok Hi) as (d & d' & E & E' & M & Rf & P). destruct (P r q a Hr Hq Ha) as [_ P1]. clear P. unfold mesh_normals, mesh_held. rewrite E, E'.
      unfold mesh_detect. rewrite E. rewrite <- M at 1. rewrite !same_offsets. rewrite detection_eta, detection_eta. rewrite Hdim, <- Hnq, Hlocal. rewrite row_of_entry by (auto; now apply point_lt).
      cbv zeta in P1. replace (r * (nq * gdim) + (q * gdim + a))%nat with ((r * nq + q) * gdim + a)%nat by ring. rewrite P1. apply turn_ext. intros k Hk. rewrite row_of_entry by (auto; now apply point_lt). f_equal. ring.
  Qed.

  Notation after := (contact_after pd num_pairs surfaces (basis_by closest) num_rows (mesh_move pd sub) (detect_by closest) (gap_by closest) (normals_by closest) pack_param pack_h).
  Notation after' := (contact_after pd' num_pairs surfaces' (basis_by closest') num_rows (mesh_move pd' sub) (detect_by closest') (gap_by closest') (normals_by closest') pack_param pack_h).
  Notation updated := (contact_updated pd num_pairs surfaces (basis_by closest) num_rows).
  Notation updated' := (contact_updated pd' num_pairs surfaces' (basis_by closest') num_rows).
  Notation pairs_at s := (pair_at pd surfaces (basis_by closest) (cp_geom s) (cp_map s)).
  (** The geometries the calls lead through: [g], and after each detection the parent's nodes displaced by its argument. *)
  Notation reached g calls := (all_ok ok (mesh_move pd sub) (mkH g None) calls).

  Theorem C117_forces_turn :
    forall (law : friction_law) (g : list R) (calls : list (@call (list R) (nat -> list Z))) (u b : list R) (kernels : list kernel_fn) (n : nat),
    let s := after g calls in
    let s' := after' (TG g) (map (turned_call gdim O) calls) in
    reached g calls -> Forall no_crop calls -> cp_ready s = true -> (forall i, (num_local surfaces i <= num_rows i)%nat) -> tie_setting pd kd num_pairs (pairs_at s) nq ->
    pd_tdim pd = gdim -> (0 < nq)%nat -> inverts gdim (pd_inverse pd) -> area_element gdim (gdim - 1) (kd_determinant kd) ->
    (forall i e, (i < num_pairs)%nat -> (e < num_local surfaces i)%nat -> turnable pd (own_cell (surfaces i) e) (own_facet (surfaces i) e)) ->
    length b = (n * gdim)%nat -> generated (with_strides kd (contact_kernel_strides nq (pd_functions pd) gdim gdim nq)) (vector_kinds law) kernels -> 0 < nth 0 (constants_of s) 0 ->
    (forall i e, (i < num_pairs)%nat -> (e < num_local surfaces i)%nat -> 0 <= stored_friction pd s i e /\ 0 < stored_h pd s i e) ->
    cp_geom s' = TG (cp_geom s) /\ cp_map s' = cp_map s /\
    contact_vector pd' num_pairs surfaces' (basis_by closest') kernels (updated' (turned u) s') (turned b) = turned (contact_vector pd num_pairs surfaces (basis_by closest) kernels (updated u s) b).
  Proof using Hdim Hbs Hnq Hoff HO Hnorm Hgjk Hlocal Hnodes.
    intros law g calls u b kernels n s s' HR HC Hrd HL TS Hd Hq0 HI HA HT Lb HK Hw H.
    assert (Hg : (0 < gdim <= 3)%nat) by (rewrite <- Hdim; destruct (vm_dim _ (sx_mesh _ _ _ _ _ _ _ _ _ _ _ _ (HR [] calls eq_refl))) as [E|E]; cbn [at_geometry m_gdim] in E; lia).
    pose proof (C114_stored_data O t pd kd num_pairs surfaces num_rows pack_param pack_h TG ok _ _ _ _ _ _ _ _ _ _ (mesh_routines Hg) g calls HR HC Hrd HL TS Hbs Hd Hq0 HO HI HT) as (_ & _ & X1 & X2 & _).
    split; [exact X1|]. split; [exact X2|].
    exact (C114_forces_turn O t pd kd num_pairs surfaces num_rows pack_param pack_h TG ok _ _ _ _ _ _ _ _ _ _ (mesh_routines Hg) law g calls u b kernels n HR HC Hrd HL TS Hbs Hd Hq0 HO HI HA HT Lb HK Hw H).
  Qed.
End Whole.
Print Assumptions C117_forces_turn.
