(** Property C118: the gaps and normals the contact forces are computed from are those of the
    displaced bodies. *)
From Coq Require Import List Arith ZArith Lia Bool Reals Lra.
Import ListNotations.
From Verif Require Import Prelude PreludeLemmas RSum RealLemmas EntitiesModel SubMeshModel SubMeshProofs SubMeshProps LayoutModel LayoutProps ContactProblemModel ContactProblemProps.
From Verif Require Import PackingModel RayModel KernelModel DistanceModel GapModel GapSpec DistanceProofs GapProps ShortestGapProps ContactNormalProps RayModel RayProps RaySearchModel RayFrameProps SearchFrameProofs RayGapProps ContactKernelSpec CoefficientsModel TieSystemModel ContactSystemModel ContactFormProps RigidBalanceProps
  FrameProofs FrameProps MeshFrameProofs MeshContactModel MeshContactProps FacetPlaneProofs.
Local Open Scope R_scope.

Definition no_detection {F D : Type} (c : @call F D) : Prop := match c with CallDetection _ => False | _ => True end.

Section Geometry.
  Context {G F D : Type} (move : G -> F -> G).
  Lemma geometry_kept (calls : list (@call F D)) : forall h, Forall no_detection calls -> h_geom (fold_left (hist_step move) calls h) = h_geom h.
  Proof using.
    induction calls as [|c calls IH]; intros h H; [reflexivity|]. inversion H; subst. cbn [fold_left]. rewrite IH by auto. destruct c as [d ga th|du|u|ga th|mm]; cbn [hist_step no_detection] in *; try reflexivity; [|contradiction].
    destruct (given (d_mu d) && given (d_lambda d)); reflexivity.
  Qed.
  (** The latest detection is the one on the present geometry. *)
  Lemma latest_current (calls : list (@call F D)) : forall h, (forall cur old, h_latest h = Some (cur, old) -> cur = h_geom h) ->
    forall cur old, h_latest (fold_left (hist_step move) calls h) = Some (cur, old) -> cur = h_geom (fold_left (hist_step move) calls h).
  Proof using.
    induction calls as [|c calls IH]; intros h H; [exact H|]. cbn [fold_left]. apply IH. intros cur old. destruct c as [d ga th|du|u|ga th|mm]; cbn [hist_step]; try apply H.
    - destruct (given (d_mu d) && given (d_lambda d)); [|apply H]. cbn [h_latest h_geom]. destruct (h_latest h) as [[a b]|]; intros E; injection E as <- <-; reflexivity.
    - cbn [h_latest h_geom]. destruct (h_latest h) as [[a b]|]; [|discriminate]. intros E; injection E as <- <-; reflexivity.
  Qed.
End Geometry.

(** Cells are straight, so that the derivative of the map is the same everywhere. *)
Lemma straight_jacobian m c X X' i k : linear_simplices m -> (k < m_tdim m)%nat -> geometry_jacobian m c X i k = geometry_jacobian m c X' i k.
Proof. intros LS Hk. now rewrite !(linear_jacobian m LS) by exact Hk. Qed.
Lemma straight_outward m c X X' ref n : linear_simplices m -> outward_unit_normal m (geometry_jacobian m c X) ref n -> outward_unit_normal m (geometry_jacobian m c X') ref n.
Proof.
  intros LS (H1 & H2 & H3).
  assert (E : forall t, rsum (m_gdim m) (fun i => n i * rsum (m_tdim m) (fun k => geometry_jacobian m c X' i k * t k)) = rsum (m_gdim m) (fun i => n i * rsum (m_tdim m) (fun k => geometry_jacobian m c X i k * t k))).
  { intros t. apply rsum_ext. intros i Hi. f_equal. apply rsum_ext. intros k Hk. now rewrite (straight_jacobian m c X' X). }
  split; [exact H1|]. split; intros t; rewrite E; auto.
Qed.
Lemma straight_nonsingular m c X X' : linear_simplices m -> nonsingular m (geometry_jacobian m c X) -> nonsingular m (geometry_jacobian m c X').
Proof.
  intros LS. assert (E : forall i k, (k < m_tdim m)%nat -> geometry_jacobian m c X' i k = geometry_jacobian m c X i k) by (intros; now apply straight_jacobian).
  unfold nonsingular. destruct (ls_dims _ LS) as [[ET EG]|[[ET EG]|[ET EG]]]; rewrite ET, EG in *; cbn [Nat.eqb].
  - unfold det. rewrite !E by lia. auto.
  - unfold det3. rewrite !E by lia. auto.
  - unfold det, gram. cbn [rsum]. rewrite !E by lia. auto.
Qed.

(** A pair whose surfaces are facets of straight simplices, none degenerate, searched for closest points; [Q], [C]:
    its (cell, local facet) pairs; [hulls]: the facets by number. *)
Record closest_setting (m : mesh_data) (cmap : adj nat) (closest : list nat -> list R -> nat) (gjk : list (list R) -> list R -> list R) (hulls : nat -> list (list R)) (p : contact_pair) (Q C : list (nat * nat)) : Prop := {
  cs_simplices : linear_simplices m;
  cs_volume : volume_mesh m;
  cs_tables : facet_tables m;
  cs_reference : reference_simplex m;
  cs_normals : forall f, nonzero m (m_ref_normal m f);
  cs_quadrature : cp_quadrature p = flat2 Q;
  cs_local : (cp_local p <= length Q)%nat;
  cs_candidate : cp_candidate p = flat2 C;
  cs_some : C <> [];
  cs_facets : forall c, In c (map (sub_pair cmap) C) -> surface_facet m (fst c) (snd c) /\ (snd c <= m_gdim m)%nat /\
    nonsingular m (geometry_jacobian m (fst c) (repeat 0 (m_tdim m))) /\ hulls (facet_index m (fst c) (snd c)) = facet_points m (fst c) (snd c);
  cs_gjk : gjk_exact (length (m_closure m 0)) gjk;
  cs_closest : closest_exact hulls closest (map (fun c => facet_index m (fst c) (snd c)) (map (sub_pair cmap) C)) }.

Section MeshGap.
  Context (pd : pack_data) (num_pairs : nat) (surfaces : nat -> tie_pair) (num_rows : nat -> nat)
    (pack_param : nat -> list R -> list (list R)) (pack_h : nat -> list (list R)).
  Context (m : mesh_data) (sub : submesh_tables) (ct : cell_type) (vertex : nat -> nat -> nat -> R) (facet_jac : nat -> matrix) (vertices : nat -> list nat)
    (closest : list R -> list nat -> list R -> nat) (gjk : list (list R) -> list R -> list R)
    (cmap : adj nat) (point : nat -> list R) (offsets : nat -> nat) (raytracing : nat -> bool) (search_radius : R) (pairs : nat -> contact_pair) (table : list R -> nat -> R).
  Notation gdim := (pd_gdim pd).
  Notation nq := (pd_nq pd).
  Notation found := (mesh_found m ct vertex facet_jac vertices closest gjk cmap point offsets raytracing search_radius num_pairs pairs).
  Notation detect := (mesh_detect m ct vertex facet_jac vertices closest gjk cmap point offsets raytracing search_radius num_pairs pairs).
  Notation gap := (mesh_gap m ct vertex facet_jac vertices closest gjk cmap point offsets raytracing search_radius num_pairs pairs).
  Notation normals := (mesh_normals m ct vertex facet_jac vertices closest gjk cmap point offsets raytracing search_radius num_pairs pairs).
  Notation basis := (mesh_basis m ct vertex facet_jac vertices closest gjk cmap point offsets raytracing search_radius num_pairs pairs table).
  Notation after := (contact_after pd num_pairs surfaces basis num_rows (mesh_move pd sub) detect gap normals pack_param pack_h).
  Context (Hdim : m_gdim m = gdim) (Hnq : nq = num_q offsets) (Hlocal : forall i, cp_local (pairs i) = num_local surfaces i) (HL : forall i, (num_local surfaces i <= num_rows i)%nat).

  Lemma inv_after g calls : ContactProblemProps.inv detect gap normals (cp_pack_test pd surfaces basis) num_pairs num_rows (num_local surfaces) nq (pd_functions pd) gdim (history_of (mesh_move pd sub) g calls) (after g calls).
  Proof using HL. apply run_inv. exact HL. Qed.

  (** The submesh geometry after the last detection, whatever happened before: the nodes of the parent moved by its displacement. *)
  Theorem C118_positions :
    forall (g u : list R) (before after_it : list (@call (list R) (nat -> list Z))) (N : nat),
      (pd_bs pd <= 3)%nat -> length g = (3 * N)%nat -> Forall no_detection after_it ->
      conforming (sm_cells sub) (sm_parent_cells sub) (sm_dofs_sub sub) (sm_dofs_parent sub) ->
      (forall c i c' i', (c < sm_cells sub)%nat -> (c' < sm_cells sub)%nat -> (i < length (sm_dofs_sub sub c))%nat -> (i' < length (sm_dofs_sub sub c'))%nat ->
         nth i (sm_x_dofmap sub c) 0%nat = nth i' (sm_x_dofmap sub c') 0%nat -> nth i (sm_dofs_sub sub c) 0%nat = nth i' (sm_dofs_sub sub c') 0%nat) ->
      (forall c i, (c < sm_cells sub)%nat -> (i < length (sm_dofs_sub sub c))%nat -> (nth i (sm_dofs_sub sub c) 0 < sm_dofs sub)%nat /\ (nth i (sm_x_dofmap sub c) 0 < N)%nat) ->
      (forall c, (c < sm_cells sub)%nat -> m_x_dofmap m c = sm_x_dofmap sub c) ->
      let mesh := at_geometry m (cp_geom (after g (before ++ CallDetection u :: after_it))) in
      forall c j k, (c < sm_cells sub)%nat -> (j < length (sm_dofs_sub sub c))%nat -> (k < 3)%nat ->
        node mesh c j k = nth (3 * nth (nth j (sm_x_dofmap sub c) 0) (sm_x_map sub) 0 + k)%nat (pd_x pd) 0 +
          (if (k <? pd_bs pd)%nat then nth (pd_bs pd * nth j (sm_dofs_parent sub (nth c (sm_parent_cells sub) 0%nat)) 0 + k)%nat u 0 else 0).
  Proof using HL.
    intros g u before post N Hb Lg Hpost HC HX HB HE mesh c j k Hc Hj Hk.
    destruct (inv_after g (before ++ CallDetection u :: post)) as (_ & E & _). unfold history_of in E. rewrite fold_left_app in E. cbn [fold_left hist_step] in E. rewrite geometry_kept in E by exact Hpost. cbn [h_geom] in E.
    set (x0 := h_geom (fold_left (hist_step (mesh_move pd sub)) before (mkH g None))) in E.
    assert (L0 : length x0 = (3 * N)%nat).
    { unfold x0. clear - Lg. assert (K : forall (cs : list (@call (list R) (nat -> list Z))) h, length (h_geom h) = (3 * N)%nat -> length (h_geom (fold_left (hist_step (mesh_move pd sub)) cs h)) = (3 * N)%nat); [|now apply K].
      induction cs as [|c cs IH]; intros h H; [exact H|]. cbn [fold_left]. apply IH. destruct c as [d ga th|du|v|ga th|mm]; cbn [hist_step]; auto.
      - destruct (given (d_mu d) && given (d_lambda d)); exact H.
      - cbn [h_geom]. unfold mesh_move. now rewrite submesh_update_length. }
    unfold mesh. rewrite E. unfold node. cbn [at_geometry m_x m_x_dofmap]. rewrite (HE c Hc). unfold mesh_move.
    pose proof (C11_geometry_is_parent_plus_displacement Rplus 0 (pd_bs pd) (sm_cells sub) (sm_dofs sub) N (sm_parent_cells sub) (sm_x_map sub) (sm_dofs_sub sub) (sm_dofs_parent sub) (sm_x_dofmap sub) [] (pd_x pd) u x0 Hb L0 HC HX HB c j Hc Hj) as P.
    cbv zeta in P. rewrite (C11_geometry_history_independent Rplus 0 _ _ _ N _ _ _ _ _ [] (pd_x pd) u x0 x0 L0 L0) in P. destruct P as [P1 P2].
    destruct (Nat.ltb_spec k (pd_bs pd)) as [L|L]; [apply P1; exact L|apply P2; [exact L|exact Hk]].
  Qed.

  (** What is stored is what was packed from a search on the present geometry. *)
  Lemma stored_packed g calls i e q k d : let s := after g calls in cp_ready s = true -> (i < num_pairs)%nat -> (e < cp_local (pairs i))%nat -> (q < nq)%nat -> (k < gdim)%nat -> found (cp_geom s) i = Some d ->
    stored_gap_vector pd s i e q k = nth ((e * nq + q) * gdim + k) (contact_gap offsets (at_geometry m (cp_geom s)) (pairs i) d) 0 /\
    stored_normal pd s i e q k = - nth ((e * nq + q) * gdim + k) (pack_normals cmap point offsets (raytracing i) (at_geometry m (cp_geom s)) (pairs i) d) 0.
  Proof using HL Hdim Hnq Hlocal.
    intros s HR Hi He Hq Hk Ed. destruct (inv_after g calls) as (_ & EG & HB). fold s in EG, HB. destruct (h_latest (history_of (mesh_move pd sub) g calls)) as [[cur old]|] eqn:E; [|congruence].
    apply latest_current in E; [|cbn [h_latest]; discriminate]. fold (history_of (mesh_move pd sub) g calls) in E. rewrite <- EG in E. subst cur. destruct HB as [_ HB]. specialize (HB i e Hi ltac:(now rewrite <- Hlocal)). destruct HB as [HB _].
    specialize (HB (q * gdim + k)%nat (point_lt pd q k nq Hq Hk)). destruct HB as (B1 & B2 & _). unfold stored_gap_vector, stored_normal. rewrite B1, B2.
    assert (Edet : detect (cp_geom s) i = adj_data (det_map d)) by (unfold mesh_detect; now rewrite Ed).
    unfold mesh_gap, mesh_normals, mesh_held. rewrite Ed, Edet, same_offsets, detection_eta, Hdim, <- Hnq. pose proof (point_lt pd q k nq Hq Hk) as HP.
    rewrite !row_of_entry by assumption. replace (e * (nq * gdim) + (q * gdim + k))%nat with ((e * nq + q) * gdim + k)%nat by ring. split; reflexivity.
  Qed.

  (** With closest-point search the stored gap vector leads to the nearest point of the other surface; the stored normal is
      minus the outward unit normal there; and the stored gap is the height of the point above the plane of the facet found. *)
  Theorem C118_stored_gap_is_distance :
    forall (g : list R) (calls : list (@call (list R) (nat -> list Z))) (i : nat) (hulls : nat -> list (list R)) (Q C : list (nat * nat)),
    let s := after g calls in
    let mesh := at_geometry m (cp_geom s) in
    cp_ready s = true -> (i < num_pairs)%nat -> raytracing i = false -> ct <> OtherCell -> (forall f, offsets f = (f * nq)%nat) ->
    closest_setting mesh cmap (closest (cp_geom s)) gjk hulls (pairs i) Q C ->
    forall e q, (e < cp_local (pairs i))%nat -> (q < nq)%nat ->
      let own := sub_pair cmap (nth e Q (0, 0)%nat) in
      let x := geometry_map mesh (fst own) (point (offsets (snd own) + q)%nat) in
      let gap := stored_gap_vector pd s i e q in
      let n := stored_normal pd s i e q in
      exists c y, In c (map (sub_pair cmap) C) /\ in_hull (facet_points mesh (fst c) (snd c)) y /\ (forall k, (k < gdim)%nat -> x k + gap k = nth k y 0) /\
        (forall c' z, In c' (map (sub_pair cmap) C) -> in_hull (facet_points mesh (fst c') (snd c')) z -> rsum gdim (fun k => gap k * gap k) <= rsum gdim (fun k => (nth k z 0 - x k) * (nth k z 0 - x k))) /\
        outward_unit_normal mesh (geometry_jacobian mesh (fst c) (repeat 0 gdim)) (m_ref_normal m (snd c)) (fun k => - n k) /\
        (forall z, in_hull (facet_points mesh (fst c) (snd c)) z -> stored_gap pd s i e q = rsum gdim (fun k => (x k - nth k z 0) * - n k)) /\
        (inside_hull (facet_points mesh (fst c) (snd c)) y -> forall k, (k < gdim)%nat -> gap k = stored_gap pd s i e q * n k).
  Proof using HL Hdim Hnq Hlocal.
    intros g calls i hulls Q C s mesh HR Hi Hray Hct Hoff CS e q He Hq own x gp n.
    pose proof (cs_simplices _ _ _ _ _ _ _ _ CS) as LS. pose proof (cs_volume _ _ _ _ _ _ _ _ CS) as V. pose proof (cs_tables _ _ _ _ _ _ _ _ CS) as FT. pose proof (cs_reference _ _ _ _ _ _ _ _ CS) as RX. pose proof (cs_facets _ _ _ _ _ _ _ _ CS) as HF.
    pose proof (cs_quadrature _ _ _ _ _ _ _ _ CS) as EQ. pose proof (cs_local _ _ _ _ _ _ _ _ CS) as HQ.
    assert (Gd : m_gdim mesh = gdim) by exact Hdim.
    (* the search succeeds *)
    assert (Ed : exists d, found (cp_geom s) i = Some d /\ create_distance_map cmap point offsets (fun m => closest_point_map m m (closest (cp_geom s)) gjk point offsets) mesh (pairs i) (mkDetection (mkAdj [] []) [] []) = Some d).
    { unfold mesh_found. destruct (Nat.ltb_spec i num_pairs) as [_|]; [|lia]. cbn [negb]. unfold create_distance_map. fold mesh. rewrite Hray. unfold mesh_distance_map.
      assert (EM : forall A (a b : A), match ct with OtherCell => a | _ => b end = b) by (intros; destruct ct; congruence). rewrite EM.
      destruct (closest_point_map mesh mesh _ _ _ _ _ _) as [[mp ref]|] eqn:EC; [eexists; split; reflexivity|]. exfalso. revert EC. unfold closest_point_map.
      pose proof (vm_volume _ V) as ET. destruct (vm_dim _ V) as [E|E]; rewrite ET, E; cbn [Nat.eqb orb]; discriminate. }
    destruct Ed as (d & Ed & Edm).
    destruct (C77_gap_is_shortest cmap point offsets (closest (cp_geom s)) gjk hulls mesh (pairs i) (mkDetection (mkAdj [] []) [] []) d Q C LS FT EQ HQ (cs_candidate _ _ _ _ _ _ _ _ CS) (cs_some _ _ _ _ _ _ _ _ CS)
      ltac:(intros c0 Hc0; destruct (HF c0 Hc0) as (A1 & _ & A3 & A4); auto) (cs_gjk _ _ _ _ _ _ _ _ CS) (cs_closest _ _ _ _ _ _ _ _ CS) Edm e q He ltac:(now rewrite <- Hnq)) as (c & y & Hc & Em & Hy & Exy & Hmin).
    cbv zeta in Exy, Hmin. rewrite Gd in *. rewrite <- Hnq in Exy, Hmin. change (snd (nth e Q (0, 0)%nat)) with (snd own) in Exy, Hmin. fold own x in Exy, Hmin.
    assert (EP : forall k, (k < gdim)%nat -> gp k = nth ((e * nq + q) * gdim + k) (contact_gap offsets mesh (pairs i) d) 0) by (intros k Hk; apply (stored_packed g calls i e q k d); auto).
    assert (EN : forall k, (k < gdim)%nat -> n k = - nth ((e * nq + q) * gdim + k) (pack_normals cmap point offsets false mesh (pairs i) d) 0).
    { intros k Hk. destruct (stored_packed g calls i e q k d HR Hi He Hq Hk Ed) as [_ E]. rewrite Hray in E. exact E. }
    destruct (HF c Hc) as (SF & Hfc & NS & _).
    (* the normal *)
    assert (ON : outward_unit_normal mesh (geometry_jacobian mesh (fst c) (repeat 0 gdim)) (m_ref_normal m (snd c)) (fun k => - n k)).
    { destruct (C76_contact_normals cmap point offsets mesh (pairs i) d Q (ls_dims _ LS) (cs_normals _ _ _ _ _ _ _ _ CS) EQ HQ ltac:(intros f; rewrite <- Hnq; apply Hoff) e q He ltac:(now rewrite <- Hnq)) as (_ & HN & _).
      specialize (HN (fst c) (snd c) SF Em (straight_nonsingular mesh _ _ _ LS NS)). rewrite <- Hnq, Gd in HN.
      refine (straight_outward mesh _ _ _ _ _ LS (outward_ext mesh _ _ _ _ _ HN)). intros k Hk. rewrite Gd in Hk. rewrite EN by exact Hk. ring. }
    assert (Hfc' : (snd c <= m_gdim mesh)%nat) by (rewrite Gd; exact Hfc).
    assert (NS' : nonsingular mesh (geometry_jacobian mesh (fst c) (repeat 0 gdim))) by exact (straight_nonsingular mesh _ _ _ LS NS).
    assert (Exg : forall k, (k < gdim)%nat -> x k + gp k = nth k y 0) by (intros k Hk; rewrite EP by exact Hk; now apply Exy).
    assert (ES : rsum gdim (fun k => gp k * gp k) = rsum gdim (fun k => nth ((e * nq + q) * gdim + k) (contact_gap offsets mesh (pairs i) d) 0 * nth ((e * nq + q) * gdim + k) (contact_gap offsets mesh (pairs i) d) 0)) by (apply rsum_ext; intros k Hk; now rewrite EP).
    exists c, y. split; [exact Hc|]. split; [exact Hy|]. split; [exact Exg|]. split; [intros c' z Hc' Hz; rewrite ES; now apply (Hmin c')|]. split; [exact ON|].
    assert (EG : stored_gap pd s i e q = rsum gdim (fun k => gp k * n k)) by reflexivity. split.
    - intros z Hz. pose proof (facet_height mesh LS V RX (fst c) (snd c) (repeat 0 gdim) (fun k => - n k) Hfc' ON y z Hy Hz) as H. rewrite Gd in H. rewrite EG.
      rewrite (rsum_ext gdim (fun k => gp k * n k) (fun k => (x k - nth k z 0) * - n k + ((- n k) * nth k z 0 - (- n k) * nth k y 0))) by (intros k Hk; rewrite <- (Exg k Hk); ring). rewrite rsum_plus, rsum_minus, H. ring.
    - intros Hin k Hk. pose proof (nearest_inside mesh LS V RX (fst c) (snd c) (repeat 0 gdim) (fun k => - n k) Hfc' ON NS' x y Hin) as H. rewrite Gd in H.
      assert (EY : forall k, (k < gdim)%nat -> nth k y 0 - x k = gp k) by (intros k' Hk'; rewrite <- (Exg k' Hk'); ring).
      rewrite <- (EY k Hk). rewrite H; [|intros z Hz; rewrite (rsum_ext gdim (fun k => (nth k y 0 - x k) * (nth k y 0 - x k)) (fun k => gp k * gp k)) by (intros k' Hk'; now rewrite EY); rewrite ES; now apply (Hmin c)|exact Hk].
      rewrite EG. rewrite (rsum_ext gdim (fun k => - n k * (nth k y 0 - x k)) (fun k => -1 * (gp k * n k))) by (intros k' Hk'; rewrite EY by exact Hk'; ring). rewrite rsum_scal. ring.
  Qed.

  (** With ray tracing the stored normal is the outward unit normal of the displaced facet at the point.  The stored gap vector leads
      along it to a facet of the other surface (off the line by at most the tolerance times the facet's size, so that it is
      the stored gap times the normal up to that); or to the closest facet, if only rays of other points of the facet met something; or is zero, if none did. *)
  Theorem C118_stored_gap_of_ray :
    forall (g : list R) (calls : list (@call (list R) (nat -> list Z))) (i : nat) (Q C : list (nat * nat)),
    let s := after g calls in
    let mesh := at_geometry m (cp_geom s) in
    cp_ready s = true -> (i < num_pairs)%nat -> raytracing i = true -> found (cp_geom s) i <> None -> (forall f, offsets f = (f * nq)%nat) ->
    cp_quadrature (pairs i) = flat2 Q -> cp_candidate (pairs i) = flat2 C -> (cp_local (pairs i) <= length Q)%nat ->
    volume_mesh mesh -> search_facets mesh (map (sub_pair cmap) Q) -> search_facets mesh (map (sub_pair cmap) C) -> (forall f, nonzero m (m_ref_normal m f)) ->
    (forall facets x, facets <> [] -> length x = 3%nat -> In (closest (cp_geom s) facets x) facets) ->
    forall e q, (e < cp_local (pairs i))%nat -> (q < nq)%nat ->
      let own := sub_pair cmap (nth e Q (0, 0)%nat) in
      let x := point_at mesh point offsets own in
      let n q := map (stored_normal pd s i e q) (seq 0 gdim) in
      let gap := stored_gap_vector pd s i e q in
      let near c := In c (map (sub_pair cmap) C) /\ (search_radius < 0 \/ midpoints_apart mesh vertices own c < 2 * search_radius) in
      let hit q := meets mesh ct vertex facet_jac search_radius (x q) (n q) in
      outward_unit_normal mesh (geometry_jacobian mesh (fst own) (point (offsets (snd own) + q)%nat)) (m_ref_normal m (snd own)) (stored_normal pd s i e q) /\
      (((forall k, (k < gdim)%nat -> gap k = 0) /\ forall q' c r, (q' < nq)%nat -> near c -> ~ hit q' c r) \/
       exists c X, near c /\ (forall k, (k < gdim)%nat -> nth k (x q) 0 + gap k = geometry_map mesh (fst c) X k) /\
         ((exists r, hit q c r /\ X = rs_X r /\ X = reference_map gdim (vertex (snd c)) (rs_xi r) /\ in_reference_facet ct (1 / 10 ^ 8) (rs_xi r) /\ (0 < search_radius -> rsum gdim (fun k => gap k * gap k) <= search_radius) /\
             (let off k := gap k - stored_gap pd s i e q * stored_normal pd s i e q k in
              let side j l := rsum gdim (fun k => geometry_jacobian mesh (fst c) X l k * facet_jac (snd c) k j) in
              rsum gdim (fun k => off k * off k) <= (1 / 10 ^ 8) * (1 / 10 ^ 8) * rsum (gdim - 1) (fun j => rsum gdim (fun l => side j l * side j l))) /\
             forall c' r', near c' -> hit q c' r' -> midpoints_apart mesh vertices own c <= midpoints_apart mesh vertices own c') \/
          ((forall c' r, near c' -> ~ hit q c' r) /\ exists q' c' r, (q' < nq)%nat /\ near c' /\ hit q' c' r))).
  Proof using HL Hdim Hnq Hlocal.
    intros g calls i Q C s mesh HR Hi Hray Hfnd Hoff EQ EC HQ V SQ SC NZ Hcl e q He Hq own x n gp near hit.
    destruct (found (cp_geom s) i) as [d|] eqn:Ed; [|congruence]. clear Hfnd. assert (Gd : m_gdim mesh = gdim) by exact Hdim. assert (Td : m_tdim mesh = gdim) by (rewrite (vm_volume _ V); exact Gd).
    assert (EN : forall q, (q < nq)%nat -> n q = normal_at mesh point offsets own q).
    { intros q' Hq'. unfold n, normal_at. rewrite Gd. apply map_ext_in. intros k Hk. apply in_seq in Hk. destruct Hk as [_ Hk]. cbn [Nat.add] in Hk.
      destruct (stored_packed g calls i e q' k d HR Hi He Hq' Hk Ed) as [_ E]. fold s in E. rewrite E, Hray. fold mesh. unfold pack_normals. rewrite (quadrature_tuples_flat cmap (pairs i) Q EQ). set (Q' := map (sub_pair cmap) (firstn (cp_local (pairs i)) Q)).
      assert (LQ : length Q' = cp_local (pairs i)) by (unfold Q'; rewrite map_length, firstn_length; clear - HQ; lia).
      assert (Ei : nth e Q' (0, 0)%nat = own) by (unfold Q'; rewrite (nth_map_lt _ _ e (0, 0)%nat (0, 0)%nat) by (rewrite firstn_length; clear - HQ He; lia); now rewrite nth_firstn by exact He).
      rewrite <- Gd, Hnq, <- LQ. rewrite Hnq in Hq'. rewrite <- Gd in Hk. rewrite <- LQ in He.
      rewrite (nth_map_lt Ropp _ _ 0 0) by (rewrite pack_nx_length; apply points_lt; assumption). rewrite pack_nx_entry by assumption. rewrite Ei, Ropp_involutive. unfold facet_normal. rewrite Hoff, Hnq. reflexivity. }
    assert (E : create_distance_map cmap point offsets (fun m Q C => mesh_distance_map true m m ct vertex facet_jac vertices vertices (closest (cp_geom s)) gjk point offsets search_radius Q C) mesh (pairs i) (mkDetection (mkAdj [] []) [] []) = Some d).
    { unfold mesh_found in Ed. rewrite Hray in Ed. destruct (negb (i <? num_pairs)%nat); [discriminate|exact Ed]. }
    pose proof (C116_ray_gap mesh ct vertex facet_jac vertices (closest (cp_geom s)) gjk cmap point offsets search_radius (pairs i) Q C _ d EQ EC HQ ltac:(intros f; rewrite <- Hnq; apply Hoff) V SQ SC NZ Hcl E e q He ltac:(now rewrite <- Hnq)) as P.
    cbv zeta in P. rewrite <- Hnq, Gd, Td in P. fold own near in P. fold x in P.
    assert (EP : forall k, (k < gdim)%nat -> gp k = nth ((e * nq + q) * gdim + k) (contact_gap offsets mesh (pairs i) d) 0) by (intros k Hk; apply (stored_packed g calls i e q k d); auto).
    assert (Hhit : forall q' c r, (q' < nq)%nat -> hit q' c r <-> meets mesh ct vertex facet_jac search_radius (x q') (normal_at mesh point offsets own q') c r) by (intros q' c r Hq'; unfold hit; rewrite (EN q' Hq'); reflexivity). clearbody hit.
    assert (Nk : forall k, (k < gdim)%nat -> nth k (normal_at mesh point offsets own q) 0 = stored_normal pd s i e q k).
    { intros k Hk. rewrite <- (EN q Hq). unfold n. rewrite (nth_map_lt _ _ k 0 0%nat) by (now rewrite seq_length). now rewrite seq_nth. }
    split.
    { assert (NS : nonsingular mesh (geometry_jacobian mesh (fst own) (point (offsets (snd own) + q)%nat))).
      { apply (se_regular _ _ SQ). unfold own. apply in_map. apply nth_In. clear - He HQ. lia. }
      refine (outward_ext mesh _ _ _ _ _ (normal_outward mesh (fst own) (point (offsets (snd own) + q)%nat) (m_ref_normal m (snd own)) (volume_dimensions mesh V) NS (NZ (snd own)))).
      intros k Hk. rewrite Gd in Hk. rewrite <- (Nk k Hk). unfold normal_at. rewrite (nth_map_lt _ _ k 0 0%nat) by (now rewrite seq_length, Gd). rewrite seq_nth by (now rewrite Gd). reflexivity. }
    destruct P as [(_ & P0 & PN)|(c & Hc & _ & Pg & PH)].
    - left. split; [intros k Hk; rewrite EP by exact Hk; now apply P0|]. intros q' c r Hq' Hc Hh. exact (PN q' c r Hq' Hc (proj1 (Hhit q' c r Hq') Hh)).
    - right. exists c, (contact_point mesh (det_ref d) (e * nq + q)). split; [exact Hc|]. split; [intros k Hk; rewrite EP, Pg by exact Hk; ring|]. destruct PH as [(r & H1 & H2 & H3 & H4 & _ & _ & H7 & H8 & H9)|(H1 & q' & c' & r & H2 & H3 & H4)].
      + left. exists r. split; [exact (proj2 (Hhit q c r Hq) H1)|]. split; [exact H2|]. split; [exact H3|]. split; [exact H4|].
        split; [intros Hr; specialize (H7 Hr); eapply Rle_trans; [|exact H7]; right; apply rsum_ext; intros k Hk; now rewrite EP|]. split; [|intros c' r' Hc' Hh; exact (H9 c' r' Hc' (proj1 (Hhit q c' r' Hq) Hh))].
        cbv zeta. eapply Rle_trans; [|exact H8]. right. apply rsum_ext. intros k Hk. rewrite EP, (Nk k Hk) by exact Hk.
        assert (ES : stored_gap pd s i e q = rsum gdim (fun k => nth ((e * nq + q) * gdim + k) (contact_gap offsets mesh (pairs i) d) 0 * nth k (normal_at mesh point offsets own q) 0)); [|rewrite ES; reflexivity].
        change (stored_gap pd s i e q) with (rsum gdim (fun k => gp k * stored_normal pd s i e q k)). apply rsum_ext. intros j Hj. now rewrite EP, Nk by exact Hj.
      + right. split; [intros c'' r' Hc'' Hh; exact (H1 c'' r' Hc'' (proj1 (Hhit q c'' r' Hq) Hh))|]. exists q', c', r. split; [exact H2|]. split; [exact H3|]. exact (proj2 (Hhit q' c' r H2) H4).
  Qed.
End MeshGap.
Print Assumptions C118_positions.
Print Assumptions C118_stored_gap_is_distance.
Print Assumptions C118_stored_gap_of_ray.
