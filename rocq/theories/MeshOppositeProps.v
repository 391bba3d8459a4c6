(** Property C118, continued: the displacement of the other surface that enters the contact
    forces is its value at the points found by the search. *)
From Coq Require Import List Arith ZArith Lia Bool Reals Lra.
Import ListNotations.
From Verif Require Import Prelude PreludeLemmas RSum RealLemmas EntitiesModel SubMeshModel SubMeshProofs SubMeshProps PackingProps PackUProps LayoutModel LayoutProps ContactProblemModel ContactProblemProps.
From Verif Require Import PackingModel RayModel KernelModel DistanceModel GapModel GapSpec DistanceProofs GapProps RaySearchModel CoefficientsModel TieSystemModel TieSystemProps AssemblyModel ContactSystemModel ContactSystemProps RigidBalanceProps
  MeshContactModel MeshContactProps MeshGapProps.
Local Open Scope R_scope.

(** Displacement of the other surface stored for component [a] at point [q] of facet [e]. *)
Definition stored_opposite {G : Type} (pd : pack_data) (s : @cp_state G (nat -> list Z)) (i e q a : nat) : R :=
  ContactProblemProps.entry s i e (column (pd_nq pd) (pd_functions pd) (pd_gdim pd) 6 (q * pd_gdim pd + a)).

Section MeshOpposite.
  Context (pd : pack_data) (num_pairs : nat) (surfaces : nat -> tie_pair) (num_rows : nat -> nat)
    (pack_param : nat -> list R -> list (list R)) (pack_h : nat -> list (list R)).
  Context (m : mesh_data) (sub : submesh_tables) (ct : cell_type) (vertex : nat -> nat -> nat -> R) (facet_jac : nat -> matrix) (vertices : nat -> list nat)
    (closest : list R -> list nat -> list R -> nat) (gjk : list (list R) -> list R -> list R)
    (cmap : adj nat) (point : nat -> list R) (offsets : nat -> nat) (raytracing : nat -> bool) (search_radius : R) (pairs : nat -> contact_pair) (table : list R -> nat -> R).
  Notation gdim := (pd_gdim pd).
  Notation nq := (pd_nq pd).
  Notation found := (mesh_found m ct vertex facet_jac vertices closest gjk cmap point offsets raytracing search_radius num_pairs pairs).
  Notation detect := (mesh_detect m ct vertex facet_jac vertices closest gjk cmap point offsets raytracing search_radius num_pairs pairs).
  Notation gap := (mesh_gap m ct vertex facet_jac vertices closest gjk cmap point offsets raytracing search_radius num_pairs pairs).
  Notation normals := (mesh_normals m ct vertex facet_jac vertices closest gjk cmap point offsets raytracing search_radius num_pairs pairs).
  Notation basis := (mesh_basis m ct vertex facet_jac vertices closest gjk cmap point offsets raytracing search_radius num_pairs pairs table).
  Notation after := (contact_after pd num_pairs surfaces basis num_rows (mesh_move pd sub) detect gap normals pack_param pack_h).
  Notation updated := (contact_updated pd num_pairs surfaces basis num_rows).
  Context (Hdim : m_gdim m = gdim) (Hbs : pd_bs pd = gdim) (Hnq : nq = num_q offsets) (Hlocal : forall i, cp_local (pairs i) = num_local surfaces i) (HL : forall i, (num_local surfaces i <= num_rows i)%nat).

  Lemma found_rows x i d Q : found x i = Some d -> cp_quadrature (pairs i) = flat2 Q -> (cp_local (pairs i) <= length Q)%nat ->
    forall e q dflt, (e < cp_local (pairs i))%nat -> (q < num_q offsets)%nat -> nth q (links (det_map d) e) dflt = nth (e * num_q offsets + q) (adj_data (det_map d)) dflt.
  Proof using.
    clear Hdim Hbs Hnq Hlocal HL. intros Ed EQ HQ e q dflt He Hq.
    assert (O' : forall j, (j <= cp_local (pairs i))%nat -> nth j (adj_off (det_map d)) 0%nat = (j * num_q offsets)%nat).
    { intros j Hj. unfold mesh_found in Ed. destruct (negb (i <? num_pairs)%nat); [discriminate|]. unfold create_distance_map, mesh_distance_map in Ed.
      rewrite (quadrature_tuples_flat cmap (pairs i) Q EQ) in Ed. set (Q' := map (sub_pair cmap) (firstn (cp_local (pairs i)) Q)) in *.
      assert (LQ : length Q' = cp_local (pairs i)) by (unfold Q'; rewrite map_length, firstn_length; lia).
      assert (K : exists f, (f = (fun i => (i * num_q offsets)%nat) \/ f = (fun i => (num_q offsets * i)%nat)) /\ adj_off (det_map d) = map f (seq 0 (length Q' + 1))).
      { assert (EM : match ct with OtherCell => True | _ => True end) by (destruct ct; exact I).
        destruct (raytracing i).
        - unfold mesh_raytracing_map in Ed. rewrite flat2_half in Ed. exists (fun i => (i * num_q offsets)%nat). split; [now left|].
          destruct ct; try discriminate; match type of Ed with context [if ?b then _ else _] => destruct b end; try discriminate; injection Ed as <-; reflexivity.
        - unfold closest_point_map in Ed. rewrite flat2_half in Ed. exists (fun i => (num_q offsets * i)%nat). split; [now right|].
          destruct ct; try discriminate; repeat match type of Ed with context [if ?b then _ else _] => destruct b end; try discriminate; injection Ed as <-; reflexivity. }
      destruct K as (f & Hf & ->). rewrite (nth_map_lt _ _ j 0%nat 0%nat) by (rewrite seq_length; lia). rewrite seq_nth by lia. destruct Hf as [-> | ->]; lia. }
    unfold links. rewrite !O' by lia. replace (S e * num_q offsets - e * num_q offsets)%nat with (num_q offsets) by nia. now rewrite nth_slice by exact Hq.
  Qed.

  (** At a point without a contact facet the stored value is zero.  Elsewhere the gap vector leads to a point [X] of the cell of the contact
      facet, and what is stored is the displacement there: of the same cell of the parent mesh, at the same [X], component by component. *)
  Theorem C118_stored_opposite :
    forall (g : list R) (calls : list (@call (list R) (nat -> list Z))) (i : nat) (Q : list (nat * nat)),
    let s := after g calls in
    let mesh := at_geometry m (cp_geom s) in
    let p := surfaces i in
    cp_ready s = true -> Forall no_crop calls -> (i < num_pairs)%nat -> found (cp_geom s) i <> None ->
    cp_quadrature (pairs i) = flat2 Q -> (cp_local (pairs i) <= length Q)%nat ->
    packing_setting (num_local surfaces i) nq (pd_functions pd) (pr_n_sub p) (pr_nds p) (a_facet_map (pr_asm p)) (a_parent (pr_asm p)) (pr_f_to_c p) (pr_dofs_sub p) (a_dofs (pr_asm p)) (cp_map s i) ->
    (forall f, In (Z.of_nat f) (cp_map s i) -> hd 0%nat (pr_f_to_c p f) = hd 0%nat (m_f_to_c m f)) ->
    forall e q, (e < cp_local (pairs i))%nat -> (q < nq)%nat ->
      let own := sub_pair cmap (nth e Q (0, 0)%nat) in
      let x := geometry_map mesh (fst own) (point (offsets (snd own) + q)%nat) in
      let facet := nth (e * nq + q) (cp_map s i) (-1)%Z in
      ((facet < 0)%Z -> forall u k, (k < gdim)%nat -> stored_opposite pd (updated u s) i e q k = 0) /\
      ((0 <= facet)%Z -> exists X,
         (forall k, (k < gdim)%nat -> x k + stored_gap_vector pd s i e q k = geometry_map mesh (hd 0%nat (m_f_to_c m (Z.to_nat facet))) X k) /\
         forall u k, (k < gdim)%nat -> stored_opposite pd (updated u s) i e q k =
           rsum (pd_functions pd) (fun j => table X j * nth (gdim * nth j (a_dofs (pr_asm p) (nth (hd 0%nat (m_f_to_c m (Z.to_nat facet))) (a_parent (pr_asm p)) 0%nat)) 0%nat + k) u 0)).
  Proof using HL Hdim Hbs Hnq Hlocal.
    intros g calls i Q s mesh p HR HC Hi Hfnd EQ HQ PS Hfc e q He Hq own x facet.
    destruct (found (cp_geom s) i) as [d|] eqn:Ed; [|congruence]. clear Hfnd.
    assert (Em : cp_map s i = adj_data (det_map d)).
    { unfold s. rewrite (map_detected pd num_pairs surfaces basis num_rows (mesh_move pd sub) detect gap normals pack_param pack_h g calls HC). fold s. unfold mesh_detect. now rewrite Ed. }
    assert (He' : (e < num_local surfaces i)%nat) by (now rewrite <- Hlocal).
    assert (EO : forall u k, (k < gdim)%nat -> stored_opposite pd (updated u s) i e q k = if (facet <? 0)%Z then 0 else fe_value (pd_bs pd) (pd_functions pd) (a_dofs (pr_asm p)) u (basis (cp_geom s) (cp_map s) i) (contact_cell (a_facet_map (pr_asm p)) (a_parent (pr_asm p)) facet) (e * nq + q) k).
    { intros u k Hk. unfold stored_opposite.
      destruct (C49_update_contact_data (mesh_move pd sub) detect gap normals (cp_pack_test pd surfaces basis) (cp_pack_u pd surfaces num_rows) (cp_pack_grad pd surfaces num_rows) (cp_pack_u_opp pd surfaces basis) pack_param pack_h
        num_pairs num_rows (num_local surfaces) nq (pd_functions pd) gdim s u ltac:(exists g, calls; reflexivity) HR) as (_ & _ & _ & _ & H).
      destruct (H i e Hi ltac:(specialize (HL i); lia)) as (_ & _ & H6 & _). change (update_data _ _ _ _ _ _ _ _ u s) with (updated u s) in H6.
      pose proof (idx2_lt q k nq gdim Hq Hk) as B. rewrite H6 by lia. destruct (Nat.ltb_spec e (num_local surfaces i)); [|lia].
      unfold cp_pack_u_opp. rewrite at2_rows_of; [|exact He'|unfold tie_opp; cbn [snd]; rewrite Hbs; lia].
      pose proof (C18_pack_u_contact _ nq _ (pd_bs pd) _ _ _ _ _ _ _ _ u (basis (cp_geom s) (cp_map s) i) PS e q k He' Hq ltac:(rewrite Hbs; exact Hk)) as P. cbv zeta in P. fold facet in P. rewrite <- P.
      unfold tie_opp. cbn [fst snd pair_at pr_asm with_map a_local a_parent a_dofs pr_n_sub pr_nds pr_f_to_c pr_dofs_sub pr_facets pr_basis]. fold p. rewrite Hbs.
      replace (e * (nq * gdim) + q * gdim + k)%nat with (e * (nq * gdim) + (q * gdim + k))%nat by lia. reflexivity. }
    split; intros Hf.
    - intros u k Hk. rewrite EO by exact Hk. now rewrite (proj2 (Z.ltb_lt _ _) Hf).
    - exists (contact_point m (det_ref d) (e * nq + q)). split.
      + intros k Hk. destruct (stored_packed pd num_pairs surfaces num_rows pack_param pack_h m sub ct vertex facet_jac vertices closest gjk cmap point offsets raytracing search_radius pairs table Hdim Hnq Hlocal HL g calls i e q k d HR Hi He Hq Hk Ed) as [EG _].
        fold s in EG. rewrite EG. clear EG. fold mesh.
        assert (E : create_distance_map cmap point offsets (fun m Q C => mesh_distance_map (raytracing i) m m ct vertex facet_jac vertices vertices (closest (cp_geom s)) gjk point offsets search_radius Q C) mesh (pairs i) (mkDetection (mkAdj [] []) [] []) = Some d).
        { unfold mesh_found in Ed. destruct (negb (i <? num_pairs)%nat); [discriminate|exact Ed]. }
        destruct (C74_gap cmap point offsets _ mesh (pairs i) _ d Q EQ HQ E) as [_ G]. specialize (G e q k He ltac:(now rewrite <- Hnq) ltac:(exact (eq_ind_r (fun d => (k < d)%nat) Hk Hdim))). cbv zeta in G. destruct G as [_ G].
        rewrite (found_rows _ _ _ _ Ed EQ HQ e q 0%Z He ltac:(now rewrite <- Hnq)), <- Em, <- Hnq in G.
        assert (Ef : nth (e * nq + q) (cp_map s i) 0%Z = facet) by (destruct PS as (LM & _); apply nth_indep; rewrite LM; nia). rewrite Ef in G. specialize (G Hf).
        change (m_gdim mesh) with (m_gdim m) in G. rewrite Hdim in G. exact G.
      + intros u k Hk. rewrite EO by exact Hk. destruct (Z.ltb_spec facet 0) as [L|_]; [lia|]. unfold fe_value, contact_cell.
        destruct PS as (LM & _ & _ & _ & _ & _ & HF). destruct (HF facet) as [E1 _]; [apply nth_In; rewrite LM; nia|exact Hf|]. rewrite Hfc in E1 by (rewrite Z2Nat.id by exact Hf; apply nth_In; rewrite LM; nia). rewrite <- E1.
        apply rsum_ext. intros j Hj. rewrite Rmult_comm. f_equal; [unfold mesh_basis; rewrite Ed; reflexivity|]. unfold dof_value. now rewrite Hbs.
  Qed.
End MeshOpposite.
Print Assumptions C118_stored_opposite.
