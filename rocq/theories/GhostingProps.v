(** Properties C03-C07: parallel ghosting of contact meshes. *)
From Coq Require Import List Arith ZArith QArith Lia Lqa Bool Permutation Sorted.
Import ListNotations.
From Verif Require Import Prelude PreludeLemmas PointCloudModel PointCloudSpec PointCloudProofs PointCloudProps
  GhostingModel LexMatchProofs GhostingProofs.
Local Open Scope nat_scope.

(** ** Specification vocabulary *)

(** Number of facets on rank [p]. *)
Definition nfacets (mids : list (list pt)) (p : nat) : nat := length (nth p mids []).
(** Global number of facet [j] of rank [p] in rank order. *)
Definition gidx (mids : list (list pt)) (p j : nat) : nat :=
  list_sum (map (@length pt) (firstn p mids)) + j.

Lemma gidx_start mids p j : gidx mids p j = start mids p + j.
Proof.
  unfold gidx, start. rewrite length_concat. f_equal.
Qed.

Lemma gidx_bound mids p j : p < length mids -> j < nfacets mids p -> gidx mids p j < length (concat mids).
Proof.
  intros Hp Hj. rewrite gidx_start. pose proof (start_S mids p Hp).
  pose proof (start_mono mids (S p) (length mids) ltac:(lia) ltac:(lia)).
  rewrite start_last in H0. unfold nfacets in Hj. lia.
Qed.

(** C03.  The destinations of facet [j] of rank [p] are exactly the other ranks
    owning a neighbour of it, strictly increasing; for any distribution of
    facets. *)
Theorem C03_ghost_destinations_exact :
  forall (mids : list (list pt)) (x_near : adj nat) (p j : nat),
    p < length mids -> j < nfacets mids p ->
    (forall n, In n (links x_near (gidx mids p j)) -> n < length (concat mids)) ->
    let dests := links (ghost_destinations mids x_near p) j in
    StronglySorted lt dests /\
    forall q, In q dests <->
      q < length mids /\ q <> p /\
      exists k, k < nfacets mids q /\ In (gidx mids q k) (links x_near (gidx mids p j)).
Proof.
  intros mids x_near p j Hp Hj Hval dests. unfold dests.
  rewrite ghost_links by auto. rewrite gidx_start in *.
  destruct (facet_procs_spec mids x_near p (start mids p + j)) as [HS HI].
  split; auto. intros q. rewrite HI. split.
  - intros (Hne & n & Hn & E). destruct (owner_exists mids n (Hval n Hn)) as (q' & Hq' & Hr).
    rewrite (owner_spec mids n q' Hq' Hr) in E. subst q'. split; auto. split; auto.
    rewrite start_S in Hr by auto.
    exists (n - start mids q). split; [unfold nfacets; lia|].
    rewrite gidx_start. replace (start mids q + (n - start mids q)) with n by lia. auto.
  - intros (Hq & Hne & k & Hk & Hin). split; auto. exists (gidx mids q k). split; auto.
    apply owner_spec; auto. rewrite gidx_start, start_S by auto. unfold nfacets in Hk. lia.
Qed.
Print Assumptions C03_ghost_destinations_exact.

Lemma nth_concat_gidx mids q k : q < length mids -> k < nfacets mids q ->
  nth (gidx mids q k) (concat mids) pt0 = nth k (nth q mids []) pt0.
Proof.
  intros Hq Hk. rewrite gidx_start. unfold start. rewrite <- psums_concat_nth by lia.
  rewrite <- (nth_slice (concat mids) _ (length (nth q mids [])) k) by auto.
  rewrite concat_slice by auto. reflexivity.
Qed.

(** C03, geometric form (partial).  With the neighbour relation computed by the
    point-cloud search with radius [R], rank [q] is a destination exactly when it
    owns a facet whose midpoint is within [R], apart from the one facet that is
    first in the sorted order.  Missing: that facet. *)
Theorem C03_ghost_destinations_geometric_partial :
  forall (mids : list (list pt)) (R : Q) (order : list nat) (p j q : nat),
    (0 <= R)%Q -> sort_result (concat mids) order ->
    p < length mids -> j < nfacets mids p ->
    (In q (links (ghost_destinations mids (point_cloud_pairs (concat mids) R order) p) j) <->
     q < length mids /\ q <> p /\
     exists k, k < nfacets mids q /\
       (dist2 (nth j (nth p mids []) pt0) (nth k (nth q mids []) pt0) < R * R)%Q /\
       gidx mids q k <> nth 0 order 0).
Proof.
  intros mids R order p j q HR Hs Hp Hj.
  pose proof (gidx_bound mids p j Hp Hj) as Hb.
  destruct (C03_ghost_destinations_exact mids (point_cloud_pairs (concat mids) R order) p j Hp Hj) as [_ HI].
  { intros n Hn. eapply C01_point_cloud_sound in Hn; eauto. tauto. }
  rewrite HI. split.
  - intros (Hq & Hne & k & Hk & Hin). split; auto. split; auto. exists k. split; auto.
    apply C02_point_cloud_complete_partial in Hin; auto. destruct Hin as (_ & _ & Hw & H0).
    unfold within in Hw. rewrite !nth_concat_gidx in Hw by auto. auto.
  - intros (Hq & Hne & k & Hk & Hw & H0). split; auto. split; auto. exists k. split; auto.
    apply C02_point_cloud_complete_partial; auto.
    pose proof (gidx_bound mids q k Hq Hk). repeat split; auto.
    + intros E. apply Hne.
      rewrite <- (owner_spec mids (gidx mids q k) q Hq),
              <- (owner_spec mids (gidx mids p j) p Hp); [congruence| |];
        rewrite gidx_start, start_S by auto; unfold nfacets in *; lia.
    + unfold within. rewrite !nth_concat_gidx by auto. auto.
Qed.
Print Assumptions C03_ghost_destinations_geometric_partial.

(** The missing facet matters: two ranks with one facet each, one apart, radius
    two.  Rank 0 sends its cell to rank 1, but rank 1 sends nothing to rank 0. *)
Theorem C03_ghost_destinations_geometric_refuted :
  exists (mids : list (list pt)) (R : Q),
    (0 <= R)%Q /\ length mids = 2 /\ nfacets mids 0 = 1 /\ nfacets mids 1 = 1 /\
    (dist2 (nth 0 (nth 1 mids []) pt0) (nth 0 (nth 0 mids []) pt0) < R * R)%Q /\
    forall order, sort_result (concat mids) order ->
      links (ghost_destinations mids (point_cloud_pairs (concat mids) R order) 0) 0 = [1] /\
      links (ghost_destinations mids (point_cloud_pairs (concat mids) R order) 1) 0 = [].
Proof.
  exists [[(0, 0, 0)%Q]; [(1, 0, 0)%Q]], 2%Q.
  split; [lra|]. split; [reflexivity|]. split; [reflexivity|]. split; [reflexivity|].
  split; [unfold dist2; cbn; lra|].
  intros order Hs. cbn [concat app] in Hs.
  pose proof (two_points_order order Hs) as H0.
  set (mids := [[(0, 0, 0)%Q]; [(1, 0, 0)%Q]]) in *.
  assert (Hs' : sort_result (concat mids) order) by exact Hs.
  assert (HR : (0 <= 2)%Q) by lra.
  set (nb := point_cloud_pairs (concat mids) 2 order).
  assert (V : forall p, p < 2 -> forall n, In n (links nb (gidx mids p 0)) -> n < length (concat mids)).
  { intros p Hp n Hn. eapply C01_point_cloud_sound in Hn; eauto; [tauto|].
    apply gidx_bound; cbn; auto. unfold nfacets. destruct p as [|[|p]]; cbn; lia. }
  split.
  - destruct (C03_ghost_destinations_exact mids nb 0 0) as [HS HI]; [cbn; lia|cbn; lia|apply V; lia|].
    change (links (ghost_destinations mids nb 0) 0 = [1]).
    assert (H1 : In 1 (links (ghost_destinations mids nb 0) 0)).
    { apply (C03_ghost_destinations_geometric_partial mids 2 order 0 0 1); auto; try (cbn; lia).
      split; [cbn; lia|]. split; [lia|]. exists 0. split; [cbn; lia|].
      split; [unfold dist2; cbn; lra|]. rewrite H0. cbn. lia. }
    set (d := links (ghost_destinations mids nb 0) 0) in *. clearbody d.
    assert (Hall : forall q, In q d -> q = 1).
    { intros q Hq. apply HI in Hq. cbn in Hq. lia. }
    destruct d as [|a [|b d]]; [contradiction| |].
    + f_equal. apply Hall. left; auto.
    + exfalso. inversion HS as [|? ? _ Hf]; subst. inversion Hf as [|? ? Hlt _]; subst.
      rewrite (Hall a) in Hlt by (left; auto). rewrite (Hall b) in Hlt by (right; left; auto). lia.
  - change (links (ghost_destinations mids nb 1) 0 = []).
    destruct (links (ghost_destinations mids nb 1) 0) as [|a d] eqn:Ed; auto. exfalso.
    assert (Hin : In a (links (ghost_destinations mids nb 1) 0)) by (rewrite Ed; left; auto).
    apply (C03_ghost_destinations_geometric_partial mids 2 order 1 0 a) in Hin; auto; try (cbn; lia).
    destruct Hin as (Hq & Hne & k & Hk & _ & Hg).
    assert (a = 0) by (cbn in Hq; lia). subst a. cbn in Hk. assert (k = 0) by lia. subst k.
    rewrite H0 in Hg. apply Hg. reflexivity.
Qed.
Print Assumptions C03_ghost_destinations_geometric_refuted.

Example C03_example :
  let mids := [[(0,0,0)%Q; (5,0,0)%Q]; []; [(1,0,0)%Q; (6,0,0)%Q; (9,0,0)%Q]; [(2,0,0)%Q]] in
  let nb := point_cloud_pairs (concat mids) 2%Q (argsort_x (concat mids)) in
  map (fun p => map (links (ghost_destinations mids nb p)) (seq 0 (nfacets mids p))) (seq 0 4)
  = [[[2]; [2]]; []; [[3]; [0]; []]; [[2]]].
Proof. vm_compute. reflexivity. Qed.

(** ** C04: cells reach all ranks that need them *)

(** What create_contact_mesh hands to the mesh partitioner for a cell on rank
    [rank], from the marked facets [subset] with destinations [cd]. *)
Definition cell_destinations (rank ncells : nat) (fcell : nat -> nat) (subset : list nat)
    (cd : adj nat) (c : nat) : list nat :=
  links (partitioner rank ncells (cell_to_dests fcell subset cd)) c.

(** Partial: if no two marked facets share a cell, the cell of every marked
    facet is sent to its own rank first and then to exactly the destinations of
    the facet; cells without marked facet stay on their rank. *)
Theorem C04_cells_reach_destinations_partial :
  forall (rank ncells : nat) (fcell : nat -> nat) (subset : list nat) (cd : adj nat),
    (forall i j, i < length subset -> j < length subset ->
       fcell (nth i subset 0) = fcell (nth j subset 0) -> i = j) ->
    (forall i, i < length subset -> fcell (nth i subset 0) < ncells ->
       cell_destinations rank ncells fcell subset cd (fcell (nth i subset 0)) = rank :: links cd i) /\
    (forall c, c < ncells -> (forall i, i < length subset -> fcell (nth i subset 0) <> c) ->
       cell_destinations rank ncells fcell subset cd c = [rank]).
Proof.
  intros rank ncells fcell subset cd Hinj. split.
  - intros i Hi Hc. unfold cell_destinations. rewrite partitioner_links by auto.
    destruct (cell_to_dests_spec fcell subset cd (fcell (nth i subset 0))) as [H1 _].
    rewrite (H1 i); auto. intros j Hij Hj E. apply Hinj in E; auto. lia.
  - intros c Hc Hno. unfold cell_destinations. rewrite partitioner_links by auto.
    destruct (cell_to_dests_spec fcell subset cd c) as [_ H2]. rewrite H2; auto.
Qed.
Print Assumptions C04_cells_reach_destinations_partial.

(** In general the cell only gets the destinations of the last of its marked
    facets. *)
Theorem C04_cell_gets_last_facet :
  forall (rank ncells : nat) (fcell : nat -> nat) (subset : list nat) (cd : adj nat) (i : nat),
    i < length subset -> fcell (nth i subset 0) < ncells ->
    (forall j, i < j -> j < length subset -> fcell (nth j subset 0) <> fcell (nth i subset 0)) ->
    cell_destinations rank ncells fcell subset cd (fcell (nth i subset 0)) = rank :: links cd i.
Proof.
  intros rank ncells fcell subset cd i Hi Hc Hl. unfold cell_destinations.
  rewrite partitioner_links by auto.
  destruct (cell_to_dests_spec fcell subset cd (fcell (nth i subset 0))) as [H1 _]. rewrite (H1 i); auto.
Qed.
Print Assumptions C04_cell_gets_last_facet.

(** Refutation: a corner cell with two marked facets, the first needed on rank
    1, the second nowhere else: the cell is not sent to rank 1. *)
Theorem C04_cells_reach_destinations_refuted :
  exists (rank ncells : nat) (fcell : nat -> nat) (subset : list nat) (cd : adj nat) (i q : nat),
    i < length subset /\ fcell (nth i subset 0) < ncells /\ In q (links cd i) /\
    ~ In q (cell_destinations rank ncells fcell subset cd (fcell (nth i subset 0))).
Proof.
  exists 0, 1, (fun _ => 0), [3; 4], (mkAdj [1] [0; 1; 1]), 0, 1.
  cbn. repeat split; try lia; auto.
Qed.
Print Assumptions C04_cells_reach_destinations_refuted.

(** End to end (partial): facets [j] of rank [p] and [k] of rank [q <> p] with
    midpoints within [R]: the cell of facet [j] is sent to rank [q], provided
    its cell has no other marked facet and facet [k] is not first in the sorted
    order. *)
Theorem C04_end_to_end_partial :
  forall (mids : list (list pt)) (R : Q) (order : list nat) (p j q k ncells : nat)
         (fcell : nat -> nat) (subset : list nat),
    (0 <= R)%Q -> sort_result (concat mids) order ->
    p < length mids -> q < length mids -> p <> q ->
    length subset = nfacets mids p -> j < nfacets mids p -> k < nfacets mids q ->
    (forall i, i < length subset -> i <> j -> fcell (nth i subset 0) <> fcell (nth j subset 0)) ->
    fcell (nth j subset 0) < ncells ->
    (dist2 (nth j (nth p mids []) pt0) (nth k (nth q mids []) pt0) < R * R)%Q ->
    gidx mids q k <> nth 0 order 0 ->
    In q (cell_destinations p ncells fcell subset
            (ghost_destinations mids (point_cloud_pairs (concat mids) R order) p)
            (fcell (nth j subset 0))).
Proof.
  intros mids R order p j q k ncells fcell subset HR Hs Hp Hq Hpq Hl Hj Hk Hu Hc Hd Hg.
  rewrite C04_cell_gets_last_facet; try lia.
  - right. apply C03_ghost_destinations_geometric_partial; auto. split; auto. split; [auto|].
    exists k. auto.
  - intros i Hij Hi. apply Hu; lia.
Qed.
Print Assumptions C04_end_to_end_partial.

Example C04_example :
  map (cell_destinations 2 4 (fun f => f - 10) [11; 13] (mkAdj [0; 1; 3] [0; 2; 3])) (seq 0 4)
  = [[2]; [2; 0; 1]; [2]; [2; 3]].
Proof. vm_compute. reflexivity. Qed.

(** ** C05: markers survive *)

(** lex_match is the join of local entities and incoming markers on the vertex
    key: the result lists entities in increasing order, one value each; an entity
    is listed iff its key is among the incoming keys, and its value is carried by
    such a key. *)
Theorem C05_lex_match_join :
  forall (dim : nat) (local_indices in_indices in_values : list Z) (p_local p_in : list nat),
    let nL := length local_indices / dim in
    let nI := length in_indices / dim in
    let lk := fun a => slice local_indices (dim * a) dim in
    let ik := fun a => slice in_indices (dim * a) dim in
    lex_sort_result nL lk p_local -> lex_sort_result nI ik p_in ->
    (forall a b, a < nL -> b < nL -> lk a = lk b -> a = b) ->
    let r := lex_match dim local_indices in_indices in_values p_local p_in in
    length (fst r) = length (snd r) /\
    StronglySorted lt (fst r) /\
    (forall e, In e (fst r) <-> e < nL /\ exists k, k < nI /\ ik k = lk e) /\
    (forall e v, In (e, v) (combine (fst r) (snd r)) ->
       exists k, k < nI /\ ik k = lk e /\ v = nth k in_values 0%Z).
Proof.
  intros dim li ii iv pl pi nL nI lk ik HL HI HD r.
  destruct (lex_match_spec dim li ii iv pl pi HL HI HD) as (R1 & R2 & R3 & R4).
  fold r in R1, R2, R3, R4.
  split; [auto|]. split; [auto|]. split.
  - intros e. split.
    + intros He. apply (In_nth _ _ 0) in He. destruct He as (n & Hn & E).
      assert (Hc : In (e, nth n (snd r) 0%Z) (combine (fst r) (snd r))).
      { rewrite <- E, <- combine_nth by auto. apply nth_In. rewrite combine_length. lia. }
      apply R3 in Hc. destruct Hc as (He' & k & Hk & Ek & _). split; auto. exists k. auto.
    + intros (He & k & Hk & Ek). eapply R4; eauto.
  - intros e v H. apply R3 in H. tauto.
Qed.
Print Assumptions C05_lex_match_join.

(** The markers handed to the new mesh on one rank: markers of all ranks, given
    as (global vertices, value), are gathered with copy_to_all and matched with
    the entities [ents] of the new mesh (vertex lists in the original
    numbering).  cpp/parallel_mesh_ghosting.cpp:114-153 and 223-250. *)
Definition transferred_markers (nv : nat) (markers : list (list (list Z * Z)))
    (ents : list (list Z)) (p_local p_in : list nat) : list nat * list Z :=
  let all := copy_to_all nv (map (fun m => entity_keys nv (map fst m)) markers)
                            (map (map snd) markers) in
  lex_match nv (entity_keys nv ents) (fst all) (snd all) p_local p_in.

Lemma concat_map_map {A B} (f : A -> B) (l : list (list A)) : concat (map (map f) l) = map f (concat l).
Proof. symmetry. apply concat_map. Qed.

(** Where the incoming data sits: the flat arrays are the keys and values of
    the concatenated marker list. *)
Lemma gathered_markers nv markers :
  0 < nv -> (forall m vs v, In m markers -> In (vs, v) m -> length vs = nv) ->
  copy_to_all nv (map (fun m => entity_keys nv (map fst m)) markers) (map (map snd) markers)
  = (concat (map (isort zleb) (map fst (concat markers))), map snd (concat markers)).
Proof.
  intros Hnv Hl.
  assert (HK : forall m, In m markers -> entity_keys nv (map fst m) = concat (map (isort zleb) (map fst m))).
  { intros m Hm. apply entity_keys_spec; auto. intros e He. apply in_map_iff in He.
    destruct He as ([vs v] & <- & Hin). cbn. eapply Hl; eauto. }
  rewrite (map_ext_in _ (fun m => concat (map (isort zleb) (map fst m)))) by auto.
  rewrite copy_to_all_spec; auto.
  - f_equal.
    + clear. induction markers as [|m ms IH]; cbn; auto. rewrite IH, !map_app, concat_app. reflexivity.
    + apply concat_map_map.
  - now rewrite !map_length.
  - intros i Hi. rewrite map_length in Hi.
    rewrite (nth_map_lt _ markers i [] []) by auto.
    rewrite (nth_map_lt (map snd) markers i [] []) by auto.
    set (m := nth i markers []).
    rewrite (concat_length_const nv), !map_length; [lia|].
    intros e He. rewrite map_map in He. apply in_map_iff in He. destruct He as ([vs v] & <- & Hin).
    rewrite isort_length. cbn. apply (Hl m vs v); auto. apply nth_In; auto.
Qed.

(** An entity of the new mesh is marked with [v] exactly when some rank had a
    marker with value [v] on the entity with the same vertices. *)
Theorem C05_markers_survive :
  forall (nv : nat) (markers : list (list (list Z * Z))) (ents : list (list Z)) (p_local p_in : list nat),
    0 < nv ->
    (forall m vs v, In m markers -> In (vs, v) m -> length vs = nv) ->
    (forall e, In e ents -> length e = nv) ->
    (* different entities of the new mesh have different vertices *)
    (forall a b, a < length ents -> b < length ents -> Permutation (nth a ents []) (nth b ents []) -> a = b) ->
    (* ranks sharing an entity agree on its marker *)
    (forall vs v vs' v', In (vs, v) (concat markers) -> In (vs', v') (concat markers) -> Permutation vs vs' -> v = v') ->
    lex_sort_result (length ents) (fun a => isort zleb (nth a ents [])) p_local ->
    lex_sort_result (length (concat markers)) (fun a => isort zleb (fst (nth a (concat markers) ([], 0%Z)))) p_in ->
    let r := transferred_markers nv markers ents p_local p_in in
    StronglySorted lt (fst r) /\
    forall e v, In (e, v) (combine (fst r) (snd r)) <->
      e < length ents /\ exists vs, In (vs, v) (concat markers) /\ Permutation vs (nth e ents []).
Proof.
  intros nv markers ents pl pi Hnv Hm He Hdist Hcons HL HI r.
  unfold r, transferred_markers. rewrite gathered_markers by auto. cbn [fst snd].
  rewrite entity_keys_spec by auto.
  set (all := concat markers) in *.
  assert (Hlen1 : length (concat (map (isort zleb) ents)) / nv = length ents).
  { rewrite (concat_length_const nv), map_length, Nat.div_mul; auto; [lia|].
    intros x Hx. apply in_map_iff in Hx. destruct Hx as (y & <- & Hy). rewrite isort_length. auto. }
  assert (Hall : forall vs v, In (vs, v) all -> length vs = nv).
  { intros vs v Hin. unfold all in Hin. apply in_concat in Hin. destruct Hin as (m & Hmm & Hin). eapply Hm; eauto. }
  assert (Hlen2 : length (concat (map (isort zleb) (map fst all))) / nv = length all).
  { rewrite (concat_length_const nv), !map_length, Nat.div_mul; auto; [lia|].
    intros x Hx. apply in_map_iff in Hx. destruct Hx as (y & <- & Hy). rewrite isort_length.
    apply in_map_iff in Hy. destruct Hy as ([vs v] & <- & Hin). cbn. eauto. }
  assert (HlK : forall a, a < length ents ->
     slice (concat (map (isort zleb) ents)) (nv * a) nv = isort zleb (nth a ents [])).
  { intros a Ha. rewrite slice_concat_const.
    - rewrite (nth_indep _ [] (isort zleb [])) by (now rewrite map_length). apply map_nth.
    - intros x Hx. apply in_map_iff in Hx. destruct Hx as (y & <- & Hy). rewrite isort_length. auto.
    - now rewrite map_length. }
  assert (HiK : forall a, a < length all ->
     slice (concat (map (isort zleb) (map fst all))) (nv * a) nv = isort zleb (fst (nth a all ([], 0%Z)))).
  { intros a Ha. rewrite slice_concat_const.
    - rewrite (nth_indep _ [] (isort zleb [])) by (now rewrite !map_length). rewrite map_nth. f_equal.
      rewrite (nth_indep _ [] (fst (@nil Z, 0%Z))) by (now rewrite map_length). now rewrite map_nth.
    - intros x Hx. apply in_map_iff in Hx. destruct Hx as (y & <- & Hy). rewrite isort_length.
      apply in_map_iff in Hy. destruct Hy as ([vs v] & <- & Hin). cbn. eauto.
    - now rewrite !map_length. }
  assert (Hnthv : forall k, k < length all -> nth k (map snd all) 0%Z = snd (nth k all ([], 0%Z))).
  { intros k Hk. rewrite (nth_indep _ 0%Z (snd (@nil Z, 0%Z))) by (now rewrite map_length). apply map_nth. }
  destruct (C05_lex_match_join nv (concat (map (isort zleb) ents)) (concat (map (isort zleb) (map fst all)))
      (map snd all) pl pi) as (J1 & J2 & J3 & J4).
  - rewrite Hlen1. destruct HL as [HP HS]. split; auto. intros a b Hab Hb.
    destruct (perm_seq_facts _ _ HP) as (Ll & _ & Il).
    rewrite !HlK by (apply Il, nth_In; lia). apply HS; auto.
  - rewrite Hlen2. destruct HI as [HP HS]. split; auto. intros a b Hab Hb.
    destruct (perm_seq_facts _ _ HP) as (Ll & _ & Il).
    rewrite !HiK by (apply Il, nth_In; lia). apply HS; auto.
  - rewrite Hlen1. intros a b Ha Hb E. rewrite !HlK in E by auto. apply sort_key_eq in E. auto.
  - rewrite Hlen1, Hlen2 in *. set (rr := lex_match _ _ _ _ _ _) in *. split; [exact J2|].
    intros e v. split.
    + intros Hin. assert (Hel : In e (fst rr)) by (eapply in_combine_l; eauto).
      apply J3 in Hel. destruct Hel as [Hlt _]. split; auto.
      apply J4 in Hin. destruct Hin as (k & Hk & Ek & Ev). rewrite Hnthv in Ev by auto.
      rewrite HiK, HlK in Ek by auto. apply sort_key_eq in Ek.
      exists (fst (nth k all ([], 0%Z))). split; auto. rewrite Ev. rewrite <- surjective_pairing. apply nth_In; auto.
    + intros (Hlt & vs & Hin & HP).
      apply (In_nth _ _ ([], 0%Z)) in Hin. destruct Hin as (k & Hk & Ek).
      assert (Hel : In e (fst rr)).
      { apply J3. split; auto. exists k. split; auto. rewrite HiK, HlK by auto. rewrite Ek. cbn.
        apply sort_key_eq; auto. }
      apply (In_nth _ _ 0) in Hel. destruct Hel as (n & Hn & E).
      assert (Hc : In (e, nth n (snd rr) 0%Z) (combine (fst rr) (snd rr))).
      { rewrite <- E, <- combine_nth by auto. apply nth_In. rewrite combine_length. lia. }
      replace v with (nth n (snd rr) 0%Z); auto.
      apply J4 in Hc. destruct Hc as (k' & Hk' & Ek' & ->). rewrite Hnthv by auto.
      rewrite HiK, HlK in Ek' by auto. apply sort_key_eq in Ek'.
      apply (Hcons (fst (nth k' all ([], 0%Z))) _ vs v).
      * rewrite <- surjective_pairing. apply nth_In; auto.
      * rewrite <- Ek. apply nth_In; auto.
      * rewrite Ek'. symmetry. exact HP.
Qed.
Print Assumptions C05_markers_survive.

(** Two ranks sharing a marked edge; three local edges. *)
Example C05_example :
  let markers := [[([4; 1], 7); ([2; 3], 8)]; [([1; 4], 7); ([9; 5], 6)]]%Z in
  let ents := [[3; 2]; [4; 1]; [5; 4]]%Z in
  transferred_markers 2 markers ents
    (lex_argsort 2 (entity_keys 2 ents))
    (lex_argsort 2 (concat (map (isort zleb) (map fst (concat markers)))))
  = ([0; 1], [8; 7]%Z).
Proof. vm_compute. reflexivity. Qed.

(** ** C06: copy_to_all *)
Theorem C06_copy_to_all_lossless :
  forall (nv : nat) (indices values : list (list Z)),
    0 < nv -> length values = length indices ->
    (forall r, r < length indices -> length (nth r indices []) = nv * length (nth r values [])) ->
    copy_to_all nv indices values = (concat indices, concat values) /\
    (* entity k of rank r is found at one common position of both arrays *)
    (forall r k, r < length indices -> k < length (nth r values []) ->
       let pos := list_sum (map (@length Z) (firstn r values)) + k in
       slice (fst (copy_to_all nv indices values)) (nv * pos) nv = slice (nth r indices []) (nv * k) nv /\
       nth pos (snd (copy_to_all nv indices values)) 0%Z = nth k (nth r values []) 0%Z).
Proof.
  intros nv indices values Hnv Hlen Hsz. rewrite copy_to_all_spec by auto. split; auto. cbn [fst snd].
  intros r k Hr Hk. set (pos := list_sum (map (@length Z) (firstn r values)) + k).
  assert (E1 : list_sum (map (@length Z) (firstn r values)) = length (concat (firstn r values))).
  { rewrite length_concat. reflexivity. }
  assert (E2 : length (concat (firstn r indices)) = nv * length (concat (firstn r values))).
  { rewrite !length_concat.
    replace (map (@length Z) (firstn r indices)) with (map (fun n => nv * n) (map (@length Z) (firstn r values))).
    - apply sum_nat_scale.
    - apply (nth_ext' _ _ 0); [rewrite !map_length, !firstn_length; lia|].
      intros i Hi. rewrite !map_length, firstn_length in Hi.
      rewrite map_map.
      rewrite (nth_map_lt (fun x => nv * length x) _ i 0 []) by (rewrite firstn_length; lia).
      rewrite (nth_map_lt (@length Z) _ i 0 []) by (rewrite firstn_length; lia).
      rewrite !nth_firstn by lia. symmetry. apply Hsz. lia. }
  split.
  - unfold pos. rewrite E1.
    replace (nv * (length (concat (firstn r values)) + k)) with (length (concat (firstn r indices)) + nv * k) by lia.
    assert (Hin : nv * k + nv <= length (nth r indices [])) by (rewrite Hsz by auto; nia).
    assert (HC : concat indices = concat (firstn r indices) ++ nth r indices [] ++ concat (skipn (S r) indices)).
    { rewrite <- (firstn_skipn r indices) at 1. rewrite concat_app. f_equal.
      destruct (nth_split indices [] Hr) as (l1 & l2 & El & Hl1).
      set (x := nth r indices []) in *. rewrite El, !skipn_app, !skipn_all2 by lia.
      replace (r - length l1) with 0 by lia. replace (S r - length l1) with 1 by lia. rewrite (skipn_all2 l1 (n := S r)) by lia. reflexivity. }
    rewrite HC. unfold slice.
    rewrite skipn_app, skipn_all2 by lia. cbn [app].
    replace (length (concat (firstn r indices)) + nv * k - length (concat (firstn r indices))) with (nv * k) by lia.
    rewrite skipn_app, firstn_app, skipn_length.
    replace (nv - (length (nth r indices []) - nv * k)) with 0 by lia. cbn. apply app_nil_r.
  - unfold pos. rewrite E1. rewrite <- psums_concat_nth by lia.
    rewrite <- (nth_slice (concat values) _ (length (nth r values [])) k) by auto.
    rewrite concat_slice by lia. reflexivity.
Qed.
Print Assumptions C06_copy_to_all_lossless.

Example C06_example :
  copy_to_all 2 [[1; 2; 3; 4]; []; [5; 6]]%Z [[10; 20]; []; [30]]%Z = ([1; 2; 3; 4; 5; 6], [10; 20; 30])%Z.
Proof. vm_compute. reflexivity. Qed.

(** ** C07: reads of the size loop *)

(** On the root all reads of the loop computing the scatter sizes are inside the
    offsets array. *)
Theorem C07_scatter_sizes_in_bounds_partial :
  forall (mids : list (list pt)) (x_near : adj nat),
    exists ds, dsizes_on mids x_near 0 = Some ds /\ length ds = length mids.
Proof. exact dsizes_root. Qed.
Print Assumptions C07_scatter_sizes_in_bounds_partial.

(** On every other rank of every communicator the loop reads past the end. *)
Theorem C07_scatter_sizes_in_bounds_refuted :
  forall (mids : list (list pt)) (x_near : adj nat) (rank : nat),
    rank <> 0 -> rank < length mids -> dsizes_on mids x_near rank = None.
Proof. intros mids x_near rank Hr Hl. apply dsizes_other; auto. lia. Qed.
Print Assumptions C07_scatter_sizes_in_bounds_refuted.

Example C07_example : dsizes_on [[(0,0,0)%Q]; [(1,0,0)%Q]] (mkAdj [1] [0; 1; 1]) 0 = Some [3; 2]
  /\ dsizes_on [[(0,0,0)%Q]; [(1,0,0)%Q]] (mkAdj [1] [0; 1; 1]) 1 = None.
Proof. vm_compute. auto. Qed.
