(** C97: a contact object keeps the data of every surface and pair. *)
From Coq Require Import List Arith ZArith Lia Bool Reals Lra.
Import ListNotations.
From Verif Require Import Prelude PreludeLemmas RSum SubMeshModel SubMeshProofs EntitiesModel EntitiesProofs DistanceModel DistanceProofs GapModel GapSpec GapProps ContactObjectModel.
Local Open Scope R_scope.

(** ** Specification *)
(** The contact facets on this process, by surface, as (cell, local facet). *)
Definition facet_lists := list (list (nat * nat)).
Definition adjacency (rows : facet_lists) : adj nat :=
  let flat := map flat2 rows in mkAdj (concat flat) (psums (map (@length nat) flat)).
(** Arguments a user may pass: pairs of existing surfaces, a search mode per pair. *)
Definition admissible (rows : facet_lists) (pairs : list (nat * nat)) (mode : list bool) : Prop :=
  (forall qc, In qc pairs -> (fst qc < length rows)%nat /\ (snd qc < length rows)%nat) /\ length mode = length pairs.
(** Number of contact facets on this process. *)
Definition total (rows : facet_lists) : nat := length (concat rows).
(** Facets of a surface on owned cells. *)
Definition owned (rows : facet_lists) (num_cells s : nat) : nat := count_local (flat2 (nth s rows [])) num_cells.

(** Last call that satisfies a condition. *)
Definition last_call (f : nat -> bool) (calls : list (nat * mesh_data)) : option (nat * mesh_data) :=
  fold_left (fun o c => if f (fst c) then Some c else o) calls None.

(** ** Lemmas *)
Lemma adjacency_data rows : length (adj_data (adjacency rows)) = (2 * total rows)%nat.
Proof.
  unfold adjacency, total. cbn [adj_data]. induction rows as [|r rows IH]; cbn [map concat]; [reflexivity|].
  rewrite !app_length, flat2_length, IH. lia.
Qed.
Lemma adjacency_nodes rows : num_nodes (adjacency rows) = length rows.
Proof. unfold num_nodes, adjacency. cbn [adj_off]. rewrite psums_length, !map_length. lia. Qed.
Lemma adjacency_links rows s : (s < length rows)%nat -> links (adjacency rows) s = flat2 (nth s rows []).
Proof.
  intros H. unfold adjacency. rewrite links_concat by (now rewrite map_length). now rewrite (nth_map_lt _ rows s [] []) by auto.
Qed.
Lemma at_lt {A} (l : list A) i d : (i < length l)%nat -> at_ l i = Done (nth i l d).
Proof. intros H. unfold at_. now rewrite (nth_error_nth' l d H). Qed.
Lemma at_ge {A} (l : list A) i : (length l <= i)%nat -> at_ l i = OutOfBounds.
Proof. intros H. unfold at_. now rewrite (proj2 (nth_error_None l i) H). Qed.

Section Object.
  Context (cmap : adj nat) (point : nat -> list R) (offsets : nat -> nat).
  Context (search : bool -> mesh_data -> list nat -> list nat -> option (adj Z * list R)).
  Context (rows : facet_lists) (pairs : list (nat * nat)) (mode : list bool) (num_cells : nat).
  Context (Adm : admissible rows pairs mode).
  Notation start := (construct (adjacency rows) pairs mode num_cells).
  Notation quad k := (fst (nth k pairs (0, 0)%nat)).
  Notation cand k := (snd (nth k pairs (0, 0)%nat)).
  Definition the_pair (k : nat) : contact_pair := mkContactPair (flat2 (nth (quad k) rows [])) (flat2 (nth (cand k) rows [])) (owned rows num_cells (quad k)).
  Definition found (k : nat) (m : mesh_data) : option (adj Z * list R) :=
    search (nth k mode false) m (quadrature_tuples cmap (the_pair k)) (get_submesh_tuples cmap (cp_candidate (the_pair k))).

  (** Sizes never change. *)
  Record kept (ob : contact_object) : Prop := {
    k_pairs : ob_pairs ob = pairs; k_surfaces : ob_surfaces ob = adjacency rows; k_mode : ob_mode ob = mode;
    k_local : ob_local ob = map (owned rows num_cells) (seq 0 (length rows));
    k_maps : length (ob_facet_maps ob) = length pairs; k_refs : length (ob_reference ob) = length pairs;
    k_qp : length (ob_qp ob) = (2 * total rows)%nat; k_links : length (ob_max_links ob) = length pairs }.

  Lemma kept_start : kept start.
  Proof.
    constructor; cbn [construct ob_pairs ob_facet_maps ob_reference ob_qp ob_max_links ob_surfaces ob_local ob_mode]; rewrite ?repeat_length; auto; [|apply adjacency_data].
    rewrite adjacency_nodes. apply map_ext_in. intros s Hs. apply in_seq in Hs. rewrite adjacency_links by lia. reflexivity.
  Qed.
  Lemma pair_in k : (k < length pairs)%nat -> (quad k < length rows)%nat /\ (cand k < length rows)%nat.
  Proof using Adm. intros H. apply Adm, nth_In, H. Qed.

  Lemma create_eq ob k m : kept ob -> (k < length pairs)%nat ->
    create_distance_map cmap point offsets search k m ob =
    match found k m with
    | None => Throws
    | Some (map, ref) =>
        if (quad k <? 2 * total rows)%nat
        then Done {| ob_pairs := ob_pairs ob; ob_facet_maps := upd (ob_facet_maps ob) k (Some map); ob_reference := upd (ob_reference ob) k ref;
                     ob_qp := upd (ob_qp ob) (quad k) (create_q_phys cmap point offsets m (the_pair k) (nth (quad k) (ob_qp ob) []));
                     ob_max_links := upd (ob_max_links ob) k (num_q offsets); ob_surfaces := ob_surfaces ob; ob_local := ob_local ob; ob_mode := ob_mode ob |}
        else OutOfBounds
    end.
  Proof using Adm.
    intros K Hk. destruct (pair_in k Hk) as [Hq Hc]. destruct Adm as [_ Lm].
    unfold create_distance_map, surface_links.
    rewrite (k_pairs _ K), (at_lt pairs k (0, 0)%nat Hk). cbn [and_then].
    rewrite (k_local _ K), (at_lt _ (quad k) 0%nat) by (rewrite map_length, seq_length; auto). cbn [and_then].
    rewrite (k_surfaces _ K), adjacency_nodes, (proj2 (Nat.ltb_lt _ _) Hq), (proj2 (Nat.ltb_lt _ _) Hc). cbn [and_then].
    rewrite !adjacency_links by auto. rewrite (k_mode _ K), (at_lt mode k false) by lia. cbn [and_then].
    rewrite (nth_map_lt _ (seq 0 (length rows)) (quad k) 0%nat 0%nat), seq_nth by (rewrite ?seq_length; auto). cbn [plus].
    fold (the_pair k). fold (found k m). destruct (found k m) as [[map ref]|]; [|reflexivity].
    rewrite (at_lt _ k None) by (now rewrite (k_maps _ K)). rewrite (at_lt _ k []) by (now rewrite (k_refs _ K)). cbn [and_then].
    destruct (Nat.ltb_spec (quad k) (2 * total rows)) as [L|L].
    - rewrite (at_lt _ (quad k) []) by (now rewrite (k_qp _ K)). cbn [and_then]. rewrite (at_lt _ k 0%nat) by (now rewrite (k_links _ K)). reflexivity.
    - rewrite (at_ge (ob_qp ob)) by (now rewrite (k_qp _ K)). reflexivity.
  Qed.
  Lemma create_kept ob k m ob' : kept ob -> (k < length pairs)%nat -> create_distance_map cmap point offsets search k m ob = Done ob' -> kept ob'.
  Proof using Adm.
    intros K Hk. rewrite create_eq by auto. destruct (found k m) as [[map ref]|]; [|discriminate].
    destruct (_ <? _)%nat; [|discriminate]. intros E. injection E as <-. constructor; cbn [ob_pairs ob_facet_maps ob_reference ob_qp ob_max_links ob_surfaces ob_local ob_mode]; rewrite ?upd_length; apply K.
  Qed.
  Definition legal (calls : list (nat * mesh_data)) : Prop := forall c, In c calls -> (fst c < length pairs)%nat.
  Lemma detect_kept calls ob ob' : kept ob -> legal calls -> detect cmap point offsets search calls ob = Done ob' -> kept ob'.
  Proof using Adm.
    revert ob. induction calls as [|c calls IH]; intros ob K L; cbn [detect]; [intros E; now injection E as <-|].
    destruct (create_distance_map cmap point offsets search (fst c) (snd c) ob) as [ob1| |] eqn:E; cbn [and_then]; try discriminate.
    apply IH; [eapply create_kept; eauto; apply L; now left|intros c' H; apply L; now right].
  Qed.
  Lemma detect_app calls c ob : detect cmap point offsets search (calls ++ [c]) ob =
    and_then (detect cmap point offsets search calls ob) (fun ob' => create_distance_map cmap point offsets search (fst c) (snd c) ob').
  Proof.
    revert ob. induction calls as [|d calls IH]; intros ob; cbn [detect app].
    - cbn [and_then]. destruct (create_distance_map cmap point offsets search (fst c) (snd c) ob); reflexivity.
    - destruct (create_distance_map cmap point offsets search (fst d) (snd d) ob); cbn [and_then]; auto.
  Qed.
  Lemma last_call_app f calls c : last_call f (calls ++ [c]) = if f (fst c) then Some c else last_call f calls.
  Proof. unfold last_call. now rewrite fold_left_app. Qed.
  Lemma last_call_legal f calls c : legal calls -> last_call f calls = Some c -> (fst c < length pairs)%nat /\ f (fst c) = true.
  Proof.
    induction calls as [|d calls IH] using rev_ind; [discriminate|]. intros L. rewrite last_call_app.
    destruct (f (fst d)) eqn:E; [intros H; injection H as <-; split; auto; apply L, in_or_app; right; now left|].
    apply IH. intros c' H. apply L, in_or_app. now left.
  Qed.

  Lemma detect_within calls ob ob' : kept ob -> legal calls -> detect cmap point offsets search calls ob = Done ob' ->
    forall c, In c calls -> (quad (fst c) < 2 * total rows)%nat.
  Proof using Adm.
    revert ob. induction calls as [|d calls IH]; intros ob K L; cbn [detect]; [intros _ c []|].
    destruct (create_distance_map cmap point offsets search (fst d) (snd d) ob) as [ob1| |] eqn:E; cbn [and_then]; try discriminate.
    intros H c [<-|Hc].
    - rewrite create_eq in E by (auto; apply L; now left). destruct (found (fst d) (snd d)) as [[? ?]|]; [|discriminate].
      destruct (Nat.ltb_spec (quad (fst d)) (2 * total rows)); [auto|discriminate].
    - apply (IH ob1); auto; [eapply create_kept; eauto; apply L; now left|intros c' H'; apply L; now right].
  Qed.
  Lemma last_call_in f calls c : last_call f calls = Some c -> In c calls.
  Proof.
    induction calls as [|d calls IH] using rev_ind; [discriminate|]. rewrite last_call_app. intros H. apply in_or_app.
    destruct (f (fst d)); [injection H as <-; right; now left|left; auto].
  Qed.

  (** The state after any sequence of detections. *)
  Lemma detect_state calls ob : legal calls -> detect cmap point offsets search calls start = Done ob ->
    (forall k, (k < length pairs)%nat ->
       match last_call (Nat.eqb k) calls with
       | None => nth k (ob_facet_maps ob) None = None /\ nth k (ob_max_links ob) 0%nat = 0%nat
       | Some c => exists map ref, found k (snd c) = Some (map, ref) /\ nth k (ob_facet_maps ob) None = Some map /\ nth k (ob_reference ob) [] = ref /\
                     nth k (ob_max_links ob) 0%nat = num_q offsets
       end) /\
    (forall s, (s < 2 * total rows)%nat ->
       match last_call (fun j => quad j =? s)%nat calls with
       | None => nth s (ob_qp ob) [] = []
       | Some c => exists old, nth s (ob_qp ob) [] = create_q_phys cmap point offsets (snd c) (the_pair (fst c)) old
       end).
  Proof using Adm.
    revert ob. induction calls as [|c calls IH] using rev_ind; intros ob L H.
    - cbn in H. injection H as <-. cbn [last_call fold_left]. split.
      + intros k Hk. cbn. rewrite !nth_repeat. auto.
      + intros s Hs. cbn. now rewrite nth_repeat.
    - rewrite detect_app in H. destruct (detect cmap point offsets search calls start) as [ob1| |] eqn:E; cbn [and_then] in H; try discriminate.
      assert (L1 : legal calls) by (intros d Hd; apply L, in_or_app; now left).
      assert (Hc : (fst c < length pairs)%nat) by (apply L, in_or_app; right; now left).
      pose proof (detect_kept _ _ _ kept_start L1 E) as K. specialize (IH ob1 L1 eq_refl). destruct IH as [I1 I2].
      rewrite create_eq in H by auto. destruct (found (fst c) (snd c)) as [[map ref]|] eqn:F; [|discriminate].
      destruct (Nat.ltb_spec (quad (fst c)) (2 * total rows)) as [Lq|Lq]; [|discriminate]. injection H as <-. cbn [ob_facet_maps ob_max_links ob_qp ob_reference].
      split.
      + intros k Hk. rewrite last_call_app. destruct (Nat.eqb_spec k (fst c)) as [->|N].
        * exists map, ref. rewrite !nth_upd_same by (rewrite ?(k_maps _ K), ?(k_refs _ K), ?(k_links _ K); auto). auto.
        * specialize (I1 k Hk). rewrite !nth_upd_other by auto. exact I1.
      + intros s Hs. rewrite last_call_app. destruct (Nat.eqb_spec (quad (fst c)) s) as [<-|N].
        * eexists. rewrite nth_upd_same by (now rewrite (k_qp _ K)). reflexivity.
        * specialize (I2 s Hs). rewrite !nth_upd_other by auto. exact I2.
  Qed.
End Object.

(** ** C97 *)
(** A detection that the search completes leaves the containers exactly if the number of
    the quadrature surface is not below the number of integers (twice the number of
    facets) that describe the contact facets on this process. *)
Theorem C97_storage_exact :
  forall cmap point offsets search rows pairs mode num_cells, admissible rows pairs mode ->
  forall calls ob, (forall c, In c calls -> (fst c < length pairs)%nat) ->
    detect cmap point offsets search calls (construct (adjacency rows) pairs mode num_cells) = Done ob ->
  forall k m, (k < length pairs)%nat ->
    let r := create_distance_map cmap point offsets search k m ob in
    match found cmap search rows pairs mode num_cells k m with
    | None => r = Throws
    | Some _ => (r = OutOfBounds <-> (2 * total rows <= fst (nth k pairs (0, 0)))%nat) /\ ((exists ob', r = Done ob') <-> (fst (nth k pairs (0, 0)) < 2 * total rows)%nat)
    end.
Proof.
  intros cmap point offsets search rows pairs mode nc Adm calls ob L H k m Hk r.
  pose proof (detect_kept _ _ _ _ _ _ _ _ Adm _ _ _ (kept_start rows pairs mode nc) L H) as K.
  unfold r. rewrite (create_eq _ _ _ _ _ _ _ _ Adm ob k m K Hk).
  destruct (found _ _ _ _ _ _ k m) as [[map ref]|]; [|reflexivity].
  destruct (Nat.ltb_spec (fst (nth k pairs (0, 0)%nat)) (2 * total rows)) as [Lt|Ge].
  - split; split; intros E; try discriminate; [lia|auto|eexists; reflexivity].
  - split; split; intros E; auto; [destruct E; discriminate|lia].
Qed.
Print Assumptions C97_storage_exact.

(** On a process where every surface has a facet, no sequence of detections leaves the
    containers, in particular in serial runs with facets on every surface. *)
Theorem C97_facets_everywhere :
  forall cmap point offsets search rows pairs mode num_cells, admissible rows pairs mode -> (forall s, In s rows -> s <> []) ->
  forall calls, (forall c, In c calls -> (fst c < length pairs)%nat) ->
    detect cmap point offsets search calls (construct (adjacency rows) pairs mode num_cells) <> OutOfBounds.
Proof.
  intros cmap point offsets search rows pairs mode nc Adm NE calls L.
  assert (T : (length rows <= total rows)%nat).
  { clear -NE. unfold total. induction rows as [|r rows IH]; [reflexivity|]. cbn [concat length]. rewrite app_length.
    specialize (IH (fun s Hs => NE s (or_intror Hs))). destruct r; [now destruct (NE [] (or_introl eq_refl))|]. cbn [length]. lia. }
  induction calls as [|c calls IH] using rev_ind; [discriminate|]. rewrite detect_app.
  assert (L1 : forall d, In d calls -> (fst d < length pairs)%nat) by (intros d Hd; apply L, in_or_app; now left).
  assert (Hc : (fst c < length pairs)%nat) by (apply L, in_or_app; right; now left).
  specialize (IH L1). destruct (detect _ _ _ _ calls _) as [ob| |] eqn:E; cbn [and_then]; try discriminate; auto.
  pose proof (C97_storage_exact _ _ _ _ _ _ _ _ Adm _ _ L1 E (fst c) (snd c) Hc) as X. cbv zeta in X.
  destruct (found _ _ _ _ _ _ (fst c) (snd c)); [|now rewrite X]. intros Y. apply X in Y.
  destruct (pair_in _ _ _ Adm (fst c) Hc) as [Hq _]. lia.
Qed.
Print Assumptions C97_facets_everywhere.

(** In general it does leave them: for every planar mesh, a process without contact
    facets, two surfaces, one pair and the closest point search, which handles this case. *)
Theorem C97_storage_refuted :
  ~ (forall cmap point offsets (m : mesh_data) closest_entity gjk rows pairs mode num_cells,
       m_gdim m = 2%nat -> m_tdim m = 2%nat -> admissible rows pairs mode ->
       let search := fun (_ : bool) m q c => closest_point_map m m closest_entity gjk point offsets q c in
       create_distance_map cmap point offsets search 0 m (construct (adjacency rows) pairs mode num_cells) <> OutOfBounds).
Proof.
  intros H.
  set (m := mkMesh 2 2 3 true [] (fun _ => []) (fun _ _ => 0) (fun _ _ _ => 0) (fun _ => 1) (fun _ x => x) (fun _ _ => 0) (fun _ => []) (fun _ => []) (fun _ => [])).
  refine (H (mkAdj [] [0%nat]) (fun _ => []) (fun i => i) m (fun _ _ => 0%nat) (fun _ x => x) [[]; []] [(0, 1)]%nat [false] 5%nat eq_refl eq_refl _ _).
  - split; [|reflexivity]. intros qc [<-|[]]. cbn. lia.
  - reflexivity.
Qed.
Print Assumptions C97_storage_refuted.

(** After any sequence of detections the facet map, the reference points and the number of
    links of a pair are those of the last detection of this pair; the quadrature points of
    a surface are its points on the mesh of the last detection of any pair that starts there. *)
Theorem C97_history :
  forall cmap point offsets search rows pairs mode num_cells, admissible rows pairs mode ->
  forall calls ob, (forall c, In c calls -> (fst c < length pairs)%nat) ->
    detect cmap point offsets search calls (construct (adjacency rows) pairs mode num_cells) = Done ob ->
  (forall k, (k < length pairs)%nat ->
     match last_call (Nat.eqb k) calls with
     | None => nth k (ob_facet_maps ob) None = None /\ nth k (ob_max_links ob) 0%nat = 0%nat
     | Some (_, m) => exists map ref, found cmap search rows pairs mode num_cells k m = Some (map, ref) /\
         nth k (ob_facet_maps ob) None = Some map /\ nth k (ob_reference ob) [] = ref /\ nth k (ob_max_links ob) 0%nat = num_q offsets
     end) /\
  (forall s, (s < 2 * total rows)%nat ->
     match last_call (fun j => fst (nth j pairs (0, 0)) =? s)%nat calls with
     | None => nth s (ob_qp ob) [] = []
     | Some (_, m) =>
         let Q := nth s rows [] in let nq := num_q offsets in
         length (nth s (ob_qp ob) []) = (length Q * nq * m_gdim m)%nat /\
         forall i q k, (i < length Q)%nat -> (q < nq)%nat -> (k < m_gdim m)%nat ->
           nth ((i * nq + q) * m_gdim m + k)%nat (nth s (ob_qp ob) []) 0 =
           geometry_map m (hd 0%nat (links cmap (fst (nth i Q (0, 0)%nat)))) (point (offsets (snd (nth i Q (0, 0)%nat)) + q)%nat) k
     end).
Proof.
  intros cmap point offsets search rows pairs mode nc Adm calls ob L H.
  destruct (detect_state _ _ _ _ _ _ _ _ Adm calls ob L H) as [S1 S2]. split.
  - intros k Hk. specialize (S1 k Hk). destruct (last_call (Nat.eqb k) calls) as [[j m]|]; exact S1.
  - intros s Hs. specialize (S2 s Hs). destruct (last_call _ calls) as [[j m]|] eqn:E; [|exact S2].
    destruct (last_call_legal _ _ _ _ L E) as [Hj Es]. cbn [fst snd] in *. apply Nat.eqb_eq in Es. destruct S2 as [old ->].
    assert (EQ : cp_quadrature (the_pair rows pairs nc j) = flat2 (nth s rows [])) by (unfold the_pair; cbn [cp_quadrature]; now rewrite Es).
    cbv zeta. set (Q := nth s rows []) in *. set (nq := num_q offsets). split.
    + unfold create_q_phys. rewrite EQ, get_submesh_tuples_flat, flat2_half, map_length. fold Q.
      change (map (fun p => (hd 0%nat (links cmap (fst p)), snd p)) Q) with (map (sub_pair cmap) Q).
      set (b := firstn _ old ++ _).
      assert (Lb : length b = (length (map (sub_pair cmap) Q) * (offsets 1 - offsets 0) * m_gdim m)%nat).
      { unfold b. rewrite app_length, firstn_length, repeat_length, map_length. unfold num_q. lia. }
      destruct (physical_points m point offsets (map (sub_pair cmap) Q) b Lb) as [-> _]. rewrite Lb, map_length. reflexivity.
    + intros i q k Hi Hq Hk. apply (C74_quadrature_points cmap point offsets m _ Q old EQ); auto.
Qed.
Print Assumptions C97_history.

(** qp_phys(surface, facet): after a detection from the surface, every facet of the surface,
    owned or ghost, has its points, and the array stays inside the storage. *)
Theorem C97_points_of_facet :
  forall cmap point offsets search rows pairs mode num_cells, admissible rows pairs mode ->
  forall calls ob, (forall c, In c calls -> (fst c < length pairs)%nat) ->
    detect cmap point offsets search calls (construct (adjacency rows) pairs mode num_cells) = Done ob ->
  forall s j m facet, last_call (fun j => fst (nth j pairs (0, 0)) =? s)%nat calls = Some (j, m) -> (s < 2 * total rows)%nat ->
    (facet < length (nth s rows []))%nat ->
    let nq := num_q offsets in
    exists x, qp_phys_facet offsets (m_gdim m) s facet ob = Done x /\ length x = (nq * m_gdim m)%nat /\
      forall q k, (q < nq)%nat -> (k < m_gdim m)%nat ->
        nth (q * m_gdim m + k)%nat x 0 =
        let f := nth facet (nth s rows []) (0, 0)%nat in geometry_map m (hd 0%nat (links cmap (fst f))) (point (offsets (snd f) + q)%nat) k.
Proof.
  intros cmap point offsets search rows pairs mode nc Adm calls ob L H s j m facet E Hs Hf nq.
  pose proof (C97_history _ _ _ _ _ _ _ _ Adm calls ob L H) as [_ P]. specialize (P s Hs). rewrite E in P. cbv zeta in P. destruct P as [Ln P].
  pose proof (detect_kept _ _ _ _ _ _ _ _ Adm _ _ _ (kept_start rows pairs mode nc) L H) as K.
  destruct (last_call_legal _ _ _ _ L E) as [Hj Es]. cbn [fst snd] in *. apply Nat.eqb_eq in Es.
  destruct (pair_in _ _ _ Adm j Hj) as [Hq _]. rewrite Es in Hq.
  assert (Lt : (S facet * (nq * m_gdim m) <= length (nth s (ob_qp ob) []))%nat).
  { rewrite Ln. fold nq. rewrite <- Nat.mul_assoc. apply Nat.mul_le_mono_r. lia. }
  eexists. split; [|split].
  - unfold qp_phys_facet, qp_phys. rewrite (k_local _ _ _ _ _ K), (at_lt _ s 0%nat) by (rewrite map_length, seq_length; auto). cbn [and_then].
    rewrite (at_lt _ s []) by (now rewrite (k_qp _ _ _ _ _ K)). cbn [and_then]. fold nq.
    rewrite (proj2 (Nat.leb_le _ _) Lt). reflexivity.
  - unfold slice. rewrite firstn_length, skipn_length. cbn [Nat.mul] in Lt. lia.
  - intros q k Hq' Hk. cbv zeta. rewrite nth_slice by nia.
    rewrite <- P by auto. f_equal. fold nq. ring.
Qed.
Print Assumptions C97_points_of_facet.

(** Before the first detection from a surface qp_phys reads outside its storage. *)
Theorem C97_points_before_detection :
  forall cmap point offsets search rows pairs mode num_cells, admissible rows pairs mode ->
  forall calls ob, (forall c, In c calls -> (fst c < length pairs)%nat) ->
    detect cmap point offsets search calls (construct (adjacency rows) pairs mode num_cells) = Done ob ->
  forall s facet gdim, last_call (fun j => fst (nth j pairs (0, 0)) =? s)%nat calls = None -> (s < length rows)%nat -> (0 < num_q offsets)%nat -> (0 < gdim)%nat ->
    qp_phys_facet offsets gdim s facet ob = OutOfBounds.
Proof.
  intros cmap point offsets search rows pairs mode nc Adm calls ob L H s facet gdim E Hs Hn Hg.
  pose proof (C97_history _ _ _ _ _ _ _ _ Adm calls ob L H) as [_ P]. specialize (P s).
  pose proof (detect_kept _ _ _ _ _ _ _ _ Adm _ _ _ (kept_start rows pairs mode nc) L H) as K.
  unfold qp_phys_facet, qp_phys. rewrite (k_local _ _ _ _ _ K), (at_lt _ s 0%nat) by (rewrite map_length, seq_length; auto). cbn [and_then].
  destruct (Nat.lt_ge_cases s (2 * total rows)) as [Lt|Ge].
  - specialize (P Lt). rewrite E in P. rewrite (at_lt _ s []) by (now rewrite (k_qp _ _ _ _ _ K)). cbn [and_then]. rewrite P. cbn [length].
    destruct (Nat.leb_spec (S facet * (num_q offsets * gdim)) 0); [nia|reflexivity].
  - rewrite (at_ge (ob_qp ob)) by (now rewrite (k_qp _ _ _ _ _ K)). reflexivity.
Qed.
Print Assumptions C97_points_before_detection.

(** max_links(): number of quadrature points of a facet as soon as a pair has been
    detected, 0 before; undefined without pairs. *)
Theorem C97_max_links :
  forall cmap point offsets search rows pairs mode num_cells, admissible rows pairs mode ->
  forall calls ob, (forall c, In c calls -> (fst c < length pairs)%nat) ->
    detect cmap point offsets search calls (construct (adjacency rows) pairs mode num_cells) = Done ob ->
    max_links ob = if (length pairs =? 0)%nat then OutOfBounds else Done (match calls with [] => 0%nat | _ => num_q offsets end).
Proof.
  intros cmap point offsets search rows pairs mode nc Adm calls ob L H.
  pose proof (C97_history _ _ _ _ _ _ _ _ Adm calls ob L H) as [P _].
  pose proof (detect_kept _ _ _ _ _ _ _ _ Adm _ _ _ (kept_start rows pairs mode nc) L H) as K.
  pose proof (k_links _ _ _ _ _ K) as Ln. unfold max_links.
  destruct (Nat.eqb_spec (length pairs) 0) as [Z|N].
  { rewrite Z in Ln. destruct (ob_max_links ob); [reflexivity|discriminate]. }
  assert (B : forall k, (k < length pairs)%nat -> (nth k (ob_max_links ob) 0 <= match calls with [] => 0 | _ => num_q offsets end)%nat).
  { intros k Hk. specialize (P k Hk). destruct (last_call (Nat.eqb k) calls) as [[j m]|] eqn:E.
    - destruct P as (? & ? & _ & _ & _ & ->). destruct calls; [discriminate|reflexivity].
    - destruct P as [_ ->]. lia. }
  assert (A : exists k, (k < length pairs)%nat /\ nth k (ob_max_links ob) 0%nat = match calls with [] => 0%nat | _ => num_q offsets end).
  { destruct calls as [|c0 calls0] eqn:Ec.
    - exists 0%nat. split; [lia|]. specialize (P 0%nat ltac:(lia)). apply P.
    - destruct (exists_last (l := calls)) as (front & c & Ef); [now rewrite Ec|]. rewrite <- Ec in *. exists (fst c).
      assert (Hc : (fst c < length pairs)%nat) by (apply L; rewrite Ef; apply in_or_app; right; now left). split; [exact Hc|].
      specialize (P (fst c) Hc). rewrite Ef, last_call_app, Nat.eqb_refl in P. destruct c as [j m]. destruct P as (? & ? & _ & _ & _ & P). exact P. }
  destruct A as (k & Hk & Ek). revert B Ek. set (v := match calls with [] => _ | _ => _ end). intros B Ek.
  assert (F : fold_right Nat.max 0%nat (ob_max_links ob) = v).
  { apply Nat.le_antisymm.
    - rewrite <- Ln in B. clear -B. revert B. induction (ob_max_links ob) as [|a l IH]; intros B; cbn [fold_right]; [lia|].
      apply Nat.max_lub; [exact (B 0%nat ltac:(cbn; lia))|]. apply IH. intros k Hk. exact (B (S k) ltac:(cbn; lia)).
    - rewrite <- Ek. rewrite <- Ln in Hk. clear -Hk. revert k Hk. induction (ob_max_links ob) as [|a l IH]; intros k Hk; cbn in Hk; [lia|].
      destruct k; cbn [nth fold_right]; [lia|]. specialize (IH k ltac:(lia)). lia. }
  destruct (ob_max_links ob) eqn:Eo; [cbn in Ln; lia|]. now rewrite <- F.
Qed.
Print Assumptions C97_max_links.

(** pack_gap(pair) before the pair was detected dereferences a null pointer on every process
    with owned facets; afterwards it combines the points found by the last detection of the
    pair with the quadrature points of the last detection from its surface. *)
Theorem C97_gap_exact :
  forall cmap point offsets search rows pairs mode num_cells, admissible rows pairs mode ->
  forall calls ob, (forall c, In c calls -> (fst c < length pairs)%nat) ->
    detect cmap point offsets search calls (construct (adjacency rows) pairs mode num_cells) = Done ob ->
  forall k m, (k < length pairs)%nat ->
    let s := fst (nth k pairs (0, 0)%nat) in
    let r := gap_of_pair offsets k m ob in
    (owned rows num_cells s = 0%nat -> r = Done []) /\
    ((0 < owned rows num_cells s)%nat -> last_call (Nat.eqb k) calls = None -> r = OutOfBounds) /\
    ((0 < owned rows num_cells s)%nat -> forall j m1, last_call (Nat.eqb k) calls = Some (j, m1) ->
       exists map ref, found cmap search rows pairs mode num_cells k m1 = Some (map, ref) /\
         r = Done (pack_gap m (num_q offsets) (owned rows num_cells s) map ref (nth s (ob_qp ob) []))).
Proof.
  intros cmap point offsets search rows pairs mode nc Adm calls ob L H k m Hk s r.
  pose proof (C97_history _ _ _ _ _ _ _ _ Adm calls ob L H) as [P _]. specialize (P k Hk).
  pose proof (detect_kept _ _ _ _ _ _ _ _ Adm _ _ _ (kept_start rows pairs mode nc) L H) as K.
  destruct (pair_in _ _ _ Adm k Hk) as [Hq _]. fold s in Hq.
  assert (E : r = if (owned rows nc s =? 0)%nat then Done [] else
     match nth k (ob_facet_maps ob) None with None => OutOfBounds | Some map =>
       and_then (at_ (ob_qp ob) s) (fun qp => Done (pack_gap m (num_q offsets) (owned rows nc s) map (nth k (ob_reference ob) []) qp)) end).
  { unfold r, gap_of_pair. rewrite (k_pairs _ _ _ _ _ K), (at_lt pairs k (0, 0)%nat Hk). cbn [and_then]. fold s.
    rewrite (k_local _ _ _ _ _ K), (at_lt _ s 0%nat) by (rewrite map_length, seq_length; auto). cbn [and_then].
    rewrite (nth_map_lt _ (seq 0 (length rows)) s 0%nat 0%nat), seq_nth by (rewrite ?seq_length; auto). cbn [plus].
    destruct (owned rows nc s =? 0)%nat; [reflexivity|].
    rewrite (at_lt _ k None) by (now rewrite (k_maps _ _ _ _ _ K)). cbn [and_then]. destruct (nth k (ob_facet_maps ob) None); [|reflexivity].
    rewrite (at_lt _ k []) by (now rewrite (k_refs _ _ _ _ _ K)). reflexivity. }
  rewrite E. split; [|split].
  - intros ->. reflexivity.
  - intros Hp N. rewrite N in P. destruct P as [-> _]. destruct (Nat.eqb_spec (owned rows nc s) 0); [lia|reflexivity].
  - intros Hp j m1 N. rewrite N in P. destruct P as (map & ref & F & -> & -> & _). exists map, ref. split; [exact F|].
    destruct (Nat.eqb_spec (owned rows nc s) 0); [lia|]. rewrite (at_lt _ s []); [reflexivity|]. rewrite (k_qp _ _ _ _ _ K).
    pose proof (last_call_in _ _ _ N) as I. destruct (last_call_legal _ _ _ _ L N) as [_ Ej]. cbn [fst] in Ej. apply Nat.eqb_eq in Ej.
    pose proof (detect_within _ _ _ _ _ _ _ _ Adm _ _ _ (kept_start rows pairs mode nc) L H _ I) as W. cbn [fst] in W. rewrite <- Ej in W. exact W.
Qed.
Print Assumptions C97_gap_exact.

(** The facet lists that the constructor takes from mesh tags: one list per tag, in order. *)
Theorem C97_facet_lists :
  forall f_to_c c_to_f find surfaces num_markers,
    let tags := flat_map (fun s => map (fun t => (s, t)) (surfaces s)) (seq 0 num_markers) in
    exists rows : facet_lists,
      create_cell_facet_pairs f_to_c c_to_f find surfaces num_markers = adjacency rows /\
      length rows = length tags /\
      forall k, (k < length tags)%nat -> length (nth k rows []) = length (find (fst (nth k tags (0, 0)%nat)) (snd (nth k tags (0, 0)%nat))).
Proof.
  intros f_to_c c_to_f find surfaces nm tags.
  set (row := fun st : nat * nat => let ents := find (fst st) (snd st) in
     map (fun p => facet_pair f_to_c c_to_f (nth p ents 0%nat)) (argsort (fun i => fst (facet_pair f_to_c c_to_f (nth i ents 0%nat))) (length ents))).
  exists (map row tags). split; [|split].
  - rewrite create_pairs_rows. fold tags. unfold adjacency. cbv zeta.
    assert (E : map (fun st => active_facets f_to_c c_to_f (find (fst st) (snd st))) tags = map flat2 (map row tags)).
    { rewrite map_map. apply map_ext. intros st. apply active_facets_flat. }
    now rewrite E.
  - apply map_length.
  - intros k Hk. rewrite (nth_map_lt _ tags k [] (0, 0)%nat) by auto. unfold row. rewrite map_length. unfold argsort. 
    rewrite isort_length, seq_length. reflexivity.
Qed.
Print Assumptions C97_facet_lists.

(** Two surfaces with one and two facets, one of them a ghost; both pairs detected, the
    first one twice. *)
Example C97_example :
  let rows := [[(0, 1)]; [(1, 0); (7, 2)]]%nat in
  let search := fun (_ : bool) (_ : mesh_data) (_ _ : list nat) => Some (mkAdj [] [0%nat], @nil R) in
  let m := mkMesh 2 2 3 true [] (fun _ => []) (fun _ _ => 0) (fun _ _ _ => 0) (fun _ => 1) (fun _ x => x) (fun _ _ => 0) (fun _ => []) (fun _ => []) (fun _ => []) in
  admissible rows [(0, 1); (1, 0)]%nat [false; true] /\ (forall s, In s rows -> s <> []) /\ owned rows 5 1 = 1%nat /\
  exists ob, detect (mkAdj [] [0%nat]) (fun _ => []) (fun i => (2 * i)%nat) search [(0%nat, m); (1%nat, m); (0%nat, m)]
    (construct (adjacency rows) [(0, 1); (1, 0)]%nat [false; true] 5) = Done ob /\ max_links ob = Done 2%nat.
Proof.
  cbv zeta. split; [|split; [|split; [reflexivity|]]].
  - split; [|reflexivity]. intros qc [<-|[<-|[]]]; cbn; lia.
  - intros s [<-|[<-|[]]]; discriminate.
  - eexists. split; [reflexivity|]. reflexivity.
Qed.
