(** C85: cells, coordinates, markers and ghosts of the mesh made by create_contact_mesh. *)
From Coq Require Import List Arith ZArith QArith Lia Lqa Bool Permutation Sorted.
Import ListNotations.
From Verif Require Import Prelude PreludeLemmas PointCloudModel PointCloudSpec GhostingModel LexMatchProofs GhostingProofs GhostingProps ContactMeshModel ContactMeshSpec.
Local Open Scope nat_scope.

(** ** Tagged facets *)
Lemma marker_subset_filter tags markers : marker_subset tags markers = map fst (filter (fun m => existsb (Z.eqb (snd m)) tags) markers).
Proof.
  unfold marker_subset, for_each.
  assert (G : forall acc, fold_left (fun acc (m : nat * Z) => if existsb (Z.eqb (snd m)) tags then acc ++ [fst m] else acc) markers acc = acc ++ map fst (filter (fun m => existsb (Z.eqb (snd m)) tags) markers)).
  { induction markers as [|m l IH]; intros acc; [now rewrite app_nil_r|]. cbn [fold_left filter]. destruct (existsb _ _); rewrite IH; [cbn [map]; now rewrite <- app_assoc|reflexivity]. }
  exact (G []).
Qed.
Theorem C85_tagged_facets :
  forall (tags : list Z) (markers : list (nat * Z)) (f : nat),
    In f (marker_subset tags markers) <-> exists t, In (f, t) markers /\ In t tags.
Proof.
  intros tags markers f. rewrite marker_subset_filter, in_map_iff. split.
  - intros ([f' t] & E & H). cbn [fst] in E. subst f'. apply filter_In in H as [H E]. cbn [snd] in E. apply existsb_exists in E as (t' & Ht & E). apply Z.eqb_eq in E. subst t'. now exists t.
  - intros (t & H & Ht). exists (f, t). split; [reflexivity|]. apply filter_In. split; [exact H|]. cbn [snd]. apply existsb_exists. exists t. split; [exact Ht|apply Z.eqb_refl].
Qed.
Print Assumptions C85_tagged_facets.

(** ** The coordinate array *)
Lemma push_loop {A} (h : nat -> A) n : forall x, for_loop n (fun j x => x ++ [h j]) x = x ++ map h (seq 0 n).
Proof.
  induction n as [|n IH]; intros x; [cbn; now rewrite app_nil_r|]. rewrite for_loop_S, IH, seq_S, map_app. cbn [map Nat.add]. now rewrite app_assoc.
Qed.
Lemma input_points_spec gdim m : input_points gdim m = flat_map (fun i => map (fun j => nth (i * 3 + j) (rm_x m) 0%Q) (seq 0 gdim)) (seq 0 (rm_vertices m)).
Proof.
  unfold input_points. induction (rm_vertices m) as [|n IH]; [reflexivity|]. rewrite for_loop_S, IH, seq_S, flat_map_app. cbn [flat_map Nat.add]. rewrite app_nil_r. apply (push_loop (fun j => nth (n * 3 + j) (rm_x m) 0%Q)).
Qed.
Lemma rows_length {A} (g : nat -> list A) k n : (forall i, length (g i) = k) -> forall s, length (flat_map g (seq s n)) = n * k.
Proof. intros Hg. induction n as [|n IH]; intros s; [reflexivity|]. cbn [seq flat_map]. rewrite app_length, Hg, IH. lia. Qed.
Lemma rows_nth {A} (d : A) (g : nat -> list A) k n : (forall i, length (g i) = k) -> forall s w j, w < n -> j < k -> nth (w * k + j) (flat_map g (seq s n)) d = nth j (g (s + w)) d.
Proof.
  intros Hg. induction n as [|n IH]; intros s w j Hw Hj; [lia|]. cbn [seq flat_map]. destruct w as [|w].
  - rewrite app_nth1 by (rewrite Hg; lia). now rewrite Nat.add_0_r.
  - rewrite app_nth2 by (rewrite Hg; lia). rewrite Hg. replace (S w * k + j - k) with (w * k + j) by lia. rewrite IH by lia. f_equal. f_equal. lia.
Qed.
Lemma input_points_length gdim m : length (input_points gdim m) = rm_vertices m * gdim.
Proof. rewrite input_points_spec. apply rows_length. intros i. now rewrite map_length, seq_length. Qed.
Lemma input_points_nth gdim m w j : w < rm_vertices m -> j < gdim -> nth (w * gdim + j) (input_points gdim m) 0%Q = coordinate (rm_x m) w j.
Proof.
  intros Hw Hj. rewrite input_points_spec, (rows_nth 0%Q _ gdim) by (auto; intros i; now rewrite map_length, seq_length).
  cbn [Nat.add]. rewrite (nth_map_lt _ _ _ _ 0) by (rewrite seq_length; exact Hj). rewrite seq_nth by exact Hj. reflexivity.
Qed.
Lemma all_points_nth gdim ms r w j : r < length ms -> w < rm_vertices (mesh_of ms r) -> j < gdim ->
  nth ((vertex_offset ms r + w) * gdim + j) (concat (map (input_points gdim) ms)) 0%Q = coordinate (rm_x (mesh_of ms r)) w j.
Proof.
  unfold vertex_offset, mesh_of. revert r. induction ms as [|m ms IH]; intros r Hr Hw Hj; cbn [length] in Hr; [lia|]. cbn [map concat]. destruct r as [|r]; cbn [firstn map list_sum nth fold_right] in *.
  - cbn [Nat.add]. rewrite app_nth1 by (rewrite input_points_length; nia). now apply input_points_nth.
  - change (fold_right Nat.add 0 (map rm_vertices (firstn r ms))) with (list_sum (map rm_vertices (firstn r ms))).
    rewrite app_nth2 by (rewrite input_points_length; nia). rewrite input_points_length.
    replace ((rm_vertices m + list_sum (map rm_vertices (firstn r ms)) + w) * gdim + j - rm_vertices m * gdim) with ((list_sum (map rm_vertices (firstn r ms)) + w) * gdim + j) by nia.
    apply IH; [lia|exact Hw|exact Hj].
Qed.
(** Every global index belongs to an owned vertex of some rank. *)
Lemma global_owned ms : forall g, g < list_sum (map rm_vertices ms) -> exists s w, s < length ms /\ w < rm_vertices (mesh_of ms s) /\ g = vertex_offset ms s + w.
Proof.
  unfold vertex_offset, mesh_of. induction ms as [|m ms IH]; intros g Hg; [cbn in Hg; lia|]. change (list_sum (map rm_vertices (m :: ms))) with (rm_vertices m + list_sum (map rm_vertices ms)) in Hg.
  destruct (Nat.lt_ge_cases g (rm_vertices m)) as [H|H].
  - exists 0, g. cbn. repeat split; lia.
  - destruct (IH (g - rm_vertices m)) as (s & w & Hs & Hw & E); [lia|]. exists (S s), w. cbn [length nth firstn map]. change (list_sum (rm_vertices m :: map rm_vertices (firstn s ms))) with (rm_vertices m + list_sum (map rm_vertices (firstn s ms))). repeat split; [lia|exact Hw|lia].
Qed.
Lemma owned_global ms s w : w < rm_vertices (mesh_of ms s) -> local_to_global ms s w = vertex_offset ms s + w.
Proof. intros H. unfold local_to_global. now rewrite (proj2 (Nat.ltb_lt _ _) H). Qed.

Lemma topo_nth ms r : r < length ms -> nth r (map (topo_global ms) (seq 0 (length ms))) [] = topo_global ms r.
Proof. intros H. rewrite (nth_map_lt _ _ _ _ 0) by (now rewrite seq_length). now rewrite seq_nth. Qed.
Lemma topo_length gdim ms r : distributed gdim ms -> r < length ms -> length (topo_global ms r) = rm_ncells (mesh_of ms r).
Proof. intros (H & _) Hr. unfold topo_global. rewrite map_length, firstn_length. specialize (H r Hr). lia. Qed.
Lemma topo_cell gdim ms r c : distributed gdim ms -> r < length ms -> c < rm_ncells (mesh_of ms r) -> nth c (topo_global ms r) [] = map (local_to_global ms r) (nth c (rm_cells (mesh_of ms r)) []).
Proof.
  intros (H & _) Hr Hc. specialize (H r Hr). unfold topo_global. rewrite (nth_map_lt _ _ _ _ []) by (rewrite firstn_length; lia). f_equal. now apply nth_firstn.
Qed.

(** The ranks that get owned cell [c] of rank [r]: its own first. *)
Definition receivers (ms : list rank_mesh) (tags : list Z) (R : Q) (order : list nat) (r c : nat) : list nat := links (dests_of_cells ms tags R order r) c.
Lemma receives_own ms tags R order r c : c < rm_ncells (mesh_of ms r) -> In r (receivers ms tags R order r c).
Proof. intros H. unfold receivers, dests_of_cells. rewrite partitioner_links by exact H. now left. Qed.

(** No cell is lost or invented: a rank's new mesh has exactly its old owned cells and the
    cells of other ranks sent to it. *)
Theorem C85_cells :
  forall (gdim : nat) (ms : list rank_mesh) (tags : list Z) (R : Q) (order : list nat) (q : nat) (n : new_mesh),
    distributed gdim ms -> q < length ms -> contact_mesh gdim ms tags R order q n ->
    (forall c, c < rm_ncells (mesh_of ms q) -> exists cell, In cell (nm_cells n) /\
       Permutation (map (input_vertex n) cell) (map (local_to_global ms q) (nth c (rm_cells (mesh_of ms q)) []))) /\
    (forall cell, In cell (nm_cells n) -> exists r c, r < length ms /\ c < rm_ncells (mesh_of ms r) /\ (r = q \/ In q (receivers ms tags R order r c)) /\
       Permutation (map (input_vertex n) cell) (map (local_to_global ms r) (nth c (rm_cells (mesh_of ms r)) []))).
Proof.
  intros gdim ms tags R order q n HD Hq (HC & HS & _). rewrite map_length, seq_length in *. split.
  - intros c Hc. destruct (HS q c Hq) as (cell & Hin & HP).
    + rewrite topo_nth, (topo_length gdim) by auto. exact Hc.
    + now apply receives_own.
    + exists cell. split; [exact Hin|]. rewrite topo_nth, (topo_cell gdim) in HP by auto. exact HP.
  - intros cell Hin. destruct (HC cell Hin) as (r & c & Hr & Hc & Hd & HP). rewrite topo_nth in Hc, HP by auto. rewrite (topo_length gdim) in Hc by auto.
    exists r, c. rewrite (topo_cell gdim) in HP by auto. repeat split; auto.
Qed.
Print Assumptions C85_cells.

(** Coordinates survive exactly when every owned vertex lies at the geometry node with the
    same local number; the code copies the first nodes instead of the vertices' nodes. *)
Theorem C85_coordinates_exact :
  forall (gdim : nat) (ms : list rank_mesh) (tags : list Z) (R : Q) (order : list nat) (news : nat -> new_mesh),
    distributed gdim ms -> (forall q, q < length ms -> contact_mesh gdim ms tags R order q (news q)) ->
    (* every owned vertex is in an owned cell of some rank *)
    (forall s w, s < length ms -> w < rm_vertices (mesh_of ms s) -> exists r c u, r < length ms /\ c < rm_ncells (mesh_of ms r) /\ In u (nth c (rm_cells (mesh_of ms r)) []) /\ local_to_global ms r u = local_to_global ms s w) ->
    ((forall q cell v r u j, q < length ms -> In cell (nm_cells (news q)) -> In v cell -> r < length ms -> local_vertex (mesh_of ms r) u -> input_vertex (news q) v = local_to_global ms r u -> j < gdim ->
        coordinate (nm_x (news q)) (nm_v2g (news q) v) j = vertex_coordinate (mesh_of ms r) u j)
     <-> nodes_at_vertices gdim ms).
Proof.
  intros gdim ms tags R order news HD HN HU. split.
  - intros H s w j Hs Hw Hj. destruct (HU s w Hs Hw) as (r & c & u & Hr & Hc & Hu & E).
    destruct (C85_cells gdim ms tags R order r (news r) HD Hr (HN r Hr)) as [HC _]. destruct (HC c Hc) as (cell & Hin & HP).
    assert (HI : In (local_to_global ms s w) (map (input_vertex (news r)) cell)).
    { eapply Permutation_in; [apply Permutation_sym, HP|]. rewrite <- E. now apply in_map. }
    apply in_map_iff in HI as (v & Ev & Hv). assert (LW : local_vertex (mesh_of ms s) w) by (unfold local_vertex; lia). rewrite <- (H r cell v s w j Hr Hin Hv Hs LW Ev Hj).
    destruct (HN r Hr) as (_ & _ & HX). rewrite (HX cell v j Hin Hv Hj), Ev, owned_global by exact Hw. symmetry. now apply all_points_nth.
  - intros H q cell v r u j Hq Hin Hv Hr Hu E Hj. destruct (HN q Hq) as (HC & _ & HX). rewrite (HX cell v j Hin Hv Hj).
    assert (HB : input_vertex (news q) v < list_sum (map rm_vertices ms)).
    { destruct (C85_cells gdim ms tags R order q (news q) HD Hq (HN q Hq)) as [_ HO]. destruct (HO cell Hin) as (r' & c' & Hr' & Hc' & _ & HP).
      assert (HI : In (input_vertex (news q) v) (map (local_to_global ms r') (nth c' (rm_cells (mesh_of ms r')) []))) by (eapply Permutation_in; [exact HP|now apply in_map]).
      apply in_map_iff in HI as (u' & <- & Hu'). destruct HD as (_ & HD & _). eapply HD; eauto. }
    destruct (global_owned ms _ HB) as (s & w & Hs & Hw & Eg). rewrite Eg, all_points_nth, (H s w j) by auto.
    destruct HD as (_ & _ & HA). apply HA; auto; [unfold local_vertex; lia|]. rewrite owned_global, <- Eg by exact Hw. exact E.
Qed.
Print Assumptions C85_coordinates_exact.

(** Facets [f] of rank [p] and [g] of rank [q], both with one of the tags and with midpoints
    within [R]: rank [q]'s new mesh has the cell of [f].  As in C02-C04: [g]'s midpoint is
    not the first in the sweep order, and the cell of [f] has no other tagged facet. *)
Lemma midpoint_center ms r f : let a := facet_midpoint ms r f in let b := facet_center (mesh_of ms r) f in (px a == px b /\ py a == py b /\ pz a == pz b)%Q.
Proof.
  cbv zeta. unfold facet_midpoint, facet_center, midpoint. rewrite map_length. set (m := mesh_of ms r). set (vs := nth f (rm_facets m) []). set (n := inject_Z (Z.of_nat (length vs))). clearbody n.
  assert (E0 : forall v, px (node (rm_x m) (rm_v2g m v)) = vertex_coordinate m v 0) by (intros v; unfold vertex_coordinate, coordinate; now rewrite Nat.add_0_r).
  assert (E1 : forall v, py (node (rm_x m) (rm_v2g m v)) = vertex_coordinate m v 1) by reflexivity.
  assert (E2 : forall v, pz (node (rm_x m) (rm_v2g m v)) = vertex_coordinate m v 2) by reflexivity.
  assert (K : forall vs p, let a := fold_left (fun m v => (px m + px v / n, py m + py v / n, pz m + pz v / n)%Q) (map (fun v => node (rm_x m) (rm_v2g m v)) vs) p in
    let avg j := (fold_right Qplus 0 (map (fun v => vertex_coordinate m v j) vs) / n)%Q in (px a == px p + avg 0%nat /\ py a == py p + avg 1%nat /\ pz a == pz p + avg 2%nat)%Q).
  { clear vs. induction vs as [|v vs IH]; intros p; cbv zeta.
    - cbn [fold_left map fold_right]. unfold Qdiv. repeat split; ring.
    - cbn [fold_left map fold_right]. destruct (IH (px p + px (node (rm_x m) (rm_v2g m v)) / n, py p + py (node (rm_x m) (rm_v2g m v)) / n, pz p + pz (node (rm_x m) (rm_v2g m v)) / n)%Q) as (I1 & I2 & I3).
      rewrite I1, I2, I3. rewrite (E0 v), (E1 v), (E2 v). cbn [px py pz fst snd]. unfold Qdiv. repeat split; ring. }
  destruct (K vs pt0) as (K1 & K2 & K3). rewrite K1, K2, K3. cbn [px py pz pt0 fst snd]. repeat split; ring.
Qed.
Lemma dist2_eq a b a' b' : (px a == px a' -> py a == py a' -> pz a == pz a' -> px b == px b' -> py b == py b' -> pz b == pz b' -> dist2 a b == dist2 a' b')%Q.
Proof. intros H1 H2 H3 H4 H5 H6. unfold dist2. rewrite ?H1, ?H2, ?H3, ?H4, ?H5, ?H6. reflexivity. Qed.
Theorem C85_neighbours_present_partial :
  forall (gdim : nat) (ms : list rank_mesh) (tags : list Z) (R : Q) (order : list nat) (p q : nat) (n : new_mesh) (f : nat) (tf : Z) (g k : nat),
    distributed gdim ms -> contact_mesh gdim ms tags R order q n ->
    (0 <= R)%Q -> sort_result (concat (all_midpoints ms tags)) order ->
    p < length ms -> q < length ms -> p <> q ->
    In (f, tf) (rm_fmarker (mesh_of ms p)) -> In tf tags ->
    nth_error (tagged ms tags q) k = Some g -> gidx (all_midpoints ms tags) q k <> nth 0 order 0 ->
    (dist2 (facet_center (mesh_of ms p) f) (facet_center (mesh_of ms q) g) < R * R)%Q ->
    NoDup (tagged ms tags p) ->
    (forall f', In f' (tagged ms tags p) -> f' <> f -> rm_fcell (mesh_of ms p) f' <> rm_fcell (mesh_of ms p) f) ->
    rm_fcell (mesh_of ms p) f < rm_ncells (mesh_of ms p) ->
    exists cell, In cell (nm_cells n) /\
      Permutation (map (input_vertex n) cell) (map (local_to_global ms p) (nth (rm_fcell (mesh_of ms p) f) (rm_cells (mesh_of ms p)) [])).
Proof.
  intros gdim ms tags R order p q n f tf g k HD (_ & HS & _) HR HO Hp Hq Hpq Hf Ht Hk Hfirst Hdist ND Hother Hown.
  destruct (midpoint_center ms p f) as (M1 & M2 & M3). destruct (midpoint_center ms q g) as (M4 & M5 & M6). rewrite <- (dist2_eq _ _ _ _ M1 M2 M3 M4 M5 M6) in Hdist.
  assert (HI : In f (tagged ms tags p)) by (apply C85_tagged_facets; now exists tf).
  destruct (In_nth _ _ 0 HI) as (j & Hj & Ej).
  assert (EM : forall r, r < length ms -> nth r (all_midpoints ms tags) [] = map (facet_midpoint ms r) (tagged ms tags r)).
  { intros r Hr. unfold all_midpoints. rewrite (nth_map_lt _ _ _ _ 0) by (now rewrite seq_length). now rewrite seq_nth. }
  assert (LM : length (all_midpoints ms tags) = length ms) by (unfold all_midpoints; now rewrite map_length, seq_length).
  assert (Lk : k < length (tagged ms tags q)) by (apply nth_error_Some; congruence).
  assert (RD : In q (cell_destinations p (rm_ncells (mesh_of ms p)) (rm_fcell (mesh_of ms p)) (tagged ms tags p)
                     (ghost_destinations (all_midpoints ms tags) (point_cloud_pairs (concat (all_midpoints ms tags)) R order) p)
                     (rm_fcell (mesh_of ms p) (nth j (tagged ms tags p) 0)))).
  { eapply C04_end_to_end_partial with (k := k); auto; try (rewrite LM; auto).
    - unfold nfacets. rewrite EM, map_length by auto. reflexivity.
    - unfold nfacets. rewrite EM, map_length by auto. exact Hj.
    - unfold nfacets. rewrite EM, map_length by auto. exact Lk.
    - intros i Hi Hij. rewrite Ej. apply Hother; [now apply nth_In|]. rewrite <- Ej. intros E. apply Hij. now apply (proj1 (NoDup_nth _ 0) ND).
    - now rewrite Ej.
    - rewrite !EM by auto. rewrite !(nth_map_lt _ _ _ _ 0) by auto. rewrite Ej. replace (nth k (tagged ms tags q) 0) with g; [exact Hdist|]. symmetry. now apply nth_error_nth. }
  rewrite Ej in RD. destruct (HS p (rm_fcell (mesh_of ms p) f)) as (cell & Hin & HP).
  - now rewrite map_length, seq_length.
  - rewrite topo_nth, (topo_length gdim) by auto. exact Hown.
  - exact RD.
  - exists cell. split; [exact Hin|]. rewrite topo_nth, (topo_cell gdim) in HP by auto. exact HP.
Qed.
Print Assumptions C85_neighbours_present_partial.

(** Facet and cell markers: [ents] are the facets (or cells) of the new mesh, [markers] the
    old ones of all ranks by global vertices. *)
Theorem C85_markers :
  forall (nv : nat) (ms : list rank_mesh) (n : new_mesh) (p_local p_in : list nat),
    0 < nv ->
    forall (old_ents : rank_mesh -> list (list nat)) (old_markers : rank_mesh -> list (nat * Z)) (new_ents : list (list nat)) (markers : nat -> list (list Z * Z)),
    (old_ents = rm_facets /\ old_markers = rm_fmarker /\ new_ents = nm_facets n /\ markers = facet_markers ms
     \/ old_ents = rm_cells /\ old_markers = rm_cmarker /\ new_ents = nm_cells n /\ markers = cell_markers ms) ->
    (forall r e t, r < length ms -> In (e, t) (old_markers (mesh_of ms r)) -> length (nth e (old_ents (mesh_of ms r)) []) = nv) ->
    (forall e, In e new_ents -> length e = nv) ->
    (* different entities of the new mesh have different vertices *)
    (forall a b, a < length new_ents -> b < length new_ents -> Permutation (map (input_vertex n) (nth a new_ents [])) (map (input_vertex n) (nth b new_ents [])) -> a = b) ->
    (* ranks sharing an entity agree on its marker *)
    (forall r e t r' e' t', r < length ms -> r' < length ms -> In (e, t) (old_markers (mesh_of ms r)) -> In (e', t') (old_markers (mesh_of ms r')) ->
       Permutation (map (local_to_global ms r) (nth e (old_ents (mesh_of ms r)) [])) (map (local_to_global ms r') (nth e' (old_ents (mesh_of ms r')) [])) -> t = t') ->
    let all := concat (map markers (seq 0 (length ms))) in
    lex_sort_result (length new_ents) (fun a => isort zleb (map (fun v => Z.of_nat (input_vertex n v)) (nth a new_ents []))) p_local ->
    lex_sort_result (length all) (fun a => isort zleb (fst (nth a all ([], 0%Z)))) p_in ->
    let res := new_markers nv (map markers (seq 0 (length ms))) n new_ents p_local p_in in
    StronglySorted lt (fst res) /\
    forall a t, In (a, t) (combine (fst res) (snd res)) <->
      a < length new_ents /\ exists r e, r < length ms /\ In (e, t) (old_markers (mesh_of ms r)) /\
        Permutation (map (local_to_global ms r) (nth e (old_ents (mesh_of ms r)) [])) (map (input_vertex n) (nth a new_ents [])).
Proof.
  intros nv ms n pl pi Hnv old_ents old_markers new_ents markers HM Hlo Hln Hdist Hcons all HL HI res.
  assert (EMK : forall r, markers r = map (fun m => (map (fun v => Z.of_nat (local_to_global ms r v)) (nth (fst m) (old_ents (mesh_of ms r)) []), snd m)) (old_markers (mesh_of ms r))).
  { intros r. destruct HM as [(-> & -> & _ & ->)|(-> & -> & _ & ->)]; reflexivity. }
  assert (INM : forall vs t, In (vs, t) all <-> exists r e, r < length ms /\ In (e, t) (old_markers (mesh_of ms r)) /\ vs = map Z.of_nat (map (local_to_global ms r) (nth e (old_ents (mesh_of ms r)) []))).
  { intros vs t. unfold all. rewrite in_concat. split.
    - intros (l & Hl & Hv). apply in_map_iff in Hl as (r & <- & Hr). apply in_seq in Hr. rewrite EMK in Hv. apply in_map_iff in Hv as ([e t'] & E & He). injection E as <- <-. exists r, e. cbn [fst]. rewrite map_map. repeat split; [lia|exact He].
    - intros (r & e & Hr & He & ->). exists (markers r). split; [apply in_map, in_seq; lia|]. rewrite EMK. apply in_map_iff. exists (e, t). cbn [fst snd]. rewrite map_map. now split. }
  assert (PZ : forall u v : list nat, Permutation (map Z.of_nat u) (map Z.of_nat v) <-> Permutation u v).
  { intros u v. split; [|apply Permutation_map]. intros H. apply (Permutation_map Z.to_nat) in H. rewrite !map_map in H.
    rewrite !(map_ext (fun x => Z.to_nat (Z.of_nat x)) (fun x => x)) in H by apply Nat2Z.id. now rewrite !map_id in H. }
  assert (EN : forall a, a < length new_ents -> nth a (original_entities n new_ents) [] = map Z.of_nat (map (input_vertex n) (nth a new_ents []))).
  { intros a Ha. unfold original_entities. rewrite (nth_map_lt _ _ _ _ []) by exact Ha. now rewrite map_map. }
  assert (LE : length (original_entities n new_ents) = length new_ents) by apply map_length.
  assert (ER : res = transferred_markers nv (map markers (seq 0 (length ms))) (original_entities n new_ents) pl pi).
  { unfold res, new_markers, transferred_markers. destruct (copy_to_all _ _ _); reflexivity. }
  rewrite ER. destruct (C05_markers_survive nv (map markers (seq 0 (length ms))) (original_entities n new_ents) pl pi Hnv) as [HS HE].
  - intros m vs v Hm Hv. assert (H : In (vs, v) all) by (unfold all; apply in_concat; now exists m). apply INM in H as (r & e & Hr & He & ->). rewrite !map_length. now apply (Hlo r e v).
  - intros e He. apply in_map_iff in He as (e' & <- & He'). rewrite map_length. now apply Hln.
  - intros a b Ha Hb HP. rewrite LE in Ha, Hb. rewrite !EN in HP by auto. apply PZ in HP. now apply Hdist.
  - intros vs v vs' v' H H' HP. apply INM in H as (r & e & Hr & He & ->). apply INM in H' as (r' & e' & Hr' & He' & ->). apply PZ in HP. exact (Hcons r e v r' e' v' Hr Hr' He He' HP).
  - rewrite LE. destruct HL as [HL1 HL2]. split; [exact HL1|]. intros a b Hab Hb. specialize (HL2 a b Hab Hb).
    assert (EK : forall x, nth x (original_entities n new_ents) [] = map (fun v => Z.of_nat (input_vertex n v)) (nth x new_ents [])) by (intros x; unfold original_entities; exact (map_nth (map (fun v => Z.of_nat (original n v))) new_ents [] x)).
    rewrite !EK. exact HL2.
  - exact HI.
  - split; [exact HS|]. intros a t. rewrite HE, LE. split.
    + intros (Ha & vs & Hv & HP). split; [exact Ha|]. apply INM in Hv as (r & e & Hr & He & ->). exists r, e. rewrite EN in HP by exact Ha. apply PZ in HP. auto.
    + intros (Ha & r & e & Hr & He & HP). split; [exact Ha|]. eexists. split; [apply INM; exists r, e; eauto|]. rewrite EN by exact Ha. now apply PZ.
Qed.
Print Assumptions C85_markers.

(** The global vertex numbers sent to create_mesh: every number below the total belongs to
    exactly one owned vertex, and ghost [k] of a rank has the number stored for it, so it is
    identified with the owned vertex of that number. *)
Lemma offset_le ms s s' : s <= s' -> vertex_offset ms s <= vertex_offset ms s'.
Proof.
  unfold vertex_offset. revert s s'. induction ms as [|m ms IH]; intros s s' H; [now rewrite !firstn_nil|].
  destruct s as [|s]; [cbn; lia|]. destruct s' as [|s']; [lia|]. specialize (IH s s' ltac:(lia)). cbn [firstn map].
  change (rm_vertices m + list_sum (map rm_vertices (firstn s ms)) <= rm_vertices m + list_sum (map rm_vertices (firstn s' ms))). lia.
Qed.
Lemma offset_S ms s : s < length ms -> vertex_offset ms (S s) = vertex_offset ms s + rm_vertices (mesh_of ms s).
Proof.
  unfold vertex_offset, mesh_of. revert s. induction ms as [|m ms IH]; intros s H; [cbn in H; lia|].
  destruct s as [|s]; [cbn; lia|]. cbn [length] in H. specialize (IH s ltac:(lia)).
  change (rm_vertices m + list_sum (map rm_vertices (firstn (S s) ms)) = rm_vertices m + list_sum (map rm_vertices (firstn s ms)) + rm_vertices (nth s ms rank0)). lia.
Qed.

Theorem C85_vertex_numbers :
  forall ms,
    (forall g, g < list_sum (map rm_vertices ms) ->
       exists s w, s < length ms /\ w < rm_vertices (mesh_of ms s) /\ local_to_global ms s w = g /\
         forall s' w', s' < length ms -> w' < rm_vertices (mesh_of ms s') -> local_to_global ms s' w' = g -> s' = s /\ w' = w) /\
    (forall r k g, r < length ms -> nth_error (rm_ghosts (mesh_of ms r)) k = Some g ->
       local_to_global ms r (rm_vertices (mesh_of ms r) + k) = g).
Proof.
  intros ms. split.
  - intros g Hg. destruct (global_owned ms g Hg) as (s & w & Hs & Hw & E). exists s, w.
    split; [exact Hs|]. split; [exact Hw|]. split; [now rewrite owned_global|].
    intros s' w' Hs' Hw' E'. rewrite owned_global in E' by exact Hw'.
    pose proof (offset_S ms s Hs). pose proof (offset_S ms s' Hs').
    destruct (lt_eq_lt_dec s s') as [[L|L]|L].
    + pose proof (offset_le ms (S s) s' L). lia.
    + subst s'. split; [reflexivity|lia].
    + pose proof (offset_le ms (S s') s L). lia.
  - intros r k g Hr H. unfold local_to_global.
    rewrite (proj2 (Nat.ltb_ge _ _)) by lia. replace (rm_vertices (mesh_of ms r) + k - rm_vertices (mesh_of ms r)) with k by lia.
    apply nth_error_nth. exact H.
Qed.
Print Assumptions C85_vertex_numbers.
