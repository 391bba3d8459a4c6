(** C119: the Python version create_contact_mesh_old builds the same mesh and markers as
    create_contact_mesh whenever it returns; exactly when it returns. *)
From Coq Require Import List Arith ZArith QArith Lia Bool Permutation Sorted.
Import ListNotations.
From Verif Require Import Prelude PreludeLemmas PointCloudModel PointCloudSpec GhostingModel LexMatchProofs GhostingProofs GhostingProps ContactMeshModel ContactMeshSpec ContactMeshProps ContactMeshExamples OldContactMeshModel.
Local Open Scope nat_scope.

(** Shapes of a mesh with [nf] vertices per facet, [nc] per cell: what DOLFINx guarantees. *)
Definition well_shaped (gdim nf nc : nat) (ms : list rank_mesh) : Prop :=
  0 < nf /\ 0 < nc /\ gdim <= 3 /\
  forall r, r < length ms ->
    (forall e t, In (e, t) (rm_fmarker (mesh_of ms r)) -> length (nth e (rm_facets (mesh_of ms r)) []) = nf) /\
    (forall e t, In (e, t) (rm_cmarker (mesh_of ms r)) -> length (nth e (rm_cells (mesh_of ms r)) []) = nc) /\
    (forall c, In c (rm_cells (mesh_of ms r)) -> length c = nc) /\
    exists nodes, length (rm_x (mesh_of ms r)) = nodes * 3 /\ rm_vertices (mesh_of ms r) <= nodes.

Lemma filter_index {A} (d : A) (p : A -> bool) (l : list A) :
  map (fun i => nth i l d) (filter (fun i => p (nth i l d)) (seq 0 (length l))) = filter p l.
Proof.
  induction l as [|a l IH]; [reflexivity|]. cbn [length seq]. rewrite <- seq_shift. cbn [filter].
  assert (E : map (fun i => nth i (a :: l) d) (filter (fun i => p (nth i (a :: l) d)) (map S (seq 0 (length l)))) = filter p l).
  { rewrite <- IH. generalize (seq 0 (length l)) as s. induction s as [|i s IHs]; [reflexivity|]. cbn [map filter]. change (nth (S i) (a :: l) d) with (nth i l d). destruct (p (nth i l d)); cbn [map]; rewrite IHs; reflexivity. }
  change (nth 0 (a :: l) d) with a. destruct (p a); [cbn [map]; change (nth 0 (a :: l) d) with a; now f_equal|exact E].
Qed.
Lemma old_subset_same tags markers : old_subset tags markers = marker_subset tags markers.
Proof.
  unfold old_subset. rewrite marker_subset_filter, <- (filter_index (0, 0%Z) (fun m => existsb (Z.eqb (snd m)) tags) markers), map_map. reflexivity.
Qed.
Lemma old_midpoints_same ms tags : old_midpoints ms tags = all_midpoints ms tags.
Proof. unfold old_midpoints, all_midpoints. apply map_ext. intros r. unfold old_tagged, tagged. now rewrite old_subset_same. Qed.

Lemma fold_for {S} (f : nat -> S -> S) n : forall s k, fold_left (fun s i => f i s) (seq k n) s = for_loop n (fun i s => f (k + i) s) s.
Proof.
  induction n as [|n IH]; intros s k; [reflexivity|]. rewrite seq_S, fold_left_app, IH. cbn [fold_left]. rewrite for_loop_S. reflexivity.
Qed.
Lemma enum_for {A S} (d : A) (f : nat -> A -> S -> S) (l : list A) : forall s,
  fold_left (fun s ic => f (fst ic) (snd ic) s) (combine (seq 0 (length l)) l) s = for_loop (length l) (fun i s => f i (nth i l d) s) s.
Proof.
  induction l as [|a l IH] using rev_ind; intros s; [reflexivity|]. rewrite app_length. cbn [length]. rewrite Nat.add_1_r, seq_S, for_loop_S.
  assert (E : forall k, combine (seq k (length l) ++ [k + length l]) (l ++ [a]) = combine (seq k (length l)) l ++ [(k + length l, a)]).
  { clear. induction l as [|b l IH]; intros k; cbn [length seq app combine]; [reflexivity|]. f_equal. specialize (IH (S k)). rewrite Nat.add_succ_comm in IH. exact IH. }
  specialize (E 0). cbn [Nat.add] in *.
  rewrite E, fold_left_app. cbn [fold_left fst snd]. rewrite IH. rewrite app_nth2, Nat.sub_diag by lia. cbn [nth]. f_equal.
  apply for_loop_ext. intros i s' Hi. now rewrite app_nth1 by lia.
Qed.

Lemma reshape_concat {A} nv (l : list (list A)) : 0 < nv -> (forall e, In e l -> length e = nv) -> np_reshape nv (concat l) = l.
Proof.
  intros Hn H. unfold np_reshape. rewrite (concat_length_const nv) by exact H. rewrite Nat.div_mul by lia.
  apply (nth_ext' _ _ []); [now rewrite map_length, seq_length|]. intros i Hi. rewrite map_length, seq_length in Hi.
  rewrite (nth_map_lt _ _ _ _ 0) by (now rewrite seq_length). rewrite seq_nth by exact Hi. cbn [Nat.add]. rewrite Nat.mul_comm. now apply slice_concat_const.
Qed.

(** ** What is handed to create_mesh *)
Theorem C119_same_input :
  forall (gdim nf nc : nat) (ms : list rank_mesh) (tags : list Z) (R : Q) (order : list nat) (r : nat),
    well_shaped gdim nf nc ms -> r < length ms ->
    old_partitioner ms tags R order r = dests_of_cells ms tags R order r /\
    old_topo nc ms r = topo_global ms r /\
    concat (old_points gdim ms r) = input_points gdim (mesh_of ms r).
Proof.
  intros gdim nf nc ms tags R order r (Hnf & Hnc & Hg & Hs) Hr. destruct (Hs r Hr) as (_ & _ & Hc & nodes & Hx & Hv). split; [|split].
  - unfold old_partitioner, dests_of_cells, partitioner.
    assert (E : old_cell_to_dests ms tags R order r = cell_to_dests (rm_fcell (mesh_of ms r)) (tagged ms tags r) (ghost_destinations (all_midpoints ms tags) (point_cloud_pairs (concat (all_midpoints ms tags)) R order) r)).
    { unfold old_cell_to_dests, cell_to_dests, old_cell_dests, old_tagged, tagged. rewrite old_subset_same, old_midpoints_same.
      exact (enum_for 0 (fun i c m => map_set m c (links (ghost_destinations (all_midpoints ms tags) (point_cloud_pairs (concat (all_midpoints ms tags)) R order) r) i)) (map (rm_fcell (mesh_of ms r)) (marker_subset tags (rm_fmarker (mesh_of ms r)))) []). }
    rewrite E. set (c2d := cell_to_dests _ _ _).
    pose proof (fold_for (fun c (st : list nat * list nat) => let '(dests, offsets) := st in
      let dests := dests ++ [r] in let dests := match map_find c2d c with Some l => dests ++ l | None => dests end in (dests, offsets ++ [length dests]))
      (rm_ncells (mesh_of ms r)) ([], [0]) 0) as F. cbv beta zeta in F. cbn [Nat.add] in F. cbv zeta. rewrite F. reflexivity.
  - unfold old_topo, topo_global. rewrite <- firstn_map, concat_map, reshape_concat; [reflexivity|exact Hnc|].
    intros e He. apply in_map_iff in He as (c & <- & Hc'). rewrite map_length. now apply Hc.
  - unfold old_points. rewrite input_points_spec. unfold np_reshape. rewrite Hx, Nat.div_mul by lia.
    rewrite firstn_map, map_map, flat_map_concat_map. f_equal.
    replace (firstn (rm_vertices (mesh_of ms r)) (seq 0 nodes)) with (seq 0 (rm_vertices (mesh_of ms r))).
    2:{ replace nodes with (rm_vertices (mesh_of ms r) + (nodes - rm_vertices (mesh_of ms r))) by lia. rewrite seq_app, firstn_app, seq_length, Nat.sub_diag. cbn [firstn]. rewrite app_nil_r. rewrite firstn_all2; [reflexivity|rewrite seq_length; lia]. }
    apply map_ext_in. intros i Hi. apply in_seq in Hi.
    assert (L : i * 3 + 3 <= length (rm_x (mesh_of ms r))) by (rewrite Hx; nia).
    assert (L3 : length (slice (rm_x (mesh_of ms r)) (i * 3) 3) = 3) by (unfold slice; rewrite firstn_length, skipn_length; lia).
    apply (nth_ext' _ _ 0%Q); [rewrite firstn_length, L3, map_length, seq_length; lia|].
    intros j Hj. rewrite firstn_length, L3 in Hj. rewrite nth_firstn by lia.
    rewrite (nth_map_lt _ _ _ _ 0) by (rewrite seq_length; lia). rewrite seq_nth by lia. rewrite nth_slice by lia. reflexivity.
Qed.
Print Assumptions C119_same_input.

(** ** How it ends *)
Lemma concat_nonempty {A} (l : list (list A)) : concat (filter nonempty l) = concat l.
Proof. induction l as [|a l IH]; [reflexivity|]. destruct a as [|x a]; cbn [filter nonempty length Nat.ltb concat app]; [exact IH|]. cbn. now rewrite IH. Qed.
Lemma filter_none {A} (l : list (list A)) : filter nonempty l = [] <-> concat l = [].
Proof.
  split; [intros H; now rewrite <- concat_nonempty, H|]. induction l as [|[|x a] l IH]; [reflexivity|exact IH|discriminate].
Qed.
Lemma np_concatenate_nonempty {A} (l : list (list A)) : np_concatenate (filter nonempty l) = match concat l with [] => None | c => Some c end.
Proof.
  destruct (concat l) eqn:E; [now rewrite (proj2 (filter_none l) E)|]. rewrite <- E, <- concat_nonempty.
  destruct (filter nonempty l) eqn:F; [|reflexivity]. apply filter_none in F. congruence.
Qed.
Lemma all_sent_none {A} (l : list (option A)) : all_sent l = None <-> In None l.
Proof.
  induction l as [|[a|] l IH]; cbn [all_sent In]; [split; [discriminate|tauto]| |split; auto].
  destruct (all_sent l) as [b|] eqn:E; split; intros H; try tauto; try discriminate.
  - destruct H as [H|H]; [discriminate|]. now apply IH in H.
Qed.
Lemma all_sent_some {A B} (f : B -> option (list A)) (g : B -> list A) l : (forall b, In b l -> f b = Some (g b)) -> all_sent (map f l) = Some (map g l).
Proof. induction l as [|b l IH]; intros H; [reflexivity|]. cbn [map all_sent]. rewrite (H b) by now left. rewrite IH; [reflexivity|]. intros c Hc. apply H. now right. Qed.

Section Ends.
  Context (gdim nf nc : nat) (ms : list rank_mesh) (WS : well_shaped gdim nf nc ms).
  Lemma facet_rows_eq r : old_facet_rows ms r = map (isort zleb) (map fst (facet_markers ms r)).
  Proof. unfold old_facet_rows, facet_markers. now rewrite !map_map. Qed.
  Lemma cell_rows_eq r : old_cell_rows ms r = map (isort zleb) (map fst (cell_markers ms r)).
  Proof. unfold old_cell_rows, cell_markers. now rewrite !map_map. Qed.
  Lemma fsend_eq r : old_fsend ms r = concat (old_facet_rows ms r).
  Proof. unfold old_fsend. now destruct (old_facet_rows ms r). Qed.
  Lemma facet_vertices r e : r < length ms -> In e (map fst (facet_markers ms r)) -> length e = nf.
  Proof.
    intros Hr He. unfold facet_markers in He. rewrite map_map in He. apply in_map_iff in He as ([f t] & <- & Hm). cbn [fst]. rewrite map_length.
    destruct WS as (_ & _ & _ & H). exact (proj1 (H r Hr) f t Hm).
  Qed.
  Lemma cell_vertices r e : r < length ms -> In e (map fst (cell_markers ms r)) -> length e = nc.
  Proof.
    intros Hr He. unfold cell_markers in He. rewrite map_map in He. apply in_map_iff in He as ([f t] & <- & Hm). cbn [fst]. rewrite map_length.
    destruct WS as (_ & _ & _ & H). exact (proj1 (proj2 (H r Hr)) f t Hm).
  Qed.
  Lemma facet_values r : map snd (facet_markers ms r) = map snd (rm_fmarker (mesh_of ms r)).
  Proof. unfold facet_markers. now rewrite map_map. Qed.
  Lemma cell_values r : map snd (cell_markers ms r) = map snd (rm_cmarker (mesh_of ms r)).
  Proof. unfold cell_markers. now rewrite map_map. Qed.

  (** The arrays the C++ version gathers. *)
  Lemma gathered nv (markers : nat -> list (list Z * Z)) : 0 < nv -> (forall r e, r < length ms -> In e (map fst (markers r)) -> length e = nv) ->
    let l := map markers (seq 0 (length ms)) in
    copy_to_all nv (map (fun m => entity_keys nv (map fst m)) l) (map (map snd) l) =
    (concat (map (fun r => concat (map (isort zleb) (map fst (markers r)))) (ranks ms)), concat (map (fun r => map snd (markers r)) (ranks ms))).
  Proof.
    intros Hn Hl l.
    assert (E : map (fun m => entity_keys nv (map fst m)) l = map (fun r => concat (map (isort zleb) (map fst (markers r)))) (ranks ms)).
    { unfold l, ranks. rewrite map_map. apply map_ext_in. intros r Hr. apply in_seq in Hr. apply entity_keys_spec; [exact Hn|]. intros e He. apply (Hl r); [lia|exact He]. }
    rewrite copy_to_all_spec; [|exact Hn|unfold l; now rewrite !map_length|].
    - rewrite E. unfold l. now rewrite map_map.
    - intros i Hi. rewrite E in *. unfold l, ranks in *. rewrite map_length, seq_length in Hi. rewrite map_map.
      rewrite (nth_map_lt _ _ _ _ 0), (nth_map_lt (fun r => map snd (markers r)) _ _ _ 0) by (now rewrite seq_length). rewrite seq_nth by exact Hi. cbn [Nat.add].
      rewrite (concat_length_const nv); [rewrite !map_length; lia|]. intros e He. apply in_map_iff in He as (e' & <- & He'). rewrite isort_length. now apply (Hl i).
  Qed.

  Lemma facets_gathered_length : length (concat (map (old_fsend ms) (ranks ms))) = length (concat (map (fun r => map snd (rm_fmarker (mesh_of ms r))) (ranks ms))) * nf.
  Proof.
    unfold ranks. assert (B : forall r, In r (seq 0 (length ms)) -> r < length ms) by (intros r Hr; apply in_seq in Hr; lia).
    revert B. generalize (seq 0 (length ms)) as l. induction l as [|r l IH]; intros B; [reflexivity|]. cbn [map concat]. rewrite !app_length, IH by (intros; apply B; now right).
    rewrite fsend_eq, facet_rows_eq, (concat_length_const nf).
    - unfold facet_markers. rewrite !map_length. lia.
    - intros e He. apply in_map_iff in He as (e' & <- & He'). rewrite isort_length. apply (facet_vertices r); [apply B; now left|exact He'].
  Qed.

  Lemma old_facets_spec : old_facets nf ms =
    if nonempty (concat (map (fun r => map snd (rm_fmarker (mesh_of ms r))) (ranks ms)))
    then Some (concat (map (old_fsend ms) (ranks ms)), concat (map (fun r => map snd (rm_fmarker (mesh_of ms r))) (ranks ms))) else None.
  Proof.
    destruct WS as (Hnf & _ & _ & _). pose proof facets_gathered_length as L. unfold old_facets. rewrite !np_concatenate_nonempty.
    set (I := concat (map (old_fsend ms) (ranks ms))) in *. set (V := concat (map (fun r => map snd (rm_fmarker (mesh_of ms r))) (ranks ms))) in *. clearbody I V.
    destruct V as [|v V]; [destruct I; [reflexivity|discriminate]|]. destruct I as [|i I]; [cbn [length] in L; nia|].
    unfold np_reshape. rewrite map_length, seq_length, L, Nat.div_mul by lia. rewrite Nat.eqb_refl. reflexivity.
  Qed.

  Lemma csend_none r : old_csend ms r = None <-> rm_cmarker (mesh_of ms r) = [].
  Proof. unfold old_csend, old_cell_rows. destruct (rm_cmarker (mesh_of ms r)); cbn; split; intros H; congruence. Qed.
  Lemma csend_some r : rm_cmarker (mesh_of ms r) <> [] -> old_csend ms r = Some (concat (old_cell_rows ms r)).
  Proof. unfold old_csend, old_cell_rows. destruct (rm_cmarker (mesh_of ms r)); [congruence|reflexivity]. Qed.

  (** Facets are marked somewhere; cells are marked everywhere; the rank's new mesh has entities. *)
  Definition facets_marked : Prop := exists s, s < length ms /\ rm_fmarker (mesh_of ms s) <> [].
  Definition cells_marked_on (s : nat) : Prop := rm_cmarker (mesh_of ms s) <> [].
  Definition has_entities (n : new_mesh) : Prop := (exists e, In e (nm_facets n) /\ e <> []) /\ (exists e, In e (nm_cells n) /\ e <> []).

  Lemma nonempty_concat {A} (l : list (list A)) : nonempty (concat l) = true <-> exists e, In e l /\ e <> [].
  Proof.
    unfold nonempty. rewrite Nat.ltb_lt. induction l as [|[|x a] l IH]; cbn [concat app length In].
    - split; [lia|intros (e & [] & _)].
    - rewrite IH. split; [intros (e & He & N); exists e; auto|intros (e & [<-|He] & N); [congruence|exists e; auto]].
    - split; [intros _; exists (x :: a); split; [now left|discriminate]|lia].
  Qed.
  Lemma facets_marked_dec : nonempty (concat (map (fun r => map snd (rm_fmarker (mesh_of ms r))) (ranks ms))) = true <-> facets_marked.
  Proof.
    rewrite nonempty_concat. unfold facets_marked, ranks. split.
    - intros (e & He & N). apply in_map_iff in He as (s & <- & Hs). apply in_seq in Hs. exists s. split; [lia|]. intros E. now rewrite E in N.
    - intros (s & Hs & N). exists (map snd (rm_fmarker (mesh_of ms s))). split; [apply in_map_iff; exists s; split; [reflexivity|apply in_seq; lia]|].
      intros E. apply map_eq_nil in E. congruence.
  Qed.

  Theorem C119_ends :
    forall (r : nat) (n : new_mesh) (pf pfi pc pci : list nat), r < length ms ->
      (forall e, In e (nm_facets n) -> length e = nf) -> (forall e, In e (nm_cells n) -> length e = nc) ->
      let cpp_facets := new_markers nf (map (facet_markers ms) (seq 0 (length ms))) n (nm_facets n) pf pfi in
      let cpp_cells := new_markers nc (map (cell_markers ms) (seq 0 (length ms))) n (nm_cells n) pc pci in
      (* it returns, with the markers of the C++ version, ... *)
      (facets_marked -> (forall s, s < length ms -> cells_marked_on s) -> has_entities n ->
         old_markers nf nc ms r n pf pfi pc pci = OReturns cpp_facets cpp_cells) /\
      (* ... raises, ... *)
      (~ facets_marked \/ ~ cells_marked_on r \/ (forall s, s < length ms -> cells_marked_on s) /\ ~ has_entities n ->
         old_markers nf nc ms r n pf pfi pc pci = ORaises) /\
      (* ... or waits for a rank that has raised. *)
      (facets_marked -> cells_marked_on r -> (exists s, s < length ms /\ ~ cells_marked_on s) ->
         old_markers nf nc ms r n pf pfi pc pci = OBlocks).
  Proof.
    intros r n pf pfi pc pci Hr HF HC. cbv zeta. destruct WS as (Hnf & Hnc & _ & _).
    assert (IR : forall s, s < length ms -> In s (ranks ms)) by (intros s Hs; apply in_seq; lia).
    assert (RI : forall s, In s (ranks ms) -> s < length ms) by (intros s Hs; apply in_seq in Hs; lia).
    pose proof old_facets_spec as OF. pose proof facets_marked_dec as FD. set (B := nonempty (concat (map (fun r => map snd (rm_fmarker (mesh_of ms r))) (ranks ms)))) in *.
    assert (RN : ranks ms <> []) by (intros E; specialize (IR r Hr); now rewrite E in IR).
    assert (SND : (forall s, s < length ms -> cells_marked_on s) -> all_sent (map (old_csend ms) (ranks ms)) = Some (map (fun s => concat (old_cell_rows ms s)) (ranks ms))).
    { intros H. apply all_sent_some. intros s Hs. apply csend_some, H, RI, Hs. }
    assert (NPC : forall (A : Type) (f : nat -> list A), np_concatenate (map f (ranks ms)) = Some (concat (map f (ranks ms)))).
    { intros A f. destruct (ranks ms); [congruence|reflexivity]. }
    assert (HE : has_entities n <-> nonempty (concat (nm_facets n)) = true /\ nonempty (concat (nm_cells n)) = true).
    { unfold has_entities. now rewrite !nonempty_concat. }
    split; [|split].
    - intros HM HCM HN. unfold old_markers. rewrite OF, (proj2 FD HM), (csend_some r (HCM r Hr)), (SND HCM), !NPC.
      destruct (proj1 HE HN) as [-> ->]. cbn [negb].
      assert (L : forall e, In e (original_entities n (nm_facets n)) -> length e = nf) by (intros e He; apply in_map_iff in He as (e' & <- & He'); rewrite map_length; now apply HF).
      assert (L' : forall e, In e (original_entities n (nm_cells n)) -> length e = nc) by (intros e He; apply in_map_iff in He as (e' & <- & He'); rewrite map_length; now apply HC).
      unfold new_markers. rewrite !gathered by first [exact Hnf|exact Hnc|exact facet_vertices|exact cell_vertices]. rewrite !entity_keys_spec by auto.
      f_equal; f_equal.
      + f_equal. apply map_ext. intros s. now rewrite fsend_eq, facet_rows_eq.
      + f_equal. apply map_ext. intros s. now rewrite facet_values.
      + f_equal. apply map_ext. intros s. now rewrite cell_rows_eq.
      + f_equal. apply map_ext. intros s. now rewrite cell_values.
    - intros H. unfold old_markers. rewrite OF. destruct B eqn:EB; [|reflexivity]. destruct H as [H|[H|[H N]]].
      + exfalso. apply H, FD. reflexivity.
      + rewrite (proj2 (csend_none r)); [reflexivity|]. unfold cells_marked_on in H. destruct (rm_cmarker (mesh_of ms r)); [reflexivity|]. exfalso. apply H. discriminate.
      + rewrite (csend_some r (H r Hr)), (SND H), !NPC. destruct (nonempty (concat (nm_facets n))) eqn:E1; [|reflexivity]. destruct (nonempty (concat (nm_cells n))) eqn:E2; [|reflexivity].
        exfalso. apply N, HE. now split.
    - intros HM HCr (s & Hs & N). unfold old_markers. rewrite OF, (proj2 FD HM), (csend_some r HCr).
      assert (EN : old_csend ms s = None). { apply csend_none. unfold cells_marked_on in N. destruct (rm_cmarker (mesh_of ms s)); [reflexivity|]. exfalso. apply N. discriminate. }
      rewrite (proj2 (all_sent_none _)); [reflexivity|]. apply in_map_iff. exists s. split; [exact EN|now apply IR].
  Qed.
End Ends.
Print Assumptions C119_ends.

(** ** It does not return for every distribution of the markers *)
Definition unmarked_body : rank_mesh :=
  mkRankMesh 3 [] 1 [[0; 1; 2]] [[0; 1]; [1; 2]; [0; 2]] (fun _ => 0) [2; 0; 0; 2; 1; 0; 3; 0; 0]%Q (fun v => v) [(0, 6%Z)] [].
Definition half_marked := [left_body; unmarked_body].

Lemma half_marked_shaped : well_shaped 2 2 3 half_marked.
Proof.
  repeat split; try lia; cbn in H; destruct r as [|[|r]]; try lia; cbn.
  all: try (intros e t [E|[]]; injection E as <- <-; reflexivity).
  all: try tauto.
  all: try (intros c [<-|[]]; reflexivity).
  all: exists 3; cbn; lia.
Qed.
Theorem C119_works_refuted :
  ~ (forall (gdim nf nc : nat) (ms : list rank_mesh) (r : nat) (n : new_mesh) (pf pfi pc pci : list nat),
       well_shaped gdim nf nc ms -> r < length ms ->
       (forall e, In e (nm_facets n) -> length e = nf) -> (forall e, In e (nm_cells n) -> length e = nc) -> has_entities n ->
       exists f c, old_markers nf nc ms r n pf pfi pc pci = OReturns f c).
Proof.
  intros H. destruct (H 2 2 3 half_marked 0 right_new [] [] [] [] half_marked_shaped ltac:(cbn; lia)) as (f & c & E).
  - intros e He. cbn in He. repeat (destruct He as [<-|He]; [reflexivity|]). destruct He.
  - intros e He. cbn in He. repeat (destruct He as [<-|He]; [reflexivity|]). destruct He.
  - split; [exists [0; 1]|exists [0; 1; 2]]; split; try discriminate; now left.
  - rewrite (proj2 (proj2 (C119_ends 2 2 3 half_marked half_marked_shaped 0 right_new [] [] [] [] ltac:(cbn; lia) ltac:(intros e He; cbn in He; repeat (destruct He as [<-|He]; [reflexivity|]); destruct He) ltac:(intros e He; cbn in He; repeat (destruct He as [<-|He]; [reflexivity|]); destruct He)))) in E; [discriminate E| | |].
    + exists 0. split; [cbn; lia|discriminate].
    + unfold cells_marked_on. discriminate.
    + exists 1. split; [cbn; lia|]. intros N. now apply N.
Qed.
Print Assumptions C119_works_refuted.

(** Two bodies with markers on both ranks: it returns the markers of the new mesh on rank 1. *)
Example C119_nonvacuous :
  well_shaped 2 2 3 bodies /\ facets_marked bodies /\ (forall s, s < length bodies -> cells_marked_on bodies s) /\ has_entities right_new /\
  old_markers 2 3 bodies 1 right_new
    (lex_argsort 2 (entity_keys 2 (original_entities right_new (nm_facets right_new)))) (lex_argsort 2 [1; 2; 3; 4; 4; 5]%Z)
    (lex_argsort 3 (entity_keys 3 (original_entities right_new (nm_cells right_new)))) (lex_argsort 3 [0; 1; 2; 3; 4; 5]%Z)
  = OReturns ([0; 1; 4], [6; 7; 5]%Z) ([0; 1], [2; 1]%Z).
Proof.
  split; [|split; [|split; [|split]]].
  - repeat split; try lia; cbn in H; destruct r as [|[|r]]; try lia; cbn.
    all: try (intros e t [E|[E|[]]]; injection E as <- <-; reflexivity).
    all: try (intros e t [E|[]]; injection E as <- <-; reflexivity).
    all: try (intros c [<-|[]]; reflexivity).
    all: exists 3; cbn; lia.
  - exists 0. split; [cbn; lia|discriminate].
  - intros s Hs. cbn in Hs. destruct s as [|[|s]]; try lia; discriminate.
  - split; [exists [0; 1]|exists [0; 1; 2]]; split; try discriminate; now left.
  - vm_compute. reflexivity.
Qed.
