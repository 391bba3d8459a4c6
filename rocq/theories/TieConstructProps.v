(** C98: which points a mesh tie connects. *)
From Coq Require Import List Arith ZArith Lia Bool Reals Lra.
Import ListNotations.
From Verif Require Import Prelude PreludeLemmas RSum SubMeshModel SubMeshProofs EntitiesModel EntitiesProofs RayModel KernelModel KernelSpec ElasticityProps DistanceModel DistanceProofs GapModel GapSpec GapProps ContactNormalProps CropModel CropProps ContactObjectModel ContactObjectProps TieConstructModel.
Local Open Scope R_scope.

(** ** Specification *)
(** The largest element of a list. *)
Definition largest (r : R) (l : list R) : Prop := In r l /\ forall x, In x l -> x <= r.
(** Cells of the owned facets of a surface. *)
Definition owned_cells (rows : facet_lists) (num_cells s : nat) : list nat := map fst (firstn (owned rows num_cells s) (nth s rows [])).
(** Quadrature point [q] of facet [i] of a surface; the point found for it on the other
    surface, in a cell with reference coordinates; the normal there. *)
Definition here (cmap : adj nat) (point : nat -> list R) (offsets : nat -> nat) (m : mesh_data) (Q : list (nat * nat)) (i q : nat) : nat -> R :=
  geometry_map m (hd 0%nat (links cmap (fst (nth i Q (0, 0)%nat)))) (point (offsets (snd (nth i Q (0, 0)%nat)) + q)%nat).
Definition there (m : mesh_data) (facet : nat) (X : list R) : nat -> R := geometry_map m (hd 0%nat (m_f_to_c m facet)) X.
Definition normal_there (m : mesh_data) (facet : nat) (X : list R) : nat -> R :=
  let cell := hd 0%nat (m_f_to_c m facet) in
  physical_facet_normal (m_tdim m) (m_gdim m) (jacobian_inverse (m_gdim m) (m_tdim m) (cell_jacobian m X (cell_coordinates m cell))) (m_ref_normal m (find_index facet (m_c_to_f m cell))).
Definition vector (gdim : nat) (v : nat -> R) : list R := map v (seq 0 gdim).

(** ** Lemmas *)
Lemma max_element_largest l : l <> [] -> largest (max_element l) l.
Proof.
  destruct l as [|a l]; [easy|intros _]. cbn [max_element]. revert a. induction l as [|b l IH]; intros a; cbn [fold_left].
  - split; [now left|]. intros x [<-|[]]. lra.
  - unfold rlt at 2. destruct (Rlt_dec a b) as [H|H].
    + destruct (IH b) as [I1 I2]. split; [right; exact I1|]. intros x [<-|Hx]; [|apply I2; exact Hx]. specialize (I2 b (or_introl eq_refl)). lra.
    + destruct (IH a) as [I1 I2]. split; [destruct I1 as [I1|I1]; [now left|right; now right]|].
      intros x [<-|[<-|Hx]]; [apply I2; now left|specialize (I2 a (or_introl eq_refl)); lra|apply I2; now right].
Qed.
Lemma largest_unique l a b : largest a l -> largest b l -> a = b.
Proof. intros [A1 A2] [B1 B2]. specialize (A2 b B1). specialize (B2 a A1). lra. Qed.
Lemma point_vector_entries nq gdim a f q v : (forall k, (k < gdim)%nat -> nth ((f * nq + q) * gdim + k)%nat a 0 = v k) -> ((f * nq + q) * gdim + gdim <= length a)%nat ->
  point_vector nq gdim a f q = vector gdim v.
Proof.
  intros H L. unfold point_vector, vector. apply (nth_ext' _ _ 0).
  - rewrite slice_length by lia. now rewrite map_length, seq_length.
  - intros k Hk. rewrite slice_length in Hk by lia. rewrite nth_slice by auto. rewrite (nth_map_lt _ (seq 0 gdim) k 0 0%nat) by (now rewrite seq_length).
    rewrite seq_nth by auto. apply H. exact Hk.
Qed.
Lemma pack_ny_length m nq nf map ref : length (pack_ny m nq nf map ref) = (nf * nq * m_gdim m)%nat.
Proof.
  unfold pack_ny. rewrite loop_length; [apply repeat_length|]. intros. apply loop_length. intros. cbv zeta.
  destruct (_ <? 0)%Z; auto. apply loop_length. intros. apply upd_length.
Qed.

(** The closest point search gives every facet room for its points. *)
Lemma closest_rows mq mc ce gjk point offsets Q C map ref :
  closest_point_map mq mc ce gjk point offsets (flat2 Q) C = Some (map, ref) -> rows_ok (length Q) (num_q offsets) map.
Proof.
  unfold closest_point_map. rewrite flat2_half. change (offsets 1%nat - offsets 0%nat)%nat with (num_q offsets).
  set (nq := num_q offsets). set (qps := compute_physical_points _ _ _ _ _). set (padded := if (_ =? 2)%nat then _ else _).
  assert (Lq : length qps = (length Q * nq * m_gdim mq)%nat).
  { unfold qps. destruct (physical_points mq point offsets Q (repeat 0 (length Q * nq * m_gdim mq))) as [-> _]; apply repeat_length. }
  assert (Lp : match padded with Some p => length p = (length Q * nq * 3)%nat | None => True end).
  { unfold padded. destruct (Nat.eqb_spec (m_gdim mq) 2) as [E|E].
    - rewrite loop_length; [apply repeat_length|]. intros. apply loop_length. intros. apply loop_length. intros. apply upd_length.
    - destruct (Nat.eqb_spec (m_gdim mq) 3) as [E3|E3]; [now rewrite Lq, E3|exact I]. }
  destruct padded as [p|]; [|discriminate]. destruct (_ || _)%bool; [|discriminate]. intros H. injection H as <- _.
  assert (Lm : length (fst (compute_projection_map mc ce gjk C p)) = (length Q * nq)%nat).
  { assert (D : (length p / 3 = length Q * nq)%nat) by (rewrite Lp; apply Nat.div_mul; lia).
    unfold compute_projection_map. destruct C; cbn [fst]; rewrite ?repeat_length, ?map_length, ?seq_length; exact D. }
  split; cbn [adj_off adj_data].
  - intros f Hf. rewrite !(nth_map_lt _ (seq 0 (length Q + 1)) _ 0%nat 0%nat), !seq_nth by (rewrite ?seq_length; lia). lia.
  - rewrite (nth_map_lt _ (seq 0 (length Q + 1)) _ 0%nat 0%nat), seq_nth by (rewrite ?seq_length; lia). rewrite Lm. lia.
Qed.
Lemma upd_upd {A} (l : list A) i a b : upd (upd l i a) i b = upd l i b.
Proof. revert i. induction l as [|x l IH]; intros [|i]; cbn [upd]; auto. now rewrite IH. Qed.
Lemma owned_le rows nc s : (owned rows nc s <= length (nth s rows []))%nat.
Proof.
  unfold owned, count_local. rewrite flat2_half. generalize (length (nth s rows [])) as n. induction n as [|n IH]; cbn [count_local_from]; [lia|].
  destruct (_ <? _)%nat; lia.
Qed.

Section Tie.
  Context (cmap : adj nat) (point : nat -> list R) (offsets : nat -> nat) (closest_entity : list nat -> list R -> nat) (gjk : list (list R) -> list R -> list R).
  Context (cell_size : nat -> R) (rows : facet_lists) (pairs : list (nat * nat)) (num_cells : nat) (m : mesh_data).
  Context (Adm : forall qc, In qc pairs -> (fst qc < length rows)%nat /\ (snd qc < length rows)%nat).
  Notation search := (fun m q c => closest_point_map m m closest_entity gjk point offsets q c).
  Notation mode := (repeat false (length pairs)).
  Notation quad k := (fst (nth k pairs (0, 0)%nat)).
  Notation nq := (num_q offsets).
  Notation fnd := (found cmap (fun _ => search) rows pairs mode num_cells).
  Lemma tie_admissible : admissible rows pairs mode.
  Proof using Adm. split; [exact Adm|apply repeat_length]. Qed.

  (** Facet map of the pair after its pass. *)
  Definition cropped (k : nat) (map : adj Z) (ref qp : list R) : adj Z :=
    let nf := owned rows num_cells (quad k) in
    if (0 <? nf)%nat
    then crop_invalid_points nf nq (m_gdim m) (pack_gap m nq nf map ref qp) (pack_ny m nq nf map ref)
           (max_element (List.map cell_size (owned_cells rows num_cells (quad k)))) map
    else map.
  Notation kept := (kept rows pairs mode num_cells).

  Lemma tie_pair_eq ob k ob' : kept ob -> (k < length pairs)%nat -> tie_pair cmap point offsets search cell_size m k ob = Done ob' ->
    exists map ref old, fnd k m = Some (map, ref) /\
      ob_facet_maps ob' = upd (ob_facet_maps ob) k (Some (cropped k map ref (create_q_phys cmap point offsets m (the_pair rows pairs num_cells k) old))) /\ kept ob'.
  Proof using Adm.
    intros K Hk. unfold tie_pair.
    pose proof (create_eq cmap point offsets (fun _ => search) rows pairs mode num_cells tie_admissible ob k m K Hk) as E.
    pose proof (fun o => create_kept cmap point offsets (fun _ => search) rows pairs mode num_cells tie_admissible ob k m o K Hk) as CK.
    rewrite E in CK |- *. clear E. destruct (fnd k m) as [[map ref]|]; [|discriminate].
    destruct (Nat.ltb_spec (quad k) (2 * total rows)) as [Lq|Lq]; [|discriminate]. cbn [and_then].
    set (ob1 := mkObject _ _ _ _ _ _ _ _) in *. specialize (CK ob1 eq_refl).
    destruct (pair_in rows pairs mode tie_admissible k Hk) as [Hq _].
    assert (Ap : at_ (ob_pairs ob1) k = Done (nth k pairs (0, 0)%nat)) by (rewrite (k_pairs _ _ _ _ _ CK); now apply at_lt).
    assert (Al : at_ (ob_local ob1) (quad k) = Done (owned rows num_cells (quad k))).
    { rewrite (k_local _ _ _ _ _ CK), (at_lt _ (quad k) 0%nat) by (rewrite map_length, seq_length; auto).
      now rewrite (nth_map_lt _ (seq 0 (length rows)) (quad k) 0%nat 0%nat), seq_nth by (rewrite ?seq_length; auto). }
    assert (Am : at_ (ob_facet_maps ob1) k = Done (Some map)).
    { rewrite (at_lt _ k None) by (now rewrite (k_maps _ _ _ _ _ CK)). unfold ob1. cbn [ob_facet_maps]. rewrite nth_upd_same; [reflexivity|]. now rewrite (k_maps _ _ _ _ _ K). }
    assert (Ar : at_ (ob_reference ob1) k = Done ref).
    { rewrite (at_lt _ k []) by (now rewrite (k_refs _ _ _ _ _ CK)). unfold ob1. cbn [ob_reference]. rewrite nth_upd_same; [reflexivity|]. now rewrite (k_refs _ _ _ _ _ K). }
    assert (Aq : at_ (ob_qp ob1) (quad k) = Done (create_q_phys cmap point offsets m (the_pair rows pairs num_cells k) (nth (quad k) (ob_qp ob) []))).
    { rewrite (at_lt _ (quad k) []) by (now rewrite (k_qp _ _ _ _ _ CK)). unfold ob1. cbn [ob_qp]. rewrite nth_upd_same; [reflexivity|]. now rewrite (k_qp _ _ _ _ _ K). }
    rewrite Ap. cbn [and_then]. rewrite Al. cbn [and_then]. unfold normals_of_pair, gap_of_pair, crop_pair.
    rewrite Ap. cbn [and_then]. rewrite Al. cbn [and_then]. rewrite Am. cbn [and_then]. rewrite Ar. cbn [and_then]. rewrite Aq. cbn [and_then].
    unfold surface_links. rewrite (k_surfaces _ _ _ _ _ CK), adjacency_nodes, (proj2 (Nat.ltb_lt _ _) Hq), adjacency_links by auto. cbn [and_then].
    assert (Ec : List.map (fun e => nth (2 * e) (flat2 (nth (quad k) rows [])) 0%nat) (seq 0 (owned rows num_cells (quad k))) = owned_cells rows num_cells (quad k)).
    { pose proof (owned_le rows num_cells (quad k)) as OL. unfold owned_cells. apply (nth_ext' _ _ 0%nat); [rewrite !map_length, seq_length, firstn_length; lia|].
      intros i Hi. rewrite map_length, seq_length in Hi. rewrite (nth_map_lt _ (seq 0 _) i 0%nat 0%nat), seq_nth by (rewrite ?seq_length; auto). cbn [plus].
      rewrite (nth_map_lt _ (firstn _ _) i 0%nat (0, 0)%nat) by (rewrite firstn_length; lia). rewrite nth_firstn by auto. apply flat2_fst. lia. }
    rewrite Ec. intros H. exists map, ref, (nth (quad k) (ob_qp ob) []). split; [reflexivity|].
    unfold cropped. destruct (Nat.ltb_spec 0 (owned rows num_cells (quad k))) as [Lo|Lo].
    - destruct (Nat.eqb_spec (owned rows num_cells (quad k)) 0) as [Z|_]; [lia|]. cbn [and_then] in H. injection H as <-. cbn [ob_facet_maps]. split.
      + unfold ob1. cbn [ob_facet_maps]. apply upd_upd.
      + constructor; cbn [ob_pairs ob_facet_maps ob_reference ob_qp ob_max_links ob_surfaces ob_local ob_mode]; rewrite ?upd_length; first [reflexivity|apply CK|apply K].
    - injection H as <-. split; [reflexivity|exact CK].
  Qed.

  Lemma tie_construct_state ob : tie_construct cmap point offsets search cell_size m (adjacency rows) pairs num_cells = Done ob ->
    forall k, (k < length pairs)%nat -> exists map ref old, fnd k m = Some (map, ref) /\
      nth k (ob_facet_maps ob) None = Some (cropped k map ref (create_q_phys cmap point offsets m (the_pair rows pairs num_cells k) old)).
  Proof using Adm.
    unfold tie_construct. set (start := construct _ _ _ _).
    assert (G : forall n, (n <= length pairs)%nat -> forall ob,
      for_loop n (fun i o => and_then o (fun ob => tie_pair cmap point offsets search cell_size m i ob)) (Done start) = Done ob ->
      kept ob /\ forall k, (k < n)%nat -> exists map ref old, fnd k m = Some (map, ref) /\
        nth k (ob_facet_maps ob) None = Some (cropped k map ref (create_q_phys cmap point offsets m (the_pair rows pairs num_cells k) old))).
    { induction n as [|n IH]; intros Hn ob1 H.
      - cbn in H. injection H as <-. split; [apply kept_start|intros; lia].
      - rewrite for_loop_S in H. destruct (for_loop n _ (Done start)) as [ob0| |]; cbn [and_then] in H; try discriminate.
        destruct (IH ltac:(lia) ob0 eq_refl) as [K0 P0]. destruct (tie_pair_eq ob0 n ob1 K0 ltac:(lia) H) as (map & ref & old & F & Em & K1). split; [exact K1|].
        intros k Hk. rewrite Em. destruct (Nat.eq_dec k n) as [->|N].
        + exists map, ref, old. split; [exact F|]. rewrite nth_upd_same; [reflexivity|]. rewrite (k_maps _ _ _ _ _ K0). lia.
        + rewrite nth_upd_other by auto. apply P0. lia. }
    intros H. apply (G (length pairs) (le_n _) ob H).
  Qed.
End Tie.

(** ** C98 *)
(** After construction a quadrature point of an owned facet is tied to the facet the closest
    point search found, unless the gap to the point found is longer than the largest cell at
    the owned facets of the surface on this process, or longer than 1e-7 and at more than
    about 45 degrees to the normal there; in these cases it is not tied. *)
Theorem C98_tied_points :
  forall cmap point offsets closest_entity gjk cell_size rows pairs num_cells m ob,
    (forall qc, In qc pairs -> (fst qc < length rows)%nat /\ (snd qc < length rows)%nat) ->
    tie_construct cmap point offsets (fun m q c => closest_point_map m m closest_entity gjk point offsets q c) cell_size m (adjacency rows) pairs num_cells = Done ob ->
  forall k, (k < length pairs)%nat ->
    let s := fst (nth k pairs (0, 0)%nat) in
    let nq := num_q offsets in
    exists map ref final,
      found cmap (fun _ m q c => closest_point_map m m closest_entity gjk point offsets q c) rows pairs (repeat false (length pairs)) num_cells k m = Some (map, ref) /\
      nth k (ob_facet_maps ob) None = Some final /\
      forall h i q, largest h (List.map cell_size (owned_cells rows num_cells s)) -> (i < owned rows num_cells s)%nat -> (q < nq)%nat ->
        let closest := nth q (links map i) 0%Z in
        let tied := nth q (links final i) 0%Z in
        let X := slice ref ((i * nq + q) * m_tdim m) (m_tdim m) in
        let gap := vector (m_gdim m) (fun k => there m (Z.to_nat closest) X k - here cmap point offsets m (nth s rows []) i q k) in
        let n := vector (m_gdim m) (normal_there m (Z.to_nat closest) X) in
        ((closest < 0)%Z -> (tied < 0)%Z) /\
        ((0 <= closest)%Z -> ~ invalid h gap n -> tied = closest) /\
        ((0 <= closest)%Z -> invalid h gap n -> (tied < 0)%Z).
Proof.
  intros cmap point offsets ce gjk cell_size rows pairs nc m ob Adm H k Hk s nq.
  destruct (tie_construct_state _ _ _ _ _ _ _ _ _ _ Adm ob H k Hk) as (map & ref & old & F & Em).
  exists map, ref. eexists. split; [exact F|]. split; [exact Em|]. clear Em.
  intros h i q Hh Hi Hq closest. cbv zeta. fold s.
  assert (RO : rows_ok (owned rows nc s) nq map).
  { unfold found in F. rewrite (quadrature_tuples_flat cmap (the_pair rows pairs nc k) (nth s rows []) eq_refl) in F. apply closest_rows in F.
    rewrite map_length, firstn_length in F. cbn [cp_local the_pair] in F. fold s in F. pose proof (owned_le rows nc s). fold nq in F.
    now rewrite Nat.min_l in F by auto. }
  set (qp := create_q_phys cmap point offsets m (the_pair rows pairs nc k) old).
  unfold cropped. cbv zeta. fold s nq. rewrite (proj2 (Nat.ltb_lt 0 (owned rows nc s))) by lia.
  set (gp := pack_gap m nq (owned rows nc s) map ref qp). set (ny := pack_ny m nq (owned rows nc s) map ref).
  assert (Ht : max_element (List.map cell_size (owned_cells rows nc s)) = h).
  { apply (largest_unique (List.map cell_size (owned_cells rows nc s))); [|exact Hh]. apply max_element_largest. intros E. rewrite E in Hh. now destruct Hh. }
  rewrite Ht.
  assert (L1 : length gp = (owned rows nc s * nq * m_gdim m)%nat) by apply pack_gap_length.
  assert (L2 : length ny = (owned rows nc s * nq * m_gdim m)%nat) by apply pack_ny_length.
  destruct (C22_crop_invalid_points (owned rows nc s) nq (m_gdim m) gp ny h map ltac:(lia) ltac:(lia) RO) as (C1 & C2 & C3 & _).
  set (final := crop_invalid_points _ _ _ _ _ _ map) in *.
  specialize (C3 i q Hi Hq). cbv zeta in C3.
  assert (W : (nq <= nth (S i) (adj_off map) 0 - nth i (adj_off map) 0)%nat) by (destruct RO as [R1 _]; specialize (R1 i Hi); lia).
  assert (Ef : nth q (links final i) 0%Z = nth (nth i (adj_off map) 0 + q)%nat (adj_data final) 0%Z).
  { unfold links. rewrite C1. apply nth_slice. lia. }
  assert (Ec : closest = nth (nth i (adj_off map) 0 + q)%nat (adj_data map) 0%Z) by (unfold closest, links; apply nth_slice; lia).
  rewrite Ef. clear Ef. rewrite <- Ec in C3.
  assert (Pb : ((i * nq + q) * m_gdim m + m_gdim m <= owned rows nc s * nq * m_gdim m)%nat).
  { assert (i * nq + q + 1 <= owned rows nc s * nq)%nat by nia. nia. }
  split; [|split].
  - intros Hc. destruct (invalid_dec h (point_vector nq (m_gdim m) gp i q) (point_vector nq (m_gdim m) ny i q)) as [D|D].
    + destruct C3 as [C3 _]. rewrite C3 by exact D. lia.
    + destruct C3 as [_ C3]. rewrite C3 by exact D. exact Hc.
  - intros Hc. destruct C3 as [_ C3]. intros V. apply C3. intros D. apply V. clear C3 V.
    revert D. erewrite (point_vector_entries nq (m_gdim m) gp), (point_vector_entries nq (m_gdim m) ny); [intros D; exact D| | | |]; try lia.
    + intros j Hj. unfold ny. rewrite pack_ny_entry by auto. cbv zeta. fold closest. destruct (Z.ltb_spec closest 0); [lia|]. reflexivity.
    + intros j Hj. unfold gp. rewrite pack_gap_entry by auto. fold closest. destruct (Z.ltb_spec closest 0); [lia|].
      unfold qp. rewrite (q_phys_entry cmap point offsets m (the_pair rows pairs nc k) (nth s rows []) old eq_refl) by (auto; pose proof (owned_le rows nc s); lia). reflexivity.
  - intros Hc V. destruct C3 as [C3 _]. rewrite C3; [lia|]. revert V.
    erewrite (point_vector_entries nq (m_gdim m) gp), (point_vector_entries nq (m_gdim m) ny); [intros D; exact D| | | |]; try lia.
    + intros j Hj. unfold ny. rewrite pack_ny_entry by auto. cbv zeta. fold closest. destruct (Z.ltb_spec closest 0); [lia|]. reflexivity.
    + intros j Hj. unfold gp. rewrite pack_gap_entry by auto. fold closest. destruct (Z.ltb_spec closest 0); [lia|].
      unfold qp. rewrite (q_phys_entry cmap point offsets m (the_pair rows pairs nc k) (nth s rows []) old eq_refl) by (auto; pose proof (owned_le rows nc s); lia). reflexivity.
Qed.
Print Assumptions C98_tied_points.

(** The normal of the criterion is the outward unit normal of the facet. *)
Theorem C98_normal :
  forall m c l X, dimensions m -> nonzero m (m_ref_normal m l) -> surface_facet m c l -> nonsingular m (geometry_jacobian m c X) ->
    outward_unit_normal m (geometry_jacobian m c X) (m_ref_normal m l) (normal_there m (facet_index m c l) X).
Proof.
  intros m c l X D NZ SF NS. unfold normal_there. rewrite (sf_owner _ _ _ SF). cbn [hd].
  unfold facet_index. rewrite find_index_nodup by (apply (sf_distinct _ _ _ SF) || apply (sf_local _ _ _ SF)).
  now apply normal_outward.
Qed.
Print Assumptions C98_normal.

(** A tied point is at most one (largest) cell away from the facet it is tied to, and a
    point whose closest point is no further than 1e-7 is always tied. *)
Theorem C98_close :
  forall cmap point offsets closest_entity gjk cell_size rows pairs num_cells m ob,
    (forall qc, In qc pairs -> (fst qc < length rows)%nat /\ (snd qc < length rows)%nat) ->
    tie_construct cmap point offsets (fun m q c => closest_point_map m m closest_entity gjk point offsets q c) cell_size m (adjacency rows) pairs num_cells = Done ob ->
  forall k, (k < length pairs)%nat ->
    let s := fst (nth k pairs (0, 0)%nat) in
    let nq := num_q offsets in
    exists map ref final,
      found cmap (fun _ m q c => closest_point_map m m closest_entity gjk point offsets q c) rows pairs (repeat false (length pairs)) num_cells k m = Some (map, ref) /\
      nth k (ob_facet_maps ob) None = Some final /\
      forall h i q, largest h (List.map cell_size (owned_cells rows num_cells s)) -> (i < owned rows num_cells s)%nat -> (q < nq)%nat ->
        let closest := nth q (links map i) 0%Z in
        let tied := nth q (links final i) 0%Z in
        let X := slice ref ((i * nq + q) * m_tdim m) (m_tdim m) in
        let gap := vector (m_gdim m) (fun k => there m (Z.to_nat closest) X k - here cmap point offsets m (nth s rows []) i q k) in
        ((0 <= tied)%Z -> tied = closest /\ length2 gap <= h) /\
        ((0 <= closest)%Z -> length2 gap <= h -> length2 gap <= 1 / 10000000 -> tied = closest).
Proof.
  intros cmap point offsets ce gjk cell_size rows pairs nc m ob Adm H k Hk s nq.
  destruct (C98_tied_points _ _ _ _ _ _ _ _ _ _ _ Adm H k Hk) as (map & ref & final & F & Ef & P). cbv zeta in P.
  exists map, ref, final. split; [exact F|]. split; [exact Ef|]. intros h i q Hh Hi Hq. cbv zeta.
  destruct (P h i q Hh Hi Hq) as (P1 & P2 & P3). fold s nq in P1, P2, P3.
  set (closest := nth q (links map i) 0%Z) in *. set (tied := nth q (links final i) 0%Z) in *.
  set (gap := vector (m_gdim m) (fun k => there m (Z.to_nat closest) _ k - _)) in *. set (n := vector (m_gdim m) (normal_there _ _ _)) in *.
  split.
  - intros Ht. destruct (Z.lt_ge_cases closest 0) as [L|L]; [specialize (P1 L); lia|].
    destruct (invalid_dec h gap n) as [D|D]; [specialize (P3 L D); lia|]. split; [auto|].
    apply Rnot_lt_le. intros C. apply D. left. exact C.
  - intros L Hg Hs. apply P2; [exact L|]. intros [D|[D _]]; lra.
Qed.
Print Assumptions C98_close.

(** The tolerance is taken over the owned facets of the process, so the tied points depend on
    the partition: a facet between two points, gap 1/2 along the normal.  Owned together with
    a facet at a cell of size 1 it is tied, alone on a process (cell size 1/10) it is not. *)
Theorem C98_partition_refuted :
  ~ (forall (cell_size : nat -> R) (cells cells' : list nat) (c : nat) (h h' : R) (gap n : list R),
       In c cells -> In c cells' -> largest h (List.map cell_size cells) -> largest h' (List.map cell_size cells') ->
       (invalid h gap n <-> invalid h' gap n)).
Proof.
  intros H. specialize (H (fun c => if (c =? 0)%nat then 1 else 1 / 10) [0%nat; 1%nat] [1%nat] 1%nat 1 (1 / 10) [0; 1 / 2] [0; 1]).
  assert (L : length2 [0; 1 / 2] = 1 / 2).
  { unfold length2. cbn [dot]. replace (0 * 0 + (1 / 2 * (1 / 2) + 0)) with (1 / 2 * (1 / 2)) by ring. apply sqrt_square. lra. }
  destruct H as [_ H].
  - right. now left.
  - now left.
  - split; [now left|]. cbn. intros x [<-|[<-|[]]]; lra.
  - split; [now left|]. cbn. intros x [<-|[]]; lra.
  - destruct H as [H|[_ H]].
    + left. rewrite L. lra.
    + rewrite L in H. lra.
    + cbn [dot] in H. rewrite L in H. replace (0 * 0 + (1 / 2 * 1 + 0)) with (1 / 2) in H by ring. rewrite Rabs_pos_eq in H; lra.
Qed.
Print Assumptions C98_partition_refuted.

(** Two surfaces with one and two facets, one of them a ghost: the construction succeeds. *)
Example C98_example :
  let rows := [[(0, 1)]; [(1, 0); (7, 2)]]%nat in
  let m := mkMesh 2 2 3 true [] (fun _ => [0%nat; 1%nat; 2%nat]) (fun _ _ => 0) (fun _ _ _ => 0) (fun _ => 1) (fun _ x => x) (fun _ _ => 0) (fun _ => []) (fun _ => []) (fun _ => [0%nat]) in
  (forall qc, In qc [(0, 1); (1, 0)]%nat -> (fst qc < length rows)%nat /\ (snd qc < length rows)%nat) /\
  largest 2 (List.map (fun c => INR c + 1) (owned_cells rows 5 1)) /\
  exists ob, tie_construct (mkAdj [] [0%nat]) (fun _ => [0; 0]) (fun i => (2 * i)%nat)
    (fun m q c => closest_point_map m m (fun _ _ => 0%nat) (fun _ _ => []) (fun _ => [0; 0]) (fun i => (2 * i)%nat) q c) (fun c => INR c + 1) m (adjacency rows) [(0, 1); (1, 0)]%nat 5 = Done ob.
Proof.
  cbv zeta. split; [|split].
  - intros qc [<-|[<-|[]]]; cbn; lia.
  - split; [left; cbn; lra|]. intros x [<-|[]]. cbn. lra.
  - eexists. reflexivity.
Qed.
