(** C103: on the mesh made by create_contact_mesh the search for the closest facet, done by
    each rank on its own facets and ghosts, finds what a search over all ranks finds.
    On simplices.  DOLFINx' create_mesh and its facets enter by their contracts. *)
From Coq Require Import List Arith ZArith QArith Lia Bool Permutation Sorted.
Import ListNotations.
From Verif Require Import Prelude PreludeLemmas PointCloudModel PointCloudSpec GhostingModel LexMatchProofs GhostingProofs GhostingProps
  ContactMeshModel ContactMeshSpec ContactMeshProps.
Local Open Scope nat_scope.

(** ** Specification *)

(** Positions of the vertices of a facet, on the mesh of one rank before and after. *)
Definition old_positions (gdim : nat) (m : rank_mesh) (f : nat) : list (list Q) :=
  map (fun v => map (vertex_coordinate m v) (seq 0 gdim)) (nth f (rm_facets m) []).
Definition new_positions (gdim : nat) (n : new_mesh) (a : nat) : list (list Q) :=
  map (fun v => map (coordinate (nm_x n) (nm_v2g n v)) (seq 0 gdim)) (nth a (nm_facets n) []).

(** The facets of a simplex mesh: the vertices of each are in one cell, and any [nv] distinct
    vertices of a cell are a facet (DOLFINx' create_entities). *)
Definition simplex_facets (nv : nat) (n : new_mesh) : Prop :=
  (forall e, In e (nm_facets n) -> length e = nv /\ exists cell, In cell (nm_cells n) /\ incl e cell) /\
  (forall cell vs, In cell (nm_cells n) -> incl vs cell -> NoDup vs -> length vs = nv ->
     exists e, In e (nm_facets n) /\ Permutation e vs) /\
  (forall a b, a < length (nm_facets n) -> b < length (nm_facets n) ->
     Permutation (map (input_vertex n) (nth a (nm_facets n) [])) (map (input_vertex n) (nth b (nm_facets n) [])) -> a = b).

(** The marked facets of a rank: [nv] distinct vertices of the owned cell recorded for them. *)
Definition marked_simplex_facets (nv : nat) (ms : list rank_mesh) : Prop :=
  forall r f t, r < length ms -> In (f, t) (rm_fmarker (mesh_of ms r)) ->
    let e := nth f (rm_facets (mesh_of ms r)) [] in
    length e = nv /\ NoDup (map (local_to_global ms r) e) /\
    rm_fcell (mesh_of ms r) f < rm_ncells (mesh_of ms r) /\
    incl e (nth (rm_fcell (mesh_of ms r) f) (rm_cells (mesh_of ms r)) []) /\
    (forall u, In u e -> local_vertex (mesh_of ms r) u).

(** Ranks sharing a facet agree on its marker. *)
Definition consistent_markers (ms : list rank_mesh) : Prop :=
  forall r e t r' e' t', r < length ms -> r' < length ms -> In (e, t) (rm_fmarker (mesh_of ms r)) -> In (e', t') (rm_fmarker (mesh_of ms r')) ->
    Permutation (map (local_to_global ms r) (nth e (rm_facets (mesh_of ms r)) [])) (map (local_to_global ms r') (nth e' (rm_facets (mesh_of ms r')) [])) -> t = t'.

(** Every owned vertex is in an owned cell of some rank. *)
Definition vertices_in_cells (ms : list rank_mesh) : Prop :=
  forall s w, s < length ms -> w < rm_vertices (mesh_of ms s) ->
    exists r c u, r < length ms /\ c < rm_ncells (mesh_of ms r) /\ In u (nth c (rm_cells (mesh_of ms r)) []) /\ local_to_global ms r u = local_to_global ms s w.

(** Candidates with tag [t]: on all ranks before, on one rank after. *)
Definition candidate_anywhere (ms : list rank_mesh) (t : Z) (r f : nat) : Prop :=
  r < length ms /\ In (f, t) (rm_fmarker (mesh_of ms r)).
Definition candidate_here (markers : list nat * list Z) (t : Z) (a : nat) : Prop :=
  In (a, t) (combine (fst markers) (snd markers)).

(** ** Proofs *)
Lemma pull_back_list {A B} (f : A -> B) (cell : list A) (l : list B) :
  (forall x, In x l -> In x (map f cell)) -> exists vs, incl vs cell /\ map f vs = l.
Proof.
  induction l as [|x l IH]; intros H; [exists []; split; [intros ? []|reflexivity]|].
  destruct IH as (vs & I & E); [intros; apply H; now right|].
  destruct (proj1 (in_map_iff f cell x) (H x (or_introl eq_refl))) as (v & Ev & Hv).
  exists (v :: vs). split; [intros y [<-|Hy]; auto|]. cbn [map]. now rewrite Ev, E.
Qed.

Section Search.
  Variables (gdim nv : nat) (ms : list rank_mesh) (tags : list Z) (R : Q) (order : list nat) (news : nat -> new_mesh) (q : nat) (p_local p_in : list nat).
  Let n := news q.
  Hypothesis HD : distributed gdim ms.
  Hypothesis HN : forall r, r < length ms -> contact_mesh gdim ms tags R order r (news r).
  Hypothesis Hq : q < length ms.
  Hypothesis Hnv : 0 < nv.
  Hypothesis HV : nodes_at_vertices gdim ms.
  Hypothesis HU : vertices_in_cells ms.
  Hypothesis HF : simplex_facets nv n.
  Hypothesis HM : marked_simplex_facets nv ms.
  Hypothesis HC : consistent_markers ms.
  Let all := concat (map (facet_markers ms) (seq 0 (length ms))).
  Hypothesis HL : lex_sort_result (length (nm_facets n)) (fun a => isort zleb (map (fun v => Z.of_nat (input_vertex n v)) (nth a (nm_facets n) []))) p_local.
  Hypothesis HI : lex_sort_result (length all) (fun a => isort zleb (fst (nth a all ([], 0%Z)))) p_in.
  Let res := new_markers nv (map (facet_markers ms) (seq 0 (length ms))) n (nm_facets n) p_local p_in.

  Lemma here_iff a t : candidate_here res t a <->
    a < length (nm_facets n) /\ exists r e, candidate_anywhere ms t r e /\
      Permutation (map (local_to_global ms r) (nth e (rm_facets (mesh_of ms r)) [])) (map (input_vertex n) (nth a (nm_facets n) [])).
  Proof using HC HF HI HL HM Hnv.
    destruct HF as (F1 & F2 & F3).
    destruct (C85_markers nv ms n p_local p_in Hnv rm_facets rm_fmarker (nm_facets n) (facet_markers ms)) as [_ K]; auto.
    - intros r e t' Hr He. apply (HM r e t' Hr He).
    - intros e He. apply (F1 e He).
    - unfold candidate_here, res. rewrite K. unfold candidate_anywhere. split.
      + intros (Ha & r & e & Hr & He & P). split; [exact Ha|]. exists r, e. auto.
      + intros (Ha & r & e & [Hr He] & P). split; [exact Ha|]. exists r, e. auto.
  Qed.

  (** The same facet before and after has its vertices at the same places. *)
  Lemma same_positions a r e t : a < length (nm_facets n) -> candidate_anywhere ms t r e ->
    Permutation (map (local_to_global ms r) (nth e (rm_facets (mesh_of ms r)) [])) (map (input_vertex n) (nth a (nm_facets n) [])) ->
    Permutation (old_positions gdim (mesh_of ms r) e) (new_positions gdim n a).
  Proof using HD HF HM HN HU HV Hq.
    intros Ha [Hr He] P. destruct (HM r e t Hr He) as (L & ND & _ & _ & LV).
    destruct HF as (F1 & _). destruct (F1 (nth a (nm_facets n) []) (nth_In _ _ Ha)) as (L' & cell & Hcell & Hincl).
    assert (X : forall v u j, In v (nth a (nm_facets n) []) -> In u (nth e (rm_facets (mesh_of ms r)) []) -> input_vertex n v = local_to_global ms r u -> j < gdim ->
      coordinate (nm_x n) (nm_v2g n v) j = vertex_coordinate (mesh_of ms r) u j).
    { intros v u j Hv Hu E Hj. apply (proj2 (C85_coordinates_exact gdim ms tags R order news HD HN HU) HV q cell v r u j); auto. }
    unfold old_positions, new_positions. revert P LV X.
    generalize (nth a (nm_facets n) []) as new. generalize (nth e (rm_facets (mesh_of ms r)) []) as old. clear - gdim.
    intros old. induction old as [|u old IH]; intros new P LV X.
    - cbn [map] in *. apply Permutation_nil in P. destruct new; [constructor|discriminate].
    - cbn [map] in *. assert (I : In (local_to_global ms r u) (map (input_vertex n) new)) by (eapply Permutation_in; [exact P|now left]).
      apply in_map_iff in I as (v & Ev & Hv). apply in_split in Hv as (n1 & n2 & ->).
      rewrite map_app in *. cbn [map] in *. rewrite Ev in P. apply Permutation_cons_app_inv in P. rewrite <- map_app in P.
      assert (E : map (vertex_coordinate (mesh_of ms r) u) (seq 0 gdim) = map (coordinate (nm_x n) (nm_v2g n v)) (seq 0 gdim)).
      { apply map_ext_in. intros j Hj. apply in_seq in Hj. symmetry. apply X; [apply in_or_app; right; now left|now left|exact Ev|lia]. }
      rewrite E. apply Permutation_cons_app. rewrite <- map_app. apply IH; [exact P|intros; apply LV; now right|].
      intros v' u' j Hv' Hu'. apply X; [|now right]. apply in_app_or in Hv' as [K|K]; apply in_or_app; [now left|right; now right].
  Qed.

  (** A candidate whose cell is on rank [q] is a candidate there. *)
  Lemma present r f t cell : candidate_anywhere ms t r f -> In cell (nm_cells n) ->
    Permutation (map (input_vertex n) cell) (map (local_to_global ms r) (nth (rm_fcell (mesh_of ms r) f) (rm_cells (mesh_of ms r)) [])) ->
    exists a, candidate_here res t a /\ Permutation (old_positions gdim (mesh_of ms r) f) (new_positions gdim n a).
  Proof using All.
    intros Hc Hcell P. assert (Hc' := Hc). destruct Hc' as [Hr Hf]. destruct (HM r f t Hr Hf) as (L & ND & _ & Hincl & _).
    destruct (pull_back_list (input_vertex n) cell (map (local_to_global ms r) (nth f (rm_facets (mesh_of ms r)) []))) as (vs & I & E).
    { intros x Hx. eapply Permutation_in; [apply Permutation_sym; exact P|]. apply in_map_iff in Hx as (u & <- & Hu). apply in_map. now apply Hincl. }
    assert (NV : NoDup vs) by (apply (NoDup_map_inv (input_vertex n)); rewrite E; exact ND).
    assert (LV : length vs = nv) by (rewrite <- (map_length (input_vertex n)), E, map_length; exact L).
    destruct HF as (_ & F2 & _). destruct (F2 cell vs Hcell I NV LV) as (e & He & Pe).
    destruct (In_nth _ _ [] He) as (a & Ha & Ea).
    assert (PA : Permutation (map (local_to_global ms r) (nth f (rm_facets (mesh_of ms r)) [])) (map (input_vertex n) (nth a (nm_facets n) []))).
    { rewrite <- E, Ea. apply Permutation_map, Permutation_sym, Pe. }
    exists a. split; [apply here_iff; split; [exact Ha|]; exists r, f; auto|]. now apply (same_positions a r f t).
  Qed.
End Search.

(** Rank [q] has a tagged facet [g] (entry [k] of its tagged facets).  [D]: distance of a
    point on [g] to a facet, given by the positions of the facet's vertices in any order.
    Suppose that among the facets of all ranks with tag [tc] one, [f] on rank [p], is at the
    least distance, and that it is owned by the rank or has its midpoint within [R] of the
    midpoint of [g].  Then a search over rank [q]'s own candidates finds this distance: every
    candidate there exists on some rank, at the same position, and those of them with the
    least distance are at the least distance among all candidates of all ranks; there is one.
    Missing (as in C85): [g]'s midpoint is not the first in the sweep order, and the cell of
    [f] has no other tagged facet.  See C103_two_facets_refuted. *)
Theorem C103_parallel_search_partial :
  forall (gdim nv : nat) (ms : list rank_mesh) (tags : list Z) (R : Q) (order : list nat) (news : nat -> new_mesh) (q : nat) (p_local p_in : list nat),
    distributed gdim ms -> (forall r, r < length ms -> contact_mesh gdim ms tags R order r (news r)) -> q < length ms -> 0 < nv ->
    nodes_at_vertices gdim ms -> vertices_in_cells ms ->
    simplex_facets nv (news q) -> marked_simplex_facets nv ms -> consistent_markers ms ->
    let n := news q in
    let all := concat (map (facet_markers ms) (seq 0 (length ms))) in
    lex_sort_result (length (nm_facets n)) (fun a => isort zleb (map (fun v => Z.of_nat (input_vertex n v)) (nth a (nm_facets n) []))) p_local ->
    lex_sort_result (length all) (fun a => isort zleb (fst (nth a all ([], 0%Z)))) p_in ->
    let res := new_markers nv (map (facet_markers ms) (seq 0 (length ms))) n (nm_facets n) p_local p_in in
    (0 <= R)%Q -> sort_result (concat (all_midpoints ms tags)) order ->
    forall (D : list (list Q) -> Q) (tc : Z) (g k p f : nat),
    (forall l l', Permutation l l' -> D l = D l') ->
    In tc tags -> nth_error (tagged ms tags q) k = Some g -> gidx (all_midpoints ms tags) q k <> nth 0 order 0 ->
    candidate_anywhere ms tc p f ->
    (p = q \/ (dist2 (facet_center (mesh_of ms p) f) (facet_center (mesh_of ms q) g) < R * R)%Q /\ NoDup (tagged ms tags p) /\
              (forall f', In f' (tagged ms tags p) -> f' <> f -> rm_fcell (mesh_of ms p) f' <> rm_fcell (mesh_of ms p) f)) ->
    (forall p' f', candidate_anywhere ms tc p' f' -> (D (old_positions gdim (mesh_of ms p) f) <= D (old_positions gdim (mesh_of ms p') f'))%Q) ->
    (forall a, candidate_here res tc a ->
       exists p' f', candidate_anywhere ms tc p' f' /\ Permutation (old_positions gdim (mesh_of ms p') f') (new_positions gdim n a)) /\
    (exists a, candidate_here res tc a /\ D (new_positions gdim n a) = D (old_positions gdim (mesh_of ms p) f)) /\
    (forall a, candidate_here res tc a ->
       (forall b, candidate_here res tc b -> (D (new_positions gdim n a) <= D (new_positions gdim n b))%Q) ->
       forall p' f', candidate_anywhere ms tc p' f' -> (D (new_positions gdim n a) <= D (old_positions gdim (mesh_of ms p') f'))%Q).
Proof.
  intros gdim nv ms tags R order news q pl pi HD HN Hq Hnv HV HU HF HM HC n all HL HI res HR HO D tc g k p f HP Htc Hk Hfirst Hf Hnear Hmin.
  assert (Hf' := Hf). destruct Hf' as [Hp Hfm]. destruct (HM p f tc Hp Hfm) as (_ & _ & Hown & _).
  assert (HX : exists a, candidate_here res tc a /\ Permutation (old_positions gdim (mesh_of ms p) f) (new_positions gdim n a)).
  { assert (HE : exists cell, In cell (nm_cells n) /\
      Permutation (map (input_vertex n) cell) (map (local_to_global ms p) (nth (rm_fcell (mesh_of ms p) f) (rm_cells (mesh_of ms p)) []))).
    { destruct (Nat.eq_dec p q) as [->|Hpq].
      - destruct (C85_cells gdim ms tags R order q (news q) HD Hq (HN q Hq)) as [K _]. apply K. exact Hown.
      - destruct Hnear as [K|(Hd & ND & Ho)]; [contradiction|].
        eapply (C85_neighbours_present_partial gdim ms tags R order p q (news q) f tc g k); eauto. }
    destruct HE as (cell & Hcell & P).
    exact (present gdim nv ms tags R order news q pl pi HD HN Hq Hnv HV HU HF HM HC HL HI p f tc cell Hf Hcell P). }
  destruct HX as (a0 & Ha0 & Pa0). split; [|split].
  - intros a Ha. assert (Ha' := Ha). apply (here_iff nv ms news q pl pi Hnv HF HM HC HL HI) in Ha' as (La & r & e & Hre & P).
    exists r, e. split; [exact Hre|]. exact (same_positions gdim nv ms tags R order news q HD HN Hq HV HU HF HM a r e tc La Hre P).
  - exists a0. split; [exact Ha0|]. symmetry. apply HP. exact Pa0.
  - intros a Ha Hmina p' f' Hpf. specialize (Hmina a0 Ha0). rewrite <- (HP _ _ Pa0) in Hmina.
    eapply Qle_trans; [exact Hmina|]. apply Hmin. exact Hpf.
Qed.
Print Assumptions C103_parallel_search_partial.
