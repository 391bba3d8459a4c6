(** C93: the packed cell size is the circumradius of the cell of each facet. *)
From Coq Require Import List Arith Lia Reals Lra.
Import ListNotations.
From Verif Require Import Prelude PreludeLemmas RSum GeomModel GeomProps CircumModel.
Local Open Scope R_scope.

(** ** Specification *)
Definition vertex (m : circum_mesh) (cell v i : nat) : R :=
  nth (3 * nth v (nth cell (cm_dofmap m) []) 0%nat + i)%nat (cm_x m) 0.
Definition vertices (k : cell_kind) : nat := match k with Ctriangle => 3 | _ => 4 end.

(** [r] is the radius of the sphere through the vertices of the cell: there is a
    centre at that distance from all, and every point with equal distance to all
    has that distance. *)
Definition is_circumradius (m : circum_mesh) (cell : nat) (r : R) : Prop :=
  (exists c : nat -> R, forall v, (v < vertices (cm_kind m))%nat -> sqrt (dist2 (cm_gdim m) c (vertex m cell v)) = r) /\
  (forall (c : nat -> R) (d : R),
     (forall v, (v < vertices (cm_kind m))%nat -> sqrt (dist2 (cm_gdim m) c (vertex m cell v)) = d) -> d = r).

(** A linear simplex mesh: gdim + 1 nodes per cell, and the derivatives of the
    barycentric coordinates, the same at every facet. *)
Definition linear_simplex (m : circum_mesh) : Prop :=
  cm_affine m = true /\
  ((cm_kind m = Ctriangle /\ cm_gdim m = 2%nat) \/ (cm_kind m = Ctetrahedron /\ cm_gdim m = 3%nat)) /\
  cm_nodes m = S (cm_gdim m) /\
  forall f k j, cm_dphi m f k j = if (j =? 0)%nat then -1 else if (j =? S k)%nat then 1 else 0.

(** The vertices of the cell are not on a line (in a plane). *)
Definition edge_vector (m : circum_mesh) (cell i k : nat) : R := vertex m cell (S k) i - vertex m cell 0 i.
Definition nondegenerate (m : circum_mesh) (cell : nat) : Prop :=
  determinant (cm_gdim m) (edge_vector m cell) <> 0.

Lemma jacobian_edges m cell facet i k : linear_simplex m -> (k < cm_gdim m)%nat ->
  facet_jacobian m cell facet i k = edge_vector m cell i k.
Proof.
  intros (_ & _ & N & D) Hk. unfold facet_jacobian. rewrite for_loop_rsum, Rplus_0_l, N.
  transitivity (rsum (S (cm_gdim m)) (fun j => vertex m cell j i * (if (j =? 0)%nat then -1 else if (j =? S k)%nat then 1 else 0))).
  { apply rsum_ext. intros j _. rewrite D. reflexivity. }
  assert (E : forall n, (S k < n)%nat ->
    rsum n (fun j => vertex m cell j i * (if (j =? 0)%nat then -1 else if (j =? S k)%nat then 1 else 0)) = edge_vector m cell i k).
  { intros n Hn.
    transitivity (rsum n (fun j => vertex m cell j i * (if (j =? 0)%nat then -1 else 0))
                  + rsum n (fun j => vertex m cell j i * (if (j =? S k)%nat then 1 else 0))).
    { rewrite <- rsum_plus. apply rsum_ext. intros j _.
      destruct (Nat.eqb_spec j 0); destruct (Nat.eqb_spec j (S k)); try lia; ring. }
    rewrite (rsum_single n 0%nat), (rsum_single n (S k)); try lia.
    - cbn [Nat.eqb]. rewrite Nat.eqb_refl. unfold edge_vector. ring.
    - intros j _ Hj. destruct (Nat.eqb_spec j (S k)); [lia|ring].
    - intros j _ Hj. destruct (Nat.eqb_spec j 0); [lia|ring]. }
  apply E. lia.
Qed.

Lemma cell_value m cell facet : linear_simplex m -> nondegenerate m cell ->
  exists r, cell_circumradius m (cell_nodes m cell) (determinant (cm_gdim m) (facet_jacobian m cell facet)) = inl r /\
    is_circumradius m cell r.
Proof.
  intros LS ND. assert (LS' := LS). destruct LS' as (_ & [[K G]|[K G]] & _).
  - unfold nondegenerate in ND. rewrite G in ND. rewrite G. cbn [determinant] in *.
    rewrite !jacobian_edges by (auto; rewrite G; lia).
    unfold cell_circumradius. rewrite K. eexists. split; [reflexivity|].
    unfold is_circumradius. rewrite K, G. cbn [vertices].
    exact (C53_circumradius_triangle (vertex m cell) ND).
  - unfold nondegenerate in ND. rewrite G in ND. rewrite G. cbn [determinant] in *.
    rewrite !jacobian_edges by (auto; rewrite G; lia).
    unfold cell_circumradius. rewrite K. eexists. split; [reflexivity|].
    unfold is_circumradius. rewrite K, G. cbn [vertices].
    exact (C53_circumradius_tetrahedron (vertex m cell) ND).
Qed.

(** Entry [i] of the result is the circumradius of the cell of pair [i],
    whatever facet of the cell is given; there is one entry per pair. *)
Theorem C93_packed_circumradius :
  forall (m : circum_mesh) (facets : list (nat * nat)),
    linear_simplex m -> Forall (fun p => nondegenerate m (fst p)) facets ->
    exists out, pack_circumradius m facets = inl out /\ length out = length facets /\
      forall i, (i < length facets)%nat -> is_circumradius m (fst (nth i facets (0, 0)%nat)) (nth i out 0).
Proof.
  intros m facets LS ND. unfold pack_circumradius. destruct LS as (A & K & LS'). 
  assert (LS : linear_simplex m) by (split; [auto|split; auto]). rewrite A. cbn [negb].
  assert (S : cell_supported (cm_kind m) = true) by (destruct K as [[-> _]|[-> _]]; reflexivity).
  rewrite S. cbn [negb].
  assert (G : forall fs out, Forall (fun p => nondegenerate m (fst p)) fs ->
    exists new, circumradius_loop m fs out = inl (out ++ new) /\ length new = length fs /\
      forall i, (i < length fs)%nat -> is_circumradius m (fst (nth i fs (0, 0)%nat)) (nth i new 0)).
  { induction fs as [|[cell facet] rest IH]; intros out HF.
    - exists []. rewrite app_nil_r. split; [reflexivity|]. split; [reflexivity|]. cbn; intros; lia.
    - inversion HF as [|? ? H1 H2]; subst. cbn [fst] in H1.
      destruct (cell_value m cell facet LS H1) as (r & E & C).
      destruct (IH (out ++ [r]) H2) as (new & E' & L & P).
      exists (r :: new). cbn [circumradius_loop]. rewrite E, E', <- app_assoc. split; [reflexivity|].
      split; [cbn [length]; lia|]. intros [|i] Hi; cbn [nth fst]; [exact C|]. apply P. cbn [length] in Hi. lia. }
  destruct (G facets [] ND) as (new & E & L & P). exists new. auto.
Qed.
Print Assumptions C93_packed_circumradius.

(** Everything else is rejected with an exception, before any value is returned:
    non-affine geometry always, other cell types as soon as there is a pair. *)
Theorem C93_rejected :
  forall (m : circum_mesh) (facets : list (nat * nat)),
    (cm_affine m = false -> pack_circumradius m facets = inr non_affine) /\
    (cm_affine m = true -> cm_kind m <> Ctriangle -> cm_kind m <> Ctetrahedron -> facets <> [] ->
     pack_circumradius m facets = inr unsupported_cell).
Proof.
  intros m facets. unfold pack_circumradius. split; [intros ->; reflexivity|].
  intros -> H1 H2 H3. cbn [negb]. destruct facets as [|[cell facet] rest]; [congruence|].
  destruct (cm_kind m) eqn:K; try congruence; cbn [cell_supported negb]; try reflexivity;
    cbn [circumradius_loop]; unfold cell_circumradius; rewrite K; reflexivity.
Qed.
Print Assumptions C93_rejected.

(** Non-vacuity: two triangles sharing an edge, three pairs. *)
Definition two_triangles : circum_mesh := {|
  cm_kind := Ctriangle; cm_affine := true; cm_gdim := 2; cm_nodes := 3;
  cm_dofmap := [[0; 1; 2]; [1; 3; 2]]%nat;
  cm_x := [0; 0; 0;  3; 0; 0;  0; 4; 0;  3; 4; 0];
  cm_dphi := fun _ k j => if (j =? 0)%nat then -1 else if (j =? S k)%nat then 1 else 0 |}.
Example C93_example :
  exists out, pack_circumradius two_triangles [(0, 1); (1, 0); (0, 0)]%nat = inl out /\ out = [5 / 2; 5 / 2; 5 / 2].
Proof.
  assert (LS : linear_simplex two_triangles) by (split; [reflexivity|split; [left; split; reflexivity|split; reflexivity]]).
  assert (N0 : nondegenerate two_triangles 0) by (unfold nondegenerate, edge_vector, vertex; cbn; lra).
  assert (N1 : nondegenerate two_triangles 1) by (unfold nondegenerate, edge_vector, vertex; cbn; lra).
  destruct (C93_packed_circumradius two_triangles [(0, 1); (1, 0); (0, 0)]%nat LS) as (out & E & L & P).
  { repeat constructor; auto. }
  exists out. split; [exact E|].
  assert (V : forall cell, (cell < 2)%nat -> forall r, is_circumradius two_triangles cell r -> r = 5 / 2).
  { intros cell Hc r [_ U]. symmetry. apply (U (fun i => if (i =? 0)%nat then 3 / 2 else 2)).
    assert (Q : sqrt (25 / 4) = 5 / 2) by (replace (25 / 4) with ((5 / 2) * (5 / 2)) by lra; apply sqrt_square; lra).
    intros v Hv. cbn in Hv. unfold dist2, vertex. rewrite <- Q. f_equal.
    destruct cell as [|[|cell]]; try lia; destruct v as [|[|[|v]]]; try lia; cbn; lra. }
  destruct out as [|a [|b [|c [|e out]]]]; cbn in L; try lia.
  pose proof (P 0%nat ltac:(cbn; lia)) as P0. pose proof (P 1%nat ltac:(cbn; lia)) as P1. pose proof (P 2%nat ltac:(cbn; lia)) as P2.
  cbn [nth fst] in P0, P1, P2.
  rewrite (V 0%nat ltac:(lia) _ P0), (V 1%nat ltac:(lia) _ P1), (V 0%nat ltac:(lia) _ P2). reflexivity.
Qed.
