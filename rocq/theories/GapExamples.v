(** Exact searches for edges exist, and a concrete pair of surfaces: the edge
    y = 0 of a triangle below two triangles with edges on y = 1. *)
From Coq Require Import List Arith ZArith Lia Bool Reals Lra.
Import ListNotations.
From Verif Require Import Prelude PreludeLemmas RSum SubMeshModel SubMeshProofs EntitiesModel RayModel KernelModel DistanceModel GapModel GapSpec DistanceProofs GapProps ContactNormalProps ShortestGapProps.
Local Open Scope R_scope.

(** ** Nearest point of a segment *)
Definition dot3 (a b : list R) : R := rsum 3 (fun k => nth k a 0 * nth k b 0).
Definition minus3 (a b : list R) : list R := map (fun k => nth k a 0 - nth k b 0) (seq 0 3).
Definition clamp (t : R) : R := if Rlt_dec t 0 then 0 else if Rlt_dec 1 t then 1 else t.
Definition segment_parameter (a b p : list R) : R := clamp (dot3 (minus3 p a) (minus3 b a) / dot3 (minus3 b a) (minus3 b a)).
Definition segment_gjk (points : list (list R)) (p : list R) : list R :=
  let a := nth 0 points [] in let b := nth 1 points [] in let t := segment_parameter a b p in
  map (fun k => nth k a 0 + t * (nth k b 0 - nth k a 0) - nth k p 0) (seq 0 3).
Lemma clamp_range t : 0 <= clamp t <= 1.
Proof. unfold clamp. destruct (Rlt_dec t 0), (Rlt_dec 1 t); lra. Qed.
Lemma clamp_best t s : 0 <= s <= 1 -> 0 <= (s - clamp t) * (s + clamp t - 2 * t).
Proof.
  intros H. unfold clamp. destruct (Rlt_dec t 0); [|destruct (Rlt_dec 1 t)].
  - apply Rmult_le_pos; lra.
  - replace ((s - 1) * (s + 1 - 2 * t)) with ((1 - s) * (2 * t - s - 1)) by ring. apply Rmult_le_pos; lra.
  - replace ((s - t) * (s + t - 2 * t)) with ((s - t) * (s - t)) by ring. apply Rle_0_sqr.
Qed.
Lemma segment_gjk_exact : gjk_exact 2 segment_gjk.
Proof.
  intros points p HL _ y. destruct points as [|a [|b [|]]]; try discriminate. clear HL. set (t := segment_parameter a b p).
  assert (Ey : forall k, (k < 3)%nat -> nth k y 0 = nth k a 0 + t * (nth k b 0 - nth k a 0)).
  { intros k Hk. unfold y. rewrite (nth_map_lt _ _ k 0 0%nat) by (rewrite seq_length; auto). rewrite seq_nth by auto. cbn [Nat.add]. unfold segment_gjk. cbn [nth].
    rewrite (nth_map_lt _ _ k 0 0%nat) by (rewrite seq_length; auto). rewrite seq_nth by auto. cbn [Nat.add]. fold t. ring. }
  assert (Ht : 0 <= t <= 1) by apply clamp_range.
  split.
  - exists (fun l => if (l =? 0)%nat then 1 - t else t). split; [intros l _; destruct (l =? 0)%nat; lra|]. cbn [length rsum Nat.eqb nth]. split; [ring|].
    intros k Hk. rewrite Ey by auto. ring.
  - intros z (w & Hw & Hs & Hz). cbn [length rsum nth] in *. pose proof (Hw 0%nat ltac:(lia)) as W0. pose proof (Hw 1%nat ltac:(lia)) as W1. set (s := w 1%nat) in *.
    assert (Ez : forall k, (k < 3)%nat -> nth k z 0 = nth k a 0 + s * (nth k b 0 - nth k a 0)).
    { intros k Hk. rewrite Hz by auto. replace (w 0%nat) with (1 - s) by lra. ring. }
    set (d := minus3 b a). set (u := dot3 (minus3 p a) d). set (dd := dot3 d d).
    assert (E : distance2 p z - distance2 p y = (s - t) * ((s + t) * dd - 2 * u)).
    { unfold distance2. cbn [rsum]. rewrite !Ez, !Ey by lia. unfold u, dd, d, dot3, minus3. cbn [rsum map seq nth]. ring. }
    destruct (Req_dec dd 0) as [Z|NZ].
    + assert (D : forall k, (k < 3)%nat -> nth k b 0 - nth k a 0 = 0).
      { unfold dd, dot3 in Z. intros k Hk. unfold d, minus3 in Z. cbn [rsum map seq nth] in Z.
        assert (forall x y z, 0 + x * x + y * y + z * z = 0 -> x = 0 /\ y = 0 /\ z = 0).
        { intros x0 y0 z0 H. pose proof (Rle_0_sqr x0). pose proof (Rle_0_sqr y0). pose proof (Rle_0_sqr z0). unfold Rsqr in *.
          repeat split; apply Rsqr_0_uniq; unfold Rsqr; lra. }
        apply H in Z. destruct Z as (Z0 & Z1 & Z2). assert (K : (k = 0 \/ k = 1 \/ k = 2)%nat) by lia. destruct K as [-> | [-> | ->]]; auto. }
      unfold distance2. cbn [rsum]. rewrite !Ez, !Ey, !D by lia. lra.
    + assert (P : 0 <= dd) by (unfold dd, dot3; apply rsum_nonneg; intros; apply Rle_0_sqr).
      replace ((s - t) * ((s + t) * dd - 2 * u)) with (dd * ((s - t) * (s + t - 2 * (u / dd)))) in E by (field; auto).
      assert (B : 0 <= (s - t) * (s + t - 2 * (u / dd))) by (apply (clamp_best (u / dd) s); lra).
      pose proof (Rmult_le_pos _ _ P B). lra.
Qed.

(** ** Nearest of a list *)
Fixpoint argmin (dist : nat -> R) (l : list nat) : nat :=
  match l with
  | [] => 0%nat
  | f :: l => match l with [] => f | _ => let g := argmin dist l in if Rle_dec (dist f) (dist g) then f else g end
  end.
Lemma argmin_spec dist l : l <> [] -> In (argmin dist l) l /\ forall f, In f l -> dist (argmin dist l) <= dist f.
Proof.
  induction l as [|f l IH]; [contradiction|]. intros _. destruct l as [|g l].
  - cbn. split; auto. intros f' [->|[]]. lra.
  - destruct (IH ltac:(discriminate)) as [H1 H2]. change (argmin dist (f :: g :: l)) with (let h := argmin dist (g :: l) in if Rle_dec (dist f) (dist h) then f else h). cbv zeta.
    destruct (Rle_dec (dist f) (dist (argmin dist (g :: l)))) as [L|L].
    + split; [left; auto|]. intros f' [->|H]; [lra|]. specialize (H2 f' H). lra.
    + split; [right; auto|]. intros f' [->|H]; [lra|auto].
Qed.
Definition nearest (hulls : nat -> list (list R)) (p : list R) (f : nat) : list R := map (fun k => nth k p 0 + nth k (segment_gjk (hulls f) p) 0) (seq 0 3).
Definition segment_closest (hulls : nat -> list (list R)) (facets : list nat) (p : list R) : nat := argmin (fun f => distance2 p (nearest hulls p f)) facets.
Lemma segment_closest_exact hulls facets : facets <> [] -> (forall f, In f facets -> length (hulls f) = 2%nat) -> closest_exact hulls (segment_closest hulls) facets.
Proof.
  intros NE H2 p Hp. destruct (argmin_spec (fun f => distance2 p (nearest hulls p f)) facets NE) as [Hin Hmin]. split; [exact Hin|]. intros f z Hf Hz.
  exists (nearest hulls p (segment_closest hulls facets p)). split.
  - apply segment_gjk_exact; auto.
  - eapply Rle_trans; [apply (Hmin f Hf)|]. now apply (segment_gjk_exact (hulls f) p (H2 f Hf) Hp).
Qed.

(** ** The mesh *)
Definition facing : mesh_data :=
  {| m_gdim := 2; m_tdim := 2; m_nodes := 3; m_affine := true;
     m_x := [0; 0; 0;  1; 0; 0;  1/2; -1; 0;   0; 1; 0;  1/2; 1; 0;  1/4; 2; 0;   1; 1; 0;  3/4; 2; 0];
     m_x_dofmap := fun c => match c with O => [0; 1; 2] | 1 => [3; 4; 5] | _ => [4; 6; 7] end%nat;
     m_phi := fun X j => match j with O => 1 - nth 0 X 0 - nth 1 X 0 | S j => nth j X 0 end;
     m_dphi := fun _ d j => match j with O => - 1 | S j => if (j =? d)%nat then 1 else 0 end;
     m_determinant := det 2; m_cmap_pull_back := fun _ _ => [];
     m_ref_normal := fun f k => match f, k with O, _ => 1 / sqrt 2 | 1%nat, O => - 1 | 1%nat, _ => 0 | _, O => 0 | _, _ => - 1 end;
     m_f_to_c := fun f => [f / 3]%nat; m_c_to_f := fun c => [3 * c; 3 * c + 1; 3 * c + 2]%nat;
     m_closure := fun f => match f with O => [1; 2] | 1 => [0; 2] | _ => [0; 1] end%nat |}.
Definition facing_cells : adj nat := mkAdj [0; 1; 2]%nat [0; 1; 2; 3]%nat.
Definition facing_points (p : nat) : list R := if Nat.even p then [1/4; 0] else [3/4; 0].
Definition facing_offsets (f : nat) : nat := (f * 2)%nat.
Definition facing_pair : contact_pair := mkContactPair (flat2 [(0, 2)]%nat) (flat2 [(1, 2); (2, 2)]%nat) 1.
Definition facing_hulls (f : nat) : list (list R) := facet_points facing (f / 3) (f mod 3).

Lemma facing_linear : linear_simplices facing.
Proof. split; cbn [facing m_gdim m_tdim m_nodes m_affine m_phi m_dphi]; auto; [left; auto|]. intros. cbn [rsum]. ring. Qed.
Lemma facing_tables : facet_tables facing.
Proof.
  split.
  - intros [|[|f]]; reflexivity.
  - cbn. lia.
  - intros f j Hj. cbn [facing m_nodes]. destruct f as [|[|f]]; cbn [facing m_closure In] in Hj; lia.
  - intros _ cell j. unfold node. destruct cell as [|[|c]]; destruct j as [|[|[|j]]]; cbn [facing m_x m_x_dofmap nth Nat.mul Nat.add]; auto; destruct j; reflexivity.
Qed.
Lemma facing_facet c : (c = 1 \/ c = 2)%nat -> surface_facet facing c 2 /\ nonsingular facing (geometry_jacobian facing c (repeat 0 (m_tdim facing))).
Proof.
  intros Hc. split.
  - split.
    + cbn. lia.
    + destruct Hc as [-> | ->]; cbn; repeat constructor; cbn; lia.
    + destruct Hc as [-> | ->]; reflexivity.
    + intros j Hj. cbn [facing m_closure In] in Hj. destruct Hj as [<- | [<- | []]]; destruct Hc as [-> | ->]; cbn; lia.
  - unfold nonsingular, det, geometry_jacobian, node. destruct Hc as [-> | ->]; cbn [facing m_gdim m_tdim m_nodes m_x m_x_dofmap m_dphi Nat.eqb rsum nth Nat.mul Nat.add]; lra.
Qed.

(** Every hypothesis of C77 holds, the search succeeds, and the gap is straight up. *)
Example C77_nonvacuous :
  exists d, create_distance_map facing_cells facing_points facing_offsets
              (fun m => closest_point_map m m (segment_closest facing_hulls) segment_gjk facing_points facing_offsets) facing facing_pair (mkDetection (mkAdj [] []) [] []) = Some d /\
    forall q, (q < 2)%nat -> nth (q * 2)%nat (contact_gap facing_offsets facing facing_pair d) 0 = 0 /\ nth (q * 2 + 1)%nat (contact_gap facing_offsets facing facing_pair d) 0 = 1.
Proof.
  eexists. split; [unfold create_distance_map, closest_point_map; cbn [facing m_gdim m_tdim Nat.eqb orb]; reflexivity|].
  match goal with |- forall q, _ -> nth _ (contact_gap _ _ _ ?d) 0 = 0 /\ _ => set (D := d) end.
  assert (HD : create_distance_map facing_cells facing_points facing_offsets
              (fun m => closest_point_map m m (segment_closest facing_hulls) segment_gjk facing_points facing_offsets) facing facing_pair (mkDetection (mkAdj [] []) [] []) = Some D)
    by (unfold create_distance_map, closest_point_map; cbn [facing m_gdim m_tdim Nat.eqb orb]; reflexivity).
  clearbody D. intros q Hq.
  destruct (C77_gap_is_shortest facing_cells facing_points facing_offsets (segment_closest facing_hulls) segment_gjk facing_hulls facing facing_pair (mkDetection (mkAdj [] []) [] []) D
    [(0, 2)]%nat [(1, 2); (2, 2)]%nat facing_linear facing_tables eq_refl (le_n 1) eq_refl ltac:(discriminate)) with (i := 0%nat) (q := q) as (c & y & Hc & _ & Hy & Ey & Hmin); auto.
  - intros c Hc. cbn in Hc. destruct Hc as [<- | [<- | []]]; cbn [fst snd].
    + destruct (facing_facet 1 ltac:(auto)). split; [assumption|]. split; [assumption|reflexivity].
    + destruct (facing_facet 2 ltac:(auto)). split; [assumption|]. split; [assumption|reflexivity].
  - apply segment_gjk_exact.
  - apply segment_closest_exact; [discriminate|]. intros f Hf. cbn in Hf. destruct Hf as [<- | [<- | []]]; reflexivity.
  - change (num_q facing_offsets) with 2%nat in *. cbn [nth] in *. change (m_gdim facing) with 2%nat in *.
    set (gap := fun k => nth ((0 * 2 + q) * 2 + k)%nat (contact_gap facing_offsets facing facing_pair D) 0) in *.
    set (x := geometry_map facing (fst (sub_pair facing_cells (0, 2)%nat)) (facing_points (facing_offsets (snd (0, 2)%nat) + q)%nat)) in *.
    assert (X : x 1%nat = 0 /\ (x 0%nat = 1/4 \/ x 0%nat = 3/4)).
    { unfold x, geometry_map, node. assert (Eq : (q = 0 \/ q = 1)%nat) by lia.
      destruct Eq as [-> | ->]; cbn [facing_points facing_offsets Nat.even snd fst sub_pair facing_cells links hd Nat.mul Nat.add adj_data adj_off nth slice skipn firstn Nat.sub facing m_nodes rsum m_phi m_x m_x_dofmap]; lra. }
    destruct X as [X1 X0].
    assert (H1 : nth 1 y 0 = 1).
    { destruct Hy as (w & _ & Hw & Hyk). rewrite (Hyk 1%nat) by lia. cbn in Hc. destruct Hc as [<- | [<- | []]]; unfold facet_points, node in *; cbn in Hw |- *; lra. }
    pose proof (Ey 1%nat ltac:(lia)) as E1. pose proof (Ey 0%nat ltac:(lia)) as E0. rewrite X1, H1 in E1.
    assert (G : rsum 2 (fun k => gap k * gap k) <= 1).
    { assert (W : forall t, 0 <= t <= 1 -> forall k, (0 <= (if (k =? 0)%nat then 1 - t else t))) by (intros t Ht k; destruct (k =? 0)%nat; lra).
      destruct X0 as [X0 | X0].
      - eapply Rle_trans; [apply (Hmin (1, 2)%nat [1/4; 1; 0]); [cbn; auto|]|].
        + exists (fun k => if (k =? 0)%nat then 1/2 else 1/2). split; [intros l _; destruct (l =? 0)%nat; lra|]. split; [cbn; lra|].
          intros k Hk. assert (K : (k = 0 \/ k = 1 \/ k = 2)%nat) by lia. destruct K as [-> | [-> | ->]]; unfold facet_points, node; cbn; lra.
        + cbn [rsum nth]. rewrite X0, X1. lra.
      - eapply Rle_trans; [apply (Hmin (2, 2)%nat [3/4; 1; 0]); [cbn; auto|]|].
        + exists (fun k => if (k =? 0)%nat then 1/2 else 1/2). split; [intros l _; destruct (l =? 0)%nat; lra|]. split; [cbn; lra|].
          intros k Hk. assert (K : (k = 0 \/ k = 1 \/ k = 2)%nat) by lia. destruct K as [-> | [-> | ->]]; unfold facet_points, node; cbn; lra.
        + cbn [rsum nth]. rewrite X0, X1. lra. }
    cbn [rsum] in G. assert (G1 : gap 1%nat = 1) by (unfold gap; lra). rewrite G1 in G.
    assert (G0 : gap 0%nat = 0). { apply Rsqr_0_uniq. pose proof (Rle_0_sqr (gap 0%nat)). unfold Rsqr in *. lra. }
    unfold gap in G0, G1. cbn [Nat.mul Nat.add] in G0, G1. rewrite Nat.add_0_r in G0. auto.
Qed.
Print Assumptions C77_nonvacuous.

(** The hypotheses of C76 hold on this mesh. *)
Example C76_nonvacuous :
  dimensions facing /\ (forall f, nonzero facing (m_ref_normal facing f)) /\ (forall f, facing_offsets f = (f * num_q facing_offsets)%nat) /\
  nonsingular facing (geometry_jacobian facing 0 [1/4; 0]).
Proof.
  repeat split.
  - left; auto.
  - intros [|[|f]]; [exists 0%nat | exists 0%nat | exists 1%nat]; (split; [cbn; lia|]); cbn [facing m_ref_normal]; try lra.
    apply Rgt_not_eq. apply Rdiv_lt_0_compat; [lra|]. apply sqrt_lt_R0. lra.
  - unfold nonsingular, det, geometry_jacobian, node. cbn [facing m_gdim m_tdim m_nodes m_x m_x_dofmap m_dphi Nat.eqb rsum nth Nat.mul Nat.add]. lra.
Qed.
