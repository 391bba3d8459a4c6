(** C81, C82: outlines, tags and merging in the split-box generators. *)
From Coq Require Import List Arith Lia Bool Permutation.
Import ListNotations.
From Verif Require Import SplitBoxModel SplitBoxSpec.

(** * Finding the two ends of the cut *)
Lemma first_index_split a l i : first_index a l = Some i -> exists u v, l = u ++ a :: v /\ length u = i.
Proof.
  revert i; induction l as [|x l IH]; cbn [first_index]; intros i H; [discriminate|].
  destruct (Nat.eqb_spec x a) as [->|].
  - injection H as <-. exists [], l; split; reflexivity.
  - destruct (first_index a l) as [j|]; [|discriminate]. injection H as <-.
    destruct (IH j eq_refl) as (u & v & -> & <-). exists (x :: u), v; split; reflexivity.
Qed.

Lemma first_index_of a u v : ~ In a u -> first_index a (u ++ a :: v) = Some (length u).
Proof.
  induction u as [|x u IH]; cbn [app first_index length]; intros H.
  - now rewrite Nat.eqb_refl.
  - destruct (Nat.eqb_spec x a) as [->|]; [destruct H; left; reflexivity|].
    rewrite IH; [reflexivity|]. intros K; apply H; right; exact K.
Qed.

Lemma first_index_none a l : ~ In a l -> first_index a l = None.
Proof.
  induction l as [|x l IH]; intros H; [reflexivity|]. cbn [first_index].
  destruct (Nat.eqb_spec x a) as [->|]; [destruct H; left; reflexivity|].
  rewrite IH; [reflexivity|]. intros K; apply H; right; exact K.
Qed.

Section Outline.
  Context {P : Type} (point : nat -> P) (points : list P).

  Lemma corners_map domain : (forall d, In d domain -> nth_error points d = Some (point d)) ->
    corners points domain = Some (map point domain).
  Proof using Type.
    induction domain as [|d r IH]; intros H; [reflexivity|]. cbn [corners map].
    rewrite (H d (or_introl eq_refl)), IH; [reflexivity|]. intros e He; apply H; right; exact He.
  Qed.

  Lemma stack_eq (curve rest : list P) : curve <> [] -> stack curve rest = Outline (curve ++ rest).
  Proof using Type. destruct curve; [congruence|reflexivity]. Qed.

  Lemma rev_nonempty (curve : list P) : curve <> [] -> rev curve <> [].
  Proof using Type. intros H E. apply H. rewrite <- (rev_involutive curve), E. reflexivity. Qed.

  Lemma skipn_past {A} (u v : list A) k : length u = k -> skipn k (u ++ v) = v.
  Proof using Type. intros <-. rewrite skipn_app, skipn_all, Nat.sub_diag. reflexivity. Qed.
  Lemma firstn_past {A} (u v : list A) k : length u = k -> firstn k (u ++ v) = u.
  Proof using Type. intros <-. rewrite firstn_app, firstn_all, Nat.sub_diag, firstn_O, app_nil_r. reflexivity. Qed.

  Context (domain : list nat) (curve : list P).
  Hypothesis Hrange : forall d, In d domain -> nth_error points d = Some (point d).
  Hypothesis Hcurve : curve <> [].

  Lemma surface_forward u v : NoDup domain -> domain = u ++ 4 :: 5 :: v ->
    get_surface_points domain points curve = Outline (curve ++ map point (v ++ u)).
  Proof using Hrange Hcurve.
    intros ND E. unfold get_surface_points. rewrite corners_map by exact Hrange.
    assert (H4 : first_index 4 domain = Some (length u)).
    { rewrite E. apply first_index_of. rewrite E in ND. apply NoDup_remove_2 in ND. intros K; apply ND, in_or_app; left; exact K. }
    assert (H5 : first_index 5 domain = Some (S (length u))).
    { rewrite E. change (4 :: 5 :: v) with ([4] ++ 5 :: v). rewrite app_assoc, first_index_of.
      - rewrite app_length; cbn [length]; f_equal; lia.
      - rewrite E in ND. change (4 :: 5 :: v) with ([4] ++ 5 :: v) in ND. rewrite app_assoc in ND.
        apply NoDup_remove_2 in ND. intros K; apply ND, in_or_app; left; exact K. }
    rewrite H4, H5. cbv zeta. rewrite Nat.eqb_refl.
    assert (Hs : skipn (S (length u) + 1) (map point domain) = map point v).
    { rewrite E. change (4 :: 5 :: v) with ([4; 5] ++ v). rewrite app_assoc, map_app. apply skipn_past.
      rewrite map_length, app_length; cbn [length]; lia. }
    assert (Hf : firstn (length u) (map point domain) = map point u).
    { rewrite E, map_app. apply firstn_past. apply map_length. }
    rewrite Hs, Hf, map_length, map_app.
    destruct (Nat.eqb_spec (length u) 0) as [Z|Z].
    - destruct u; [|discriminate]. cbn [map]. rewrite app_nil_r. apply stack_eq, Hcurve.
    - destruct (Nat.eqb_spec (S (length u)) (length domain - 1)) as [L|L].
      + assert (v = []) as ->.
        { rewrite E, app_length in L; cbn [length] in L. destruct v; [reflexivity|cbn [length] in L; lia]. }
        apply stack_eq, Hcurve.
      + apply stack_eq, Hcurve.
  Qed.

  Lemma surface_backward u v : NoDup domain -> domain = u ++ 5 :: 4 :: v ->
    get_surface_points domain points curve = Outline (rev curve ++ map point (v ++ u)).
  Proof using Hrange Hcurve.
    intros ND E. unfold get_surface_points. rewrite corners_map by exact Hrange.
    assert (H4 : first_index 5 domain = Some (length u)).
    { rewrite E. apply first_index_of. rewrite E in ND. apply NoDup_remove_2 in ND. intros K; apply ND, in_or_app; left; exact K. }
    assert (H5 : first_index 4 domain = Some (S (length u))).
    { rewrite E. change (5 :: 4 :: v) with ([5] ++ 4 :: v). rewrite app_assoc, first_index_of.
      - rewrite app_length; cbn [length]; f_equal; lia.
      - rewrite E in ND. change (5 :: 4 :: v) with ([5] ++ 4 :: v) in ND. rewrite app_assoc in ND.
        apply NoDup_remove_2 in ND. intros K; apply ND, in_or_app; left; exact K. }
    rewrite H4, H5. cbv zeta. rewrite Nat.eqb_refl.
    destruct (Nat.eqb_spec (S (S (length u))) (length u)) as [K|_]; [lia|].
    assert (Hs : skipn (S (length u) + 1) (map point domain) = map point v).
    { rewrite E. change (5 :: 4 :: v) with ([5; 4] ++ v). rewrite app_assoc, map_app. apply skipn_past.
      rewrite map_length, app_length; cbn [length]; lia. }
    assert (Hf : firstn (length u) (map point domain) = map point u).
    { rewrite E, map_app. apply firstn_past. apply map_length. }
    rewrite Hs, Hf, map_length, map_app.
    pose proof (rev_nonempty curve Hcurve) as Hr.
    destruct (Nat.eqb_spec (length u) 0) as [Z|Z].
    - destruct u; [|discriminate]. cbn [map]. rewrite app_nil_r. apply stack_eq, Hr.
    - destruct (Nat.eqb_spec (S (length u)) (length domain - 1)) as [L|L].
      + assert (v = []) as ->.
        { rewrite E, app_length in L; cbn [length] in L. destruct v; [reflexivity|cbn [length] in L; lia]. }
        apply stack_eq, Hr.
      + apply stack_eq, Hr.
  Qed.

  Lemma slice_middle {A} (a b : A) m : slice 1 (length (a :: m ++ [b]) - 1) (a :: m ++ [b]) = m.
  Proof using Type.
    unfold slice. cbn [length skipn]. rewrite app_length; cbn [length]. apply firstn_past. lia.
  Qed.

  Lemma surface_ends_45 m : NoDup domain -> m <> [] -> domain = 4 :: m ++ [5] ->
    get_surface_points domain points curve = Outline (rev curve ++ map point m).
  Proof using Hrange Hcurve.
    intros ND Hm E. unfold get_surface_points. rewrite corners_map by exact Hrange.
    assert (H4 : first_index 4 domain = Some 0) by (rewrite E; reflexivity).
    assert (H5 : first_index 5 domain = Some (S (length m))).
    { rewrite E. change (4 :: m ++ [5]) with ((4 :: m) ++ 5 :: []). rewrite first_index_of; [reflexivity|].
      rewrite E in ND. change (4 :: m ++ [5]) with ((4 :: m) ++ 5 :: []) in ND. apply NoDup_remove_2 in ND.
      rewrite app_nil_r in ND. exact ND. }
    rewrite H4, H5. cbv zeta.
    assert (length m <> 0) by (destruct m; [congruence|discriminate]).
    destruct (Nat.eqb_spec 1 (S (length m))) as [K|_]; [lia|].
    destruct (Nat.eqb_spec (S (S (length m))) 0) as [K|_]; [lia|].
    rewrite Nat.eqb_refl, map_length.
    assert (HL : length domain = S (S (length m))) by (rewrite E; cbn [length]; rewrite app_length; cbn [length]; lia).
    destruct (Nat.eqb_spec (S (length m)) (length domain - 1)) as [_|K]; [|lia]. cbn [andb].
    rewrite <- (map_length point domain). rewrite E; cbn [map]; rewrite map_app; cbn [map].
    rewrite slice_middle. apply stack_eq, rev_nonempty, Hcurve.
  Qed.

  (** 5 first, 4 neither second nor... : the branch at split_box.py:81. *)
  Lemma surface_5_first w b : NoDup domain -> In 4 (w ++ [b]) -> (forall v, w ++ [b] <> 4 :: v) -> domain = 5 :: w ++ [b] ->
    get_surface_points domain points curve = Outline (curve ++ map point w).
  Proof using Hrange Hcurve.
    intros ND H4 Hn E. unfold get_surface_points. rewrite corners_map by exact Hrange.
    destruct (in_split 4 (w ++ [b]) H4) as (u & v & Euv).
    assert (Hu : u <> []) by (intros ->; apply (Hn v), Euv).
    assert (H5 : first_index 5 domain = Some 0) by (rewrite E; reflexivity).
    assert (F4 : first_index 4 domain = Some (S (length u))).
    { rewrite E, Euv. change (5 :: u ++ 4 :: v) with ((5 :: u) ++ 4 :: v). rewrite first_index_of; [reflexivity|].
      rewrite E, Euv in ND. change (5 :: u ++ 4 :: v) with ((5 :: u) ++ 4 :: v) in ND. apply NoDup_remove_2 in ND.
      intros K; apply ND, in_or_app; left; exact K. }
    rewrite F4, H5. cbv zeta.
    assert (length u <> 0) by (destruct u; [congruence|discriminate]).
    destruct (Nat.eqb_spec (S (S (length u))) 0) as [K|_]; [lia|].
    destruct (Nat.eqb_spec 1 (S (length u))) as [K|_]; [lia|].
    destruct (Nat.eqb_spec (S (length u)) 0) as [K|_]; [lia|]. cbn [andb].
    assert (HL : length domain = S (length u + S (length v))).
    { rewrite E, Euv. cbn [length]. rewrite app_length. reflexivity. }
    rewrite map_length.
    destruct (Nat.eqb_spec (length domain - 1) 0) as [K|_]; [lia|].
    cbn [Nat.eqb andb negb].
    rewrite <- (map_length point domain). rewrite E; cbn [map]; rewrite map_app; cbn [map].
    rewrite slice_middle. apply stack_eq, Hcurve.
  Qed.
End Outline.

(** Where the two ends sit when the polygon has the cut edge. *)
Lemma rotation_pair {A} (a b : A) rest l : rotation l (a :: b :: rest) ->
  (exists u v, l = u ++ a :: b :: v /\ rest = v ++ u) \/ l = b :: rest ++ [a].
Proof.
  intros (u & v & -> & E). destruct v as [|x [|y v]].
  - destruct u as [|x [|y u]]; cbn [app] in E.
    + discriminate.
    + discriminate.
    + injection E as -> -> ->. left. exists [], u. rewrite !app_nil_r. split; reflexivity.
  - cbn [app] in E. injection E as -> Hu. right. rewrite <- Hu. reflexivity.
  - cbn [app] in E. injection E as -> -> ->. left. exists u, v. split; reflexivity.
Qed.

(** ** C81: the outline *)
Theorem C81_outline :
  forall (P : Type) (point : nat -> P) (domain : list nat) (points curve : list P),
    NoDup domain -> (forall d, In d domain -> nth_error points d = Some (point d)) -> curve <> [] ->
    has_cut domain ->
    exists out, get_surface_points domain points curve = Outline out /\ outline_of point domain curve out.
Proof.
  intros P point domain points curve ND HR HC [rest [H|H]].
  - destruct (rotation_pair 4 5 rest domain H) as [(u & v & E & ->)|E].
    + exists (curve ++ map point (v ++ u)). split; [now apply surface_forward|constructor; exact H].
    + destruct rest as [|r rest].
      * exists (rev curve ++ map point ([] ++ [])). split; [now apply surface_backward|].
        apply cut_backward. exists [], domain. rewrite E. split; reflexivity.
      * exists (curve ++ map point (r :: rest)). split; [|constructor; exact H].
        apply surface_5_first with (b := 4); try assumption.
        -- apply in_or_app; right; left; reflexivity.
        -- intros v Ev. cbn [app] in Ev. injection Ev as -> _. rewrite E in ND. cbn [app] in ND.
           apply NoDup_cons_iff in ND as [_ ND]. apply NoDup_cons_iff in ND as [ND _]. apply ND, in_or_app; right; left; reflexivity.
  - destruct (rotation_pair 5 4 rest domain H) as [(u & v & E & ->)|E].
    + exists (rev curve ++ map point (v ++ u)). split; [now apply surface_backward|constructor; exact H].
    + destruct rest as [|r rest].
      * exists (curve ++ map point ([] ++ [])). split; [now apply surface_forward|].
        apply cut_forward. exists [], domain. rewrite E. split; reflexivity.
      * exists (rev curve ++ map point (r :: rest)). split; [|constructor; exact H].
        apply surface_ends_45; try assumption. discriminate.
Qed.
Print Assumptions C81_outline.

(** Without 4 or without 5 the call fails. *)
Theorem C81_missing_end :
  forall (P : Type) (domain : list nat) (points curve : list P), ~ In 4 domain \/ ~ In 5 domain -> get_surface_points domain points curve = IndexError.
Proof.
  intros P domain points curve H. unfold get_surface_points. destruct (corners points domain); [|reflexivity].
  destruct H as [H|H]; rewrite (first_index_none _ _ H); [reflexivity|]. destruct (first_index 4 domain); reflexivity.
Qed.
Print Assumptions C81_missing_end.

(** 4 and 5 present but not neighbours: rejected exactly when 5 is not listed first.  If 5
    is first the call returns the curve followed by every vertex but the first and last. *)
Theorem C81_invalid_domain_exact :
  forall (P : Type) (point : nat -> P) (domain : list nat) (points curve : list P),
    NoDup domain -> (forall d, In d domain -> nth_error points d = Some (point d)) -> curve <> [] ->
    In 4 domain -> In 5 domain -> ~ has_cut domain ->
    get_surface_points domain points curve =
      match domain with
      | 5 :: r => Outline (curve ++ map point (removelast r))
      | _ => RuntimeError
      end.
Proof.
  intros P point domain points curve ND HR HC H4 H5 HN.
  destruct domain as [|d r]; [destruct H4|].
  destruct (Nat.eq_dec d 5) as [->|Hd].
  - destruct (exists_last (l := r)) as (w & b & ->).
    { intros ->. destruct H4 as [H|[]]; discriminate. }
    rewrite removelast_last.
    apply surface_5_first with (b := b); try assumption; [| |reflexivity].
    + destruct H4 as [H|H]; [discriminate|exact H].
    + intros v Ev. apply HN. exists v. right. exists [], (5 :: w ++ [b]). rewrite Ev, app_nil_r. split; reflexivity.
  - transitivity (@RuntimeError (list P)).
    2:{ destruct d as [|[|[|[|[|[|d]]]]]]; try reflexivity. congruence. }
    unfold get_surface_points. rewrite (corners_map point) by exact HR.
    destruct (first_index 4 (d :: r)) as [i0|] eqn:E4.
    2:{ exfalso. destruct (in_split 4 (d :: r) H4) as (u & v & Euv).
        rewrite Euv in E4, ND. rewrite first_index_of in E4; [discriminate|]. apply NoDup_remove_2 in ND. intros K; apply ND, in_or_app; left; exact K. }
    destruct (first_index 5 (d :: r)) as [i1|] eqn:E5.
    2:{ exfalso. destruct (in_split 5 (d :: r) H5) as (u & v & Euv).
        rewrite Euv in E5, ND. rewrite first_index_of in E5; [discriminate|]. apply NoDup_remove_2 in ND. intros K; apply ND, in_or_app; left; exact K. }
    destruct (first_index_split _ _ _ E4) as (u4 & v4 & D4 & L4).
    destruct (first_index_split _ _ _ E5) as (u5 & v5 & D5 & L5).
    set (domain := d :: r) in *. cbv zeta.
    assert (N4 : nth_error domain i0 = Some 4).
    { rewrite D4, nth_error_app2, L4, Nat.sub_diag by lia. reflexivity. }
    assert (N5 : nth_error domain i1 = Some 5).
    { rewrite D5, nth_error_app2, L5, Nat.sub_diag by lia. reflexivity. }
    destruct (Nat.eqb_spec (S i0) i1) as [K|K1].
    { exfalso. apply HN. assert (exists w, v4 = 5 :: w) as (w & ->).
      { rewrite D4, nth_error_app2, L4 in N5 by lia. replace (i1 - i0) with 1 in N5 by lia. cbn [nth_error] in N5.
        destruct v4 as [|x v4]; [discriminate|]. injection N5 as ->. now exists v4. }
      exists (w ++ u4). left. exists u4, (4 :: 5 :: w). split; [exact D4|reflexivity]. }
    destruct (Nat.eqb_spec (S i1) i0) as [K|K2].
    { exfalso. apply HN. assert (exists w, v5 = 4 :: w) as (w & ->).
      { rewrite D5, nth_error_app2, L5 in N4 by lia. replace (i0 - i1) with 1 in N4 by lia. cbn [nth_error] in N4.
        destruct v5 as [|x v5]; [discriminate|]. injection N4 as ->. now exists v5. }
      exists (w ++ u5). right. exists u5, (5 :: 4 :: w). split; [exact D5|reflexivity]. }
    destruct (Nat.eqb_spec i1 0) as [K|K3].
    { exfalso. rewrite K in N5. unfold domain in N5. cbn [nth_error] in N5. congruence. }
    rewrite map_length.
    destruct (Nat.eqb_spec i0 0) as [K4|K4]; cbn [andb]; [|reflexivity].
    destruct (Nat.eqb_spec i1 (length domain - 1)) as [K5|K5]; [|reflexivity].
    exfalso. apply HN. assert (u4 = []) as -> by (destruct u4; [reflexivity|cbn [length] in L4; lia]).
    assert (v5 = []) as ->.
    { assert (length domain = i1 + S (length v5)) as Q by (rewrite D5, app_length, L5; reflexivity). destruct v5; [reflexivity|cbn [length] in Q; lia]. }
    cbn [app] in D4. destruct u5 as [|x u5]; [cbn [length] in L5; lia|].
    rewrite D4 in D5. cbn [app] in D5. injection D5 as <- Hv.
    exists u5. right. exists (4 :: u5), [5]. split; [rewrite D4, Hv|]; reflexivity.
Qed.
Print Assumptions C81_invalid_domain_exact.

(** So the promised rejection does not always happen. *)
Theorem C81_invalid_domain_rejected_refuted :
  ~ (forall (P : Type) (point : nat -> P) (domain : list nat) (points curve : list P),
       NoDup domain -> (forall d, In d domain -> nth_error points d = Some (point d)) -> curve <> [] ->
       In 4 domain -> In 5 domain -> ~ has_cut domain ->
       get_surface_points domain points curve = RuntimeError).
Proof.
  intros H.
  specialize (H nat (fun d => d) [5; 0; 4; 1] [0; 1; 2; 3; 4; 5] [4; 5]).
  enough (get_surface_points [5; 0; 4; 1] [0; 1; 2; 3; 4; 5] [4; 5] = RuntimeError) by discriminate.
  apply H.
  - repeat constructor; cbn [In]; lia.
  - cbn [In]. intros d [<-|[<-|[<-|[<-|[]]]]]; reflexivity.
  - discriminate.
  - cbn [In]; lia.
  - cbn [In]; lia.
  - intros [rest [K|K]].
    + destruct (rotation_pair _ _ _ _ K) as [(u & v & E & _)|E].
      * destruct u as [|? [|? [|? [|? [|]]]]]; discriminate.
      * injection E as E. destruct rest as [|? [|? [|? [|]]]]; discriminate.
    + destruct (rotation_pair _ _ _ _ K) as [(u & v & E & _)|E].
      * destruct u as [|? [|? [|? [|? [|]]]]]; discriminate.
      * discriminate.
Qed.
Print Assumptions C81_invalid_domain_rejected_refuted.

(** ** The lines and their tags *)
Lemma slice_seq a b n : b <= n -> slice a b (seq 0 n) = seq a (b - a).
Proof.
  intros H. unfold slice. destruct (le_lt_dec a n) as [L|L].
  - replace n with (a + (n - a)) by lia. rewrite seq_app, skipn_past by apply seq_length.
    replace (n - a) with ((b - a) + (n - a - (b - a))) by lia. rewrite seq_app, firstn_past by apply seq_length. reflexivity.
  - rewrite skipn_all2 by (rewrite seq_length; lia). replace (b - a) with 0 by lia. reflexivity.
Qed.

Lemma outline_lines_nth n i : i < n -> nth_error (outline_lines n) i = Some ((i + n - 1) mod n, i).
Proof.
  intros H. unfold outline_lines. apply (map_nth_error (fun i => ((i + n - 1) mod n, i))).
  rewrite nth_error_nth' with (d := 0) by (rewrite seq_length; exact H). now rewrite seq_nth.
Qed.

Lemma previous n i : 0 < i < n -> (i + n - 1) mod n = i - 1.
Proof.
  intros H. replace (i + n - 1) with ((i - 1) + 1 * n) by lia. rewrite Nat.mod_add by lia. apply Nat.mod_small; lia.
Qed.

(** The lines close up into one loop through all points of the outline. *)
Theorem C81_lines_closed : forall n, 0 < n -> closed (outline_lines n) /\ map snd (outline_lines n) = seq 0 n.
Proof.
  intros n H. split.
  - exists (n - 1). unfold outline_lines.
    assert (G : forall m s, s + m = n -> 0 < s -> walk (s - 1) (map (fun i => ((i + n - 1) mod n, i)) (seq s m)) (n - 1)).
    { induction m as [|m IH]; intros s Hs Hp; cbn [seq map walk].
      - lia.
      - split; [symmetry; apply previous; lia|]. specialize (IH (S s)). replace (S s - 1) with s in IH by lia. apply IH; lia. }
    destruct n as [|n]; [lia|]. cbn [seq map walk]. split.
    + cbn [Nat.add]. rewrite Nat.mod_small; lia.
    + apply (G n 1); lia.
  - unfold outline_lines. rewrite map_map. cbn [snd]. apply map_id.
Qed.
Print Assumptions C81_lines_closed.

(** Line i runs along the curve: it joins two consecutive points of it. *)
Definition along_curve (k : nat) (l : nat * nat) : Prop := snd l = S (fst l) /\ snd l < k.

Lemma along_iff n k i : 2 <= k <= n -> i < n -> along_curve k ((i + n - 1) mod n, i) <-> 1 <= i < k.
Proof.
  intros Hk Hi. unfold along_curve; cbn [fst snd]. destruct (Nat.eq_dec i 0) as [->|Z].
  - cbn [Nat.add]. rewrite Nat.mod_small by lia. lia.
  - rewrite previous by lia. lia.
Qed.

Lemma half_bounds k : 2 <= k -> 1 <= k / 2 <= k.
Proof.
  intros H. split; [apply Nat.div_le_lower_bound; lia|]. apply Nat.div_le_upper_bound; lia.
Qed.

Theorem C81_surface_mesh_tags :
  forall n k, 2 <= k <= n ->
    let '(outer, first_half, second_half) := surface_mesh_groups n k in
    Permutation (outer ++ first_half ++ second_half) (seq 0 n)
    /\ (forall i l, nth_error (outline_lines n) i = Some l -> (In i (first_half ++ second_half) <-> along_curve k l)).
Proof.
  intros n k Hk. unfold surface_mesh_groups.
  destruct (half_bounds k (proj1 Hk)) as [H1 H2].
  rewrite !slice_seq by lia.
  assert (E : seq 1 (k / 2 - 1) ++ seq (k / 2) (k - k / 2) = seq 1 (k - 1)).
  { replace (k - 1) with ((k / 2 - 1) + (k - k / 2)) by lia. rewrite seq_app. f_equal. f_equal. lia. }
  rewrite E.
  assert (S0 : skipn k (seq 0 n) = seq k (n - k)).
  { replace n with (k + (n - k)) at 1 by lia. rewrite seq_app. apply skipn_past, seq_length. }
  split.
  - rewrite S0, seq_nth by lia. cbn [app].
    replace n with (1 + (k - 1) + (n - k)) at 2 by lia. rewrite !seq_app. cbn [seq app]. constructor.
    replace (0 + (1 + (k - 1))) with k by lia. cbn [Nat.add]. apply Permutation_app_comm.
  - intros i l Hl. assert (Hi : i < n).
    { assert (i < length (outline_lines n)) as Q by (apply nth_error_Some; congruence). unfold outline_lines in Q. rewrite map_length, seq_length in Q. exact Q. }
    rewrite (outline_lines_nth n i Hi) in Hl. injection Hl as <-. rewrite (along_iff n k i Hk Hi), in_seq. lia.
Qed.
Print Assumptions C81_surface_mesh_tags.

(** End points of the lines of create_tet_mesh (true: the upper copy). *)
Definition tet_ends (n : nat) (l : tet_line) : (bool * nat) * (bool * nat) :=
  match l with
  | LowLine i => ((false, (i + n - 1) mod n), (false, i))
  | HighLine i => ((true, (i + n - 1) mod n), (true, i))
  | Vertical i => ((false, i), (true, i))
  end.
Definition signed_ends (n : nat) (s : bool * tet_line) : (bool * nat) * (bool * nat) :=
  let e := tet_ends n (snd s) in if fst s then e else (snd e, fst e).

Theorem C81_side_loops_closed : forall n i, closed (map (signed_ends n) (side_loop n i)).
Proof.
  intros n i. exists (false, (i + n - 1) mod n). unfold side_loop. cbn [map walk signed_ends tet_ends fst snd].
  repeat split.
Qed.
Print Assumptions C81_side_loops_closed.

(** In create_tet_mesh the sides marked as contact are those over the curve exactly when
    the outline has two points besides the curve, that is when the domain has four
    vertices. *)
Theorem C81_tet_mesh_tags_exact :
  forall n k, 2 <= k <= n ->
    let '(outer, first_half, second_half) := tet_mesh_groups n in
    (forall i l, nth_error (outline_lines n) i = Some l -> (In (Side i) (first_half ++ second_half) <-> along_curve k l))
    <-> n = k + 2.
Proof.
  intros n k Hk. unfold tet_mesh_groups, range. rewrite <- map_app.
  assert (M : forall i, In (Side i) (map Side (seq 1 ((n - 2) / 2 - 1) ++ seq ((n - 2) / 2) (n - 2 - (n - 2) / 2))) <-> In i (seq 1 ((n - 2) / 2 - 1) ++ seq ((n - 2) / 2) (n - 2 - (n - 2) / 2))).
  { intros i. split; [|apply in_map]. intros H. apply in_map_iff in H as (j & E & H). injection E as <-. exact H. }
  assert (Hd : n - 2 < 2 /\ (n - 2) / 2 = 0 \/ 1 <= (n - 2) / 2 <= n - 2).
  { destruct (le_lt_dec 2 (n - 2)) as [L|L]; [right; apply half_bounds; exact L|left; split; [exact L|apply Nat.div_small; exact L]]. }
  split.
  - intros H. destruct (le_lt_dec n (k + 1)) as [L|L].
    + exfalso. assert (K := H (k - 1) _ (outline_lines_nth n (k - 1) ltac:(lia))).
      rewrite M, (along_iff n k (k - 1) Hk ltac:(lia)) in K. apply proj2 in K.
      assert (Q : 1 <= k - 1 < k) by lia. apply K in Q. apply in_app_or in Q as [Q|Q]; apply in_seq in Q; lia.
    + destruct (Nat.eq_dec n (k + 2)) as [E|E]; [exact E|]. exfalso.
      assert (K := H k _ (outline_lines_nth n k ltac:(lia))).
      rewrite M, (along_iff n k k Hk ltac:(lia)) in K. apply proj1 in K.
      assert (Q : 1 <= k < k); [apply K|lia].
      apply in_or_app. rewrite !in_seq. lia.
  - intros -> i l Hl. assert (Hi : i < k + 2).
    { assert (i < length (outline_lines (k + 2))) as Q by (apply nth_error_Some; congruence). unfold outline_lines in Q. rewrite map_length, seq_length in Q. exact Q. }
    rewrite (outline_lines_nth (k + 2) i Hi) in Hl. injection Hl as <-. rewrite M, (along_iff (k + 2) k i ltac:(lia) Hi).
    rewrite in_app_iff, !in_seq. replace (k + 2 - 2) with k in * by lia.
    destruct (half_bounds k (proj1 Hk)). lia.
Qed.
Print Assumptions C81_tet_mesh_tags_exact.

(** For a domain with four vertices every surface is in exactly one group. *)
Theorem C81_tet_mesh_tags_partition :
  forall k, 2 <= k ->
    let '(outer, first_half, second_half) := tet_mesh_groups (k + 2) in
    Permutation (outer ++ first_half ++ second_half) (Bottom :: Top :: map Side (seq 0 (k + 2))).
Proof.
  intros k Hk. unfold tet_mesh_groups, range. destruct (half_bounds k Hk).
  replace (k + 2 - 2) with k by lia. rewrite <- map_app.
  assert (E : seq 1 (k / 2 - 1) ++ seq (k / 2) (k - k / 2) = seq 1 (k - 1)).
  { replace (k - 1) with ((k / 2 - 1) + (k - k / 2)) by lia. rewrite seq_app. f_equal. f_equal. lia. }
  rewrite E. replace (k + 2 - 1) with (S k) by lia. cbn [app]. do 2 constructor.
  replace (k + 2) with (1 + (k - 1) + 2) by lia. rewrite !seq_app. cbn [seq Nat.add app map]. constructor.
  rewrite map_app. replace (S (k - 1)) with k by lia. cbn [map].
  apply (Permutation_app_comm [Side k; Side (S k)]).
Qed.
Print Assumptions C81_tet_mesh_tags_partition.

(** ** create_unsplit_box_2d *)
Lemma skipn_twice {A} (l : list A) a b : skipn a (skipn b l) = skipn (a + b) l.
Proof.
  revert l; induction b as [|b IH]; intros l; [now rewrite Nat.add_0_r|].
  rewrite Nat.add_succ_r. destruct l; [now rewrite !skipn_nil|]. apply IH.
Qed.

Lemma skipn_slice_split {A} (l : list A) n : length l = n -> 3 <= n -> l = firstn 1 l ++ slice 1 (n - 2) l ++ skipn (n - 2) l.
Proof.
  intros L H. unfold slice. rewrite <- (firstn_skipn 1 l) at 1. f_equal.
  rewrite <- (firstn_skipn (n - 2 - 1) (skipn 1 l)) at 1. f_equal. rewrite skipn_twice. f_equal. lia.
Qed.

(** With k >= 2 curve points (n = k + 2): both loops close, the cut lines belong to both,
    each other line to one of them, and the marked boundary consists of the latter. *)
Theorem C81_unsplit_loops :
  forall k, 2 <= k ->
    let n := k + 2 in
    let '(upper, lower) := unsplit_loops n in
    closed upper /\ closed lower
    /\ exists cut, (forall l, In l cut <-> In l upper /\ along_curve k l)
         /\ Permutation (upper ++ lower) (unsplit_boundary n ++ cut ++ cut).
Proof.
  intros k Hk n. unfold unsplit_loops, unsplit_boundary.
  set (lines2 := path_lines (unsplit_lower_points n)).
  assert (L : length (outline_lines n) = n) by (unfold outline_lines; rewrite map_length, seq_length; reflexivity).
  assert (SE : slice 1 (n - 2) (outline_lines n) = map (fun i => (i - 1, i)) (seq 1 (k - 1))).
  { unfold outline_lines. transitivity (map (fun i => ((i + n - 1) mod n, i)) (slice 1 (n - 2) (seq 0 n))).
    - unfold slice. now rewrite skipn_map, firstn_map.
    - rewrite slice_seq by lia. replace (n - 2 - 1) with (k - 1) by (unfold n; lia).
      apply map_ext_in. intros i Hi. apply in_seq in Hi. rewrite previous by (unfold n; lia). reflexivity. }
  split; [apply C81_lines_closed; unfold n; lia|]. split.
  - exists 0. rewrite SE.
    assert (G : forall m s rest to, 0 < s -> walk (s + m - 1) rest to -> walk (s - 1) (map (fun i => (i - 1, i)) (seq s m) ++ rest) to).
    { induction m as [|m IH]; intros s rest to Hs W; cbn [seq map app walk].
      - replace (s + 0 - 1) with (s - 1) in W by lia. exact W.
      - split; [reflexivity|]. specialize (IH (S s) rest to). replace (S s - 1) with s in IH by lia. apply IH; [lia|].
        replace (S s + m - 1) with (s + S m - 1) by lia. exact W. }
    apply (G (k - 1) 1); [lia|]. unfold lines2, path_lines, unsplit_lower_points. cbn [length seq map Nat.sub nth walk].
    split; [unfold n; lia|repeat split].
  - exists (slice 1 (n - 2) (outline_lines n)). split.
    + intros l. split.
      * intros H. split.
        -- rewrite (skipn_slice_split (outline_lines n) n L ltac:(unfold n; lia)). apply in_or_app; right; apply in_or_app; left; exact H.
        -- rewrite SE in H. apply in_map_iff in H as (i & <- & Hi). apply in_seq in Hi. unfold along_curve; cbn [fst snd]. lia.
      * intros [H A]. apply In_nth_error in H as (i & Hi).
        assert (Li : i < n). { rewrite <- L. apply nth_error_Some. congruence. }
        rewrite (outline_lines_nth n i Li) in Hi. injection Hi as <-. apply (along_iff n k i) in A; [|unfold n; lia|exact Li].
        rewrite SE. apply in_map_iff. exists i. split; [rewrite previous by lia; reflexivity|apply in_seq; lia].
    + rewrite (skipn_slice_split (outline_lines n) n L ltac:(unfold n; lia)) at 1.
      rewrite <- !app_assoc. apply Permutation_app_head.
      set (c := slice 1 (n - 2) (outline_lines n)). set (e := skipn (n - 2) (outline_lines n)).
      transitivity ((e ++ lines2) ++ (c ++ c)).
      * transitivity ((c ++ c) ++ (e ++ lines2)); [|apply Permutation_app_comm].
        rewrite <- app_assoc. apply Permutation_app_head. rewrite !app_assoc. apply Permutation_app_tail, Permutation_app_comm.
      * rewrite <- !app_assoc. reflexivity.
Qed.
Print Assumptions C81_unsplit_loops.

(** ** C82: merging the two bodies *)
Definition nodes_fit {P} (m : mesh_data P) : Prop :=
  (forall e v, In e (md_cells m) -> In v e -> v < length (md_x m)) /\ (forall e v, In e (md_facets m) -> In v e -> v < length (md_x m)).

Lemma entity_points_left {P} (x x2 : list P) e : (forall v, In v e -> v < length x) -> entity_points (x ++ x2) e = entity_points x e.
Proof. intros H. apply map_ext_in. intros v Hv. apply nth_error_app1, H, Hv. Qed.

Lemma entity_points_right {P} (x x2 : list P) e : entity_points (x ++ x2) (map (fun v => v + length x) e) = entity_points x2 e.
Proof. unfold entity_points. rewrite map_map. apply map_ext. intros v. rewrite nth_error_app2 by lia. f_equal. lia. Qed.

(** Every cell and marked facet keeps its coordinates and its value, and no node belongs
    to cells (or facets) of both bodies. *)
Theorem C82_combined_bodies :
  forall (P : Type) (m m2 : mesh_data P), nodes_fit m ->
    length (md_cell_data m) = length (md_cells m) -> length (md_facet_values m) = length (md_facets m) ->
    let c := combine_mesh_data m m2 in
    combine (map (entity_points (md_x c)) (md_cells c)) (md_cell_data c)
      = combine (map (entity_points (md_x m)) (md_cells m)) (md_cell_data m) ++ combine (map (entity_points (md_x m2)) (md_cells m2)) (md_cell_data m2)
    /\ combine (map (entity_points (md_x c)) (md_facets c)) (md_facet_values c)
      = combine (map (entity_points (md_x m)) (md_facets m)) (md_facet_values m) ++ combine (map (entity_points (md_x m2)) (md_facets m2)) (md_facet_values m2)
    /\ (forall i j e e2 v, i < length (md_cells m) -> length (md_cells m) <= j -> nth_error (md_cells c) i = Some e -> nth_error (md_cells c) j = Some e2 -> In v e -> ~ In v e2)
    /\ (forall i j e e2 v, i < length (md_facets m) -> length (md_cells m) <= j -> nth_error (md_facets c) i = Some e -> nth_error (md_cells c) j = Some e2 -> In v e -> ~ In v e2)
    /\ (forall i j e e2 v, i < length (md_cells m) -> length (md_facets m) <= j -> nth_error (md_cells c) i = Some e -> nth_error (md_facets c) j = Some e2 -> In v e -> ~ In v e2).
Proof.
  intros P m m2 [Hc Hf] Lc Lf c.
  assert (CA : forall A B (a a2 : list A) (b b2 : list B), length b = length a -> combine (a ++ a2) (b ++ b2) = combine a b ++ combine a2 b2).
  { intros A B a. induction a as [|x a IH]; intros a2 [|y b] b2 E; try discriminate; [reflexivity|]. cbn [app combine]. f_equal. apply IH. now injection E. }
  assert (sep : forall (es fs es2 : list (list nat)) i j e e2 v, (forall e v, In e es -> In v e -> v < length (md_x m)) ->
            i < length es -> length fs <= j -> nth_error (es ++ map (map (fun v => v + length (md_x m))) es2) i = Some e ->
            forall fs2, nth_error (fs ++ map (map (fun v => v + length (md_x m))) fs2) j = Some e2 -> In v e -> ~ In v e2).
  { intros es fs es2 i j e e2 v He Hi Hj E fs2 E2 V V2. rewrite nth_error_app1 in E by exact Hi. apply nth_error_In in E.
    specialize (He e v E V). rewrite nth_error_app2 in E2 by exact Hj. apply nth_error_In in E2. apply in_map_iff in E2 as (e0 & <- & _).
    apply in_map_iff in V2 as (w & Ew & _). lia. }
  unfold c, combine_mesh_data; cbn [md_x md_cells md_cell_data md_facets md_facet_values].
  split; [|split; [|split; [|split]]].
  - rewrite map_app, CA by (rewrite map_length; exact Lc). f_equal.
    + f_equal. apply map_ext_in. intros e He. apply entity_points_left. intros v Hv. exact (Hc e v He Hv).
    + f_equal. rewrite map_map. apply map_ext. intros e. apply entity_points_right.
  - rewrite map_app, CA by (rewrite map_length; exact Lf). f_equal.
    + f_equal. apply map_ext_in. intros e He. apply entity_points_left. intros v Hv. exact (Hf e v He Hv).
    + f_equal. rewrite map_map. apply map_ext. intros e. apply entity_points_right.
  - intros i j e e2 v Hi Hj E E2. exact (sep _ _ _ i j e e2 v Hc Hi Hj E _ E2).
  - intros i j e e2 v Hi Hj E E2. exact (sep _ _ _ i j e e2 v Hf Hi Hj E _ E2).
  - intros i j e e2 v Hi Hj E E2. exact (sep _ _ _ i j e e2 v Hc Hi Hj E _ E2).
Qed.
Print Assumptions C82_combined_bodies.

(** ** The hypotheses are met *)
(** The default domains of create_split_box_2D, with a curve of three points. *)
Example C81_default_domain_1 :
  has_cut [0; 4; 5; 3] /\ get_surface_points [0; 4; 5; 3] [0; 1; 2; 3; 4; 5] [4; 45; 5] = Outline [4; 45; 5; 3; 0].
Proof. split; [exists [3; 0]; left; exists [0], [4; 5; 3]; split; reflexivity|reflexivity]. Qed.
Example C81_default_domain_2 :
  has_cut [4; 1; 2; 5] /\ get_surface_points [4; 1; 2; 5] [0; 1; 2; 3; 4; 5] [4; 45; 5] = Outline [5; 45; 4; 1; 2].
Proof. split; [exists [1; 2]; right; exists [4; 1; 2], [5]; split; reflexivity|reflexivity]. Qed.
Example C81_tags_example : surface_mesh_groups 6 4 = ([0; 4; 5], [1], [2; 3]) /\ tet_mesh_groups 6 = ([Bottom; Top; Side 0; Side 4; Side 5], [Side 1], [Side 2; Side 3]).
Proof. split; reflexivity. Qed.
(** A body with five vertices: in 3D the side over an uncut edge is marked as contact. *)
Example C81_tet_pentagon : In (Side 3) (snd (tet_mesh_groups 6)) /\ ~ along_curve 3 (2, 3).
Proof. split; [right; left; reflexivity|]. unfold along_curve; cbn [fst snd]; lia. Qed.
Example C82_example :
  let m := mkMeshData [10; 11; 12] [[0; 1; 2]] [1] [[0; 1]; [1; 2]] [2; 3] in
  let m2 := mkMeshData [20; 21; 22] [[2; 1; 0]] [5] [[0; 2]] [6] in
  nodes_fit m /\ md_cells (combine_mesh_data m m2) = [[0; 1; 2]; [5; 4; 3]] /\ md_facets (combine_mesh_data m m2) = [[0; 1]; [1; 2]; [3; 5]].
Proof.
  split; [|split; reflexivity]. split; cbn [md_cells md_facets md_x length]; intros e v He Hv.
  - destruct He as [<-|[]]. cbn [In] in Hv. lia.
  - destruct He as [<-|[<-|[]]]; cbn [In] in Hv; lia.
Qed.
