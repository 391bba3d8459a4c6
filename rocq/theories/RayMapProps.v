(** Properties C25, C26: the ray-tracing contact map. *)
From Coq Require Import List Arith ZArith Lia Bool Reals Lra.
Import ListNotations.
From Verif Require Import Prelude PreludeLemmas RSum CropModel CandidatesProps RayMapModel.

(** ** The loop *)
Lemma ray_point_in gdim sr normal point outcome patch c X :
  ray_point gdim sr normal point outcome patch = Some (c, X) ->
  In c patch /\ (0 < check_ray gdim sr normal point (outcome c))%Z /\ X = ray_X (outcome c).
Proof.
  induction patch as [|c' patch IH]; cbn [ray_point]; [discriminate|].
  destruct (Z.ltb_spec 0 (check_ray gdim sr normal point (outcome c'))).
  - intros E. injection E as <- <-. split; [left; auto|auto].
  - intros E. destruct (IH E) as (H1 & H2). split; [right; auto|auto].
Qed.

Lemma filter_all {A} (f : A -> bool) l : (forall x, In x l -> f x = true) -> filter f l = l.
Proof.
  induction l as [|a l IH]; cbn [filter]; intros H; auto. rewrite (H a) by (left; auto).
  f_equal. apply IH. intros x Hx. apply H. right. auto.
Qed.

(** What the code assigns to point [j] of one facet. *)
Definition assigned (nq : nat) (c_facets : list Z) (patch : list nat)
    (hit : nat -> option (nat * list R)) (closest : nat -> list nat -> nat * list R) (j : nat) : Z * list R :=
  match hit j with
  | Some (c, X) => (nth c c_facets 0%Z, X)
  | None =>
      if existsb (fun k => match hit k with Some _ => true | None => false end) (seq 0 nq)
      then let r := closest j patch in (nth (fst r) c_facets 0%Z, snd r)
      else ((-1)%Z, [])
  end.

Section Facet.
  Context (gdim nq : nat) (sr : R) (c_facets : list Z) (i : nat) (patch : list nat)
    (normal point : nat -> list R) (outcome : nat -> nat -> ray_outcome) (closest : nat -> list nat -> nat * list R).
  Definition the_hit (j : nat) : option (nat * list R) := ray_point gdim sr (normal j) (point j) (outcome j) patch.
  Definition isSome (j : nat) : bool := match the_hit j with Some _ => true | None => false end.
  Definition first_loop (m : nat) (st : list Z * list (list R)) : list Z * list (list R) * list nat :=
    for_loop m (fun j s =>
      let '(colliding, refs, missing) := s in
      match ray_point gdim sr (normal j) (point j) (outcome j) patch with
      | Some (cell_idx, X) =>
          (upd colliding (i * nq + j) (nth cell_idx c_facets 0%Z), upd refs (i * nq + j) X, missing)
      | None => (colliding, refs, missing ++ [j])
      end) (fst st, snd st, []).

  Lemma first_loop_spec st m :
    (m <= nq)%nat -> ((i + 1) * nq <= length (fst st))%nat -> length (snd st) = length (fst st) ->
    let r := first_loop m st in
    snd r = filter (fun j => negb (isSome j)) (seq 0 m) /\
    length (fst (fst r)) = length (fst st) /\ length (snd (fst r)) = length (snd st) /\
    (forall p, nth p (fst (fst r)) 0%Z =
       if (i * nq <=? p)%nat && (p <? i * nq + m)%nat
       then match the_hit (p - i * nq) with Some (c, _) => nth c c_facets 0%Z | None => nth p (fst st) 0%Z end
       else nth p (fst st) 0%Z) /\
    (forall p, nth p (snd (fst r)) [] =
       if (i * nq <=? p)%nat && (p <? i * nq + m)%nat
       then match the_hit (p - i * nq) with Some (_, X) => X | None => nth p (snd st) [] end
       else nth p (snd st) []).
  Proof.
    intros Hm Hl Hl2 r. unfold r. clear r. revert Hm. induction m as [|m IH]; intros Hm.
    - unfold first_loop, for_loop. cbn [fst snd filter seq fold_left].
      do 3 (split; [reflexivity|]). split; intros p;
        destruct (Nat.leb_spec (i * nq) p), (Nat.ltb_spec p (i * nq + 0)); cbn [andb]; auto; lia.
    - destruct IH as (I1 & I2 & I3 & I4 & I5); [lia|]. unfold first_loop in *. rewrite for_loop_S.
      set (s := for_loop m _ _) in *. destruct s as [[colliding refs] missing]. cbn [fst snd] in *.
      rewrite seq_S, filter_app, Nat.add_0_l. cbn [filter].
      fold (the_hit m). unfold isSome at 2.
      assert (Hpos : (i * nq + m < length (fst st))%nat) by nia.
      destruct (the_hit m) as [[c X]|] eqn:Eh; cbn [fst snd negb].
      + rewrite app_nil_r, !upd_length. split; [exact I1|]. split; [auto|]. split; [auto|]. split.
        * intros p. rewrite nth_upd, I2, I4.
          destruct (Nat.eqb_spec (i * nq + m) p) as [<-|Hne]; cbn [andb].
          -- destruct (Nat.ltb_spec (i * nq + m) (length (fst st))); [|lia].
             replace (i * nq + m - i * nq)%nat with m by lia. rewrite Eh.
             destruct (Nat.leb_spec (i * nq) (i * nq + m)), (Nat.ltb_spec (i * nq + m) (i * nq + S m)); cbn [andb]; auto; lia.
          -- destruct (Nat.leb_spec (i * nq) p), (Nat.ltb_spec p (i * nq + m)), (Nat.ltb_spec p (i * nq + S m)); cbn [andb]; auto; lia.
        * intros p. rewrite nth_upd, I3, I5, Hl2.
          destruct (Nat.eqb_spec (i * nq + m) p) as [<-|Hne]; cbn [andb].
          -- destruct (Nat.ltb_spec (i * nq + m) (length (fst st))); [|lia].
             replace (i * nq + m - i * nq)%nat with m by lia. rewrite Eh.
             destruct (Nat.leb_spec (i * nq) (i * nq + m)), (Nat.ltb_spec (i * nq + m) (i * nq + S m)); cbn [andb]; auto; lia.
          -- destruct (Nat.leb_spec (i * nq) p), (Nat.ltb_spec p (i * nq + m)), (Nat.ltb_spec p (i * nq + S m)); cbn [andb]; auto; lia.
      + rewrite I1. split; [reflexivity|]. split; [auto|]. split; [auto|]. split.
        * intros p. rewrite I4.
          destruct (Nat.leb_spec (i * nq) p), (Nat.ltb_spec p (i * nq + m)), (Nat.ltb_spec p (i * nq + S m)); cbn [andb]; auto; try lia.
          replace p with (i * nq + m)%nat by lia. replace (i * nq + m - i * nq)%nat with m by lia. rewrite Eh. auto.
        * intros p. rewrite I5.
          destruct (Nat.leb_spec (i * nq) p), (Nat.ltb_spec p (i * nq + m)), (Nat.ltb_spec p (i * nq + S m)); cbn [andb]; auto; try lia.
          replace p with (i * nq + m)%nat by lia. replace (i * nq + m - i * nq)%nat with m by lia. rewrite Eh. auto.
  Qed.

  Lemma fill_loop (pm : list (Z * list R)) (missing : list nat) (s0 : list Z * list (list R)) :
    NoDup missing -> (forall j, In j missing -> (i * nq + j < length (fst s0))%nat) -> length (snd s0) = length (fst s0) ->
    forall m, (m <= length missing)%nat ->
    let s := for_loop m (fun j s =>
        let e := nth j pm (0%Z, []) in
        (upd (fst s) (i * nq + nth j missing 0)%nat (fst e), upd (snd s) (i * nq + nth j missing 0)%nat (snd e))) s0 in
    length (fst s) = length (fst s0) /\ length (snd s) = length (snd s0) /\
    (forall k, (k < m)%nat -> nth (i * nq + nth k missing 0)%nat (fst s) 0%Z = fst (nth k pm (0%Z, [])) /\
                       nth (i * nq + nth k missing 0)%nat (snd s) [] = snd (nth k pm (0%Z, []))) /\
    (forall p, (forall k, (k < m)%nat -> p <> (i * nq + nth k missing 0)%nat) ->
       nth p (fst s) 0%Z = nth p (fst s0) 0%Z /\ nth p (snd s) [] = nth p (snd s0) []).
  Proof.
    intros Hnd Hin Hl2. induction m as [|m IH]; intros Hm; [cbn; repeat split; auto; lia|].
    destruct IH as (I1 & I2 & I3 & I4); [lia|]. rewrite for_loop_S. set (s := for_loop m _ _) in *. cbn zeta. cbn [fst snd].
    rewrite !upd_length. split; auto. split; auto.
    assert (Hp : (i * nq + nth m missing 0 < length (fst s0))%nat) by (apply Hin, nth_In; lia).
    split.
    - intros k Hk. destruct (Nat.eq_dec k m) as [->|Hne].
      + rewrite !nth_upd_same by lia. auto.
      + assert (nth k missing 0%nat <> nth m missing 0%nat).
        { intros E. apply (NoDup_nth missing 0%nat) in E; auto; lia. }
        rewrite !nth_upd_other by lia. apply I3. lia.
    - intros p Hpk. rewrite !nth_upd_other by (intros E; apply (Hpk m); [lia|auto]).
      apply I4. intros k Hk. apply Hpk. lia.
  Qed.

  (** The entries of facet [i] become [assigned]; other facets are untouched. *)
  Lemma ray_facet_spec st :
    ((i + 1) * nq <= length (fst st))%nat -> length (snd st) = length (fst st) ->
    (forall j, (j < nq)%nat -> nth (i * nq + j) (fst st) 0%Z = (-1)%Z /\ nth (i * nq + j) (snd st) [] = []) ->
    let r := ray_facet gdim nq sr c_facets i patch normal point outcome closest st in
    length (fst r) = length (fst st) /\ length (snd r) = length (snd st) /\
    (forall j, (j < nq)%nat ->
       (nth (i * nq + j) (fst r) 0%Z, nth (i * nq + j) (snd r) []) = assigned nq c_facets patch the_hit closest j) /\
    (forall p, (p < i * nq \/ (i + 1) * nq <= p)%nat ->
       nth p (fst r) 0%Z = nth p (fst st) 0%Z /\ nth p (snd r) [] = nth p (snd st) []).
  Proof.
    intros Hl Hl2 H0 r. unfold r, ray_facet. fold (first_loop nq st).
    destruct (first_loop_spec st nq (le_n _) Hl Hl2) as (F1 & F2 & F3 & F4 & F5).
    destruct (first_loop nq st) as [[colliding refs] missing]. cbn [fst snd] in *.
    assert (Hm : forall j, In j missing <-> (j < nq)%nat /\ the_hit j = None).
    { intros j. rewrite F1, filter_In, in_seq. unfold isSome. destruct (the_hit j); cbn; split; intros [A B]; try discriminate; split; auto; lia. }
    assert (Hnd : NoDup missing) by (rewrite F1; apply NoDup_filter', seq_NoDup).
    assert (G1 : forall j, (j < nq)%nat -> nth (i * nq + j) colliding 0%Z = match the_hit j with Some (c, _) => nth c c_facets 0%Z | None => (-1)%Z end).
    { intros j Hj. rewrite F4. destruct (Nat.leb_spec (i * nq) (i * nq + j)), (Nat.ltb_spec (i * nq + j) (i * nq + nq)); try lia. cbn [andb].
      replace (i * nq + j - i * nq)%nat with j by lia. destruct (the_hit j) as [[c X]|]; auto. apply H0. auto. }
    assert (G2 : forall j, (j < nq)%nat -> nth (i * nq + j) refs [] = match the_hit j with Some (_, X) => X | None => [] end).
    { intros j Hj. rewrite F5. destruct (Nat.leb_spec (i * nq) (i * nq + j)), (Nat.ltb_spec (i * nq + j) (i * nq + nq)); try lia. cbn [andb].
      replace (i * nq + j - i * nq)%nat with j by lia. destruct (the_hit j) as [[c X]|]; auto. apply H0. auto. }
    assert (G3 : forall p, (p < i * nq \/ (i + 1) * nq <= p)%nat -> nth p colliding 0%Z = nth p (fst st) 0%Z /\ nth p refs [] = nth p (snd st) []).
    { intros p Hp. rewrite F4, F5. destruct (Nat.leb_spec (i * nq) p), (Nat.ltb_spec p (i * nq + nq)); cbn [andb]; auto; lia. }
    set (hits := existsb (fun k => match the_hit k with Some _ => true | None => false end) (seq 0 nq)).
    assert (Hhits : hits = true <-> exists k, (k < nq)%nat /\ the_hit k <> None).
    { unfold hits. rewrite existsb_exists. split; intros (k & Hk & H); exists k.
      - apply in_seq in Hk. split; [lia|]. destruct (the_hit k); [discriminate|discriminate].
      - split; [apply in_seq; lia|]. destruct (the_hit k); auto. }
    assert (Hlen : length missing = nq <-> hits = false).
    { split.
      - intros E. destruct hits eqn:Eh; auto. exfalso. destruct (proj1 Hhits eq_refl) as (k & Hk & Hne).
        assert (Hincl : incl (seq 0 nq) missing).
        { apply NoDup_length_incl; auto; [rewrite seq_length; lia|]. intros x Hx. apply Hm in Hx. apply in_seq. lia. }
        assert (In k missing) as Hin by (apply Hincl, in_seq; lia). apply Hm in Hin. destruct Hin. congruence.
      - intros E. rewrite F1.
        replace (filter (fun j : nat => negb (isSome j)) (seq 0 nq)) with (seq 0 nq); [apply seq_length|].
        symmetry. apply filter_all. intros k Hk. apply in_seq in Hk. unfold isSome.
        destruct (the_hit k) eqn:Ek; auto. exfalso.
        assert (hits = true) as C by (apply Hhits; exists k; split; [lia|congruence]). congruence. }
    assert (Hle : (length missing <= nq)%nat).
    { rewrite <- (seq_length nq 0). apply NoDup_incl_length; auto. intros x Hx. apply Hm in Hx. apply in_seq. lia. }
    destruct ((0 <? length missing)%nat && (length missing <? nq)%nat) eqn:Ec.
    - apply andb_true_iff in Ec. destruct Ec as [E1 E2]. apply Nat.ltb_lt in E1, E2.
      assert (Eh : hits = true) by (destruct hits eqn:Eh; auto; assert (length missing = nq) by (apply Hlen; auto); lia).
      assert (Hpatch : patch <> []).
      { destruct (proj1 Hhits Eh) as (k & Hk & Hne). unfold the_hit in Hne. intros Ep. rewrite Ep in Hne. cbn in Hne. congruence. }
      set (pm := projection_map closest c_facets patch missing).
      destruct (fill_loop pm missing (colliding, refs) Hnd) with (m := length missing) as (A1 & A2 & A3 & A4); auto.
      { intros j Hj. cbn. rewrite F2. apply Hm in Hj. nia. }
      { cbn. lia. }
      cbn [fst snd] in *. set (s := for_loop (length missing) _ _) in *.
      split; [lia|]. split; [lia|]. split.
      + intros j Hj. unfold assigned. fold hits. rewrite Eh.
        destruct (the_hit j) as [[c X]|] eqn:Ej.
        * destruct (A4 (i * nq + j)%nat) as [B1 B2].
          { intros k Hk E. assert (In j missing) as Hin by (replace j with (nth k missing 0%nat) by lia; apply nth_In; auto).
            apply Hm in Hin. destruct Hin; congruence. }
          rewrite B1, B2, G1, G2, Ej by auto. reflexivity.
        * assert (In j missing) as Hin by (apply Hm; auto). apply (In_nth _ _ 0%nat) in Hin. destruct Hin as (k & Hk & Ek).
          destruct (A3 k Hk) as [B1 B2]. rewrite Ek in B1, B2. rewrite B1, B2.
          unfold pm, projection_map. destruct patch as [|c0 p0]; [congruence|].
          rewrite (nth_map_lt _ missing k (0%Z, []) 0%nat) by auto. rewrite Ek. reflexivity.
      + intros p Hp. destruct (A4 p) as [B1 B2].
        { intros k Hk E. assert (In (nth k missing 0%nat) missing) as Hin by (apply nth_In; auto). apply Hm in Hin. nia. }
        rewrite B1, B2. apply G3. auto.
    - cbn [fst snd]. split; auto. split; auto. split; auto.
      intros j Hj. rewrite G1, G2 by auto. unfold assigned. fold hits. destruct (the_hit j) as [[c X]|] eqn:Ej; auto.
      apply andb_false_iff in Ec. rewrite !Nat.ltb_ge in Ec.
      assert (In j missing) as Hin by (apply Hm; auto).
      destruct missing as [|m0 missing]; [contradiction|]. cbn [length] in *.
      assert (hits = false) as -> by (apply Hlen; lia). reflexivity.
  Qed.
End Facet.

(** ** C25 *)

(** Exactly what is assigned to each point of each facet. *)
Theorem C25_raytracing_map_exact :
  forall (gdim nq nf : nat) (sr : R) (c_facets : list Z) (patch : nat -> list nat) (normal point : nat -> nat -> list R)
         (outcome : nat -> nat -> nat -> ray_outcome) (closest : nat -> nat -> list nat -> nat * list R),
    let r := compute_raytracing_map gdim nq nf sr c_facets patch normal point outcome closest in
    length (fst r) = (nf * nq)%nat /\ length (snd r) = (nf * nq)%nat /\
    forall i j, (i < nf)%nat -> (j < nq)%nat ->
      (nth (i * nq + j) (fst r) 0%Z, nth (i * nq + j) (snd r) []) =
      assigned nq c_facets (patch i) (fun j => ray_point gdim sr (normal i j) (point i j) (outcome i j) (patch i)) (closest i) j.
Proof.
  intros gdim nq nf sr c_facets patch normal point outcome closest r.
  assert (H : forall m, (m <= nf)%nat ->
    let s := for_loop m (fun i st => ray_facet gdim nq sr c_facets i (patch i) (normal i) (point i) (outcome i) (closest i) st)
      (repeat (-1)%Z (nf * nq), repeat [] (nf * nq)) in
    length (fst s) = (nf * nq)%nat /\ length (snd s) = (nf * nq)%nat /\
    (forall i j, (i < m)%nat -> (j < nq)%nat ->
      (nth (i * nq + j) (fst s) 0%Z, nth (i * nq + j) (snd s) []) =
      assigned nq c_facets (patch i) (fun j => ray_point gdim sr (normal i j) (point i j) (outcome i j) (patch i)) (closest i) j) /\
    (forall p, (m * nq <= p < nf * nq)%nat -> nth p (fst s) 0%Z = (-1)%Z /\ nth p (snd s) [] = [])).
  { induction m as [|m IH]; intros Hm.
    - cbn. rewrite !repeat_length. repeat split; auto; try lia.
      + intros. rewrite (nth_indep _ 0%Z (-1)%Z) by (rewrite repeat_length; lia). apply nth_repeat_0.
      + intros. apply nth_repeat_0.
    - destruct IH as (I1 & I2 & I3 & I4); [lia|]. rewrite for_loop_S. set (s := for_loop m _ _) in *.
      destruct (ray_facet_spec gdim nq sr c_facets m (patch m) (normal m) (point m) (outcome m) (closest m) s) as (A1 & A2 & A3 & A4).
      + nia.
      + lia.
      + intros j Hj. apply I4. nia.
      + cbn zeta. split; [lia|]. split; [lia|]. split.
        * intros i j Hi Hj. destruct (Nat.eq_dec i m) as [->|Hne].
          -- rewrite A3 by auto. reflexivity.
          -- destruct (A4 (i * nq + j)%nat) as [B1 B2]; [left; nia|]. rewrite B1, B2. apply I3; auto; lia.
        * intros p Hp. destruct (A4 p) as [B1 B2]; [right; lia|]. rewrite B1, B2. apply I4. nia. }
  destruct (H nf (le_n _)) as (A1 & A2 & A3 & _). split; auto.
Qed.
Print Assumptions C25_raytracing_map_exact.

(** Each facet has no contact point or all of them; every contact facet is a
    candidate of the facet's patch.  The closest-entity search returns a member of
    the patch it is given. *)
Theorem C25_all_or_nothing :
  forall (gdim nq nf : nat) (sr : R) (c_facets : list Z) (patch : nat -> list nat) (normal point : nat -> nat -> list R)
         (outcome : nat -> nat -> nat -> ray_outcome) (closest : nat -> nat -> list nat -> nat * list R),
    (forall i j p, p <> [] -> In (fst (closest i j p)) p) ->
    let facets := fst (compute_raytracing_map gdim nq nf sr c_facets patch normal point outcome closest) in
    forall i, (i < nf)%nat ->
      (forall j, (j < nq)%nat -> nth (i * nq + j) facets 0%Z = (-1)%Z) \/
      (forall j, (j < nq)%nat -> exists c, In c (patch i) /\ nth (i * nq + j) facets 0%Z = nth c c_facets 0%Z).
Proof.
  intros gdim nq nf sr c_facets patch normal point outcome closest Hcl facets i Hi.
  destruct (C25_raytracing_map_exact gdim nq nf sr c_facets patch normal point outcome closest) as (_ & _ & H).
  set (hit := fun j => ray_point gdim sr (normal i j) (point i j) (outcome i j) (patch i)) in *.
  destruct (existsb (fun k => match hit k with Some _ => true | None => false end) (seq 0 nq)) eqn:E.
  - right. intros j Hj. specialize (H i j Hi Hj). fold hit in H. unfold assigned in H. rewrite E in H.
    destruct (hit j) as [[c X]|] eqn:Ej.
    + injection H as H _. exists c. split; [|exact H]. apply (ray_point_in _ _ _ _ _ _ _ _ Ej).
    + injection H as H _. exists (fst (closest i j (patch i))). split; [|exact H]. apply Hcl.
      apply existsb_exists in E. destruct E as (k & _ & Hk). unfold hit in Hk. intros Ep. rewrite Ep in Hk. discriminate.
  - left. intros j Hj. specialize (H i j Hi Hj). fold hit in H. unfold assigned in H. rewrite E in H.
    destruct (hit j) as [[c X]|] eqn:Ej.
    + exfalso. assert (existsb (fun k => match hit k with Some _ => true | None => false end) (seq 0 nq) = true) as C.
      { apply existsb_exists. exists j. split; [apply in_seq; lia|]. now rewrite Ej. }
      congruence.
    + injection H as H _. exact H.
Qed.
Print Assumptions C25_all_or_nothing.

(** ** C26 *)
Local Open Scope R_scope.

(** Squared length of the ray and the product of the normals, as sums. *)
Definition ray_length2 (gdim : nat) (point x : list R) : R := rsum gdim (fun l => (nth l x 0 - nth l point 0) * (nth l x 0 - nth l point 0)).
Definition ray_length (gdim : nat) (point x : list R) : R := sqrt (ray_length2 gdim point x).
Definition normals_product (gdim : nat) (n m : list R) : R := rsum gdim (fun l => nth l n 0 * nth l m 0).

Lemma ray_length2_nonneg gdim p x : 0 <= ray_length2 gdim p x.
Proof. apply rsum_nonneg. intros i _. apply Rle_0_sqr. Qed.

(** The test the code really makes: the SQUARED distance against the radius. *)
Theorem C26_acceptance_exact :
  forall (gdim : nat) (sr : R) (normal point : list R) (o : ray_outcome),
    (0 < check_ray gdim sr normal point o)%Z <->
    (0 < ray_status o)%Z /\ normals_product gdim normal (ray_normal o) <= 0 /\
    (sr <= 0 \/ ray_length2 gdim point (ray_x o) <= sr).
Proof.
  intros gdim sr normal point o. unfold check_ray.
  assert (G : forall m (F G : nat -> R) a b, for_loop m (fun i st => (fst st + F i, snd st + G i)) (a, b) = (a + rsum m F, b + rsum m G)).
  { induction m as [|m IH]; intros F G a b; [cbn; f_equal; ring|]. rewrite for_loop_S, IH. cbn [fst snd rsum]. f_equal; ring. }
  rewrite (G gdim (fun l => nth l normal 0 * nth l (ray_normal o) 0) (fun l => (nth l (ray_x o) 0 - nth l point 0) * (nth l (ray_x o) 0 - nth l point 0))).
  cbn [fst snd]. rewrite !Rplus_0_l. fold (normals_product gdim normal (ray_normal o)). fold (ray_length2 gdim point (ray_x o)).
  destruct (rlt 0 (normals_product gdim normal (ray_normal o))) eqn:E1; cbn [orb].
  - apply rlt_true in E1. split; [intros Hx; vm_compute in Hx; discriminate Hx|intros; exfalso; lra].
  - apply rlt_false in E1. destruct (rlt 0 sr) eqn:E2; cbn [andb].
    + apply rlt_true in E2. destruct (rlt sr (ray_length2 gdim point (ray_x o))) eqn:E3.
      * apply rlt_true in E3. split; [intros Hx; vm_compute in Hx; discriminate Hx|intros; exfalso; lra].
      * apply rlt_false in E3. tauto.
    + apply rlt_false in E2. tauto.
Qed.
Print Assumptions C26_acceptance_exact.

(** Missing for the full property: the bound by the radius itself for radii
    below one (only by its square root there), and any bound for points filled in
    by the closest-point projection. *)
Theorem C26_search_radius_partial :
  forall (gdim : nat) (sr : R) (normal point : list R) (outcome : nat -> ray_outcome) (patch : list nat) (c : nat) (X : list R),
    ray_point gdim sr normal point outcome patch = Some (c, X) ->
    normals_product gdim normal (ray_normal (outcome c)) <= 0 /\
    (0 < sr -> ray_length gdim point (ray_x (outcome c)) <= sqrt sr) /\
    (1 <= sr -> ray_length gdim point (ray_x (outcome c)) <= sr).
Proof.
  intros gdim sr normal point outcome patch c X H. apply ray_point_in in H. destruct H as (_ & H & _).
  rewrite C26_acceptance_exact in H. destruct H as (_ & H1 & H2). split; auto.
  assert (K : 0 < sr -> ray_length gdim point (ray_x (outcome c)) <= sqrt sr).
  { intros Hs. apply sqrt_le_1_alt. destruct H2; lra. }
  split; auto. intros Hs. apply (Rle_trans _ (sqrt sr)); [apply K; lra|].
  rewrite <- (sqrt_square sr) at 2 by lra. apply sqrt_le_1_alt. nra.
Qed.
Print Assumptions C26_search_radius_partial.

(** A ray longer than the radius is accepted, a shorter one rejected. *)
Definition ray_along_x (len : R) : ray_outcome := mkRay 1 [-1; 0] [len; 0] [0; 0].
Theorem C26_search_radius_refuted :
  (exists sr o, 0 < sr /\ ray_length 2 [0; 0] (ray_x o) > sr /\ (0 < check_ray 2 sr [1; 0]%R [0; 0]%R o)%Z) /\
  (exists sr o, 0 < sr /\ ray_length 2 [0; 0] (ray_x o) < sr /\ (0 < ray_status o)%Z /\
     normals_product 2 [1; 0] (ray_normal o) <= 0 /\ ~ (0 < check_ray 2 sr [1; 0]%R [0; 0]%R o)%Z).
Proof.
  assert (L : forall len, 0 <= len -> ray_length 2 [0; 0] (ray_x (ray_along_x len)) = len).
  { intros len Hl. unfold ray_length, ray_length2. cbn [rsum nth ray_x ray_along_x].
    replace (0 + (len - 0) * (len - 0) + (0 - 0) * (0 - 0)) with (len * len) by ring. apply sqrt_square. auto. }
  assert (N : forall len, normals_product 2 [1; 0] (ray_normal (ray_along_x len)) = -1).
  { intros. unfold normals_product. cbn. ring. }
  assert (L2 : forall len, ray_length2 2 [0; 0] (ray_x (ray_along_x len)) = len * len).
  { intros. unfold ray_length2. cbn [rsum nth ray_x ray_along_x]. ring. }
  split.
  - exists (1/2), (ray_along_x (6/10)). rewrite L by lra. split; [lra|]. split; [lra|].
    rewrite C26_acceptance_exact, N, L2. split; [reflexivity|]. split; [lra|right; lra].
  - exists 2, (ray_along_x (15/10)). rewrite L by lra. rewrite N, C26_acceptance_exact, N, L2.
    split; [lra|]. split; [lra|]. split; [reflexivity|]. split; [lra|]. intros (_ & _ & [H|H]); lra.
Qed.
Print Assumptions C26_search_radius_refuted.

(** A facet with two points, one hit and one filled in by projection. *)
Example C25_example :
  exists outcome, fst (compute_raytracing_map 1 2 1 (-1) [42%Z; 43%Z] (fun _ => [1%nat; 0%nat]) (fun _ _ => [1]) (fun _ _ => [0]) outcome
    (fun _ _ _ => (1%nat, [0]))) = [42%Z; 43%Z].
Proof.
  exists (fun _ j c => mkRay (if (j =? 0)%nat && (c =? 0)%nat then 1 else -1)%Z [-1] [1] [0]).
  set (outcome := fun _ j c => _).
  destruct (C25_raytracing_map_exact 1 2 1 (-1) [42%Z; 43%Z] (fun _ => [1%nat; 0%nat]) (fun _ _ => [1]) (fun _ _ => [0]) outcome
    (fun _ _ _ => (1%nat, [0]))) as (L & _ & H).
  pose proof (H 0%nat 0%nat ltac:(lia) ltac:(lia)) as H0. pose proof (H 0%nat 1%nat ltac:(lia) ltac:(lia)) as H1. clear H.
  set (f := fst _) in *. destruct f as [|a [|b [|c f]]]; try discriminate L. cbn [Nat.mul Nat.add nth] in H0, H1.
  assert (P : forall j c, (0 < check_ray 1 (-1)%R [1%R] [0%R] (outcome 0%nat j c))%Z <-> j = 0%nat /\ c = 0%nat).
  { intros j c. rewrite C26_acceptance_exact. unfold normals_product, ray_length2. cbn [rsum nth]. unfold outcome. cbn [ray_status ray_normal ray_x nth].
    destruct (Nat.eqb_spec j 0), (Nat.eqb_spec c 0); cbn [andb]; split; intros Hx; try lia; try tauto; split; try lia; split; lra. }
  assert (h0 : ray_point 1 (-1) [1] [0] (outcome 0%nat 0%nat) [1%nat; 0%nat] = Some (0%nat, [0])).
  { cbn [ray_point]. destruct (Z.ltb_spec 0 (check_ray 1 (-1)%R [1%R] [0%R] (outcome 0%nat 0%nat 1%nat))) as [Q|Q]; [apply P in Q; lia|].
    destruct (Z.ltb_spec 0 (check_ray 1 (-1)%R [1%R] [0%R] (outcome 0%nat 0%nat 0%nat))) as [Q'|Q']; auto. exfalso. assert (0 < check_ray 1 (-1)%R [1%R] [0%R] (outcome 0%nat 0%nat 0%nat))%Z by (apply P; auto). lia. }
  assert (h1 : ray_point 1 (-1) [1] [0] (outcome 0%nat 1%nat) [1%nat; 0%nat] = None).
  { cbn [ray_point]. destruct (Z.ltb_spec 0 (check_ray 1 (-1)%R [1%R] [0%R] (outcome 0%nat 1%nat 1%nat))) as [Q|Q]; [apply P in Q; lia|].
    destruct (Z.ltb_spec 0 (check_ray 1 (-1)%R [1%R] [0%R] (outcome 0%nat 1%nat 0%nat))) as [Q'|Q']; [apply P in Q'; lia|auto]. }
  unfold assigned in H0, H1. cbn [existsb seq] in H0, H1. rewrite h0, h1 in *. cbn [orb fst snd nth] in H0, H1. congruence.
Qed.
