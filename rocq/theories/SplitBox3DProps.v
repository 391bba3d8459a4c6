(** C101, C102: shells and groups of the three-dimensional split boxes. *)
From Coq Require Import List Arith Lia Bool Permutation.
Import ListNotations.
From Verif Require Import SplitBoxModel SplitBoxSpec SplitBoxProps SplitBox3DModel SplitBox3DSpec.

(** * Closed shells *)
Lemma turned_perm {L} (l : list (bool * L)) : Permutation (turned l) (map (fun s => (negb (fst s), snd s)) l).
Proof. symmetry. apply Permutation_rev. Qed.

Lemma count_perm {A} (dec : forall x y : A, {x = y} + {x <> y}) l l' :
  (forall x, count_occ dec l x = count_occ dec l' x) -> Permutation l l'.
Proof. apply Permutation_count_occ. Qed.

Lemma four_per_face {A} (dec : forall x y : A, {x = y} + {x <> y}) (a b c d : nat -> A) l x :
  count_occ dec (concat (map (fun i => [a i; b i; c i; d i]) l)) x =
  count_occ dec (map a l) x + count_occ dec (map b l) x + count_occ dec (map c l) x + count_occ dec (map d l) x.
Proof.
  induction l as [|y l IH]; [reflexivity|]. cbn [map concat app count_occ]. rewrite IH.
  destruct (dec (a y) x), (dec (b y) x), (dec (c y) x), (dec (d y) x); lia.
Qed.

(** The predecessors of all points of a closed outline are all its points. *)
Lemma previous_all n : Permutation (map (fun i => (i + n - 1) mod n) (seq 0 n)) (seq 0 n).
Proof.
  destruct n as [|n]; [constructor|]. cbn [seq map].
  replace ((0 + S n - 1) mod S n) with n by (rewrite Nat.mod_small; lia).
  replace (map (fun i => (i + S n - 1) mod S n) (seq 1 n)) with (seq 0 n).
  - change (0 :: seq 1 n) with (seq 0 (S n)). rewrite seq_S. apply Permutation_cons_append.
  - rewrite <- seq_shift, map_map. rewrite <- (map_id (seq 0 n)) at 1. apply map_ext_in. intros i Hi. apply in_seq in Hi.
    rewrite previous by lia. lia.
Qed.
Lemma previous_some n m k : m + k <= n -> map (fun i => (i + n - 1) mod n) (seq (S m) k) = seq m k \/ m + k = n.
Proof.
  intros H. destruct (Nat.eq_dec (m + k) n) as [E|E]; [right; exact E|left].
  rewrite <- seq_shift, map_map. rewrite <- (map_id (seq m k)) at 2. apply map_ext_in. intros i Hi. apply in_seq in Hi.
  rewrite previous by lia. lia.
Qed.

(** A chain of lines through the points [s - 1], ..., [s + m - 1] at the same level. *)
Lemma walk_chain {L} (n : nat) (ends : L -> (bool * nat) * (bool * nat)) (mk : nat -> L) u :
  (forall i, ends (mk i) = ((u, (i + n - 1) mod n), (u, i))) ->
  forall m s rest to, 0 < s -> s + m <= n ->
    walk (u, s + m - 1) (map (run ends) rest) to ->
    walk (u, s - 1) (map (run ends) (map (fun i => (true, mk i)) (seq s m) ++ rest)) to.
Proof.
  intros H. induction m as [|m IH]; intros s rest to Hs Hn W; cbn [seq map app walk].
  - replace (s + 0 - 1) with (s - 1) in W by lia. exact W.
  - unfold run at 1. cbn [fst snd]. rewrite H. split; [rewrite previous by lia; reflexivity|].
    specialize (IH (S s) rest to). replace (S s - 1) with s in IH by lia. apply IH; [lia|lia|].
    replace (S s + m - 1) with (s + S m - 1) by lia. exact W.
Qed.

(** The whole outline is a closed walk. *)
Lemma outline_closed {L} (n : nat) (ends : L -> (bool * nat) * (bool * nat)) (mk : nat -> L) u :
  (forall i, ends (mk i) = ((u, (i + n - 1) mod n), (u, i))) -> 0 < n ->
  closed (map (run ends) (map (fun i => (true, mk i)) (seq 0 n))).
Proof.
  intros H Hn. exists (u, n - 1). destruct n as [|n]; [lia|]. cbn [seq map walk].
  unfold run at 1. cbn [fst snd]. rewrite H. split; [rewrite Nat.mod_small by lia; f_equal; lia|].
  replace (u, 0) with (u, 1 - 1) by (f_equal; lia).
  rewrite <- (app_nil_r (map (fun i => (true, mk i)) (seq 1 n))).
  apply (walk_chain (S n) ends mk u H); [lia|lia|]. reflexivity.
Qed.

Lemma count_cons {A} (dec : forall x y : A, {x = y} + {x <> y}) a l x :
  count_occ dec (a :: l) x = (if dec a x then 1 else 0) + count_occ dec l x.
Proof. cbn [count_occ]. destruct (dec a x); reflexivity. Qed.

Definition tet_line_dec : forall x y : tet_line, {x = y} + {x <> y}.
Proof. decide equality; apply Nat.eq_dec. Defined.
Definition box_line_dec : forall x y : box_line, {x = y} + {x <> y}.
Proof. decide equality; try apply Nat.eq_dec; apply bool_dec. Defined.
Definition signed_dec {L} (dec : forall x y : L, {x = y} + {x <> y}) : forall x y : bool * L, {x = y} + {x <> y}.
Proof. intros x y. decide equality; apply bool_dec. Defined.

Lemma count_of_perm {A} (dec : forall x y : A, {x = y} + {x <> y}) l l' x :
  Permutation l l' -> count_occ dec l x = count_occ dec l' x.
Proof. intros P. revert x. apply Permutation_count_occ. exact P. Qed.

Lemma nodup_map {A B} (f : A -> B) l : (forall x y, f x = f y -> x = y) -> NoDup l -> NoDup (map f l).
Proof. intros I. apply FinFun.Injective_map_NoDup. exact I. Qed.

Lemma nodup_app {A} (a b : list A) : NoDup a -> NoDup b -> (forall x, In x a -> ~ In x b) -> NoDup (a ++ b).
Proof.
  induction a as [|x a IH]; intros Na Nb D; [exact Nb|]. inversion Na; subst. cbn [app]. constructor.
  - rewrite in_app_iff. intros [K|K]; [contradiction|]. apply (D x); [left; reflexivity|exact K].
  - apply IH; auto. intros y Hy. apply D. right. exact Hy.
Qed.

Lemma negb_lines {L} (mk : nat -> L) l :
  map (fun s : bool * L => (negb (fst s), snd s)) (map (fun i => (true, mk i)) l) = map (fun i => (false, mk i)) l.
Proof. rewrite map_map. reflexivity. Qed.

(** ** create_tet_mesh *)
Definition tet_lines (n : nat) : list tet_line := map LowLine (seq 0 n) ++ map HighLine (seq 0 n) ++ map Vertical (seq 0 n).

(** For every outline the surface loop handed to addVolume is a closed shell on the lines of
    the two copies of the outline and the lines between them. *)
Theorem C101_tet_shell_closed : forall n, 1 <= n ->
  closed_shell (tet_face_loop n) (tet_ends n) (tet_shell n) (tet_lines n).
Proof.
  intros n Hn. split; [|split].
  - intros f H. unfold tet_shell in H. apply in_app_or in H as [[<-|[]]|H]; [|apply in_app_or in H as [H|[<-|[]]]].
    + apply (outline_closed n (tet_ends n) LowLine false); [reflexivity|lia].
    + apply in_map_iff in H as (i & <- & _). exists (false, (i + n - 1) mod n). repeat split.
    + apply (outline_closed n (tet_ends n) HighLine true); [reflexivity|lia].
  - unfold tet_lines. repeat apply nodup_app; try (apply nodup_map; [congruence|apply seq_NoDup]);
      intros x; rewrite ?in_app_iff, !in_map_iff; firstorder congruence.
  - exists (fun f => match f with Bottom => false | _ => true end).
    apply (count_perm (signed_dec tet_line_dec)). intros x.
    unfold tet_shell. rewrite !map_app, !concat_app. cbn [map concat]. rewrite !app_nil_r, !count_occ_app.
    rewrite (count_of_perm _ _ _ x (turned_perm (tet_face_loop n Bottom))). cbn [tet_face_loop].
    rewrite negb_lines, map_map. cbn [tet_face_loop]. unfold side_loop.
    rewrite four_per_face.
    assert (V : Permutation (map (fun i => (false, Vertical ((i + n - 1) mod n))) (seq 0 n)) (map (fun i => (false, Vertical i)) (seq 0 n))).
    { rewrite <- (map_map (fun i => (i + n - 1) mod n) (fun i => (false, Vertical i))). apply Permutation_map, previous_all. }
    rewrite (count_of_perm _ _ _ x V). unfold tet_lines. rewrite !map_app, !map_map, !count_occ_app. lia.
Qed.
Print Assumptions C101_tet_shell_closed.

(** ** create_hex_mesh *)
Lemma hex_nth n p : 1 <= p <= n -> nth p (hex_surfaces n) Bottom = Side (p - 1).
Proof.
  intros H. unfold hex_surfaces. destruct p as [|p]; [lia|]. cbn [nth]. rewrite app_nth1 by (rewrite map_length, seq_length; lia).
  rewrite (nth_indep _ Bottom (Side 0)) by (rewrite map_length, seq_length; lia).
  rewrite map_nth, seq_nth by lia. f_equal. lia.
Qed.
Lemma hex_length n : length (hex_surfaces n) = n + 2.
Proof. unfold hex_surfaces. cbn [length]. rewrite app_length, map_length, seq_length. cbn [length]. lia. Qed.
Lemma picked_range n a b : 1 <= a -> b <= S n -> picked (hex_surfaces n) (range a b) = map Side (range (a - 1) (b - 1)).
Proof.
  intros Ha Hb. unfold picked, range. replace (b - 1 - (a - 1)) with (b - a) by lia.
  destruct a as [|a]; [lia|]. replace (S a - 1) with a by lia.
  rewrite <- seq_shift, map_map. apply map_ext_in. intros i Hi. apply in_seq in Hi. rewrite hex_nth by lia. f_equal. lia.
Qed.

Lemma hex_groups_eq n : 4 <= n ->
  hex_mesh_groups n =
  ([Bottom; Side 0; Side (n - 2); Side (n - 1); Top],
   map Side (range 1 ((n - 1) / 2 - 1)),
   map Side (range ((n - 1) / 2 - 1) (n - 2))).
Proof.
  intros Hn. unfold hex_mesh_groups. rewrite hex_length.
  assert (1 <= (n - 1) / 2 <= n - 1).
  { apply half_bounds. lia. }
  replace (n + 2 - 3) with (n - 1) by lia.
  rewrite (picked_range n 2 ((n - 1) / 2)) by lia. rewrite (picked_range n ((n - 1) / 2) (n - 1)) by lia.
  replace (2 - 1) with 1 by lia. replace (n - 1 - 1) with (n - 2) by lia.
  f_equal. f_equal. unfold picked. cbn [map].
  rewrite (hex_nth n 1), (hex_nth n (n - 1)), (hex_nth n (n + 2 - 2)) by lia.
  replace (nth 0 (hex_surfaces n) Bottom) with Bottom by reflexivity.
  replace (nth (n + 2 - 1) (hex_surfaces n) Bottom) with Top.
  - replace (1 - 1) with 0 by lia. replace (n - 1 - 1) with (n - 2) by lia. replace (n + 2 - 2 - 1) with (n - 1) by lia. reflexivity.
  - unfold hex_surfaces. replace (n + 2 - 1) with (S n) by lia. cbn [nth]. rewrite app_nth2; rewrite map_length, seq_length; [|lia].
    replace (n - n) with 0 by lia. reflexivity.
Qed.

(** For a domain with four vertices (two points besides the k points of the curve) and a
    curve of at least two segments: every surface is in exactly one group, the sides marked
    as contact are those over the curve, and the outer group is that of create_tet_mesh. *)
Theorem C101_hex_tags_partition :
  forall k, 3 <= k ->
    let '(outer, first_half, second_half) := hex_mesh_groups (k + 2) in
    Permutation (outer ++ first_half ++ second_half) (hex_surfaces (k + 2)) /\
    (forall i l, nth_error (outline_lines (k + 2)) i = Some l ->
       (In (Side i) (first_half ++ second_half) <-> along_curve k l)) /\
    Permutation outer (fst (fst (tet_mesh_groups (k + 2)))).
Proof.
  intros k Hk. rewrite hex_groups_eq by lia.
  replace (k + 2 - 1) with (k + 1) by lia. replace (k + 2 - 2) with k by lia.
  assert (B : 2 <= (k + 1) / 2 <= k).
  { split; [apply Nat.div_le_lower_bound; lia|apply Nat.div_le_upper_bound; lia]. }
  rewrite <- map_app.
  assert (E : range 1 ((k + 1) / 2 - 1) ++ range ((k + 1) / 2 - 1) k = seq 1 (k - 1)).
  { unfold range. replace (k - 1) with (((k + 1) / 2 - 1 - 1) + (k - ((k + 1) / 2 - 1))) by lia. rewrite seq_app. f_equal. f_equal. lia. }
  rewrite E. split; [|split].
  - unfold hex_surfaces. cbn [app]. constructor.
    replace (k + 2) with (1 + (k - 1) + 2) by lia. rewrite !seq_app. cbn [seq Nat.add app map]. constructor.
    rewrite map_app. replace (S (k - 1)) with k by lia. cbn [map]. replace (k + 1) with (S k) by lia.
    rewrite <- app_assoc. cbn [app]. apply (Permutation_app_comm [Side k; Side (S k); Top]).
  - intros i l Hl. assert (Hi : i < k + 2).
    { assert (i < length (outline_lines (k + 2))) as Q by (apply nth_error_Some; congruence). unfold outline_lines in Q. rewrite map_length, seq_length in Q. exact Q. }
    rewrite (outline_lines_nth (k + 2) i Hi) in Hl. injection Hl as <-. rewrite (along_iff (k + 2) k i ltac:(lia) Hi).
    rewrite in_map_iff. split.
    + intros (j & J & H). injection J as ->. apply in_seq in H. lia.
    + intros H. exists i. split; [reflexivity|apply in_seq; lia].
  - unfold tet_mesh_groups. cbn [fst]. replace (k + 2 - 2) with k by lia. replace (k + 2 - 1) with (k + 1) by lia.
    constructor. apply (Permutation_app_comm [Side 0; Side k; Side (k + 1)] [Top]).
Qed.
Print Assumptions C101_hex_tags_partition.

(** With a straight cut of one segment (k = 2) a side away from the cut is marked both as
    outer and as contact surface. *)
Theorem C101_hex_one_segment_refuted :
  let '(outer, first_half, second_half) := hex_mesh_groups 4 in
  In (Side 0) outer /\ In (Side 0) second_half /\ ~ along_curve 2 (3, 0) /\
  nth_error (outline_lines 4) 0 = Some (3, 0).
Proof. cbn. repeat split; try tauto. unfold along_curve. cbn. lia. Qed.
Print Assumptions C101_hex_one_segment_refuted.

(** The hexahedral and the tetrahedral generator divide the curve at the same side exactly
    when the number of points of the curve is odd; otherwise the first contact surface of
    the hexahedral mesh lacks one side, which is in the second. *)
Theorem C101_hex_tags_same_as_tet_exact :
  forall k, 3 <= k ->
    (snd (fst (hex_mesh_groups (k + 2))) = snd (fst (tet_mesh_groups (k + 2))) /\
     snd (hex_mesh_groups (k + 2)) = snd (tet_mesh_groups (k + 2))) <-> Nat.odd k = true.
Proof.
  intros k Hk. rewrite hex_groups_eq by lia. unfold tet_mesh_groups. cbn [fst snd].
  replace (k + 2 - 1) with (k + 1) by lia. replace (k + 2 - 2) with k by lia.
  rewrite Nat.odd_spec. split.
  - intros [_ H]. apply (f_equal (@length _)) in H. rewrite !map_length in H. unfold range in H. rewrite !seq_length in H.
    destruct (Nat.Even_or_Odd k) as [[m ->]|O]; [exfalso|exact O].
    replace ((2 * m) / 2) with m in H by (symmetry; rewrite Nat.mul_comm; apply Nat.div_mul; lia).
    replace ((2 * m + 1) / 2) with m in H by (apply (Nat.div_unique (2 * m + 1) 2 m 1); lia). lia.
  - intros [m ->].
    replace ((2 * m + 1 + 1) / 2 - 1) with m by (replace (2 * m + 1 + 1) with (S m * 2) by lia; rewrite Nat.div_mul by lia; lia).
    replace ((2 * m + 1) / 2) with m by (apply (Nat.div_unique (2 * m + 1) 2 m 1); lia). split; reflexivity.
Qed.
Print Assumptions C101_hex_tags_same_as_tet_exact.

Theorem C101_hex_tags_same_as_tet_refuted :
  exists k, 3 <= k /\ snd (fst (hex_mesh_groups (k + 2))) <> snd (fst (tet_mesh_groups (k + 2))).
Proof. exists 4. split; [lia|]. discriminate. Qed.
Print Assumptions C101_hex_tags_same_as_tet_refuted.

(** Eleven points on the curve (ten segments, the default): the sides in the groups. *)
Example C101_example :
  hex_mesh_groups 13 =
    ([Bottom; Side 0; Side 11; Side 12; Top], map Side [1; 2; 3; 4], map Side [5; 6; 7; 8; 9; 10]) /\
  tet_shell 3 = [Bottom; Side 0; Side 1; Side 2; Top] /\
  tet_face_loop 3 (Side 1) = [(true, LowLine 1); (true, Vertical 1); (false, HighLine 1); (false, Vertical 0)].
Proof. repeat split. Qed.

(** ** create_unsplit_box_3d *)

(** The lines of the two bodies. *)
Definition upper_lines (n : nat) : list box_line :=
  map (Outer false) (seq 0 n) ++ map (Outer true) (seq 0 n) ++ map Across (seq 0 n).
Definition lower_body_lines (n : nat) : list box_line :=
  (map (Outer false) (seq 1 (n - 3)) ++ map (Outer true) (seq 1 (n - 3))) ++
  (map (Lower false) (seq 0 3) ++ map (Lower true) (seq 0 3)) ++
  map Across (seq 0 (n - 2) ++ [n; n + 1]).

Lemma slice_map {A B} (f : A -> B) a b l : slice a b (map f l) = map f (slice a b l).
Proof. unfold slice. rewrite skipn_map, firstn_map. reflexivity. Qed.

(** Both surface loops are closed shells, for every number of points of the curve. *)
Theorem C102_shells_closed :
  forall n, 4 <= n ->
    closed_shell (box_face_loop n) (box_line_ends n) (upper_shell n) (upper_lines n) /\
    closed_shell (box_face_loop n) (box_line_ends n) (lower_shell n) (lower_body_lines n).
Proof.
  intros n Hn.
  assert (S1 : forall i, closed (map (run (box_line_ends n)) (box_face_loop n (Sides1 i)))).
  { intros i. exists (false, (i + n - 1) mod n). repeat split. }
  assert (PL : forall u, closed (map (run (box_line_ends n)) (map (fun l => (true, l)) (outer_lines n u)))).
  { intros u. unfold outer_lines. rewrite (map_map (Outer u)). apply (outline_closed n (box_line_ends n) (Outer u) u); [reflexivity|lia]. }
  assert (SL : forall u, slice 1 (n - 2) (outer_lines n u) = map (Outer u) (seq 1 (n - 3))).
  { intros u. unfold outer_lines. rewrite slice_map, slice_seq by lia. do 2 f_equal. lia. }
  assert (PW : forall u, closed (map (run (box_line_ends n)) (map (fun l => (true, l)) (slice 1 (n - 2) (outer_lines n u) ++ lower_lines n u)))).
  { intros u. exists (u, 0). rewrite SL, map_app, (map_map (Outer u)). change (u, 0) with (u, 1 - 1) at 1.
    apply (walk_chain n (box_line_ends n) (Outer u) u); [reflexivity|lia|lia|].
    unfold lower_lines, unsplit_lower_points. cbn [length seq map Nat.sub walk run box_line_ends fst snd nth unsplit_lower_points].
    split; [f_equal; lia|]. repeat split. }
  split; (split; [|split]).
  - intros f H. unfold upper_shell, surfaces1 in H. apply in_app_or in H as [[<-|[]]|H]; [apply PL|].
    apply in_app_or in H as [H|[<-|[]]]; [|apply PL]. apply in_map_iff in H as (i & <- & _). apply S1.
  - unfold upper_lines. repeat apply nodup_app; try (apply nodup_map; [congruence|apply seq_NoDup]);
      intros x; rewrite ?in_app_iff, !in_map_iff; firstorder congruence.
  - exists (fun f => match f with Plane1 => false | _ => true end).
    apply (count_perm (signed_dec box_line_dec)). intros x.
    unfold upper_shell, surfaces1. rewrite !map_app, !concat_app. cbn [map concat]. rewrite !app_nil_r, !count_occ_app.
    rewrite (count_of_perm _ _ _ x (turned_perm (box_face_loop n Plane1))). cbn [box_face_loop]. unfold outer_lines.
    rewrite !map_map. cbn [box_face_loop]. rewrite four_per_face. cbn [fst snd negb].
    assert (V : Permutation (map (fun i => (false, Across ((i + n - 1) mod n))) (seq 0 n)) (map (fun i => (false, Across i)) (seq 0 n))).
    { rewrite <- (map_map (fun i => (i + n - 1) mod n) (fun i => (false, Across i))). apply Permutation_map, previous_all. }
    rewrite (count_of_perm _ _ _ x V). unfold upper_lines. rewrite !map_app, !map_map, !count_occ_app. lia.
  - intros f H. unfold lower_shell, surfaces1, surfaces2 in H. rewrite slice_map in H. apply in_app_or in H as [[<-|[]]|H]; [apply PW|].
    apply in_app_or in H as [H|H]; [apply in_map_iff in H as (i & <- & _); apply S1|].
    apply in_app_or in H as [H|[<-|[]]]; [|apply PW].
    apply in_map_iff in H as (j & <- & Hj). unfold unsplit_lower_points in Hj. cbn [length Nat.sub seq In] in Hj.
    destruct Hj as [<-|[<-|[<-|[]]]]; eexists; cbn; repeat split.
  - unfold lower_body_lines. repeat apply nodup_app; try (apply nodup_map; [congruence|]); try apply seq_NoDup;
      try (intros x; rewrite ?in_app_iff, ?in_map_iff; firstorder congruence).
    apply nodup_app; [apply seq_NoDup|repeat constructor; cbn [In]; lia|intros x; rewrite in_seq; cbn [In]; lia].
  - exists (fun f => match f with Plane2 => false | _ => true end).
    apply (count_perm (signed_dec box_line_dec)). intros x.
    unfold lower_shell, surfaces1, surfaces2. rewrite slice_map, slice_seq by lia. replace (n - 2 - 1) with (n - 3) by lia.
    rewrite !map_app, !concat_app. cbn [map concat]. rewrite !app_nil_r, !count_occ_app.
    rewrite (count_of_perm _ _ _ x (turned_perm (box_face_loop n Plane2))). cbn [box_face_loop]. rewrite !SL.
    rewrite !map_app, !map_map. cbn [box_face_loop]. rewrite four_per_face. cbn [fst snd negb].
    change (length (unsplit_lower_points n) - 1) with 3. rewrite !count_occ_app. unfold lower_lines.
    change (length (unsplit_lower_points n) - 1) with 3.
    assert (V : map (fun i => (false, Across ((i + n - 1) mod n))) (seq 1 (n - 3)) = map (fun i => (false, Across i)) (seq 0 (n - 3))).
    { rewrite <- (map_map (fun i => (i + n - 1) mod n) (fun i => (false, Across i))).
      destruct (previous_some n 0 (n - 3)) as [->|K]; [lia|reflexivity|lia]. }
    rewrite V. unfold lower_body_lines. rewrite !map_app, !map_map, !count_occ_app.
    assert (E1 : seq 0 (n - 2) = 0 :: seq 1 (n - 3)) by (replace (n - 2) with (S (n - 3)) by lia; reflexivity).
    assert (E2 : map (fun i => (false, Across i)) (seq 0 (n - 2)) = map (fun i => (false, Across i)) (seq 0 (n - 3)) ++ [(false, Across (n - 3))]).
    { replace (n - 2) with (S (n - 3)) by lia. rewrite seq_S, map_app. reflexivity. }
    rewrite E2, E1. unfold lines6. cbn [seq map concat app nth Nat.add].
    rewrite ?count_cons, ?count_occ_app, ?count_cons, ?count_occ_nil. lia.
Qed.
Print Assumptions C102_shells_closed.

(** The bodies meet in exactly the surfaces over the curve, which are the members of group
    3; groups 2 and 3 contain every face of the two shells, each once, except the side over
    line n - 2 (from the end of the curve to the corner above it), which is in no group. *)
Definition cut_faces (k : nat) : list box_face := map Sides1 (seq 1 (k - 1)).

Theorem C102_groups_exact :
  forall k, 2 <= k ->
    let n := k + 2 in
    (forall f, In f (cut_faces k) <-> In f (upper_shell n) /\ In f (lower_shell n)) /\
    (forall i l, nth_error (outline_lines n) i = Some l -> (In (Sides1 i) (cut_faces k) <-> along_curve k l)) /\
    (exists outer, unsplit_groups n = [(2, outer); (3, cut_faces k)] /\
       Permutation (Sides1 (n - 2) :: outer ++ cut_faces k ++ cut_faces k) (upper_shell n ++ lower_shell n)).
Proof.
  intros k Hk n.
  assert (SL : slice 1 (n - 2) (surfaces1 n) = cut_faces k).
  { unfold surfaces1, cut_faces. rewrite slice_map, slice_seq by lia. do 2 f_equal. unfold n. lia. }
  split; [|split].
  - intros f. unfold upper_shell, lower_shell. rewrite SL, !in_app_iff. unfold cut_faces, surfaces1, surfaces2. cbn [In].
    rewrite !in_map_iff. split.
    + intros (i & <- & Hi). apply in_seq in Hi. split; right; left; exists i; (split; [reflexivity|apply in_seq; unfold n; lia]).
    + intros [H1 [[<-|[]]|[H|[H|[<-|[]]]]]].
      * destruct H1 as [[H1|[]]|[(i & H1 & _)|[H1|[]]]]; discriminate.
      * exact H.
      * destruct H as (j & <- & _). destruct H1 as [[H1|[]]|[(i & H1 & _)|[H1|[]]]]; discriminate.
      * destruct H1 as [[H1|[]]|[(i & H1 & _)|[H1|[]]]]; discriminate.
  - intros i l Hl. assert (Hi : i < n).
    { assert (i < length (outline_lines n)) as Q by (apply nth_error_Some; congruence). unfold outline_lines in Q. rewrite map_length, seq_length in Q. exact Q. }
    rewrite (outline_lines_nth n i Hi) in Hl. injection Hl as <-. rewrite (along_iff n k i ltac:(unfold n; lia) Hi).
    unfold cut_faces. rewrite in_map_iff. split.
    + intros (j & J & H). injection J as ->. apply in_seq in H. lia.
    + intros H. exists i. split; [reflexivity|apply in_seq; lia].
  - unfold unsplit_groups. rewrite SL. eexists. split; [reflexivity|].
    assert (N : forall i, i < n -> nth i (surfaces1 n) Plane1 = Sides1 i).
    { intros i Hi. unfold surfaces1. rewrite (nth_indep _ Plane1 (Sides1 0)) by (rewrite map_length, seq_length; lia).
      rewrite map_nth, seq_nth by lia. reflexivity. }
    rewrite !N by (unfold n; lia). unfold upper_shell, lower_shell. rewrite SL.
    assert (E : surfaces1 n = Sides1 0 :: cut_faces k ++ [Sides1 (n - 2); Sides1 (n - 1)]).
    { unfold surfaces1, cut_faces, n. replace (k + 2) with (1 + (k - 1) + 2) at 1 by lia. rewrite !seq_app, !map_app. cbn [seq Nat.add map app].
      do 3 f_equal; [f_equal; lia|]. do 2 f_equal. lia. }
    rewrite E. assert (D : forall x y : box_face, {x = y} + {x <> y}) by (decide equality; apply Nat.eq_dec).
    apply (count_perm D). intros x. cbn [app].
    repeat (rewrite ?count_cons, ?count_occ_app, ?count_occ_nil; cbn [app]). lia.
Qed.
Print Assumptions C102_groups_exact.

(** Not every outer face of the box is marked. *)
Theorem C102_groups_complete_refuted :
  forall k, 2 <= k ->
    exists f, In f (upper_shell (k + 2)) /\ ~ In f (lower_shell (k + 2)) /\
      (forall t members, In (t, members) (unsplit_groups (k + 2)) -> ~ In f members).
Proof.
  intros k Hk. destruct (C102_groups_exact k Hk) as (M & _ & outer & E & P).
  assert (Hnc : ~ In (Sides1 k) (cut_faces k)).
  { unfold cut_faces. rewrite in_map_iff. intros (j & J & H). injection J as ->. apply in_seq in H. lia. }
  exists (Sides1 k). split; [|split].
  - unfold upper_shell, surfaces1. rewrite !in_app_iff. right. left. apply in_map. apply in_seq. lia.
  - intros H. apply Hnc, M. split; [|exact H].
    unfold upper_shell, surfaces1. rewrite !in_app_iff. right. left. apply in_map. apply in_seq. lia.
  - intros t members. rewrite E. cbn [In]. intros [K|[K|[]]] H; injection K as <- <-; [|contradiction].
    unfold unsplit_groups in E. injection E as E1 E2. subst outer.
    repeat (destruct H as [H|H]; [try discriminate H|]).
    + unfold surfaces1 in H. rewrite (nth_indep _ Plane1 (Sides1 0)) in H by (rewrite map_length, seq_length; lia).
      rewrite map_nth, seq_nth in H by lia. injection H as H. lia.
    + unfold surfaces1 in H. rewrite (nth_indep _ Plane1 (Sides1 0)) in H by (rewrite map_length, seq_length; lia).
      rewrite map_nth, seq_nth in H by lia. injection H as H. lia.
    + unfold surfaces2 in H. apply in_map_iff in H as (j & J & _). discriminate.
Qed.
Print Assumptions C102_groups_complete_refuted.

(** Three points on the curve. *)
Example C102_example :
  lower_shell 5 = [Plane2; Sides1 1; Sides1 2; Sides2 0; Sides2 1; Sides2 2; Plane4] /\
  map (run (box_line_ends 5)) (box_face_loop 5 Plane2) =
    [((false, 0), (false, 1)); ((false, 1), (false, 2)); ((false, 2), (false, 6)); ((false, 6), (false, 5)); ((false, 5), (false, 0))] /\
  unsplit_groups 5 = [(2, [Plane1; Plane2; Plane3; Plane4; Sides1 0; Sides1 4; Sides2 0; Sides2 1; Sides2 2]); (3, [Sides1 1; Sides1 2])].
Proof. repeat split. Qed.
