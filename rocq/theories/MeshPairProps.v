(** C96: the bodies, boundary tags and gap of the two-body meshes. *)
From Coq Require Import List Arith ZArith Lia Reals Lra.
Import ListNotations.
From Verif Require Import MeshPairModel.
Local Open Scope R_scope.

(** ** Specification *)
Definition the_curve (s : recorder) (c : nat) : curve :=
  nth (c - 1) (r_curves s) {| c_start := 0; c_end := 0; c_centre := None |}.
(** First and last point of a curve run through in the given direction. *)
Definition first_point (s : recorder) (z : Z) : nat :=
  if (0 <? z)%Z then c_start (the_curve s (Z.abs_nat z)) else c_end (the_curve s (Z.abs_nat z)).
Definition last_point (s : recorder) (z : Z) : nat :=
  if (0 <? z)%Z then c_end (the_curve s (Z.abs_nat z)) else c_start (the_curve s (Z.abs_nat z)).
(** A loop is closed: every curve starts where the one before it ends. *)
Definition closed (s : recorder) (l : list Z) : Prop :=
  l <> [] /\ map (first_point s) l = map (last_point s) (last l 0%Z :: removelast l).

(** Groups of a dimension: (tag, members). *)
Definition groups (s : recorder) (dim : nat) : list (nat * list nat) :=
  map (fun g => (snd (fst g), snd g)) (filter (fun g => (fst (fst g) =? dim)%nat) (r_groups s)).
(** Bodies (tags) that have a curve on their outline, once per surface. *)
Definition bodies_of_curve (s : recorder) (c : nat) : list nat :=
  flat_map (fun g => flat_map (fun f => if in_dec Nat.eq_dec c (surface_curves s f) then [fst g] else []) (snd g)) (groups s 2).
Definition tags_of_curve (s : recorder) (c : nat) : list nat :=
  flat_map (fun g => if in_dec Nat.eq_dec c (snd g) then [fst g] else []) (groups s 1).

(** Two bodies 1 and 2, each surface in one of them; closed outlines; facet tags from 1
    on without repetition; a curve of the outline of one body has one facet tag, a curve
    between two surfaces of one body has none, other curves do not exist; a facet tag
    stays on one body. *)
Definition well_tagged (s : recorder) : Prop :=
  Forall (closed s) (r_loops s) /\
  (map fst (groups s 2) = [1; 2] \/ map fst (groups s 2) = [2; 1])%nat /\
  (forall f, (1 <= f <= length (r_surfaces s))%nat -> count_occ Nat.eq_dec (flat_map snd (groups s 2)) f = 1%nat) /\
  map fst (groups s 1) = seq 1 (length (groups s 1)) /\
  (forall c, (1 <= c <= length (r_curves s))%nat ->
     (exists b t, bodies_of_curve s c = [b] /\ tags_of_curve s c = [t]) \/
     (exists b, bodies_of_curve s c = [b; b] /\ tags_of_curve s c = [])) /\
  (forall t cs, In (t, cs) (groups s 1) -> cs <> [] /\ exists b, forall c, In c cs -> bodies_of_curve s c = [b]).

(** End points of the curves with a facet tag. *)
Definition the_point (s : recorder) (p : nat) : pt := nth (p - 1) (r_points s) (0, 0).
Definition tagged (s : recorder) (t : nat) : list (pt * pt) :=
  flat_map (fun g => if (fst g =? t)%nat then map (fun c => (the_point s (c_start (the_curve s c)), the_point s (c_end (the_curve s c)))) (snd g) else [])
    (groups s 1).
Definition dist (p q : pt) : R := sqrt ((fst p - fst q) * (fst p - fst q) + (snd p - snd q) * (snd p - snd q)).
Definition disk (centre : pt) (r : R) (p : pt) : Prop := dist p centre <= r.
Definition rectangle (x0 x1 y0 y1 : R) (p : pt) : Prop := x0 <= fst p <= x1 /\ y0 <= snd p <= y1.
(** The distance of two regions is [g], and is attained. *)
Definition separated_by (A B : pt -> Prop) (g : R) : Prop :=
  (forall p q, A p -> B q -> g <= dist p q) /\ (exists p q, A p /\ B q /\ dist p q = g).
(** All arcs of the recording lie on circles: both ends at the same distance from the centre. *)
Definition arcs_on (s : recorder) (c : nat) (r : R) : Prop :=
  exists z, c_centre (the_curve s c) = Some z /\
    dist (the_point s (c_start (the_curve s c))) (the_point s z) = r /\ dist (the_point s (c_end (the_curve s c))) (the_point s z) = r.

Lemma range_forall n (P : nat -> Prop) : Forall P (seq 1 n) -> forall f, (1 <= f <= n)%nat -> P f.
Proof. rewrite Forall_forall. intros H f Hf. apply H. apply in_seq. lia. Qed.
Lemma groups_forall (gs : list (nat * list nat)) (P : nat -> list nat -> Prop) :
  Forall (fun g => P (fst g) (snd g)) gs -> forall t cs, In (t, cs) gs -> P t cs.
Proof. rewrite Forall_forall. intros H t cs Hi. exact (H (t, cs) Hi). Qed.

(** Computation that leaves real numbers alone. *)
Ltac run_in H := lazy -[Rplus Rmult Ropp Rinv Rdiv Rminus IZR cos sin tan PI sqrt Rle Rlt] in H.
Ltac run := lazy -[Rplus Rmult Ropp Rinv Rdiv Rminus IZR cos sin tan PI sqrt Rle Rlt].
(** Replaces a recording by what has been recorded. *)
Ltac play s := let v := eval lazy -[Rplus Rmult Ropp Rinv Rdiv Rminus IZR cos sin tan PI sqrt Rle Rlt] in s in change s with v.
Ltac recorded := match goal with |- context [snd (?m empty)] => play (snd (m empty)) end.

(** The coordinates do not matter for what follows. *)
Ltac forget_coordinates :=
  unfold circle_plane, halfdisk_plane, quarter_disks, sliding_wedges, circle_circle, box_mesh_2D, rectangle_split,
    add_box_below, add_quadrilateral, add_circle, two_bodies; cbv zeta beta;
  repeat match goal with |- context [addPoint ?x ?y] =>
    first [ first [is_var x; fail 1 | generalize x; intro] | first [is_var y; fail 1 | generalize y; intro] ] end.
Ltac finite :=
  forget_coordinates; unfold well_tagged; split; [|split; [|split; [|split; [|split]]]];
  [ vm_compute; repeat constructor; discriminate
  | vm_compute; auto
  | apply range_forall; vm_compute; repeat constructor
  | vm_compute; reflexivity
  | apply range_forall; vm_compute;
    repeat (constructor; [first [left; do 2 eexists; split; reflexivity | right; eexists; split; reflexivity]|]); constructor
  | match goal with |- forall t cs, In _ (groups ?s 1) -> _ =>
      let v := eval vm_compute in (groups s 1) in
      assert (G : groups s 1 = v) by (vm_compute; reflexivity); rewrite G; clear G end;
    apply groups_forall;
    repeat (constructor; [cbn [fst snd]; split; [discriminate|eexists; intros c H; repeat destruct H as [<-|H]; [vm_compute; reflexivity ..|destruct H]]|]);
    constructor ].

(** Bodies and facet tags are well formed for every choice of the parameters. *)
Theorem C96_well_tagged :
  (forall r height length gap, well_tagged (snd (circle_plane r height length gap empty))) /\
  (forall r height length gap, well_tagged (snd (halfdisk_plane r height length gap empty))) /\
  (forall r gap, well_tagged (snd (quarter_disks r gap empty))) /\
  (forall res angle, well_tagged (snd (sliding_wedges res angle empty))) /\
  well_tagged (snd (circle_circle empty)) /\
  well_tagged (snd (box_mesh_2D empty)) /\
  (forall res gap, well_tagged (snd (rectangle_split res gap empty))).
Proof. split; [|split; [|split; [|split; [|split; [|split]]]]]; intros; finite. Qed.
Print Assumptions C96_well_tagged.

(** The outline of the box [x0, x1] x [y0, y1] by tags t, ..., t + 3: left, bottom, right, top. *)
Definition box_tags (s : recorder) (t : nat) (x0 x1 y0 y1 : R) : Prop :=
  tagged s t = [((x0, y1), (x0, y0))] /\ tagged s (t + 1) = [((x0, y0), (x1, y0))] /\
  tagged s (t + 2) = [((x1, y0), (x1, y1))] /\ tagged s (t + 3) = [((x1, y1), (x0, y1))].

Ltac coordinates :=
  match goal with
  | |- (_ :: _) = (_ :: _) => apply (f_equal2 cons); coordinates
  | |- (_, _) = (_, _) => apply (f_equal2 pair); coordinates
  | |- @nil _ = _ => reflexivity
  | |- _ => lra
  end.
Ltac table := repeat split; run; coordinates.

(** create_circle_plane_mesh: tags 1 to 4 are the left, bottom, right and top side of
    [-length/2, length/2] x [-height-gap-r, -gap-r]; tags 5 to 8 are arcs on the circle
    around the origin with radius r, 8 from its right to its left end (the lower half). *)
Theorem C96_circle_plane :
  forall r height length gap, 0 <= r ->
    let s := snd (circle_plane r height length gap empty) in
    box_tags s 1 (- length / 2) (length / 2) (- height - gap - r) (- gap - r) /\
    tagged s 8 = [((r, 0), (- r, 0))] /\
    (forall c, (1 <= c <= 4)%nat -> arcs_on s c r) /\
    map snd (groups s 1) = [[5]; [6]; [7]; [8]; [1]; [2]; [3]; [4]]%nat.
Proof.
  intros r height length gap Hr s; subst s; recorded.
  assert (D : forall x y, x * x + y * y = r * r -> dist (x, y) (0, 0) = r).
  { intros x y E. unfold dist. cbn [fst snd]. rewrite !Rminus_0_r, E. apply sqrt_square. exact Hr. }
  assert (Tr : forall a, cos a * cos a + sin a * sin a = 1) by (intros a; pose proof (sin2_cos2 a) as H; unfold Rsqr in H; lra).
  split; [table|]. split; [table|]. split; [|reflexivity].
  apply range_forall. pose proof (Tr (PI / 3)) as T.
  repeat (constructor; [exists 1%nat; split; [reflexivity|]; split; run; apply D; first [ring|transitivity (r * r * 1); [rewrite <- T; ring|ring]]|]). constructor.
Qed.
Print Assumptions C96_circle_plane.

(** create_halfdisk_plane_mesh: the same box; tag 5 is the arc from (r, 0) to (-r, 0)
    around the origin, tag 6 the straight side. *)
Theorem C96_halfdisk_plane :
  forall r height length gap, 0 <= r ->
    let s := snd (halfdisk_plane r height length gap empty) in
    box_tags s 1 (- length / 2) (length / 2) (- height - gap - r) (- gap - r) /\
    tagged s 5 = [((r, 0), (- r, 0))] /\ tagged s 6 = [((- r, 0), (r, 0))] /\ arcs_on s 1 r.
Proof.
  intros r height length gap Hr s; subst s; recorded.
  split; [table|]. split; [table|]. split; [table|].
  exists 1%nat. split; [reflexivity|]. split; unfold dist; run.
  - replace ((r - 0) * (r - 0) + (0 - 0) * (0 - 0)) with (r * r) by ring. apply sqrt_square. exact Hr.
  - replace ((- r - 0) * (- r - 0) + (0 - 0) * (0 - 0)) with (r * r) by ring. apply sqrt_square. exact Hr.
Qed.
Print Assumptions C96_halfdisk_plane.

(** The gap: the disk (half disk) and the box are [gap] apart. *)
Lemma dist_vertical p q g : 0 <= g -> g <= snd p - snd q -> g <= dist p q.
Proof.
  intros Hg H. unfold dist. rewrite <- (sqrt_square g) at 1 by exact Hg. apply sqrt_le_1_alt.
  assert (0 <= (fst p - fst q) * (fst p - fst q)) by (apply Rle_0_sqr). nra.
Qed.
Lemma dist_horizontal p q g : 0 <= g -> g <= fst q - fst p -> g <= dist p q.
Proof.
  intros Hg H. unfold dist. rewrite <- (sqrt_square g) at 1 by exact Hg. apply sqrt_le_1_alt.
  assert (0 <= (snd p - snd q) * (snd p - snd q)) by (apply Rle_0_sqr). nra.
Qed.
Lemma disk_bounds c r p : 0 <= r -> disk c r p -> Rabs (fst p - fst c) <= r /\ Rabs (snd p - snd c) <= r.
Proof.
  intros Hr H. unfold disk, dist in H.
  set (S := (fst p - fst c) * (fst p - fst c) + (snd p - snd c) * (snd p - snd c)) in H.
  assert (H1 : 0 <= (fst p - fst c) * (fst p - fst c)) by apply Rle_0_sqr.
  assert (H2 : 0 <= (snd p - snd c) * (snd p - snd c)) by apply Rle_0_sqr.
  assert (HS : S <= r * r).
  { rewrite <- (sqrt_sqrt S) by (unfold S; lra). apply Rmult_le_compat; auto using sqrt_pos. }
  split; apply Rsqr_le_abs_0_alt || (rewrite <- (Rabs_pos_eq r Hr); apply Rsqr_le_abs_0; unfold Rsqr, S in *; lra).
Qed.

Theorem C96_gap_disk_box :
  forall r height length gap, 0 <= r -> 0 <= height -> 0 <= length -> 0 <= gap ->
    separated_by (disk (0, 0) r) (rectangle (- length / 2) (length / 2) (- height - gap - r) (- gap - r)) gap.
Proof.
  intros r height length gap Hr Hh Hl Hg. split.
  - intros p q HA [_ HB]. apply dist_vertical; [exact Hg|].
    destruct (disk_bounds (0, 0) r p Hr HA) as [_ H]. cbn [snd] in H. rewrite Rminus_0_r in H.
    pose proof (Rle_abs (- snd p)) as A. rewrite Rabs_Ropp in A. lra.
  - exists (0, - r), (0, - r - gap). split; [|split].
    + unfold disk, dist. cbn. replace ((0 - 0) * (0 - 0) + (- r - 0) * (- r - 0)) with (r * r) by ring.
      rewrite sqrt_square by exact Hr. lra.
    + unfold rectangle. cbn. lra.
    + unfold dist. cbn. replace ((0 - 0) * (0 - 0) + (- r - (- r - gap)) * (- r - (- r - gap))) with (gap * gap) by ring.
      apply sqrt_square. exact Hg.
Qed.
Print Assumptions C96_gap_disk_box.

(** create_quarter_disks_mesh: the arcs of body 1 lie on the circle around the origin, those
    of body 2 on the circle around (0, -2r-gap), both with radius r, and the two disks are
    [gap] apart.  Both bodies reach from x = -r to x = r: they are half disks, not the
    quarter disks (x >= 0) of the documentation. *)
Theorem C96_quarter_disks_exact :
  forall r gap, 0 <= r ->
    let s := snd (quarter_disks r gap empty) in
    (forall c, In c [1; 2; 3; 4]%nat -> arcs_on s c r /\ c_centre (the_curve s c) = Some 1%nat /\ bodies_of_curve s c = [1]%nat) /\
    (forall c, In c [8; 9; 10; 11]%nat -> arcs_on s c r /\ c_centre (the_curve s c) = Some 7%nat /\ bodies_of_curve s c = [2]%nat) /\
    the_point s 1 = (0, 0) /\ the_point s 7 = (0, - 2 * r - gap) /\
    tags_of_curve s 2 = [2]%nat /\ tags_of_curve s 3 = [3]%nat /\ tags_of_curve s 9 = [8]%nat /\ tags_of_curve s 10 = [9]%nat.
Proof.
  intros r gap Hr s; subst s; recorded.
  assert (D : forall x y a b, (x - a) * (x - a) + (y - b) * (y - b) = r * r -> dist (x, y) (a, b) = r).
  { intros x y a b E. unfold dist. cbn [fst snd]. rewrite E. apply sqrt_square. exact Hr. }
  assert (T : cos (PI / 6) * cos (PI / 6) + sin (PI / 6) * sin (PI / 6) = 1)
    by (pose proof (sin2_cos2 (PI / 6)) as H; unfold Rsqr in H; lra).
  split; [|split; [|split; [reflexivity|split; [run; f_equal; ring|repeat split; reflexivity]]]].
  - intros c Hc. repeat destruct Hc as [<-|Hc]; try destruct Hc; (split; [|split; reflexivity]);
      exists 1%nat; (split; [reflexivity|]); split; run; apply D; first [ring|transitivity (r * r * 1); [rewrite <- T; ring|ring]].
  - intros c Hc. repeat destruct Hc as [<-|Hc]; try destruct Hc; (split; [|split; reflexivity]);
      exists 7%nat; (split; [reflexivity|]); split; run; apply D; first [ring|transitivity (r * r * 1); [rewrite <- T; ring|ring]].
Qed.
Print Assumptions C96_quarter_disks_exact.

Theorem C96_quarter_disks_refuted :
  ~ (forall r gap, 0 < r -> 0 <= gap ->
       forall t p q, In (p, q) (tagged (snd (quarter_disks r gap empty)) t) -> 0 <= fst p /\ 0 <= fst q).
Proof.
  intros H. specialize (H 1 0 ltac:(lra) ltac:(lra) 1%nat (- (1), 0) (- (1) * sin (PI / 6), - (1) * cos (PI / 6))).
  destruct H as [H _]; [recorded; run; left; reflexivity|]. cbn [fst] in H. lra.
Qed.
Print Assumptions C96_quarter_disks_refuted.

(** Two disks with centres at distance r1 + r2 + gap on a vertical line are [gap] apart;
    create_quarter_disks_mesh (r, r, gap) and create_circle_circle_mesh (3/10, 6/10, 1/10). *)
Theorem C96_gap_disks :
  forall x y r1 r2 gap, 0 <= r1 -> 0 <= r2 -> 0 <= gap ->
    separated_by (disk (x, y) r1) (disk (x, y - r1 - r2 - gap) r2) gap.
Proof.
  intros x y r1 r2 gap H1 H2 Hg. split.
  - intros p q HA HB. apply dist_vertical; [exact Hg|].
    destruct (disk_bounds _ _ _ H1 HA) as [_ A]. destruct (disk_bounds _ _ _ H2 HB) as [_ B]. cbn [snd] in A, B.
    pose proof (Rle_abs (snd q - (y - r1 - r2 - gap))) as B'.
    pose proof (Rle_abs (- (snd p - y))) as A'. rewrite Rabs_Ropp in A'. lra.
  - exists (x, y - r1), (x, y - r1 - gap). unfold disk, dist. cbn. split; [|split].
    + replace ((x - x) * (x - x) + (y - r1 - y) * (y - r1 - y)) with (r1 * r1) by ring. rewrite sqrt_square; lra.
    + replace ((x - x) * (x - x) + (y - r1 - gap - (y - r1 - r2 - gap)) * (y - r1 - gap - (y - r1 - r2 - gap))) with (r2 * r2) by ring.
      rewrite sqrt_square; lra.
    + replace ((x - x) * (x - x) + (y - r1 - (y - r1 - gap)) * (y - r1 - (y - r1 - gap))) with (gap * gap) by ring.
      apply sqrt_square. exact Hg.
Qed.
Print Assumptions C96_gap_disks.

(** create_circle_circle_mesh: arcs 1 to 4 around (1/2, 1/2) with radius 3/10, arcs 5 to 8
    around (1/2, -1/2) with radius 6/10; facet tags are the numbers of the arcs. *)
Theorem C96_circle_circle :
  let s := snd (circle_circle empty) in
  (forall c, In c [1; 2; 3; 4]%nat -> arcs_on s c (3 / 10) /\ bodies_of_curve s c = [1]%nat /\ tags_of_curve s c = [c]) /\
  (forall c, In c [5; 6; 7; 8]%nat -> arcs_on s c (6 / 10) /\ bodies_of_curve s c = [2]%nat /\ tags_of_curve s c = [c]) /\
  the_point s 1 = (1 / 2, 1 / 2) /\ the_point s 6 = (1 / 2, - (1 / 2)).
Proof.
  intros s; subst s; recorded.
  assert (D : forall a cx cy r, 0 <= r -> dist (cx + r * cos a, cy + r * sin a) (cx, cy) = r).
  { intros a cx cy r Hr. unfold dist. cbn [fst snd]. rewrite <- (sqrt_square r) at 5 by exact Hr. f_equal.
    pose proof (sin2_cos2 a) as H. unfold Rsqr in H. 
    replace ((cx + r * cos a - cx) * (cx + r * cos a - cx) + (cy + r * sin a - cy) * (cy + r * sin a - cy))
      with (r * r * (sin a * sin a + cos a * cos a)) by ring. rewrite H. ring. }
  assert (E : 6 / 10 = 2 * (3 / 10)) by lra.
  split; [|split; [|split; reflexivity]].
  - intros c Hc. repeat destruct Hc as [<-|Hc]; try destruct Hc; (split; [|split; reflexivity]);
      exists 1%nat; (split; [reflexivity|]); split; run; apply D; lra.
  - rewrite E. intros c Hc. repeat destruct Hc as [<-|Hc]; try destruct Hc; (split; [|split; reflexivity]);
      exists 6%nat; (split; [reflexivity|]); split; run; apply D; lra.
Qed.
Print Assumptions C96_circle_circle.

(** create_2d_rectangle_split: two squares side by side, tags 1 to 4 and 5 to 8, [gap] apart. *)
Theorem C96_rectangle_split :
  forall res gap, 0 <= gap ->
    let s := snd (rectangle_split res gap empty) in
    box_tags s 1 0 (1 / 2) 0 (1 / 2) /\ box_tags s 5 (1 / 2 + gap) (1 + gap) 0 (1 / 2) /\
    separated_by (rectangle 0 (1 / 2) 0 (1 / 2)) (rectangle (1 / 2 + gap) (1 + gap) 0 (1 / 2)) gap /\
    (0 <= res <= 5 / 2 -> rectangle (1 / 2 + gap) (1 + gap) 0 (1 / 2) (the_point s 9) /\ rectangle (1 / 2 + gap) (1 + gap) 0 (1 / 2) (the_point s 10)).
Proof.
  intros res gap Hg s; subst s; recorded. split; [table|]. split; [table|]. split.
  - split.
    + intros p q [[_ H1] _] [[H2 _] _]. apply dist_horizontal; [exact Hg|]. lra.
    + exists (1 / 2, 0), (1 / 2 + gap, 0). unfold rectangle, dist. cbn. repeat split; try lra.
      replace ((1 / 2 - (1 / 2 + gap)) * (1 / 2 - (1 / 2 + gap)) + (0 - 0) * (0 - 0)) with (gap * gap) by field.
      apply sqrt_square. exact Hg.
  - intros Hr. run. lra.
Qed.
Print Assumptions C96_rectangle_split.

(** create_gmsh_box_mesh_2D: tags 1 to 4 are the sides of a parallelogram, left, bottom,
    right and top, tags 5 to 8 those of [0, 1/2] x [-6/10, -1/10]; they do not meet. *)
Theorem C96_box_mesh_2D :
  let s := snd (box_mesh_2D empty) in
  tagged s 2 = [((- (1 / 10), 0), (1 / 2 - 1 / 10, 1 / 10))] /\ tagged s 4 = [((1 / 2 - 1 / 10, 1 / 2 + 1 / 10), (- (1 / 10), 1 / 2))] /\
  box_tags s 5 0 (1 / 2) (- (6 / 10)) (- (1 / 10)).
Proof. intros s; subst s; recorded. table. Qed.
Print Assumptions C96_box_mesh_2D.

(** sliding_wedges: for every angle the contact tags 3 (lower body, three segments) and 5
    (upper body) lie on one inclined line, and the upper one from x = 3 to x = 6 lies
    inside the lower one from x = 0 to x = 9: the bodies touch without gap. *)
Theorem C96_sliding_wedges :
  forall res angle,
    let s := snd (sliding_wedges res angle empty) in
    (forall t p q, In t [3; 5]%nat -> In (p, q) (tagged s t) ->
       snd p = 2 + fst p * tan angle /\ snd q = 2 + fst q * tan angle) /\
    tagged s 5 = [((3, 2 + 3 * tan angle), (6, 2 + 6 * tan angle))] /\
    map (fun e => (fst (fst e), fst (snd e))) (tagged s 3) = [(9, 6 + res / 2); (6 + res / 2, 3 + res); (3 + res, 0)] /\
    (forall c, In c [1; 2; 3; 4; 5; 6]%nat -> bodies_of_curve s c = [2]%nat) /\
    (forall c, In c [7; 8; 9; 10]%nat -> bodies_of_curve s c = [1]%nat) /\
    tagged s 1 = [((0, 0), (9, 0))] /\ tagged s 7 = [((6, 3 + 9 * tan angle), (3, 3 + 9 * tan angle))].
Proof.
  intros res angle s; subst s; recorded. split; [|split; [table|split; [|split; [|split; [|split; reflexivity]]]]].
  - intros t p q Ht H. destruct Ht as [<-|[<-|[]]]; run_in H;
      repeat (destruct H as [H|H]; [injection H as <- <-; cbn [fst snd]; split; field|]); destruct H.
  - run. coordinates.
  - intros c Hc. repeat destruct Hc as [<-|Hc]; try destruct Hc; reflexivity.
  - intros c Hc. repeat destruct Hc as [<-|Hc]; try destruct Hc; reflexivity.
Qed.
Print Assumptions C96_sliding_wedges.

(** The spatial boxes and ball. *)
Definition dist3 (p q : R * R * R) : R :=
  let '(x, y, z) := p in let '(a, b, c) := q in sqrt ((x - a) * (x - a) + (y - b) * (y - b) + (z - c) * (z - c)).
Definition in_box (b : R * R * R * (R * R * R)) (p : R * R * R) : Prop :=
  let '(x0, y0, z0, (a, b, c)) := b in let '(x, y, z) := p in x0 <= x <= x0 + a /\ y0 <= y <= y0 + b /\ z0 <= z <= z0 + c.
Definition separated_by3 (A B : R * R * R -> Prop) (g : R) : Prop :=
  (forall p q, A p -> B q -> g <= dist3 p q) /\ (exists p q, A p /\ B q /\ dist3 p q = g).

Lemma dist3_vertical x y z a b c g : 0 <= g -> g <= z - c -> g <= dist3 (x, y, z) (a, b, c).
Proof.
  intros Hg H. unfold dist3. rewrite <- (sqrt_square g) at 1 by exact Hg. apply sqrt_le_1_alt.
  pose proof (Rle_0_sqr (x - a)) as S1. pose proof (Rle_0_sqr (y - b)) as S2. unfold Rsqr in *. nra.
Qed.

(** create_box_mesh_3D: the boxes are [gap] apart as long as they overlap seen from above. *)
Theorem C96_box_mesh_3D :
  forall gap width offset, 0 <= gap -> 0 <= width -> Rabs offset <= 1 / 2 ->
    let '(b1, b2) := box_mesh_3D gap width offset in separated_by3 (in_box b1) (in_box b2) gap.
Proof.
  intros gap width offset Hg Hw Ho. unfold box_mesh_3D. split.
  - intros [[x y] z] [[a b] c] (_ & _ & H1) (_ & _ & H2). apply dist3_vertical; [exact Hg|]. lra.
  - pose proof (Rle_abs offset) as A1. pose proof (Rle_abs (- offset)) as A2. rewrite Rabs_Ropp in A2.
    exists (0, Rmax 0 offset, 0), (0, Rmax 0 offset, - gap). unfold in_box, dist3.
    assert (M : 0 <= Rmax 0 offset /\ offset <= Rmax 0 offset <= 1 / 2 /\ Rmax 0 offset <= offset + 1 / 2).
    { unfold Rmax. destruct (Rle_dec 0 offset); lra. }
    split; [lra|]. split; [lra|].
    replace ((0 - 0) * (0 - 0) + (Rmax 0 offset - Rmax 0 offset) * (Rmax 0 offset - Rmax 0 offset) + (0 - - gap) * (0 - - gap))
      with (gap * gap) by ring. apply sqrt_square. exact Hg.
Qed.
Print Assumptions C96_box_mesh_3D.

(** create_sphere_plane_mesh, create_halfsphere_box_mesh: ball and box are [gap] apart, the
    box is the documented one. *)
Theorem C96_sphere_plane :
  forall r height length width gap, 0 <= r -> 0 <= height -> 0 <= length -> 0 <= width -> 0 <= gap ->
    let '(radius, box) := sphere_plane r height length width gap in
    radius = r /\
    (forall x y z, in_box box (x, y, z) <->
       - length / 2 <= x <= length / 2 /\ - width / 2 <= y <= width / 2 /\ - gap - height - r <= z <= - gap - r) /\
    separated_by3 (fun p => dist3 p (0, 0, 0) <= radius) (in_box box) gap.
Proof.
  intros r height length width gap Hr Hh Hl Hw Hg. unfold sphere_plane. split; [reflexivity|]. split.
  - intros x y z. unfold in_box. split; intros H; lra.
  - split.
    + intros [[x y] z] [[a b] c] HA (_ & _ & HB). apply dist3_vertical; [exact Hg|].
      unfold dist3 in HA. rewrite !Rminus_0_r in HA.
      assert (- z <= r); [|lra]. apply Rle_trans with (Rabs (- z)); [apply Rle_abs|]. rewrite Rabs_Ropp.
      apply Rle_trans with (sqrt (x * x + y * y + z * z)); [|exact HA].
      rewrite <- sqrt_Rsqr_abs. apply sqrt_le_1_alt. pose proof (Rle_0_sqr x) as S1. pose proof (Rle_0_sqr y) as S2. unfold Rsqr in *. lra.
    + exists (0, 0, - r), (0, 0, - r - gap). unfold in_box, dist3. split; [|split; [lra|]].
      * replace ((0 - 0) * (0 - 0) + (0 - 0) * (0 - 0) + (- r - 0) * (- r - 0)) with (r * r) by ring. rewrite sqrt_square; lra.
      * replace ((0 - 0) * (0 - 0) + (0 - 0) * (0 - 0) + (- r - (- r - gap)) * (- r - (- r - gap))) with (gap * gap) by ring.
        apply sqrt_square. exact Hg.
Qed.
Print Assumptions C96_sphere_plane.

(** Non-vacuity: the default parameters. *)
Example C96_example :
  separated_by (disk (0, 0) (1 / 4)) (rectangle (- (1) / 2) (1 / 2) (- (1 / 4) - 1 / 100 - 1 / 4) (- (1 / 100) - 1 / 4)) (1 / 100) /\
  length (groups (snd (circle_plane (1 / 4) (1 / 4) 1 (1 / 100) empty)) 1) = 8%nat.
Proof. split; [apply C96_gap_disk_box; lra|reflexivity]. Qed.
