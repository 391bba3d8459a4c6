(** Properties C55 and C64 for raytracing as a whole on meshes of affine cells: the point
    returned is a point of the facet, and the facet returned is the first that the line meets. *)
From Coq Require Import List Arith ZArith Lia Bool Reals Lra.
Import ListNotations.
From Verif Require Import Prelude PreludeLemmas RSum CropModel CandidatesProps RealLemmas GeomModel GeomProps RayModel RayProps.
Local Open Scope R_scope.

(** ** Specification *)
(** Cells are images of the reference cell under affine maps; the facet Jacobian of the
    reference cell holds its edge vectors. *)
Record affine_cells (tdim gdim : nat) (m : ray_mesh) (base : nat -> nat -> R) (J : nat -> nat -> nat -> R) : Prop := {
  ac_push : forall c X l, (l < gdim)%nat -> nth l (rm_push m c X) 0 = base c l + rsum tdim (fun k => J c l k * nth k X 0);
  ac_jac : forall c X l k, (l < gdim)%nat -> (k < tdim)%nat -> rm_jac m c X l k = J c l k;
  ac_facet : forall f k j, (k < tdim)%nat -> (j < tdim - 1)%nat -> rm_facet_jac m f k j = rm_vertex m f (j + 1) k - rm_vertex m f 0 k }.
(** Vertex [j] of a facet in space. *)
Definition corner (tdim : nat) (m : ray_mesh) (c : nat * nat) (j l : nat) : R := nth l (rm_push m (fst c) (map (rm_vertex m (snd c) j) (seq 0 tdim))) 0.
(** [x] is an affine combination of the vertices, with weights that are negative by no more
    than [tol].  (In space the second one also exceeds 1 by no more than [tol]; the code asks
    this of the first parameter, not of the second.) *)
Definition in_hull (tdim gdim : nat) (m : ray_mesh) (tol : R) (c : nat * nat) (x : list R) : Prop :=
  exists w : nat -> R, rsum tdim w = 1 /\ (forall j, (j < tdim)%nat -> - tol <= w j) /\ w 1%nat <= 1 + tol /\ forall l, (l < gdim)%nat -> nth l x 0 = rsum tdim (fun j => w j * corner tdim m c j l).
(** The line through [point] along [normal] meets the facet, enlarged likewise. *)
Definition line_meets (dim : nat) (m : ray_mesh) (tol : R) (point normal : list R) (c : nat * nat) : Prop :=
  exists (x : list R) (s : R), in_hull dim dim m tol c x /\ forall l, (l < dim)%nat -> nth l x 0 = nth l point 0 + s * nth l normal 0.
(** Simplices: the facets have as many vertices as the cell has dimensions. *)
Definition simplices (tdim : nat) (ct : cell_type) : Prop := (tdim = 2%nat /\ ct = Triangle) \/ (tdim = 3%nat /\ ct = Tetrahedron).
(** Edge vectors of a facet against the tangents of the line. *)
Definition facet_slope (dim : nat) (m : ray_mesh) (normal : list R) (c : nat * nat) : matrix :=
  fun i j => rsum dim (fun l => (corner dim m c (j + 1) l - corner dim m c 0 l) * tangent (compute_tangents dim normal) i l).

(** ** Facets *)
Lemma facet_decided ct tol xi : in_reference_facet ct tol xi \/ ~ in_reference_facet ct tol xi.
Proof.
  destruct ct; cbn [in_reference_facet]; try (right; tauto); destruct (Rle_dec (- tol) (nth 0 xi 0)), (Rle_dec (nth 0 xi 0) (1 + tol)); try (right; lra); try (left; lra);
    destruct (Rle_dec (- tol) (nth 1 xi 0)); try (right; lra); [destruct (Rle_dec (nth 0 xi 0 + nth 1 xi 0) (1 + tol))|destruct (Rle_dec (nth 1 xi 0) (1 + tol))]; try (right; lra); left; lra.
Qed.
Section Facets.
  Context (tdim gdim : nat) (m : ray_mesh) (base : nat -> nat -> R) (J : nat -> nat -> nat -> R) (AC : affine_cells tdim gdim m base J).
  Lemma corner_value c j l : (l < gdim)%nat -> corner tdim m c j l = base (fst c) l + rsum tdim (fun k => J (fst c) l k * rm_vertex m (snd c) j k).
  Proof using AC.
    intros Hl. unfold corner. rewrite (ac_push _ _ _ _ _ AC) by auto. f_equal. apply rsum_ext. intros k Hk. rewrite (nth_map_lt _ _ _ 0 0%nat) by now rewrite seq_length. now rewrite seq_nth.
  Qed.
  Lemma push_facet c xi l : (l < gdim)%nat -> nth l (rm_push m (fst c) (reference_map tdim (rm_vertex m (snd c)) xi)) 0 = corner tdim m c 0 l + rsum (tdim - 1) (fun j => (corner tdim m c (j + 1) l - corner tdim m c 0 l) * nth j xi 0).
  Proof using AC.
    intros Hl. rewrite (ac_push _ _ _ _ _ AC) by auto. rewrite (corner_value c 0 l Hl).
    rewrite (rsum_ext (tdim - 1) _ (fun j => rsum tdim (fun k => J (fst c) l k * ((rm_vertex m (snd c) (j + 1) k - rm_vertex m (snd c) 0 k) * nth j xi 0)))).
    2:{ intros j Hj. rewrite (corner_value c (j + 1) l Hl). rewrite Rmult_comm. rewrite (rsum_ext tdim (fun k => J (fst c) l k * ((rm_vertex m (snd c) (j + 1) k - rm_vertex m (snd c) 0 k) * nth j xi 0)) (fun k => nth j xi 0 * (J (fst c) l k * rm_vertex m (snd c) (j + 1) k - J (fst c) l k * rm_vertex m (snd c) 0 k))) by (intros; ring).
        rewrite rsum_scal, rsum_minus. ring. }
    rewrite rsum_swap, Rplus_assoc, <- rsum_plus. f_equal. apply rsum_ext. intros k Hk. unfold reference_map. rewrite (nth_map_lt _ _ _ 0 0%nat) by now rewrite seq_length. rewrite seq_nth by auto. cbn [Nat.add].
    rewrite Rmult_plus_distr_l. f_equal. now rewrite rsum_scal.
  Qed.
  Lemma facet_edges c X l j : (l < gdim)%nat -> (j < tdim - 1)%nat -> rsum tdim (fun k => rm_jac m (fst c) X l k * rm_facet_jac m (snd c) k j) = corner tdim m c (j + 1) l - corner tdim m c 0 l.
  Proof using AC.
    intros Hl Hj. rewrite !corner_value by auto.
    rewrite (rsum_ext tdim _ (fun k => J (fst c) l k * rm_vertex m (snd c) (j + 1) k - J (fst c) l k * rm_vertex m (snd c) 0 k)).
    - rewrite rsum_minus. ring.
    - intros k Hk. rewrite (ac_jac _ _ _ _ _ AC), (ac_facet _ _ _ _ _ AC) by auto. ring.
  Qed.
  (** Points with parameters in the reference facet. *)
  Lemma hull_of_parameters tol c xi : simplices tdim (rm_type m) -> 0 <= tol -> in_reference_facet (rm_type m) tol xi ->
    in_hull tdim gdim m tol c (rm_push m (fst c) (reference_map tdim (rm_vertex m (snd c)) xi)).
  Proof using AC.
    intros [[Ht Ec] | [Ht Ec]] Htol H; rewrite Ec in H; cbn [in_reference_facet] in H.
    - exists (fun j => nth j [1 - nth 0 xi 0; nth 0 xi 0] 0). rewrite Ht. split; [cbn; ring|]. split; [intros j Hj; destruct j as [|[|j]]; [| |lia]; cbn; lra|]. split; [cbn; lra|].
      intros l Hl. pose proof (push_facet c xi l Hl) as E. rewrite Ht in E. rewrite E. cbn [rsum Nat.sub Nat.add nth]. ring.
    - exists (fun j => nth j [1 - nth 0 xi 0 - nth 1 xi 0; nth 0 xi 0; nth 1 xi 0] 0). rewrite Ht. split; [cbn; ring|]. split; [intros j Hj; destruct j as [|[|[|j]]]; [| | |lia]; cbn; lra|]. split; [cbn; lra|].
      intros l Hl. pose proof (push_facet c xi l Hl) as E. rewrite Ht in E. rewrite E. cbn [rsum Nat.sub Nat.add nth]. ring.
  Qed.
End Facets.
Lemma parameters_of_hull tdim gdim m tol c x : simplices tdim (rm_type m) -> in_hull tdim gdim m tol c x ->
  exists xi, length xi = (tdim - 1)%nat /\ in_reference_facet (rm_type m) tol xi /\
    forall l, (l < gdim)%nat -> nth l x 0 = corner tdim m c 0 l + rsum (tdim - 1) (fun j => (corner tdim m c (j + 1) l - corner tdim m c 0 l) * nth j xi 0).
Proof.
  intros [[Ht Ec] | [Ht Ec]] (w & H1 & H2 & H3 & H4); rewrite Ec; cbn [in_reference_facet]; rewrite Ht in *; cbn [rsum] in H1.
  - exists [w 1%nat]. split; [reflexivity|]. pose proof (H2 0%nat ltac:(lia)). pose proof (H2 1%nat ltac:(lia)). split; [cbn; lra|]. intros l Hl. rewrite (H4 l Hl). cbn [rsum Nat.sub Nat.add nth]. replace (w 0%nat) with (1 - w 1%nat) by lra. ring.
  - exists [w 1%nat; w 2%nat]. split; [reflexivity|]. pose proof (H2 0%nat ltac:(lia)). pose proof (H2 1%nat ltac:(lia)). pose proof (H2 2%nat ltac:(lia)). split; [cbn; lra|]. intros l Hl. rewrite (H4 l Hl). cbn [rsum Nat.sub Nat.add nth]. replace (w 0%nat) with (1 - w 1%nat - w 2%nat) by lra. ring.
Qed.

(** ** C55: the point returned is a point of the facet returned *)
Theorem C55_point_of_facet :
  forall (tdim gdim max_iter : nat) (tol : R) (m : ray_mesh) (base : nat -> nat -> R) (J : nat -> nat -> nat -> R) (point normal : list R) (cells : list (nat * nat)) (r : ray_state) (i : nat),
    affine_cells tdim gdim m base J -> simplices tdim (rm_type m) -> 0 <= tol ->
    compute_ray tdim gdim max_iter tol m point normal cells = RayOk (r, Some i) ->
    (i < length cells)%nat /\ in_hull tdim gdim m tol (nth i cells (0%nat, 0%nat)) (rs_x r).
Proof.
  intros tdim gdim max_iter tol m base J point normal cells r i AC HS Htol H.
  destruct (C55_first_candidate tdim gdim max_iter tol m point normal cells r (Some i) H) as [[_ Hp] (Hi & (oX & Hc) & _)]. split; [exact Hi|].
  specialize (Hp ltac:(discriminate)). destruct (C55_hit_in_facet _ _ _ _ _ _ _ _ _ _ _ _ _ Hc Hp) as (E1 & E2 & E3). rewrite E2, E1. now apply (hull_of_parameters tdim gdim m base J AC).
Qed.

(** ** C64: the first facet the line meets *)
Section Line.
  Context (dim max_iter : nat) (tol : R) (m : ray_mesh) (base : nat -> nat -> R) (J : nat -> nat -> nat -> R) (point normal : list R).
  Context (AC : affine_cells dim dim m base J) (HS : simplices dim (rm_type m)) (Hlen : length normal = dim) (Hunit : normn dim normal = 1) (Htol : 0 < tol <= 1/2) (Hmax : (2 <= max_iter)%nat).
  Notation t := (compute_tangents dim normal).
  Lemma line_dim : (dim = 2 \/ dim = 3)%nat.
  Proof using HS. destruct HS as [[H _]|[H _]]; auto. Qed.
  (** A facet that is not parallel to the line: its plane has a point on the line. *)
  Lemma plane_met c : det (dim - 1) (facet_slope dim m normal c) <> 0 ->
    exists eta s, length eta = (dim - 1)%nat /\ forall l, (l < dim)%nat -> corner dim m c 0 l + rsum (dim - 1) (fun j => (corner dim m c (j + 1) l - corner dim m c 0 l) * nth j eta 0) = nth l point 0 + s * nth l normal 0.
  Proof using All.
    intros Hz. set (A := facet_slope dim m normal c) in *.
    set (b := fun i => - rsum dim (fun l => (corner dim m c 0 l - nth l point 0) * tangent t i l)).
    assert (X : exists eta, length eta = (dim - 1)%nat /\ forall i, (i < dim - 1)%nat -> rsum (dim - 1) (fun j => A i j * nth j eta 0) = b i).
    { exists (map (fun i => rsum (dim - 1) (fun j => inv (dim - 1) A i j * b j)) (seq 0 (dim - 1))). split; [now rewrite map_length, seq_length|]. intros i Hi.
      rewrite (rsum_ext (dim - 1) _ (fun j => A i j * rsum (dim - 1) (fun k => inv (dim - 1) A j k * b k))).
      2:{ intros j Hj. rewrite (nth_map_lt _ _ _ 0 0%nat) by now rewrite seq_length. now rewrite seq_nth. }
      clearbody A b. destruct line_dim as [E | E]; rewrite E in *; cbn [Nat.sub] in *; unfold det in Hz; cbn [Nat.eqb] in Hz; cbn [rsum]; unfold inv, det; cbn [Nat.eqb].
      - assert (i = 0%nat) by lia. subst i. field. auto.
      - assert (Ei : (i = 0 \/ i = 1)%nat) by lia. destruct Ei as [-> | ->]; field; auto. }
    destruct X as (eta & Le & X). set (x := fun l => corner dim m c 0 l + rsum (dim - 1) (fun j => (corner dim m c (j + 1) l - corner dim m c 0 l) * nth j eta 0)).
    set (v := fun l => x l - nth l point 0). set (s := rsum dim (fun l => v l * nth l normal 0)). exists eta, s. split; [exact Le|].
    assert (T : forall i, (i < dim - 1)%nat -> rsum dim (fun l => v l * tangent t i l) = 0).
    { intros i Hi. specialize (X i Hi). unfold b in X. unfold v, x.
      rewrite (rsum_ext dim _ (fun l => (corner dim m c 0 l - nth l point 0) * tangent t i l + rsum (dim - 1) (fun j => (corner dim m c (j + 1) l - corner dim m c 0 l) * tangent t i l * nth j eta 0))).
      - rewrite rsum_plus, rsum_swap. rewrite (rsum_ext (dim - 1) _ (fun j => A i j * nth j eta 0)); [rewrite X; ring|]. intros j Hj. unfold A, facet_slope. now rewrite rsum_scal_r.
      - intros l Hl. rewrite (rsum_ext (dim - 1) (fun j => (corner dim m c (j + 1) l - corner dim m c 0 l) * tangent t i l * nth j eta 0) (fun j => tangent t i l * ((corner dim m c (j + 1) l - corner dim m c 0 l) * nth j eta 0))) by (intros; ring). rewrite rsum_scal. ring. }
    assert (Z : rsum dim (fun l => (v l - s * nth l normal 0) * (v l - s * nth l normal 0)) = 0).
    { rewrite (rsum_ext dim _ (fun l => v l * v l + ((- 2 * s) * (v l * nth l normal 0) + (s * s) * (nth l normal 0 * nth l normal 0)))) by (intros; ring).
      rewrite !rsum_plus, !rsum_scal. fold s. pose proof (dot1_of_norm _ _ Hunit) as D. unfold dotn in D. rewrite D. rewrite (tangent_frame dim normal line_dim Hlen Hunit v). fold s.
      rewrite (rsum_zero (dim - 1)) by (intros j Hj; rewrite T by auto; ring). ring. }
    intros l Hl. pose proof (rsum_nonneg_zero dim _ (fun l _ => Rle_0_sqr (v l - s * nth l normal 0)) Z l Hl) as Q. apply Rsqr_0_uniq in Q. unfold v in Q. fold (x l). lra.
  Qed.
  Lemma near x : x * x < tol * tol -> - tol < x < tol.
  Proof using Htol. intros H. split; destruct (Rlt_le_dec (- tol) x), (Rlt_le_dec x tol); try lra; exfalso; nra. Qed.
  (** The guess is near only to points of the facet. *)
  Lemma guess_near eta : parameter_distance2 dim (initial_parameters dim) eta < tol * tol -> in_reference_facet (rm_type m) tol eta.
  Proof using All.
    intros H. unfold parameter_distance2, initial_parameters in H. destruct HS as [[E1 E2]|[E1 E2]]; rewrite E2; rewrite E1 in H; cbn [Nat.sub Nat.eqb rsum nth] in H; cbn [in_reference_facet].
    - pose proof (near (1/2 - nth 0 eta 0) ltac:(lra)). lra.
    - set (p := nth 0 eta 0) in *. set (q := nth 1 eta 0) in *.
      pose proof (near (1/2 - p) ltac:(pose proof (Rle_0_sqr (1/4 - q)) as Z; unfold Rsqr in Z; lra)). pose proof (near (1/4 - q) ltac:(pose proof (Rle_0_sqr (1/2 - p)) as Z; unfold Rsqr in Z; lra)).
      split; [lra|]. split; [lra|]. destruct (Rle_lt_dec (p + q) (1 + tol)) as [L|L]; [exact L|exfalso].
      pose proof (Rle_0_sqr ((1/2 - p) - (1/4 - q))) as Z. unfold Rsqr in Z. assert (tol * tol <= tol / 2) by nra. assert (Y : (1/4 + tol) * (1/4 + tol) < (p - 1/2 + (q - 1/4)) * (p - 1/2 + (q - 1/4))) by (apply Rmult_le_0_lt_compat; lra). nra.
  Qed.
  Lemma guess_inside : in_reference_facet (rm_type m) tol (initial_parameters dim).
  Proof using All. unfold initial_parameters. destruct HS as [[E1 E2]|[E1 E2]]; rewrite E1, E2; cbn; lra. Qed.
  Lemma candidate old_X c : ~ Rabs (det (dim - 1) (facet_slope dim m normal c)) < tol ->
    exists r, ray_cell dim dim max_iter tol m point normal old_X c = RayOk r /\ ((0 < rs_status r)%Z <-> line_meets dim m tol point normal c).
  Proof using All.
    intros Hd. assert (Hct : rm_type m <> OtherCell) by (destruct HS as [[_ E]|[_ E]]; rewrite E; discriminate).
    assert (Hz : det (dim - 1) (facet_slope dim m normal c) <> 0) by (intros E; rewrite E, Rabs_R0 in Hd; lra).
    assert (K : forall eta s, length eta = (dim - 1)%nat -> (forall l, (l < dim)%nat -> corner dim m c 0 l + rsum (dim - 1) (fun j => (corner dim m c (j + 1) l - corner dim m c 0 l) * nth j eta 0) = nth l point 0 + s * nth l normal 0) ->
      exists r, ray_cell dim dim max_iter tol m point normal old_X c = RayOk r /\ ((0 < rs_status r)%Z <-> in_reference_facet (rm_type m) tol eta)).
    { intros eta s Le He.
      destruct (C64_affine_intersection dim max_iter tol (rm_type m) (reference_map dim (rm_vertex m (snd c))) (rm_push m (fst c)) (rm_jac m (fst c)) (rm_facet_jac m (snd c)) point normal
        (corner dim m c 0) (fun l j => corner dim m c (j + 1) l - corner dim m c 0 l) line_dim Hlen Hunit (proj1 Htol)
        (fun xi l Hl => push_facet dim dim m base J AC c xi l Hl) (fun X l j Hl Hj => facet_edges dim dim m base J AC c X l j Hl Hj) eta s Le He old_X Hct Hmax Hd) as (r & Er & _ & _ & Hxi & H1 & H2).
      exists r. split; [exact Er|]. destruct Hxi as [E | [E L]]; rewrite E in *.
      - split; intros P; [|now rewrite (H1 P)]. destruct (facet_decided (rm_type m) tol eta) as [Q|Q]; [exact Q|]. rewrite (H2 Q) in P. lia.
      - split; intros P; [now apply guess_near|]. now rewrite (H1 guess_inside). }
    destruct (plane_met c Hz) as (eta & s & Le & He). destruct (K eta s Le He) as (r & Er & Hr). exists r. split; [exact Er|]. rewrite Hr. split.
    - intros Q. exists (rm_push m (fst c) (reference_map dim (rm_vertex m (snd c)) eta)), s. split; [apply (hull_of_parameters dim dim m base J AC); auto; lra|].
      intros l Hl. rewrite (push_facet dim dim m base J AC) by auto. now apply He.
    - intros (x & s' & Hx & Hs'). destruct (parameters_of_hull dim dim m tol c x HS Hx) as (xi & Lx & Q & Ex).
      destruct (K xi s' Lx ltac:(intros l Hl; rewrite <- Ex by auto; now apply Hs')) as (r' & Er' & Hr'). apply Hr. rewrite Er in Er'. injection Er' as <-. now apply Hr'.
  Qed.
End Line.

Theorem C64_first_facet_met :
  forall (dim max_iter : nat) (tol : R) (m : ray_mesh) (base : nat -> nat -> R) (J : nat -> nat -> nat -> R) (point normal : list R) (cells : list (nat * nat)),
    affine_cells dim dim m base J -> simplices dim (rm_type m) -> rm_tdim m = dim -> rm_gdim m = dim -> length normal = dim -> normn dim normal = 1 -> 0 < tol <= 1/2 -> (2 <= max_iter)%nat ->
    (forall c, In c cells -> ~ Rabs (det (dim - 1) (facet_slope dim m normal c)) < tol) ->
    exists r o, raytracing max_iter tol m point normal cells = Some (RayOk (r, o)) /\
      match o with
      | Some i => (i < length cells)%nat /\ line_meets dim m tol point normal (nth i cells (0%nat, 0%nat)) /\ in_hull dim dim m tol (nth i cells (0%nat, 0%nat)) (rs_x r) /\
          forall j, (j < i)%nat -> ~ line_meets dim m tol point normal (nth j cells (0%nat, 0%nat))
      | None => forall c, In c cells -> ~ line_meets dim m tol point normal c
      end.
Proof.
  intros dim max_iter tol m base J point normal cells AC HS Ht Hg Hlen Hunit Htol Hmax HC.
  pose proof (fun oX c Hc => candidate dim max_iter tol m base J point normal AC HS Hlen Hunit Htol Hmax oX c (HC c Hc)) as K.
  assert (E : raytracing max_iter tol m point normal cells = Some (compute_ray dim dim max_iter tol m point normal cells)).
  { unfold raytracing. destruct (line_dim dim m HS) as [E|E]; rewrite Ht, Hg, E; reflexivity. }
  assert (X : exists r o, compute_ray dim dim max_iter tol m point normal cells = RayOk (r, o)).
  { unfold compute_ray. rewrite Ht, Hg, Nat.eqb_refl. cbn [negb orb]. destruct HS as [[_ Es]|[_ Es]]; rewrite Es.
    all: match goal with |- exists r o, ray_loop _ _ _ _ _ _ _ _ _ ?s0 = _ => generalize 0%nat, s0 end; clear - K; induction cells as [|c cells IH]; intros idx s; cbn [ray_loop]; [eauto|].
    all: destruct (K (rs_X s) c (or_introl eq_refl)) as (r & -> & _); destruct (Z.ltb 0 (rs_status r)); [eauto|]; apply IH; intros oX c' Hc'; apply K; now right. }
  destruct X as (r & o & X). exists r, o. rewrite E, X. split; [reflexivity|].
  destruct (C55_first_candidate dim dim max_iter tol m point normal cells r o X) as [[_ Hp] F]. destruct o as [i|].
  - destruct F as (Hi & (oX & Hc) & Hj). destruct (K oX _ (nth_In cells (0, 0)%nat Hi)) as (r1 & E1 & M1). rewrite Hc in E1. injection E1 as <-. split; [exact Hi|]. split; [apply M1, Hp; discriminate|].
    split; [apply (C55_point_of_facet dim dim max_iter tol m base J point normal cells r i AC HS ltac:(lra) X)|].
    intros j Hji Q. destruct (Hj j Hji) as (oX' & r' & E' & S'). destruct (K oX' _ (nth_In cells (0, 0)%nat (Nat.lt_trans _ _ _ Hji Hi))) as (r2 & E2 & M2). rewrite E' in E2. injection E2 as <-. apply M2 in Q. lia.
  - intros c Hc Q. destruct (In_nth cells c (0, 0)%nat Hc) as (j & Hj & <-). destruct (F j Hj) as (oX' & r' & E' & S'). destruct (K oX' _ Hc) as (r2 & E2 & M2). rewrite E' in E2. injection E2 as <-. apply M2 in Q. lia.
Qed.
Print Assumptions C55_point_of_facet.
Print Assumptions C64_first_facet_met.

(** The hypotheses are met: the reference triangle and a copy shifted by (2, 0); the line
    through (1/4, 1) along the second axis passes the copy's lower edge and meets the first
    triangle's. *)
Definition edge_vertex (f j k : nat) : R := nth k (nth j (nth f [[[1; 0]; [0; 1]]; [[0; 0]; [0; 1]]; [[0; 0]; [1; 0]]] []) []) 0.
Definition shifted_triangles : ray_mesh := {| rm_tdim := 2; rm_gdim := 2; rm_type := Triangle; rm_vertex := edge_vertex; rm_facet_jac := fun f k j => edge_vertex f (j + 1) k - edge_vertex f 0 k;
  rm_push := fun c X => [nth 0 X 0 + 2 * INR c; nth 1 X 0]; rm_jac := fun _ _ l k => if (l =? k)%nat then 1 else 0 |}.
Example C64_first_nonvacuous : exists r, raytracing 25 (1/100) shifted_triangles [1/4; 1] [0; 1] [(1, 2); (0, 2)]%nat = Some (RayOk (r, Some 1%nat)) /\ in_hull 2 2 shifted_triangles (1/100) (0, 2)%nat (rs_x r).
Proof.
  assert (U : normn 2 [0; 1] = 1) by (unfold normn, dotn; cbn [rsum nth]; replace (0 + 0 * 0 + 1 * 1) with 1 by ring; apply sqrt_1).
  assert (AC : affine_cells 2 2 shifted_triangles (fun c l => if (l =? 0)%nat then 2 * INR c else 0) (fun _ l k => if (l =? k)%nat then 1 else 0)).
  { constructor; try reflexivity. intros c X l Hl. destruct l as [|[|l]]; [| |lia]; cbn [shifted_triangles rm_push nth rsum Nat.eqb]; ring. }
  assert (CV : forall c j, corner 2 shifted_triangles (c, 2%nat) j 0%nat = edge_vertex 2 j 0 + 2 * INR c /\ corner 2 shifted_triangles (c, 2%nat) j 1%nat = edge_vertex 2 j 1) by (intros; split; reflexivity).
  destruct (C64_first_facet_met 2 25 (1/100) shifted_triangles _ _ [1/4; 1] [0; 1] [(1, 2); (0, 2)]%nat AC (or_introl (conj eq_refl eq_refl)) eq_refl eq_refl eq_refl U ltac:(lra) ltac:(lia)) as (r & o & E & H).
  - intros c Hc L. set (z := rsum 2 (fun l => (if (l =? 0)%nat then 1 else 0) * tangent (compute_tangents 2 [0; 1]) 0 l)).
    assert (Z : det (2 - 1) (facet_slope 2 shifted_triangles [0; 1] c) = z).
    { unfold det, facet_slope. cbn [Nat.sub Nat.eqb]. apply rsum_ext. intros l Hl. f_equal. destruct Hc as [<- | [<- | []]]; destruct l as [|[|l]]; try lia; cbn; ring. }
    rewrite Z in L. pose proof (tangent_frame 2 [0; 1] (or_introl eq_refl) eq_refl U (fun l => if (l =? 0)%nat then 1 else 0)) as F. cbn [Nat.sub] in F.
    assert (F' : rsum 1 (fun j => rsum 2 (fun i => (if (i =? 0)%nat then 1 else 0) * tangent (compute_tangents 2 [0; 1]) j i) * rsum 2 (fun i => (if (i =? 0)%nat then 1 else 0) * tangent (compute_tangents 2 [0; 1]) j i)) = z * z) by (cbn [rsum]; unfold z; cbn [rsum]; ring).
    rewrite F' in F. cbn [rsum Nat.eqb nth] in F. apply Rabs_def2 in L. nra.
  - assert (M : line_meets 2 shifted_triangles (1/100) [1/4; 1] [0; 1] (0, 2)%nat).
    { exists [1/4; 0], (-1). split.
      - exists (fun j => if (j =? 0)%nat then 3/4 else 1/4). split; [cbn; lra|]. split; [intros j Hj; destruct (j =? 0)%nat; lra|]. split; [cbn; lra|].
        intros l Hl. destruct l as [|[|l]]; [| |lia]; cbn [rsum]; rewrite ?(proj1 (CV _ _)), ?(proj2 (CV _ _)); cbn; lra.
      - intros l Hl. destruct l as [|[|l]]; [| |lia]; cbn; lra. }
    assert (N : ~ line_meets 2 shifted_triangles (1/100) [1/4; 1] [0; 1] (1, 2)%nat).
    { intros (x & s & (w & W1 & W2 & W3 & W4) & L). specialize (L 0%nat ltac:(lia)). specialize (W4 0%nat ltac:(lia)). pose proof (W2 0%nat ltac:(lia)). pose proof (W2 1%nat ltac:(lia)).
      cbn [rsum] in W1, W4. rewrite !(proj1 (CV _ _)) in W4. cbn in L, W4. lra. }
    exists r. destruct o as [[|[|i]]|].
    + destruct H as (_ & H & _). cbn in H. contradiction.
    + split; [exact E|]. apply H.
    + destruct H as (H & _). cbn in H. lia.
    + exfalso. apply (H (0, 2)%nat); [right; now left|exact M].
Qed.
