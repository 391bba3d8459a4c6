(** Property C113: which spaces, meshes and modes are accepted, what the kernels' tables then
    hold, and the shapes of the arrays handed to Python. *)
From Coq Require Import List Arith Lia Bool Reals Lra.
Import ListNotations.
From Verif Require Import Prelude PreludeLemmas RSum RayModel LayoutModel LayoutProps QuadratureModel QuadratureProps KernelModel MeshTieModel MeshTieProps KernelDataModel.
Local Open Scope R_scope.

(** ** Specification *)
(** Cells the library claims to support, apart from the degenerate point. *)
Definition supported_cell (c : mesh_cell) : Prop := c = TriangleCell \/ c = QuadrilateralCell \/ c = TetrahedronCell \/ c = HexahedronCell.
(** The basis functions are functions of the reference coordinates. *)
Definition reference_functions (V : function_space) : Prop := forall X X', (forall k, (k < cell_dim (fs_cell V))%nat -> X k = X' k) ->
  (forall d j c, fs_tabulate V d X j c = fs_tabulate V d X' j c) /\ forall d a, fs_geometry V d X a = fs_geometry V d X' a.

(** ** Lemmas *)
Lemma nth_flat_map_const {A} (f : nat -> list A) n m i k (d : A) : (forall a, length (f a) = m) -> (i < n)%nat -> (k < m)%nat -> nth (i * m + k) (flat_map f (seq 0 n)) d = nth k (f i) d.
Proof.
  intros Hf. revert i. induction n as [|n IH]; intros i Hi Hk; [lia|]. rewrite seq_S, flat_map_app. cbn [flat_map Nat.add]. rewrite app_nil_r.
  assert (L : forall n, length (flat_map f (seq 0 n)) = (n * m)%nat). { clear -Hf. induction n as [|n IH]; [reflexivity|]. rewrite seq_S, flat_map_app, app_length, IH. cbn [flat_map Nat.add]. rewrite app_nil_r, Hf. lia. }
  destruct (Nat.eq_dec i n) as [->|Hne].
  - rewrite app_nth2 by (rewrite L; lia). f_equal. rewrite L. lia.
  - rewrite app_nth1 by (rewrite L; nia). apply IH; lia.
Qed.
Lemma length_flat_map_const {A} (f : nat -> list A) m n : (forall a, length (f a) = m) -> length (flat_map f (seq 0 n)) = (n * m)%nat.
Proof. intros Hf. induction n as [|n IH]; [reflexivity|]. rewrite seq_S, flat_map_app, app_length, IH. cbn [flat_map Nat.add]. rewrite app_nil_r, Hf. lia. Qed.
Lemma span4_fill4 n0 n1 n2 n3 f i j k l : (i < n0)%nat -> (j < n1)%nat -> (k < n2)%nat -> (l < n3)%nat -> span4 (fill4 n0 n1 n2 n3 f) n1 n2 n3 i j k l = f i j k l.
Proof.
  intros Hi Hj Hk Hl. unfold span4, fill4.
  assert (L1 : forall i j k, length (map (fun l => f i j k l) (seq 0 n3)) = n3) by (intros; now rewrite map_length, seq_length).
  assert (L2 : forall i j, length (flat_map (fun k => map (fun l => f i j k l) (seq 0 n3)) (seq 0 n2)) = (n2 * n3)%nat) by (intros; now apply length_flat_map_const).
  assert (L3 : forall i, length (flat_map (fun j => flat_map (fun k => map (fun l => f i j k l) (seq 0 n3)) (seq 0 n2)) (seq 0 n1)) = (n1 * (n2 * n3))%nat) by (intros; now apply length_flat_map_const).
  replace (((i * n1 + j) * n2 + k) * n3 + l)%nat with (i * (n1 * (n2 * n3)) + (j * (n2 * n3) + (k * n3 + l)))%nat by ring.
  assert (B1 : (k * n3 + l < n2 * n3)%nat) by nia. assert (B2 : (j * (n2 * n3) + (k * n3 + l) < n1 * (n2 * n3))%nat) by nia.
  rewrite (nth_flat_map_const _ n0 _ i _ 0 L3) by assumption. rewrite (nth_flat_map_const _ n1 _ j _ 0 (L2 i)) by assumption. rewrite (nth_flat_map_const _ n2 _ k _ 0 (L1 i j)) by assumption.
  rewrite (nth_map_lt _ (seq 0 n3) l 0 0%nat) by now rewrite seq_length. now rewrite seq_nth.
Qed.

(** ** C113 *)
(** Kernel data are made exactly for meshes without interval, prism and pyramid cells, elements
    without transformations, and value sizes from the block size to below twice that. *)
Theorem C113_accepted_exact :
  forall (V : function_space) (rule : qrule) (cstrides : list nat),
    (exists kd, make_kernel_data V rule cstrides = Made kd) <->
    ~ In (fs_cell V) [IntervalCell; PrismCell; PyramidCell] /\ fs_transformations V = false /\ (fs_bs V <= fs_value_size V < 2 * fs_bs V)%nat.
Proof.
  intros V rule cstrides. unfold make_kernel_data.
  assert (D : (fs_value_size V / fs_bs V = 1 <-> fs_bs V <= fs_value_size V < 2 * fs_bs V)%nat).
  { split.
    - intros E. destruct (Nat.eq_dec (fs_bs V) 0) as [Z|Z]; [rewrite Z in E; cbn in E; discriminate|]. pose proof (Nat.div_mod (fs_value_size V) (fs_bs V) Z) as M. pose proof (Nat.mod_upper_bound (fs_value_size V) (fs_bs V) Z). rewrite E in M. lia.
    - intros [H1 H2]. symmetry. apply (Nat.div_unique _ _ 1 (fs_value_size V - fs_bs V)); lia. }
  assert (C : check_cell_type (fs_cell V) = true <-> ~ In (fs_cell V) [IntervalCell; PrismCell; PyramidCell]).
  { destruct (fs_cell V); cbn; split; intros H; try reflexivity; try discriminate; try (intros [E|[E|[E|[]]]]; discriminate); exfalso; apply H; auto. }
  rewrite <- C, <- D. destruct (check_cell_type (fs_cell V)), (fs_transformations V), (Nat.eqb_spec (fs_value_size V / fs_bs V) 1); cbn [negb].
  all: split; [intros [kd E]; first [discriminate E | now repeat split] | intros (H1 & H2 & H3); first [discriminate | contradiction | now eexists]].
Qed.
Print Assumptions C113_accepted_exact.

(** For blocked elements, where the value size is a multiple of the block size: exactly the
    scalar element repeated per component. *)
Theorem C113_blocked_accepted :
  forall (V : function_space) (rule : qrule) (cstrides : list nat) (k : nat), (0 < fs_bs V)%nat -> fs_value_size V = (fs_bs V * k)%nat ->
    (exists kd, make_kernel_data V rule cstrides = Made kd) <-> ~ In (fs_cell V) [IntervalCell; PrismCell; PyramidCell] /\ fs_transformations V = false /\ k = 1%nat.
Proof. intros V rule cstrides k Hb E. rewrite C113_accepted_exact, E. assert ((fs_bs V <= fs_bs V * k < 2 * fs_bs V)%nat <-> k = 1%nat) as -> by nia. reflexivity. Qed.
Print Assumptions C113_blocked_accepted.

(** The check divides integers, so value sizes that differ from the block size pass.  The numbers
    are those of symmetric tensors in two and three dimensions (block sizes 3 and 6 for 4 and 9 values). *)
Definition tensor_space (gdim : nat) (cell : mesh_cell) : function_space := {|
  fs_cell := cell; fs_gdim := gdim; fs_bs := gdim * (gdim + 1) / 2; fs_value_size := gdim * gdim; fs_transformations := false;
  fs_ndofs := 3; fs_dim := 3; fs_components := 1; fs_tabulate := fun _ _ _ _ => 0; fs_affine := true; fs_nodes := 3; fs_geometry := fun _ _ _ => 0;
  fs_ref_jacobians := fun _ _ _ => 0; fs_ref_normals := fun _ _ => 0; fs_inverse := fun m => m; fs_determinant := fun _ => 1 |}.
Theorem C113_value_size_refuted :
  forall (rule : qrule) (cstrides : list nat) (gdim : nat) (cell : mesh_cell), (gdim = 2 \/ gdim = 3)%nat -> supported_cell cell ->
    fs_value_size (tensor_space gdim cell) <> fs_bs (tensor_space gdim cell) /\ fs_bs (tensor_space gdim cell) <> gdim /\ exists kd, make_kernel_data (tensor_space gdim cell) rule cstrides = Made kd.
Proof.
  intros rule cstrides gdim cell Hg Hc. rewrite C113_accepted_exact. destruct Hg as [-> | ->]; cbn [tensor_space fs_value_size fs_bs fs_cell fs_transformations]; cbn.
  all: repeat split; try lia; destruct Hc as [-> | [-> | [-> | ->]]]; intros [E|[E|[E|[]]]]; discriminate.
Qed.
Print Assumptions C113_value_size_refuted.

(** Once made, the tables hold what the kernels take them for: at point [q] of facet [f] the
    values and derivatives of the basis functions at the reference point of the rule, and its weight. *)
Theorem C113_tables :
  forall (V : function_space) (num_sub : nat) (qw : nat -> list R) (nverts : nat -> nat) (phi coords : nat -> nat -> nat -> R) (cstrides : list nat) (kd : kernel_data),
    let tdim := cell_dim (fs_cell V) in
    let rule := qrule_facets tdim num_sub qw nverts phi coords in
    make_kernel_data V rule cstrides = Made kd -> reference_functions V -> (0 < fs_components V)%nat ->
    kd_gdim kd = fs_gdim V /\ kd_tdim kd = tdim /\ kd_bs kd = fs_bs V /\ kd_ndofs kd = fs_ndofs V /\ kd_nodes kd = fs_nodes V /\ kd_affine kd = fs_affine V /\ kd_cstrides kd = cstrides /\
    forall f q, (f < num_sub)%nat -> (q < length (qw f))%nat ->
      let X c := rsum (nverts f) (fun v => phi f q v * coords f v c) in
      let at_point := (kd_qp_offsets kd f + q)%nat in
      num_points kd f = length (qw f) /\ weight kd f q = nth q (qw f) 0 /\
      (forall j, (j < fs_dim V)%nat -> kd_phi kd at_point j = fs_tabulate V 0 X j 0) /\
      (forall d j, (d < tdim)%nat -> (j < fs_dim V)%nat -> kd_dphi kd d at_point j = fs_tabulate V (S d) X j 0) /\
      (forall d a, (d < tdim)%nat -> (a < fs_nodes V)%nat -> kd_dphi_c kd d at_point a = fs_geometry V (S d) X a).
Proof.
  intros V num_sub qw nverts phi coords cstrides kd tdim rule E HR Hc. unfold make_kernel_data in E. fold tdim in E.
  destruct (negb (check_cell_type (fs_cell V))); [discriminate|]. destruct (fs_transformations V); [discriminate|]. destruct (negb (fs_value_size V / fs_bs V =? 1)); [discriminate|].
  injection E as <-.
  do 7 (split; [reflexivity|]).
  intros f q Hf Hq X at_point.
  destruct (C56_facet_slices tdim num_sub qw nverts phi coords) as (S1 & S2 & S3 & S4). fold rule in S1, S2, S3, S4. destruct (S1 f Hf) as (N1 & N2 & N3 & N4 & N5 & N6).
  assert (P : forall c, (c < tdim)%nat -> flat_point tdim (qr_points rule) (nth f (qr_offset rule) 0%nat + q) c = X c).
  { intros c Hcd. unfold flat_point. assert (B : (q * tdim + c < qr_num_points rule f * tdim)%nat) by (rewrite N1; nia).
    replace ((nth f (qr_offset rule) 0%nat + q) * tdim + c)%nat with (nth f (qr_offset rule) 0%nat * tdim + (q * tdim + c))%nat by ring.
    rewrite <- (nth_slice (qr_points rule) _ (qr_num_points rule f * tdim) (q * tdim + c) 0 B). apply N4; [rewrite N1; exact Hq|exact Hcd]. }
  assert (L : (at_point < length (qr_weights rule))%nat).
  { unfold at_point. cbn [kd_qp_offsets]. destruct (Nat.lt_ge_cases (nth f (qr_offset rule) 0%nat + q) (length (qr_weights rule))) as [K|K]; [exact K|exfalso].
    assert (K2 : length (qr_weights_of rule f) = length (qw f)) by now rewrite N2.
    unfold qr_weights_of, slice in K2. rewrite firstn_length, skipn_length in K2. rewrite N1 in K2. lia. }
  split; [|split; [|split; [|split]]].
  - unfold num_points. cbn [kd_qp_offsets]. exact N1.
  - unfold weight. cbn [kd_weights kd_qp_offsets]. rewrite <- N2. unfold qr_weights_of. rewrite nth_slice by (rewrite N1; exact Hq). reflexivity.
  - intros j Hj. cbn [kd_phi]. rewrite span4_fill4; [|lia|exact L|exact Hj|exact Hc]. apply (HR _ _ P).
  - intros d j Hd Hj. cbn [kd_dphi]. rewrite span4_fill4; [|lia|exact L|exact Hj|exact Hc]. apply (HR _ _ P).
  - intros d a Hd Ha. cbn [kd_dphi_c]. rewrite span4_fill4; [|lia|exact L|exact Ha|lia]. apply (HR _ _ P).
Qed.
Print Assumptions C113_tables.

(** The dimensions of the cells, from how the cells are made: a simplex has one vertex more than its dimension, the square and
    the cube have 2^dimension, a prism is a triangle times an interval, a pyramid a cone over a square. *)
Theorem C113_cell_dimensions :
  (forall vertices c, In (c, vertices) [(PointCell, 1); (IntervalCell, 2); (TriangleCell, 3); (TetrahedronCell, 4)]%nat -> vertices = (cell_dim c + 1)%nat) /\
  (forall vertices c, In (c, vertices) [(PointCell, 1); (IntervalCell, 2); (QuadrilateralCell, 4); (HexahedronCell, 8)]%nat -> vertices = (2 ^ cell_dim c)%nat) /\
  cell_dim PrismCell = (cell_dim TriangleCell + cell_dim IntervalCell)%nat /\ cell_dim PyramidCell = (cell_dim QuadrilateralCell + 1)%nat.
Proof. repeat split; intros v c H; cbn [In] in H; repeat destruct H as [H|H]; try (injection H as <- <-; reflexivity); destruct H. Qed.
Print Assumptions C113_cell_dimensions.

(** Contact search on a mesh of cells of dimension at most [gdim]: both modes run on the four
    cell types, with the dimensions of the mesh, and refuse everything else. *)
Theorem C113_search_dispatch :
  forall (mode : contact_mode) (cell : mesh_cell) (gdim : nat), (cell_dim cell <= gdim <= 3)%nat ->
    (forall r, distance_map mode cell gdim = Made r <-> supported_cell cell /\ r = (mode, cell_dim cell, gdim)) /\
    (~ supported_cell cell -> exists e, distance_map mode cell gdim = Refused e).
Proof.
  intros mode cell gdim Hg. split.
  - intros r. split.
    + intros E. unfold distance_map in E. destruct cell; cbn in Hg; cbn in E; try discriminate;
        destruct gdim as [|[|[|[|gdim]]]]; try lia; destruct mode; cbn in E; try discriminate; injection E as <-; (split; [unfold supported_cell; auto|reflexivity]).
    + intros [Hc ->]. destruct Hc as [-> | [-> | [-> | ->]]]; cbn in Hg; (destruct gdim as [|[|[|[|gdim]]]]; try lia); destruct mode; reflexivity.
  - intros Hc. unfold distance_map. destruct cell; try (exfalso; apply Hc; unfold supported_cell; auto; fail); cbn; try (now eexists).
    destruct mode; [destruct (negb _)|]; now eexists.
Qed.
Print Assumptions C113_search_dispatch.

(** The points of a facet rule as numpy arrays: one row per point, all facets or one of them. *)
Theorem C113_python_points :
  forall (tdim num_sub : nat) (qw : nat -> list R) (nverts : nat -> nat) (phi coords : nat -> nat -> nat -> R), (0 < tdim)%nat ->
    let rule := qrule_facets tdim num_sub qw nverts phi coords in
    py_points tdim rule = ((length (py_weights rule), tdim), qr_points rule) /\
    forall f, (f < num_sub)%nat -> fst (py_points_of tdim rule f) = (length (qw f), tdim) /\ py_weights_of rule f = qw f /\ length (snd (py_points_of tdim rule f)) = (length (qw f) * tdim)%nat /\
      forall q c, (q < length (qw f))%nat -> (c < tdim)%nat -> nth (q * tdim + c) (snd (py_points_of tdim rule f)) 0 = rsum (nverts f) (fun v => phi f q v * coords f v c).
Proof.
  intros tdim num_sub qw nverts phi coords Ht rule. destruct (C56_facet_slices tdim num_sub qw nverts phi coords) as (S1 & S2 & S3 & S4). fold rule in S1, S2, S3, S4. split.
  - unfold py_points, py_weights. rewrite S4. now rewrite Nat.div_mul by lia.
  - intros f Hf. destruct (S1 f Hf) as (N1 & N2 & N3 & N4 & N5 & N6). unfold py_points_of. cbn [fst snd]. rewrite N1 in *. split; [reflexivity|]. split; [exact N2|].
    set (body := fun q l => for_loop tdim (fun c l => upd l (q * tdim + c) (nth (q * tdim + c) (qr_points_of tdim rule f) 0)) l).
    assert (R : forall n, (n <= length (qw f))%nat -> length (for_loop n body (repeat 0 (length (qw f) * tdim))) = (length (qw f) * tdim)%nat /\
       forall x, (x < n * tdim)%nat -> nth x (for_loop n body (repeat 0 (length (qw f) * tdim))) 0 = nth x (qr_points_of tdim rule f) 0).
    { induction n as [|n IH]; intros Hn; [split; [apply repeat_length|intros; lia]|]. rewrite for_loop_S. destruct (IH ltac:(lia)) as [L V]. set (l := for_loop n body _) in *.
      destruct (copy_row (qr_points_of tdim rule f) l (n * tdim) (n * tdim) tdim ltac:(rewrite L; nia)) as [C1 C2]. unfold body. split; [now rewrite C1|]. intros x Hx. rewrite C2.
      destruct (Nat.leb_spec (n * tdim) x), (Nat.ltb_spec x (n * tdim + tdim)); cbn [andb]; [f_equal; lia|nia|apply V; lia|apply V; lia]. }
    destruct (R (length (qw f)) ltac:(lia)) as [L V]. split; [exact L|]. intros q c Hq Hcd. rewrite V by nia. now apply N4.
Qed.
Print Assumptions C113_python_points.

Section TieArrays.
  Context {F : Type} (pack_h : nat -> list R) (pack_coeff0 pack_q pack_grad_q pack_opp pack_grad_opp : nat -> F -> list R * nat) (pack_test pack_grad_test : bool -> nat -> list R * nat)
    (num_pairs : nat) (num_facets : nat -> nat) (nq nd gdim ml : nat).
  Notation run := (run_tie pack_h pack_coeff0 pack_q pack_grad_q pack_opp pack_grad_opp pack_test pack_grad_test num_pairs num_facets nq nd gdim ml).
  Notation step := (do_tie pack_h pack_coeff0 pack_q pack_grad_q pack_opp pack_grad_opp pack_test pack_grad_test num_pairs num_facets nq nd gdim ml).
  (** A call that makes data for elasticity, with all coefficients it asks for. *)
  Definition makes_data (k : @tie_call F) : Prop :=
    match k with
    | TGenerate Elasticity c _ _ => c_mu c <> None /\ c_lambda c <> None
    | TGenerate ThermoElasticity c _ _ => c_mu c <> None /\ c_lambda c <> None /\ c_alpha c <> None
    | _ => False
    end.
  Definition sized (s : tie_state) : Prop := length (coeffs s) = num_pairs /\ forall i, (i < num_pairs)%nat -> length (nth i (coeffs s) []) = (cstride s * num_facets i)%nat.

  Lemma for_pairs_keeps f arr (P : nat -> nat -> Prop) : length arr = num_pairs -> (forall i d, (i < num_pairs)%nat -> P i (length d) -> P i (length (f i d))) ->
    (forall i, (i < num_pairs)%nat -> P i (length (nth i arr []))) -> length (for_pairs num_pairs f arr) = num_pairs /\ forall i, (i < num_pairs)%nat -> P i (length (nth i (for_pairs num_pairs f arr) [])).
  Proof using.
    intros L Hf HP. unfold for_pairs. apply (for_loop_inv (fun _ a => length a = num_pairs /\ forall i, (i < num_pairs)%nat -> P i (length (nth i a [])))); [now split|].
    intros k a Hk [L' H']. split; [now rewrite upd_length|]. intros i Hi. rewrite nth_upd. destruct (Nat.eqb_spec k i) as [->|_]; cbn [andb]; [|now apply H'].
    destruct (Nat.ltb_spec i (length a)); [|lia]. apply Hf; auto.
  Qed.
  Lemma for_pairs_makes f arr (P : nat -> nat -> Prop) : length arr = num_pairs -> (forall i d, (i < num_pairs)%nat -> P i (length (f i d))) ->
    length (for_pairs num_pairs f arr) = num_pairs /\ forall i, (i < num_pairs)%nat -> P i (length (nth i (for_pairs num_pairs f arr) [])).
  Proof using.
    intros L Hf. unfold for_pairs.
    destruct (for_loop_inv (fun k a => length a = num_pairs /\ forall i, (i < k)%nat -> P i (length (nth i a []))) num_pairs (fun i a => upd a i (f i (nth i a []))) arr) as [H1 H2]; [split; [exact L|intros; lia]| |now split].
    intros k a Hk [L' H']. split; [now rewrite upd_length|]. intros i Hi. rewrite nth_upd. destruct (Nat.eqb_spec k i) as [->|Hne]; cbn [andb]; [|apply H'; lia].
    destruct (Nat.ltb_spec i (length a)); [|lia]. now apply Hf.
  Qed.
  Lemma put_length p e st off d : length (put p e st off d) = length d.
  Proof using. unfold put. apply copy_n_length. Qed.
  Lemma loop_length n (g : nat -> list R -> list R) d : (forall e d, length (g e d) = length d) -> length (for_loop n g d) = length d.
  Proof using. intros H. apply (for_loop_inv (fun _ x => length x = length d)); [reflexivity|]. intros k x _ E. now rewrite H. Qed.

  Lemma update_sized c pt s : sized s -> let s' := snd (update_kernel_data pack_q pack_grad_q pack_opp pack_grad_opp num_pairs num_facets nq nd gdim ml c pt s) in sized s' /\ cstride s' = cstride s.
  Proof using.
    intros [L H].
    assert (K : forall g arr, (forall i d, length (g i d) = length d) -> length arr = num_pairs -> (forall i, (i < num_pairs)%nat -> length (nth i arr []) = (cstride s * num_facets i)%nat) ->
      length (for_pairs num_pairs g arr) = num_pairs /\ forall i, (i < num_pairs)%nat -> length (nth i (for_pairs num_pairs g arr) []) = (cstride s * num_facets i)%nat).
    { intros g arr Hg Ha Hb. apply (for_pairs_keeps g arr (fun i n => n = (cstride s * num_facets i)%nat)); auto. intros i d _ E. now rewrite Hg. }
    assert (U : forall u arr o0 o1 st, length arr = num_pairs -> (forall i, (i < num_pairs)%nat -> length (nth i arr []) = (cstride s * num_facets i)%nat) ->
      let a := update_function_data pack_q pack_opp num_pairs num_facets u arr o0 o1 st in length a = num_pairs /\ forall i, (i < num_pairs)%nat -> length (nth i a []) = (cstride s * num_facets i)%nat).
    { intros u arr o0 o1 st Ha Hb. apply K; auto. intros i d. apply loop_length. intros e d'. now rewrite !put_length. }
    assert (W : forall u arr o0 o1 st, length arr = num_pairs -> (forall i, (i < num_pairs)%nat -> length (nth i arr []) = (cstride s * num_facets i)%nat) ->
      let a := update_gradient_data pack_grad_q pack_grad_opp num_pairs num_facets u arr o0 o1 st in length a = num_pairs /\ forall i, (i < num_pairs)%nat -> length (nth i a []) = (cstride s * num_facets i)%nat).
    { intros u arr o0 o1 st Ha Hb. apply K; auto. intros i d. apply loop_length. intros e d'. now rewrite !put_length. }
    destruct pt; cbn [update_kernel_data].
    - destruct (c_u c) as [u|]; cbv zeta; cbn [snd]; [|now split]. split; [|reflexivity]. unfold sized. cbn [with_coeffs coeffs cstride]. apply W; apply U; auto.
    - destruct (c_T c) as [T|]; cbv zeta; cbn [snd]; [|now split]. split; [|reflexivity]. unfold sized. cbn [with_coeffs_poisson coeffs cstride]. now split.
    - destruct (c_u c) as [u|]; [|now split]. destruct (c_T c) as [T|]; cbv zeta; cbn [snd]; [|now split]. split; [|reflexivity]. unfold sized. cbn [with_coeffs coeffs cstride]. apply U; apply W; apply U; auto.
    - now split.
  Qed.
  Lemma generate_sized mu lm al ga th s : length (coeffs s) = num_pairs -> let s' := generate_matrix_only pack_h pack_coeff0 pack_test pack_grad_test num_pairs num_facets nq nd gdim ml mu lm al ga th s in sized s' /\ (0 < cstride s')%nat.
  Proof using.
    intros L s'. split.
    - unfold sized, s', generate_matrix_only. cbv zeta. cbn [coeffs cstride]. set (st := sum_nat _).
      apply (for_pairs_makes _ _ (fun i n => n = (st * num_facets i)%nat)); [exact L|]. intros i d _.
      destruct al; rewrite ?loop_length; try apply resize_length; intros e d'; now rewrite !put_length.
    - unfold s', generate_matrix_only. cbv zeta. cbn [cstride]. destruct al; cbn; lia.
  Qed.
  Lemma step_sized s k : sized s -> sized (step s k) /\ ((makes_data k \/ (0 < cstride s)%nat) <-> (0 < cstride (step s k))%nat).
  Proof using.
    intros HS. destruct k as [pt c ga th | pt c]; cbn [do_tie].
    - destruct pt; cbn [generate_kernel_data makes_data].
      + destruct (c_mu c) as [mu|]; cbn [snd]; [|split; [exact HS|]; split; [intros [[E _]|E]; [now contradict E|exact E]|now right]].
        destruct (c_lambda c) as [lm|]; cbn [snd]; [|split; [exact HS|]; split; [intros [[_ E]|E]; [now contradict E|exact E]|now right]].
        destruct (generate_sized mu lm None ga th s (proj1 HS)) as [G1 G2]. cbv zeta. destruct (given (c_u c)); cbn [snd].
        * destruct (update_sized c Elasticity _ G1) as [U1 U2]. split; [exact U1|]. rewrite U2. split; [now intros _|]. intros _. left. split; discriminate.
        * split; [exact G1|]. split; [now intros _|]. intros _. left. split; discriminate.
      + match goal with |- sized ?x /\ _ => assert (E : coeffs x = coeffs s /\ cstride x = cstride s) end.
        { destruct (c_kdt c) as [kdt|]; [|now split]. destruct (given (c_T c)); [|now split]. cbn [update_kernel_data]. destruct (c_T c); now split. }
        destruct E as [A B]. unfold sized. rewrite A, B. split; [exact HS|]. split; [intros [[]|X]; exact X|now right].
      + destruct (c_mu c) as [mu|]; cbn [snd]; [|split; [exact HS|]; split; [intros [[E _]|E]; [now contradict E|exact E]|now right]].
        destruct (c_lambda c) as [lm|]; cbn [snd]; [|split; [exact HS|]; split; [intros [(_ & E & _)|E]; [now contradict E|exact E]|now right]].
        destruct (c_alpha c) as [al|]; cbn [snd]; [|split; [exact HS|]; split; [intros [(_ & _ & E)|E]; [now contradict E|exact E]|now right]].
        destruct (generate_sized mu lm (Some al) ga th s (proj1 HS)) as [G1 G2]. cbv zeta. destruct (given (c_u c)); cbn [snd].
        * destruct (update_sized c ThermoElasticity _ G1) as [U1 U2]. split; [exact U1|]. rewrite U2. split; [now intros _|]. intros _. left. repeat split; discriminate.
        * split; [exact G1|]. split; [now intros _|]. intros _. left. repeat split; discriminate.
      + cbn [snd]. split; [exact HS|]. split; [intros [[]|X]; exact X|now right].
    - destruct (update_sized c pt s HS) as [U1 U2]. split; [exact U1|]. rewrite U2. cbn [makes_data]. split; [intros [[]|X]; exact X|now right].
  Qed.

  (** [MeshTie.coeffs(pair)] after any history: one row of the stride's length per facet, once
      data for (thermo-)elasticity have been made; before that the binding divides by zero, also
      if only data for the heat equation were made. *)
  Theorem C113_python_coeffs :
    forall (calls : list tie_call) (pair : nat), (pair < num_pairs)%nat ->
      (Exists makes_data calls -> exists data, py_coeffs (run calls) pair = Some ((num_facets pair, cstride (run calls)), data) /\ length data = (num_facets pair * cstride (run calls))%nat) /\
      (~ Exists makes_data calls -> py_coeffs (run calls) pair = None).
  Proof using.
    intros calls pair Hp.
    assert (A : sized (run calls) /\ (Exists makes_data calls <-> (0 < cstride (run calls))%nat)).
    { unfold run_tie. induction calls as [|k calls IH] using rev_ind.
      - cbn [fold_left]. split; [|split; [intros E; inversion E|cbn; lia]]. unfold sized, tie_init. cbn [coeffs cstride]. split; [apply repeat_length|]. intros i Hi. now rewrite nth_repeat.
      - rewrite fold_left_app. cbn [fold_left]. destruct IH as [I1 I2]. destruct (step_sized _ k I1) as [S1 S2]. split; [exact S1|]. rewrite <- S2, <- I2, Exists_app. split.
        + intros [E|E]; [now right|]. inversion E as [? ? E'|? ? E']; subst; [now left|inversion E'].
        + intros [E|E]; [right; now constructor|now left]. }
    destruct A as [[L H] A]. unfold py_coeffs. destruct (Nat.eqb_spec (cstride (run calls)) 0) as [Z|Z]; split; intros E.
    - apply A in E. lia.
    - reflexivity.
    - eexists. rewrite H by exact Hp. split; [rewrite Nat.mul_comm, Nat.div_mul by exact Z; reflexivity|]. rewrite H by exact Hp. lia.
    - exfalso. apply E, A. lia.
  Qed.
End TieArrays.
Print Assumptions C113_python_coeffs.

(** The packing functions hand out one row per facet, unless the stride is zero. *)
Theorem C113_python_packed :
  forall (data : list R) (rows stride : nat), length data = (rows * stride)%nat ->
    py_packed (data, stride) = ((if stride =? 0 then 0 else rows, stride)%nat, data).
Proof. intros data rows stride E. unfold py_packed. cbn [fst snd]. destruct (Nat.eqb_spec stride 0) as [Z|Z]; [reflexivity|]. now rewrite E, Nat.div_mul by exact Z. Qed.
Print Assumptions C113_python_packed.

(** ** Non-trivial instances *)
(** Piecewise linear vectors on triangles, the barycentric coordinates as basis. *)
Definition bary (d : nat) (X : nat -> R) (j : nat) : R :=
  match d, j with
  | 0%nat, 0%nat => 1 - X 0%nat - X 1%nat | 0%nat, 1%nat => X 0%nat | 0%nat, 2%nat => X 1%nat
  | 1%nat, 0%nat => -1 | 1%nat, 1%nat => 1 | 2%nat, 0%nat => -1 | 2%nat, 2%nat => 1 | _, _ => 0
  end.
Definition linear_space (cell : mesh_cell) (bs value_size : nat) : function_space := {|
  fs_cell := cell; fs_gdim := 2; fs_bs := bs; fs_value_size := value_size; fs_transformations := false;
  fs_ndofs := 3; fs_dim := 3; fs_components := 1; fs_tabulate := fun d X j _ => bary d X j; fs_affine := true; fs_nodes := 3; fs_geometry := bary;
  fs_ref_jacobians := fun _ _ _ => 0; fs_ref_normals := fun _ _ => 0; fs_inverse := fun m => m; fs_determinant := fun _ => 1 |}.
(** Midpoint and end point rules on the three edges: facet 1 has two points. *)
Definition edge_weights (f : nat) : list R := if (f =? 1)%nat then [/2; /2] else [1].
Definition edge_phi (f q v : nat) : R := if (f =? 1)%nat then (if (q =? v)%nat then 1 else 0) else /2.
Definition corner (v c : nat) : R := match v, c with 1%nat, 0%nat => 1 | 2%nat, 1%nat => 1 | _, _ => 0 end.
Definition edge_coords (f v c : nat) : R := corner (match f, v with 0, 0 => 1 | 0, _ => 2 | 1, 0 => 0 | 1, _ => 2 | _, 0 => 0 | _, _ => 1 end)%nat c.
Definition edge_rule : qrule := qrule_facets 2 3 edge_weights (fun _ => 2%nat) edge_phi edge_coords.
Example C113_tables_case :
  exists kd, make_kernel_data (linear_space TriangleCell 2 2) edge_rule [0%nat] = Made kd /\ reference_functions (linear_space TriangleCell 2 2) /\
    num_points kd 1 = 2%nat /\ weight kd 1 1 = /2 /\ kd_phi kd (kd_qp_offsets kd 1 + 1) 2 = 1 /\ kd_phi kd (kd_qp_offsets kd 2 + 0) 1 = /2 /\ kd_dphi kd 1 (kd_qp_offsets kd 1 + 1) 0 = -1.
Proof.
  destruct (proj2 (C113_accepted_exact (linear_space TriangleCell 2 2) edge_rule [0%nat])) as [kd E].
  { cbn. split; [intros [X|[X|[X|[]]]]; discriminate|]. split; [reflexivity|lia]. }
  assert (HR : reference_functions (linear_space TriangleCell 2 2)).
  { intros X X' H. assert (H0 := H 0%nat ltac:(cbn; lia)). assert (H1 := H 1%nat ltac:(cbn; lia)). cbn [linear_space fs_tabulate fs_geometry].
    assert (K : forall d j, bary d X j = bary d X' j) by (intros [|[|[|d]]] [|[|[|j]]]; cbn [bary]; try reflexivity; congruence). split; intros; apply K. }
  exists kd. destruct (C113_tables (linear_space TriangleCell 2 2) 3 edge_weights (fun _ => 2%nat) edge_phi edge_coords [0%nat] kd E HR ltac:(cbn; lia)) as (_ & _ & _ & _ & _ & _ & _ & T).
  destruct (T 1%nat 1%nat ltac:(lia) ltac:(cbn; lia)) as (A1 & A2 & A3 & A4 & _). destruct (T 2%nat 0%nat ltac:(lia) ltac:(cbn; lia)) as (_ & _ & B3 & _).
  split; [exact E|]. split; [exact HR|]. split; [exact A1|]. split; [exact A2|]. cbn [linear_space fs_dim fs_tabulate fs_cell cell_dim] in *.
  rewrite (A3 2%nat) by lia. rewrite (B3 1%nat) by lia. rewrite (A4 1%nat 0%nat) by lia.
  cbn [bary rsum]. unfold edge_phi, edge_coords, corner. cbn [Nat.eqb]. repeat split; lra.
Qed.
(** The refusals, in the order of the checks. *)
Example C113_refusals :
  make_kernel_data (linear_space PrismCell 2 4) edge_rule [] = Refused UnsupportedCell /\ make_kernel_data (linear_space TriangleCell 2 4) edge_rule [] = Refused ValueSize /\
  make_kernel_data (linear_space TriangleCell 2 1) edge_rule [] = Refused ValueSize /\ distance_map RayTracing PyramidCell 3 = Refused UnsupportedCell /\ distance_map ClosestPoint PointCell 2 = Refused InvalidTdim /\
  distance_map RayTracing TriangleCell 3 = Made (RayTracing, 2, 3)%nat.
Proof. repeat split. Qed.
(** One pair with two facets: heat data only, then elasticity. *)
Definition toy_pack (i : nat) (f : nat) : list R * nat := ([1; 2], 1%nat).
Definition toy_test (b : bool) (i : nat) : list R * nat := ([1; 2], 1%nat).
Definition toy_tie := run_tie (F:=nat) (fun _ => [1; 2]) toy_pack toy_pack toy_pack toy_pack toy_pack toy_test toy_test 1 (fun _ => 2%nat) 1 1 1 1.
Definition heat_call : @tie_call nat := TGenerate Poisson {| c_mu := None; c_lambda := None; c_alpha := None; c_kdt := Some 0%nat; c_u := None; c_T := None |} 1 1.
Definition elastic_call : @tie_call nat := TGenerate Elasticity {| c_mu := Some 0%nat; c_lambda := Some 1%nat; c_alpha := None; c_kdt := None; c_u := None; c_T := None |} 1 1.
Example C113_python_coeffs_case :
  py_coeffs (toy_tie [heat_call]) 0 = None /\ exists data, py_coeffs (toy_tie [heat_call; elastic_call]) 0 = Some ((2, cstride (toy_tie [heat_call; elastic_call]))%nat, data) /\ (0 < length data)%nat.
Proof.
  split.
  - apply (C113_python_coeffs (fun _ => [1; 2]) toy_pack toy_pack toy_pack toy_pack toy_pack toy_test toy_test 1 (fun _ => 2%nat) 1 1 1 1); [lia|]. intros E. inversion E as [? ? X|? ? X]; subst; [exact X|inversion X].
  - destruct (C113_python_coeffs (fun _ => [1; 2]) toy_pack toy_pack toy_pack toy_pack toy_pack toy_test toy_test 1 (fun _ => 2%nat) 1 1 1 1 [heat_call; elastic_call] 0 ltac:(lia)) as [H _].
    destruct H as (data & E & L). { right. left. cbn. split; discriminate. }
    exists data. split; [exact E|]. rewrite L. cbn. lia.
Qed.
