(** Lemmas about the geometry functions behind contact detection. *)
From Coq Require Import List Arith ZArith Lia Bool Reals Lra.
Import ListNotations.
From Verif Require Import Prelude PreludeLemmas RSum CropModel SubMeshModel SubMeshProofs EntitiesModel EntitiesProofs RayModel KernelModel DistanceModel GapSpec.
Local Open Scope R_scope.

(** ** One entry of an array written in loops *)
Section Sets.
  Context {A : Type} (d : A).
  (** The step sets entry [k] to the value, or leaves it when there is none. *)
  Definition sets (k : nat) (a a' : list A) (o : option A) : Prop :=
    length a' = length a /\ ((k < length a)%nat -> nth k a' d = match o with Some v => v | None => nth k a d end).
  Lemma sets_refl k a : sets k a a None.
  Proof. split; auto. Qed.
  Lemma sets_upd k a v : sets k a (upd a k v) (Some v).
  Proof. split; [apply upd_length|]. intros H. now apply nth_upd_same. Qed.
  Lemma sets_upd_other k k' a v : k' <> k -> sets k a (upd a k' v) None.
  Proof. split; [apply upd_length|]. intros _. now apply nth_upd_other. Qed.
  Lemma sets_none k n (body : nat -> list A -> list A) a : (forall i s, (i < n)%nat -> sets k s (body i s) None) -> sets k a (for_loop n body a) None.
  Proof.
    intros H. induction n as [|n IH]; [apply sets_refl|]. rewrite for_loop_S. destruct IH as [L E]; [intros; apply H; lia|].
    destruct (H n (for_loop n body a) ltac:(lia)) as [L' E']. split; [congruence|]. intros Hk. rewrite E' by (rewrite L; auto). now apply E.
  Qed.
  Lemma sets_loop k n i0 (body : nat -> list A -> list A) a o : (i0 < n)%nat ->
    (forall i s, (i < n)%nat -> i <> i0 -> sets k s (body i s) None) -> (forall s, sets k s (body i0 s) o) -> sets k a (for_loop n body a) o.
  Proof.
    intros Hi Ho H0. induction n as [|n IH]; [lia|]. rewrite for_loop_S. destruct (Nat.eq_dec i0 n) as [->|N].
    - destruct (sets_none k n body a) as [L E]; [intros; apply Ho; lia|]. destruct (H0 (for_loop n body a)) as [L' E']. split; [congruence|].
      intros Hk. rewrite E' by (rewrite L; auto). destruct o; auto.
    - destruct IH as [L E]; [lia | intros; apply Ho; lia |]. destruct (Ho n (for_loop n body a) ltac:(lia) ltac:(lia)) as [L' E']. split; [congruence|].
      intros Hk. rewrite E' by (rewrite L; auto). now apply E.
  Qed.
End Sets.

Lemma loop_length {A} n (body : nat -> list A -> list A) a : (forall i s, (i < n)%nat -> length (body i s) = length s) -> length (for_loop n body a) = length a.
Proof. intros H. induction n as [|n IH]; [reflexivity|]. rewrite for_loop_S, H, IH; auto. Qed.
Ltac loop_length := repeat (apply loop_length; intros); repeat match goal with |- length (if ?b then _ else _) = _ => destruct b end; auto; repeat (apply loop_length; intros); rewrite ?upd_length; auto.

(** Rows of [n] entries: position (i, j) determines both. *)
Lemma row_inj n i j i' j' : (j < n)%nat -> (j' < n)%nat -> (i * n + j = i' * n + j')%nat -> i = i' /\ j = j'.
Proof.
  intros Hj Hj' E. assert (i = i').
  { assert (D : ((i * n + j) / n = i)%nat) by (rewrite Nat.add_comm, Nat.div_add, Nat.div_small by lia; lia).
    assert (D' : ((i' * n + j') / n = i')%nat) by (rewrite Nat.add_comm, Nat.div_add, Nat.div_small by lia; lia). congruence. }
  subst. split; lia.
Qed.
Lemma row_lt n rows i j : (i < rows)%nat -> (j < n)%nat -> (i * n + j < rows * n)%nat.
Proof. intros. nia. Qed.

(** Blocks of [g] entries for points (i, q). *)
Section Blocks.
  Context {A : Type} (d : A) (nq g : nat).
  Lemma sets_block (pos : nat -> nat -> nat -> nat) (v : nat -> A) i q i' q' k a :
    (forall i q k, pos i q k = (i * nq + q) * g + k)%nat -> (q < nq)%nat -> (q' < nq)%nat -> (k < g)%nat ->
    sets d (pos i q k) a (for_loop g (fun k a => upd a (pos i' q' k) (v k)) a) (if (i' =? i)%nat && (q' =? q)%nat then Some (v k) else None).
  Proof.
    intros Hpos Hq Hq' Hk. rewrite Hpos. destruct (Nat.eqb_spec i' i) as [->|Ni]; [destruct (Nat.eqb_spec q' q) as [->|Nq]|]; cbn [andb].
    - apply (sets_loop d _ g k); auto.
      + intros k' s Hk' N. rewrite Hpos. apply sets_upd_other. lia.
      + intros s. rewrite Hpos. apply sets_upd.
    - apply sets_none. intros k' s Hk'. rewrite Hpos. apply sets_upd_other. intros E. apply row_inj in E; auto. destruct E as [E _]. apply row_inj in E; auto. lia.
    - apply sets_none. intros k' s Hk'. rewrite Hpos. apply sets_upd_other. intros E. apply row_inj in E; auto. destruct E as [E _]. apply row_inj in E; auto. lia.
  Qed.
  Lemma sets_points (pos : nat -> nat -> nat -> nat) (found : nat -> nat -> bool) (v : nat -> nat -> nat -> A) nf i q k a :
    (forall i q k, pos i q k = (i * nq + q) * g + k)%nat -> (i < nf)%nat -> (q < nq)%nat -> (k < g)%nat ->
    sets d (pos i q k) a
      (for_loop nf (fun i a => for_loop nq (fun q a => if found i q then for_loop g (fun k a => upd a (pos i q k) (v i q k)) a else a) a) a)
      (if found i q then Some (v i q k) else None).
  Proof.
    intros Hpos Hi Hq Hk. apply (sets_loop d _ nf i); auto.
    - intros i' s Hi' N. apply sets_none. intros q' s' Hq'. destruct (found i' q'); [|apply sets_refl].
      pose proof (sets_block pos (v i' q') i q i' q' k s' Hpos Hq Hq' Hk) as B. destruct (Nat.eqb_spec i' i); [lia|exact B].
    - intros s. apply (sets_loop d _ nq q); auto.
      + intros q' s' Hq' N. destruct (found i q'); [|apply sets_refl].
        pose proof (sets_block pos (v i q') i q i q' k s' Hpos Hq Hq' Hk) as B. destruct (Nat.eqb_spec q' q); [lia|]. now rewrite andb_false_r in B.
      + intros s'. destruct (found i q) eqn:Ef; [|apply sets_refl].
        pose proof (sets_block pos (v i q) i q i q k s' Hpos Hq Hq Hk) as B. now rewrite !Nat.eqb_refl in B.
  Qed.
  Lemma points_lt nf i q k : (i < nf)%nat -> (q < nq)%nat -> (k < g)%nat -> ((i * nq + q) * g + k < nf * nq * g)%nat.
  Proof. intros. apply row_lt; auto. apply row_lt; auto. Qed.
End Blocks.

(** ** Pairs *)
Lemma firstn_flat2 n l : firstn (2 * n) (flat2 l) = flat2 (firstn n l).
Proof.
  revert l. induction n as [|n IH]; intros l; [reflexivity|]. destruct l as [|p l]; [now destruct n|].
  replace (2 * S n)%nat with (S (S (2 * n))) by lia. cbn [flat2 flat_map app firstn]. do 2 f_equal. apply IH.
Qed.
Lemma find_index_nodup l f : NoDup l -> (f < length l)%nat -> find_index (nth f l 0%nat) l = f.
Proof.
  intros H Hf. destruct (find_index_spec (nth f l 0%nat) l) as [L E]; [apply nth_In; auto|]. apply (proj1 (NoDup_nth l 0%nat) H); auto.
Qed.

(** ** Geometry map *)
Section Map.
  Context (m : mesh_data).
  Lemma push_forward_map cell X k : push_forward_point m (m_phi m X) (cell_coordinates m cell) k = geometry_map m cell X k.
  Proof. unfold push_forward_point, geometry_map. rewrite for_loop_rsum, Rplus_0_l. reflexivity. Qed.
  Lemma jacobian_map cell X i j : cell_jacobian m X (cell_coordinates m cell) i j = geometry_jacobian m cell X i j.
  Proof. unfold cell_jacobian, geometry_jacobian. rewrite for_loop_rsum, Rplus_0_l. apply rsum_ext. intros. unfold cell_coordinates, node. ring. Qed.

  (** The left inverse of a nonsingular derivative. *)
  Lemma inverse_left J : dimensions m -> nonsingular m J -> forall i j, (i < m_tdim m)%nat -> (j < m_tdim m)%nat ->
    rsum (m_gdim m) (fun k => jacobian_inverse (m_gdim m) (m_tdim m) J i k * J k j) = if (i =? j)%nat then 1 else 0.
  Proof.
    unfold nonsingular, jacobian_inverse. intros [[Et Eg]|[[Et Eg]|[Et Eg]]] H i j Hi Hj; rewrite Et, Eg in *; cbn [Nat.eqb] in *.
    - assert (Ei : (i = 0 \/ i = 1)%nat) by lia. assert (Ej : (j = 0 \/ j = 1)%nat) by lia. unfold inv, det in *. cbn [Nat.eqb rsum] in *.
      destruct Ei as [-> | ->], Ej as [-> | ->]; cbn [Nat.eqb]; field; auto.
    - assert (Ei : (i = 0 \/ i = 1 \/ i = 2)%nat) by lia. assert (Ej : (j = 0 \/ j = 1 \/ j = 2)%nat) by lia. unfold inv3. set (r := 1 / det3 J). cbn [rsum].
      assert (E1 : r * det3 J = 1) by (unfold r; field; auto). clearbody r. unfold det3 in E1.
      destruct Ei as [-> | [-> | ->]], Ej as [-> | [-> | ->]]; cbn [Nat.eqb]; first [ring | rewrite <- E1; ring].
    - unfold pinv32. set (G := gram 3 J) in *.
      rewrite (rsum_ext 3 _ (fun k => rsum 2 (fun l => inv 2 G i l * (J k l * J k j)))) by (intros; rewrite <- rsum_scal_r; apply rsum_ext; intros; ring).
      rewrite rsum_swap. rewrite (rsum_ext 2 _ (fun l => inv 2 G i l * G l j)) by (intros; rewrite rsum_scal; reflexivity).
      assert (Ei : (i = 0 \/ i = 1)%nat) by lia. assert (Ej : (j = 0 \/ j = 1)%nat) by lia. clearbody G. unfold inv, det in *. cbn [Nat.eqb rsum] in *.
      destruct Ei as [-> | ->], Ej as [-> | ->]; cbn [Nat.eqb]; field; auto.
  Qed.
  Lemma inverse_ext J J' : dimensions m -> (forall i j, (i < m_gdim m)%nat -> (j < m_tdim m)%nat -> J i j = J' i j) ->
    forall i j, (i < m_tdim m)%nat -> (j < m_gdim m)%nat -> jacobian_inverse (m_gdim m) (m_tdim m) J i j = jacobian_inverse (m_gdim m) (m_tdim m) J' i j.
  Proof.
    unfold jacobian_inverse. intros [[Et Eg]|[[Et Eg]|[Et Eg]]] H i j Hi Hj; rewrite Et, Eg in *; cbn [Nat.eqb].
    - unfold inv, det. cbn [Nat.eqb]. rewrite !H by lia. reflexivity.
    - unfold inv3, det3. rewrite !H by lia. reflexivity.
    - unfold pinv32. apply rsum_ext. intros k Hk. rewrite (H j k) by lia. f_equal. unfold inv, det, gram. cbn [Nat.eqb]. 
      assert (E : forall a b, (a < 2)%nat -> (b < 2)%nat -> rsum 3 (fun l => J l a * J l b) = rsum 3 (fun l => J' l a * J' l b)) by (intros; apply rsum_ext; intros; rewrite !H by lia; auto).
      rewrite !E by lia. reflexivity.
  Qed.
  (** Right inverse when the matrix is square. *)
  Lemma inverse_right J : dimensions m -> m_gdim m = m_tdim m -> nonsingular m J -> forall i j, (i < m_gdim m)%nat -> (j < m_gdim m)%nat ->
    rsum (m_tdim m) (fun k => J i k * jacobian_inverse (m_gdim m) (m_tdim m) J k j) = if (i =? j)%nat then 1 else 0.
  Proof.
    unfold nonsingular, jacobian_inverse. intros [[Et Eg]|[[Et Eg]|[Et Eg]]] Sq H i j Hi Hj; rewrite Et, Eg in *; cbn [Nat.eqb] in *; [| |discriminate].
    - assert (Ei : (i = 0 \/ i = 1)%nat) by lia. assert (Ej : (j = 0 \/ j = 1)%nat) by lia. unfold inv, det in *. cbn [Nat.eqb rsum] in *.
      destruct Ei as [-> | ->], Ej as [-> | ->]; cbn [Nat.eqb]; field; auto.
    - assert (Ei : (i = 0 \/ i = 1 \/ i = 2)%nat) by lia. assert (Ej : (j = 0 \/ j = 1 \/ j = 2)%nat) by lia. unfold inv3. set (r := 1 / det3 J). cbn [rsum].
      assert (E1 : r * det3 J = 1) by (unfold r; field; auto). clearbody r. unfold det3 in E1.
      destruct Ei as [-> | [-> | ->]], Ej as [-> | [-> | ->]]; cbn [Nat.eqb]; first [ring | rewrite <- E1; ring].
  Qed.
End Map.

(** ** Physical points *)
Section Physical.
  Context (m : mesh_data) (point : nat -> list R) (offsets : nat -> nat).
  Notation nq := (offsets 1 - offsets 0)%nat.
  Lemma physical_points L buf : length buf = (length L * nq * m_gdim m)%nat ->
    let qp := compute_physical_points m point offsets (flat2 L) buf in
    length qp = length buf /\
    forall i q k, (i < length L)%nat -> (q < nq)%nat -> (k < m_gdim m)%nat ->
      nth ((i * nq + q) * m_gdim m + k)%nat qp 0 = geometry_map m (fst (nth i L (0, 0)%nat)) (point (offsets (snd (nth i L (0, 0)%nat)) + q)%nat) k.
  Proof.
    intros Hb qp. unfold qp, compute_physical_points. rewrite flat2_half.
    pose proof (fun i q k Hi Hq Hk => sets_points 0 nq (m_gdim m) (fun i q k => (i * nq + q) * m_gdim m + k)%nat (fun _ _ => true)
      (fun i q k => push_forward_point m (m_phi m (point (offsets (nth (2 * i + 1) (flat2 L) 0%nat) + q)%nat)) (cell_coordinates m (nth (2 * i) (flat2 L) 0%nat)) k)
      (length L) i q k buf ltac:(reflexivity) Hi Hq Hk) as S. cbv beta iota in S. split.
    - loop_length.
    - intros i q k Hi Hq Hk. destruct (S i q k Hi Hq Hk) as [_ E]. rewrite E by (rewrite Hb; apply points_lt; auto).
      rewrite (flat2_fst L i (0, 0)%nat), (flat2_snd L i (0, 0)%nat) by auto. apply push_forward_map.
  Qed.
End Physical.

(** ** Straight triangles and tetrahedra *)
Section Linear.
  Context (m : mesh_data) (LS : linear_simplices m).
  Notation tdim := (m_tdim m).
  Notation gdim := (m_gdim m).
  Lemma linear_map cell X k : geometry_map m cell X k = node m cell 0 k + rsum tdim (fun j => nth j X 0 * (node m cell (S j) k - node m cell 0 k)).
  Proof.
    unfold geometry_map. rewrite (ls_nodes _ LS), rsum_S_l, (ls_phi_0 _ LS).
    rewrite (rsum_ext tdim (fun j => m_phi m X (S j) * node m cell (S j) k) (fun j => nth j X 0 * node m cell (S j) k)) by (intros; rewrite (ls_phi_S _ LS) by auto; auto).
    rewrite (rsum_ext tdim (fun j => nth j X 0 * (node m cell (S j) k - node m cell 0 k)) (fun j => nth j X 0 * node m cell (S j) k - nth j X 0 * node m cell 0 k)) by (intros; ring).
    rewrite rsum_minus, rsum_scal_r. ring.
  Qed.
  Lemma linear_jacobian cell X i d : (d < tdim)%nat -> geometry_jacobian m cell X i d = node m cell (S d) i - node m cell 0 i.
  Proof.
    intros Hd. unfold geometry_jacobian. rewrite (ls_nodes _ LS), rsum_S_l, (ls_dphi_0 _ LS) by auto.
    rewrite (rsum_ext tdim _ (fun j => (if (j =? d)%nat then 1 else 0) * node m cell (S j) i)) by (intros; rewrite (ls_dphi_S _ LS) by auto; auto).
    rewrite (rsum_delta tdim d (fun j => node m cell (S j) i)) by auto. ring.
  Qed.

  (** A point of the hull of a facet is the image of a reference point. *)
  Lemma hull_image cell f y : (forall j, In j (m_closure m f) -> (j < m_nodes m)%nat) -> in_hull (facet_points m cell f) y -> (gdim <= 3)%nat ->
    exists Y, length Y = tdim /\ forall k, (k < gdim)%nat -> nth k y 0 = geometry_map m cell Y k.
  Proof.
    intros Hn (w & _ & Hw & Hy) G3. unfold facet_points in *. rewrite map_length in *. set (cl := m_closure m f) in *.
    exists (map (fun j => rsum (length cl) (fun l => if (nth l cl 0%nat =? S j)%nat then w l else 0)) (seq 0 tdim)). split; [now rewrite map_length, seq_length|].
    intros k Hk. rewrite (Hy k) by lia. rewrite linear_map.
    rewrite (rsum_ext tdim _ (fun j => rsum (length cl) (fun l => (if (nth l cl 0 =? S j)%nat then w l else 0) * (node m cell (S j) k - node m cell 0 k)))).
    2:{ intros j Hj. rewrite (nth_map_lt _ _ j 0 0%nat) by (rewrite seq_length; auto). rewrite seq_nth by auto. cbn [Nat.add]. now rewrite rsum_scal_r. }
    rewrite rsum_swap.
    rewrite (rsum_ext (length cl) (fun l => rsum tdim _) (fun l => w l * node m cell (nth l cl 0%nat) k - w l * node m cell 0 k)).
    - rewrite rsum_minus, rsum_scal_r, Hw. rewrite (rsum_ext (length cl) _ (fun l => w l * node m cell (nth l cl 0%nat) k)); [ring|].
      intros l Hl. rewrite (nth_map_lt _ cl l [] 0%nat) by auto. rewrite (nth_map_lt _ _ k 0 0%nat) by (rewrite seq_length; lia). rewrite seq_nth by lia. reflexivity.
    - intros l Hl. assert (Hc : (nth l cl 0 < S tdim)%nat) by (rewrite <- (ls_nodes _ LS); apply Hn, nth_In; auto).
      destruct (nth l cl 0%nat) as [|c].
      + rewrite (rsum_zero tdim); [ring|]. intros j _. cbn [Nat.eqb]. ring.
      + rewrite (rsum_single tdim c); [| lia |].
        * rewrite Nat.eqb_refl. ring.
        * intros j _ N. destruct (Nat.eqb_spec (S c) (S j)); [lia|ring].
  Qed.
End Linear.

(** ** Pull-back *)
Section PullBack.
  Context (m : mesh_data) (LS : linear_simplices m) (cell : nat).
  Notation tdim := (m_tdim m).
  Notation gdim := (m_gdim m).
  Definition origin : list R := repeat 0 tdim.
  Context (NS : nonsingular m (geometry_jacobian m cell origin)).
  Lemma pull_back_point x Y : length Y = tdim -> (forall k, (k < gdim)%nat -> nth k x 0 = geometry_map m cell Y k) ->
    map (fun i => for_loop gdim (fun j acc => acc + jacobian_inverse gdim tdim (cell_jacobian m origin (cell_coordinates m cell)) i j * (nth j x 0 - cell_coordinates m cell 0 j)) 0) (seq 0 tdim) = Y.
  Proof.
    intros HY Hx. apply (nth_ext _ _ 0 0); [now rewrite map_length, seq_length|]. intros i Hi. rewrite map_length, seq_length in Hi.
    rewrite (nth_map_lt _ _ i 0 0%nat) by (rewrite seq_length; auto). rewrite seq_nth by auto. cbn [Nat.add]. rewrite for_loop_rsum, Rplus_0_l.
    set (J := geometry_jacobian m cell origin) in *.
    rewrite (rsum_ext gdim _ (fun j => rsum tdim (fun l => jacobian_inverse gdim tdim J i j * J j l * nth l Y 0))).
    2:{ intros j Hj. rewrite (inverse_ext m _ J (ls_dims _ LS)) by (auto; intros; apply jacobian_map).
        rewrite Hx, linear_map by auto. replace (node m cell 0 j + _ - _) with (rsum tdim (fun j0 => nth j0 Y 0 * (node m cell (S j0) j - node m cell 0 j))) by (unfold cell_coordinates, node; ring).
        rewrite <- rsum_scal. apply rsum_ext. intros l Hl. unfold J. rewrite (linear_jacobian m LS) by auto. ring. }
    rewrite rsum_swap. rewrite (rsum_ext tdim _ (fun l => (if (l =? i)%nat then 1 else 0) * nth l Y 0)).
    - now apply (rsum_delta tdim i (fun l => nth l Y 0)).
    - intros l Hl. rewrite rsum_scal_r. rewrite (inverse_left m J (ls_dims _ LS) NS i l) by auto. now rewrite Nat.eqb_sym.
  Qed.
End PullBack.

(** ** Projection onto the candidate facets *)
Lemma facet_indices_map m C : facet_indices_from_pair m (flat2 C) = map (fun p => facet_index m (fst p) (snd p)) C.
Proof.
  unfold facet_indices_from_pair. rewrite flat2_half.
  assert (L : length (for_loop (length C) (fun i facets => upd facets i (nth (nth (2 * i + 1) (flat2 C) 0) (m_c_to_f m (nth (2 * i) (flat2 C) 0)) 0))%nat (repeat 0%nat (length C))) = length C)
    by (rewrite loop_length by (intros; apply upd_length); apply repeat_length).
  apply (nth_ext _ _ 0%nat 0%nat); [now rewrite L, map_length|]. intros i Hi. rewrite L in Hi.
  rewrite (nth_map_lt _ C i 0%nat (0, 0)%nat) by auto.
  destruct (sets_loop 0%nat i (length C) i (fun i facets => upd facets i (nth (nth (2 * i + 1) (flat2 C) 0) (m_c_to_f m (nth (2 * i) (flat2 C) 0)) 0))%nat (repeat 0%nat (length C))
    (Some (facet_index m (fst (nth i C (0, 0)%nat)) (snd (nth i C (0, 0)%nat))))) as [_ E]; auto.
  - intros j s Hj N. now apply sets_upd_other.
  - intros s. rewrite (flat2_fst C i (0, 0)%nat), (flat2_snd C i (0, 0)%nat) by auto. apply sets_upd.
  - rewrite E by (rewrite repeat_length; auto). reflexivity.
Qed.

Section GeometryDofs.
  Context (m : mesh_data) (n : nat) (entities : list Z).
  Lemma geometry_dofs_links i l : (i < length entities)%nat -> (l < n)%nat -> (0 <= nth i entities 0)%Z ->
    nth l (links (entities_to_geometry_dofs m n entities) i) 0%Z =
    (let f := Z.to_nat (nth i entities 0%Z) in let cell := hd 0%nat (m_f_to_c m f) in
     Z.of_nat (nth (nth l (m_closure m (find_index f (m_c_to_f m cell))) 0) (m_x_dofmap m cell) 0)%nat).
  Proof.
    intros Hi Hl Hp. unfold links, entities_to_geometry_dofs. cbn [adj_data adj_off].
    set (off := for_loop (length entities) _ (repeat 0%nat (length entities + 1))).
    assert (O : forall i, (i <= length entities)%nat -> nth i off 0%nat = (i * n)%nat).
    { intros j Hj. unfold off. destruct j as [|j].
      - destruct (sets_none 0%nat 0 (length entities) (fun i offsets => upd offsets (i + 1)%nat ((i + 1) * n)%nat) (repeat 0%nat (length entities + 1))) as [_ E].
        + intros k s Hk. apply sets_upd_other. lia.
        + rewrite E by (rewrite repeat_length; lia). now rewrite nth_repeat_0.
      - destruct (sets_loop 0%nat (S j) (length entities) j (fun i offsets => upd offsets (i + 1)%nat ((i + 1) * n)%nat) (repeat 0%nat (length entities + 1)) (Some (S j * n)%nat)) as [_ E]; auto.
        + intros k s Hk N. apply sets_upd_other. lia.
        + intros s. replace (j + 1)%nat with (S j) by lia. apply sets_upd.
        + rewrite E by (rewrite repeat_length; lia). reflexivity. }
    rewrite !O by lia. replace (S i * n - i * n)%nat with n by lia. rewrite nth_slice by auto.
    match goal with |- nth _ (for_loop _ ?body ?a) _ = ?v => destruct (sets_loop 0%Z (i * n + l) (length entities) i body a (Some v)) as [_ E] end; auto.
    - intros j s Hj N. destruct (nth j entities 0 <? 0)%Z; [apply sets_refl|]. apply sets_none. intros k s' Hk. apply sets_upd_other. intros E. apply row_inj in E; auto. lia.
    - intros s. destruct (Z.ltb_spec (nth i entities 0%Z) 0); [lia|]. apply (sets_loop 0%Z _ n l); auto.
      + intros k s' Hk N. apply sets_upd_other. lia.
      + intros s'. apply sets_upd.
    - rewrite E by (rewrite repeat_length, (Nat.mul_comm n); apply row_lt; auto). reflexivity.
  Qed.
End GeometryDofs.

Lemma slice_3 (l : list R) off : (off + 3 <= length l)%nat -> slice l off 3 = map (fun k => nth (off + k) l 0) (seq 0 3).
Proof.
  intros H. apply (nth_ext _ _ 0 0); [now rewrite slice_length, map_length, seq_length|]. intros i Hi. rewrite slice_length in Hi by auto.
  rewrite nth_slice by auto. rewrite (nth_map_lt _ _ i 0 0%nat) by (rewrite seq_length; auto). now rewrite seq_nth.
Qed.

Section Projection.
  Context (m : mesh_data) (closest : list nat -> list R -> nat) (gjk : list (list R) -> list R -> list R) (C : list (nat * nat)) (hulls : nat -> list (list R)).
  Context (LS : linear_simplices m) (FT : facet_tables m).
  Context (SF : forall p, In p C -> surface_facet m (fst p) (snd p)).
  Context (NS : forall p, In p C -> nonsingular m (geometry_jacobian m (fst p) (repeat 0 (m_tdim m)))).
  Context (Hhulls : forall p, In p C -> hulls (facet_index m (fst p) (snd p)) = facet_points m (fst p) (snd p)).
  Context (Hgjk : gjk_exact (length (m_closure m 0)) gjk) (Hclosest : closest_exact hulls closest (map (fun p => facet_index m (fst p) (snd p)) C)) (HC : C <> []).
  Notation tdim := (m_tdim m).
  Notation gdim := (m_gdim m).
  Context (points : list R) (N : nat) (HN : length points = (3 * N)%nat).
  Let r := compute_projection_map m closest gjk (flat2 C) points.

  Lemma projection_point i : (i < N)%nat ->
    let pt := slice points (3 * i) 3 in
    exists p y Y, In p C /\ nth i (fst r) 0%Z = Z.of_nat (facet_index m (fst p) (snd p)) /\ in_hull (facet_points m (fst p) (snd p)) y /\
      (forall p' z, In p' C -> in_hull (facet_points m (fst p') (snd p')) z -> distance2 pt y <= distance2 pt z) /\
      slice (snd r) (i * tdim) tdim = Y /\ forall k, (k < gdim)%nat -> geometry_map m (fst p) Y k = nth k y 0.
  Proof.
    intros Hi pt.
    assert (Gd : (gdim <= 3)%nat) by (destruct (ls_dims _ LS) as [[_ G]|[[_ G]|[_ G]]]; rewrite G; lia).
    assert (Hpt : length pt = 3%nat) by (apply slice_length; lia).
    set (F := map (fun p => facet_index m (fst p) (snd p)) C).
    assert (HF : F <> []) by (unfold F; destruct C; [contradiction|discriminate]).
    destruct (Hclosest pt Hpt) as [Hin Hnear]. fold F in Hin, Hnear. set (f := closest F pt) in *.
    apply in_map_iff in Hin. destruct Hin as ((c & l) & Ef & Hp). cbn [fst snd] in Ef. pose proof (SF _ Hp) as S. cbn [fst snd] in S.
    assert (Ecell : hd 0%nat (m_f_to_c m f) = c) by (rewrite <- Ef, (sf_owner _ _ _ S); reflexivity).
    assert (Eloc : find_index f (m_c_to_f m c) = l) by (rewrite <- Ef; apply find_index_nodup; [apply (sf_distinct _ _ _ S) | apply (sf_local _ _ _ S)]).
    set (n := length (m_closure m 0)).
    set (y := map (fun k => nth k pt 0 + nth k (gjk (facet_points m c l) pt) 0) (seq 0 3)).
    assert (FP : length (facet_points m c l) = length (m_closure m 0)) by (unfold facet_points; rewrite map_length; apply (ft_size _ FT)).
    destruct (Hgjk (facet_points m c l) pt FP Hpt) as [Hy Hmin]. fold y in Hy, Hmin.
    destruct (hull_image m LS c l y (fun j => ft_nodes _ FT l j) Hy Gd) as (Y & HY & HYy).
    subst r. unfold compute_projection_map. destruct (flat2 C) as [|h t] eqn:EC.
    { exfalso. apply HC. apply (f_equal (@length _)) in EC. rewrite flat2_length in EC. destruct C; [reflexivity|cbn in EC; lia]. }
    rewrite <- EC. clear h t EC. rewrite facet_indices_map. fold F.
    replace (length points / 3)%nat with N by (rewrite HN, Nat.mul_comm; symmetry; apply Nat.div_mul; lia).
    set (cf := map (fun i => closest F (slice points (3 * i) 3)) (seq 0 N)).
    assert (Lcf : length cf = N) by (unfold cf; now rewrite map_length, seq_length).
    assert (Ecf : nth i cf 0%nat = f) by (unfold cf; rewrite (nth_map_lt _ _ i 0%nat 0%nat) by (rewrite seq_length; auto); rewrite seq_nth by auto; reflexivity).
    assert (EZ : nth i (map Z.of_nat cf) 0%Z = Z.of_nat f) by (rewrite (nth_map_lt _ _ i 0%Z 0%nat) by (rewrite Lcf; auto); now rewrite Ecf).
    cbn [fst snd]. set (geo := entities_to_geometry_dofs m (length (m_closure m 0)) (map Z.of_nat cf)).
    assert (Edofs : map (fun l => slice (m_x m) (3 * Z.to_nat (nth l (links geo i) 0%Z)) 3) (seq 0 n) = facet_points m c l).
    { assert (Ln : length (m_closure m l) = n) by apply (ft_size _ FT).
      apply (nth_ext _ _ [] []); [unfold facet_points; rewrite !map_length, seq_length; auto|]. intros j Hj. rewrite map_length, seq_length in Hj.
      rewrite (nth_map_lt _ _ j [] 0%nat) by (rewrite seq_length; auto). rewrite seq_nth by auto. cbn [Nat.add].
      unfold geo. rewrite geometry_dofs_links; [| rewrite map_length, Lcf; auto | exact Hj | rewrite EZ; lia]. cbv zeta. rewrite EZ, !Nat2Z.id. rewrite Ecell, Eloc.
      unfold facet_points. rewrite (nth_map_lt _ _ j [] 0%nat) by (rewrite Ln; auto). rewrite slice_3; [reflexivity|].
      apply (sf_range _ _ _ S). apply nth_In. rewrite Ln; auto. }
    set (cx := for_loop N _ (repeat 0 (N * 3))).
    assert (Lcx : length cx = (N * 3)%nat) by (unfold cx; rewrite loop_length; [apply repeat_length | intros; apply loop_length; intros; apply upd_length]).
    assert (Ecx : forall k, (k < 3)%nat -> nth (3 * i + k) cx 0 = nth k y 0).
    { intros k Hk. unfold cx.
      match goal with |- nth _ (for_loop _ ?body ?a) _ = _ => destruct (sets_loop 0 (3 * i + k) N i body a (Some (nth k y 0))) as [_ E] end; auto.
      - intros j s Hj NE. apply sets_none. intros k' s' Hk'. apply sets_upd_other. lia.
      - intros s. apply (sets_loop 0 _ 3 k); auto.
        + intros k' s' Hk' NE. apply sets_upd_other. lia.
        + intros s'. fold n. rewrite Edofs. fold pt.
          replace (nth k y 0) with (nth (3 * i + k) points 0 + nth k (gjk (facet_points m c l) pt) 0); [apply sets_upd|].
          unfold y. rewrite (nth_map_lt _ _ k 0 0%nat) by (rewrite seq_length; auto). rewrite seq_nth by auto. cbn [Nat.add]. f_equal. unfold pt. now rewrite nth_slice.
      - rewrite E by (rewrite repeat_length; lia). reflexivity. }
    exists (c, l), y, Y. cbn [fst snd]. split; [auto|]. split; [now rewrite EZ, Ef|]. split; [auto|]. split; [|split].
    - intros (c' & l') z Hp' Hz. cbn [fst snd] in *.
      destruct (Hnear (facet_index m c' l') z) as (y' & Hy' & Hd).
      + apply in_map_iff. exists (c', l'). auto.
      + pose proof (Hhulls _ Hp') as Hh. cbn [fst snd] in Hh. rewrite Hh. exact Hz.
      + fold f in Hy'. pose proof (Hhulls _ Hp) as Hh. cbn [fst snd] in Hh. rewrite <- Ef, Hh in Hy'. eapply Rle_trans; [apply Hmin; exact Hy' | exact Hd].
    - apply (nth_ext _ _ 0 0).
      + rewrite HY, slice_length; auto. rewrite loop_length by (intros; apply loop_length; intros; apply upd_length). rewrite repeat_length. nia.
      + intros k Hk. assert (Hk' : (k < tdim)%nat).
        { unfold slice in Hk. rewrite firstn_length in Hk. lia. }
        rewrite nth_slice by auto.
        match goal with |- nth _ (for_loop _ ?body ?a) _ = _ => destruct (sets_loop 0 (i * tdim + k) N i body a (Some (nth k Y 0))) as [_ E] end; auto.
        * intros j s Hj NE. apply sets_none. intros k1 s' Hk1. apply sets_upd_other. intros E1. apply row_inj in E1; auto. lia.
        * intros s. cbv zeta.
          assert (EX : p_X (hd (mkPulled [] (fun _ _ => 0) (fun _ _ => 0) 0) (pull_back m (cell_coordinates m (hd 0%nat (m_f_to_c m (nth i cf 0%nat)))) [slice cx (3 * i) gdim])) = Y).
          { rewrite Ecf, Ecell. unfold pull_back. rewrite (ls_affine _ LS). cbn [map hd p_X]. apply (pull_back_point m LS c); auto.
            - apply (NS _ Hp).
            - intros k1 Hk1. rewrite nth_slice by auto. rewrite Ecx by lia. apply HYy; auto. }
          rewrite EX. apply (sets_loop 0 _ tdim k); auto.
          -- intros k1 s' Hk1 NE. apply sets_upd_other. lia.
          -- intros s'. apply sets_upd.
        * rewrite E by (rewrite repeat_length; apply row_lt; auto). reflexivity.
    - intros k Hk. symmetry. now apply HYy.
  Qed.
End Projection.
