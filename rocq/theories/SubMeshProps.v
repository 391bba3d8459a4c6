(** Properties C08-C11: submesh maps, function copy and geometry. *)
From Coq Require Import List Arith ZArith Lia Bool Sorted.
Import ListNotations.
From Verif Require Import Prelude PreludeLemmas Scatter SubMeshModel SubMeshProofs.

(** The constructor's cell map for an input of (cell, local facet) pairs on a
    mesh with [num_cells] cells. *)
Definition cell_map (num_cells : nat) (pairs : list (nat * nat)) : adj nat :=
  mesh_to_submesh_cell_map num_cells (submesh_cells (flat2 pairs)).
Definition parent_cells (pairs : list (nat * nat)) : list nat := submesh_cells (flat2 pairs).

(** C08.  [parent_cells] is what create_submesh returns as cell map for sorted
    distinct input cells. *)
Theorem C08_cell_maps_inverse :
  forall (num_cells : nat) (pairs : list (nat * nat)),
    (forall p, In p pairs -> fst p < num_cells) ->
    let to_sub := cell_map num_cells pairs in
    let to_parent := parent_cells pairs in
    (* the submesh holds exactly the cells of the input, in increasing order *)
    StronglySorted lt to_parent /\
    (forall c, In c to_parent <-> exists lf, In (c, lf) pairs) /\
    (* no link for cells outside *)
    (forall c, c < num_cells -> (forall lf, ~ In (c, lf) pairs) -> links to_sub c = []) /\
    (* exactly one for cells inside, and parent -> sub -> parent is the identity *)
    (forall c lf, In (c, lf) pairs ->
       exists s, links to_sub c = [s] /\ s < length to_parent /\ nth s to_parent 0 = c) /\
    (* sub -> parent -> sub is the identity *)
    (forall s, s < length to_parent -> links to_sub (nth s to_parent 0) = [s]).
Proof.
  intros num_cells pairs Hlt to_sub to_parent.
  assert (Hs : StronglySorted lt to_parent) by apply submesh_cells_sorted.
  assert (Hnd : NoDup to_parent) by (eapply StronglySorted_lt_NoDup; [|exact Hs]; apply Nat.lt_irrefl).
  assert (Hin : forall c, In c to_parent <-> exists lf, In (c, lf) pairs) by apply submesh_cells_in.
  assert (Hl : forall c, In c to_parent -> c < num_cells).
  { intros c Hc. apply Hin in Hc. destruct Hc as (lf & Hc). exact (Hlt _ Hc). }
  repeat split; auto.
  - apply Hin.
  - apply Hin.
  - intros c Hc Hn. apply cell_map_out; auto. intros H. apply Hin in H. destruct H as (lf & H). exact (Hn lf H).
  - intros c lf Hp. assert (Hc : In c to_parent) by (apply Hin; eauto).
    apply (In_nth _ _ 0) in Hc. destruct Hc as (s & Hs' & E). exists s. split; auto.
    rewrite <- E. apply cell_map_in; auto.
  - intros s Hs'. apply cell_map_in; auto.
Qed.
Print Assumptions C08_cell_maps_inverse.

Example C08_example :
  let pairs := [(7, 0); (2, 1); (7, 2); (4, 1)] in
  parent_cells pairs = [2; 4; 7] /\ map (links (cell_map 9 pairs)) (seq 0 9) = [[]; []; [0]; []; [1]; []; []; [2]; []].
Proof. vm_compute. auto. Qed.

(** Looking pairs up through get_submesh_tuples gives the submesh cell and the
    same local facet. *)
Theorem C08_submesh_tuples :
  forall (num_cells : nat) (pairs tuples : list (nat * nat)),
    (forall p, In p pairs -> fst p < num_cells) ->
    (forall p, In p tuples -> exists lf, In (fst p, lf) pairs) ->
    exists out : list (nat * nat),
      get_submesh_tuples (cell_map num_cells pairs) (flat2 tuples) = flat2 out /\
      length out = length tuples /\
      forall k, k < length tuples ->
        nth (fst (nth k out (0, 0))) (parent_cells pairs) 0 = fst (nth k tuples (0, 0)) /\
        snd (nth k out (0, 0)) = snd (nth k tuples (0, 0)).
Proof.
  intros num_cells pairs tuples Hlt Hin.
  rewrite get_submesh_tuples_flat. eexists. split; [reflexivity|]. split; [apply map_length|].
  intros k Hk. rewrite (nth_map_lt _ tuples k (0, 0) (0, 0)) by auto. cbn [fst snd]. split; auto.
  destruct (Hin (nth k tuples (0, 0))) as (lf & Hp); [apply nth_In; auto|].
  destruct (C08_cell_maps_inverse num_cells pairs Hlt) as (_ & _ & _ & H & _).
  destruct (H _ _ Hp) as (s & E & _ & Es). rewrite E. cbn. exact Es.
Qed.
Print Assumptions C08_submesh_tuples.

(** ** C09 *)

(** Submesh cell of a parent cell, by position in the sorted cell list. *)
Definition is_sub_cell (pairs : list (nat * nat)) (c s : nat) : Prop :=
  s < length (parent_cells pairs) /\ nth s (parent_cells pairs) 0 = c.

(** The submesh facet a pair lies on, [c_to_f] being the submesh connectivity. *)
Definition on_facet (pairs : list (nat * nat)) (c_to_f : nat -> list nat) (p : nat * nat) (f : nat) : Prop :=
  exists s, is_sub_cell pairs (fst p) s /\ nth (snd p) (c_to_f s) 0 = f.

Definition facet_map (num_cells num_facets : nat) (c_to_f : nat -> list nat) (pairs : list (nat * nat)) : adj nat :=
  facets_to_cells (cell_map num_cells pairs) c_to_f num_facets (flat2 pairs).

Lemma sub_cell_hd num_cells pairs p s :
  (forall p, In p pairs -> fst p < num_cells) -> In p pairs -> is_sub_cell pairs (fst p) s ->
  hd 0 (links (cell_map num_cells pairs) (fst p)) = s.
Proof.
  intros Hlt Hp [Hs E]. destruct (C08_cell_maps_inverse num_cells pairs Hlt) as (_ & _ & _ & _ & H).
  rewrite <- E, H by auto. reflexivity.
Qed.

Lemma sub_cell_ex num_cells pairs p :
  (forall p, In p pairs -> fst p < num_cells) -> In p pairs ->
  is_sub_cell pairs (fst p) (hd 0 (links (cell_map num_cells pairs) (fst p))).
Proof.
  intros Hlt Hp. destruct (C08_cell_maps_inverse num_cells pairs Hlt) as (_ & _ & _ & H & _).
  destruct p as [c lf]. destruct (H _ _ Hp) as (s & E & Hs & Es). cbn [fst]. rewrite E. cbn. split; auto.
Qed.

Theorem C09_facet_map :
  forall (num_cells num_facets : nat) (c_to_f : nat -> list nat) (pairs : list (nat * nat)),
    (forall p, In p pairs -> fst p < num_cells) ->
    (forall p f, In p pairs -> on_facet pairs c_to_f p f -> f < num_facets) ->
    (* facets not touched by the input have no entry *)
    (forall f, f < num_facets -> (forall p, In p pairs -> ~ on_facet pairs c_to_f p f) ->
       links (facet_map num_cells num_facets c_to_f pairs) f = []) /\
    (* the entry of a touched facet is (submesh cell, local facet) of an input
       pair on that facet *)
    (forall p f, In p pairs -> on_facet pairs c_to_f p f ->
       exists p' s', In p' pairs /\ on_facet pairs c_to_f p' f /\ is_sub_cell pairs (fst p') s' /\
         links (facet_map num_cells num_facets c_to_f pairs) f = [s'; snd p']) /\
    (* which is the pair itself on exterior facets *)
    (forall p f s, In p pairs -> on_facet pairs c_to_f p f -> is_sub_cell pairs (fst p) s ->
       (forall p', In p' pairs -> on_facet pairs c_to_f p' f -> p' = p) ->
       links (facet_map num_cells num_facets c_to_f pairs) f = [s; snd p]).
Proof.
  intros num_cells num_facets c_to_f pairs Hlt Hf.
  set (cmap := cell_map num_cells pairs).
  assert (Hon : forall p f, In p pairs ->
     (on_facet pairs c_to_f p f <-> nth (snd p) (c_to_f (hd 0 (links cmap (fst p)))) 0 = f)).
  { intros p f Hp. split.
    - intros (s & Hs & E). unfold cmap. rewrite (sub_cell_hd num_cells pairs p s) by auto. auto.
    - intros E. eexists. split; [apply (sub_cell_ex num_cells); eauto|]. exact E. }
  assert (Hf' : forall p, In p pairs -> nth (snd p) (c_to_f (hd 0 (links cmap (fst p)))) 0 < num_facets).
  { intros p Hp. apply (Hf p); auto. apply Hon; auto. }
  assert (Hlast : forall f, (exists p, In p pairs /\ on_facet pairs c_to_f p f) ->
     exists k, k < length pairs /\ on_facet pairs c_to_f (nth k pairs (0,0)) f /\
       forall k', k < k' -> k' < length pairs -> ~ on_facet pairs c_to_f (nth k' pairs (0,0)) f).
  { intros f (p & Hp & Ho). apply (In_nth _ _ (0,0)) in Hp. destruct Hp as (k0 & Hk0 & E0). subst p.
    remember (length pairs - k0) as d eqn:Hd. revert k0 Hk0 Ho Hd.
    induction d as [d IH] using lt_wf_ind. intros k0 Hk0 Ho Hd.
    assert (Dec : forall m, (exists k', k0 < k' /\ k' < m /\ k' < length pairs /\ on_facet pairs c_to_f (nth k' pairs (0,0)) f) \/
       (forall k', k0 < k' -> k' < m -> k' < length pairs -> ~ on_facet pairs c_to_f (nth k' pairs (0,0)) f)).
    { induction m as [|m [(k' & H1 & H2 & H3)|N]].
      - right. intros; lia.
      - left. exists k'. split; auto.
      - destruct (Nat.lt_ge_cases m (length pairs)) as [Lm|Gm]; [|right; intros; apply N; lia].
        assert (Hm : In (nth m pairs (0,0)) pairs) by (apply nth_In; auto).
        destruct (Nat.eq_dec (nth (snd (nth m pairs (0,0))) (c_to_f (hd 0 (links cmap (fst (nth m pairs (0,0)))))) 0) f) as [E|E].
        + destruct (Nat.lt_ge_cases k0 m).
          * left. exists m. repeat split; auto. apply Hon; auto.
          * right. intros; lia.
        + right. intros k' H1 H2 H3. destruct (Nat.eq_dec k' m) as [->|]; [|apply N; lia].
          rewrite Hon by auto. auto. }
    destruct (Dec (length pairs)) as [(k' & H1 & H2 & _ & H4)|N].
    - destruct (IH (length pairs - k')) with (k0 := k') as (k & R); auto; [lia|]. exists k. auto.
    - exists k0. split; auto. }
  assert (Main : forall k f, k < length pairs -> on_facet pairs c_to_f (nth k pairs (0,0)) f ->
     (forall k', k < k' -> k' < length pairs -> ~ on_facet pairs c_to_f (nth k' pairs (0,0)) f) ->
     links (facet_map num_cells num_facets c_to_f pairs) f =
       [hd 0 (links cmap (fst (nth k pairs (0,0)))); snd (nth k pairs (0,0))]).
  { intros k f Hk Ho Hl. assert (Hin : In (nth k pairs (0,0)) pairs) by (apply nth_In; auto).
    apply Hon in Ho; auto. subst f. unfold facet_map. fold cmap.
    apply (facet_map_in num_facets cmap c_to_f pairs); auto.
    intros k' H1 H2 E. apply (Hl k' H1 H2). apply Hon; auto. apply nth_In; auto. }
  split; [|split].
  - intros f Hlf Hn. apply facet_map_out; auto. intros p Hp E. apply (Hn p Hp). apply Hon; auto.
  - intros p f Hp Ho. destruct (Hlast f) as (k & Hk & Hok & Hl); [eauto|].
    exists (nth k pairs (0,0)), (hd 0 (links cmap (fst (nth k pairs (0,0))))).
    assert (In (nth k pairs (0,0)) pairs) by (apply nth_In; auto).
    repeat split; auto; try (apply (sub_cell_ex num_cells); auto).
  - intros p f s Hp Ho Hs Hu. destruct (Hlast f) as (k & Hk & Hok & Hl); [eauto|].
    rewrite (Main k f) by auto. assert (In (nth k pairs (0,0)) pairs) by (apply nth_In; auto).
    rewrite (Hu (nth k pairs (0,0))) by auto. f_equal.
    unfold cmap. apply sub_cell_hd; auto.
Qed.
Print Assumptions C09_facet_map.

(** Two triangles sharing facet 2 in the submesh. *)
Example C09_example :
  let pairs := [(7, 0); (2, 1)] in
  let c_to_f := fun s => if s =? 0 then [0; 1; 2] else [2; 3; 4] in
  map (links (facet_map 9 5 c_to_f pairs)) (seq 0 5) = [[]; [0; 1]; [1; 0]; []; []].
Proof. vm_compute. reflexivity. Qed.

(** ** C10 *)
Section Functions.
Context {A : Type} (add : A -> A -> A) (zero : A).

(** The submesh dofmap identifies dofs only where the parent dofmap does. *)
Definition conforming (n : nat) (pc : list nat) (ds dp : nat -> list nat) : Prop :=
  forall c i c' i', c < n -> c' < n -> i < length (ds c) -> i' < length (ds c') ->
    nth i (ds c) 0 = nth i' (ds c') 0 ->
    nth i (dp (nth c pc 0)) 0 = nth i' (dp (nth c' pc 0)) 0.

Theorem C10_copy_function :
  forall (bs n ndofs : nat) (pc : list nat) (ds dp : nat -> list nat) (u w : list A),
    conforming n pc ds dp -> length w = bs * ndofs ->
    (forall c i, c < n -> i < length (ds c) -> nth i (ds c) 0 < ndofs) ->
    let r := copy_function zero bs n pc ds dp u w in
    length r = length w /\
    (* same dofs on every submesh cell *)
    (forall c i j, c < n -> i < length (ds c) -> j < bs ->
       nth (bs * nth i (ds c) 0 + j) r zero = nth (bs * nth i (dp (nth c pc 0)) 0 + j) u zero) /\
    (* nothing else changes *)
    (forall k, (forall c i j, c < n -> i < length (ds c) -> j < bs -> k <> bs * nth i (ds c) 0 + j) ->
       nth k r zero = nth k w zero) /\
    (* when every dof belongs to a cell the old values do not matter *)
    ((forall d, d < ndofs -> exists c i, c < n /\ i < length (ds c) /\ nth i (ds c) 0 = d) ->
     forall w', length w' = length w -> copy_function zero bs n pc ds dp u w' = r).
Proof.
  intros bs n ndofs pc ds dp u w Hc Hw Hb r.
  assert (Hbound : forall c i j, c < n -> i < length (ds c) -> j < bs -> bs * nth i (ds c) 0 + j < bs * ndofs).
  { intros c i j H1 H2 H3. pose proof (Hb c i H1 H2). nia. }
  split; [apply copy_function_length|]. split; [|split].
  - intros c i j H1 H2 H3. apply copy_function_nth; auto. rewrite Hw. auto.
  - intros k Hk. apply copy_function_other; auto.
  - intros Hcov w' Hw'. apply (nth_ext' _ _ zero).
    { unfold r. rewrite !copy_function_length. auto. }
    intros k Hk. rewrite copy_function_length in Hk.
    destruct bs as [|bs']; [lia|]. set (bs := S bs') in *.
    assert (Hkd : k / bs < ndofs) by (apply Nat.div_lt_upper_bound; lia).
    destruct (Hcov _ Hkd) as (c & i & H1 & H2 & E).
    pose proof (Nat.div_mod k bs ltac:(lia)) as D. pose proof (Nat.mod_upper_bound k bs ltac:(lia)) as M.
    rewrite <- E in D. unfold r. rewrite D. rewrite !copy_function_nth; auto; rewrite <- ?D; lia.
Qed.

(** ** C11 *)

(** One call: parent coordinates and displacement at that time. *)
Definition geometry_calls (bs n nds : nat) (pc xm : list nat) (ds dp dx : nat -> list nat)
    (calls : list (list A * list A)) (g : list A) : list A :=
  for_each calls (fun c g => submesh_update_geometry add zero bs n nds pc xm ds dp dx (fst c) (snd c) g) g.

Lemma submesh_update_length bs n nds pc xm ds dp dx pg u g :
  length (submesh_update_geometry add zero bs n nds pc xm ds dp dx pg u g) = length g.
Proof. unfold submesh_update_geometry. now rewrite update_geometry_length, restore_length. Qed.

Lemma geometry_calls_length bs n nds pc xm ds dp dx calls g :
  length (geometry_calls bs n nds pc xm ds dp dx calls g) = length g.
Proof.
  unfold geometry_calls. apply (for_each_inv (fun _ s => length s = length g)); auto.
  intros done c rest s _ H. now rewrite submesh_update_length.
Qed.

(** After any history the coordinates are those a single call with the last
    arguments gives on any starting geometry of the same size. *)
Theorem C11_geometry_history_independent :
  forall (bs n nds nx : nat) (pc xm : list nat) (ds dp dx : nat -> list nat)
         (history : list (list A * list A)) (pg u g g0 : list A),
    length g = 3 * nx -> length g0 = 3 * nx ->
    geometry_calls bs n nds pc xm ds dp dx (history ++ [(pg, u)]) g
    = submesh_update_geometry add zero bs n nds pc xm ds dp dx pg u g0.
Proof.
  intros bs n nds nx pc xm ds dp dx history pg u g g0 Hg Hg0.
  unfold geometry_calls. rewrite for_each_app. cbn [for_each fold_left fst snd].
  change (for_each history _ g) with (geometry_calls bs n nds pc xm ds dp dx history g).
  unfold submesh_update_geometry at 1 2. f_equal. apply (restore_indep zero _ _ _ _ nx); auto.
  rewrite geometry_calls_length. auto.
Qed.

(** And these are parent coordinates plus displacement, node by node. *)
Theorem C11_geometry_is_parent_plus_displacement :
  forall (bs n nds nx : nat) (pc xm : list nat) (ds dp dx : nat -> list nat)
         (history : list (list A * list A)) (pg u g : list A),
    bs <= 3 -> length g = 3 * nx ->
    conforming n pc ds dp ->
    (* geometry nodes shared by cells are shared dofs *)
    (forall c i c' i', c < n -> c' < n -> i < length (ds c) -> i' < length (ds c') ->
       nth i (dx c) 0 = nth i' (dx c') 0 -> nth i (ds c) 0 = nth i' (ds c') 0) ->
    (forall c i, c < n -> i < length (ds c) -> nth i (ds c) 0 < nds /\ nth i (dx c) 0 < nx) ->
    forall c i, c < n -> i < length (ds c) ->
    let r := geometry_calls bs n nds pc xm ds dp dx (history ++ [(pg, u)]) g in
    let node := nth i (dx c) 0 in
    (forall j, j < bs ->
       nth (3 * node + j) r zero
       = add (nth (3 * nth node xm 0 + j) pg zero) (nth (bs * nth i (dp (nth c pc 0)) 0 + j) u zero)) /\
    (forall j, bs <= j -> j < 3 ->
       nth (3 * node + j) r zero = add (nth (3 * nth node xm 0 + j) pg zero) zero).
Proof.
  intros bs n nds nx pc xm ds dp dx history pg u g Hbs Hg Hconf Hx Hbd c i Hc Hi r node.
  unfold r. rewrite (C11_geometry_history_independent bs n nds nx pc xm ds dp dx history pg u g g) by auto.
  unfold submesh_update_geometry. destruct (Hbd c i Hc Hi) as [Hd Hn]. fold node in Hn.
  assert (R : forall j, j < 3 -> nth (3 * node + j) (restore_geometry zero xm pg g) zero = nth (3 * nth node xm 0 + j) pg zero).
  { intros j Hj. rewrite (restore_nth zero xm pg g nx) by lia.
    replace ((3 * node + j) / 3) with node by (apply (Nat.div_unique _ 3 _ j); lia).
    replace ((3 * node + j) mod 3) with j by (apply (Nat.mod_unique _ 3 node); lia). auto. }
  split; intros j Hj; [|intros Hj3]; rewrite update_geometry_nth_gen by (rewrite restore_length; lia);
    rewrite R by lia; f_equal.
  - rewrite writes_consistent with (v := nth (bs * nth i (ds c) 0 + j)
       (copy_function zero bs n pc ds dp u (repeat zero (bs * nds))) zero).
    + apply copy_function_nth; auto. rewrite repeat_length. nia.
    + rewrite repeat_length, restore_length. lia.
    + apply dof_writes_in. exists c, i, j. repeat split; auto.
    + intros v' H. apply dof_writes_in in H. destruct H as (c' & i' & j' & H1 & H2 & H3 & E & ->).
      destruct (block_index 3 _ _ _ _ (ltac:(lia) : j < 3) (ltac:(lia) : j' < 3) E) as [E1 E2]. subst j'.
      rewrite (Hx c i c' i'); auto.
  - rewrite writes_miss; [apply nth_repeat_0|]. intros v' H. apply dof_writes_in in H.
    destruct H as (c' & i' & j' & H1 & H2 & H3 & E & ->).
    destruct (block_index 3 _ _ _ _ (ltac:(lia) : j < 3) (ltac:(lia) : j' < 3) E) as [E1 E2]. lia.
Qed.
End Functions.
Print Assumptions C10_copy_function.
Print Assumptions C11_geometry_history_independent.
Print Assumptions C11_geometry_is_parent_plus_displacement.

(** Two intervals of a three-interval parent, P1, block size 1; the second call
    forgets the first. *)
Example C10_example :
  let ds := fun c => [c; S c] in let dp := fun c => [c; S c] in
  conforming 2 [1; 2] ds dp /\
  copy_function 0%Z 1 2 [1; 2] ds dp [10; 11; 12; 13]%Z [99; 99; 99]%Z = [11; 12; 13]%Z.
Proof.
  split; [|vm_compute; auto].
  intros c i c' i' Hc Hc' Hi Hi'. cbn in Hi, Hi'.
  destruct c as [|[|c]]; [| |lia]; destruct c' as [|[|c']]; try lia;
  destruct i as [|[|i]]; try lia; destruct i' as [|[|i']]; try lia; cbn; lia.
Qed.
Example C11_example :
  let dm := fun c => [c; S c] in
  geometry_calls Z.add 0%Z 1 2 3 [1; 2] [1; 2; 3] dm dm dm
    [([0;0;0; 1;0;0; 2;0;0; 3;0;0], [50; 50; 50; 50]);
     ([0;0;0; 1;0;0; 2;0;0; 3;0;0], [10; 20; 30; 40])]%Z (repeat 7 9)%Z
  = [21;0;0; 32;0;0; 43;0;0]%Z.
Proof. vm_compute. reflexivity. Qed.
