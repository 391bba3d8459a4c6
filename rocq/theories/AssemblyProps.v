(** Properties C19-C21: sparsity pattern, vector and matrix assembly. *)
From Coq Require Import List Arith ZArith Lia Bool Reals Lra.
Import ListNotations.
From Verif Require Import Prelude PreludeLemmas Scatter RSum EntitiesModel EntitiesProofs EntitiesProps PackingModel PackingProofs
  PackingProps PackUProps AssemblyModel AssemblyProofs.

(** ** C20 *)

(** Contribution of facet [i] to entry [d] of the vector: the element vectors of
    its cell and of each linked cell, scattered. *)
Definition facet_vector (a : assembly) (kernel : kernel_fn) (coeffs : list R) (cstride : nat) (constants : list R) (i d : nat) : R :=
  let E := facet_result a kernel coeffs cstride constants (a_max_links a + 1) (a_bs a * a_ndofs a) i in
  (scattered a (nth (2 * i) (a_active a) 0%nat) (nth 0 E []) d
   + rsum (length (links_of a i)) (fun l => scattered a (nth l (links_of a i) 0%nat) (nth (l + 1) E []) d))%R.

Theorem C20_assemble_vector :
  forall (a : assembly) (kernel : kernel_fn) (coeffs : list R) (cstride : nat) (constants b : list R),
    kernel_local (fun n => n + 1) kernel -> well_formed a ->
    let r := assemble_vector a kernel coeffs cstride constants b in
    length r = length b /\
    forall d, d < length b ->
      nth d r 0%R = (nth d b 0 + rsum (a_local a) (fun i => facet_vector a kernel coeffs cstride constants i d))%R.
Proof.
  intros a kernel coeffs cstride constants b HK HW r.
  set (size := a_bs a * a_ndofs a). set (nb := a_max_links a + 1).
  enough (G : forall m, m <= a_local a ->
    let st := for_loop m (vector_facet a kernel coeffs cstride constants)
      (b, mkScratch (repeat (repeat 0%R size) nb) [] (repeat 0%R (3 * a_num_dofs_g a))) in
    scratch_ok a nb size (snd st) /\ length (fst st) = length b /\
    forall d, d < length b -> nth d (fst st) 0%R = (nth d b 0 + rsum m (fun i => facet_vector a kernel coeffs cstride constants i d))%R).
  { destruct (G (a_local a) (le_n _)) as (_ & H1 & H2). split; [exact H1|exact H2]. }
  induction m as [|m IH]; intros Hm st.
  - split; [apply initial_scratch|]. split; auto. intros d Hd. cbn. lra.
  - destruct IH as (I1 & I2 & I3); [lia|]. unfold st. rewrite for_loop_S.
    set (st0 := for_loop m _ _) in *. rewrite (surjective_pairing st0).
    destruct (vector_facet_spec a kernel coeffs cstride constants m (fst st0) (snd st0) HK HW ltac:(lia) I1) as (J1 & J2 & J3).
    split; [exact J1|]. split; [now rewrite J2|].
    intros d Hd. rewrite J3 by lia. rewrite I3 by auto. cbn [rsum]. unfold facet_vector. fold nb size. lra.
Qed.
Print Assumptions C20_assemble_vector.

(** Entries that are not dofs of an involved cell are untouched. *)
Theorem C20_other_entries_untouched :
  forall (a : assembly) (kernel : kernel_fn) (coeffs : list R) (cstride : nat) (constants b : list R) (d : nat),
    kernel_local (fun n => n + 1) kernel -> well_formed a -> d < length b ->
    (forall i c j k, i < a_local a -> In c (nth (2 * i) (a_active a) 0 :: links_of a i) ->
       j < a_ndofs a -> k < a_bs a -> a_bs a * nth j (a_dofs a c) 0 + k <> d) ->
    nth d (assemble_vector a kernel coeffs cstride constants b) 0%R = nth d b 0%R.
Proof.
  intros a kernel coeffs cstride constants b d HK HW Hd Hn.
  destruct (C20_assemble_vector a kernel coeffs cstride constants b HK HW) as [_ H]. rewrite H by auto.
  assert (Hs : forall i c be, i < a_local a -> In c (nth (2 * i) (a_active a) 0 :: links_of a i) -> scattered a c be d = 0%R).
  { intros i c be Hi Hc. unfold scattered. apply rsum_zero. intros j Hj. apply rsum_zero. intros k Hk.
    destruct (Nat.eqb_spec (a_bs a * nth j (a_dofs a c) 0 + k) d) as [E|]; auto. exfalso. eapply Hn; eauto. }
  rewrite rsum_zero; [lra|]. intros i Hi. unfold facet_vector. rewrite (Hs i) by (auto; left; auto).
  rewrite rsum_zero; [lra|]. intros l Hl. apply (Hs i); auto. right. apply nth_In. auto.
Qed.
Print Assumptions C20_other_entries_untouched.

(** Assembling is additive in the initial vector: no state survives. *)
Theorem C20_assemble_twice :
  forall (a : assembly) (kernel : kernel_fn) (coeffs : list R) (cstride : nat) (constants b : list R) (d : nat),
    kernel_local (fun n => n + 1) kernel -> well_formed a -> d < length b ->
    let once := assemble_vector a kernel coeffs cstride constants b in
    let twice := assemble_vector a kernel coeffs cstride constants once in
    (nth d twice 0 - nth d once 0 = nth d once 0 - nth d b 0)%R.
Proof.
  intros a kernel coeffs cstride constants b d HK HW Hd once twice.
  destruct (C20_assemble_vector a kernel coeffs cstride constants b HK HW) as [H0 H1].
  destruct (C20_assemble_vector a kernel coeffs cstride constants once HK HW) as [_ H2].
  unfold twice. rewrite H2 by (unfold once; lia). unfold once. rewrite H1 by auto. lra.
Qed.
Print Assumptions C20_assemble_twice.

(** ** C21 *)
Theorem C21_assemble_matrix :
  forall (a : assembly) (kernel : kernel_fn) (coeffs : list R) (cstride : nat) (constants : list R),
    kernel_local (fun n => 3 * n + 1) kernel -> well_formed a ->
    assemble_matrix a kernel coeffs cstride constants =
    flat_map (fun i =>
      let E := facet_result a kernel coeffs cstride constants (3 * a_max_links a + 1) (a_bs a * a_ndofs a * a_bs a * a_ndofs a) i in
      let dc := a_dofs a (nth (2 * i) (a_active a) 0) in
      (dc, dc, nth 0 E []) ::
      flat_map (fun j => let dl := a_dofs a (nth j (links_of a i) 0) in
        [(dc, dl, nth (3 * j + 1) E []); (dl, dc, nth (3 * j + 2) E []); (dl, dl, nth (3 * j + 3) E [])])
        (seq 0 (length (links_of a i))))
      (seq 0 (a_local a)).
Proof.
  intros a kernel coeffs cstride constants HK HW.
  set (size := a_bs a * a_ndofs a * a_bs a * a_ndofs a). set (nb := 3 * a_max_links a + 1).
  set (F := fun i => _).
  enough (G : forall m, m <= a_local a ->
    let st := for_loop m (matrix_facet a kernel coeffs cstride constants)
      ([], mkScratch (repeat (repeat 0%R size) nb) [] (repeat 0%R (3 * a_num_dofs_g a))) in
    scratch_ok a nb size (snd st) /\ fst st = flat_map F (seq 0 m)).
  { apply (G (a_local a) (le_n _)). }
  induction m as [|m IH]; intros Hm st.
  - split; [apply initial_scratch|reflexivity].
  - destruct IH as (I1 & I2); [lia|]. unfold st. rewrite for_loop_S.
    set (st0 := for_loop m _ _) in *. rewrite (surjective_pairing st0).
    destruct (matrix_facet_spec a kernel coeffs cstride constants m (fst st0) (snd st0) HK HW ltac:(lia) I1) as (J1 & J2).
    split; [exact J1|]. rewrite J2, I2, seq_S, flat_map_app. cbn [Nat.add flat_map]. rewrite app_nil_r. reflexivity.
Qed.
Print Assumptions C21_assemble_matrix.

(** ** C19 *)
Lemma for_loop_incl {A} n (body : nat -> list A -> list A) s :
  (forall i s, incl s (body i s)) -> incl s (for_loop n body s).
Proof.
  intros H. induction n as [|n IH]; [intros x Hx; auto|]. rewrite for_loop_S. intros x Hx. apply H. auto.
Qed.

Lemma pattern_facet_incl a i p : incl p (pattern_facet a i p).
Proof. intros x Hx. unfold pattern_facet. rewrite !in_app_iff. auto. Qed.

Lemma linked_dofs_in a i r :
  In r (unique Nat.eqb (isort Nat.leb (for_each (a_map a i) (fun link acc =>
      if Z.ltb link 0 then acc
      else acc ++ a_dofs a (nth (sub_cell (a_facet_map a) (Z.to_nat link)) (a_parent a) 0)) []))) <->
  exists c, In c (linked_cells (a_map a i) (a_facet_map a) (a_parent a)) /\ In r (a_dofs a c).
Proof.
  rewrite sort_unique_nat_in.
  assert (G : forall l acc, for_each l (fun link acc =>
      if Z.ltb link 0 then acc
      else acc ++ a_dofs a (nth (sub_cell (a_facet_map a) (Z.to_nat link)) (a_parent a) 0)) acc
    = acc ++ flat_map (fun f => a_dofs a (contact_cell (a_facet_map a) (a_parent a) f)) (filter (fun f => Z.leb 0 f) l)).
  { induction l as [|f l IH]; intros acc; [cbn; now rewrite app_nil_r|].
    unfold for_each in *. cbn [fold_left filter].
    destruct (Z.ltb_spec f 0), (Z.leb_spec 0 f); try lia; rewrite IH; auto.
    cbn [flat_map]. rewrite app_assoc. reflexivity. }
  rewrite G. cbn [app]. rewrite in_flat_map. split.
  - intros (f & Hf & Hr). apply filter_In in Hf. destruct Hf as [Hf L]. apply Z.leb_le in L.
    exists (contact_cell (a_facet_map a) (a_parent a) f). split; auto. apply linked_cells_in. exists f. auto.
  - intros (c & Hc & Hr). apply linked_cells_in in Hc. destruct Hc as (f & Hf & L & <-). exists f. split; auto.
    apply filter_In. split; auto. apply Z.leb_le. auto.
Qed.

(** What the pattern contains: the base pattern and, per facet, its cell coupled
    with its linked cells in both directions. *)
Theorem C19_pattern_exact :
  forall (base : list (nat * nat)) (pairs : list assembly) (r s : nat),
    In (r, s) (create_pattern base pairs) <->
    In (r, s) base \/
    exists a i c, In a pairs /\ i < a_local a /\ In c (linked_cells (a_map a i) (a_facet_map a) (a_parent a)) /\
      let dc := a_dofs a (nth (2 * i) (a_active a) 0) in let dl := a_dofs a c in
      (In r dc /\ In s dl) \/ (In r dl /\ In s dc).
Proof.
  intros base pairs r s.
  assert (Hf : forall a i p, In (r, s) (pattern_facet a i p) <-> In (r, s) p \/
     exists c, In c (linked_cells (a_map a i) (a_facet_map a) (a_parent a)) /\
      let dc := a_dofs a (nth (2 * i) (a_active a) 0) in let dl := a_dofs a c in
      (In r dc /\ In s dl) \/ (In r dl /\ In s dc)).
  { intros a i p. unfold pattern_facet. rewrite !in_app_iff, !in_prod_iff, !linked_dofs_in. cbn zeta. split.
    - intros [[H|[H (c & H1 & H2)]]|[(c & H1 & H2) H]]; auto; right; exists c; auto.
    - intros [H|(c & Hc & [[H1 H2]|[H1 H2]])]; auto.
      + left. right. split; auto. exists c. auto.
      + right. split; auto. exists c. auto. }
  assert (Hl : forall a m p, In (r, s) (for_loop m (pattern_facet a) p) <-> In (r, s) p \/
     exists i c, i < m /\ In c (linked_cells (a_map a i) (a_facet_map a) (a_parent a)) /\
      let dc := a_dofs a (nth (2 * i) (a_active a) 0) in let dl := a_dofs a c in
      (In r dc /\ In s dl) \/ (In r dl /\ In s dc)).
  { intros a. induction m as [|m IH]; intros p.
    - cbn. split; auto. intros [H|(i & c & Hi & _)]; auto. lia.
    - rewrite for_loop_S, Hf, IH. split.
      + intros [[H|(i & c & Hi & H)]|(c & H)]; auto; right; [exists i, c|exists m, c]; split; auto.
      + intros [H|(i & c & Hi & H)]; auto. destruct (Nat.eq_dec i m) as [->|Hne]; [right; exists c; auto|].
        left. right. exists i, c. split; auto. lia. }
  unfold create_pattern. revert base. induction pairs as [|a pairs IH]; intros base.
  - cbn. split; auto. intros [H|(a & i & c & [] & _)]; auto.
  - unfold for_each in *. cbn [fold_left]. rewrite IH, Hl. split.
    + intros [[H|(i & c & Hi & H)]|(a' & i & c & Ha & H)]; auto.
      * right. exists a, i, c. split; [left; auto|auto].
      * right. exists a', i, c. split; [right; auto|auto].
    + intros [H|(a' & i & c & [<-|Ha] & Hi & H)]; auto.
      * left. right. exists i, c. auto.
      * right. exists a', i, c. auto.
Qed.
Print Assumptions C19_pattern_exact.

(** Every entry of every block assemble_matrix inserts is in the pattern.  The
    base form couples the dofs of each cell of the mesh with each other. *)
Theorem C19_pattern_covers_assembly :
  forall (base : list (nat * nat)) (pairs : list assembly) (a : assembly) (kernel : kernel_fn)
         (coeffs : list R) (cstride : nat) (constants : list R) (is_cell : nat -> Prop),
    (forall c r s, is_cell c -> In r (a_dofs a c) -> In s (a_dofs a c) -> In (r, s) base) ->
    (forall i, i < a_local a -> is_cell (nth (2 * i) (a_active a) 0)) ->
    (forall i c, i < a_local a -> In c (linked_cells (a_map a i) (a_facet_map a) (a_parent a)) -> is_cell c) ->
    In a pairs -> kernel_local (fun n => 3 * n + 1) kernel -> well_formed a ->
    forall rows cols block r s,
      In (rows, cols, block) (assemble_matrix a kernel coeffs cstride constants) ->
      In r rows -> In s cols -> In (r, s) (create_pattern base pairs).
Proof.
  intros base pairs a kernel coeffs cstride constants is_cell Hbase Hact Hlnk Ha HK HW rows cols block r s Hin Hr Hs.
  rewrite C21_assemble_matrix in Hin by auto. apply in_flat_map_seq in Hin. destruct Hin as (i & Hi & Hin).
  rewrite C19_pattern_exact. cbn zeta in Hin. destruct Hin as [E|Hin].
  - injection E as <- <- _. left. apply (Hbase (nth (2 * i) (a_active a) 0)); auto.
  - apply in_flat_map_seq in Hin. destruct Hin as (j & Hj & Hin).
    set (c := nth j (links_of a i) 0) in *.
    assert (Hc : In c (linked_cells (a_map a i) (a_facet_map a) (a_parent a))).
    { assert (In c (links_of a i)) as H by (apply nth_In; auto). unfold links_of in H. destruct (a_max_links a =? 0); [contradiction|auto]. }
    destruct Hin as [E|[E|[E|[]]]]; injection E as <- <- _.
    + right. exists a, i, c. cbn zeta. tauto.
    + right. exists a, i, c. cbn zeta. tauto.
    + left. apply (Hbase c); auto. apply (Hlnk i); auto.
Qed.
Print Assumptions C19_pattern_covers_assembly.

(** ** The hypotheses are satisfiable *)

(** A kernel that adds coefficient 0 to every entry of every used buffer. *)
Definition example_kernel (slots : nat -> nat) : kernel_fn :=
  fun bufs row _ _ _ n _ =>
    for_loop (slots n) (fun j bufs => upd bufs j (map (fun x => (x + nth 0 row 0)%R) (nth j bufs []))) bufs.

Lemma example_kernel_local slots : kernel_local slots (example_kernel slots).
Proof.
  assert (G : forall bufs row m, let r := for_loop m (fun j bufs => upd bufs j (map (fun x => (x + nth 0 row 0)%R) (nth j bufs []))) bufs in
     length r = length bufs /\
     (forall j, length (nth j r []) = length (nth j bufs [])) /\
     (forall j, nth j r [] = if j <? m then map (fun x => (x + nth 0 row 0)%R) (nth j bufs []) else nth j bufs [])).
  { intros bufs row. induction m as [|m IH]; intros r; [repeat split; auto|].
    destruct IH as (I1 & I2 & I3). unfold r. rewrite for_loop_S. set (r0 := for_loop m _ _) in *.
    assert (I4 : forall j, nth j (upd r0 m (map (fun x => (x + nth 0 row 0)%R) (nth m r0 []))) [] =
        if j <? S m then map (fun x => (x + nth 0 row 0)%R) (nth j bufs []) else nth j bufs []).
    { intros j. rewrite nth_upd, I1. destruct (Nat.eqb_spec m j) as [<-|Hne]; cbn [andb].
      - destruct (Nat.ltb_spec m (length bufs)) as [L|L].
        + rewrite I3. destruct (Nat.ltb_spec m m); [lia|]. destruct (Nat.ltb_spec m (S m)); [auto|lia].
        + rewrite I3. destruct (Nat.ltb_spec m m); [lia|]. destruct (Nat.ltb_spec m (S m)); [|lia].
          rewrite nth_overflow by lia. reflexivity.
      - rewrite I3. destruct (Nat.ltb_spec j m), (Nat.ltb_spec j (S m)); auto; lia. }
    split; [now rewrite upd_length|]. split; auto.
    intros j. rewrite I4. destruct (j <? S m); auto. apply map_length. }
  split.
  - intros bufs row cst cd lf n qs. destruct (G bufs row (slots n)) as (H1 & H2 & _). auto.
  - intros bufs bufs' row cst cd lf n qs Hl Heq j Hj.
    destruct (G bufs row (slots n)) as (_ & _ & H1), (G bufs' row (slots n)) as (_ & _ & H2).
    unfold example_kernel. rewrite H1, H2, (Heq j Hj). reflexivity.
Qed.

(** One facet of cell 0 linked with cell 1 on a mesh of two intervals. *)
Definition example_assembly : assembly :=
  mkAssembly 1 2 1 1 2 (fun c => [c; S c]) [0; 0; 0; 1; 0; 0; 2; 0; 0]%R (fun c => [c; S c]) [0; 1] 1
    (fun _ => [0; -1]%Z) (mkAdj [0; 0] [0; 2]) [1].
Example C20_hypotheses : well_formed example_assembly /\ links_of example_assembly 0 = [1] /\ points_of example_assembly 0 = [0].
Proof.
  split; [|split; vm_compute; auto]. split; [cbn; lia|]. split.
  - intros i Hi. reflexivity.
  - intros i Hi. vm_compute. lia.
Qed.
Example C19_hypotheses :
  In (2, 0) (create_pattern [(0,0);(0,1);(1,0);(1,1);(1,2);(2,1);(2,2)] [example_assembly]).
Proof. vm_compute. tauto. Qed.
