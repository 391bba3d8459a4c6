(** Specification vocabulary and proofs for [AssemblyModel]. *)
From Coq Require Import List Arith ZArith Lia Bool Reals Lra.
Import ListNotations.
From Verif Require Import Prelude PreludeLemmas Scatter RSum EntitiesModel EntitiesProofs PackingModel PackingProofs PackUProps AssemblyModel.

(** ** Specification *)

(** Coordinates of a cell, three per node, unused components zero. *)
Definition coordinates_of (a : assembly) (cell : nat) : list R :=
  flat_map (fun xd => map (fun k => if k <? a_gdim a then nth (3 * xd + k) (a_x a) 0%R else 0%R) (seq 0 3)) (a_x_dofmap a cell).

(** Cells linked to facet [i], and the points with a contact facet. *)
Definition links_of (a : assembly) (i : nat) : list nat :=
  if a_max_links a =? 0 then [] else linked_cells (a_map a i) (a_facet_map a) (a_parent a).
Definition points_of (a : assembly) (i : nat) : list nat :=
  if a_max_links a =? 0 then [] else filter (fun q => Z.leb 0 (nth q (a_map a i) 0%Z)) (seq 0 (length (a_map a i))).

(** A kernel uses only the first [slots n] buffers and keeps all sizes. *)
Definition kernel_local (slots : nat -> nat) (kernel : kernel_fn) : Prop :=
  (forall bufs row cst cd lf n qs, length (kernel bufs row cst cd lf n qs) = length bufs /\
     forall j, length (nth j (kernel bufs row cst cd lf n qs) []) = length (nth j bufs [])) /\
  (forall bufs bufs' row cst cd lf n qs, length bufs = length bufs' ->
     (forall j, j < slots n -> nth j bufs [] = nth j bufs' []) ->
     forall j, j < slots n -> nth j (kernel bufs row cst cd lf n qs) [] = nth j (kernel bufs' row cst cd lf n qs) []).

(** What the kernel computes for facet [i] on freshly zeroed buffers. *)
Definition facet_result (a : assembly) (kernel : kernel_fn) (coeffs : list R) (cstride : nat) (constants : list R)
    (nbufs size : nat) (i : nat) : list (list R) :=
  kernel (repeat (repeat 0%R size) nbufs) (slice coeffs (i * cstride) cstride) constants
    (coordinates_of a (nth (2 * i) (a_active a) 0)) (nth (2 * i + 1) (a_active a) 0)
    (length (links_of a i)) (points_of a i).

(** Entry [d] of an element vector scattered to the dofs of [cell]. *)
Definition scattered (a : assembly) (cell : nat) (be : list R) (d : nat) : R :=
  rsum (a_ndofs a) (fun j => rsum (a_bs a) (fun k =>
    if a_bs a * nth j (a_dofs a cell) 0 + k =? d then nth (a_bs a * j + k) be 0%R else 0%R)).

Definition well_formed (a : assembly) : Prop :=
  a_gdim a <= 3 /\
  (forall i, i < a_local a -> length (a_x_dofmap a (nth (2 * i) (a_active a) 0)) = a_num_dofs_g a) /\
  (forall i, i < a_local a -> length (links_of a i) <= a_max_links a).

(** ** Small pieces *)
Lemma q_indices_spec connected :
  q_indices_of connected = filter (fun q => Z.leb 0 (nth q connected 0%Z)) (seq 0 (length connected)).
Proof.
  unfold q_indices_of.
  apply (for_loop_inv (fun n acc => acc = filter (fun q => Z.leb 0 (nth q connected 0%Z)) (seq 0 n))); auto.
  intros i acc Hi ->. rewrite seq_S, filter_app. cbn [Nat.add filter].
  destruct (Z.leb 0 (nth i connected 0%Z)); auto. now rewrite app_nil_r.
Qed.

Lemma nth_flat_map_const {A B} (f : A -> list B) w (l : list A) j k d da :
  (forall x, length (f x) = w) -> j < length l -> k < w ->
  nth (j * w + k) (flat_map f l) d = nth k (f (nth j l da)) d.
Proof.
  intros Hw. revert j. induction l as [|a l IH]; intros j Hj Hk; [cbn in Hj; lia|].
  destruct j as [|j]; cbn [flat_map nth Nat.mul Nat.add].
  - rewrite app_nth1 by (rewrite Hw; auto). auto.
  - rewrite app_nth2 by (rewrite Hw; lia). rewrite Hw. replace (w + j * w + k - w) with (j * w + k) by lia.
    apply IH; auto. cbn in Hj. lia.
Qed.

Lemma flat_map_const_length {A B} (f : A -> list B) w (l : list A) :
  (forall x, length (f x) = w) -> length (flat_map f l) = length l * w.
Proof. intros Hw. induction l as [|a l IH]; cbn; auto. rewrite app_length, IH, Hw. auto. Qed.

(** Components of the coordinate buffer that are never written stay zero. *)
Definition coords_ok (a : assembly) (cd : list R) : Prop :=
  length cd = 3 * a_num_dofs_g a /\ forall j k, a_gdim a <= k -> k < 3 -> nth (j * 3 + k) cd 0%R = 0%R.

Lemma load_coordinates_spec a cell cd :
  a_gdim a <= 3 -> length (a_x_dofmap a cell) = a_num_dofs_g a -> coords_ok a cd ->
  load_coordinates a cell cd = coordinates_of a cell /\ coords_ok a (load_coordinates a cell cd).
Proof.
  intros Hg Hx [Hl Hz]. set (xd := a_x_dofmap a cell).
  assert (EW : load_coordinates a cell cd = writes (flat_map (fun j =>
     map (fun k => (j * 3 + k, nth (3 * nth j xd 0 + k) (a_x a) 0%R)) (seq 0 (a_gdim a))) (seq 0 (length xd))) cd).
  { unfold load_coordinates. apply for_loop_writes. intros j s Hj. apply for_loop_map_writes. }
  assert (Hfl : forall x, length (map (fun k => if k <? a_gdim a then nth (3 * x + k) (a_x a) 0%R else 0%R) (seq 0 3)) = 3)
    by (intros; reflexivity).
  assert (Hcl : length (coordinates_of a cell) = 3 * a_num_dofs_g a).
  { unfold coordinates_of. rewrite (flat_map_const_length _ 3); auto. rewrite Hx. lia. }
  assert (E : load_coordinates a cell cd = coordinates_of a cell).
  { rewrite EW. apply (nth_ext' _ _ 0%R); [rewrite writes_length; lia|].
    intros x Hb. rewrite writes_length in Hb.
    pose proof (Nat.div_mod x 3 ltac:(lia)) as D. pose proof (Nat.mod_upper_bound x 3 ltac:(lia)) as M.
    set (j := x / 3) in *. set (k := x mod 3) in *.
    assert (Hj : j < length xd) by (unfold xd; lia).
    replace x with (j * 3 + k) by lia.
    unfold coordinates_of. rewrite (nth_flat_map_const _ 3 _ _ _ _ 0) by auto. fold xd.
    rewrite (nth_map_lt _ (seq 0 3) k 0%R 0) by (rewrite seq_length; auto). rewrite seq_nth by auto. cbn [Nat.add].
    destruct (Nat.ltb_spec k (a_gdim a)) as [L|L].
    - apply writes_consistent; [lia| |].
      + apply in_flat_map_seq. exists j. split; auto. apply in_map_iff. exists k. split; auto. apply in_seq. lia.
      + intros v Hin. apply in_flat_map_seq in Hin. destruct Hin as (j' & Hj' & Hin). apply in_map_iff in Hin.
        destruct Hin as (k' & Ek & Hk'). apply in_seq in Hk'. injection Ek as Ek <-.
        assert (j' = j) by lia. subst j'. assert (k' = k) by lia. subst k'. auto.
    - rewrite writes_miss; [apply Hz; auto|].
      intros v Hin. apply in_flat_map_seq in Hin. destruct Hin as (j' & Hj' & Hin). apply in_map_iff in Hin.
      destruct Hin as (k' & Ek & Hk'). apply in_seq in Hk'. injection Ek as Ek _. lia. }
  split; auto. split; [rewrite E; auto|].
  intros j k L L'. rewrite EW, writes_miss; [apply Hz; auto|].
  intros v Hin. apply in_flat_map_seq in Hin. destruct Hin as (j' & Hj' & Hin). apply in_map_iff in Hin.
  destruct Hin as (k' & Ek & Hk'). apply in_seq in Hk'. injection Ek as Ek _. lia.
Qed.

Lemma add_local_accs a cell be b :
  add_local a cell be b = accs (flat_map (fun j =>
     map (fun k => (a_bs a * nth j (a_dofs a cell) 0 + k, nth (a_bs a * j + k) be 0%R)) (seq 0 (a_bs a))) (seq 0 (a_ndofs a))) b.
Proof.
  unfold add_local. apply for_loop_accs. intros j s Hj.
  enough (G : forall n, for_loop n (fun k b0 => addto b0 (a_bs a * nth j (a_dofs a cell) 0 + k) (nth (a_bs a * j + k) be 0%R)) s =
     accs (map (fun k => (a_bs a * nth j (a_dofs a cell) 0 + k, nth (a_bs a * j + k) be 0%R)) (seq 0 n)) s) by (intros; apply G).
  induction n as [|n IH]; auto. rewrite for_loop_S, IH, seq_S, map_app, accs_app. reflexivity.
Qed.

Lemma add_local_nth a cell be b d : d < length b ->
  nth d (add_local a cell be b) 0%R = (nth d b 0 + scattered a cell be d)%R.
Proof.
  intros Hd. rewrite add_local_accs, nth_accs by auto. f_equal. rewrite contrib_seq. unfold scattered.
  apply rsum_ext. intros j Hj. now rewrite contrib_map_seq.
Qed.

Lemma add_local_length a cell be b : length (add_local a cell be b) = length b.
Proof. rewrite add_local_accs. apply accs_length. Qed.

Lemma add_loop_nth a (cells : nat -> nat) (be : nat -> list R) n b d : d < length b ->
  nth d (for_loop n (fun l b => add_local a (cells l) (be l) b) b) 0%R
  = (nth d b 0 + rsum n (fun l => scattered a (cells l) (be l) d))%R /\
  length (for_loop n (fun l b => add_local a (cells l) (be l) b) b) = length b.
Proof.
  intros Hd. induction n as [|n IH]; [cbn; split; [lra|auto]|].
  rewrite for_loop_S. destruct IH as [IH1 IH2]. rewrite add_local_length, add_local_nth by lia. rewrite IH1. cbn. split; [lra|auto].
Qed.

(** Zeroing the first buffers. *)
Definition bufs_ok (nb size : nat) (bufs : list (list R)) : Prop :=
  length bufs = nb /\ forall j, j < nb -> length (nth j bufs []) = size.

Lemma bufs_ok_fill nb size bufs j : bufs_ok nb size bufs -> j < nb ->
  bufs_ok nb size (upd bufs j (fill0 (nth j bufs []))).
Proof.
  intros [H1 H2] Hj. split; [now rewrite upd_length|]. intros k Hk. rewrite nth_upd.
  destruct ((j =? k) && (j <? length bufs)) eqn:E; auto. unfold fill0. rewrite repeat_length. apply H2; auto.
Qed.

Lemma fill_nth nb size bufs j k : bufs_ok nb size bufs -> j < nb ->
  (k = j \/ nth k bufs [] = repeat 0%R size) -> nth k (upd bufs j (fill0 (nth j bufs []))) [] = repeat 0%R size.
Proof.
  intros [H1 H2] Hj Hk. rewrite nth_upd. destruct (Nat.eqb_spec j k) as [<-|Hne].
  - rewrite H1. destruct (Nat.ltb_spec j nb); [|lia]. cbn. unfold fill0. rewrite H2; auto.
  - cbn. destruct Hk; [congruence|auto].
Qed.

Lemma fill_vector nb size bufs n :
  bufs_ok nb size bufs -> n + 1 <= nb ->
  let r := for_loop n (fun j bes => upd bes (j + 1) (fill0 (nth (j + 1) bes []))) (upd bufs 0 (fill0 (nth 0 bufs []))) in
  bufs_ok nb size r /\ forall j, j < n + 1 -> nth j r [] = repeat 0%R size.
Proof.
  intros Hb. induction n as [|n IH]; intros Hn r.
  - split; [apply bufs_ok_fill; auto; lia|]. intros j Hj. unfold r. cbn [for_loop for_range for_each seq fold_left].
    eapply fill_nth; eauto; lia.
  - destruct IH as [I1 I2]; [lia|]. unfold r. rewrite for_loop_S. split; [apply bufs_ok_fill; auto; lia|].
    intros j Hj. apply (fill_nth nb size); auto; try lia. destruct (Nat.eq_dec j (n + 1)); auto. right. apply I2. lia.
Qed.

Lemma fill_matrix nb size bufs n :
  bufs_ok nb size bufs -> 3 * n + 1 <= nb ->
  let r := for_loop n (fun j Aes =>
      let Aes := upd Aes (3 * j + 1) (fill0 (nth (3 * j + 1) Aes [])) in
      let Aes := upd Aes (3 * j + 2) (fill0 (nth (3 * j + 2) Aes [])) in
      upd Aes (3 * j + 3) (fill0 (nth (3 * j + 3) Aes []))) (upd bufs 0 (fill0 (nth 0 bufs []))) in
  bufs_ok nb size r /\ forall j, j < 3 * n + 1 -> nth j r [] = repeat 0%R size.
Proof.
  intros Hb. induction n as [|n IH]; intros Hn r.
  - split; [apply bufs_ok_fill; auto; lia|]. intros j Hj. unfold r. cbn [for_loop for_range for_each seq fold_left].
    eapply fill_nth; eauto; lia.
  - destruct IH as [I1 I2]; [lia|]. unfold r. rewrite for_loop_S. cbn zeta.
    set (r0 := for_loop n _ _) in *.
    assert (B1 := bufs_ok_fill _ _ _ (3 * n + 1) I1 ltac:(lia)). set (r1 := upd r0 (3 * n + 1) _) in *.
    assert (B2 := bufs_ok_fill _ _ _ (3 * n + 2) B1 ltac:(lia)). set (r2 := upd r1 (3 * n + 2) _) in *.
    assert (B3 := bufs_ok_fill _ _ _ (3 * n + 3) B2 ltac:(lia)).
    split; auto. intros j Hj.
    apply (fill_nth nb size); auto; try lia. destruct (Nat.eq_dec j (3 * n + 3)); auto. right.
    apply (fill_nth nb size); auto; try lia. destruct (Nat.eq_dec j (3 * n + 2)); auto. right.
    apply (fill_nth nb size); auto; try lia. destruct (Nat.eq_dec j (3 * n + 1)); auto. right. apply I2. lia.
Qed.

Lemma repeat_bufs_ok nb size : bufs_ok nb size (repeat (repeat 0%R size) nb).
Proof.
  split; [apply repeat_length|]. intros j Hj. rewrite (nth_indep _ _ (repeat 0%R size)) by (now rewrite repeat_length).
  rewrite nth_repeat_0. apply repeat_length.
Qed.

Lemma nth_repeat_bufs nb size j : j < nb -> nth j (repeat (repeat 0%R size) nb) [] = repeat 0%R size.
Proof. intros Hj. rewrite (nth_indep _ _ (repeat 0%R size)) by (now rewrite repeat_length). apply nth_repeat_0. Qed.

Lemma kernel_bufs_ok slots kernel nb size bufs row cst cd lf n qs :
  kernel_local slots kernel -> bufs_ok nb size bufs -> bufs_ok nb size (kernel bufs row cst cd lf n qs).
Proof.
  intros [K _] [H1 H2]. destruct (K bufs row cst cd lf n qs) as [K1 K2]. split; [congruence|].
  intros j Hj. rewrite K2. auto.
Qed.

Definition scratch_ok (a : assembly) (nb size : nat) (s : scratch) : Prop :=
  bufs_ok nb size (s_bufs s) /\ coords_ok a (s_coords s) /\ (a_max_links a = 0 -> s_linked s = []).

Lemma initial_scratch a nb size :
  scratch_ok a nb size (mkScratch (repeat (repeat 0%R size) nb) [] (repeat 0%R (3 * a_num_dofs_g a))).
Proof.
  split; [apply repeat_bufs_ok|]. split; auto. split; [apply repeat_length|]. intros. apply nth_repeat_0.
Qed.

Lemma linked_in_loop a s i : (a_max_links a = 0 -> s_linked s = []) ->
  (if 0 <? a_max_links a then linked_cells (a_map a i) (a_facet_map a) (a_parent a) else s_linked s) = links_of a i.
Proof.
  intros H. unfold links_of. destruct (Nat.eqb_spec (a_max_links a) 0) as [E|E].
  - rewrite E. cbn. auto.
  - destruct (Nat.ltb_spec 0 (a_max_links a)); [auto|lia].
Qed.

Lemma points_in_loop a i :
  (if 0 <? a_max_links a then q_indices_of (a_map a i) else []) = points_of a i.
Proof.
  unfold points_of. destruct (Nat.eqb_spec (a_max_links a) 0) as [E|E].
  - rewrite E. reflexivity.
  - destruct (Nat.ltb_spec 0 (a_max_links a)); [apply q_indices_spec|lia].
Qed.

(** ** One facet of assemble_vector *)
Lemma vector_facet_spec a kernel coeffs cstride constants i b s :
  let size := a_bs a * a_ndofs a in let nb := a_max_links a + 1 in
  kernel_local (fun n => n + 1) kernel -> well_formed a -> i < a_local a -> scratch_ok a nb size s ->
  let r := vector_facet a kernel coeffs cstride constants i (b, s) in
  let E := facet_result a kernel coeffs cstride constants nb size i in
  scratch_ok a nb size (snd r) /\ length (fst r) = length b /\
  forall d, d < length b -> nth d (fst r) 0%R =
    (nth d b 0 + (scattered a (nth (2 * i) (a_active a) 0%nat) (nth 0 E []) d
     + rsum (length (links_of a i)) (fun l => scattered a (nth l (links_of a i) 0%nat) (nth (l + 1) E []) d)))%R.
Proof.
  intros size nb HK (Hg & Hx & Hml) Hi (Hb & Hc & Hl0) r E.
  unfold r, vector_facet. cbn [fst snd]. rewrite (linked_in_loop a s i Hl0), points_in_loop.
  set (n := length (links_of a i)).
  assert (Hn : n <= a_max_links a) by (apply Hml; auto).
  destruct (load_coordinates_spec a (nth (2 * i) (a_active a) 0) (s_coords s) Hg (Hx i Hi) Hc) as [Ec Hc'].
  destruct (fill_vector nb size (s_bufs s) n Hb ltac:(unfold nb; lia)) as [F1 F2].
  set (bes := for_loop n _ _) in *.
  set (k := kernel bes _ _ _ _ _ _).
  assert (HE : forall j, j < n + 1 -> nth j k [] = nth j E []).
  { intros j Hj. unfold k, E, facet_result. fold n. rewrite Ec. apply (proj2 HK); auto.
    - destruct F1 as [-> _]. now rewrite repeat_length.
    - intros j' Hj'. rewrite F2 by auto. rewrite nth_repeat_bufs; auto. unfold nb. lia. }
  cbn [fst snd]. split; [|split].
  - split; [|split]; cbn [s_bufs s_coords s_linked].
    + eapply kernel_bufs_ok; eauto.
    + auto.
    + intros E0. unfold links_of. rewrite E0. auto.
  - destruct (length b) as [|lb] eqn:Elb.
    + assert (G : forall m b', length b' = 0 -> length (for_loop m (fun l b0 => add_local a (nth l (links_of a i) 0) (nth (l + 1) k []) b0) b') = 0).
      { induction m as [|m IH]; intros b' Hb'; auto. rewrite for_loop_S, add_local_length. auto. }
      apply G. now rewrite add_local_length.
    + destruct (add_loop_nth a (fun l => nth l (links_of a i) 0) (fun l => nth (l + 1) k []) n
        (add_local a (nth (2 * i) (a_active a) 0) (nth 0 k []) b) 0) as [_ G]; [rewrite add_local_length; lia|].
      rewrite G, add_local_length. auto.
  - intros d Hd.
    destruct (add_loop_nth a (fun l => nth l (links_of a i) 0) (fun l => nth (l + 1) k []) n
        (add_local a (nth (2 * i) (a_active a) 0) (nth 0 k []) b) d) as [G _]; [now rewrite add_local_length|].
    rewrite G, add_local_nth by auto. rewrite HE by lia.
    rewrite (rsum_ext n _ (fun l => scattered a (nth l (links_of a i) 0%nat) (nth (l + 1) E []) d)); [lra|].
    intros l Hl. rewrite HE by lia. auto.
Qed.

(** ** One facet of assemble_matrix *)
Lemma matrix_facet_spec a kernel coeffs cstride constants i out s :
  let size := a_bs a * a_ndofs a * a_bs a * a_ndofs a in let nb := 3 * a_max_links a + 1 in
  kernel_local (fun n => 3 * n + 1) kernel -> well_formed a -> i < a_local a -> scratch_ok a nb size s ->
  let r := matrix_facet a kernel coeffs cstride constants i (out, s) in
  let E := facet_result a kernel coeffs cstride constants nb size i in
  let dc := a_dofs a (nth (2 * i) (a_active a) 0) in
  scratch_ok a nb size (snd r) /\
  fst r = out ++ (dc, dc, nth 0 E []) ::
    flat_map (fun j => let dl := a_dofs a (nth j (links_of a i) 0) in
       [(dc, dl, nth (3 * j + 1) E []); (dl, dc, nth (3 * j + 2) E []); (dl, dl, nth (3 * j + 3) E [])])
      (seq 0 (length (links_of a i))).
Proof.
  intros size nb HK (Hg & Hx & Hml) Hi (Hb & Hc & Hl0) r E dc.
  unfold r, matrix_facet. cbn [fst snd]. rewrite (linked_in_loop a s i Hl0), points_in_loop.
  set (n := length (links_of a i)).
  assert (Hn : n <= a_max_links a) by (apply Hml; auto).
  destruct (load_coordinates_spec a (nth (2 * i) (a_active a) 0) (s_coords s) Hg (Hx i Hi) Hc) as [Ec Hc'].
  destruct (fill_matrix nb size (s_bufs s) n Hb ltac:(unfold nb; lia)) as [F1 F2].
  cbn zeta in F1, F2. set (Aes := for_loop n _ _) in *.
  set (k := kernel Aes _ _ _ _ _ _).
  assert (HE : forall j, j < 3 * n + 1 -> nth j k [] = nth j E []).
  { intros j Hj. unfold k, E, facet_result. fold n. rewrite Ec. apply (proj2 HK); auto.
    - destruct F1 as [-> _]. now rewrite repeat_length.
    - intros j' Hj'. rewrite F2 by auto. rewrite nth_repeat_bufs; auto. unfold nb. lia. }
  cbn [fst snd]. split.
  - split; [|split]; cbn [s_bufs s_coords s_linked].
    + eapply kernel_bufs_ok; eauto.
    + auto.
    + intros E0. unfold links_of. rewrite E0. auto.
  - fold dc.
    enough (G : forall m, m <= n -> for_loop m (fun j out =>
      let dl := a_dofs a (nth j (links_of a i) 0) in
      out ++ [(dc, dl, nth (3 * j + 1) k [])] ++ [(dl, dc, nth (3 * j + 2) k [])] ++ [(dl, dl, nth (3 * j + 3) k [])])
      (out ++ [(dc, dc, nth 0 k [])]) = out ++ (dc, dc, nth 0 E []) ::
      flat_map (fun j => let dl := a_dofs a (nth j (links_of a i) 0) in
       [(dc, dl, nth (3 * j + 1) E []); (dl, dc, nth (3 * j + 2) E []); (dl, dl, nth (3 * j + 3) E [])]) (seq 0 m)) by (apply G; auto).
    induction m as [|m IH]; intros Hm.
    + cbn [for_loop for_range for_each seq fold_left flat_map]. rewrite HE by lia. reflexivity.
    + rewrite for_loop_S, IH by lia. rewrite seq_S, flat_map_app. cbn [flat_map Nat.add app]. cbn zeta.
      rewrite !HE by lia. rewrite <- app_assoc. reflexivity.
Qed.
