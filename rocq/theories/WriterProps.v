(** C84: the contact pressures written by ContactWriter. *)
From Coq Require Import List Arith ZArith Lia Bool Reals Lra.
Import ListNotations.
From Verif Require Import Prelude PreludeLemmas RSum RayModel KernelModel CropMethodModel WriterModel KernelSpec ElasticityProps.
Local Open Scope R_scope.

(** ** Assignments at distinct positions *)
Lemma assign_length {A} (a : list A) idx v : length (assign a idx v) = length a.
Proof.
  unfold assign. generalize (combine idx v). intros l. revert a. induction l as [|[i x] l IH]; intros a; [reflexivity|]. cbn [fold_left fst snd]. now rewrite IH, upd_length.
Qed.
Lemma fold_other {A} (d : A) l : forall a k, ~ In k (map fst l) -> nth k (fold_left (fun a (iv : nat * A) => upd a (fst iv) (snd iv)) l a) d = nth k a d.
Proof.
  induction l as [|[i x] l IH]; intros a k H; [reflexivity|]. cbn [fold_left fst snd map In] in *. rewrite IH by tauto. apply nth_upd_other. tauto.
Qed.
Lemma fold_in {A} (d : A) l : forall a k x, NoDup (map fst l) -> In (k, x) l -> (k < length a)%nat -> nth k (fold_left (fun a (iv : nat * A) => upd a (fst iv) (snd iv)) l a) d = x.
Proof.
  induction l as [|[i y] l IH]; intros a k x ND HI HL; [destruct HI|]. cbn [fold_left fst snd map] in *. apply NoDup_cons_iff in ND as [N ND]. destruct HI as [E|HI].
  - injection E as -> ->. rewrite fold_other by exact N. now apply nth_upd_same.
  - apply IH; auto. now rewrite upd_length.
Qed.
Lemma map_fst_combine {A B} (l : list A) (m : list B) : length l = length m -> map fst (combine l m) = l.
Proof. revert m. induction l as [|x l IH]; intros [|y m] H; try discriminate; [reflexivity|]. cbn [combine map fst]. f_equal. apply IH. now injection H. Qed.
Lemma in_combine_nth {A B} (l : list A) (m : list B) i x y : nth_error l i = Some x -> nth_error m i = Some y -> In (x, y) (combine l m).
Proof.
  revert m i. induction l as [|a l IH]; intros m i Hx Hy; [destruct i; discriminate|]. destruct m as [|b m]; [destruct i; discriminate|].
  destruct i as [|i]; cbn [nth_error] in *; [injection Hx as ->; injection Hy as ->; now left|]. right. now apply (IH m i).
Qed.

(** ** The inverse numbering *)
Lemma msh_to_fm_spec num_facets fm p : NoDup fm -> (forall f, In f fm -> (f < num_facets)%nat) -> (p < length fm)%nat ->
  nth (nth p fm 0%nat) (msh_to_fm num_facets fm) 0%Z = Z.of_nat p.
Proof.
  intros ND HF Hp. unfold msh_to_fm, assign. apply fold_in.
  - rewrite map_fst_combine; [exact ND|]. now rewrite map_length, seq_length.
  - apply in_combine_nth with (i := p); [now apply nth_error_nth'|]. apply map_nth_error. rewrite nth_error_nth' with (d := 0%nat) by (rewrite seq_length; exact Hp). now rewrite seq_nth.
  - rewrite repeat_length. now apply HF, nth_In.
Qed.

(** Each facet of the mesh: its position in the facet mesh, or -1 when it is not there. *)
Theorem C84_inverse_numbering :
  forall num_facets fm, NoDup fm -> (forall f, In f fm -> (f < num_facets)%nat) ->
    length (msh_to_fm num_facets fm) = num_facets /\
    forall f, (f < num_facets)%nat -> (forall p, nth_error fm p = Some f -> nth f (msh_to_fm num_facets fm) 0%Z = Z.of_nat p) /\ (~ In f fm -> nth f (msh_to_fm num_facets fm) 0%Z = (-1)%Z).
Proof.
  intros num_facets fm ND HF. split; [unfold msh_to_fm; now rewrite assign_length, repeat_length|]. intros f Hf. split.
  - intros p Hp. pose proof (nth_error_Some fm p) as L. rewrite Hp in L. rewrite <- (nth_error_nth fm p 0%nat Hp). apply msh_to_fm_spec; auto. apply L. discriminate.
  - intros N. unfold msh_to_fm, assign. rewrite fold_other; [|rewrite map_fst_combine; [exact N|now rewrite map_length, seq_length]]. rewrite nth_indep with (d' := (-1)%Z) by now rewrite repeat_length. apply nth_repeat.
Qed.
Example C84_numbering_nonvacuous : msh_to_fm 5 [3; 1]%nat = [-1; 1; -1; 0; -1]%Z.
Proof. reflexivity. Qed.

(** ** Blocks of positions *)
Lemma blocks_nth (g : nat -> nat) nq l i q : (i < length l)%nat -> (q < nq)%nat ->
  nth_error (flat_map (fun f => seq (g f * nq) nq) l) (i * nq + q) = Some (g (nth i l 0%nat) * nq + q)%nat.
Proof.
  revert i. induction l as [|f l IH]; intros i Hi Hq; cbn [length] in Hi; [lia|]. cbn [flat_map]. destruct i as [|i].
  - rewrite nth_error_app1 by (rewrite seq_length; lia). cbn [Nat.mul Nat.add nth]. rewrite nth_error_nth' with (d := 0%nat) by (rewrite seq_length; lia). now rewrite seq_nth.
  - rewrite nth_error_app2 by (rewrite seq_length; lia). rewrite seq_length. replace (S i * nq + q - nq)%nat with (i * nq + q)%nat by lia. cbn [nth]. apply IH; lia.
Qed.
Lemma blocks_length (g : nat -> nat) nq l : length (flat_map (fun f => seq (g f * nq) nq) l) = (length l * nq)%nat.
Proof. induction l as [|f l IH]; [reflexivity|]. cbn [flat_map length Nat.mul]. rewrite app_length, seq_length, IH. lia. Qed.
Lemma blocks_in (g : nat -> nat) nq l d : In d (flat_map (fun f => seq (g f * nq) nq) l) -> exists f, In f l /\ (0 < nq)%nat /\ (d / nq)%nat = g f.
Proof.
  intros H. apply in_flat_map in H as (f & Hf & H). apply in_seq in H. exists f. split; [exact Hf|]. split; [lia|].
  symmetry. apply Nat.div_unique with (r := (d - g f * nq)%nat); lia.
Qed.
Lemma NoDup_app_intro {A} (u v : list A) : NoDup u -> NoDup v -> (forall x, In x u -> ~ In x v) -> NoDup (u ++ v).
Proof.
  intros Hu Hv D. induction u as [|x u IH]; [exact Hv|]. apply NoDup_cons_iff in Hu as [N Hu]. cbn [app]. constructor.
  - intros H. apply in_app_or in H as [H|H]; [tauto|]. now apply (D x); [left|].
  - apply IH; [exact Hu|]. intros y Hy. apply D. now right.
Qed.
Lemma blocks_nodup (g : nat -> nat) nq l : NoDup l -> (forall a b, In a l -> In b l -> g a = g b -> a = b) -> NoDup (flat_map (fun f => seq (g f * nq) nq) l).
Proof.
  intros ND GI. induction l as [|f l IH]; [constructor|]. apply NoDup_cons_iff in ND as [N ND]. cbn [flat_map]. apply NoDup_app_intro.
  - apply seq_NoDup.
  - apply IH; [exact ND|]. intros a b Ha Hb. apply GI; now right.
  - intros d Hd Hd'. apply blocks_in in Hd' as (f' & Hf' & Hq & E). apply in_seq in Hd.
    assert (E2 : (d / nq)%nat = g f) by (symmetry; apply Nat.div_unique with (r := (d - g f * nq)%nat); lia).
    apply N. replace f with f'; [exact Hf'|]. apply GI; [now right|now left|congruence].
Qed.

Section Write.
  Context (gdim : nat) (c_to_f : nat -> list nat) (num_facets : nat) (fm_to_msh : list nat).
  Notation write pass := (write_forces gdim c_to_f num_facets fm_to_msh pass).

  (** The packers return arrays with two axes (wrappers.cpp:300-315, 460 ff.). *)
  Definition packed (w : writer_pair) (nq : nat) : Prop :=
    nd_shape (wp_grad w) = [length (wp_entities w); (nq * gdim * gdim)%nat] /\ nd_shape (wp_nx w) = [length (wp_entities w); (nq * gdim)%nat] /\ wp_material w <> [].

  (** As the code is, every call fails at the first pair. *)
  Theorem C84_write_raises_exact :
    forall (w : writer_pair) (pairs : list writer_pair) (nq : nat) (pn pt : list R),
      packed w nq -> write (fun a => a) (w :: pairs) pn pt = WTypeError.
  Proof.
    intros w pairs nq pn pt (Hg & Hn & Hm). unfold write_forces. cbn [pair_forces]. destruct (wp_material w) as [|[mu lm] r]; [congruence|].
    unfold wrapped_contact_forces. rewrite Hg. reflexivity.
  Qed.

  (** The traction of pair [w] at point [q] of its facet [i], and the contact normal. *)
  Definition pair_traction (w : writer_pair) (nq i q : nat) (k : nat) : R :=
    let '(mu, lmbda) := hd (0, 0) (wp_material w) in
    traction gdim mu lmbda (fun a b => nth ((i * nq + q) * (gdim * gdim) + a * gdim + b)%nat (nd_data (wp_grad w)) 0)
      (fun b => nth ((i * nq + q) * gdim + b)%nat (nd_data (wp_nx w)) 0) k.
  Definition pair_normal (w : writer_pair) (nq i q : nat) (k : nat) : R := nth ((i * nq + q) * gdim + k) (wp_normal w) 0.

  (** ** With flat arrays *)
  Context (nq : nat).
  (** The facet of the mesh that a (cell, local facet) pair names. *)
  Definition mesh_facet (e : nat * nat) : nat := nth (snd e) (c_to_f (fst e)) 0%nat.
  Definition all_facets (pairs : list writer_pair) : list nat := flat_map (fun w => map mesh_facet (wp_entities w)) pairs.

  Definition pair_split (w : writer_pair) : list R * list R :=
    let '(mu, lmbda) := hd (0, 0) (wp_material w) in
    split_forces gdim (compute_contact_forces (nd_data (wp_grad w)) (nd_data (wp_nx w)) nq (length (wp_entities w)) gdim mu lmbda) (wp_normal w) (length (wp_entities w) * nq).

  Lemma forces_flat pairs : (0 < gdim)%nat -> (forall w, In w pairs -> packed w nq) ->
    pair_forces gdim flat pairs = Forces (map pair_split pairs).
  Proof.
    intros Hg. induction pairs as [|w pairs IH]; intros H; [reflexivity|]. cbn [pair_forces map].
    destruct (H w (or_introl eq_refl)) as (Sg & Sn & Sm). unfold pair_split at 1. destruct (wp_material w) as [|[mu lm] r]; [congruence|]. cbn [hd].
    unfold wrapped_contact_forces. cbn [flat nd_shape nd_data length Nat.eqb andb]. rewrite IH by (intros; apply H; now right). rewrite Sn. cbn [nth].
    rewrite Nat.div_mul by lia. reflexivity.
  Qed.
  Lemma pair_split_length w : length (fst (pair_split w)) = (length (wp_entities w) * nq)%nat /\ length (snd (pair_split w)) = (length (wp_entities w) * nq)%nat.
  Proof. unfold pair_split. destruct (hd _ _) as [mu lm]. unfold split_forces. cbn [fst snd]. now rewrite !map_length, !seq_length. Qed.
  Lemma pair_split_nth w i q : (i < length (wp_entities w))%nat -> (q < nq)%nat ->
    let s := pair_traction w nq i q in let n := pair_normal w nq i q in
    let pn := rsum gdim (fun k => s k * n k) in
    nth_error (fst (pair_split w)) (i * nq + q) = Some pn /\
    nth_error (snd (pair_split w)) (i * nq + q) = Some (sqrt (rsum gdim (fun k => (s k - n k * pn) * (s k - n k * pn)))).
  Proof.
    intros Hi Hq. cbv zeta. unfold pair_split, pair_traction. destruct (hd (0, 0) (wp_material w)) as [mu lm].
    set (sign := compute_contact_forces _ _ _ _ _ _ _). unfold split_forces. cbn [fst snd].
    assert (HP : (i * nq + q < length (wp_entities w) * nq)%nat) by nia.
    assert (E : forall k, (k < gdim)%nat -> nth ((i * nq + q) * gdim + k) sign 0 = traction gdim mu lm (fun a b => nth ((i * nq + q) * (gdim * gdim) + a * gdim + b)%nat (nd_data (wp_grad w)) 0) (fun b => nth ((i * nq + q) * gdim + b)%nat (nd_data (wp_nx w)) 0) k).
    { intros k Hk. replace ((i * nq + q) * gdim + k)%nat with (i * nq * gdim + q * gdim + k)%nat by lia. now apply C66_contact_forces. }
    set (s := traction _ _ _ _ _) in *.
    assert (NF : normal_force gdim sign (wp_normal w) (i * nq + q) = rsum gdim (fun k => s k * pair_normal w nq i q k)).
    { unfold normal_force. apply rsum_ext. intros k Hk. now rewrite E. }
    assert (S0 : nth_error (seq 0 (length (wp_entities w) * nq)) (i * nq + q) = Some (i * nq + q)%nat).
    { rewrite nth_error_nth' with (d := 0%nat) by (rewrite seq_length; exact HP). now rewrite seq_nth. }
    rewrite !(map_nth_error _ _ _ S0). split; f_equal; [exact NF|]. unfold tangential_force. f_equal. apply rsum_ext. intros k Hk. cbv zeta. rewrite NF, E by exact Hk. reflexivity.
  Qed.

  (** Storing all pairs is one sequence of assignments. *)
  Lemma store_all pairs : (forall w, In w pairs -> wp_entities w <> []) -> forall pn pt,
    store c_to_f num_facets fm_to_msh nq pairs (map pair_split pairs) pn pt =
    Wrote (fold_left (fun a (iv : nat * R) => upd a (fst iv) (snd iv)) (flat_map (fun w => combine (pair_dofs c_to_f num_facets fm_to_msh nq w) (fst (pair_split w))) pairs) pn)
          (fold_left (fun a (iv : nat * R) => upd a (fst iv) (snd iv)) (flat_map (fun w => combine (pair_dofs c_to_f num_facets fm_to_msh nq w) (snd (pair_split w))) pairs) pt).
  Proof.
    induction pairs as [|w pairs IH]; intros H pn pt; [reflexivity|]. cbn [store map flat_map].
    destruct (wp_entities w) as [|e r] eqn:E; [exfalso; apply (H w); [now left|exact E]|].
    rewrite !fold_left_app. apply IH. intros; apply H; now right.
  Qed.

  Lemma flat_map_fst {B} (f : writer_pair -> list nat) (g : writer_pair -> list B) pairs : (forall w, In w pairs -> length (f w) = length (g w)) ->
    map fst (flat_map (fun w => combine (f w) (g w)) pairs) = flat_map f pairs.
  Proof.
    induction pairs as [|w pairs IH]; intros H; [reflexivity|]. cbn [flat_map]. rewrite map_app, map_fst_combine by (apply H; now left). f_equal. apply IH. intros; apply H; now right.
  Qed.
  Lemma all_dofs pairs : flat_map (pair_dofs c_to_f num_facets fm_to_msh nq) pairs =
    flat_map (fun f => seq (Z.to_nat (nth f (msh_to_fm num_facets fm_to_msh) 0%Z) * nq) nq) (all_facets pairs).
  Proof.
    unfold all_facets. induction pairs as [|w pairs IH]; [reflexivity|]. cbn [flat_map]. rewrite flat_map_app, <- IH. reflexivity.
  Qed.

  (** The facet mesh consists of the facets of all pairs, each once, and no facet is in two
      pairs: then every point gets the normal and the tangential part of its traction. *)
  Theorem C84_flat_arrays_write :
    forall (pairs : list writer_pair) (pn pt : list R),
      (0 < gdim)%nat -> (0 < nq)%nat -> pairs <> [] ->
      (forall w, In w pairs -> packed w nq /\ wp_entities w <> []) ->
      NoDup (all_facets pairs) -> NoDup fm_to_msh -> (forall f, In f fm_to_msh <-> In f (all_facets pairs)) -> (forall f, In f fm_to_msh -> (f < num_facets)%nat) ->
      length pn = (length fm_to_msh * nq)%nat -> length pt = length pn ->
      exists pn' pt', write flat pairs pn pt = Wrote pn' pt' /\ length pn' = length pn /\ length pt' = length pt /\
        forall w i q b, In w pairs -> (i < length (wp_entities w))%nat -> (q < nq)%nat -> (b < length fm_to_msh)%nat ->
          nth b fm_to_msh 0%nat = mesh_facet (nth i (wp_entities w) (0, 0)%nat) ->
          let s := pair_traction w nq i q in let n := pair_normal w nq i q in
          let normal := rsum gdim (fun k => s k * n k) in
          nth (b * nq + q) pn' 0 = normal /\
          nth (b * nq + q) pt' 0 = sqrt (rsum gdim (fun k => (s k - n k * normal) * (s k - n k * normal))).
  Proof.
    intros pairs pn pt Hg Hq Hne HW ND NF HF HB Lpn Lpt. unfold write_forces. rewrite forces_flat by (auto; intros; now apply HW).
    destruct pairs as [|w0 rest] eqn:EP; [congruence|]. rewrite <- EP in *.
    assert (EM : map pair_split pairs = pair_split w0 :: map pair_split rest) by (rewrite EP; reflexivity).
    assert (H0 : In w0 pairs) by (rewrite EP; now left).
    replace (match map pair_split pairs with [] => _ | _ :: _ => _ end) with
      (if (length (wp_entities w0) =? 0)%nat then WZeroDivisionError else store c_to_f num_facets fm_to_msh (length (fst (pair_split w0)) / length (wp_entities w0)) pairs (map pair_split pairs) pn pt) by (rewrite EP; reflexivity).
    destruct (Nat.eqb_spec (length (wp_entities w0)) 0) as [Z0|Z0].
    { exfalso. apply (proj2 (HW w0 H0)). destruct (wp_entities w0); [reflexivity|discriminate]. }
    rewrite (proj1 (pair_split_length w0)), Nat.mul_comm, Nat.div_mul by exact Z0.
    rewrite store_all by (intros; now apply HW).
    set (fm := fun f => Z.to_nat (nth f (msh_to_fm num_facets fm_to_msh) 0%Z)).
    assert (FM : forall b, (b < length fm_to_msh)%nat -> fm (nth b fm_to_msh 0%nat) = b) by (intros b Hb; unfold fm; rewrite msh_to_fm_spec by auto; apply Nat2Z.id).
    assert (DL : forall w, length (pair_dofs c_to_f num_facets fm_to_msh nq w) = (length (wp_entities w) * nq)%nat).
    { intros w. unfold pair_dofs. etransitivity; [apply (blocks_length fm)|]. unfold facet_list. now rewrite map_length. }
    assert (NDD : NoDup (flat_map (pair_dofs c_to_f num_facets fm_to_msh nq) pairs)).
    { rewrite all_dofs. apply (blocks_nodup fm); [exact ND|]. intros a b Ha Hb E. apply HF in Ha, Hb.
      destruct (In_nth _ _ 0%nat Ha) as (i & Hi & <-). destruct (In_nth _ _ 0%nat Hb) as (j & Hj & <-). rewrite !FM in E by auto. now subst. }
    assert (FL : forall l a, length (fold_left (fun a (iv : nat * R) => upd a (fst iv) (snd iv)) l a) = length a).
    { induction l as [|[i x] l IHl]; intros a; [reflexivity|]. cbn [fold_left fst snd]. now rewrite IHl, upd_length. }
    do 2 eexists. split; [reflexivity|]. split; [apply FL|]. split; [apply FL|].
    intros w i q b Hw Hi Hqq Hb Eb. cbv zeta. assert (Eb' : nth b fm_to_msh 0%nat = nth i (facet_list c_to_f (wp_entities w)) 0%nat) by (unfold facet_list; rewrite (nth_map_lt _ _ i 0%nat (0, 0)%nat) by exact Hi; exact Eb). clear Eb. rename Eb' into Eb.
    destruct (pair_split_nth w i q Hi Hqq) as [E1 E2]. cbv zeta in E1, E2.
    assert (ED : nth_error (pair_dofs c_to_f num_facets fm_to_msh nq w) (i * nq + q) = Some (b * nq + q)%nat).
    { unfold pair_dofs. etransitivity; [apply (blocks_nth fm)|]; [unfold facet_list; now rewrite map_length|exact Hqq|]. rewrite <- Eb, FM by exact Hb. reflexivity. }
    split.
    - apply fold_in.
      + rewrite flat_map_fst; [exact NDD|]. intros w' _. rewrite DL. symmetry. apply pair_split_length.
      + apply in_flat_map. exists w. split; [exact Hw|]. now apply in_combine_nth with (i := (i * nq + q)%nat).
      + rewrite Lpn. nia.
    - apply fold_in.
      + rewrite flat_map_fst; [exact NDD|]. intros w' _. rewrite DL. symmetry. apply pair_split_length.
      + apply in_flat_map. exists w. split; [exact Hw|]. now apply in_combine_nth with (i := (i * nq + q)%nat).
      + rewrite Lpt, Lpn. nia.
  Qed.
End Write.
Print Assumptions C84_inverse_numbering.
Print Assumptions C84_write_raises_exact.
Print Assumptions C84_flat_arrays_write.

(** The promise, for the code as it is. *)
Theorem C84_write_stores_forces_refuted :
  ~ (forall gdim c_to_f num_facets fm_to_msh nq pairs pn pt,
       (0 < gdim)%nat -> (0 < nq)%nat -> pairs <> [] ->
       (forall w, In w pairs -> packed gdim w nq /\ wp_entities w <> []) ->
       NoDup (all_facets c_to_f pairs) -> NoDup fm_to_msh -> (forall f, In f fm_to_msh <-> In f (all_facets c_to_f pairs)) -> (forall f, In f fm_to_msh -> (f < num_facets)%nat) ->
       length pn = (length fm_to_msh * nq)%nat -> length pt = length pn ->
       exists pn' pt', write_forces gdim c_to_f num_facets fm_to_msh (fun a => a) pairs pn pt = Wrote pn' pt').
Proof.
  intros H.
  set (w := mkWriterPair [(0, 0)%nat] (mkArray [1; 4]%nat [1; 2; 3; 4]) (mkArray [1; 2]%nat [1; 0]) [1; 0] [(1, 10)]).
  assert (P : packed 2 w 1) by (repeat split; discriminate).
  destruct (H 2%nat (fun _ => [7%nat]) 8%nat [7%nat] 1%nat [w] [0] [0]) as (a & b & E); try lia; try discriminate; try reflexivity.
  - intros w' [<-|[]]. split; [exact P|discriminate].
  - repeat constructor. intros [].
  - repeat constructor. intros [].
  - intros f [<-|[]]. lia.
Qed.
Print Assumptions C84_write_stores_forces_refuted.

(** Normal and tangential part belong together: with a unit normal their squares sum to
    the square of the traction. *)
Theorem C84_parts_of_traction :
  forall (gdim : nat) (s n : nat -> R), rsum gdim (fun k => n k * n k) = 1 ->
    let pn := rsum gdim (fun k => s k * n k) in
    let pt := sqrt (rsum gdim (fun k => (s k - n k * pn) * (s k - n k * pn))) in
    pn * pn + pt * pt = rsum gdim (fun k => s k * s k).
Proof.
  intros gdim s n U pn pt. unfold pt. rewrite sqrt_sqrt by (apply rsum_nonneg; intros; apply Rle_0_sqr).
  rewrite (rsum_ext gdim (fun k => (s k - n k * pn) * (s k - n k * pn)) (fun k => (s k * s k - (2 * pn) * (s k * n k)) + (pn * pn) * (n k * n k))) by (intros; ring).
  rewrite rsum_plus, rsum_minus, !rsum_scal, U. unfold pn. ring.
Qed.
Print Assumptions C84_parts_of_traction.

Example C84_nonvacuous :
  let w := mkWriterPair [(0, 0)%nat; (1, 1)%nat] (mkArray [2; 4]%nat [1; 2; 3; 4; 1; 2; 3; 4]) (mkArray [2; 2]%nat [1; 0; 0; 1]) [1; 0; 0; 1] [(1, 10)] in
  let c_to_f := fun c => match c with O => [7; 5]%nat | _ => [5; 6]%nat end in
  packed 2 w 1 /\ wp_entities w <> [] /\ NoDup (all_facets c_to_f [w]) /\ (forall f, In f [6; 7]%nat <-> In f (all_facets c_to_f [w])) /\
  pair_dofs c_to_f 8 [6; 7]%nat 1 w = [1; 0]%nat.
Proof.
  cbv zeta. split; [repeat split; discriminate|]. split; [discriminate|]. split; [repeat constructor; cbn; lia|]. split; [|reflexivity].
  intros f. cbn. tauto.
Qed.
