(** C133: positions of the facet mesh while and after output is written (output.py:135-149, 238-241). *)
From Coq Require Import List Arith ZArith Lia Bool Reals Lra.
Import ListNotations.
From Verif Require Import Prelude PreludeLemmas WriterModel WriterProps FacetProjectionModel.
Local Open Scope R_scope.

Section FacetProjectionProps.
  Context (c_to_f : nat -> list nat) (num_facets : nat) (fm_to_msh : list nat) (geometry_nodes : nat -> list nat).
  Notation nodes := (pair_nodes c_to_f num_facets fm_to_msh geometry_nodes).
  Notation flatten1 := (flatten_pair c_to_f num_facets fm_to_msh geometry_nodes).
  Notation flat := (project c_to_f num_facets fm_to_msh geometry_nodes).
  Notation run := (write_all c_to_f num_facets fm_to_msh geometry_nodes).

  (** Node [v] belongs to a cell of the facet mesh that is a facet of one of the pair's entities. *)
  Definition on_surface (p : surface_projection) (v : nat) : Prop :=
    exists cell local c, In (cell, local) (pr_entities p) /\ nth_error fm_to_msh c = Some (nth local (c_to_f cell) 0%nat) /\ In v (geometry_nodes c).
  (** The facet mesh holds distinct facets of the mesh, all facets of the pairs among them. *)
  Definition facet_mesh_of (pairs : list surface_projection) : Prop :=
    NoDup fm_to_msh /\ (forall f, In f fm_to_msh -> (f < num_facets)%nat) /\
    forall p cell local, In p pairs -> In (cell, local) (pr_entities p) -> In (nth local (c_to_f cell) 0%nat) fm_to_msh.

  Lemma in_pair_nodes pairs p v : facet_mesh_of pairs -> In p pairs -> (In v (nodes p) <-> on_surface p v).
  Proof.
    intros (ND & HF & HP) Hp. unfold pair_nodes, facet_list. rewrite in_flat_map.
    assert (K : forall c f, nth_error fm_to_msh c = Some f -> Z.to_nat (nth f (msh_to_fm num_facets fm_to_msh) 0%Z) = c).
    { intros c f E. destruct (C84_inverse_numbering num_facets fm_to_msh ND HF) as [_ I].
      assert (Hf : (f < num_facets)%nat) by (apply HF; now apply nth_error_In in E).
      destruct (I f Hf) as [I1 _]. rewrite (I1 c E). apply Nat2Z.id. }
    split.
    - intros (f & Hf & Hv). apply in_map_iff in Hf. destruct Hf as ([cell local] & <- & He). cbn [fst snd] in Hv.
      destruct (In_nth_error _ _ (HP p cell local Hp He)) as [c Hc].
      exists cell, local, c. rewrite (K c _ Hc) in Hv. auto.
    - intros (cell & local & c & He & Hc & Hv). exists (nth local (c_to_f cell) 0%nat). split.
      + apply in_map_iff. exists (cell, local). auto.
      + now rewrite (K c _ Hc).
  Qed.

  Lemma upds_length (l : list nat) (a : nat) (r : R) (x : list R) : length (for_each l (fun v x => upd x (3 * v + a) r) x) = length x.
  Proof. revert x. induction l as [|v l IH]; intros x; [reflexivity|]. unfold for_each in *. cbn [fold_left]. rewrite IH. apply upd_length. Qed.
  Lemma upds_nth (l : list nat) (a : nat) (r : R) (Ha : (a < 3)%nat) v d (Hd : (d < 3)%nat) : forall x, (3 * v + d < length x)%nat ->
    (In v l /\ d = a -> nth (3 * v + d) (for_each l (fun v x => upd x (3 * v + a) r) x) 0 = r) /\
    (~ (In v l /\ d = a) -> nth (3 * v + d) (for_each l (fun v x => upd x (3 * v + a) r) x) 0 = nth (3 * v + d) x 0).
  Proof.
    induction l as [|w l IH]; intros x Hx; [split; [intros [[] _] | reflexivity]|].
    unfold for_each in *. cbn [fold_left]. specialize (IH (upd x (3 * w + a) r)). rewrite upd_length in IH. specialize (IH Hx).
    destruct IH as [I1 I2]. split.
    - intros [Hv ->]. destruct (in_dec Nat.eq_dec v l) as [H|H]; [apply I1; auto|].
      destruct Hv as [->|Hv]; [|now destruct H]. rewrite I2 by (intros [? _]; auto). now apply nth_upd_same.
    - intros N. rewrite I2 by (intros [H ->]; apply N; split; [now right | reflexivity]).
      apply nth_upd_other. intros E. apply N. assert (w = v /\ d = a) as [-> ->] by lia. split; [now left | reflexivity].
  Qed.
  Lemma flatten_length p x : length (flatten1 p x) = length x.
  Proof. apply upds_length. Qed.
  Lemma project_length pairs : forall x, length (flat pairs x) = length x.
  Proof. induction pairs as [|p l IH]; intros x; [reflexivity|]. unfold project, for_each in *. cbn [fold_left]. rewrite IH. apply flatten_length. Qed.
  Lemma project_snoc pairs p x : flat (pairs ++ [p]) x = flatten1 p (flat pairs x).
  Proof. unfold project, for_each. now rewrite fold_left_app. Qed.
  Lemma project_app l l' x : flat (l ++ l') x = flat l' (flat l x).
  Proof. unfold project, for_each. now rewrite fold_left_app. Qed.

  Lemma project_untouched v d (Hd : (d < 3)%nat) pairs : (forall p, In p pairs -> (pr_axis p < 3)%nat) ->
    (forall p, In p pairs -> ~ (In v (nodes p) /\ d = pr_axis p)) ->
    forall x, (3 * v + d < length x)%nat -> nth (3 * v + d) (flat pairs x) 0 = nth (3 * v + d) x 0.
  Proof.
    induction pairs as [|p l IH]; intros A N x Hx; [reflexivity|].
    unfold project, for_each in *. cbn [fold_left]. rewrite IH.
    - apply (proj2 (upds_nth (nodes p) (pr_axis p) (pr_value p) (A p (or_introl eq_refl)) v d Hd x Hx)). apply N. now left.
    - intros q Hq. apply A. now right.
    - intros q Hq. apply N. now right.
    - now rewrite flatten_length.
  Qed.

  (** In the file, each node of a contact surface has the surface's value in the surface's direction (of the last pair that
      gives one), and every other coordinate is that of the facet mesh. *)
  Theorem C133_written_positions :
    forall pairs x v d, facet_mesh_of pairs -> (forall p, In p pairs -> (pr_axis p < 3)%nat) ->
      (d < 3)%nat -> (3 * v + d < length x)%nat ->
      (forall before p after, pairs = before ++ p :: after -> on_surface p v -> pr_axis p = d ->
         (forall q, In q after -> on_surface q v -> pr_axis q <> d) ->
         nth (3 * v + d) (flat pairs x) 0 = pr_value p) /\
      ((forall p, In p pairs -> on_surface p v -> pr_axis p <> d) -> nth (3 * v + d) (flat pairs x) 0 = nth (3 * v + d) x 0).
  Proof.
    intros pairs x v d FM A Hd Hx. split.
    - intros before p after E Hp Ax Later.
      assert (Ip : In p pairs) by (rewrite E; apply in_or_app; right; now left).
      assert (Ia : forall q, In q after -> In q pairs) by (intros q Hq; rewrite E; apply in_or_app; right; now right).
      rewrite E. replace (before ++ p :: after) with ((before ++ [p]) ++ after) by (now rewrite <- app_assoc).
      rewrite project_app, project_snoc. rewrite project_untouched; [| exact Hd | auto | |].
      + apply (proj1 (upds_nth (nodes p) (pr_axis p) (pr_value p) (A p Ip) v d Hd _ ltac:(rewrite project_length; exact Hx))).
        split; [|now symmetry]. apply (in_pair_nodes pairs p v FM Ip). exact Hp.
      + intros q Hq [Hv Eq]. apply (Later q Hq); [|now symmetry]. apply (in_pair_nodes pairs q v FM (Ia q Hq)). exact Hv.
      + rewrite flatten_length, project_length. exact Hx.
    - intros N. apply project_untouched; auto. intros p Hp [Hv Eq]. apply (N p Hp); [|now symmetry].
      apply (in_pair_nodes pairs p v FM Hp). exact Hv.
  Qed.

  (** Projecting a projected mesh changes nothing. *)
  Lemma project_twice pairs : (forall p, In p pairs -> (pr_axis p < 3)%nat) -> forall x n, length x = (3 * n)%nat -> flat pairs (flat pairs x) = flat pairs x.
  Proof.
    intros A x n L. apply (nth_ext _ _ 0 0); [now rewrite !project_length|].
    intros i Hi. rewrite !project_length in Hi.
    assert (Ei : exists v d, i = (3 * v + d)%nat /\ (d < 3)%nat).
    { exists (i / 3)%nat, (i mod 3)%nat. split; [apply Nat.div_mod; lia | apply Nat.mod_upper_bound; lia]. }
    destruct Ei as (v & d & -> & Hd). clear L.
    assert (S : forall l, (forall p, In p l -> (pr_axis p < 3)%nat) ->
      (forall x, (3 * v + d < length x)%nat -> nth (3 * v + d) (flat l x) 0 = nth (3 * v + d) x 0) \/
      (exists r, forall x, (3 * v + d < length x)%nat -> nth (3 * v + d) (flat l x) 0 = r)).
    { induction l as [|p l IH] using rev_ind; intros Al; [left; reflexivity|].
      assert (Ap : (pr_axis p < 3)%nat) by (apply Al, in_or_app; right; now left).
      destruct (in_dec Nat.eq_dec v (nodes p)) as [Hv|Hv]; [destruct (Nat.eq_dec d (pr_axis p)) as [Ed|Ed]|].
      - right. exists (pr_value p). intros y Hy. rewrite project_snoc.
        apply (proj1 (upds_nth (nodes p) (pr_axis p) (pr_value p) Ap v d Hd _ ltac:(rewrite project_length; exact Hy))). auto.
      - assert (U : forall y, (3 * v + d < length y)%nat -> nth (3 * v + d) (flat (l ++ [p]) y) 0 = nth (3 * v + d) (flat l y) 0).
        { intros y Hy. rewrite project_snoc.
          apply (proj2 (upds_nth (nodes p) (pr_axis p) (pr_value p) Ap v d Hd _ ltac:(rewrite project_length; exact Hy))). tauto. }
        destruct IH as [I|[r I]]; [intros q Hq; apply Al, in_or_app; now left| left | right; exists r]; intros y Hy; rewrite U by exact Hy; now apply I.
      - assert (U : forall y, (3 * v + d < length y)%nat -> nth (3 * v + d) (flat (l ++ [p]) y) 0 = nth (3 * v + d) (flat l y) 0).
        { intros y Hy. rewrite project_snoc.
          apply (proj2 (upds_nth (nodes p) (pr_axis p) (pr_value p) Ap v d Hd _ ltac:(rewrite project_length; exact Hy))). tauto. }
        destruct IH as [I|[r I]]; [intros q Hq; apply Al, in_or_app; now left| left | right; exists r]; intros y Hy; rewrite U by exact Hy; now apply I. }
    destruct (S pairs A) as [U|[r U]]; rewrite !U; rewrite ?project_length; auto.
  Qed.
  Lemma restored geom x : length x = length geom -> restore geom x = geom.
  Proof.
    intros L. unfold restore. rewrite L. clear L x. apply (nth_ext _ _ 0 0); [now rewrite map_length, seq_length|].
    intros i Hi. rewrite map_length, seq_length in Hi. rewrite nth_indep with (d' := (fun i => nth i geom 0) 0%nat) by now rewrite map_length, seq_length.
    rewrite (map_nth (fun i => nth i geom 0)), seq_nth by exact Hi. reflexivity.
  Qed.

  Lemma run_flat pairs n (A : forall p, In p pairs -> (pr_axis p < 3)%nat) oks : forall x, length x = (3 * n)%nat -> flat pairs x = x ->
    run pairs oks x = (map (fun _ => x) oks, x).
  Proof.
    induction oks as [|ok oks IH]; intros x L E; [reflexivity|]. cbn [write_all map]. unfold write_positions. rewrite E.
    rewrite restored by reflexivity. destruct ok; rewrite (IH x L E); reflexivity.
  Qed.

  (** Whatever calls return or raise, every call shows the flattened surfaces of the original mesh; the positions left behind
      are the original ones exactly when every call returned (or flattening changes nothing). *)
  Theorem C133_positions_after_output :
    forall pairs n x oks, (forall p, In p pairs -> (pr_axis p < 3)%nat) -> length x = (3 * n)%nat ->
      fst (run pairs oks x) = map (fun _ => flat pairs x) oks /\
      (Forall (fun ok => ok = true) oks -> snd (run pairs oks x) = x) /\
      (Exists (fun ok => ok = false) oks -> snd (run pairs oks x) = flat pairs x).
  Proof.
    intros pairs n x oks A L. induction oks as [|ok oks IH].
    - repeat split. intros E. inversion E.
    - cbn [write_all]. unfold write_positions. destruct ok.
      + rewrite restored by apply project_length. destruct (run pairs oks x) as [later y] eqn:Er. cbn [fst snd] in *.
        destruct IH as (I1 & I2 & I3). split; [cbn [map]; now rewrite I1|]. split.
        * intros F. apply I2. now inversion F.
        * intros E. apply I3. inversion E; [discriminate | assumption].
      + rewrite (run_flat pairs n A oks (flat pairs x)) by (first [rewrite project_length; exact L | apply (project_twice pairs A x n L)]).
        cbn [fst snd map]. split; [reflexivity|]. split; [intros F; inversion F; discriminate | reflexivity].
  Qed.
End FacetProjectionProps.
Print Assumptions C133_written_positions.
Print Assumptions C133_positions_after_output.

(** Three facets in a row, the outer two of pair 0 flattened to height 0, the last also in pair 1 (direction 0, value 7). *)
Notation ex_pairs := [mkProjection [(0, 0); (2, 0)]%nat 1 0; mkProjection [(2, 0)]%nat 0 7].
Notation ex_facets := (fun c : nat => [c + 4]%nat).
Notation ex_nodes := (fun c : nat => [c; c + 1]%nat).
Notation ex_x := [0; 3; 0; 1; 2; 0; 2; 1; 0; 3; 5; 0].
Example C133_nonvacuous : facet_mesh_of ex_facets 9 [4; 5; 6]%nat ex_pairs /\
  project ex_facets 9 [4; 5; 6]%nat ex_nodes ex_pairs ex_x = [0; 0; 0; 1; 0; 0; 7; 0; 0; 7; 0; 0] /\
  write_all ex_facets 9 [4; 5; 6]%nat ex_nodes ex_pairs [true; true] ex_x = ([[0; 0; 0; 1; 0; 0; 7; 0; 0; 7; 0; 0]; [0; 0; 0; 1; 0; 0; 7; 0; 0; 7; 0; 0]], ex_x).
Proof.
  split; [|split; reflexivity]. split; [|split].
  - repeat constructor; cbn [In]; lia.
  - intros f [<-|[<-|[<-|[]]]]; lia.
  - intros p cell local [<-|[<-|[]]] H; cbn [pr_entities In] in H; repeat destruct H as [H|H]; try (injection H as <- <-); try (now destruct H); cbn; auto.
Qed.

(** A call that raises leaves the flattened surfaces behind. *)
Theorem C133_restored_after_error_refuted :
  exists pairs x, facet_mesh_of ex_facets 9 [4; 5; 6]%nat pairs /\ snd (write_all ex_facets 9 [4; 5; 6]%nat ex_nodes pairs [false; true] x) <> x.
Proof.
  exists ex_pairs, ex_x. split; [exact (proj1 C133_nonvacuous)|].
  change ([0; 0; 0; 1; 0; 0; 7; 0; 0; 7; 0; 0] <> ex_x). intros E. injection E. intros. lra.
Qed.
Print Assumptions C133_restored_after_error_refuted.
