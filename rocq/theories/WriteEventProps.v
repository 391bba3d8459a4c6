(** Writing output between the calls of a contact problem (output.py:151-241). *)
From Coq Require Import List Arith Lia Bool Reals.
Import ListNotations.
From Verif Require Import Prelude LayoutModel SubMeshModel SubMeshProofs SubMeshProps CoefficientsModel MeshContactModel ContactProblemModel WriteEventModel.
Local Open Scope R_scope.

Section WriteEventProps.
  Context {F G D : Type}.
  Context (move : G -> F -> G) (detect : G -> D)
    (pack_gap pack_normals pack_test : nat -> G -> D -> matrix)
    (pack_u pack_grad : nat -> F -> matrix) (pack_u_opp : nat -> G -> D -> F -> matrix)
    (pack_param : nat -> F -> matrix) (pack_h : nat -> matrix).
  Context (num_pairs : nat) (num_rows num_local : nat -> nat) (nq nd gdim : nat) (zero : F).
  Notation call' := (do_call move detect pack_gap pack_normals pack_test pack_u pack_grad pack_u_opp pack_param pack_h num_pairs num_rows num_local nq nd gdim).
  Notation event' := (do_event move detect pack_gap pack_normals pack_test pack_u pack_grad pack_u_opp pack_param pack_h num_pairs num_rows num_local nq nd gdim zero).
  Notation run := (run_events move detect pack_gap pack_normals pack_test pack_u pack_grad pack_u_opp pack_param pack_h num_pairs num_rows num_local nq nd gdim zero).
  Notation run_plain := (run_calls move detect pack_gap pack_normals pack_test pack_u pack_grad pack_u_opp pack_param pack_h num_pairs num_rows num_local nq nd gdim).

  (** Everything but the positions of the submesh. *)
  Definition same_but_geometry (s t : @cp_state G D) : Prop :=
    cp_map s = cp_map t /\ cp_coeffs s = cp_coeffs t /\ cp_grad s = cp_grad t /\ cp_consts s = cp_consts t /\ cp_ready s = cp_ready t.

  (** Between output and a later generate_contact_data there is an update_contact_detection. *)
  Definition detection_before_generation (es : list (@event F D)) : Prop :=
    forall pre mid post d gamma theta, es = pre ++ Write :: mid ++ Call (CallGenerate d gamma theta) :: post ->
      exists u, In (Call (CallDetection u)) mid.
  (** The last output is followed by an update_contact_detection. *)
  Definition detection_after_output (es : list (@event F D)) : Prop :=
    forall pre post, es = pre ++ Write :: post -> exists u, In (Call (CallDetection u)) post.

  Section Given.
    Context (valid : G -> Prop).
    Hypothesis moved_valid : forall g u, valid g -> valid (move g u).
    Hypothesis moved_again : forall g a b, valid g -> move (move g a) b = move g b.
    Hypothesis opp_stored : forall i g g' d u, pack_u_opp i g d u = pack_u_opp i g' d u.

    (** Positions of both runs lead to the same positions after any move. *)
    Definition near (g g' : G) : Prop := valid g /\ valid g' /\ forall u, move g u = move g' u.
    Lemma near_refl g : valid g -> near g g.
    Proof. intros; repeat split; auto. Qed.
    Definition rel (clean : bool) (s t : @cp_state G D) : Prop :=
      same_but_geometry s t /\ near (cp_geom s) (cp_geom t) /\ (clean = true -> cp_geom s = cp_geom t).

    Lemma rel_eq s t : rel true s t -> s = t.
    Proof.
      intros ((E1 & E2 & E3 & E4 & E5) & _ & E6). specialize (E6 eq_refl).
      destruct s as [s1 s2 s3 s4 s5 s6], t as [t1 t2 t3 t4 t5 t6]; cbn [cp_geom cp_map cp_coeffs cp_grad cp_consts cp_ready] in *. congruence.
    Qed.
    Lemma geom_generate d gamma theta s : cp_geom (call' s (CallGenerate d gamma theta)) = cp_geom s.
    Proof.
      cbn [do_call]. unfold generate. destruct (material_keys d); [|reflexivity].
      destruct (d_du d); [|reflexivity]. unfold update_data. cbn [cp_ready negb]. reflexivity.
    Qed.
    Lemma rel_same s : valid (cp_geom s) -> rel true s s.
    Proof. intros V. split; [repeat split|]. split; [now apply near_refl | reflexivity]. Qed.

    Lemma rel_call b s t c : (forall d gamma theta, c = CallGenerate d gamma theta -> b = true) -> rel b s t -> rel b (call' s c) (call' t c).
    Proof using moved_again moved_valid opp_stored.
      intros NG R. destruct c as [d gamma theta | du | u | gamma theta | d].
      - specialize (NG _ _ _ eq_refl). subst b. pose proof R as (_ & (V & _) & _).
        apply rel_eq in R. subst t. apply rel_same. rewrite geom_generate. exact V.
      - destruct R as ((E1 & E2 & E3 & E4 & E5) & Nr & Cl). cbn [do_call]. unfold update_data. rewrite E5.
        destruct (negb (cp_ready t)) eqn:Er; [split; [repeat split; assumption | split; assumption]|].
        split; [|split; cbn [cp_geom]; assumption].
        repeat split; cbn [cp_map cp_coeffs cp_grad cp_consts cp_ready]; try assumption.
        rewrite E1, E2, E3. unfold each_pair. apply map_ext. intros i.
        rewrite (opp_stored i (cp_geom s) (cp_geom t)). reflexivity.
      - destruct R as ((E1 & E2 & E3 & E4 & E5) & (V & V' & Nr) & Cl). cbn [do_call]. unfold update_detection.
        rewrite (Nr u), E2, E3, E4, E5.
        destruct (negb (cp_ready t)); (split; [repeat split | split; cbn [cp_geom]; [apply near_refl; auto | reflexivity]]).
      - destruct R as ((E1 & E2 & E3 & E4 & E5) & Nr & Cl). cbn [do_call]. unfold update_nitsche. rewrite E4.
        destruct (cp_consts t) eqn:Ec; (split; [repeat split; cbn [cp_map cp_coeffs cp_grad cp_consts cp_ready]; congruence | split; cbn [cp_geom]; assumption]).
      - destruct R as ((E1 & E2 & E3 & E4 & E5) & Nr & Cl). cbn [do_call]. unfold crop_map.
        split; [repeat split; cbn [cp_map cp_coeffs cp_grad cp_consts cp_ready]; congruence | split; cbn [cp_geom]; assumption].
    Qed.
    Lemma rel_detection b s t u : rel b s t -> rel true (call' s (CallDetection u)) (call' t (CallDetection u)).
    Proof using moved_again moved_valid.
      intros ((E1 & E2 & E3 & E4 & E5) & (V & V' & Nr) & Cl). cbn [do_call]. unfold update_detection.
      rewrite (Nr u), E2, E3, E4, E5.
      destruct (negb (cp_ready t)); (split; [repeat split | split; cbn [cp_geom]; [apply near_refl; auto | reflexivity]]).
    Qed.
    Lemma rel_write b s t : rel b s t -> rel false (event' s Write) t.
    Proof using moved_again moved_valid.
      intros (E & (V & V' & Nr) & _). split; [exact E|]. split; [|discriminate].
      cbn [do_event]. unfold write_output. cbn [cp_geom]. split; [auto|]. split; [assumption|].
      intros u. rewrite moved_again by assumption. apply Nr.
    Qed.

    Lemma rel_weaken s t : rel true s t -> rel false s t.
    Proof. intros (E & Nr & _). split; [exact E|]. split; [exact Nr | discriminate]. Qed.

    (** [dirty]: there was output since the last detection. *)
    Fixpoint ordered (dirty : bool) (es : list (@event F D)) : Prop :=
      match es with
      | [] => True
      | Write :: es => ordered true es
      | Call (CallGenerate _ _ _) :: es => dirty = false /\ ordered dirty es
      | Call (CallDetection _) :: es => ordered false es
      | Call _ :: es => ordered dirty es
      end.
    Fixpoint dirty_after (dirty : bool) (es : list (@event F D)) : bool :=
      match es with
      | [] => dirty
      | Write :: es => dirty_after true es
      | Call (CallDetection _) :: es => dirty_after false es
      | Call _ :: es => dirty_after dirty es
      end.

    Lemma rel_run es : forall dirty s t, ordered dirty es -> rel (negb dirty) s t ->
      rel (negb (dirty_after dirty es)) (fold_left event' es s) (fold_left call' (without_output es) t).
    Proof using moved_again moved_valid opp_stored.
      induction es as [|[c|] es IH]; intros dirty s t O R; [exact R| |].
      - cbn [without_output fold_left do_event].
        destruct c as [d gamma theta | du | u | gamma theta | d]; cbn [ordered dirty_after] in *.
        + destruct O as [-> O]. apply IH; [exact O|]. apply rel_call; [reflexivity | exact R].
        + apply IH; [exact O|]. apply rel_call; [discriminate | exact R].
        + apply (IH false); [exact O|]. apply rel_detection with (negb dirty). exact R.
        + apply IH; [exact O|]. apply rel_call; [discriminate | exact R].
        + apply IH; [exact O|]. apply rel_call; [discriminate | exact R].
      - cbn [without_output fold_left ordered dirty_after] in *. apply (IH true); [exact O|].
        apply rel_write with (negb dirty). exact R.
    Qed.

    Lemma ordered_of es : forall dirty,
      detection_before_generation es ->
      (dirty = true -> forall mid post d gamma theta, es = mid ++ Call (CallGenerate d gamma theta) :: post -> exists u, In (Call (CallDetection u)) mid) ->
      ordered dirty es.
    Proof.
      induction es as [|e es IH]; intros dirty H Hd; [exact I|].
      assert (T : detection_before_generation es).
      { intros pre mid post d gamma theta ->. apply (H (e :: pre) mid post d gamma theta). reflexivity. }
      assert (K : (forall u, e <> Call (CallDetection u)) -> dirty = true -> forall mid post d gamma theta, es = mid ++ Call (CallGenerate d gamma theta) :: post -> exists u, In (Call (CallDetection u)) mid).
      { intros Ne Dt mid post d gamma theta ->. destruct (Hd Dt (e :: mid) post d gamma theta eq_refl) as [u [Hu|Hu]]; [now destruct (Ne u) | now exists u]. }
      destruct e as [[d gamma theta | du | u | gamma theta | d]|]; cbn [ordered].
      - split.
        + destruct dirty; [|reflexivity]. destruct (Hd eq_refl [] es d gamma theta eq_refl) as [u []].
        + apply IH; [exact T|]. apply K. discriminate.
      - apply IH; [exact T|]. apply K. discriminate.
      - apply IH; [exact T | discriminate].
      - apply IH; [exact T|]. apply K. discriminate.
      - apply IH; [exact T|]. apply K. discriminate.
      - apply IH; [exact T|]. intros _ mid post d gamma theta E. apply (H [] mid post d gamma theta). now rewrite E.
    Qed.
    Lemma clean_of es : forall dirty, detection_after_output es -> (dirty = true -> exists u, In (Call (CallDetection u)) es) -> dirty_after dirty es = false.
    Proof.
      induction es as [|e es IH]; intros dirty H Hd.
      - destruct dirty; [|reflexivity]. destruct (Hd eq_refl) as [u []].
      - assert (T : detection_after_output es).
        { intros pre post ->. apply (H (e :: pre) post). reflexivity. }
        assert (K : (forall u, e <> Call (CallDetection u)) -> dirty = true -> exists u, In (Call (CallDetection u)) es).
        { intros Ne Dt. destruct (Hd Dt) as [u [Hu|Hu]]; [now destruct (Ne u) | now exists u]. }
        destruct e as [[d gamma theta | du | u | gamma theta | d]|]; cbn [dirty_after];
          try (apply IH; [exact T | apply K; discriminate]).
        + apply IH; [exact T | discriminate].
        + apply IH; [exact T|]. intros _. apply (H [] es eq_refl).
    Qed.
  End Given.

  (** Output at any places of any history with a detection between each output and a later generation: all
      coefficients, parameters and contact maps are those of the same calls without output; and if the last
      output was followed by a detection, so is the whole object. *)
  Theorem C132_output_harmless :
    forall (valid : G -> Prop),
      (forall g u, valid g -> valid (move g u)) ->
      (* positions are computed from the reference configuration *)
      (forall g a b, valid g -> move (move g a) b = move g b) ->
      (* values on the opposite surface are taken at the stored reference points *)
      (forall i g g' d u, pack_u_opp i g d u = pack_u_opp i g' d u) ->
      forall g es, valid g -> detection_before_generation es ->
        same_but_geometry (run g es) (run_plain g (without_output es)) /\
        (detection_after_output es -> run g es = run_plain g (without_output es)).
  Proof.
    intros valid Hv Hm Ho g es V H.
    assert (R : rel valid (negb (dirty_after false es)) (run g es) (run_plain g (without_output es))).
    { unfold run_events, run_calls. apply rel_run; [exact Hv | exact Hm | exact Ho | |].
      - apply ordered_of; [exact H | discriminate].
      - split; [repeat split | split; [now apply near_refl | reflexivity]]. }
    split; [exact (proj1 R)|].
    intros Ha. rewrite (clean_of es false Ha) in R by discriminate. exact (rel_eq _ _ _ R).
  Qed.

  (** Without a detection in between, generate_contact_data searches in the reference configuration. *)
  Theorem C132_generation_after_output :
    forall g cs u d gamma theta keys,
      (forall g a b, move (move g a) b = move g b) -> material_keys d = Some keys ->
      cp_map (run g (map Call cs ++ [Call (CallDetection u); Write; Call (CallGenerate d gamma theta)]))
        = detect (move (cp_geom (run_plain g cs)) zero) /\
      cp_map (run_plain g (cs ++ [CallDetection u; CallGenerate d gamma theta]))
        = detect (move (cp_geom (run_plain g cs)) u).
  Proof.
    intros g cs u d gamma theta keys Hm Hk.
    assert (Gm : forall s, cp_map (call' s (CallGenerate d gamma theta)) = detect (cp_geom s)).
    { intros s. cbn [do_call]. unfold generate. rewrite Hk. destruct (d_du d); [|reflexivity].
      unfold update_data. cbn [cp_ready negb]. reflexivity. }
    assert (Gd : forall s, cp_geom (call' s (CallDetection u)) = move (cp_geom s) u).
    { intros s. cbn [do_call]. unfold update_detection. destruct (negb (cp_ready s)); reflexivity. }
    assert (P : forall cs s, fold_left event' (map Call cs) s = fold_left call' cs s).
    { induction cs0 as [|c cs0 IH]; intros s; [reflexivity|]. cbn [map fold_left do_event]. apply IH. }
    split.
    - unfold run_events. rewrite fold_left_app, P. fold (run_plain g cs). cbn [fold_left].
      change (event' ?s (Call ?c)) with (call' s c). rewrite Gm.
      unfold do_event at 1, write_output. cbn [cp_geom]. change (event' ?s (Call ?c)) with (call' s c). rewrite Gd, Hm. reflexivity.
    - unfold run_calls. rewrite fold_left_app. fold (run_plain g cs). cbn [fold_left]. rewrite Gm, Gd. reflexivity.
  Qed.
End WriteEventProps.
Print Assumptions C132_output_harmless.
Print Assumptions C132_generation_after_output.

(** The submesh of the code (SubMesh.cpp:200-223) computes positions from the parent's. *)
Theorem C132_submesh_positions :
  forall (pd : pack_data) (sub : submesh_tables) (n : nat) (g a b : list R),
    length g = (3 * n)%nat ->
    length (mesh_move pd sub g a) = (3 * n)%nat /\
    mesh_move pd sub (mesh_move pd sub g a) b = mesh_move pd sub g b.
Proof.
  intros pd sub n g a b L. unfold mesh_move.
  assert (La : forall u, length (submesh_update_geometry Rplus 0 (pd_bs pd) (sm_cells sub) (sm_dofs sub) (sm_parent_cells sub) (sm_x_map sub) (sm_dofs_sub sub) (sm_dofs_parent sub) (sm_x_dofmap sub) (pd_x pd) u g) = (3 * n)%nat).
  { intros u. unfold submesh_update_geometry. now rewrite update_geometry_length, restore_length. }
  split; [apply La|]. unfold submesh_update_geometry at 1 3. f_equal.
  apply (restore_indep 0 _ _ _ _ n); [apply La | exact L].
Qed.
Print Assumptions C132_submesh_positions.
