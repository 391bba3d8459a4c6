(** A concrete history with output, and one in which output changes the result (output.py:151-241). *)
From Coq Require Import List Arith Lia Bool Reals Lra.
Import ListNotations.
From Verif Require Import Prelude LayoutModel ContactProblemModel WriteEventModel WriteEventProps TieSystemExamples MeshContactModel MeshContactExamples.
Local Open Scope R_scope.

(** Two triangles, the second one displaced.  The search stores the positions it saw; gap, normals and values on the
    opposite surface are read off at the fourth node. *)
Notation ex_move := (mesh_move (tri_pd true) two_sub).
Notation ex_search := (fun x : list R => x).
Notation ex_read := (fun (_ : nat) (x d : list R) => [[nth 9 x 0 - nth 0 d 0]]).
Notation ex_value := (fun (_ : nat) (u : list R) => [[nth 0 u 0]]).
Notation ex_opp := (fun (_ : nat) (_ d : list R) (u : list R) => [[nth 9 d 0 * nth 6 u 0]]).
Notation ex_events :=
  (run_events ex_move ex_search ex_read ex_read ex_read ex_value ex_value ex_opp ex_value (fun _ => [[1]]) 1 (fun _ => 1%nat) (fun _ => 1%nat) 1 1 1 (two_shift 0)).
Notation ex_plain :=
  (run_calls ex_move ex_search ex_read ex_read ex_read ex_value ex_value ex_opp ex_value (fun _ => [[1]]) 1 (fun _ => 1%nat) (fun _ => 1%nat) 1 1 1).
Definition ex_generate : @call (list R) (list R) := CallGenerate (mkDict (Some (repeat 1 12)) (Some (repeat 2 12)) None None None) 10 1.
(** The loop of demo_hertzian_contact.py:488-514, twice. *)
Definition ex_history : list (@event (list R) (list R)) :=
  [Call ex_generate; Call (CallUpdateData (repeat 1 12)); Write; Call (CallDetection (two_shift (1/4))); Call (CallUpdateData (repeat 3 12));
   Write; Call (CallNitsche 20 1); Call (CallUpdateData (repeat 5 12)); Call (CallDetection (two_shift (1/2)))].

Example C132_history_meets_hypotheses : detection_before_generation ex_history /\ detection_after_output ex_history.
Proof.
  split.
  - intros pre mid post d gamma theta E. exfalso.
    assert (I : In (Call (CallGenerate d gamma theta)) (tl ex_history)).
    { destruct pre as [|e pre]; [discriminate E|]. apply (f_equal (@tl _)) in E. rewrite E. cbn [tl app].
      apply in_or_app. right. right. apply in_or_app. right. now left. }
    unfold ex_history in I. cbn [tl In] in I. repeat destruct I as [I|I]; try discriminate I. exact I.
  - intros pre post E. exists (two_shift (1/2)).
    assert (L : last (Write :: post) Write = @Call (list R) (list R) (CallDetection (two_shift (1/2)))).
    { assert (A : forall p, last (p ++ Write :: post) Write = last (Write :: post) (@Write (list R) (list R))).
      { clear. induction p as [|e p IH]; [reflexivity|]. cbn [app]. rewrite <- IH. destruct p; reflexivity. }
      rewrite <- (A pre), <- E. reflexivity. }
    assert (K : forall l (d : @event (list R) (list R)), l <> [] -> In (last l d) l).
    { clear. induction l as [|e l IH]; intros d H; [now destruct H|]. destruct l; [now left|]. right. apply IH. discriminate. }
    destruct post as [|e post]; [discriminate L|].
    change (last (e :: post) Write = Call (CallDetection (two_shift (1/2)))) in L.
    rewrite <- L. apply K. discriminate.
Qed.

(** The hypotheses of C132_output_harmless hold for this mesh, and both runs end in the same state, which is not trivial. *)
Example C132_output_harmless_nonvacuous :
  ex_events (two_nodes 0) ex_history = ex_plain (two_nodes 0) (without_output ex_history) /\
  cp_ready (ex_events (two_nodes 0) ex_history) = true /\ cp_consts (ex_events (two_nodes 0) ex_history) = Some (20, 1) /\
  cp_geom (ex_events (two_nodes 0) ex_history) = two_nodes (1/2) /\
  length (without_output ex_history) = 7%nat.
Proof.
  destruct C132_history_meets_hypotheses as [H1 H2].
  assert (M : ex_events (two_nodes 0) ex_history = ex_plain (two_nodes 0) (without_output ex_history)).
  { refine (proj2 (C132_output_harmless _ _ _ _ _ _ _ _ _ _ _ _ _ _ _ _ _ (fun g => length g = (3 * 6)%nat) _ _ _ _ _ _ H1) H2).
    - intros g u L. exact (proj1 (C132_submesh_positions _ _ _ g u u L)).
    - intros g a b L. exact (proj2 (C132_submesh_positions _ _ _ g a b L)).
    - reflexivity.
    - reflexivity. }
  split; [exact M|]. split; [reflexivity|]. split; [reflexivity|]. split; [|reflexivity].
  rewrite M. unfold run_calls. cbn [without_output ex_history]. 
  change (cp_geom (do_call ex_move ex_search ex_read ex_read ex_read ex_value ex_value ex_opp ex_value (fun _ => [[1]]) 1 (fun _ => 1%nat) (fun _ => 1%nat) 1 1 1
    (ex_plain (two_nodes 0) [ex_generate; CallUpdateData (repeat 1 12); CallDetection (two_shift (1/4)); CallUpdateData (repeat 3 12); CallNitsche 20 1; CallUpdateData (repeat 5 12)]) (CallDetection (two_shift (1/2)))) = two_nodes (1/2)).
  change (ex_move (ex_move (two_nodes 0) (two_shift (1/4))) (two_shift (1/2)) = two_nodes (1/2)).
  rewrite (two_moved (two_nodes 0)) by reflexivity. apply two_moved. reflexivity.
Qed.

(** A second call of generate_contact_data right after output finds another contact map than without output. *)
Theorem C132_output_changes_generation_refuted :
  exists d gamma theta u,
    cp_map (ex_events (two_nodes 0) [Call (CallGenerate d gamma theta); Call (CallDetection u); Write; Call (CallGenerate d gamma theta)])
    <> cp_map (ex_plain (two_nodes 0) [CallGenerate d gamma theta; CallDetection u; CallGenerate d gamma theta]).
Proof.
  exists (mkDict (Some (repeat 1 12)) (Some (repeat 2 12)) None None None), 10, 1, (two_shift (1/4)).
  change (ex_move (ex_move (two_nodes 0) (two_shift (1/4))) (two_shift 0) <> ex_move (two_nodes 0) (two_shift (1/4))).
  rewrite (two_moved (two_nodes 0)) by reflexivity. rewrite two_moved by reflexivity.
  unfold two_nodes. intros E. injection E as E _. lra.
Qed.
Print Assumptions C132_output_changes_generation_refuted.
