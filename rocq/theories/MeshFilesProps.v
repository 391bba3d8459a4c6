(** C135: files of the mesh generators under every schedule of the processes. *)
From Coq Require Import List Arith Lia Bool.
Import ListNotations.
From Verif Require Import MeshFilesModel.

Lemma files_grow n s t : step n s t -> forall f, In f (files s) -> In f (files t).
Proof. intros H f Hf. destruct H; cbn [files]; [now right | exact Hf | exact Hf]. Qed.

Section Barrier.
  Context (n f : nat) (before after : nat -> program).
  Hypothesis some : 0 < n.
  Hypothesis no_barrier : forall r, r < n -> ~ In Barrier (before r).
  Hypothesis written : In (WriteFile f) (before 0).
  Let held (s : run_state) : Prop :=
    In f (files s) \/ forall r, r < n -> exists p, todo s r = p ++ Barrier :: after r /\ ~ In Barrier p /\ (r = 0 -> In (WriteFile f) p).

  Lemma held_step s t : held s -> step n s t -> held t.
  Proof.
    intros [H|H] St; [left; now apply (files_grow n s)|].
    destruct St as [s rank g rest Hr E | s rank g rest Hr E | s All].
    - destruct (Nat.eq_dec g f) as [->|Ng]; [left; now left|]. right. intros r Hrn. cbn [todo].
      destruct (Nat.eqb_spec r rank) as [->|Nr]; [|apply H; exact Hrn].
      destruct (H rank Hr) as (p & Ep & NB & W). rewrite E in Ep. destruct p as [|o p]; [discriminate Ep|].
      cbn [app] in Ep. injection Ep as <- ->. exists p. split; [reflexivity|]. split; [intros B; apply NB; now right|].
      intros Z. destruct (W Z) as [X|X]; [injection X as X; contradiction | exact X].
    - right. intros r Hrn. cbn [todo]. destruct (Nat.eqb_spec r rank) as [->|Nr]; [|apply H; exact Hrn].
      destruct (H rank Hr) as (p & Ep & NB & W). rewrite E in Ep. destruct p as [|o p]; [discriminate Ep|].
      cbn [app] in Ep. injection Ep as <- ->. exists p. split; [reflexivity|]. split; [intros B; apply NB; now right|].
      intros Z. destruct (W Z) as [X|X]; [discriminate X | exact X].
    - exfalso. destruct (H 0 some) as (p & Ep & NB & W). destruct (All 0 some) as [rest Er]. rewrite Er in Ep.
      destruct p as [|o p]; [destruct (W eq_refl)|]. cbn [app] in Ep. injection Ep as <- _. apply NB. now left.
  Qed.
  Lemma held_reaches t : reaches n (start (fun r => before r ++ Barrier :: after r)) t -> held t.
  Proof.
    induction 1 as [|t t' _ IH St]; [|exact (held_step t t' IH St)].
    right. intros r Hr. exists (before r). split; [reflexivity|]. split; [now apply no_barrier|]. intros ->. exact written.
  Qed.
  Lemma past_barrier t r : reaches n (start (fun r => before r ++ Barrier :: after r)) t -> r < n -> length (todo t r) <= length (after r) -> In f (files t).
  Proof.
    intros Re Hr L. destruct (held_reaches t Re) as [H|H]; [exact H|].
    destruct (H r Hr) as (p & Ep & _ & _). rewrite Ep, app_length in L. cbn [length] in L. lia.
  Qed.
End Barrier.

Lemma reaches_same n p q : (forall r, p r = q r) -> forall t, reaches n (start p) t -> exists t', reaches n (start q) t' /\ (forall r, todo t r = todo t' r) /\ files t = files t'.
Proof.
  intros E t R. induction R as [|t u R (t' & R' & Et & Ef) St].
  - exists (start q). split; [constructor|]. split; [exact E | reflexivity].
  - destruct St as [s rank g rest Hr Eh | s rank g rest Hr Eh | s All].
    + eexists. split; [eapply ReachStep; [exact R' | apply (StepWrite n t' rank g rest Hr); rewrite <- Et; exact Eh]|].
      cbn [todo files]. split; [intros r; rewrite Et; reflexivity | now rewrite Ef].
    + eexists. split; [eapply ReachStep; [exact R' | apply (StepRead n t' rank g rest Hr); rewrite <- Et; exact Eh]|].
      cbn [todo files]. split; [intros r; rewrite Et; reflexivity | exact Ef].
    + eexists. split; [eapply ReachStep; [exact R' | apply (StepBarrier n t'); intros r Hr; rewrite <- Et; now apply All]|].
      cbn [todo files]. split; [intros r; now rewrite Et | exact Ef].
Qed.

(** A generator of contact_meshes.py followed by anything: once it has returned on any process, the file is there. *)
Theorem C135_file_there_after_generator :
  forall n f (rest : nat -> program) t rank, rank < n ->
    reaches n (start (fun r => contact_mesh f r ++ rest r)) t ->
    length (todo t rank) <= length (rest rank) -> In f (files t).
Proof.
  intros n f rest t rank Hr Re L.
  destruct (reaches_same n (fun r => contact_mesh f r ++ rest r) (fun r => (if (r =? 0)%nat then [WriteFile f] else []) ++ Barrier :: rest r) ltac:(intros r; unfold contact_mesh; destruct (r =? 0)%nat; reflexivity) t Re) as (t' & Re' & Et & Ef).
  rewrite Ef. apply (past_barrier n f (fun r => if (r =? 0)%nat then [WriteFile f] else []) rest ltac:(lia)) with (r := rank); auto.
  - intros r _ H. destruct (r =? 0); cbn [In] in H; [destruct H as [H|[]]; discriminate H | exact H].
  - now left.
  - now rewrite <- Et.
Qed.
Print Assumptions C135_file_there_after_generator.

(** create_disk_mesh and convert_mesh followed by anything: once the conversion has returned on any process, both files are there. *)
Theorem C135_files_there_after_conversion :
  forall n f g (rest : nat -> program) t rank, rank < n ->
    reaches n (start (disk_demo f g rest)) t ->
    length (todo t rank) <= length (rest rank) -> In f (files t) /\ In g (files t).
Proof.
  intros n f g rest t rank Hr Re L.
  destruct (reaches_same n (disk_demo f g rest) (fun r => (if (r =? 0)%nat then [WriteFile f; ReadFile f; WriteFile g] else []) ++ Barrier :: rest r)
    ltac:(intros r; unfold disk_demo, onesided_mesh, convert_program; destruct (r =? 0)%nat; reflexivity) t Re) as (t' & Re' & Et & Ef).
  rewrite Ef. rewrite Et in L.
  split; (eapply (past_barrier n _ (fun r => if (r =? 0)%nat then [WriteFile f; ReadFile f; WriteFile g] else []) rest ltac:(lia)) with (r := rank); [| | exact Re' | exact Hr | exact L]);
    try (intros r _ H; destruct (r =? 0); cbn [In] in H; [repeat destruct H as [H|H]; try discriminate H; exact H | exact H]); cbn [Nat.eqb In]; auto.
Qed.
Print Assumptions C135_files_there_after_conversion.

(** What a process has written itself is there when it goes on: so process 0 never misses the file it converts. *)
Lemma own_writes n p t : reaches n (start p) t -> forall rank, rank < n -> exists done, p rank = done ++ todo t rank /\ forall f, In (WriteFile f) done -> In f (files t).
Proof.
  induction 1 as [|t u R IH St]; intros rank Hr.
  - exists []. split; [reflexivity | intros f []].
  - destruct (IH rank Hr) as (dn & E & W). destruct St as [s r0 g rest Hr0 Eh | s r0 g rest Hr0 Eh | s All]; cbn [todo files].
    + destruct (Nat.eqb_spec rank r0) as [->|N].
      * exists (dn ++ [WriteFile g]). rewrite <- app_assoc. cbn [app]. rewrite <- Eh. split; [exact E|].
        intros f H. apply in_app_or in H. destruct H as [H|[H|[]]]; [right; now apply W | injection H as ->; now left].
      * exists dn. split; [exact E|]. intros f H. right. now apply W.
    + destruct (Nat.eqb_spec rank r0) as [->|N].
      * exists (dn ++ [ReadFile g]). rewrite <- app_assoc. cbn [app]. rewrite <- Eh. split; [exact E|].
        intros f H. apply in_app_or in H. destruct H as [H|[H|[]]]; [now apply W | discriminate H].
      * exists dn. split; [exact E | exact W].
    + destruct (All rank Hr) as [rest Eh]. exists (dn ++ [Barrier]). rewrite <- app_assoc. rewrite Eh in *. cbn [app tl].
      split; [exact E|]. intros f H. apply in_app_or in H. destruct H as [H|[H|[]]]; [now apply W | discriminate H].
Qed.
Theorem C135_conversion_finds_file :
  forall n f g (rest : nat -> program) t more, 0 < n ->
    reaches n (start (disk_demo f g rest)) t -> todo t 0 = ReadFile f :: more -> In f (files t).
Proof.
  intros n f g rest t more Hn Re E. destruct (own_writes n _ t Re 0 Hn) as (dn & Ed & W). apply W.
  rewrite E in Ed. unfold disk_demo, onesided_mesh, convert_program in Ed. cbn [Nat.eqb app] in Ed.
  destruct dn as [|o dn]; [discriminate Ed|]. cbn [app] in Ed. injection Ed as <- _. now left.
Qed.
Print Assumptions C135_conversion_finds_file.

(** Programs with the same number of barriers never get stuck before all processes are done. *)
Definition barriers (p : program) : nat := length (filter (fun o => match o with Barrier => true | _ => false end) p).
Lemma barriers_equal n p t : (forall r r', r < n -> r' < n -> barriers (p r) = barriers (p r')) -> reaches n (start p) t ->
  forall r r', r < n -> r' < n -> barriers (todo t r) = barriers (todo t r').
Proof.
  intros H. induction 1 as [|t u R IH St]; [exact H|].
  destruct St as [s r0 g rest Hr0 Eh | s r0 g rest Hr0 Eh | s All]; cbn [todo].
  - assert (K : forall r, barriers (if (r =? r0)%nat then rest else todo s r) = barriers (todo s r)).
    { intros r. destruct (Nat.eqb_spec r r0) as [->|]; [now rewrite Eh | reflexivity]. }
    intros r r' Hr Hr'. rewrite !K. now apply IH.
  - assert (K : forall r, barriers (if (r =? r0)%nat then rest else todo s r) = barriers (todo s r)).
    { intros r. destruct (Nat.eqb_spec r r0) as [->|]; [now rewrite Eh | reflexivity]. }
    intros r r' Hr Hr'. rewrite !K. now apply IH.
  - intros r r' Hr Hr'. specialize (IH r r' Hr Hr'). destruct (All r Hr) as [a Ea], (All r' Hr') as [b Eb].
    rewrite Ea, Eb in *. cbn [tl]. unfold barriers in IH. cbn [filter length] in IH. injection IH as IH. exact IH.
Qed.
Lemma head_or n (td : nat -> program) :
  (exists r o rest, r < n /\ td r = o :: rest /\ o <> Barrier) \/ (forall r, r < n -> td r = [] \/ exists rest, td r = Barrier :: rest).
Proof.
  induction n as [|n [(r & o & rest & Hr & E & N)|H]]; [right; intros r Hr; lia | left; exists r, o, rest; repeat split; auto |].
  destruct (td n) as [|o rest] eqn:E.
  - right. intros r Hr. destruct (Nat.eq_dec r n) as [->|]; [now left | apply H; lia].
  - destruct o as [f|f|]; [left; exists n, (WriteFile f), rest; repeat split; auto; discriminate | left; exists n, (ReadFile f), rest; repeat split; auto; discriminate |].
    right. intros r Hr. destruct (Nat.eq_dec r n) as [->|]; [right; now exists rest | apply H; lia].
Qed.
Theorem C135_no_deadlock :
  forall n (p : nat -> program) t, (forall r r', r < n -> r' < n -> barriers (p r) = barriers (p r')) ->
    reaches n (start p) t -> (exists rank, rank < n /\ todo t rank <> []) -> exists u, step n t u.
Proof.
  intros n p t Eq Re (rank & Hr & Ne). destruct (head_or n (todo t)) as [(r & o & rest & Hrr & E & N)|H].
  - destruct o as [f|f|]; [eexists; apply (StepWrite n t r f rest Hrr E) | eexists; apply (StepRead n t r f rest Hrr E) | now destruct N].
  - eexists. apply (StepBarrier n t). intros r Hrr. destruct (H r Hrr) as [E|E]; [|exact E]. exfalso.
    destruct (H rank Hr) as [E'|[rest E']]; [contradiction|].
    pose proof (barriers_equal n p t Eq Re r rank Hrr Hr) as B. rewrite E, E' in B. discriminate B.
Qed.
Print Assumptions C135_no_deadlock.
(** The programs of the generators have it when what follows them has. *)
Theorem C135_generators_balanced :
  forall n f g (rest : nat -> program), (forall r r', r < n -> r' < n -> barriers (rest r) = barriers (rest r')) ->
    forall r r', r < n -> r' < n ->
      barriers (contact_mesh f r ++ rest r) = barriers (contact_mesh f r' ++ rest r') /\
      barriers (disk_demo f g rest r) = barriers (disk_demo f g rest r').
Proof.
  intros n f g rest H r r' Hr Hr'. specialize (H r r' Hr Hr'). unfold disk_demo, contact_mesh, onesided_mesh, convert_program.
  destruct (r =? 0)%nat, (r' =? 0)%nat; unfold barriers in *; cbn [app filter length]; now rewrite H.
Qed.
Print Assumptions C135_generators_balanced.

(** Without the barrier: process 1 is back from create_disk_mesh and reads, and there is no file. *)
Theorem C135_file_there_after_onesided_generator_refuted :
  forall n f, 2 <= n -> exists (rest : nat -> program) t,
    reaches n (start (fun r => onesided_mesh f r ++ rest r)) t /\ length (todo t 1) <= length (rest 1) /\ todo t 1 = [ReadFile f] /\ ~ In f (files t).
Proof.
  intros n f Hn. exists (fun _ => [ReadFile f]), (start (fun r => onesided_mesh f r ++ [ReadFile f])).
  split; [constructor|]. split; [cbn; lia|]. split; [reflexivity | intros []].
Qed.
Print Assumptions C135_file_there_after_onesided_generator_refuted.

(** Two processes through generator and barrier: the state the theorems speak about is reached. *)
Example C135_generator_returns : exists t, reaches 2 (start (fun r => contact_mesh 7 r ++ [ReadFile 7])) t /\ (forall r, r < 2 -> todo t r = [ReadFile 7]) /\ files t = [7].
Proof.
  eexists. split; [|split].
  - eapply ReachStep; [eapply ReachStep; [apply Reach0|]|].
    + apply (StepWrite 2 _ 0 7 [Barrier; ReadFile 7]); [lia | reflexivity].
    + apply StepBarrier. intros r Hr. exists [ReadFile 7]. assert (E : r = 0 \/ r = 1) by lia. destruct E as [-> | ->]; reflexivity.
  - intros r Hr. assert (E : r = 0 \/ r = 1) by lia. destruct E as [-> | ->]; reflexivity.
  - reflexivity.
Qed.
Example C135_conversion_reads : exists t, reaches 2 (start (disk_demo 7 8 (fun _ => [ReadFile 8]))) t /\ todo t 0 = [ReadFile 7; WriteFile 8; Barrier; ReadFile 8] /\ files t = [7].
Proof.
  eexists. split; [|split].
  - eapply ReachStep; [apply Reach0|]. apply (StepWrite 2 _ 0 7 [ReadFile 7; WriteFile 8; Barrier; ReadFile 8]); [lia | reflexivity].
  - reflexivity.
  - reflexivity.
Qed.
