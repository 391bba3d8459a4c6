(** C134: files and processes of convert_mesh (meshing/utils.py). *)
From Coq Require Import Ascii String List Arith Lia Bool.
Import ListNotations.
From Verif Require Import ConvertModel.

(** [sep] occurs in [s] after [p]. *)
Definition occurs_after (sep p s : text) : Prop := exists q, s = p ++ sep ++ q.
Definition first_after (sep p s : text) : Prop := occurs_after sep p s /\ forall p', occurs_after sep p' s -> length p <= length p'.

Lemma begins_spec sep : forall s, begins sep s = true <-> exists q, s = sep ++ q.
Proof.
  induction sep as [|a sep IH]; intros s; [split; [exists s; reflexivity | reflexivity]|].
  destruct s as [|b s]; cbn [begins].
  - split; [discriminate | intros [q E]; discriminate E].
  - rewrite andb_true_iff, Ascii.eqb_eq, IH. split.
    + intros [-> [q ->]]. exists q. reflexivity.
    + intros [q E]. cbn [app] in E. injection E as -> ->. split; [reflexivity | exists q; reflexivity].
Qed.
Lemma split0_first sep s : forall p, first_after sep p s -> split0 sep s = p.
Proof.
  induction s as [|c s IH]; intros p [[q E] Min].
  - symmetry in E. apply app_eq_nil in E. destruct E as [-> E]. apply app_eq_nil in E. destruct E as [-> ->]. reflexivity.
  - cbn [split0]. destruct (begins sep (c :: s)) eqn:B.
    + apply begins_spec in B. destruct B as [q' B]. assert (L : length p <= 0) by (apply (Min []); exists q'; exact B).
      destruct p; [reflexivity | cbn [length] in L; lia].
    + destruct p as [|a p].
      * assert (X : begins sep (c :: s) = true) by (apply begins_spec; exists q; exact E). congruence.
      * cbn [app] in E. injection E as -> E. f_equal. apply IH. split; [exists q; exact E|].
        intros p' [q' E']. assert (L : length (a :: p) <= length (a :: p')) by (apply Min; exists q'; cbn [app]; now rewrite E').
        cbn [length] in L. lia.
Qed.
Lemma split0_none sep s : (forall p, ~ occurs_after sep p s) -> split0 sep s = s.
Proof.
  induction s as [|c s IH]; intros N.
  - cbn [split0]. destruct (begins sep []); reflexivity.
  - cbn [split0]. destruct (begins sep (c :: s)) eqn:B.
    + apply begins_spec in B. destruct B as [q B]. destruct (N []). exists q. exact B.
    + f_equal. apply IH. intros p [q ->]. apply (N (c :: p)). exists q. reflexivity.
Qed.
Lemma first_or_none sep s : (exists p, first_after sep p s) \/ forall p, ~ occurs_after sep p s.
Proof.
  induction s as [|c s IH].
  - destruct sep as [|a sep].
    + left. exists []. split; [exists []; reflexivity | intros; cbn [length]; lia].
    + right. intros p [q E]. destruct p; discriminate E.
  - destruct (begins sep (c :: s)) eqn:B.
    + left. exists []. apply begins_spec in B. split; [exact B | intros; cbn [length]; lia].
    + assert (N0 : ~ occurs_after sep [] (c :: s)).
      { intros [q E]. assert (X : begins sep (c :: s) = true) by (apply begins_spec; exists q; exact E). congruence. }
      destruct IH as [[p [[q E] Min]] | N].
      * left. exists (c :: p). split; [exists q; cbn [app]; now rewrite E|].
        intros p' H. destruct p' as [|a p']; [now destruct N0|]. destruct H as [q' E']. cbn [app] in E'. injection E' as -> E'.
        cbn [length]. apply le_n_S. apply Min. exists q'. exact E'.
      * right. intros p H. destruct p as [|a p]; [now destruct N0|]. destruct H as [q' E']. cbn [app] in E'. injection E' as -> E'.
        apply (N p). exists q'. exact E'.
Qed.

(** The name used is the given one up to the first extension, with the extension; a name without it gets it.  It is the given
    name exactly when that ends with its first extension. *)
Definition used_name (ext : text) (use : text -> text) : Prop :=
  forall s,
    (forall p, first_after ext p s -> use s = p ++ ext) /\
    ((forall p, ~ occurs_after ext p s) -> use s = s ++ ext) /\
    (use s = s <-> exists p, s = p ++ ext /\ forall p', occurs_after ext p' s -> length p <= length p').
Lemma used ext : ext <> [] -> used_name ext (fun s => split0 ext s ++ ext).
Proof.
  intros Ne s. split; [|split].
  - intros p F. now rewrite (split0_first ext s p F).
  - intros N. now rewrite split0_none.
  - split.
    + intros E. destruct (first_or_none ext s) as [[p F]|N].
      * rewrite (split0_first ext s p F) in E. exists p. split; [now symmetry | exact (proj2 F)].
      * rewrite (split0_none ext s N) in E. destruct Ne. destruct ext as [|a e]; [reflexivity|].
        apply (f_equal (@length ascii)) in E. rewrite app_length in E. cbn [length] in E. lia.
    + intros (p & -> & Min). rewrite (split0_first ext (p ++ ext) p); [reflexivity|].
      split; [exists []; now rewrite app_nil_r | exact Min].
Qed.

Theorem C134_files_of_convert_mesh : used_name dot_msh file_read /\ used_name dot_xdmf file_written.
Proof. split; [apply (used dot_msh) | apply (used dot_xdmf)]; discriminate. Qed.
Print Assumptions C134_files_of_convert_mesh.

(** Extension in a directory name: another file is read. *)
Notation "'txt' s" := (list_ascii_of_string s) (at level 5).
Theorem C134_named_file_is_read_refuted :
  exists p, let filename := p ++ dot_msh in file_read filename <> filename /\ file_read_new filename = filename.
Proof. exists (txt "a.msh.d/b"). split; [intros E; discriminate E | reflexivity]. Qed.
Print Assumptions C134_named_file_is_read_refuted.
Example C134_names : file_read (txt "box") = txt "box.msh" /\ file_read (txt "box.msh") = txt "box.msh" /\ file_written (txt "out.xdmf") = txt "out.xdmf"
  /\ file_read (txt "a.msh.d/b.msh") = txt "a.msh".
Proof. repeat split; reflexivity. Qed.

(** All processes return exactly when process 0 could read and write; otherwise process 0 raises and all others wait for ever. *)
Theorem C134_processes :
  forall n ok, 0 < n ->
    ((forall rank, rank < n -> convert n ok rank = Returned) <-> ok = true) /\
    (ok = false -> convert n ok 0 = Raised /\ forall rank, 0 < rank < n -> convert n ok rank = Waiting).
Proof.
  intros n ok Hn.
  assert (F : ok = false -> forallb (enters_barrier ok) (seq 0 n) = false).
  { intros ->. destruct n; [lia|]. reflexivity. }
  split; [split|].
  - intros H. specialize (H 0 Hn). unfold convert, enters_barrier in H. cbn [Nat.eqb] in H. destruct ok; [reflexivity | discriminate H].
  - intros -> rank _. unfold convert. replace (enters_barrier true rank) with true by (unfold enters_barrier; destruct (rank =? 0); reflexivity).
    replace (forallb (enters_barrier true) (seq 0 n)) with true; [reflexivity|]. symmetry. apply forallb_forall. intros r _. unfold enters_barrier. destruct (r =? 0); reflexivity.
  - intros E. split; [unfold convert, enters_barrier; cbn [Nat.eqb]; now rewrite E|].
    intros rank Hr. unfold convert. rewrite (F E). unfold enters_barrier. destruct (Nat.eqb_spec rank 0); [lia | reflexivity].
Qed.
Print Assumptions C134_processes.
Example C134_three_processes : map (convert 3 true) [0; 1; 2] = [Returned; Returned; Returned] /\ map (convert 3 false) [0; 1; 2] = [Raised; Waiting; Waiting].
Proof. split; reflexivity. Qed.
