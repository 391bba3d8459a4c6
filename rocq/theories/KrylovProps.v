(** C95: options of the linear solver. *)
From Coq Require Import List Bool String Lia.
Import ListNotations.
From Verif Require Import KrylovModel.
Local Open Scope string_scope.

(** ** Specification *)
(** The three options that are not handed to PETSc under the solver's prefix. *)
Definition is_special (k : string) : bool :=
  (k =? "matptap_via") || (k =? "pc_mg_levels") || (k =? "pc_mg_cycles").
(** Value of a key in a dictionary. *)
Fixpoint given (d : list (string * value)) (k : string) : option value :=
  match d with [] => None | (k', v) :: rest => if k =? k' then Some v else given rest k end.
Definition keys_distinct (d : list (string * value)) : Prop := NoDup (map fst d).

Lemma append_inj p a b : p ++ a = p ++ b -> a = b.
Proof. induction p as [|c p IH]; cbn; [auto|]. intros H. inversion H. auto. Qed.
Lemma prefix_eqb a b : (prefix ++ a =? prefix ++ b) = (a =? b).
Proof.
  destruct (String.eqb_spec a b) as [->|N]; [apply String.eqb_refl|].
  apply String.eqb_neq. intros H. apply N. eapply append_inj. exact H.
Qed.

Lemma given_none d k : given d k = None <-> ~ In k (map fst d).
Proof.
  induction d as [|[k' v] d IH]; cbn; [tauto|]. destruct (String.eqb_spec k k') as [->|N].
  - split; [discriminate|]. intros H. exfalso. apply H. auto.
  - rewrite IH. split; intros H; [intros [E|E]; [congruence|auto]|intros E; apply H; auto].
Qed.
Lemma given_in d k v : keys_distinct d -> In (k, v) d -> given d k = Some v.
Proof.
  unfold keys_distinct. induction d as [|[k' v'] d IH]; cbn; [tauto|]. intros ND H. inversion ND as [|? ? N1 N2]; subst.
  destruct H as [H|H]; [inversion H; subst; rewrite String.eqb_refl; reflexivity|].
  destruct (String.eqb_spec k k') as [->|N]; [|auto]. exfalso. apply N1. apply (in_map fst) in H. exact H.
Qed.

(** What the loops leave in the database and in the dictionaries. *)
Lemma sort_options_spec options : keys_distinct options -> forall g pc db,
  let '(g', pc', db') := sort_options options g pc db in
  g' = (g ++ filter (fun kv => mem (fst kv) keys) options)%list /\
  pc' = (pc ++ filter (fun kv => mem (fst kv) pc_keys) options)%list /\
  (forall k, is_special k = false -> db' (prefix ++ k) = match given options k with Some v => Some v | None => db (prefix ++ k) end) /\
  (forall k, is_special k = true -> db' (prefix ++ k) = db (prefix ++ k)) /\
  (forall key, (forall k, key <> prefix ++ k) -> db' key = db key).
Proof.
  unfold keys_distinct. induction options as [|[k v] rest IH]; intros ND g pc db; cbn [sort_options filter fst given].
  - rewrite !app_nil_r. repeat split; auto.
  - cbn in ND. inversion ND as [|? ? N1 N2]; subst. specialize (IH N2).
    destruct (mem k keys) eqn:M1.
    + specialize (IH (g ++ [(k, v)])%list pc db). destruct (sort_options rest (g ++ [(k, v)])%list pc db) as [[g' pc'] db'].
      destruct IH as (I1 & I2 & I3 & I4 & I5).
      assert (K : k = "matptap_via"). { cbn in M1. rewrite orb_false_r in M1. apply String.eqb_eq. exact M1. } subst k.
      split; [rewrite I1, <- app_assoc; reflexivity|]. split; [exact I2|]. split; [|split; auto].
      intros k' H. rewrite I3 by exact H. destruct (String.eqb_spec k' "matptap_via") as [->|N]; [discriminate H|reflexivity].
    + destruct (mem k pc_keys) eqn:M2.
      * specialize (IH g (pc ++ [(k, v)])%list db). destruct (sort_options rest g (pc ++ [(k, v)])%list db) as [[g' pc'] db'].
        destruct IH as (I1 & I2 & I3 & I4 & I5).
        split; [exact I1|]. split; [rewrite I2, <- app_assoc; reflexivity|]. split; [|split; auto].
        intros k' H. rewrite I3 by exact H. destruct (String.eqb_spec k' k) as [->|N]; [|reflexivity].
        exfalso. unfold is_special in H. unfold mem, pc_keys in M2. cbn [existsb] in M2. rewrite orb_false_r in M2.
        apply orb_false_iff in H. destruct H as [H1 H2]. apply orb_false_iff in H1. destruct H1 as [_ H1]. rewrite H1, H2 in M2. discriminate M2.
      * specialize (IH g pc (set_option db (prefix ++ k) v)). destruct (sort_options rest g pc (set_option db (prefix ++ k) v)) as [[g' pc'] db'].
        destruct IH as (I1 & I2 & I3 & I4 & I5). split; [exact I1|]. split; [exact I2|]. split; [|split].
        -- intros k' H. rewrite I3 by exact H. unfold set_option. rewrite prefix_eqb.
           destruct (String.eqb_spec k' k) as [->|N]; [|reflexivity].
           destruct (given rest k) eqn:G; [|reflexivity]. exfalso.
           assert (given rest k <> None) by (rewrite G; discriminate). apply H0. apply given_none. exact N1.
        -- intros k' H. rewrite I4 by exact H. unfold set_option. rewrite prefix_eqb.
           destruct (String.eqb_spec k' k) as [->|N]; [|reflexivity].
           exfalso. unfold is_special in H. unfold mem, keys, pc_keys in *. cbn [existsb] in *. rewrite orb_false_r in *.
           rewrite M1 in H. cbn [orb] in H. rewrite M2 in H. discriminate H.
        -- intros key H. rewrite I5 by exact H. unfold set_option.
           destruct (String.eqb_spec key (prefix ++ k)) as [->|N]; [exfalso; eapply H; reflexivity|reflexivity].
Qed.

Lemma set_global_other g db key : (forall kv, In kv g -> fst kv <> key) -> set_global g db key = db key.
Proof.
  unfold set_global. revert db. induction g as [|[k v] g IH]; cbn [fold_left fst snd]; intros db H; [reflexivity|].
  rewrite IH by (intros kv Hk; apply H; right; exact Hk). unfold set_option.
  destruct (String.eqb_spec key k) as [->|N]; [exfalso; exact (H (k, v) (or_introl eq_refl) eq_refl)|reflexivity].
Qed.

Lemma filter_keys_one options : keys_distinct options ->
  filter (fun kv => mem (fst kv) keys) options =
  match given options "matptap_via" with Some v => [("matptap_via", v)] | None => [] end.
Proof.
  unfold keys_distinct. induction options as [|[k v] rest IH]; [reflexivity|]. intros ND. inversion ND as [|? ? N1 N2]; subst.
  cbn [filter fst given]. unfold mem at 1, keys at 1. cbn [existsb]. rewrite orb_false_r, String.eqb_sym.
  destruct (String.eqb_spec "matptap_via" k) as [<-|N]; [|auto].
  rewrite IH by exact N2. destruct (given rest "matptap_via") eqn:G; [|reflexivity].
  exfalso. assert (H : given rest "matptap_via" <> None) by (rewrite G; discriminate). apply H. apply given_none. exact N1.
Qed.

Lemma dict_get_filter options k : mem k pc_keys = true ->
  dict_get (filter (fun kv => mem (fst kv) pc_keys) options) k = match given options k with Some v => v | None => None end.
Proof.
  intros M. induction options as [|[k' v] rest IH]; [reflexivity|]. cbn [filter fst given].
  destruct (String.eqb_spec k k') as [<-|N].
  - rewrite M. cbn [dict_get]. rewrite String.eqb_refl. reflexivity.
  - destruct (mem k' pc_keys); [|exact IH]. cbn [dict_get]. destruct (String.eqb_spec k k'); [contradiction|exact IH].
Qed.

Lemma prefix_not_global k : "matptap_via" <> prefix ++ k.
Proof. unfold prefix. cbn. discriminate. Qed.

(** Database after a call: an ordinary option under the solver's prefix, matptap_via for
    the whole process, nothing else. *)
Theorem C95_database :
  forall (options : list (string * value)) (db : database) (s : krylov), keys_distinct options ->
    let db' := fst (set_krylov_options options (db, s)) in
    (forall k, is_special k = false ->
       db' (prefix ++ k) = match given options k with Some v => Some v | None => db (prefix ++ k) end) /\
    (forall k, is_special k = true -> db' (prefix ++ k) = db (prefix ++ k)) /\
    db' "matptap_via" = match given options "matptap_via" with Some v => Some v | None => db "matptap_via" end /\
    (forall key, key <> "matptap_via" -> (forall k, key <> prefix ++ k) -> db' key = db key).
Proof.
  intros options db s ND db'. unfold db', set_krylov_options.
  pose proof (sort_options_spec options ND [] [] db) as SP.
  destruct (sort_options options [] [] db) as [[g pc] db1]. destruct SP as (G & PC & S1 & S2 & S3). cbn [app] in G.
  destruct (match dict_get pc "pc_mg_levels" with Some _ => _ | None => _ end) as [levels cycles]. cbn [fst].
  rewrite filter_keys_one in G by exact ND.
  assert (P : forall k, set_global g db1 (prefix ++ k) = db1 (prefix ++ k)).
  { intros k. apply set_global_other. intros kv Hk. rewrite G in Hk.
    destruct (given options "matptap_via"); [|destruct Hk]. destruct Hk as [<-|[]]. apply prefix_not_global. }
  split; [|split; [|split]].
  - intros k H. rewrite P. auto.
  - intros k H. rewrite P. auto.
  - rewrite G. destruct (given options "matptap_via"); [reflexivity|]. apply S3. apply prefix_not_global.
  - intros key H1 H2. rewrite set_global_other; [auto|]. intros kv Hk. rewrite G in Hk.
    destruct (given options "matptap_via"); [|destruct Hk]. destruct Hk as [<-|[]]. cbn. congruence.
Qed.
Print Assumptions C95_database.

(** Options the solver, matrix and vector have after a call: what is given now, else what
    the database holds from earlier calls, else what they had. *)
Theorem C95_options_exact :
  forall (options : list (string * value)) (db : database) (s : krylov) (k : string), keys_distinct options -> is_special k = false ->
    let s' := snd (set_krylov_options options (db, s)) in
    let taken old := match given options k with
                     | Some v => Some v
                     | None => match db (prefix ++ k) with Some v => Some v | None => old k end
                     end in
    ksp_options s' k = taken (ksp_options s) /\ mat_options s' k = taken (mat_options s) /\ vec_options s' k = taken (vec_options s).
Proof.
  intros options db s k ND NS s' taken.
  destruct (C95_database options db s ND) as (D1 & _). specialize (D1 k NS).
  unfold s', taken, set_krylov_options in *.
  destruct (sort_options options [] [] db) as [[g pc] db1].
  destruct (match dict_get pc "pc_mg_levels" with Some _ => _ | None => _ end) as [levels cycles].
  cbn [fst snd ksp_options mat_options vec_options] in *. unfold from_options. rewrite D1.
  destruct (given options k); auto.
Qed.
Print Assumptions C95_options_exact.

(** Hence every given option that is not special is obeyed by all three, and in a process
    that has set no option with this prefix a new solver has the given options and no others. *)
Theorem C95_given_options_apply :
  forall (options : list (string * value)) (db : database) (s : krylov) (k : string) (v : value),
    keys_distinct options -> In (k, v) options -> is_special k = false ->
    let s' := snd (set_krylov_options options (db, s)) in
    ksp_options s' k = Some v /\ mat_options s' k = Some v /\ vec_options s' k = Some v.
Proof.
  intros options db s k v ND HI NS s'. destruct (C95_options_exact options db s k ND NS) as (E1 & E2 & E3).
  rewrite (given_in options k v ND HI) in E1, E2, E3. auto.
Qed.
Print Assumptions C95_given_options_apply.

Theorem C95_first_solver :
  forall (options : list (string * value)) (db : database) (mat vec : string -> option value) (k : string),
    keys_distinct options -> is_special k = false -> (forall k, db (prefix ++ k) = None) ->
    ksp_options (snd (set_krylov_options options (db, new_krylov mat vec))) k = given options k.
Proof.
  intros options db mat vec k ND NS CL. destruct (C95_options_exact options db (new_krylov mat vec) k ND NS) as (E1 & _).
  rewrite E1, CL. cbn. destruct (given options k); reflexivity.
Qed.
Print Assumptions C95_first_solver.

(** The number of multigrid levels is set unless the preconditioner is "gamg"; the cycle
    type only together with a number of levels. *)
Theorem C95_multigrid_exact :
  forall (options : list (string * value)) (db : database) (s : krylov), keys_distinct options ->
    let s' := snd (set_krylov_options options (db, s)) in
    (mg_levels s' = match given options "pc_mg_levels" with
                    | Some (Some n) => if match ksp_options s' "pc_type" with Some (Some t) => t =? "gamg" | _ => false end
                                       then mg_levels s else Some n
                    | _ => mg_levels s end) /\
    (mg_cycles s' = match given options "pc_mg_levels", given options "pc_mg_cycles" with
                    | Some (Some _), Some (Some c) => Some c
                    | _, _ => mg_cycles s end).
Proof.
  intros options db s ND s'. unfold s', set_krylov_options.
  pose proof (sort_options_spec options ND [] [] db) as SP.
  destruct (sort_options options [] [] db) as [[g pc] db1]. destruct SP as (_ & PC & _). cbn [app] in PC. subst pc.
  rewrite !dict_get_filter by reflexivity.
  destruct (given options "pc_mg_levels") as [[n|]|]; cbn [snd ksp_options mg_levels mg_cycles]; auto.
  destruct (given options "pc_mg_cycles") as [[c|]|]; auto.
Qed.
Print Assumptions C95_multigrid_exact.

(** "Create new krylov solver with different set of options" is not what happens: options of
    the earlier set that the new one does not mention are still in force. *)
Theorem C95_new_options_only_refuted :
  ~ (forall (o1 o2 : list (string * value)) (db : database) (s : krylov) (k : string),
       keys_distinct o1 -> keys_distinct o2 -> is_special k = false -> (forall k, db (prefix ++ k) = None) ->
       ksp_options (snd (update_krylov_solver o2 (set_krylov_options o1 (db, s)))) k = given o2 k).
Proof.
  intros H.
  specialize (H [("ksp_type", Some "cg"); ("pc_type", Some "gamg")] [("ksp_type", Some "preonly")]
                (fun _ => None) (new_krylov (fun _ => None) (fun _ => None)) "pc_type").
  cbv in H. discriminate H; auto; repeat constructor; cbn; intuition discriminate.
Qed.
Print Assumptions C95_new_options_only_refuted.

(** What happens exactly. *)
Theorem C95_update_exact :
  forall (o1 o2 : list (string * value)) (db : database) (s : krylov) (k : string),
    keys_distinct o1 -> keys_distinct o2 -> is_special k = false ->
    ksp_options (snd (update_krylov_solver o2 (set_krylov_options o1 (db, s)))) k =
      match given o2 k with Some v => Some v | None =>
        match given o1 k with Some v => Some v | None => db (prefix ++ k) end end.
Proof.
  intros o1 o2 db s k N1 N2 NS.
  destruct (C95_database o1 db s N1) as (D & _). specialize (D k NS).
  unfold update_krylov_solver. destruct (set_krylov_options o1 (db, s)) as [db1 s1]. cbn [fst] in D.
  destruct (C95_options_exact o2 db1 (new_krylov (mat_options s1) (vec_options s1)) k N2 NS) as (E & _). rewrite E, D. cbn [new_krylov ksp_options].
  destruct (given o2 k); [reflexivity|]. destruct (given o1 k); [reflexivity|]. destruct (db (prefix ++ k)); reflexivity.
Qed.
Print Assumptions C95_update_exact.

(** A cycle type given without a number of levels has no effect at all. *)
Theorem C95_cycles_obeyed_refuted :
  ~ (forall (options : list (string * value)) (db : database) (s : krylov) (c : string),
       keys_distinct options -> In ("pc_mg_cycles", Some c) options ->
       mg_cycles (snd (set_krylov_options options (db, s))) = Some c).
Proof.
  intros H. specialize (H [("pc_type", Some "mg"); ("pc_mg_cycles", Some "2")] (fun _ => None) (new_krylov (fun _ => None) (fun _ => None)) "2").
  cbv in H. discriminate H; auto. repeat constructor; cbn; intuition discriminate.
Qed.
Print Assumptions C95_cycles_obeyed_refuted.

(** Non-vacuity: a usual set of options. *)
Example C95_example :
  let options := [("ksp_type", Some "cg"); ("matptap_via", Some "scalable"); ("pc_type", Some "gamg"); ("pc_mg_levels", Some "3"); ("pc_mg_cycles", Some "1")] in
  let '(db, s) := set_krylov_options options (fun _ => None, new_krylov (fun _ => None) (fun _ => None)) in
  keys_distinct options /\ ksp_options s "ksp_type" = Some (Some "cg") /\ db "matptap_via" = Some (Some "scalable") /\
  db "Newton_solver_matptap_via" = None /\ mg_levels s = None /\ mg_cycles s = Some "1".
Proof.
  cbv zeta. destruct (set_krylov_options _ _) as [db s] eqn:E. revert E. cbv - [keys_distinct]. intros E. injection E as <- <-.
  split; [|cbn; auto]. unfold keys_distinct. cbn. repeat constructor; cbn; intuition discriminate.
Qed.
