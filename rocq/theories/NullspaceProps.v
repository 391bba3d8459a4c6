(** Properties C52, C59: near-nullspace vectors are rigid motions of bodies. *)
From Coq Require Import List Arith Lia Bool Reals Lra.
Import ListNotations.
From Verif Require Import Prelude PreludeLemmas RSum RealLemmas NullspaceModel.
Local Open Scope R_scope.

(** ** Specification *)

(** An infinitesimal rigid motion x -> c + W x with W skew. *)
Definition skew (gdim : nat) (W : nat -> nat -> R) : Prop := forall i j, (i < gdim)%nat -> (j < gdim)%nat -> W i j = - W j i.
Definition motion (gdim : nat) (c : nat -> R) (W : nat -> nat -> R) (x : nat -> R) (i : nat) : R :=
  c i + rsum gdim (fun j => W i j * x j).

(** The standard basis of rigid motions: translations along the axes, then the
    rotation(s). *)
Definition base_c (gdim m : nat) (i : nat) : R := if (m <? gdim)%nat then (if (i =? m)%nat then 1 else 0) else 0.
Definition base_W (gdim m : nat) (i j : nat) : R :=
  if (m <? gdim)%nat then 0 else
  match (m - gdim)%nat, i, j with
  | 0%nat, 0%nat, 1%nat => -1 | 0%nat, 1%nat, 0%nat => 1
  | 1%nat, 0%nat, 2%nat => 1  | 1%nat, 2%nat, 0%nat => -1
  | 2%nat, 2%nat, 1%nat => 1  | 2%nat, 1%nat, 2%nat => -1
  | _, _, _ => 0
  end.

Lemma base_W_skew gdim m : skew gdim (base_W gdim m).
Proof.
  intros i j Hi Hj. unfold base_W. destruct (m <? gdim)%nat; [lra|].
  destruct (m - gdim)%nat as [|[|[|?]]]; destruct i as [|[|[|?]]]; destruct j as [|[|[|?]]]; lra.
Qed.

(** ** Sequences of writes *)
Definition run (ops : list (nat * nat * R)) (b : list (list R)) : list (list R) :=
  fold_left (fun b op => setb b (fst (fst op)) (snd (fst op)) (snd op)) ops b.
Lemma run_app o1 o2 b : run (o1 ++ o2) b = run o2 (run o1 b).
Proof. apply fold_left_app. Qed.
Lemma run_flat {A} (l : list A) (f : A -> list (nat * nat * R)) (body : A -> list (list R) -> list (list R)) b :
  (forall a b, In a l -> body a b = run (f a) b) -> for_each l body b = run (flat_map f l) b.
Proof.
  revert b. induction l as [|a l IH]; intros b H; [reflexivity|]. cbn [flat_map]. rewrite run_app, <- (H a b) by now left.
  apply IH. intros a' b' Hin. apply H. now right.
Qed.
Lemma run_loop n (f : nat -> list (nat * nat * R)) (body : nat -> list (list R) -> list (list R)) b :
  (forall i b, (i < n)%nat -> body i b = run (f i) b) -> for_loop n body b = run (flat_map f (seq 0 n)) b.
Proof. intros H. unfold for_loop, for_range. apply run_flat. intros i b' Hi. apply in_seq in Hi. apply H. lia. Qed.

Lemma setb_length b v i val : length (setb b v i val) = length b.
Proof. apply upd_length. Qed.
Lemma setb_row_length b v i val w : length (nth w (setb b v i val) []) = length (nth w b []).
Proof.
  unfold setb. destruct (Nat.eq_dec v w) as [->|Hne]; [|now rewrite nth_upd_other].
  destruct (Nat.lt_ge_cases w (length b)); [now rewrite nth_upd_same, upd_length|]. now rewrite upd_oob.
Qed.
Lemma setb_nth b v i val w k :
  (v < length b)%nat -> (i < length (nth v b []))%nat ->
  nth k (nth w (setb b v i val) []) 0 = if ((v =? w) && (i =? k))%nat then val else nth k (nth w b []) 0.
Proof.
  intros Hv Hi. unfold setb. destruct (Nat.eqb_spec v w) as [->|Hne]; cbn [andb].
  - rewrite nth_upd_same by auto. destruct (Nat.eqb_spec i k) as [->|]; [now rewrite nth_upd_same|now rewrite nth_upd_other].
  - now rewrite nth_upd_other.
Qed.

(** All writes to a place carry the same value [F]. *)
Lemma run_consistent (F : nat -> nat -> R) ops b rows cols :
  length b = rows -> (forall v, (v < rows)%nat -> length (nth v b []) = cols) ->
  (forall v i val, In (v, i, val) ops -> (v < rows)%nat /\ (i < cols)%nat /\ val = F v i) ->
  forall v i, nth i (nth v (run ops b) []) 0 = if existsb (fun op => (fst (fst op) =? v) && (snd (fst op) =? i))%nat ops then F v i else nth i (nth v b []) 0.
Proof.
  revert b. induction ops as [|[[v0 i0] val] ops IH]; intros b Hr Hc Hops v i; [reflexivity|].
  destruct (Hops v0 i0 val ltac:(now left)) as (H1 & H2 & ->).
  change (run ((v0, i0, F v0 i0) :: ops) b) with (run ops (setb b v0 i0 (F v0 i0))).
  rewrite IH.
  - cbn [existsb fst snd]. rewrite setb_nth by (rewrite ?Hr, ?Hc; auto).
    destruct (existsb _ ops); [now rewrite orb_true_r|]. rewrite orb_false_r.
    destruct (Nat.eqb_spec v0 v) as [->|]; cbn [andb]; [|reflexivity]. now destruct (Nat.eqb_spec i0 i) as [->|].
  - now rewrite setb_length.
  - intros w Hw. rewrite setb_row_length. auto.
  - intros v' i' val' Hin. apply Hops. now right.
Qed.

Lemma run_length ops b : length (run ops b) = length b.
Proof. revert b. induction ops as [|op ops IH]; intros b; [reflexivity|]. cbn. rewrite IH. apply setb_length. Qed.

Lemma repeat_rows (rows cols v : nat) : (v < rows)%nat -> nth v (repeat (repeat 0 cols) rows) [] = repeat 0 cols.
Proof. revert v. induction rows as [|r IH]; intros v H; [lia|]. destruct v; [reflexivity|]. cbn. apply IH. lia. Qed.
Lemma repeat_entry rows cols v i : nth i (nth v (repeat (repeat 0 cols) rows) []) 0 = 0.
Proof.
  destruct (Nat.lt_ge_cases v rows); [rewrite repeat_rows by auto; apply nth_repeat_0|].
  rewrite nth_overflow with (n := v) by (rewrite repeat_length; lia). now destruct i.
Qed.

(** ** C52 *)

(** The writes of one body. *)
Definition motion_ops (gdim j : nat) (x : list R) (dofs : list nat) : list (nat * nat * R) :=
  let dim := nullspace_dim gdim in
  let xd dof c := nth (3 * dof + c) x 0 in
  flat_map (fun k => map (fun dof => ((j * dim + k, gdim * dof + k)%nat, 1)) dofs) (seq 0 gdim) ++
  (if (gdim =? 2)%nat then
     flat_map (fun dof => [((j * dim + gdim, gdim * dof)%nat, - xd dof 1%nat); ((j * dim + gdim, gdim * dof + 1)%nat, xd dof 0%nat)]) dofs
   else
     flat_map (fun dof => [((j * dim + gdim, gdim * dof)%nat, - xd dof 1%nat); ((j * dim + gdim, gdim * dof + 1)%nat, xd dof 0%nat);
                           ((j * dim + 4, gdim * dof)%nat, xd dof 2%nat); ((j * dim + 4, gdim * dof + 2)%nat, - xd dof 0%nat);
                           ((j * dim + 5, gdim * dof + 2)%nat, xd dof 1%nat); ((j * dim + 5, gdim * dof + 1)%nat, - xd dof 2%nat)]) dofs).

Lemma flat_map_singleton {A B} (f : A -> B) l : flat_map (fun a => [f a]) l = map f l.
Proof. induction l as [|a l IH]; [reflexivity|]. cbn. now rewrite IH. Qed.

Lemma multibody_ops gdim n tags find cell_dofs x :
  build_nullspace_multibody gdim n tags find cell_dofs x =
  run (flat_map (fun j => motion_ops gdim j x (body_dofs (find (nth j tags 0%nat)) cell_dofs)) (seq 0 (length tags)))
      (repeat (repeat 0 (gdim * n)) (nullspace_dim gdim * length tags)).
Proof.
  unfold build_nullspace_multibody. apply run_loop. intros j b Hj. unfold motion_ops. rewrite run_app.
  rewrite (run_loop gdim (fun k => map (fun dof => ((j * nullspace_dim gdim + k, gdim * dof + k)%nat, 1)) (body_dofs (find (nth j tags 0%nat)) cell_dofs))).
  - destruct (gdim =? 2)%nat; apply run_flat; intros; reflexivity.
  - intros i b' Hi. rewrite <- flat_map_singleton. apply run_flat. intros; reflexivity.
Qed.

Lemma motion_ops_sound gdim j x dofs v k val :
  gdim = 2%nat \/ gdim = 3%nat -> In (v, k, val) (motion_ops gdim j x dofs) ->
  exists m d i, (m < nullspace_dim gdim)%nat /\ In d dofs /\ (i < gdim)%nat /\ v = (j * nullspace_dim gdim + m)%nat /\ k = (gdim * d + i)%nat /\
    val = motion gdim (base_c gdim m) (base_W gdim m) (fun c => nth (3 * d + c) x 0) i.
Proof.
  intros Hg H. unfold motion_ops in H. apply in_app_or in H. destruct H as [H|H].
  - apply in_flat_map in H. destruct H as (q & Hq & H). apply in_seq in Hq. apply in_map_iff in H. destruct H as (d & E & Hd). injection E as <- <- <-.
    exists q, d, q. repeat split; auto; try lia.
    + destruct Hg as [-> | ->]; cbn; lia.
    + unfold motion, base_c, base_W. destruct (Nat.ltb_spec q gdim) as [|]; [|lia]. rewrite Nat.eqb_refl.
      rewrite rsum_zero; [lra|]. intros; lra.
  - destruct Hg as [-> | ->]; cbn [Nat.eqb nullspace_dim] in *; apply in_flat_map in H; destruct H as (d & Hd & H).
    + destruct H as [E|[E|[]]]; injection E as <- <- <-.
      * exists 2%nat, d, 0%nat. repeat split; auto; try lia. unfold motion; cbn [rsum base_c base_W Nat.ltb Nat.leb Nat.sub]; replace (d + (d + (d + 0)))%nat with (3 * d)%nat by lia; lra.
      * exists 2%nat, d, 1%nat. repeat split; auto; try lia. unfold motion; cbn [rsum base_c base_W Nat.ltb Nat.leb Nat.sub]; replace (d + (d + (d + 0)))%nat with (3 * d)%nat by lia; lra.
    + destruct H as [E|[E|[E|[E|[E|[E|[]]]]]]]; injection E as <- <- <-;
        [exists 3%nat, d, 0%nat|exists 3%nat, d, 1%nat|exists 4%nat, d, 0%nat|exists 4%nat, d, 2%nat|exists 5%nat, d, 2%nat|exists 5%nat, d, 1%nat];
        (repeat split; auto; try lia; unfold motion; cbn [rsum base_c base_W Nat.ltb Nat.leb Nat.sub]; replace (d + (d + (d + 0)))%nat with (3 * d)%nat by lia; lra).
Qed.

Lemma motion_ops_complete gdim j x dofs m d i :
  gdim = 2%nat \/ gdim = 3%nat -> (m < nullspace_dim gdim)%nat -> In d dofs -> (i < gdim)%nat ->
  (exists val, In ((j * nullspace_dim gdim + m)%nat, (gdim * d + i)%nat, val) (motion_ops gdim j x dofs)) \/
  motion gdim (base_c gdim m) (base_W gdim m) (fun c => nth (3 * d + c) x 0) i = 0.
Proof.
  intros Hg Hm Hd Hi.
  destruct (Nat.lt_ge_cases m gdim) as [Hlt|Hge].
  - destruct (Nat.eq_dec i m) as [->|Hne].
    + left. exists 1. unfold motion_ops. apply in_or_app. left. apply in_flat_map. exists m. split; [apply in_seq; lia|].
      apply in_map_iff. now exists d.
    + right. unfold motion, base_c, base_W. destruct (Nat.ltb_spec m gdim) as [|]; [|lia]. destruct (Nat.eqb_spec i m) as [|]; [lia|].
      rewrite rsum_zero; [lra|]. intros; lra.
  - destruct Hg as [-> | ->]; cbn [nullspace_dim Nat.eqb] in *.
    + assert (m = 2%nat) as -> by lia. left. destruct i as [|[|i]]; [| |lia]; eexists; apply in_or_app; right; cbn [Nat.eqb]; apply in_flat_map; exists d; (split; [auto|]).
      * left. rewrite Nat.add_0_r. reflexivity.
      * right. left. reflexivity.
    + assert (Hcase : m = 3%nat \/ m = 4%nat \/ m = 5%nat) by lia.
      destruct Hcase as [-> | [-> | ->]]; (destruct i as [|[|[|i]]]; [| | |lia]);
        try (right; unfold motion; cbn [rsum base_c base_W Nat.ltb Nat.leb Nat.sub]; lra);
        left; eexists; apply in_or_app; right; cbn [Nat.eqb]; apply in_flat_map; exists d; (split; [auto|]); rewrite ?Nat.add_0_r; cbn [In]; eauto 10.
Qed.

Lemma pair_index q a b a' b' : (b < q)%nat -> (b' < q)%nat -> (q * a + b = q * a' + b')%nat -> a = a' /\ b = b'.
Proof. intros Hb Hb' E. assert (a = a') by nia. subst. split; [auto|lia]. Qed.

(** Result of a sequence of writes that is, as a set, the writes of all bodies. *)
Lemma run_motion gdim n nb rows (dofs : nat -> list nat) x ops :
  gdim = 2%nat \/ gdim = 3%nat -> (nb <= rows)%nat -> (forall j d, (j < nb)%nat -> In d (dofs j) -> (d < n)%nat) ->
  (forall o, In o ops <-> exists j, (j < nb)%nat /\ In o (motion_ops gdim j x (dofs j))) ->
  forall j m d i, (j < nb)%nat -> (m < nullspace_dim gdim)%nat -> (i < gdim)%nat ->
    nth (gdim * d + i) (nth (j * nullspace_dim gdim + m) (run ops (repeat (repeat 0 (gdim * n)) (nullspace_dim gdim * rows))) []) 0 =
    if in_dec Nat.eq_dec d (dofs j) then motion gdim (base_c gdim m) (base_W gdim m) (fun c => nth (3 * d + c) x 0) i else 0.
Proof.
  intros Hg Hrows Hd Hops j m d i Hj Hm Hi. set (dim := nullspace_dim gdim) in *.
  set (F := fun v k => motion gdim (base_c gdim (v mod dim)) (base_W gdim (v mod dim)) (fun c => nth (3 * (k / gdim) + c) x 0) (k mod gdim)).
  assert (HF : forall j m d i, (m < dim)%nat -> (i < gdim)%nat -> F (j * dim + m)%nat (gdim * d + i)%nat = motion gdim (base_c gdim m) (base_W gdim m) (fun c => nth (3 * d + c) x 0) i).
  { intros j' m' d' i' Hm' Hi'. unfold F.
    replace ((j' * dim + m') mod dim)%nat with m' by (rewrite Nat.add_comm, Nat.mod_add by lia; symmetry; apply Nat.mod_small; auto).
    replace ((gdim * d' + i') / gdim)%nat with d' by (rewrite Nat.mul_comm, Nat.div_add_l by lia; rewrite Nat.div_small by auto; lia).
    replace ((gdim * d' + i') mod gdim)%nat with i' by (rewrite Nat.mul_comm, Nat.add_comm, Nat.mod_add by lia; symmetry; apply Nat.mod_small; auto).
    reflexivity. }
  rewrite (run_consistent F ops _ (dim * rows) (gdim * n)).
  - destruct (existsb _ ops) eqn:E.
    + apply existsb_exists in E. destruct E as ([[v k] val] & Hin & E). cbn [fst snd] in E. apply andb_prop in E. destruct E as [E1 E2].
      apply Nat.eqb_eq in E1. apply Nat.eqb_eq in E2. apply Hops in Hin. destruct Hin as (j' & Hj' & Hin).
      apply motion_ops_sound in Hin; auto. destruct Hin as (m' & d' & i' & Hm' & Hd' & Hi' & -> & -> & Hval). fold dim in E1, Hm'.
      destruct (pair_index dim j' m' j m) as [-> ->]; auto; [lia|]. destruct (pair_index gdim d' i' d i) as [-> ->]; auto.
      destruct (in_dec Nat.eq_dec d (dofs j)); [|contradiction]. now apply HF.
    + rewrite repeat_entry. destruct (in_dec Nat.eq_dec d (dofs j)) as [Hin|]; [|reflexivity].
      destruct (motion_ops_complete gdim j x (dofs j) m d i) as [[val Hop]|Hz]; auto.
      exfalso. assert (Hin' : In ((j * dim + m)%nat, (gdim * d + i)%nat, val) ops) by (apply Hops; eauto).
      assert (existsb (fun op => (fst (fst op) =? j * dim + m) && (snd (fst op) =? gdim * d + i))%nat ops = true).
      { apply existsb_exists. eexists. split; [exact Hin'|]. cbn [fst snd]. now rewrite !Nat.eqb_refl. }
      congruence.
  - apply repeat_length.
  - intros v Hv. rewrite repeat_rows by auto. apply repeat_length.
  - intros v k val Hin. apply Hops in Hin. destruct Hin as (j' & Hj' & Hin).
    apply motion_ops_sound in Hin; auto. destruct Hin as (m' & d' & i' & Hm' & Hd' & Hi' & -> & -> & ->). fold dim in Hm' |- *.
    specialize (Hd j' d' Hj' Hd'). repeat split; [nia|nia|]. symmetry. now apply HF.
Qed.

Lemma body_dofs_in cells cell_dofs d : In d (body_dofs cells cell_dofs) <-> exists c, In c cells /\ In d (cell_dofs c).
Proof. unfold body_dofs. rewrite sort_unique_nat_in. apply in_flat_map. Qed.

(** *** C++ builder *)
Theorem C52_multibody_rigid_motions :
  forall gdim n tags find cell_dofs x,
    gdim = 2%nat \/ gdim = 3%nat ->
    (forall tag c d, In tag tags -> In c (find tag) -> In d (cell_dofs c) -> (d < n)%nat) ->
    let basis := build_nullspace_multibody gdim n tags find cell_dofs x in
    length basis = (nullspace_dim gdim * length tags)%nat /\
    forall j m, (j < length tags)%nat -> (m < nullspace_dim gdim)%nat ->
      exists c W, skew gdim W /\
        forall d i, (i < gdim)%nat ->
          ((exists cell, In cell (find (nth j tags 0%nat)) /\ In d (cell_dofs cell)) ->
             nth (gdim * d + i) (nth (j * nullspace_dim gdim + m) basis []) 0 = motion gdim c W (fun k => nth (3 * d + k) x 0) i) /\
          (~ (exists cell, In cell (find (nth j tags 0%nat)) /\ In d (cell_dofs cell)) ->
             nth (gdim * d + i) (nth (j * nullspace_dim gdim + m) basis []) 0 = 0).
Proof.
  intros gdim n tags find cell_dofs x Hg Hn basis. unfold basis. rewrite multibody_ops. split; [rewrite run_length; apply repeat_length|].
  intros j m Hj Hm. exists (base_c gdim m), (base_W gdim m). split; [apply base_W_skew|]. intros d i Hi.
  rewrite (run_motion gdim n (length tags) (length tags) (fun j => body_dofs (find (nth j tags 0%nat)) cell_dofs) x); auto.
  - rewrite <- body_dofs_in. destruct (in_dec _ d _); tauto.
  - intros j' d' Hj' Hd'. apply body_dofs_in in Hd'. destruct Hd' as (c & Hc & Hd'). apply (Hn (nth j' tags 0%nat) c); auto. apply nth_In; auto.
  - intros o. rewrite in_flat_map. split; intros (j' & H1 & H2); exists j'; (split; [|exact H2]); [apply in_seq in H1|apply in_seq]; lia.
Qed.
Print Assumptions C52_multibody_rigid_motions.

(** *** Python builder *)
Definition py_motion_ops (gdim j : nat) (x : list R) (dofs : list nat) : list (nat * nat * R) :=
  let dim := nullspace_dim gdim in
  let xd dof c := nth (3 * dof + c) x 0 in
  flat_map (fun k => map (fun dof => ((j * dim + k, gdim * dof + k)%nat, 1)) dofs) (seq 0 gdim) ++
  (if (gdim =? 2)%nat then
     map (fun dof => ((j * dim + 2, gdim * dof + 0)%nat, - xd dof 1%nat)) dofs ++ map (fun dof => ((j * dim + 2, gdim * dof + 1)%nat, xd dof 0%nat)) dofs
   else
     map (fun dof => ((j * dim + 3, gdim * dof + 0)%nat, - xd dof 1%nat)) dofs ++ map (fun dof => ((j * dim + 3, gdim * dof + 1)%nat, xd dof 0%nat)) dofs ++
     map (fun dof => ((j * dim + 4, gdim * dof + 0)%nat, xd dof 2%nat)) dofs ++ map (fun dof => ((j * dim + 4, gdim * dof + 2)%nat, - xd dof 0%nat)) dofs ++
     map (fun dof => ((j * dim + 5, gdim * dof + 2)%nat, xd dof 1%nat)) dofs ++ map (fun dof => ((j * dim + 5, gdim * dof + 1)%nat, - xd dof 2%nat)) dofs).

Lemma set_all_run b v dofs idx val : set_all b v dofs idx val = run (map (fun d => ((v, idx d), val d)) dofs) b.
Proof. unfold set_all. rewrite <- flat_map_singleton. apply run_flat. reflexivity. Qed.

Lemma py_motion_ops_in gdim j x dofs o : gdim = 2%nat \/ gdim = 3%nat ->
  In o (py_motion_ops gdim j x dofs) <-> In o (motion_ops gdim j x dofs).
Proof.
  intros Hg. unfold py_motion_ops, motion_ops. cbv zeta. set (dim := nullspace_dim gdim).
  rewrite !in_app_iff. apply or_iff_compat_l.
  destruct Hg as [-> | ->]; cbn [Nat.eqb]; rewrite !in_app_iff, in_flat_map; split.
  - intros [H|H]; apply in_map_iff in H; destruct H as (d & <- & Hd); exists d; (split; [auto|]); rewrite ?Nat.add_0_r; cbn [In]; auto.
  - intros (d & Hd & H). rewrite !in_map_iff. destruct H as [<-|[<-|[]]]; [left|right]; exists d; rewrite ?Nat.add_0_r; auto.
  - intros [H|[H|[H|[H|[H|H]]]]]; apply in_map_iff in H; destruct H as (d & <- & Hd); exists d; (split; [auto|]); rewrite ?Nat.add_0_r; cbn [In]; auto 10.
  - intros (d & Hd & H). rewrite !in_map_iff.
    destruct H as [<-|[<-|[<-|[<-|[<-|[<-|[]]]]]]];
      [left|right; left|do 2 right; left|do 3 right; left|do 4 right; left|do 5 right]; exists d; rewrite ?Nat.add_0_r; auto.
Qed.

Lemma py_subdomains_ops gdim n num_domains tags find cell_dofs x :
  rigid_motions_nullspace_subdomains gdim n num_domains tags find cell_dofs x =
  run (flat_map (fun j => py_motion_ops gdim j x (body_dofs (find (nth j tags 0%nat)) cell_dofs)) (seq 0 (length tags)))
      (repeat (repeat 0 (gdim * n)) (nullspace_dim gdim * num_domains)).
Proof.
  unfold rigid_motions_nullspace_subdomains. apply run_loop. intros j b Hj. unfold py_motion_ops. rewrite run_app.
  rewrite (run_loop gdim (fun k => map (fun dof => ((j * nullspace_dim gdim + k, gdim * dof + k)%nat, 1)) (body_dofs (find (nth j tags 0%nat)) cell_dofs)))
    by (intros; apply set_all_run).
  destruct (gdim =? 2)%nat; rewrite !run_app, !set_all_run; reflexivity.
Qed.

Theorem C52_py_subdomains_rigid_motions :
  forall gdim n num_domains tags find cell_dofs x,
    gdim = 2%nat \/ gdim = 3%nat -> (length tags <= num_domains)%nat ->
    (forall tag c d, In tag tags -> In c (find tag) -> In d (cell_dofs c) -> (d < n)%nat) ->
    let basis := rigid_motions_nullspace_subdomains gdim n num_domains tags find cell_dofs x in
    forall j m, (j < length tags)%nat -> (m < nullspace_dim gdim)%nat ->
      exists c W, skew gdim W /\
        forall d i, (i < gdim)%nat ->
          ((exists cell, In cell (find (nth j tags 0%nat)) /\ In d (cell_dofs cell)) ->
             nth (gdim * d + i) (nth (j * nullspace_dim gdim + m) basis []) 0 = motion gdim c W (fun k => nth (3 * d + k) x 0) i) /\
          (~ (exists cell, In cell (find (nth j tags 0%nat)) /\ In d (cell_dofs cell)) ->
             nth (gdim * d + i) (nth (j * nullspace_dim gdim + m) basis []) 0 = 0).
Proof.
  intros gdim n nd tags find cell_dofs x Hg Hnd Hn basis j m Hj Hm. unfold basis. rewrite py_subdomains_ops.
  exists (base_c gdim m), (base_W gdim m). split; [apply base_W_skew|]. intros d i Hi.
  rewrite (run_motion gdim n (length tags) nd (fun j => body_dofs (find (nth j tags 0%nat)) cell_dofs) x); auto.
  - rewrite <- body_dofs_in. destruct (in_dec _ d _); tauto.
  - intros j' d' Hj' Hd'. apply body_dofs_in in Hd'. destruct Hd' as (c & Hc & Hd'). apply (Hn (nth j' tags 0%nat) c); auto. apply nth_In; auto.
  - intros o. rewrite in_flat_map. split; intros (j' & H1 & H2); exists j'; (split; [|now apply (py_motion_ops_in gdim j' x _ o Hg)]); [apply in_seq in H1|apply in_seq]; lia.
Qed.
Print Assumptions C52_py_subdomains_rigid_motions.

(** The C++ and the Python builder hand the same vectors to the orthonormalisation. *)
Theorem C52_builders_agree :
  forall gdim n tags find cell_dofs x,
    gdim = 2%nat \/ gdim = 3%nat ->
    (forall tag c d, In tag tags -> In c (find tag) -> In d (cell_dofs c) -> (d < n)%nat) ->
    forall v d i, (v < nullspace_dim gdim * length tags)%nat -> (i < gdim)%nat ->
      nth (gdim * d + i) (nth v (rigid_motions_nullspace_subdomains gdim n (length tags) tags find cell_dofs x) []) 0 =
      nth (gdim * d + i) (nth v (build_nullspace_multibody gdim n tags find cell_dofs x) []) 0.
Proof.
  intros gdim n tags find cell_dofs x Hg Hn v d i Hv Hi. rewrite py_subdomains_ops, multibody_ops.
  set (dim := nullspace_dim gdim) in *. assert (Hdim : dim <> 0%nat) by (unfold dim, nullspace_dim; destruct (gdim =? 2)%nat; lia).
  assert (Hq : (v / dim < length tags)%nat) by (apply Nat.div_lt_upper_bound; lia).
  assert (Hr : (v mod dim < dim)%nat) by (apply Nat.mod_upper_bound; auto).
  rewrite (Nat.div_mod v dim Hdim), (Nat.mul_comm dim (v / dim)). unfold dim.
  assert (Hb : forall j' d', (j' < length tags)%nat -> In d' (body_dofs (find (nth j' tags 0%nat)) cell_dofs) -> (d' < n)%nat).
  { intros j' d' Hj' Hd'. apply body_dofs_in in Hd'. destruct Hd' as (c & Hc & Hd'). apply (Hn (nth j' tags 0%nat) c); auto. apply nth_In; auto. }
  rewrite (run_motion gdim n (length tags) (length tags) (fun j => body_dofs (find (nth j tags 0%nat)) cell_dofs) x); auto.
  - rewrite (run_motion gdim n (length tags) (length tags) (fun j => body_dofs (find (nth j tags 0%nat)) cell_dofs) x); auto.
    intros o. rewrite in_flat_map. split; intros (j' & H1 & H2); exists j'; (split; [|exact H2]); [apply in_seq in H1|apply in_seq]; lia.
  - intros o. rewrite in_flat_map. split; intros (j' & H1 & H2); exists j'; (split; [|now apply (py_motion_ops_in gdim j' x _ o Hg)]); [apply in_seq in H1|apply in_seq]; lia.
Qed.
Print Assumptions C52_builders_agree.

Theorem C52_py_single_body_rigid_motions :
  forall gdim n num_cells cell_dofs x,
    gdim = 2%nat \/ gdim = 3%nat ->
    (forall c d, (c < num_cells)%nat -> In d (cell_dofs c) -> (d < n)%nat) ->
    let basis := rigid_motions_nullspace gdim n num_cells cell_dofs x in
    forall m, (m < nullspace_dim gdim)%nat ->
      exists c W, skew gdim W /\
        forall d i, (i < gdim)%nat -> (exists cell, (cell < num_cells)%nat /\ In d (cell_dofs cell)) ->
             nth (gdim * d + i) (nth m basis []) 0 = motion gdim c W (fun k => nth (3 * d + k) x 0) i.
Proof.
  intros gdim n nc cell_dofs x Hg Hn basis m Hm. exists (base_c gdim m), (base_W gdim m). split; [apply base_W_skew|].
  intros d i Hi (cell & Hc & Hd). set (dofs := flat_map cell_dofs (seq 0 nc)).
  assert (Hin : In d dofs) by (apply in_flat_map; exists cell; split; [apply in_seq; lia|auto]).
  assert (E : basis = run (py_motion_ops gdim 0 x dofs) (repeat (repeat 0 (gdim * n)) (nullspace_dim gdim * 1))).
  { unfold basis, rigid_motions_nullspace, py_motion_ops. rewrite run_app, Nat.mul_1_r. fold dofs. cbv zeta. rewrite !Nat.mul_0_l, !Nat.add_0_l.
    rewrite (run_loop gdim (fun k => map (fun dof => ((k, gdim * dof + k)%nat, 1)) dofs)) by (intros; apply set_all_run).
    destruct (gdim =? 2)%nat; rewrite !run_app, !set_all_run; reflexivity. }
  rewrite E. change m with (0 * nullspace_dim gdim + m)%nat at 1.
  rewrite (run_motion gdim n 1 1 (fun _ => dofs) x); auto.
  - destruct (in_dec _ d _); tauto.
  - intros _ d' _ Hd'. apply in_flat_map in Hd'. destruct Hd' as (c & Hc' & Hd'). apply in_seq in Hc'. apply (Hn c); [lia|auto].
  - intros o. rewrite py_motion_ops_in by auto. split; [intros H; exists 0%nat; split; [lia|auto]|]. intros (j' & H1 & H2). assert (j' = 0%nat) as -> by lia. exact H2.
Qed.
Print Assumptions C52_py_single_body_rigid_motions.

(** *** Strain of a rigid motion *)

(** The displacement x -> motion c W x has derivative W i j in direction j, so
    its symmetric gradient is zero and with it the stress
    2 mu eps + lambda tr(eps) I for all Lame parameters. *)
Theorem C52_rigid_motion_no_strain :
  forall gdim c W x, skew gdim W ->
    exists grad : nat -> nat -> R,
      (forall i j, (j < gdim)%nat -> derivable_pt_lim (fun t => motion gdim c W (fun k => if (k =? j)%nat then t else x k) i) (x j) (grad i j)) /\
      (forall i j, (i < gdim)%nat -> (j < gdim)%nat -> (grad i j + grad j i) / 2 = 0) /\
      (forall mu lambda i j, (i < gdim)%nat -> (j < gdim)%nat ->
         2 * mu * ((grad i j + grad j i) / 2) + (if (i =? j)%nat then lambda * rsum gdim (fun k => grad k k) else 0) = 0).
Proof.
  intros gdim c W x HW. exists W.
  assert (Hs : forall i j, (i < gdim)%nat -> (j < gdim)%nat -> (W i j + W j i) / 2 = 0) by (intros i j Hi Hj; rewrite (HW i j Hi Hj); lra).
  split; [|split; auto].
  - intros i j Hj. unfold motion.
    apply (derivable_eq _ _ (0 + rsum gdim (fun k => W i k * (if (k =? j)%nat then 1 else 0)))).
    + apply derivable_plus; [apply derivable_const|]. apply (derivable_rsum gdim (fun k t => W i k * (if (k =? j)%nat then t else x k))).
      intros k Hk. apply derivable_scal. destruct (k =? j)%nat; [apply derivable_pt_lim_id|apply derivable_const].
    + rewrite Rplus_0_l. rewrite (rsum_single _ j); auto; [rewrite Nat.eqb_refl; ring|]. intros k _ Hne. destruct (Nat.eqb_spec k j); [contradiction|ring].
  - intros mu lambda i j Hi Hj. rewrite Hs by auto.
    assert (Htr : rsum gdim (fun k => W k k) = 0) by (apply rsum_zero; intros k Hk; specialize (HW k k Hk Hk); lra).
    rewrite Htr. destruct (i =? j)%nat; lra.
Qed.
Print Assumptions C52_rigid_motion_no_strain.

(** *** Linear combinations *)
Lemma rsum_prod n m f : rsum (n * m) f = rsum n (fun j => rsum m (fun k => f (j * m + k)%nat)).
Proof.
  induction n as [|n IH]; [reflexivity|]. replace (S n * m)%nat with (n * m + m)%nat by lia. rewrite rsum_app, IH. reflexivity.
Qed.

(** The orthonormalisation replaces the vectors by linear combinations of them.
    When the bodies share no dofs, every linear combination is on each body a
    rigid motion, and zero on dofs of no body. *)
Theorem C52_combinations_rigid_motions :
  forall gdim n tags find cell_dofs x (coef : nat -> R),
    gdim = 2%nat \/ gdim = 3%nat ->
    (forall tag c d, In tag tags -> In c (find tag) -> In d (cell_dofs c) -> (d < n)%nat) ->
    (forall j j' c c' d, (j < length tags)%nat -> (j' < length tags)%nat -> In c (find (nth j tags 0%nat)) -> In c' (find (nth j' tags 0%nat)) ->
       In d (cell_dofs c) -> In d (cell_dofs c') -> j = j') ->
    let basis := build_nullspace_multibody gdim n tags find cell_dofs x in
    let comb k := rsum (length basis) (fun v => coef v * nth k (nth v basis []) 0) in
    (forall j, (j < length tags)%nat ->
       exists c W, skew gdim W /\
         forall d i, (i < gdim)%nat -> (exists cell, In cell (find (nth j tags 0%nat)) /\ In d (cell_dofs cell)) ->
           comb (gdim * d + i)%nat = motion gdim c W (fun k => nth (3 * d + k) x 0) i) /\
    (forall d i, (i < gdim)%nat -> (forall j cell, (j < length tags)%nat -> In cell (find (nth j tags 0%nat)) -> ~ In d (cell_dofs cell)) -> comb (gdim * d + i)%nat = 0).
Proof.
  intros gdim n tags find cell_dofs x coef Hg Hn Hdisj basis comb.
  assert (HL : length basis = (length tags * nullspace_dim gdim)%nat).
  { unfold basis. rewrite multibody_ops, run_length, repeat_length. lia. }
  assert (Hent : forall j m d i, (j < length tags)%nat -> (m < nullspace_dim gdim)%nat -> (i < gdim)%nat ->
     nth (gdim * d + i) (nth (j * nullspace_dim gdim + m) basis []) 0 =
     if in_dec Nat.eq_dec d (body_dofs (find (nth j tags 0%nat)) cell_dofs) then motion gdim (base_c gdim m) (base_W gdim m) (fun c => nth (3 * d + c) x 0) i else 0).
  { unfold basis. rewrite multibody_ops. apply (run_motion gdim n (length tags) (length tags) (fun j => body_dofs (find (nth j tags 0%nat)) cell_dofs)); auto.
    - intros j' d' Hj' Hd'. apply body_dofs_in in Hd'. destruct Hd' as (c & Hc & Hd'). apply (Hn (nth j' tags 0%nat) c); auto. apply nth_In; auto.
    - intros o. rewrite in_flat_map. split; intros (j' & H1 & H2); exists j'; (split; [|exact H2]); [apply in_seq in H1|apply in_seq]; lia. }
  assert (Hcomb : forall d i, (i < gdim)%nat -> comb (gdim * d + i)%nat =
     rsum (length tags) (fun j => rsum (nullspace_dim gdim) (fun m => coef (j * nullspace_dim gdim + m)%nat *
       if in_dec Nat.eq_dec d (body_dofs (find (nth j tags 0%nat)) cell_dofs) then motion gdim (base_c gdim m) (base_W gdim m) (fun c => nth (3 * d + c) x 0) i else 0))).
  { intros d i Hi. unfold comb. rewrite HL, rsum_prod. apply rsum_ext. intros j Hj. apply rsum_ext. intros m Hm. now rewrite Hent. }
  split.
  - intros j Hj.
    exists (fun i => rsum (nullspace_dim gdim) (fun m => coef (j * nullspace_dim gdim + m)%nat * base_c gdim m i)).
    exists (fun i k => rsum (nullspace_dim gdim) (fun m => coef (j * nullspace_dim gdim + m)%nat * base_W gdim m i k)).
    split.
    + intros i k Hi Hk. rewrite <- rsum_opp. apply rsum_ext. intros m Hm. rewrite (base_W_skew gdim m i k Hi Hk). ring.
    + intros d i Hi Hd. rewrite Hcomb by auto. rewrite (rsum_single _ j); auto.
      * destruct (in_dec _ d _) as [_|Hno]; [|exfalso; apply Hno; now apply body_dofs_in].
        unfold motion.
        rewrite (rsum_ext (nullspace_dim gdim) _ (fun m => coef (j * nullspace_dim gdim + m)%nat * base_c gdim m i
            + rsum gdim (fun k => coef (j * nullspace_dim gdim + m)%nat * base_W gdim m i k * nth (3 * d + k) x 0))).
        -- rewrite rsum_plus. f_equal. rewrite rsum_swap. apply rsum_ext. intros k Hk. now rewrite rsum_scal_r.
        -- intros m Hm. rewrite Rmult_plus_distr_l. f_equal. rewrite <- rsum_scal. apply rsum_ext. intros; ring.
      * intros j' Hj' Hne. apply rsum_zero. intros m Hm. destruct (in_dec _ d _) as [Hin|]; [|ring].
        exfalso. apply Hne. apply body_dofs_in in Hin. destruct Hin as (c' & Hc' & Hd'). destruct Hd as (c & Hc & Hd). eapply Hdisj; eauto.
  - intros d i Hi Hno. rewrite Hcomb by auto. apply rsum_zero. intros j Hj. apply rsum_zero. intros m Hm.
    destruct (in_dec _ d _) as [Hin|]; [|ring]. apply body_dofs_in in Hin. destruct Hin as (c & Hc & Hd). exfalso. exact (Hno j c Hj Hc Hd).
Qed.
Print Assumptions C52_combinations_rigid_motions.

(** Two one-cell bodies with 3 blocks each. *)
Example C52_nonvacuous :
  let tags := [1; 2]%nat in let find t := [(t - 1)%nat] in let cell_dofs c := [3 * c; 3 * c + 1; 3 * c + 2]%nat in
  (forall tag c d, In tag tags -> In c (find tag) -> In d (cell_dofs c) -> (d < 6)%nat) /\
  (forall j j' c c' d, (j < length tags)%nat -> (j' < length tags)%nat -> In c (find (nth j tags 0%nat)) -> In c' (find (nth j' tags 0%nat)) ->
       In d (cell_dofs c) -> In d (cell_dofs c') -> j = j').
Proof.
  cbn. split.
  - intros tag c d [<-|[<-|[]]] [<-|[]]; cbn; lia.
  - intros [|[|j]] [|[|j']] c c' d Hj Hj'; try lia; cbn; intros [<-|[]] [<-|[]]; cbn; lia.
Qed.

(** ** C59: translations per body (near_nullspace_subdomains) *)

(** What the code builds: vector j is one exactly at the unrolled positions
    whose number equals a block number of body j. *)
Theorem C59_near_nullspace_exact :
  forall bs n num_domains tags find cell_dofs,
    (1 <= bs)%nat -> (length tags <= num_domains)%nat ->
    (forall tag c d, In tag tags -> In c (find tag) -> In d (cell_dofs c) -> (d < n)%nat) ->
    forall j k, (j < length tags)%nat ->
      nth k (nth j (near_nullspace_subdomains bs n num_domains tags find cell_dofs) []) 0 =
      if in_dec Nat.eq_dec k (body_dofs (find (nth j tags 0%nat)) cell_dofs) then 1 else 0.
Proof.
  intros bs n nd tags find cell_dofs Hbs Hnd Hn j k Hj. unfold near_nullspace_subdomains.
  rewrite (run_loop _ (fun j => map (fun d => ((j, d), 1)) (body_dofs (find (nth j tags 0%nat)) cell_dofs))) by (intros; apply set_all_run).
  rewrite (run_consistent (fun _ _ => 1) _ _ nd (bs * n)).
  - destruct (existsb _ _) eqn:E.
    + apply existsb_exists in E. destruct E as ([[v q] val] & Hin & E). cbn [fst snd] in E. apply andb_prop in E. destruct E as [E1 E2].
      apply Nat.eqb_eq in E1. apply Nat.eqb_eq in E2. subst. apply in_flat_map in Hin. destruct Hin as (j' & _ & Hin). apply in_map_iff in Hin.
      destruct Hin as (d & Ed & Hd). injection Ed as -> -> _. destruct (in_dec _ k _); tauto.
    + rewrite repeat_entry. destruct (in_dec _ k _) as [Hin|]; [|reflexivity]. exfalso.
      assert (X : existsb (fun op : nat * nat * R => ((fst (fst op) =? j) && (snd (fst op) =? k))%nat)
                 (flat_map (fun j => map (fun d => ((j, d), 1)) (body_dofs (find (nth j tags 0%nat)) cell_dofs)) (seq 0 (length tags))) = true).
      { apply existsb_exists. exists (j, k, 1). split; [|cbn; now rewrite !Nat.eqb_refl]. apply in_flat_map. exists j. split; [apply in_seq; lia|].
        apply in_map_iff. now exists k. }
      congruence.
  - apply repeat_length.
  - intros v Hv. rewrite repeat_rows by auto. apply repeat_length.
  - intros v q val Hin. apply in_flat_map in Hin. destruct Hin as (j' & Hj' & Hin). apply in_seq in Hj'. apply in_map_iff in Hin.
    destruct Hin as (d & Ed & Hd). injection Ed as <- <- <-. apply body_dofs_in in Hd. destruct Hd as (c & Hc & Hd).
    specialize (Hn (nth j' tags 0%nat) c d ltac:(apply nth_In; lia) Hc Hd). repeat split; nia.
Qed.
Print Assumptions C59_near_nullspace_exact.

(** It is not a translation of the body: with two bodies in 2D, vector 1 (of the
    second body, blocks 2 and 3) is nonzero on block 1, which belongs to the
    first body, and zero on all its own dofs. *)
Theorem C59_near_nullspace_refuted :
  exists bs n tags find cell_dofs,
    bs = 2%nat /\
    (forall tag c d, In tag tags -> In c (find tag) -> In d (cell_dofs c) -> (d < n)%nat) /\
    let v := nth 1 (near_nullspace_subdomains bs n (length tags) tags find cell_dofs) [] in
    (forall d, (exists cell, In cell (find (nth 1 tags 0%nat)) /\ In d (cell_dofs cell)) -> forall i, (i < 2)%nat -> nth (bs * d + i) v 0 = 0) /\
    (exists d i, (exists cell, In cell (find (nth 0 tags 0%nat)) /\ In d (cell_dofs cell)) /\ (i < 2)%nat /\ nth (bs * d + i) v 0 <> 0).
Proof.
  exists 2%nat, 4%nat, [1; 2]%nat, (fun t => [(t - 1)%nat]), (fun c => [2 * c; 2 * c + 1]%nat).
  assert (Hn : forall tag c d, In tag [1; 2]%nat -> In c [(tag - 1)%nat] -> In d [2 * c; 2 * c + 1]%nat -> (d < 4)%nat)
    by (intros tag c d [<-|[<-|[]]] [<-|[]]; cbn; lia).
  assert (Hb : forall k, In k (body_dofs [(nth 1 [1; 2] 0 - 1)%nat] (fun c => [2 * c; 2 * c + 1]%nat)) <-> (k = 2 \/ k = 3)%nat).
  { intros k. rewrite body_dofs_in. cbn. split; [intros (c & [<-|[]] & [<-|[<-|[]]]); auto|]. intros [-> | ->]; exists 1%nat; auto. }
  split; [reflexivity|]. split; [exact Hn|]. cbv zeta. split.
  - intros d (cell & Hc & Hd) i Hi. rewrite (C59_near_nullspace_exact 2 4 2 _ _ _) by (auto; cbn; lia).
    destruct (in_dec _ _ _) as [Hin|]; [|reflexivity]. apply Hb in Hin. cbn in Hc. destruct Hc as [<-|[]]. cbn in Hd. lia.
  - exists 1%nat, 0%nat. split; [exists 0%nat; cbn; auto|]. split; [lia|]. rewrite (C59_near_nullspace_exact 2 4 2 _ _ _) by (auto; cbn; lia).
    destruct (in_dec _ _ _) as [_|Hno]; [lra|]. exfalso. apply Hno. apply Hb. cbn. auto.
Qed.
Print Assumptions C59_near_nullspace_refuted.
