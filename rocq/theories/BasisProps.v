(** C83: basis functions evaluated at points of cells. *)
From Coq Require Import List Arith ZArith Lia Bool Reals Lra.
Import ListNotations.
From Verif Require Import Prelude PreludeLemmas RSum RayModel KernelModel DistanceModel GapSpec DistanceProofs BasisModel BasisSpec.
Local Open Scope R_scope.

(** * One entry of an array under a sequence of steps *)
Definition acts (k : nat) (a a' : list R) (f : R -> R) : Prop := length a' = length a /\ ((k < length a)%nat -> nth k a' 0 = f (nth k a 0)).
Lemma acts_upd k a k' v : acts k a (upd a k' v) (fun y => if (k' =? k)%nat then v else y).
Proof.
  split; [apply upd_length|]. intros H. destruct (Nat.eqb_spec k' k) as [->|N]; [now apply nth_upd_same|now apply nth_upd_other].
Qed.
Lemma acts_addto k a k' v : acts k a (addto a k' v) (fun y => if (k' =? k)%nat then y + v else y).
Proof.
  split; [apply addto_length|]. intros H. unfold addto. destruct (Nat.eqb_spec k' k) as [->|N]; [now rewrite nth_upd_same|now rewrite nth_upd_other].
Qed.
Lemma acts_trans k a b c f g : acts k a b f -> acts k b c g -> acts k a c (fun y => g (f y)).
Proof. intros [L E] [L' E']. split; [congruence|]. intros H. rewrite E' by (rewrite L; exact H). now rewrite E. Qed.
Lemma acts_ext k a b f g : (forall y, f y = g y) -> acts k a b f -> acts k a b g.
Proof. intros X [L E]. split; [exact L|]. intros H. now rewrite <- X, E. Qed.
Lemma acts_keep k n (body : nat -> list R -> list R) a : (forall i s, (i < n)%nat -> acts k s (body i s) (fun y => y)) -> acts k a (for_loop n body a) (fun y => y).
Proof.
  intros H. induction n as [|n IH]; [split; reflexivity|]. rewrite for_loop_S.
  eapply acts_trans with (b := for_loop n body a) (f := (fun y => y)) (g := (fun y => y)); [apply IH; intros; apply H; lia|apply H; lia].
Qed.
Lemma acts_once k n i0 (body : nat -> list R -> list R) a f : (i0 < n)%nat ->
  (forall i s, (i < n)%nat -> i <> i0 -> acts k s (body i s) (fun y => y)) -> (forall s, acts k s (body i0 s) f) -> acts k a (for_loop n body a) f.
Proof.
  intros Hi Ho H0. induction n as [|n IH]; [lia|]. rewrite for_loop_S. destruct (Nat.eq_dec i0 n) as [->|N].
  - eapply acts_trans with (b := for_loop n body a) (f := (fun y => y)) (g := f); [apply acts_keep; intros; apply Ho; lia|apply H0].
  - eapply acts_trans with (b := for_loop n body a) (f := f) (g := (fun y => y)); [apply IH; [lia|intros; apply Ho; lia]|apply Ho; lia].
Qed.
Lemma acts_sum k n (body : nat -> list R -> list R) a v : (forall i s, (i < n)%nat -> acts k s (body i s) (fun y => y + v i)) -> acts k a (for_loop n body a) (fun y => y + rsum n v).
Proof.
  intros H. induction n as [|n IH]; [apply acts_ext with (f := fun y => y); [intros; cbn [rsum]; ring|split; reflexivity]|]. rewrite for_loop_S.
  apply acts_ext with (f := fun y => y + rsum n v + v n); [intros; cbn [rsum]; ring|].
  eapply acts_trans with (b := for_loop n body a) (f := (fun y => y + rsum n v)) (g := (fun y => y + v n)); [apply IH; intros; apply H; lia|apply H; lia].
Qed.

Lemma basis_index_inj nc nd vs d p f n d' p' f' n' : (p < nc)%nat -> (p' < nc)%nat -> (f < nd)%nat -> (f' < nd)%nat -> (n < vs)%nat -> (n' < vs)%nat ->
  basis_index nc nd vs d p f n = basis_index nc nd vs d' p' f' n' -> d = d' /\ p = p' /\ f = f' /\ n = n'.
Proof.
  unfold basis_index. intros Hp Hp' Hf Hf' Hn Hn' E.
  assert (D : forall a r b, (r < b)%nat -> ((a * b + r) / b = a)%nat) by (intros a r b H; rewrite Nat.add_comm, Nat.div_add by lia; rewrite Nat.div_small; auto).
  assert (E1 : ((d * nc + p) * nd + f = (d' * nc + p') * nd + f')%nat) by (rewrite <- (D ((d * nc + p) * nd + f)%nat n vs Hn), E; now apply D).
  assert (E2 : (d * nc + p = d' * nc + p')%nat) by (rewrite <- (D (d * nc + p)%nat f nd Hf), E1; now apply D).
  assert (E3 : d = d') by (rewrite <- (D d p nc Hp), E2; now apply D).
  subst d'. assert (p = p') by lia. subst p'. assert (f = f') by lia. subst f'. repeat split; lia.
Qed.
Lemma basis_index_lt nc nd vs N d p f n : (d < N)%nat -> (p < nc)%nat -> (f < nd)%nat -> (n < vs)%nat -> (basis_index nc nd vs d p f n < N * nc * nd * vs)%nat.
Proof.
  unfold basis_index. intros Hd Hp Hf Hn.
  assert (A : (d * nc + p + 1 <= N * nc)%nat) by nia.
  assert (B : ((d * nc + p) * nd + f + 1 <= N * nc * nd)%nat) by nia. nia.
Qed.

Ltac split_acts F G := match goal with |- acts ?k ?a (for_loop ?n ?body ?b) _ => apply (acts_trans k a b (for_loop n body b) F G) end.

Section Entries.
  Context (m : mesh_data) (e : basis_element) (x : list R) (cells : list Z) (nder : nat).
  Notation gdim := (m_gdim m).
  Notation tdim := (m_tdim m).
  Notation nd := (be_functions e).
  Notation vs := (be_vs e).
  Notation nc := (length cells).

  (** The geometry of point [p]. *)
  Definition point_X (p : nat) : list R := slice x (p * tdim) tdim.
  Definition point_J (p cell : nat) : matrix := cell_jacobian m (point_X p) (cell_coordinates m cell).
  Definition point_K (p cell : nat) : matrix := jacobian_inverse gdim tdim (point_J p cell).
  Definition point_U (p cell : nat) : nat -> nat -> nat -> R := pushed e cell (point_X p) (point_J p cell) (point_K p cell) (m_determinant m (point_J p cell)).

  (** What entry (d, p, f, n) becomes. *)
  Definition point_entry (p cell d f n : nat) : R :=
    match d with
    | O => point_U p cell 0 f n
    | S k => rsum (nder * tdim) (fun j => point_K p cell j k * point_U p cell (j + 1) f n)
    end.

  Lemma other_index d p f n d' p' f' n' : (p < nc)%nat -> (p' < nc)%nat -> (f < nd)%nat -> (f' < nd)%nat -> (n < vs)%nat -> (n' < vs)%nat ->
    (d, p, f, n) <> (d', p', f', n') -> (basis_index nc nd vs d p f n =? basis_index nc nd vs d' p' f' n')%nat = false.
  Proof.
    intros. apply Nat.eqb_neq. intros E. apply basis_index_inj in E as (-> & -> & -> & ->); auto.
  Qed.

  Lemma point_other p p' d f n s : (p < nc)%nat -> (p' < nc)%nat -> p' <> p -> (f < nd)%nat -> (n < vs)%nat ->
    acts (basis_index nc nd vs d p f n) s (evaluate_point m e x cells nder p' s) (fun y : R => y).
  Proof.
    intros Hp Hp' N Hf Hn. unfold evaluate_point. cbv zeta. destruct (Z.ltb _ _); [split; reflexivity|].
    split_acts (fun y : R => y) (fun y : R => y).
    - apply acts_keep; intros f' s' Hf'. apply acts_keep; intros n' s'' Hn'. eapply acts_ext; [|apply acts_upd]. intros y. cbv beta.
      rewrite other_index by (auto; congruence). reflexivity.
    - apply acts_keep; intros k s' Hk. apply acts_keep; intros j s0 Hj. apply acts_keep; intros f' s1 Hf'. apply acts_keep; intros n' s2 Hn'.
      eapply acts_ext; [|apply acts_addto]. intros y. cbv beta. rewrite other_index by (auto; congruence). reflexivity.
  Qed.

  Lemma point_this p d f n s : (p < nc)%nat -> (f < nd)%nat -> (n < vs)%nat -> (d < gdim * nder + 1)%nat ->
    acts (basis_index nc nd vs d p f n) s (evaluate_point m e x cells nder p s)
      (fun y => if Z.ltb (nth p cells 0%Z) 0 then y
                else match d with O => point_entry p (Z.to_nat (nth p cells 0%Z)) 0 f n | S _ => y + point_entry p (Z.to_nat (nth p cells 0%Z)) d f n end).
  Proof.
    intros Hp Hf Hn Hd. unfold evaluate_point. cbv zeta. destruct (Z.ltb _ _); [split; reflexivity|].
    set (cell := Z.to_nat (nth p cells 0%Z)).
    destruct d as [|k].
    - split_acts (fun _ : R => point_entry p cell 0 f n) (fun y : R => y).
      + apply (acts_once _ _ f); [exact Hf| |].
        * intros f' s' Hf' N. apply acts_keep; intros n' s'' Hn'. eapply acts_ext; [|apply acts_upd]. intros y. cbv beta. rewrite other_index by (auto; congruence). reflexivity.
        * intros s'. apply (acts_once _ _ n); [exact Hn| |].
          -- intros n' s'' Hn' N. eapply acts_ext; [|apply acts_upd]. intros y. cbv beta. rewrite other_index by (auto; congruence). reflexivity.
          -- intros s''. eapply acts_ext; [|apply acts_upd]. intros y. cbv beta. rewrite Nat.eqb_refl. reflexivity.
      + apply acts_keep; intros k s' Hk. apply acts_keep; intros j s0 Hj. apply acts_keep; intros f' s1 Hf'. apply acts_keep; intros n' s2 Hn'.
        eapply acts_ext; [|apply acts_addto]. intros y. cbv beta. rewrite other_index; auto. intros E. injection E as E. lia.
    - split_acts (fun y : R => y) (fun y : R => y + point_entry p cell (S k) f n).
      + apply acts_keep; intros f' s' Hf'. apply acts_keep; intros n' s'' Hn'. eapply acts_ext; [|apply acts_upd]. intros y. cbv beta. rewrite other_index by (auto; congruence). reflexivity.
      + apply (acts_once _ _ k); [lia| |].
        * intros k' s' Hk' N. apply acts_keep; intros j s0 Hj. apply acts_keep; intros f' s1 Hf'. apply acts_keep; intros n' s2 Hn'.
          eapply acts_ext; [|apply acts_addto]. intros y. cbv beta. rewrite other_index; auto. intros E. injection E as E. lia.
        * intros s'. cbn [point_entry]. apply acts_sum. intros j s0 Hj. apply (acts_once _ _ f); [exact Hf| |].
          -- intros f' s1 Hf' N. apply acts_keep; intros n' s2 Hn'. eapply acts_ext; [|apply acts_addto]. intros y. cbv beta. rewrite other_index by (auto; congruence). reflexivity.
          -- intros s1. apply (acts_once _ _ n); [exact Hn| |].
             ++ intros n' s2 Hn' N. eapply acts_ext; [|apply acts_addto]. intros y. cbv beta. rewrite other_index by (auto; congruence). reflexivity.
             ++ intros s2. eapply acts_ext; [|apply acts_addto]. intros y. cbv beta. replace (k + 1)%nat with (S k) by lia. rewrite Nat.eqb_refl. reflexivity.
  Qed.

  Lemma evaluate_entry (out0 : list R) p d f n : (p < nc)%nat -> (f < nd)%nat -> (n < vs)%nat -> (d < gdim * nder + 1)%nat ->
    length out0 = ((gdim * nder + 1) * nc * nd * vs)%nat ->
    let out := for_loop nc (evaluate_point m e x cells nder) (repeat 0 (length out0)) in
    nth (basis_index nc nd vs d p f n) out 0 = if Z.ltb (nth p cells 0%Z) 0 then 0 else point_entry p (Z.to_nat (nth p cells 0%Z)) d f n.
  Proof.
    intros Hp Hf Hn Hd HL. cbv zeta.
    destruct (acts_once (basis_index nc nd vs d p f n) nc p (evaluate_point m e x cells nder) (repeat 0 (length out0)) _ Hp
                (fun i s Hi N => point_other p i d f n s Hp Hi N Hf Hn) (fun s => point_this p d f n s Hp Hf Hn Hd)) as [_ E].
    rewrite E.
    - rewrite nth_repeat. destruct (Z.ltb _ _); [reflexivity|]. destruct d; [reflexivity|ring].
    - rewrite repeat_length, HL. now apply basis_index_lt.
  Qed.
  Lemma evaluate_length (out0 : list R) : length (for_loop nc (evaluate_point m e x cells nder) (repeat 0 (length out0))) = length out0.
  Proof.
    transitivity (length (repeat 0 (length out0))); [|apply repeat_length].
    apply loop_length. intros p s _. unfold evaluate_point. cbv zeta. destruct (Z.ltb _ _); [reflexivity|].
    etransitivity; [apply loop_length|apply loop_length].
    - intros k s' _. apply loop_length; intros j s0 _. apply loop_length; intros f s1 _. apply loop_length; intros n s2 _. apply addto_length.
    - intros f s1 _. apply loop_length; intros n s2 _. apply upd_length.
  Qed.
End Entries.

(** ** Calculus *)
Lemma derivable_rsum n (f : nat -> R -> R) (g : nat -> R) x : (forall i, (i < n)%nat -> derivable_pt_lim (f i) x (g i)) -> derivable_pt_lim (fun t => rsum n (fun i => f i t)) x (rsum n g).
Proof.
  intros H. induction n as [|n IH]; cbn [rsum]; [apply derivable_pt_lim_const|].
  apply (derivable_pt_lim_plus (fun t => rsum n (fun i => f i t)) (f n)); [apply IH; intros; apply H; lia|apply H; lia].
Qed.

(** Moving from [X] in coordinate direction [j]. *)
Definition shifted (n : nat) (X : list R) (j : nat) (t : R) : list R := map (fun i => nth i X 0 + (if (i =? j)%nat then t else 0)) (seq 0 n).
Lemma shifted_nth n X j t i : (i < n)%nat -> nth i (shifted n X j t) 0 = nth i X 0 + (if (i =? j)%nat then t else 0).
Proof. intros H. unfold shifted. rewrite nth_map_lt with (d' := 0%nat) by (rewrite seq_length; exact H). now rewrite seq_nth. Qed.
Lemma shifted_length n X j t : length (shifted n X j t) = n.
Proof. unfold shifted. now rewrite map_length, seq_length. Qed.
Lemma shifted_0 n X j : length X = n -> shifted n X j 0 = X.
Proof.
  intros H. apply (nth_ext _ _ 0 0); [now rewrite shifted_length|]. intros i Hi. rewrite shifted_length in Hi. rewrite shifted_nth by exact Hi. destruct (i =? j)%nat; ring.
Qed.
Lemma shifted_velocity n X j i : (i < n)%nat -> derivable_pt_lim (fun t => nth i (shifted n X j t) 0) 0 (if (i =? j)%nat then 1 else 0).
Proof.
  intros Hi. apply derivable_pt_lim_ext with (f := fun t => nth i X 0 + (if (i =? j)%nat then t else 0)); [intros t; now rewrite shifted_nth|].
  replace (if (i =? j)%nat then 1 else 0) with (0 + (if (i =? j)%nat then 1 else 0)) by ring.
  apply (derivable_pt_lim_plus (fun _ => nth i X 0)); [apply derivable_pt_lim_const|]. destruct (i =? j)%nat; [apply derivable_pt_lim_id|apply derivable_pt_lim_const].
Qed.

(** A curve in the cell: its image has the velocity given by the Jacobian. *)
Lemma cell_point_velocity m cell X curve v : geometry_tables m X -> curve 0 = X -> (forall t, length (curve t) = m_tdim m) ->
  (forall i, (i < m_tdim m)%nat -> derivable_pt_lim (fun t => nth i (curve t) 0) 0 (v i)) ->
  forall k, (k < m_gdim m)%nat ->
    derivable_pt_lim (fun t => nth k (cell_point m cell (curve t)) 0) 0 (rsum (m_tdim m) (fun j => geometry_jacobian m cell X k j * v j)).
Proof.
  intros T C0 CL CV k Hk.
  apply derivable_pt_lim_ext with (f := fun t => rsum (m_nodes m) (fun a => m_phi m (curve t) a * node m cell a k)).
  { intros t. unfold cell_point. rewrite nth_map_lt with (d' := 0%nat) by (rewrite seq_length; exact Hk). now rewrite seq_nth. }
  replace (rsum (m_tdim m) (fun j => geometry_jacobian m cell X k j * v j))
    with (rsum (m_nodes m) (fun a => rsum (m_tdim m) (fun j => m_dphi m X j a * v j) * node m cell a k)).
  - apply derivable_rsum. intros a Ha.
    apply derivable_pt_lim_ext with (f := fun t => node m cell a k * m_phi m (curve t) a); [intros; ring|].
    rewrite Rmult_comm. apply derivable_pt_lim_scal. now apply (T a Ha curve v).
  - unfold geometry_jacobian.
    rewrite (rsum_ext (m_tdim m) _ (fun j => rsum (m_nodes m) (fun a => m_dphi m X j a * v j * node m cell a k))) by (intros; rewrite <- rsum_scal_r; apply rsum_ext; intros; ring).
    rewrite rsum_swap. apply rsum_ext. intros a _. rewrite <- rsum_scal_r. reflexivity.
Qed.

(** Elements whose basis functions are scalar and mapped by composition (Lagrange). *)
Record scalar_element (e : basis_element) : Prop := {
  se_vs : be_vs e = 1%nat;
  se_single : (be_sub_elements e <= 1 \/ be_sub_elements e = be_bs e)%nat;
  se_transform : forall cell U f, be_transform e cell U f 0%nat = U f 0%nat;
  se_push : forall J d K U f, be_push_forward e J d K U f 0%nat = U f 0%nat }.

(** The derivative tables of the element hold the gradients of its functions. *)
Definition element_tables (m : mesh_data) (e : basis_element) (X : list R) : Prop :=
  forall f, (f < be_functions e)%nat -> has_gradient (m_tdim m) (fun Y => be_table e Y 0 f 0) X (fun j => be_table e X (j + 1)%nat f 0%nat).

(** The chain rule: the gradient of a function on the cell that agrees with a basis
    function is J^-T times the reference gradient. *)
Lemma physical_gradient m e cell X f phi h : dimensions m -> m_gdim m = m_tdim m -> length X = m_tdim m -> geometry_tables m X -> element_tables m e X -> (f < be_functions e)%nat ->
  nonsingular m (geometry_jacobian m cell X) ->
  has_gradient (m_gdim m) phi (cell_point m cell X) h -> (forall Y, length Y = m_tdim m -> phi (cell_point m cell Y) = be_table e Y 0 f 0) ->
  forall k, (k < m_gdim m)%nat -> rsum (m_tdim m) (fun j => jacobian_inverse (m_gdim m) (m_tdim m) (geometry_jacobian m cell X) j k * be_table e X (j + 1)%nat f 0%nat) = h k.
Proof.
  intros D Sq LX TG TE Hf NS HG AG k Hk.
  set (J := geometry_jacobian m cell X) in *. set (K := jacobian_inverse (m_gdim m) (m_tdim m) J).
  assert (C : forall j, (j < m_tdim m)%nat -> be_table e X (j + 1)%nat f 0%nat = rsum (m_gdim m) (fun l => h l * J l j)).
  { intros j Hj. apply (uniqueness_limite (fun t => be_table e (shifted (m_tdim m) X j t) 0 f 0) 0).
    - replace (be_table e X (j + 1)%nat f 0%nat) with (rsum (m_tdim m) (fun i => be_table e X (i + 1)%nat f 0%nat * (if (i =? j)%nat then 1 else 0))).
      + apply (TE f Hf (shifted (m_tdim m) X j)); [now apply shifted_0|intros; apply shifted_length|intros; now apply shifted_velocity].
      + rewrite (rsum_single (m_tdim m) j); [rewrite Nat.eqb_refl; ring|exact Hj|]. intros i _ N. destruct (Nat.eqb_spec i j); [contradiction|ring].
    - apply derivable_pt_lim_ext with (f := fun t => phi (cell_point m cell (shifted (m_tdim m) X j t))); [intros t; apply AG, shifted_length|].
      apply (HG (fun t => cell_point m cell (shifted (m_tdim m) X j t)) (fun l => J l j)).
      + now rewrite shifted_0.
      + intros t. unfold cell_point. now rewrite map_length, seq_length.
      + intros l Hl. replace (J l j) with (rsum (m_tdim m) (fun i => J l i * (if (i =? j)%nat then 1 else 0))).
        * apply cell_point_velocity; [exact TG|now apply shifted_0|intros; apply shifted_length|intros; now apply shifted_velocity|exact Hl].
        * rewrite (rsum_single (m_tdim m) j); [rewrite Nat.eqb_refl; ring|exact Hj|]. intros i _ N. destruct (Nat.eqb_spec i j); [contradiction|ring]. }
  rewrite (rsum_ext (m_tdim m) _ (fun j => rsum (m_gdim m) (fun l => h l * (J l j * K j k)))).
  - rewrite rsum_swap. rewrite (rsum_ext (m_gdim m) _ (fun l => h l * (if (l =? k)%nat then 1 else 0))).
    + rewrite (rsum_single (m_gdim m) k); [rewrite Nat.eqb_refl; ring|exact Hk|]. intros i _ N. destruct (Nat.eqb_spec i k); [contradiction|ring].
    + intros l Hl. rewrite rsum_scal. f_equal. now apply inverse_right.
  - intros j Hj. rewrite C by exact Hj. rewrite <- rsum_scal. apply rsum_ext. intros. ring.
Qed.

(** What the call returns for scalar elements, in terms of the tables. *)
Section Call.
  Context (m : mesh_data) (e : basis_element) (x : list R) (cells : list Z) (out0 : list R) (nder : nat).
  Hypothesis (SE : scalar_element e) (D : dimensions m) (Hder : (nder < 2)%nat).
  Hypothesis (Hx : length x = (length cells * m_tdim m)%nat) (Hc : (0 < length cells)%nat).
  Hypothesis (HL : length out0 = ((m_gdim m * nder + 1) * length cells * be_functions e * be_vs e)%nat).
  Notation index d p f := (basis_index (length cells) (be_functions e) 1 d p f 0).

  Lemma tdim_pos : (0 < m_tdim m)%nat.
  Proof using D. clear - D. destruct D as [[E _]|[[E _]|[E _]]]; lia. Qed.

  Lemma call_runs : evaluate_basis_functions m e x cells out0 nder = Some (for_loop (length cells) (evaluate_point m e x cells nder) (repeat 0 (length out0))).
  Proof using D Hx Hc SE.
    clear HL Hder.
    pose proof tdim_pos. unfold evaluate_basis_functions. rewrite Hx, Nat.div_mul, Nat.eqb_refl by lia. cbn [negb].
    destruct (Nat.eqb_spec (length cells * m_tdim m) 0) as [E|_]; [nia|].
    destruct (se_single e SE) as [E|E].
    - destruct (Nat.ltb_spec 1 (be_sub_elements e)); [lia|reflexivity].
    - rewrite E, Nat.eqb_refl. cbn [negb]. rewrite andb_false_r. reflexivity.
  Qed.

  Lemma point_length p : (p < length cells)%nat -> length (point_X m x p) = m_tdim m.
  Proof using Hx. clear - Hx. intros Hp. unfold point_X, slice. rewrite firstn_length, skipn_length, Hx. nia. Qed.

  Lemma call_entries p d f : (p < length cells)%nat -> (d < m_gdim m * nder + 1)%nat -> (f < be_functions e)%nat ->
    nth (index d p f) (for_loop (length cells) (evaluate_point m e x cells nder) (repeat 0 (length out0))) 0
    = if Z.ltb (nth p cells 0%Z) 0 then 0
      else match d with
           | O => be_table e (point_X m x p) 0 f 0
           | S k => rsum (nder * m_tdim m) (fun j => jacobian_inverse (m_gdim m) (m_tdim m) (geometry_jacobian m (Z.to_nat (nth p cells 0%Z)) (point_X m x p)) j k * be_table e (point_X m x p) (j + 1)%nat f 0%nat)
           end.
  Proof using SE D HL Hder Hx Hc.
    intros Hp Hd Hf.
    pose proof (evaluate_entry m e x cells nder out0 p d f 0 Hp Hf ltac:(rewrite (se_vs e SE); lia) Hd HL) as E. cbv zeta in E. rewrite (se_vs e SE) in E. rewrite E.
    destruct (Z.ltb _ _); [reflexivity|]. destruct d as [|k]; cbn [point_entry]; unfold point_U, pushed.
    - now rewrite (se_push e SE), (se_transform e SE).
    - apply rsum_ext. intros j Hj. rewrite (se_push e SE), (se_transform e SE). f_equal.
      unfold point_K, point_J. apply inverse_ext; [exact D|intros; apply jacobian_map|clear - Hder Hj; nia|clear - Hder Hd; nia].
  Qed.
End Call.

(** ** Theorems *)
(** The call on [length cells] points, with an output array of the announced shape. *)
Record basis_call (m : mesh_data) (e : basis_element) (x : list R) (cells : list Z) (out0 : list R) (nder : nat) : Prop := {
  bc_element : scalar_element e;
  bc_dims : dimensions m;
  bc_der : (nder < 2)%nat;
  bc_points : length x = (length cells * m_tdim m)%nat;
  bc_some : (0 < length cells)%nat;
  bc_shape : let '(a, b, c, d) := evaluate_basis_shape m e (length cells) nder in length out0 = (a * b * c * d)%nat }.

Lemma bc_length m e x cells out0 nder : basis_call m e x cells out0 nder -> length out0 = ((m_gdim m * nder + 1) * length cells * be_functions e * be_vs e)%nat.
Proof. intros B. pose proof (bc_shape _ _ _ _ _ _ B) as H. cbn [evaluate_basis_shape] in H. unfold evaluate_basis_shape in H. rewrite H. f_equal. f_equal. f_equal. lia. Qed.

(** Reference coordinates of point [p]. *)
Definition reference_point (tdim : nat) (x : list R) (p : nat) : list R := firstn tdim (skipn (p * tdim) x).

(** Values: the basis functions at the point, and zero for points without a cell. *)
Theorem C83_values m e x cells out0 nder : basis_call m e x cells out0 nder ->
  exists out, evaluate_basis_functions m e x cells out0 nder = Some out /\ length out = length out0 /\
    forall p f, (p < length cells)%nat -> (f < be_functions e)%nat ->
      ((nth p cells 0 < 0)%Z -> forall d, (d < m_gdim m * nder + 1)%nat -> nth ((d * length cells + p) * be_functions e + f) out 0 = 0) /\
      ((0 <= nth p cells 0)%Z -> nth (p * be_functions e + f) out 0 = be_table e (reference_point (m_tdim m) x p) 0 f 0).
Proof.
  intros B. pose proof (bc_length _ _ _ _ _ _ B) as HL.
  eexists. split; [apply (call_runs m e x cells out0 nder (bc_element _ _ _ _ _ _ B) (bc_dims _ _ _ _ _ _ B) (bc_points _ _ _ _ _ _ B) (bc_some _ _ _ _ _ _ B))|].
  split; [apply evaluate_length|]. intros p f Hp Hf.
  pose proof (fun d Hd => call_entries m e x cells out0 nder (bc_element _ _ _ _ _ _ B) (bc_dims _ _ _ _ _ _ B) (bc_der _ _ _ _ _ _ B) (bc_points _ _ _ _ _ _ B) (bc_some _ _ _ _ _ _ B) HL p d f Hp Hd Hf) as E.
  split.
  - intros N d Hd. specialize (E d Hd). unfold basis_index in E. rewrite Nat.mul_1_r, Nat.add_0_r in E. rewrite E. destruct (Z.ltb_spec (nth p cells 0%Z) 0); [reflexivity|lia].
  - intros N. specialize (E 0%nat ltac:(lia)). unfold basis_index in E. rewrite Nat.mul_1_r, Nat.add_0_r in E. cbn [Nat.mul Nat.add] in E. rewrite E. destruct (Z.ltb_spec (nth p cells 0%Z) 0); [lia|reflexivity].
Qed.
Print Assumptions C83_values.

(** Derivatives: any differentiable function on space that agrees with the basis function
    on the cell has the returned numbers as its gradient at the point. *)
Theorem C83_gradients m e x cells out0 out : basis_call m e x cells out0 1 -> m_gdim m = m_tdim m ->
  evaluate_basis_functions m e x cells out0 1 = Some out ->
  forall p f k, (p < length cells)%nat -> (0 <= nth p cells 0)%Z -> (f < be_functions e)%nat -> (k < m_gdim m)%nat ->
  let X := reference_point (m_tdim m) x p in
  let cell := Z.to_nat (nth p cells 0%Z) in
  geometry_tables m X -> element_tables m e X -> nonsingular m (geometry_jacobian m cell X) ->
  forall phi h, has_gradient (m_gdim m) phi (cell_point m cell X) h ->
    (forall Y, length Y = m_tdim m -> phi (cell_point m cell Y) = be_table e Y 0 f 0) ->
    nth (((k + 1) * length cells + p) * be_functions e + f) out 0 = h k.
Proof.
  intros B Sq E p f k Hp Hc Hf Hk X cell TG TE NS phi h HG AG. pose proof (bc_length _ _ _ _ _ _ B) as HL.
  rewrite (call_runs m e x cells out0 1 (bc_element _ _ _ _ _ _ B) (bc_dims _ _ _ _ _ _ B) (bc_points _ _ _ _ _ _ B) (bc_some _ _ _ _ _ _ B)) in E. injection E as <-.
  pose proof (call_entries m e x cells out0 1 (bc_element _ _ _ _ _ _ B) (bc_dims _ _ _ _ _ _ B) (bc_der _ _ _ _ _ _ B) (bc_points _ _ _ _ _ _ B) (bc_some _ _ _ _ _ _ B) HL p (S k) f Hp ltac:(lia) Hf) as E.
  unfold basis_index in E. rewrite Nat.mul_1_r, Nat.add_0_r in E. replace (k + 1)%nat with (S k) by lia. rewrite E. destruct (Z.ltb_spec (nth p cells 0%Z) 0); [lia|].
  rewrite Nat.mul_1_l. apply (physical_gradient m e cell X f phi h); auto; [apply (bc_dims _ _ _ _ _ _ B)|].
  apply (point_length m x cells (bc_points _ _ _ _ _ _ B) p Hp).
Qed.
Print Assumptions C83_gradients.

(** On straight triangles and tetrahedra such a function exists: the basis function
    composed with the inverse of the cell's map. *)
Definition affine_inverse (m : mesh_data) (cell : nat) (y : list R) : list R :=
  let K := jacobian_inverse (m_gdim m) (m_tdim m) (geometry_jacobian m cell []) in
  map (fun i => rsum (m_gdim m) (fun j => K i j * (nth j y 0 - node m cell 0 j))) (seq 0 (m_tdim m)).

Lemma affine_round_trip m cell Y : linear_simplices m -> nonsingular m (geometry_jacobian m cell []) -> length Y = m_tdim m ->
  affine_inverse m cell (cell_point m cell Y) = Y.
Proof.
  intros LS NS LY. apply (nth_ext _ _ 0 0); [unfold affine_inverse; rewrite map_length, seq_length; auto|].
  unfold affine_inverse at 1. rewrite map_length, seq_length. intros i Hi. unfold affine_inverse. cbv zeta.
  rewrite nth_map_lt with (d' := 0%nat) by (rewrite seq_length; exact Hi). rewrite seq_nth by exact Hi. cbn [Nat.add].
  set (J := geometry_jacobian m cell []) in *. set (K := jacobian_inverse (m_gdim m) (m_tdim m) J).
  rewrite (rsum_ext (m_gdim m) _ (fun j => rsum (m_tdim m) (fun l => K i j * J j l * nth l Y 0))).
  - rewrite rsum_swap. rewrite (rsum_ext (m_tdim m) _ (fun l => (if (i =? l)%nat then 1 else 0) * nth l Y 0)).
    + rewrite (rsum_single (m_tdim m) i); [rewrite Nat.eqb_refl; ring|exact Hi|]. intros l _ N. destruct (Nat.eqb_spec i l); [congruence|ring].
    + intros l Hl. rewrite rsum_scal_r. f_equal. apply inverse_left; auto. apply (ls_dims _ LS).
  - intros j Hj. unfold cell_point. rewrite nth_map_lt with (d' := 0%nat) by (rewrite seq_length; exact Hj). rewrite seq_nth by exact Hj. cbn [Nat.add].
    rewrite (linear_map m LS). replace (node m cell 0 j + rsum (m_tdim m) (fun j0 => nth j0 Y 0 * (node m cell (S j0) j - node m cell 0 j)) - node m cell 0 j)
      with (rsum (m_tdim m) (fun j0 => nth j0 Y 0 * (node m cell (S j0) j - node m cell 0 j))) by ring.
    rewrite <- rsum_scal. apply rsum_ext. intros l Hl. unfold J. rewrite (linear_jacobian m LS) by exact Hl. ring.
Qed.

Theorem C83_affine_gradients m e x cells out0 out : basis_call m e x cells out0 1 -> m_gdim m = m_tdim m -> linear_simplices m ->
  evaluate_basis_functions m e x cells out0 1 = Some out ->
  forall p f, (p < length cells)%nat -> (0 <= nth p cells 0)%Z -> (f < be_functions e)%nat ->
  let X := reference_point (m_tdim m) x p in
  let cell := Z.to_nat (nth p cells 0%Z) in
  element_tables m e X -> nonsingular m (geometry_jacobian m cell []) ->
  (forall Y, length Y = m_tdim m -> be_table e (affine_inverse m cell (cell_point m cell Y)) 0 f 0 = be_table e Y 0 f 0) /\
  has_gradient (m_gdim m) (fun y => be_table e (affine_inverse m cell y) 0 f 0) (cell_point m cell X)
    (fun k => nth (((k + 1) * length cells + p) * be_functions e + f) out 0).
Proof.
  intros B Sq LS E p f Hp Hc Hf X cell TE NS. pose proof (bc_length _ _ _ _ _ _ B) as HL.
  assert (LX : length X = m_tdim m) by apply (point_length m x cells (bc_points _ _ _ _ _ _ B) p Hp).
  split; [intros Y HY; now rewrite affine_round_trip|].
  rewrite (call_runs m e x cells out0 1 (bc_element _ _ _ _ _ _ B) (bc_dims _ _ _ _ _ _ B) (bc_points _ _ _ _ _ _ B) (bc_some _ _ _ _ _ _ B)) in E. injection E as <-.
  intros curve v C0 CL CV. set (K := jacobian_inverse (m_gdim m) (m_tdim m) (geometry_jacobian m cell [])).
  replace (rsum (m_gdim m) (fun k => _ * v k)) with (rsum (m_tdim m) (fun j => be_table e X (j + 1)%nat f 0%nat * rsum (m_gdim m) (fun k => K j k * v k))).
  - apply (TE f Hf (fun t => affine_inverse m cell (curve t)) (fun j => rsum (m_gdim m) (fun k => K j k * v k))).
    + rewrite C0. now apply affine_round_trip.
    + intros t. unfold affine_inverse. now rewrite map_length, seq_length.
    + intros j Hj. apply derivable_pt_lim_ext with (f := fun t => rsum (m_gdim m) (fun k => K j k * (nth k (curve t) 0 - node m cell 0 k))).
      { intros t. unfold affine_inverse. cbv zeta. rewrite nth_map_lt with (d' := 0%nat) by (rewrite seq_length; exact Hj). now rewrite seq_nth. }
      apply derivable_rsum. intros k Hk. apply (derivable_pt_lim_scal (fun t => nth k (curve t) 0 - node m cell 0 k)).
      replace (v k) with (v k - 0) by ring. apply (derivable_pt_lim_minus (fun t => nth k (curve t) 0) (fun _ => node m cell 0 k)); [now apply CV|apply derivable_pt_lim_const].
  - rewrite (rsum_ext (m_tdim m) _ (fun j => rsum (m_gdim m) (fun k => K j k * be_table e X (j + 1)%nat f 0%nat * v k))) by (intros; rewrite <- rsum_scal; apply rsum_ext; intros; ring).
    rewrite rsum_swap. apply rsum_ext. intros k Hk.
    pose proof (call_entries m e x cells out0 1 (bc_element _ _ _ _ _ _ B) (bc_dims _ _ _ _ _ _ B) (bc_der _ _ _ _ _ _ B) (bc_points _ _ _ _ _ _ B) (bc_some _ _ _ _ _ _ B) HL p (S k) f Hp ltac:(lia) Hf) as E.
    unfold basis_index in E. rewrite Nat.mul_1_r, Nat.add_0_r in E. replace (k + 1)%nat with (S k) by lia. rewrite E. destruct (Z.ltb_spec (nth p cells 0%Z) 0); [lia|].
    rewrite rsum_scal_r, Nat.mul_1_l. f_equal. apply rsum_ext. intros j Hj. f_equal. unfold K. apply inverse_ext; auto; [apply (ls_dims _ LS)|].
    intros a b _ Hb. fold cell. now rewrite !(linear_jacobian m LS).
Qed.
Print Assumptions C83_affine_gradients.

(** Partition of unity carries over to the cell: the values sum to one, the derivatives
    to zero. *)
Theorem C83_partition_of_unity m e x cells out0 out : basis_call m e x cells out0 1 ->
  evaluate_basis_functions m e x cells out0 1 = Some out ->
  (forall Y, length Y = m_tdim m -> rsum (be_functions e) (fun f => be_table e Y 0 f 0) = 1) ->
  forall p, (p < length cells)%nat -> (0 <= nth p cells 0)%Z -> element_tables m e (reference_point (m_tdim m) x p) ->
    rsum (be_functions e) (fun f => nth (p * be_functions e + f) out 0) = 1 /\
    forall k, (k < m_gdim m)%nat -> rsum (be_functions e) (fun f => nth (((k + 1) * length cells + p) * be_functions e + f) out 0) = 0.
Proof.
  intros B E PU p Hp Hc TE. pose proof (bc_length _ _ _ _ _ _ B) as HL.
  assert (LX : length (reference_point (m_tdim m) x p) = m_tdim m) by apply (point_length m x cells (bc_points _ _ _ _ _ _ B) p Hp).
  rewrite (call_runs m e x cells out0 1 (bc_element _ _ _ _ _ _ B) (bc_dims _ _ _ _ _ _ B) (bc_points _ _ _ _ _ _ B) (bc_some _ _ _ _ _ _ B)) in E. injection E as <-.
  pose proof (fun f d Hf Hd => call_entries m e x cells out0 1 (bc_element _ _ _ _ _ _ B) (bc_dims _ _ _ _ _ _ B) (bc_der _ _ _ _ _ _ B) (bc_points _ _ _ _ _ _ B) (bc_some _ _ _ _ _ _ B) HL p d f Hp Hd Hf) as E.
  change (point_X m x p) with (reference_point (m_tdim m) x p) in E. set (X := reference_point (m_tdim m) x p) in *. split.
  - rewrite (rsum_ext (be_functions e) _ (fun f => be_table e X 0 f 0)); [now apply PU|]. intros f Hf. specialize (E f 0%nat Hf ltac:(lia)).
    unfold basis_index in E. rewrite Nat.mul_1_r, Nat.add_0_r in E. cbn [Nat.mul Nat.add] in E. rewrite E. destruct (Z.ltb_spec (nth p cells 0%Z) 0); [lia|reflexivity].
  - intros k Hk. set (K := jacobian_inverse (m_gdim m) (m_tdim m) (geometry_jacobian m (Z.to_nat (nth p cells 0%Z)) X)) in *.
    rewrite (rsum_ext (be_functions e) _ (fun f => rsum (m_tdim m) (fun j => K j k * be_table e X (j + 1)%nat f 0%nat))).
    + rewrite rsum_swap. apply rsum_zero. intros j Hj. rewrite rsum_scal.
      replace (rsum (be_functions e) (fun f => be_table e X (j + 1)%nat f 0%nat)) with 0; [ring|].
      apply (uniqueness_limite (fun _ => 1) 0); [apply derivable_pt_lim_const|].
      apply derivable_pt_lim_ext with (f := fun t => rsum (be_functions e) (fun f => be_table e (shifted (m_tdim m) X j t) 0 f 0)); [intros t; apply PU, shifted_length|].
      apply derivable_rsum. intros f Hf.
      replace (be_table e X (j + 1)%nat f 0%nat) with (rsum (m_tdim m) (fun i => be_table e X (i + 1)%nat f 0%nat * (if (i =? j)%nat then 1 else 0))).
      * apply (TE f Hf (shifted (m_tdim m) X j)); [now apply shifted_0|intros; apply shifted_length|intros; now apply shifted_velocity].
      * rewrite (rsum_single (m_tdim m) j); [rewrite Nat.eqb_refl; ring|exact Hj|]. intros i _ N. destruct (Nat.eqb_spec i j); [contradiction|ring].
    + intros f Hf. specialize (E f (S k) Hf ltac:(lia)). unfold basis_index in E. rewrite Nat.mul_1_r, Nat.add_0_r in E. replace (k + 1)%nat with (S k) by lia. rewrite E.
      destruct (Z.ltb_spec (nth p cells 0%Z) 0); [lia|]. now rewrite Nat.mul_1_l.
Qed.
Print Assumptions C83_partition_of_unity.

(** Wrong numbers of points and mixed spaces are refused; without points nothing happens. *)
Theorem C83_refused m e x cells out0 nder :
  ((length x / m_tdim m)%nat <> length cells -> evaluate_basis_functions m e x cells out0 nder = None) /\
  (x <> [] -> (1 < be_sub_elements e)%nat -> be_sub_elements e <> be_bs e -> evaluate_basis_functions m e x cells out0 nder = None) /\
  (x = [] -> cells = [] -> evaluate_basis_functions m e x cells out0 nder = Some out0).
Proof.
  unfold evaluate_basis_functions. split; [|split].
  - intros N. apply Nat.eqb_neq in N. now rewrite N.
  - intros Hx H1 H2. destruct (_ =? _)%nat; cbn [negb]; [|reflexivity]. destruct (Nat.eqb_spec (length x) 0) as [Z|_]; [destruct x; [congruence|discriminate]|].
    apply Nat.ltb_lt in H1. apply Nat.eqb_neq in H2. now rewrite H1, H2.
  - intros -> ->. cbn [length]. destruct (m_tdim m); reflexivity.
Qed.
Print Assumptions C83_refused.
