(** Vectors and surfaces split over processes: pieces of a vector, gathered vectors, and the
    sum over the interface. *)
From Coq Require Import List Arith ZArith Lia Bool Reals Lra Permutation.
Import ListNotations.
From Verif Require Import Prelude PreludeLemmas RSum EntitiesModel PackingModel PackingProps PackUProps AssemblyModel AssemblyProofs AssemblyProps LayoutModel LayoutProps
  RayModel KernelModel KernelProofs KernelSpec ElasticityProps CoefficientsModel CoefficientsProps SystemSpec TieSystemModel TieSystemProofs TieSystemProps TieWeakProps SystemWeakProps TieFormProps ContactSystemSpec ContactSystemProofs ContactFormProps.
Local Open Scope R_scope.

(** ** Specification *)
(** The entries of a vector of the whole mesh that a process holds (owned and ghosts), in its
    own numbering: [node] gives the number of a block in the whole mesh. *)
Definition number (bs : nat) (node : nat -> nat) (d : nat) : nat := (bs * node (d / bs) + d mod bs)%nat.
Definition piece (bs count : nat) (node : nat -> nat) (v : list R) : list R := map (fun d => nth (number bs node d) v 0) (seq 0 (bs * count)).
(** Entry [D] after the values of ghosts have been added to their owner's. *)
Definition gathered {process : Type} (processes : list process) (bs : nat) (node : process -> nat -> nat) (local : process -> list R) (D : nat) : R :=
  lsum processes (fun r => rsum (length (local r)) (fun d => if (number bs (node r) d =? D)%nat then nth d (local r) 0 else 0)).

(** A process sees facet [e] of its surface as facet [e'] of the whole surface: the same
    points, on the same cell, tied to the same points of the same cells. *)
Record same_facet (pd pd' : pack_data) (p p' : tie_pair) (node : nat -> nat) (count e e' : nat) : Prop := {
  sf_facet : own_facet p e = own_facet p' e';
  sf_coordinates : coordinates_of (pr_asm p) (own_cell p e) = coordinates_of (pr_asm p') (own_cell p' e');
  sf_points : points_of (pr_asm p) e = points_of (pr_asm p') e';
  sf_own_dofs : forall j, (j < pd_functions pd)%nat -> (nth j (pd_dofs pd (own_cell p e)) 0 < count)%nat /\ node (nth j (pd_dofs pd (own_cell p e)) 0%nat) = nth j (pd_dofs pd' (own_cell p' e')) 0%nat;
  sf_tied_dofs : forall q j, In q (points_of (pr_asm p) e) -> (j < pd_functions pd)%nat ->
    (nth j (pd_dofs pd (tied_cell pd p e q)) 0 < count)%nat /\ node (nth j (pd_dofs pd (tied_cell pd p e q)) 0%nat) = nth j (pd_dofs pd' (tied_cell pd' p' e' q)) 0%nat;
  sf_tied_basis : forall q j, In q (points_of (pr_asm p) e) -> (j < pd_functions pd)%nat -> pr_basis p (e * pd_nq pd + q)%nat j = pr_basis p' (e' * pd_nq pd' + q)%nat j }.
Definition same_tied_gradients (pd pd' : pack_data) (p p' : tie_pair) (e e' : nat) : Prop :=
  forall q j b, In q (points_of (pr_asm p) e) -> (j < pd_functions pd)%nat -> (b < pd_gdim pd)%nat ->
    pr_grad p (tied_cell pd p e q) (e * pd_nq pd + q)%nat j b = pr_grad p' (tied_cell pd' p' e' q) (e' * pd_nq pd' + q)%nat j b.
(** Every facet of the whole surface [i] is a facet of exactly one process. *)
Definition split_facets {process : Type} (processes : list process) (num_pairs : nat) (pair : process -> nat -> tie_pair) (pair' : nat -> tie_pair) (facet : process -> nat -> nat -> nat) : Prop :=
  forall i, (i < num_pairs)%nat -> Permutation (flat_map (fun r => map (facet r i) (seq 0 (a_local (pr_asm (pair r i))))) processes) (seq 0 (a_local (pr_asm (pair' i)))).
(** Blocks of a process are blocks of the whole mesh. *)
Definition numbering (count : nat) (node : nat -> nat) (count' : nat) : Prop := forall m, (m < count)%nat -> (node m < count')%nat.

(** ** Lemmas *)
Lemma lsum_permutation {A} (l l' : list A) f : Permutation l l' -> lsum l f = lsum l' f.
Proof. induction 1; cbn [lsum]; lra. Qed.

Lemma piece_length bs count node v : length (piece bs count node v) = (bs * count)%nat.
Proof. unfold piece. now rewrite map_length, seq_length. Qed.
Lemma nth_piece bs count node v d : (d < bs * count)%nat -> nth d (piece bs count node v) 0 = nth (number bs node d) v 0.
Proof. intros H. unfold piece. rewrite (nth_map_lt _ _ _ 0 0%nat) by (now rewrite seq_length). now rewrite seq_nth. Qed.
Lemma number_block bs node m n : (n < bs)%nat -> number bs node (bs * m + n) = (bs * node m + n)%nat.
Proof. intros H. unfold number. rewrite (Nat.mul_comm bs m), Nat.div_add_l, Nat.div_small, Nat.add_0_r by lia. rewrite (Nat.add_comm (m * bs) n), Nat.mod_add, Nat.mod_small by lia. reflexivity. Qed.
Lemma number_bound bs count node count' d : numbering count node count' -> (d < bs * count)%nat -> (number bs node d < bs * count')%nat.
Proof.
  intros H Hd. assert (Hb : bs <> 0%nat) by (intros ->; lia). unfold number. pose proof (Nat.mod_upper_bound d bs Hb). assert (M : (d / bs < count)%nat) by (apply Nat.div_lt_upper_bound; lia). specialize (H _ M). nia.
Qed.
Lemma piece_coefficient pd pd' bs count node v cell cell' j n : pd_bs pd = bs -> pd_bs pd' = bs -> (n < bs)%nat ->
  (nth j (pd_dofs pd cell) 0 < count)%nat -> node (nth j (pd_dofs pd cell) 0%nat) = nth j (pd_dofs pd' cell') 0%nat ->
  coefficient pd (piece bs count node v) cell j n = coefficient pd' v cell' j n.
Proof.
  intros B B' Hn Hc E. unfold coefficient, dof_value. rewrite B, B', nth_piece by nia. now rewrite number_block, E by exact Hn.
Qed.

(** Testing gathered vectors. *)
Lemma applied_gathered {process} (processes : list process) bs node count (local : process -> list R) count' D :
  (forall r, In r processes -> length (local r) = (bs * count r)%nat /\ numbering (count r) (node r) count') ->
  lsum processes (fun r => applied (local r) (piece bs (count r) (node r) (unit_vector (bs * count') D))) = gathered processes bs node local D.
Proof.
  intros H. apply lsum_ext. intros r Hr. destruct (H r Hr) as [L N]. unfold applied. apply rsum_ext. intros d Hd. rewrite L in Hd.
  rewrite nth_piece, nth_unit by (try exact Hd; now apply (number_bound bs (count r))). destruct (number bs (node r) d =? D)%nat; ring.
Qed.
Lemma gathered_equal {process} (processes : list process) bs node count (local : process -> list R) (whole : list R) count' D :
  (forall r, In r processes -> length (local r) = (bs * count r)%nat /\ numbering (count r) (node r) count') -> length whole = (bs * count')%nat -> (D < bs * count')%nat ->
  (forall v, length v = (bs * count')%nat -> lsum processes (fun r => applied (local r) (piece bs (count r) (node r) v)) = applied whole v) ->
  gathered processes bs node local D = nth D whole 0.
Proof.
  intros H L HD E. rewrite <- (applied_gathered processes bs node count local count' D H), E by (unfold unit_vector; now rewrite map_length, seq_length).
  rewrite <- L. apply applied_unit. now rewrite L.
Qed.

Lemma piece_moved bs count node u w t : length w = length u -> piece bs count node (moved u w t) = moved (piece bs count node u) (piece bs count node w) t.
Proof.
  intros L. apply (nth_ext _ _ 0 0); [rewrite moved_length, !piece_length; reflexivity|]. intros d Hd. rewrite piece_length in Hd.
  rewrite nth_moved by (now rewrite !piece_length). rewrite !nth_piece by exact Hd. now rewrite nth_moved by exact L.
Qed.

(** The sum over the interface, collected from the processes. *)
Lemma over_interface_split {process} (processes : list process) num_pairs (pair : process -> nat -> tie_pair) pair' facet (g : process -> nat -> nat -> nat -> R) g' :
  split_facets processes num_pairs pair pair' facet ->
  (forall r i e, In r processes -> (i < num_pairs)%nat -> (e < a_local (pr_asm (pair r i)))%nat ->
     points_of (pr_asm (pair r i)) e = points_of (pr_asm (pair' i)) (facet r i e) /\
     forall q, In q (points_of (pr_asm (pair r i)) e) -> g r i e q = g' i (facet r i e) q) ->
  lsum processes (fun r => over_interface num_pairs (pair r) (g r)) = over_interface num_pairs pair' g'.
Proof.
  intros HS H. unfold over_interface. rewrite lsum_rsum. apply rsum_ext. intros i Hi.
  rewrite <- (lsum_seq (a_local (pr_asm (pair' i)))), <- (lsum_permutation _ _ _ (HS i Hi)), lsum_flat_map. apply lsum_ext. intros r Hr. rewrite lsum_map, <- lsum_seq.
  apply lsum_ext. intros e He. apply in_seq in He. destruct (H r i e Hr Hi ltac:(lia)) as [P E]. rewrite <- P. apply lsum_ext. exact E.
Qed.

(** Traces of a function of the whole mesh and of its piece. *)
Section Traces.
  Context (pd pd' : pack_data) (kd : kernel_data) (num_pairs : nat) (pair pair' : nat -> tie_pair) (ml ml' : nat).
  Context (TS : tie_setting pd kd num_pairs pair ml) (TS' : tie_setting pd' kd num_pairs pair' ml').
  Context (node : nat -> nat) (count i e e' : nat) (Hi : (i < num_pairs)%nat) (SF : same_facet pd pd' (pair i) (pair' i) node count e e').
  Notation T := (ts_tables _ _ _ _ _ TS).
  Notation T' := (ts_tables _ _ _ _ _ TS').
  Notation bs := (kd_bs kd).
  Notation part := (piece bs count node).

  Lemma tables_agree : pd_gdim pd = pd_gdim pd' /\ pd_functions pd = pd_functions pd' /\ pd_nq pd = pd_nq pd' /\ pd_bs pd = bs /\ pd_bs pd' = bs.
  Proof using All.
    rewrite <- (st_gdim _ _ T), <- (st_gdim _ _ T'), <- (st_ndofs _ _ T), <- (st_ndofs _ _ T'), <- (st_bs _ _ T), <- (st_bs _ _ T'), <- (st_points _ _ T 0%nat), <- (st_points _ _ T' 0%nat). auto.
  Qed.
  Lemma piece_value_own q v n : (n < bs)%nat -> value_own pd (pair i) e q (part v) n = value_own pd' (pair' i) e' q v n.
  Proof using All.
    intros Hn. destruct tables_agree as (G & N & Q & B & B'). unfold value_own. rewrite N. apply rsum_ext. intros j Hj.
    destruct (sf_own_dofs _ _ _ _ _ _ _ _ SF j ltac:(lia)) as [Hc E]. rewrite (piece_coefficient pd pd' bs count node v _ _ j n B B' Hn Hc E). f_equal.
    rewrite <- (st_phi _ _ T), <- (st_phi _ _ T'), <- (st_offsets _ _ T), <- (st_offsets _ _ T'). now rewrite (sf_facet _ _ _ _ _ _ _ _ SF).
  Qed.
  Lemma piece_value_tied q v n : In q (points_of (pr_asm (pair i)) e) -> (n < bs)%nat -> value_tied pd (pair i) e q (part v) n = value_tied pd' (pair' i) e' q v n.
  Proof using All.
    intros Hq Hn. destruct tables_agree as (G & N & Q & B & B'). unfold value_tied. rewrite <- N. apply rsum_ext. intros j Hj.
    destruct (sf_tied_dofs _ _ _ _ _ _ _ _ SF q j Hq Hj) as [Hc E]. rewrite (piece_coefficient pd pd' bs count node v _ _ j n B B' Hn Hc E). f_equal.
    apply (sf_tied_basis _ _ _ _ _ _ _ _ SF q j Hq Hj).
  Qed.
  Lemma piece_jump q v n : In q (points_of (pr_asm (pair i)) e) -> (n < bs)%nat -> interface_jump pd (pair i) e q (part v) n = interface_jump pd' (pair' i) e' q v n.
  Proof using All. intros Hq Hn. unfold interface_jump. now rewrite piece_value_own, piece_value_tied. Qed.
  Lemma piece_gradient_own q v a b : (a < bs)%nat -> (b < pd_gdim pd)%nat -> gradient_own pd (pair i) e q (part v) a b = gradient_own pd' (pair' i) e' q v a b.
  Proof using All.
    intros Ha Hb. destruct tables_agree as (G & N & Q & B & B'). unfold gradient_own. rewrite N. apply rsum_ext. intros j Hj.
    destruct (sf_own_dofs _ _ _ _ _ _ _ _ SF j ltac:(lia)) as [Hc E]. rewrite (piece_coefficient pd pd' bs count node v _ _ j a B B' Ha Hc E). f_equal.
    rewrite <- (setting_phys_grad pd kd num_pairs pair ml TS i Hi), <- (setting_phys_grad pd' kd num_pairs pair' ml' TS' i Hi) by congruence.
    now rewrite (sf_facet _ _ _ _ _ _ _ _ SF), (sf_coordinates _ _ _ _ _ _ _ _ SF).
  Qed.
  Lemma piece_gradient_tied q v a b : same_tied_gradients pd pd' (pair i) (pair' i) e e' -> In q (points_of (pr_asm (pair i)) e) -> (a < bs)%nat -> (b < pd_gdim pd)%nat ->
    gradient_tied pd (pair i) e q (part v) a b = gradient_tied pd' (pair' i) e' q v a b.
  Proof using All.
    intros SG Hq Ha Hb. destruct tables_agree as (G & N & Q & B & B'). unfold gradient_tied. rewrite <- N. apply rsum_ext. intros j Hj.
    destruct (sf_tied_dofs _ _ _ _ _ _ _ _ SF q j Hq Hj) as [Hc E]. rewrite (piece_coefficient pd pd' bs count node v _ _ j a B B' Ha Hc E). f_equal. now apply SG.
  Qed.
  Lemma piece_normal q : interface_normal kd (pair i) e q = interface_normal kd (pair' i) e' q.
  Proof using All. unfold interface_normal. now rewrite (sf_facet _ _ _ _ _ _ _ _ SF), (sf_coordinates _ _ _ _ _ _ _ _ SF). Qed.
  Lemma piece_weight q : interface_weight kd (pair i) e q = interface_weight kd (pair' i) e' q.
  Proof using All. unfold interface_weight. now rewrite (sf_facet _ _ _ _ _ _ _ _ SF), (sf_coordinates _ _ _ _ _ _ _ _ SF). Qed.
End Traces.
