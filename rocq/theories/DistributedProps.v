(** Property C108: residuals and matrices do not depend on how the mesh is split over the
    processes. *)
From Coq Require Import List Arith ZArith Lia Bool Reals Lra Permutation.
Import ListNotations.
From Verif Require Import Prelude PreludeLemmas RSum RealLemmas LayoutModel LayoutProps ContactProblemModel ContactProblemProps.
From Verif Require Import EntitiesModel PackingModel PackingProps PackUProps AssemblyModel AssemblyProofs AssemblyProps RayModel KernelModel KernelProofs KernelSpec
  ElasticityProps ContactKernelModel ContactKernelProofs ContactKernelSpec ContactCurveProofs ContactKernelProps FrictionKernelProofs FrictionKernelProps CoefficientsModel CoefficientsProps SystemSpec
  MeshTieModel MeshTieProps MeshTieHistoryProps MeshTieKernelModel MeshTieKernelProps PoissonKernelProps TieSystemModel TieSystemProofs TieSystemProps
  TieWeakProps ContactWeakProps ContactSystemModel ContactSystemSpec ContactSystemProofs ContactSystemProps SystemWeakProps BasisProps MonotoneProps TieFormProofs TieFormProps ContactFormProps DistributedProofs.
Local Open Scope R_scope.

(** ** Specification *)
(** A mesh tie object of a process, or of the whole mesh, with its history of calls. *)
Record tie_object := {
  to_pd : bool -> pack_data; to_pair : bool -> nat -> tie_pair; to_num_facets : nat -> nat; to_ml : nat; to_h : nat -> list R; to_coeff0 : nat -> field -> list R * nat;
  to_calls : list (tie_call (F := field)) }.
(** A contact object, likewise. *)
Record contact_object (G : Type) := {
  co_pd : pack_data; co_surfaces : nat -> tie_pair; co_basis : G -> (nat -> list Z) -> nat -> nat -> nat -> R; co_rows : nat -> nat; co_move : G -> list R -> G;
  co_detect : G -> nat -> list Z; co_gap : nat -> G -> (nat -> list Z) -> list (list R); co_normals : nat -> G -> (nat -> list Z) -> list (list R);
  co_param : nat -> list R -> list (list R); co_h : nat -> list (list R); co_geometry : G; co_calls : list (@call (list R) (nat -> list Z)) }.
Arguments co_pd {G}. Arguments co_surfaces {G}. Arguments co_basis {G}. Arguments co_rows {G}. Arguments co_move {G}. Arguments co_detect {G}. Arguments co_gap {G}.
Arguments co_normals {G}. Arguments co_param {G}. Arguments co_h {G}. Arguments co_geometry {G}. Arguments co_calls {G}.

Lemma derivable_lsum {A} (l : list A) (f : A -> R -> R) (g : A -> R) x : (forall a, In a l -> derivable_pt_lim (f a) x (g a)) -> derivable_pt_lim (fun t => lsum l (fun a => f a t)) x (lsum l g).
Proof.
  induction l as [|a l IH]; intros H; cbn [lsum]; [apply derivable_pt_lim_const|].
  apply (derivable_pt_lim_plus (f a) (fun t => lsum l (fun a => f a t))); [apply H; now left|apply IH; intros; apply H; now right].
Qed.

Lemma derivable_scaled (c l x : R) (f : R -> R) : derivable_pt_lim f x l -> derivable_pt_lim (fun t => c * f t) x (c * l).
Proof. apply derivable_pt_lim_scal. Qed.

(** v . M w *)
Definition bilinear (bs : nat) (M : list insertion) (w v : list R) : R := rsum (length v) (fun d => matrix_times bs M w d * nth d v 0).

(** ** The mesh tie *)
Section Tie.
  Context {process : Type} (processes : list process) (num_pairs nq nd gdim : nat) (object : process -> tie_object) (whole : tie_object).
  (** Numbering of the degrees of freedom and of the facets of each process. *)
  Context (count : process -> nat) (node : process -> nat -> nat) (count' : nat) (facet : process -> nat -> nat -> nat).
  Notation state o := (tie_after (to_pd o) num_pairs (to_pair o) (to_num_facets o) nq nd gdim (to_ml o) (to_h o) (to_coeff0 o) (to_calls o)).
  Notation setting o := (object_setting (to_pd o) num_pairs (to_pair o) (to_num_facets o) nq nd gdim (to_ml o) (to_coeff0 o)).
  Notation scalar o f := (fun i e => nth e (fst (to_coeff0 o i f)) 0).
  Notation asm o vec := (fun i : nat => pr_asm (to_pair o vec i)).

  Record tie_split (vec : bool) (kd : kernel_data) : Prop := {
    tp_facets : split_facets processes num_pairs (fun r => to_pair (object r) vec) (to_pair whole vec) facet;
    tp_numbering : forall r, In r processes -> numbering (count r) (node r) count';
    tp_setting : setting whole vec kd /\ forall r, In r processes -> setting (object r) vec kd;
    tp_same : forall r i e, In r processes -> (i < num_pairs)%nat -> (e < a_local (pr_asm (to_pair (object r) vec i)))%nat ->
      same_facet (to_pd (object r) vec) (to_pd whole vec) (to_pair (object r) vec i) (to_pair whole vec i) (node r) (count r) e (facet r i e) /\
      same_tied_gradients (to_pd (object r) vec) (to_pd whole vec) (to_pair (object r) vec i) (to_pair whole vec i) e (facet r i e) /\
      nth e (to_h (object r) i) 0 = nth (facet r i e) (to_h whole i) 0 }.
  (** A coefficient has the same value on a facet of a process as on that of the whole mesh. *)
  Definition same_scalar (r : process) (f f' : field) (vec : bool) : Prop :=
    forall i e, (i < num_pairs)%nat -> (e < a_local (pr_asm (to_pair (object r) vec i)))%nat -> scalar (object r) f i e = scalar whole f' i (facet r i e).

  Lemma elastic_form_split kd (in_p : process -> elastic_input (F := field)) p u v : tie_split true kd ->
    (forall r, In r processes -> e_gamma (in_p r) = e_gamma p /\ e_theta (in_p r) = e_theta p /\ same_scalar r (e_mu (in_p r)) (e_mu p) true /\ same_scalar r (e_lambda (in_p r)) (e_lambda p) true) ->
    lsum processes (fun r => elastic_form (to_pd (object r) true) kd num_pairs (to_pair (object r) true) (scalar (object r) (e_mu (in_p r))) (scalar (object r) (e_lambda (in_p r))) (fun i e => nth e (to_h (object r) i) 0)
      (e_gamma (in_p r)) (e_theta (in_p r)) (piece (kd_bs kd) (count r) (node r) u) (piece (kd_bs kd) (count r) (node r) v)) =
    elastic_form (to_pd whole true) kd num_pairs (to_pair whole true) (scalar whole (e_mu p)) (scalar whole (e_lambda p)) (fun i e => nth e (to_h whole i) 0) (e_gamma p) (e_theta p) u v.
  Proof.
    intros S H. destruct (tp_setting _ _ S) as [OS' OSr]. unfold elastic_form.
    apply (over_interface_split processes num_pairs (fun r => to_pair (object r) true) (to_pair whole true) facet _ _ (tp_facets _ _ S)).
    intros r i e Hr Hi He. destruct (tp_same _ _ S r i e Hr Hi He) as (SF & SG & SH). split; [apply (sf_points _ _ _ _ _ _ _ _ SF)|]. intros q Hq.
    destruct (H r Hr) as (E1 & E2 & E3 & E4). pose proof (os_tie _ _ _ _ _ _ _ _ _ _ _ (OSr r Hr)) as TS. pose proof (os_tie _ _ _ _ _ _ _ _ _ _ _ OS') as TS'.
    destruct (os_shapes _ _ _ _ _ _ _ _ _ _ _ (OSr r Hr) true) as [_ G1 B1 _ _].
    destruct (tables_agree _ _ kd num_pairs _ _ _ _ TS TS' (node r) (count r) i e (facet r i e) Hi SF) as (G & N & Q & B & B').
    rewrite (piece_weight _ _ kd num_pairs _ _ _ _ TS TS' (node r) (count r) i e (facet r i e) Hi SF). f_equal. rewrite <- G, G1.
    assert (Eb : kd_bs kd = gdim) by congruence. apply rsum_ext. intros a Ha. cbv zeta.
    assert (J : forall w, interface_jump (to_pd (object r) true) (to_pair (object r) true i) e q (piece (kd_bs kd) (count r) (node r) w) a = interface_jump (to_pd whole true) (to_pair whole true i) (facet r i e) q w a).
    { intros w. apply (piece_jump _ _ kd num_pairs _ _ _ _ TS TS' (node r) (count r) i e (facet r i e) Hi SF); [exact Hq|now rewrite Eb]. }
    assert (MT : forall w, mean_traction (to_pd (object r) true) kd (to_pair (object r) true i) e q (scalar (object r) (e_mu (in_p r)) i e) (scalar (object r) (e_lambda (in_p r)) i e) (piece (kd_bs kd) (count r) (node r) w) a =
      mean_traction (to_pd whole true) kd (to_pair whole true i) (facet r i e) q (scalar whole (e_mu p) i (facet r i e)) (scalar whole (e_lambda p) i (facet r i e)) w a).
    { intros w. unfold mean_traction. rewrite (E3 i e Hi He), (E4 i e Hi He), <- G, G1. rewrite (piece_normal _ _ kd num_pairs _ _ _ _ TS TS' (node r) (count r) i e (facet r i e) Hi SF). f_equal. f_equal; apply traction_ext; auto; intros x y Hx Hy.
      - apply (piece_gradient_own _ _ kd num_pairs _ _ _ _ TS TS' (node r) (count r) i e (facet r i e) Hi SF); congruence.
      - apply (piece_gradient_tied _ _ kd num_pairs _ _ _ _ TS TS' (node r) (count r) i e (facet r i e) Hi SF); first [assumption | rewrite ?Eb, ?G1; assumption]. }
    rewrite !J, !MT, E1, E2, SH. reflexivity.
  Qed.
  Lemma poisson_form_split kd (in_p : process -> poisson_input (F := field)) p u v : tie_split false kd ->
    (forall r, In r processes -> p_gamma (in_p r) = p_gamma p /\ p_theta (in_p r) = p_theta p /\ same_scalar r (p_kdt (in_p r)) (p_kdt p) false) ->
    lsum processes (fun r => poisson_form (to_pd (object r) false) kd num_pairs (to_pair (object r) false) (scalar (object r) (p_kdt (in_p r))) (fun i e => nth e (to_h (object r) i) 0)
      (p_gamma (in_p r)) (p_theta (in_p r)) (piece (kd_bs kd) (count r) (node r) u) (piece (kd_bs kd) (count r) (node r) v)) =
    poisson_form (to_pd whole false) kd num_pairs (to_pair whole false) (scalar whole (p_kdt p)) (fun i e => nth e (to_h whole i) 0) (p_gamma p) (p_theta p) u v.
  Proof.
    intros S H. destruct (tp_setting _ _ S) as [OS' OSr]. unfold poisson_form.
    apply (over_interface_split processes num_pairs (fun r => to_pair (object r) false) (to_pair whole false) facet _ _ (tp_facets _ _ S)).
    intros r i e Hr Hi He. destruct (tp_same _ _ S r i e Hr Hi He) as (SF & SG & SH). split; [apply (sf_points _ _ _ _ _ _ _ _ SF)|]. intros q Hq.
    destruct (H r Hr) as (E1 & E2 & E3). pose proof (os_tie _ _ _ _ _ _ _ _ _ _ _ (OSr r Hr)) as TS. pose proof (os_tie _ _ _ _ _ _ _ _ _ _ _ OS') as TS'.
    destruct (os_shapes _ _ _ _ _ _ _ _ _ _ _ (OSr r Hr) false) as [_ G1 B1 _ _].
    destruct (tables_agree _ _ kd num_pairs _ _ _ _ TS TS' (node r) (count r) i e (facet r i e) Hi SF) as (G & N & Q & B & B').
    rewrite (piece_weight _ _ kd num_pairs _ _ _ _ TS TS' (node r) (count r) i e (facet r i e) Hi SF), (E3 i e Hi He). f_equal. cbv zeta.
    assert (Eb : kd_bs kd = 1%nat) by congruence.
    assert (J : forall w, interface_jump (to_pd (object r) false) (to_pair (object r) false i) e q (piece (kd_bs kd) (count r) (node r) w) 0 = interface_jump (to_pd whole false) (to_pair whole false i) (facet r i e) q w 0).
    { intros w. apply (piece_jump _ _ kd num_pairs _ _ _ _ TS TS' (node r) (count r) i e (facet r i e) Hi SF); [exact Hq|rewrite Eb; lia]. }
    assert (MF : forall w, mean_flux (to_pd (object r) false) kd (to_pair (object r) false i) e q (piece (kd_bs kd) (count r) (node r) w) = mean_flux (to_pd whole false) kd (to_pair whole false i) (facet r i e) q w).
    { intros w. unfold mean_flux. rewrite <- G. apply rsum_ext. intros y Hy. rewrite (piece_normal _ _ kd num_pairs _ _ _ _ TS TS' (node r) (count r) i e (facet r i e) Hi SF).
      rewrite (piece_gradient_own _ _ kd num_pairs _ _ _ _ TS TS' (node r) (count r) i e (facet r i e) Hi SF) by (auto; rewrite Eb; lia).
      rewrite (piece_gradient_tied _ _ kd num_pairs _ _ _ _ TS TS' (node r) (count r) i e (facet r i e) Hi SF) by (auto; rewrite Eb; lia). reflexivity. }
    rewrite !J, !MF, E1, E2, SH. reflexivity.
  Qed.

  (** ** C108, mesh tie *)
  (** The contributions of all processes to an entry of the residual add up to the entry that
      one process with the whole mesh computes. *)
  Theorem C108_tie_residual :
    forall (kd : kernel_data) (rhs thermo rhs_p jac : list nat -> kernel_fn) (in_p : process -> elastic_input (F := field)) (p : elastic_input (F := field)) (u : list R),
      tie_split true kd -> elastic_kernels kd rhs thermo jac ->
      (forall r, In r processes -> Forall fields_given (to_calls (object r)) /\ Forall (fun k => call_type k <> ThermoElasticity) (to_calls (object r)) /\ fold_left elastic_step (to_calls (object r)) None = Some (in_p r)) ->
      Forall fields_given (to_calls whole) -> Forall (fun k => call_type k <> ThermoElasticity) (to_calls whole) -> fold_left elastic_step (to_calls whole) None = Some p ->
      e_u p = Some (true, u) ->
      (forall r, In r processes -> e_u (in_p r) = Some (true, piece gdim (count r) (node r) u) /\
         e_gamma (in_p r) = e_gamma p /\ e_theta (in_p r) = e_theta p /\ same_scalar r (e_mu (in_p r)) (e_mu p) true /\ same_scalar r (e_lambda (in_p r)) (e_lambda p) true) ->
      exists (res : list R) (local : process -> list R),
        tie_vector (asm whole true) num_pairs rhs thermo rhs_p Elasticity (state whole) (repeat 0 (gdim * count')) = Some res /\
        (forall r, In r processes -> tie_vector (asm (object r) true) num_pairs rhs thermo rhs_p Elasticity (state (object r)) (repeat 0 (gdim * count r)) = Some (local r)) /\
        forall D, (D < gdim * count')%nat -> gathered processes gdim node local D = nth D res 0.
  Proof.
    intros kd rhs thermo rhs_p jac in_p p u S HK Hc Hf Ht Ep Eu H. destruct (tp_setting _ _ S) as [OS' OSr].
    assert (Eb : kd_bs kd = gdim) by (rewrite (st_bs _ _ (ts_tables _ _ _ _ _ (os_tie _ _ _ _ _ _ _ _ _ _ _ OS'))); destruct (os_shapes _ _ _ _ _ _ _ _ _ _ _ OS' true); auto).
    assert (Z : forall n v, applied (repeat 0 n) v = 0) by (intros n v; apply rsum_zero; intros d _; rewrite nth_repeat; ring).
    set (vec o n := match tie_vector (asm o true) num_pairs rhs thermo rhs_p Elasticity (state o) (repeat 0 (gdim * n)) with Some r => r | None => [] end).
    assert (W : forall v, length v = (gdim * count')%nat -> tie_vector (asm whole true) num_pairs rhs thermo rhs_p Elasticity (state whole) (repeat 0 (gdim * count')) = Some (vec whole count') /\
      length (vec whole count') = (gdim * count')%nat /\ applied (vec whole count') v = elastic_form (to_pd whole true) kd num_pairs (to_pair whole true) (scalar whole (e_mu p)) (scalar whole (e_lambda p)) (fun i e => nth e (to_h whole i) 0) (e_gamma p) (e_theta p) u v).
    { intros v Hv. destruct (C105_elastic_residual (to_pd whole) num_pairs (to_pair whole) (to_num_facets whole) nq nd gdim (to_ml whole) (to_h whole) (to_coeff0 whole) kd rhs thermo rhs_p jac (to_calls whole) p u (repeat 0 (gdim * count')) v OS' HK Hf Ht Ep Eu ltac:(now rewrite repeat_length)) as (x & X1 & X2 & X3 & _).
      unfold vec. rewrite X1. rewrite repeat_length in X2. rewrite X3, Z, Rplus_0_l. auto. }
    assert (P : forall r v, In r processes -> length v = (gdim * count r)%nat -> tie_vector (asm (object r) true) num_pairs rhs thermo rhs_p Elasticity (state (object r)) (repeat 0 (gdim * count r)) = Some (vec (object r) (count r)) /\
      length (vec (object r) (count r)) = (gdim * count r)%nat /\ applied (vec (object r) (count r)) v = elastic_form (to_pd (object r) true) kd num_pairs (to_pair (object r) true) (scalar (object r) (e_mu (in_p r))) (scalar (object r) (e_lambda (in_p r))) (fun i e => nth e (to_h (object r) i) 0) (e_gamma (in_p r)) (e_theta (in_p r)) (piece gdim (count r) (node r) u) v).
    { intros r v Hr Hv. destruct (Hc r Hr) as (Hf' & Ht' & Ep'). destruct (H r Hr) as (Eu' & _).
      destruct (C105_elastic_residual (to_pd (object r)) num_pairs (to_pair (object r)) (to_num_facets (object r)) nq nd gdim (to_ml (object r)) (to_h (object r)) (to_coeff0 (object r)) kd rhs thermo rhs_p jac (to_calls (object r)) (in_p r) (piece gdim (count r) (node r) u) (repeat 0 (gdim * count r)) v (OSr r Hr) HK Hf' Ht' Ep' Eu' ltac:(now rewrite repeat_length)) as (x & X1 & X2 & X3 & _).
      unfold vec. rewrite X1. rewrite repeat_length in X2. rewrite X3, Z, Rplus_0_l. auto. }
    exists (vec whole count'), (fun r => vec (object r) (count r)). split; [|split].
    - apply (W (repeat 0 (gdim * count'))). apply repeat_length.
    - intros r Hr. apply (P r (repeat 0 (gdim * count r)) Hr). apply repeat_length.
    - intros D HD. apply (gathered_equal processes gdim node count _ _ count' D); auto.
      + intros r Hr. split; [apply (P r (repeat 0 (gdim * count r)) Hr), repeat_length|apply (tp_numbering _ _ S r Hr)].
      + apply (W (repeat 0 (gdim * count'))). apply repeat_length.
      + intros v Hv. destruct (W v Hv) as (_ & _ & ->). rewrite <- (elastic_form_split kd in_p p u v S) by (intros r Hr; apply (H r Hr)). rewrite Eb. apply lsum_ext. intros r Hr. apply (P r _ Hr). apply piece_length.
  Qed.

  (** The same for the matrices. *)
  Theorem C108_tie_matrix :
    forall (kd : kernel_data) (rhs thermo jac jac_p : list nat -> kernel_fn) (in_p : process -> elastic_input (F := field)) (p : elastic_input (F := field)),
      tie_split true kd -> elastic_kernels kd rhs thermo jac ->
      (forall r, In r processes -> Forall fields_given (to_calls (object r)) /\ Forall (fun k => call_type k <> ThermoElasticity) (to_calls (object r)) /\ fold_left elastic_step (to_calls (object r)) None = Some (in_p r)) ->
      Forall fields_given (to_calls whole) -> Forall (fun k => call_type k <> ThermoElasticity) (to_calls whole) -> fold_left elastic_step (to_calls whole) None = Some p ->
      (forall r, In r processes -> e_gamma (in_p r) = e_gamma p /\ e_theta (in_p r) = e_theta p /\ same_scalar r (e_mu (in_p r)) (e_mu p) true /\ same_scalar r (e_lambda (in_p r)) (e_lambda p) true) ->
      exists (M : list insertion) (local : process -> list insertion),
        tie_matrix (asm whole true) num_pairs jac jac_p Elasticity (state whole) = Some M /\
        (forall r, In r processes -> tie_matrix (asm (object r) true) num_pairs jac jac_p Elasticity (state (object r)) = Some (local r)) /\
        forall w v, lsum processes (fun r => bilinear gdim (local r) (piece gdim (count r) (node r) w) (piece gdim (count r) (node r) v)) = bilinear gdim M w v.
  Proof.
    intros kd rhs thermo jac jac_p in_p p S HK Hc Hf Ht Ep H. destruct (tp_setting _ _ S) as [OS' OSr].
    assert (Eb : kd_bs kd = gdim) by (rewrite (st_bs _ _ (ts_tables _ _ _ _ _ (os_tie _ _ _ _ _ _ _ _ _ _ _ OS'))); destruct (os_shapes _ _ _ _ _ _ _ _ _ _ _ OS' true); auto).
    destruct (C105_elastic_matrix_is_form (to_pd whole) num_pairs (to_pair whole) (to_num_facets whole) nq nd gdim (to_ml whole) (to_h whole) (to_coeff0 whole) kd rhs thermo jac jac_p (to_calls whole) p OS' HK Hf Ht Ep) as (M & EM & XM).
    set (mat o := match tie_matrix (asm o true) num_pairs jac jac_p Elasticity (state o) with Some m => m | None => [] end).
    assert (P : forall r, In r processes -> tie_matrix (asm (object r) true) num_pairs jac jac_p Elasticity (state (object r)) = Some (mat (object r)) /\
      forall w v, bilinear gdim (mat (object r)) w v = elastic_form (to_pd (object r) true) kd num_pairs (to_pair (object r) true) (scalar (object r) (e_mu (in_p r))) (scalar (object r) (e_lambda (in_p r))) (fun i e => nth e (to_h (object r) i) 0) (e_gamma (in_p r)) (e_theta (in_p r)) w v).
    { intros r Hr. destruct (Hc r Hr) as (Hf' & Ht' & Ep').
      destruct (C105_elastic_matrix_is_form (to_pd (object r)) num_pairs (to_pair (object r)) (to_num_facets (object r)) nq nd gdim (to_ml (object r)) (to_h (object r)) (to_coeff0 (object r)) kd rhs thermo jac jac_p (to_calls (object r)) (in_p r) (OSr r Hr) HK Hf' Ht' Ep') as (m & E & X).
      unfold mat. rewrite E. split; [reflexivity|exact X]. }
    exists M, (fun r => mat (object r)). split; [exact EM|]. split; [intros r Hr; apply (P r Hr)|]. intros w v. unfold bilinear at 2. rewrite XM, <- (elastic_form_split kd in_p p w v S H), Eb.
    apply lsum_ext. intros r Hr. apply (P r Hr).
  Qed.

  (** Heat conduction. *)
  Theorem C108_tie_heat :
    forall (kd : kernel_data) (rhs thermo rhs_p jac jac_p : list nat -> kernel_fn) (in_p : process -> poisson_input (F := field)) (p : poisson_input (F := field)) (u : list R),
      tie_split false kd -> poisson_kernels kd rhs_p jac_p ->
      (forall r, In r processes -> Forall fields_given (to_calls (object r)) /\ fold_left poisson_step (to_calls (object r)) None = Some (in_p r)) ->
      Forall fields_given (to_calls whole) -> fold_left poisson_step (to_calls whole) None = Some p ->
      p_T p = Some (false, u) ->
      (forall r, In r processes -> p_T (in_p r) = Some (false, piece 1 (count r) (node r) u) /\
         p_gamma (in_p r) = p_gamma p /\ p_theta (in_p r) = p_theta p /\ same_scalar r (p_kdt (in_p r)) (p_kdt p) false) ->
      exists (res : list R) (local : process -> list R) (M : list insertion) (local_M : process -> list insertion),
        tie_vector (asm whole false) num_pairs rhs thermo rhs_p Poisson (state whole) (repeat 0 count') = Some res /\
        tie_matrix (asm whole false) num_pairs jac jac_p Poisson (state whole) = Some M /\
        (forall r, In r processes -> tie_vector (asm (object r) false) num_pairs rhs thermo rhs_p Poisson (state (object r)) (repeat 0 (count r)) = Some (local r) /\
           tie_matrix (asm (object r) false) num_pairs jac jac_p Poisson (state (object r)) = Some (local_M r)) /\
        (forall D, (D < count')%nat -> gathered processes 1 node local D = nth D res 0) /\
        forall w v, lsum processes (fun r => bilinear 1 (local_M r) (piece 1 (count r) (node r) w) (piece 1 (count r) (node r) v)) = bilinear 1 M w v.
  Proof.
    intros kd rhs thermo rhs_p jac jac_p in_p p u S HK Hc Hf Ep Eu H. destruct (tp_setting _ _ S) as [OS' OSr].
    assert (Eb : kd_bs kd = 1%nat) by (rewrite (st_bs _ _ (ts_tables _ _ _ _ _ (os_tie _ _ _ _ _ _ _ _ _ _ _ OS'))); destruct (os_shapes _ _ _ _ _ _ _ _ _ _ _ OS' false); auto).
    assert (Z : forall n v, applied (repeat 0 n) v = 0) by (intros n v; apply rsum_zero; intros d _; rewrite nth_repeat; ring).
    set (vec o n := match tie_vector (asm o false) num_pairs rhs thermo rhs_p Poisson (state o) (repeat 0 n) with Some r => r | None => [] end).
    set (mat o := match tie_matrix (asm o false) num_pairs jac jac_p Poisson (state o) with Some m => m | None => [] end).
    assert (W : forall v, length v = count' -> tie_vector (asm whole false) num_pairs rhs thermo rhs_p Poisson (state whole) (repeat 0 count') = Some (vec whole count') /\
      length (vec whole count') = count' /\ applied (vec whole count') v = poisson_form (to_pd whole false) kd num_pairs (to_pair whole false) (scalar whole (p_kdt p)) (fun i e => nth e (to_h whole i) 0) (p_gamma p) (p_theta p) u v).
    { intros v Hv. destruct (C105_poisson_residual (to_pd whole) num_pairs (to_pair whole) (to_num_facets whole) nq nd gdim (to_ml whole) (to_h whole) (to_coeff0 whole) kd rhs thermo rhs_p jac_p (to_calls whole) p u (repeat 0 count') v OS' HK Hf Ep Eu ltac:(now rewrite repeat_length)) as (x & X1 & X2 & X3 & _).
      unfold vec. rewrite X1. rewrite repeat_length in X2. rewrite X3, Z, Rplus_0_l. auto. }
    assert (P : forall r v, In r processes -> length v = count r -> tie_vector (asm (object r) false) num_pairs rhs thermo rhs_p Poisson (state (object r)) (repeat 0 (count r)) = Some (vec (object r) (count r)) /\
      length (vec (object r) (count r)) = count r /\ applied (vec (object r) (count r)) v = poisson_form (to_pd (object r) false) kd num_pairs (to_pair (object r) false) (scalar (object r) (p_kdt (in_p r))) (fun i e => nth e (to_h (object r) i) 0) (p_gamma (in_p r)) (p_theta (in_p r)) (piece 1 (count r) (node r) u) v).
    { intros r v Hr Hv. destruct (Hc r Hr) as (Hf' & Ep'). destruct (H r Hr) as (Eu' & _).
      destruct (C105_poisson_residual (to_pd (object r)) num_pairs (to_pair (object r)) (to_num_facets (object r)) nq nd gdim (to_ml (object r)) (to_h (object r)) (to_coeff0 (object r)) kd rhs thermo rhs_p jac_p (to_calls (object r)) (in_p r) (piece 1 (count r) (node r) u) (repeat 0 (count r)) v (OSr r Hr) HK Hf' Ep' Eu' ltac:(now rewrite repeat_length)) as (x & X1 & X2 & X3 & _).
      unfold vec. rewrite X1. rewrite repeat_length in X2. rewrite X3, Z, Rplus_0_l. auto. }
    destruct (C105_poisson_matrix_is_form (to_pd whole) num_pairs (to_pair whole) (to_num_facets whole) nq nd gdim (to_ml whole) (to_h whole) (to_coeff0 whole) kd rhs_p jac jac_p (to_calls whole) p OS' HK Hf Ep) as (M & EM & XM).
    assert (PM : forall r, In r processes -> tie_matrix (asm (object r) false) num_pairs jac jac_p Poisson (state (object r)) = Some (mat (object r)) /\
      forall w v, bilinear 1 (mat (object r)) w v = poisson_form (to_pd (object r) false) kd num_pairs (to_pair (object r) false) (scalar (object r) (p_kdt (in_p r))) (fun i e => nth e (to_h (object r) i) 0) (p_gamma (in_p r)) (p_theta (in_p r)) w v).
    { intros r Hr. destruct (Hc r Hr) as (Hf' & Ep').
      destruct (C105_poisson_matrix_is_form (to_pd (object r)) num_pairs (to_pair (object r)) (to_num_facets (object r)) nq nd gdim (to_ml (object r)) (to_h (object r)) (to_coeff0 (object r)) kd rhs_p jac jac_p (to_calls (object r)) (in_p r) (OSr r Hr) HK Hf' Ep') as (m & E & X).
      unfold mat. rewrite E. split; [reflexivity|exact X]. }
    assert (H' : forall r, In r processes -> p_gamma (in_p r) = p_gamma p /\ p_theta (in_p r) = p_theta p /\ same_scalar r (p_kdt (in_p r)) (p_kdt p) false) by (intros r Hr; apply (H r Hr)).
    exists (vec whole count'), (fun r => vec (object r) (count r)), M, (fun r => mat (object r)). split; [|split; [exact EM|split; [|split]]].
    - apply (W (repeat 0 count')). apply repeat_length.
    - intros r Hr. split; [apply (P r (repeat 0 (count r)) Hr), repeat_length|apply (PM r Hr)].
    - intros D HD. apply (gathered_equal processes 1 node count _ _ count' D).
      + intros r Hr. rewrite Nat.mul_1_l. split; [apply (P r (repeat 0 (count r)) Hr), repeat_length|apply (tp_numbering _ _ S r Hr)].
      + rewrite Nat.mul_1_l. apply (W (repeat 0 count')). apply repeat_length.
      + now rewrite Nat.mul_1_l.
      + intros v Hv. rewrite Nat.mul_1_l in Hv. destruct (W v Hv) as (_ & _ & ->). rewrite <- (poisson_form_split kd in_p p u v S H'). rewrite Eb. apply lsum_ext. intros r Hr. apply (P r _ Hr). now rewrite piece_length, Nat.mul_1_l.
    - intros w v. unfold bilinear at 2. rewrite XM, <- (poisson_form_split kd in_p p w v S H'), Eb. apply lsum_ext. intros r Hr. apply (PM r Hr).
  Qed.
End Tie.
Print Assumptions C108_tie_residual.
Print Assumptions C108_tie_matrix.
Print Assumptions C108_tie_heat.

(** ** Contact *)
Section Contact.
  Context {process G : Type} (processes : list process) (num_pairs : nat) (kd : kernel_data) (object : process -> contact_object G) (whole : contact_object G).
  Context (count : process -> nat) (node : process -> nat -> nat) (count' : nat) (facet : process -> nat -> nat -> nat).
  Notation state o := (contact_after (co_pd o) num_pairs (co_surfaces o) (co_basis o) (co_rows o) (co_move o) (co_detect o) (co_gap o) (co_normals o) (co_param o) (co_h o) (co_geometry o) (co_calls o)).
  Notation updated o u := (contact_updated (co_pd o) num_pairs (co_surfaces o) (co_basis o) (co_rows o) u (state o)).
  Notation pairs o := (pair_at (co_pd o) (co_surfaces o) (co_basis o) (cp_geom (state o)) (cp_map (state o))).
  Notation strided o := (with_strides kd (contact_kernel_strides (pd_nq (co_pd o)) (pd_functions (co_pd o)) (pd_gdim (co_pd o)) (pd_gdim (co_pd o)) (pd_nq (co_pd o)))).
  Notation row o u i e := (slice (concat (nth i (cp_coeffs (updated o u)) [])) (e * stride (co_pd o)) (stride (co_pd o))).
  Notation penalty o := (nth 0 (constants_of (state o)) 0).
  Notation theta o := (nth 1 (constants_of (state o)) 0).
  Notation bs := (kd_bs kd).

  (** An object ready to assemble. *)
  Record contact_setting (o : contact_object G) : Prop := {
    cs_no_crop : Forall no_crop (co_calls o); cs_ready : cp_ready (state o) = true; cs_rows : forall i, (num_local (co_surfaces o) i <= co_rows o i)%nat;
    cs_tie : tie_setting (co_pd o) kd num_pairs (pairs o) (pd_nq (co_pd o)); cs_vector : pd_bs (co_pd o) = pd_gdim (co_pd o); cs_penalty : 0 < penalty o;
    cs_data : forall i e, (i < num_pairs)%nat -> (e < num_local (co_surfaces o) i)%nat -> 0 <= stored_friction (co_pd o) (state o) i e /\ 0 < stored_h (co_pd o) (state o) i e }.
  (** The object of a process stores for facet [e] what the whole object stores for [e']. *)
  Record same_stored (o : contact_object G) (i e e' : nat) : Prop := {
    ss_mu : stored_mu (co_pd o) (state o) i e = stored_mu (co_pd whole) (state whole) i e'; ss_lambda : stored_lambda (co_pd o) (state o) i e = stored_lambda (co_pd whole) (state whole) i e';
    ss_friction : stored_friction (co_pd o) (state o) i e = stored_friction (co_pd whole) (state whole) i e'; ss_h : stored_h (co_pd o) (state o) i e = stored_h (co_pd whole) (state whole) i e';
    ss_normal : forall q a, In q (points_of (pr_asm (pairs o i)) e) -> (a < pd_gdim (co_pd o))%nat -> stored_normal (co_pd o) (state o) i e q a = stored_normal (co_pd whole) (state whole) i e' q a;
    ss_old_normal : forall q a, In q (points_of (pr_asm (pairs o i)) e) -> (a < pd_gdim (co_pd o))%nat -> stored_old_normal (co_pd o) (state o) i e q a = stored_old_normal (co_pd whole) (state whole) i e' q a;
    ss_gap : forall q, In q (points_of (pr_asm (pairs o i)) e) -> stored_gap (co_pd o) (state o) i e q = stored_gap (co_pd whole) (state whole) i e' q;
    ss_gradient : forall q a b, In q (points_of (pr_asm (pairs o i)) e) -> (a < pd_gdim (co_pd o))%nat -> (b < pd_gdim (co_pd o))%nat ->
      stored_gradient (co_pd o) (state o) i e q a b = stored_gradient (co_pd whole) (state whole) i e' q a b }.
  Record contact_split : Prop := {
    xp_facets : split_facets processes num_pairs (fun r => pairs (object r)) (pairs whole) facet;
    xp_numbering : forall r, In r processes -> numbering (count r) (node r) count';
    xp_setting : contact_setting whole /\ forall r, In r processes -> contact_setting (object r);
    xp_constants : forall r, In r processes -> penalty (object r) = penalty whole /\ theta (object r) = theta whole;
    xp_same : forall r i e, In r processes -> (i < num_pairs)%nat -> (e < a_local (pr_asm (pairs (object r) i)))%nat ->
      same_facet (co_pd (object r)) (co_pd whole) (pairs (object r) i) (pairs whole i) (node r) (count r) e (facet r i e) /\ same_stored (object r) i e (facet r i e) }.

  Lemma contact_form_split law u v : contact_split ->
    lsum processes (fun r => contact_form (co_pd (object r)) kd num_pairs (pairs (object r)) law (penalty (object r)) (theta (object r)) (state (object r)) (piece bs (count r) (node r) u) (piece bs (count r) (node r) v)) =
    contact_form (co_pd whole) kd num_pairs (pairs whole) law (penalty whole) (theta whole) (state whole) u v.
  Proof.
    intros S. destruct (xp_setting S) as [CS' CSr]. unfold contact_form. apply (over_interface_split processes num_pairs (fun r => pairs (object r)) (pairs whole) facet _ _ (xp_facets S)).
    intros r i e Hr Hi He. destruct (xp_same S r i e Hr Hi He) as (SF & SS). split; [apply (sf_points _ _ _ _ _ _ _ _ SF)|]. intros q Hq. destruct (xp_constants S r Hr) as [-> ->].
    pose proof (cs_tie _ (CSr r Hr)) as TS. pose proof (cs_tie _ CS') as TS'.
    destruct (tables_agree _ _ kd num_pairs _ _ _ _ TS TS' (node r) (count r) i e (facet r i e) Hi SF) as (G0 & N & Q & B & B').
    assert (Eb : bs = pd_gdim (co_pd (object r))) by (rewrite <- B; apply (cs_vector _ (CSr r Hr))).
    rewrite (piece_weight _ _ kd num_pairs _ _ _ _ TS TS' (node r) (count r) i e (facet r i e) Hi SF). f_equal. cbv zeta.
    rewrite (piece_normal _ _ kd num_pairs _ _ _ _ TS TS' (node r) (count r) i e (facet r i e) Hi SF), (ss_mu _ _ _ _ SS), (ss_lambda _ _ _ _ SS), <- G0.
    assert (J : forall w a, (a < pd_gdim (co_pd (object r)))%nat -> interface_jump (co_pd (object r)) (pairs (object r) i) e q (piece bs (count r) (node r) w) a = interface_jump (co_pd whole) (pairs whole i) (facet r i e) q w a).
    { intros w a Ha. apply (piece_jump _ _ kd num_pairs _ _ _ _ TS TS' (node r) (count r) i e (facet r i e) Hi SF); [exact Hq|now rewrite Eb]. }
    assert (D : forall w a b, (a < pd_gdim (co_pd (object r)))%nat -> (b < pd_gdim (co_pd (object r)))%nat -> gradient_own (co_pd (object r)) (pairs (object r) i) e q (piece bs (count r) (node r) w) a b = gradient_own (co_pd whole) (pairs whole i) (facet r i e) q w a b).
    { intros w a b Ha Hb. apply (piece_gradient_own _ _ kd num_pairs _ _ _ _ TS TS' (node r) (count r) i e (facet r i e) Hi SF); [now rewrite Eb|exact Hb]. }
    apply functional_ext.
    - intros a Ha. now apply (ss_normal _ _ _ _ SS).
    - intros a Ha. now apply (ss_old_normal _ _ _ _ SS).
    - now apply (ss_gap _ _ _ _ SS).
    - apply (ss_friction _ _ _ _ SS).
    - now rewrite (ss_h _ _ _ _ SS).
    - intros a Ha. now apply J.
    - intros a Ha. apply traction_ext; auto. intros x y Hx Hy. rewrite D by auto. f_equal. now apply (ss_gradient _ _ _ _ SS).
    - intros a Ha. now apply J.
    - intros a Ha. apply traction_ext; auto.
  Qed.

  (** ** C108, contact *)
  Notation contact_residual o kernels u n := (contact_vector (co_pd o) num_pairs (co_surfaces o) (co_basis o) kernels (updated o u) (repeat 0 n)).
  Notation contact_jacobian o kernels u := (contact_matrix (co_pd o) num_pairs (co_surfaces o) (co_basis o) kernels (updated o u)).
  Lemma residual_form o law kernels n u v : contact_setting o -> generated (strided o) (vector_kinds law) kernels -> length v = n ->
    length (contact_residual o kernels u n) = n /\ applied (contact_residual o kernels u n) v = contact_form (co_pd o) kd num_pairs (pairs o) law (penalty o) (theta o) (state o) u v.
  Proof.
    intros CS HK Hv. split.
    - rewrite <- (repeat_length 0 n) at 2.
      apply (contact_vector_length (co_pd o) kd num_pairs (co_surfaces o) (co_basis o) (co_rows o) (co_move o) (co_detect o) (co_gap o) (co_normals o) (co_param o) (co_h o) law (co_geometry o) (co_calls o) u (repeat 0 n) kernels (cs_ready _ CS) (cs_tie _ CS) HK).
    - rewrite (C107_residual_is_functional (co_pd o) kd num_pairs (co_surfaces o) (co_basis o) (co_rows o) (co_move o) (co_detect o) (co_gap o) (co_normals o) (co_param o) (co_h o) law (co_geometry o) (co_calls o) u v (repeat 0 n) kernels
        (cs_no_crop _ CS) (cs_ready _ CS) (cs_rows _ CS) (cs_tie _ CS) (cs_vector _ CS) ltac:(now rewrite repeat_length) HK (cs_penalty _ CS) (cs_data _ CS)).
      replace (applied (repeat 0 n) v) with 0; [apply Rplus_0_l|]. symmetry. apply rsum_zero. intros d _. rewrite nth_repeat. ring.
  Qed.
  Lemma tested_split law kernels (local : process -> list kernel_fn) u v : contact_split -> length v = (bs * count')%nat ->
    generated (strided whole) (vector_kinds law) kernels -> (forall r, In r processes -> generated (strided (object r)) (vector_kinds law) (local r)) ->
    lsum processes (fun r => applied (contact_residual (object r) (local r) (piece bs (count r) (node r) u) (bs * count r)) (piece bs (count r) (node r) v)) = applied (contact_residual whole kernels u (bs * count')) v.
  Proof.
    intros S Hv HK HL. destruct (xp_setting S) as [CS' CSr]. destruct (residual_form whole law kernels (bs * count') u v CS' HK Hv) as [_ ->]. rewrite <- (contact_form_split law u v S).
    apply lsum_ext. intros r Hr. apply (residual_form (object r) law (local r) (bs * count r) _ _ (CSr r Hr) (HL r Hr)). apply piece_length.
  Qed.

  (** The contributions of all processes to an entry of the contact residual add up to the
      entry that one process with the whole mesh computes. *)
  Theorem C108_contact_residual :
    forall (law : friction_law) (kernels : list kernel_fn) (local : process -> list kernel_fn) (u : list R) (D : nat),
      contact_split -> generated (strided whole) (vector_kinds law) kernels -> (forall r, In r processes -> generated (strided (object r)) (vector_kinds law) (local r)) ->
      (D < bs * count')%nat ->
      gathered processes bs node (fun r => contact_residual (object r) (local r) (piece bs (count r) (node r) u) (bs * count r)) D = nth D (contact_residual whole kernels u (bs * count')) 0.
  Proof.
    intros law kernels local u D S HK HL HD. destruct (xp_setting S) as [CS' CSr]. apply (gathered_equal processes bs node count _ _ count' D); auto.
    - intros r Hr. split; [|apply (xp_numbering S r Hr)]. apply (residual_form (object r) law (local r) (bs * count r) _ (repeat 0 (bs * count r)) (CSr r Hr) (HL r Hr)). apply repeat_length.
    - apply (residual_form whole law kernels (bs * count') u (repeat 0 (bs * count')) CS' HK). apply repeat_length.
    - intros v Hv. now apply (tested_split law).
  Qed.

  (** Where the residual is differentiable at every point, the same holds for the matrix. *)
  Notation smooth law o u := (forall i e q, (i < num_pairs)%nat -> let asm := pr_asm (pairs o i) in (e < a_local asm)%nat -> In q (points_of asm e) ->
    off_kinks law (strided o) (coordinates_of asm (nth (2 * e) (a_active asm) 0%nat)) (nth (2 * e + 1) (a_active asm) 0%nat) (row o u i e) (constants_of (state o)) q).
  Theorem C108_contact_matrix :
    forall (law : friction_law) (kernels matrix_kernels : list kernel_fn) (local local_matrix : process -> list kernel_fn) (u w v : list R),
      contact_split -> generated (strided whole) (vector_kinds law) kernels -> (forall r, In r processes -> generated (strided (object r)) (vector_kinds law) (local r)) ->
      generated (strided whole) (matrix_kinds law) matrix_kernels -> (forall r, In r processes -> generated (strided (object r)) (matrix_kinds law) (local_matrix r)) ->
      length w = length u -> length v = (bs * count')%nat ->
      smooth law whole u -> (forall r, In r processes -> smooth law (object r) (piece bs (count r) (node r) u)) ->
      lsum processes (fun r => bilinear bs (contact_jacobian (object r) (local_matrix r) (piece bs (count r) (node r) u)) (piece bs (count r) (node r) w) (piece bs (count r) (node r) v)) =
      bilinear bs (contact_jacobian whole matrix_kernels u) w v.
  Proof.
    intros law kernels mks local lmks u w v S HK HL HM HLM Hw Hv KS KL. destruct (xp_setting S) as [CS' CSr].
    assert (DV : forall o vks ms n x y z, contact_setting o -> generated (strided o) (vector_kinds law) vks -> generated (strided o) (matrix_kinds law) ms -> length y = length x -> length z = n -> smooth law o x ->
      derivable_pt_lim (fun t => applied (contact_residual o vks (moved x y t) n) z) 0 (bilinear bs (contact_jacobian o ms x) y z)).
    { intros o vks ms n x y z CS V M Ly Lz K.
      assert (Eb : bs = pd_gdim (co_pd o)) by (rewrite <- (cs_vector _ CS); apply (st_bs _ _ (ts_tables _ _ _ _ _ (cs_tie _ CS)))).
      apply (derivable_pt_lim_ext (fun t => rsum n (fun d => nth d z 0 * nth d (contact_residual o vks (moved x y t) n) 0))).
      - intros t. unfold applied. destruct (residual_form o law vks n (moved x y t) z CS V Lz) as [-> _]. apply rsum_ext. intros d _. ring.
      - unfold bilinear. rewrite Lz. replace (rsum n (fun d => matrix_times bs (contact_jacobian o ms x) y d * nth d z 0)) with (rsum n (fun d => nth d z 0 * matrix_times bs (contact_jacobian o ms x) y d)) by (apply rsum_ext; intros; ring).
        apply (derivable_rsum n (fun d t => nth d z 0 * nth d (contact_residual o vks (moved x y t) n) 0)). intros d Hd. apply derivable_scaled. rewrite Eb.
        apply (C78_matrix_is_derivative (co_pd o) kd num_pairs (co_surfaces o) (co_basis o) (co_rows o) (co_move o) (co_detect o) (co_gap o) (co_normals o) (co_param o) (co_h o) law (co_geometry o) (co_calls o) x y (repeat 0 n) vks ms d
          (cs_no_crop _ CS) (cs_ready _ CS) (cs_rows _ CS) (cs_tie _ CS) (cs_vector _ CS) Ly V M K). now rewrite repeat_length. }
    apply (uniqueness_limite (fun t => applied (contact_residual whole kernels (moved u w t) (bs * count')) v) 0).
    - apply (derivable_pt_lim_ext (fun t => lsum processes (fun r => applied (contact_residual (object r) (local r) (moved (piece bs (count r) (node r) u) (piece bs (count r) (node r) w) t) (bs * count r)) (piece bs (count r) (node r) v)))).
      + intros t. rewrite <- (tested_split law kernels local (moved u w t) v S Hv HK HL). apply lsum_ext. intros r Hr. now rewrite piece_moved.
      + apply (derivable_lsum processes (fun r t => applied (contact_residual (object r) (local r) (moved (piece bs (count r) (node r) u) (piece bs (count r) (node r) w) t) (bs * count r)) (piece bs (count r) (node r) v))). intros r Hr. exact (DV (object r) (local r) (lmks r) (bs * count r)%nat _ _ _ (CSr r Hr) (HL r Hr) (HLM r Hr) (eq_trans (piece_length _ _ _ _) (eq_sym (piece_length _ _ _ _))) (piece_length _ _ _ _) (KL r Hr)).
    - exact (DV whole kernels mks (bs * count')%nat u w v CS' HK HM Hw Hv KS).
  Qed.
End Contact.
Print Assumptions C108_contact_residual.
Print Assumptions C108_contact_matrix.
