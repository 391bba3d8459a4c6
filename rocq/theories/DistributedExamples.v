(** C108: the two triangles on two processes.  Process [r] owns triangle [r] and sees the
    other one as a ghost; it numbers its own triangle, nodes and degrees of freedom first. *)
From Coq Require Import List Arith ZArith Lia Bool Reals Lra Permutation.
Import ListNotations.
From Verif Require Import Prelude PreludeLemmas RSum RealLemmas LayoutModel LayoutProps ContactProblemModel ContactProblemProps.
From Verif Require Import EntitiesModel PackingModel PackingProps PackUProps SubMeshProps AssemblyModel AssemblyProofs AssemblyProps RayModel KernelModel KernelProofs KernelSpec
  ElasticityProps ContactKernelModel ContactKernelSpec ContactKernelProps FrictionKernelProps CoefficientsModel CoefficientsProps SystemSpec
  MeshTieModel MeshTieProps MeshTieHistoryProps MeshTieKernelModel TieSystemModel TieSystemProofs TieSystemProps
  TieWeakProps ContactWeakProps ContactSystemModel ContactSystemSpec ContactSystemProofs ContactSystemProps TieSystemExamples ContactSystemExamples SystemWeakProps TieFormProps TieFormExamples
  ContactFormProps ContactFormExamples DistributedProofs DistributedProps.
Local Open Scope R_scope.

Definition part_cell (r i : nat) : nat := if (i =? r)%nat then 0%nat else 1%nat.
Definition part_node (r m : nat) : nat := ((m + 3 * r) mod 6)%nat.
Definition part_x (r : nat) : list R := if (r =? 0)%nat then tri_x else [1; 1; 0; 0; 1; 0; 1; 0; 0; 0; 0; 0; 1; 0; 0; 0; 1; 0].
Definition part_pd (r : nat) (vec : bool) : pack_data := {|
  pd_gdim := 2; pd_tdim := 2; pd_bs := if vec then 2 else 1; pd_vs := 1; pd_dofmap_bs := if vec then 2 else 1; pd_nq := 1; pd_q_offsets := fun f => f;
  pd_basis := fun d p m l => match d with O => tri_phi p m | S k => P1_dphi k m end;
  pd_functions := 3; pd_dofs := tri_cells; pd_affine := true; pd_nodes := 3; pd_x_dofmap := tri_cells; pd_x := part_x r; pd_dphi_c := fun k p a => P1_dphi k a;
  pd_inverse := inverse2; pd_determinant := det2; pd_transforms := false; pd_transform := fun _ b => b; pd_push_forward := fun _ _ _ b => b |}.
(** A process integrates over its own facet only. *)
Definition part_owned (r i : nat) : nat := if (i =? r)%nat then 1%nat else 0%nat.
Definition part_facets (r i : nat) : list Z := if (i =? r)%nat then [1%Z] else [].
Definition part_pair (r : nat) (vec : bool) (i : nat) : tie_pair := {|
  pr_asm := {| a_max_links := 1; a_ndofs := 3; a_bs := if vec then 2 else 1; a_gdim := 2; a_num_dofs_g := 3; a_x_dofmap := tri_cells; a_x := part_x r; a_dofs := tri_cells;
     a_active := [part_cell r i; 0]%nat; a_local := part_owned r i; a_map := fun _ => part_facets r i; a_facet_map := mkAdj [0; 0; 1; 0]%nat [0; 2; 4]%nat; a_parent := [0; 1]%nat |};
  pr_n_sub := 2; pr_nds := 6; pr_f_to_c := fun f => [f]; pr_dofs_sub := tri_cells; pr_facets := part_facets r i;
  pr_basis := fun _ j => tri_phi 0 j; pr_grad := fun c _ j b => (if (c =? r)%nat then 1 else -1) * P1_dphi b j |}.

Lemma part_pair_setting r vec i : (r < 2)%nat -> (i < 2)%nat -> pair_setting (part_pd r vec) 1 (part_pair r vec i).
Proof.
  intros Hr Hi. constructor; try reflexivity; cbn [part_pair part_pd pr_asm pr_facets a_map a_facet_map a_parent pr_f_to_c pr_dofs_sub a_dofs pr_n_sub pr_nds a_local a_active pd_functions pd_nodes pd_x_dofmap pd_nq pd_dofs].
  - cbn. lia.
  - intros c. unfold tri_cells. now destruct (c =? 0)%nat.
  - exists [(part_cell r i, 0%nat)]. split; [reflexivity|]. unfold part_owned. cbn. destruct (i =? r)%nat; lia.
  - intros e He. unfold part_owned in He. unfold part_facets. destruct (i =? r)%nat; [|lia]. assert (e = 0)%nat as -> by lia. reflexivity.
  - intros e He. unfold part_owned in He. unfold part_facets. destruct (i =? r)%nat; [|lia]. assert (e = 0)%nat as -> by lia. vm_compute; lia.
  - unfold part_owned. unfold part_facets. repeat split; try reflexivity.
    + destruct (i =? r)%nat; reflexivity.
    + intros c j c' j' Hc Hc' Hj Hj' E. change (c < 2)%nat in Hc. change (c' < 2)%nat in Hc'. destruct c as [|[|c]]; [| |lia]; destruct c' as [|[|c']]; try lia; cbn in *; exact E.
    + intros c j Hc Hj. change (c < 2)%nat in Hc. destruct c as [|[|c]]; [| |lia]; destruct j as [|[|[|j]]]; cbn in *; lia.
    + change (c < 2)%nat in H. destruct c as [|[|c]]; [| |lia]; reflexivity.
    + change (c < 2)%nat in H. destruct c as [|[|c]]; [| |lia]; reflexivity.
    + destruct (i =? r)%nat; repeat constructor.
    + destruct (i =? r)%nat; [destruct H as [<-|[]]; reflexivity|destruct H].
    + destruct (i =? r)%nat; [destruct H as [<-|[]]; vm_compute; lia|destruct H].
  - intros e He. unfold part_owned in He. unfold part_facets. destruct (i =? r)%nat; [|lia]. assert (e = 0)%nat as -> by lia. left. intros f [<-|[]]. lia.
Qed.
Lemma part_setting r vec : (r < 2)%nat -> tie_setting (part_pd r vec) (tri_kd vec) 2 (part_pair r vec) 1.
Proof.
  intros Hr. constructor; try reflexivity.
  - constructor; cbn; try (now right); destruct vec; try lia; intros c; unfold tri_cells; now destruct (c =? 0)%nat.
  - intros _ j p p' a. reflexivity.
  - constructor; try reflexivity.
    + intros f. unfold num_points. cbn. lia.
    + intros k p j. cbn [tri_kd part_pd kd_dphi pd_basis]. now rewrite Nat.add_comm.
    + intros J J' H k b _ _. apply inverse2_local. exact H.
  - intros i Hi. now apply part_pair_setting.
Qed.

(** Mesh tie. *)
Definition part_update (r : nat) : coefficients (F := field) :=
  {| c_mu := None; c_lambda := None; c_alpha := None; c_kdt := None; c_u := Some (true, piece 2 6 (part_node r) tri_u); c_T := Some (false, piece 1 6 (part_node r) tri_u) |}.
Definition part_history (r : nat) : list tie_call := [TGenerate Elasticity tri_material 2 1; TGenerate Poisson tri_material 3 1; TUpdate Poisson (part_update r); TUpdate Elasticity (part_update r)].
Definition part_tie (r : nat) : tie_object := {| to_pd := part_pd r; to_pair := part_pair r; to_num_facets := part_owned r; to_ml := 1; to_h := fun _ => [1]; to_coeff0 := fun _ _ => ([1], 1%nat); to_calls := part_history r |}.
Definition whole_tie : tie_object := {| to_pd := tri_pd; to_pair := tri_pair; to_num_facets := fun _ => 1%nat; to_ml := 1; to_h := fun _ => [1]; to_coeff0 := fun _ _ => ([1], 1%nat); to_calls := tri_history |}.

Lemma part_process r : In r [0; 1]%nat -> (r < 2)%nat.
Proof. cbn. lia. Qed.
Lemma part_same r i e : (r < 2)%nat -> (i < 2)%nat -> (e < part_owned r i)%nat -> e = 0%nat /\ i = r.
Proof. intros Hr Hi He. unfold part_owned in He. destruct (Nat.eqb_spec i r); [|lia]. split; [lia|auto]. Qed.
Lemma part_same_facet r vec : (r < 2)%nat -> same_facet (part_pd r vec) (tri_pd vec) (part_pair r vec r) (tri_pair vec r) (part_node r) 6 0 0 /\
  same_tied_gradients (part_pd r vec) (tri_pd vec) (part_pair r vec r) (tri_pair vec r) 0 0.
Proof.
  intros Hr. destruct r as [|[|r]]; [| |lia]; split.
  1, 3: constructor; try (destruct vec; reflexivity); intros; repeat match goal with
    | H : (?j < pd_functions _)%nat |- _ => change (j < 3)%nat in H
    | H : In ?q _ |- _ => destruct vec; cbn in H; destruct H as [<-|[]]
    end; destruct j as [|[|[|j]]]; try lia; first [reflexivity | split; [apply Nat.ltb_lt; reflexivity|reflexivity]].
  all: intros q j b Hq Hj Hb; destruct vec; cbn in Hq; destruct Hq as [<-|[]]; reflexivity.
Qed.
Lemma part_facets_split vec : split_facets [0; 1]%nat 2 (fun r => to_pair (part_tie r) vec) (to_pair whole_tie vec) (fun _ _ e => e).
Proof. intros i Hi. destruct i as [|[|i]]; [| |lia]; apply Permutation_refl. Qed.
Lemma part_numbering r : numbering 6 (part_node r) 6.
Proof. intros m Hm. unfold part_node. apply Nat.mod_upper_bound. lia. Qed.
Lemma part_object r vec : (r < 2)%nat -> object_setting (to_pd (part_tie r)) 2 (to_pair (part_tie r)) (to_num_facets (part_tie r)) 1 3 2 (to_ml (part_tie r)) (to_coeff0 (part_tie r)) vec (tri_kd vec).
Proof. intros Hr. constructor; try reflexivity; [constructor; reflexivity | now apply part_setting]. Qed.
Lemma part_tie_split vec : tie_split [0; 1]%nat 2 1 3 2 part_tie whole_tie (fun _ => 6%nat) part_node 6 (fun _ _ e => e) vec (tri_kd vec).
Proof.
  constructor.
  - apply part_facets_split.
  - intros r _. apply part_numbering.
  - split; [exact (tri_object vec)|]. intros r Hr. apply part_object. now apply part_process.
  - intros r i e Hr Hi He. pose proof (part_process r Hr) as Hr'. destruct (part_same r i e Hr' Hi He) as [-> ->]. destruct (part_same_facet r vec Hr'). auto.
Qed.
Lemma part_fields r : Forall fields_given (part_history r).
Proof. repeat (apply Forall_cons || apply Forall_nil); split; intros f E; cbn in E; first [discriminate | injection E as <-; reflexivity]. Qed.

Example C108_tie_nonvacuous :
  let thermo st := meshtie_thermo_elastic (with_strides (tri_kd true) st) no_geometry in
  let rhs st := meshtie_rhs (with_strides (tri_kd true) st) no_geometry in
  let jac st := meshtie_jac (with_strides (tri_kd true) st) no_geometry in
  exists (res : list R) (local : nat -> list R) (M : list insertion) (local_M : nat -> list insertion),
    tie_vector (fun i => pr_asm (tri_pair true i)) 2 rhs thermo rhs Elasticity (tri_after tri_history) (repeat 0 12) = Some res /\
    tie_matrix (fun i => pr_asm (tri_pair true i)) 2 jac jac Elasticity (tri_after tri_history) = Some M /\
    (forall D, (D < 12)%nat -> gathered [0; 1]%nat 2 part_node local D = nth D res 0) /\
    (forall w v, lsum [0; 1]%nat (fun r => bilinear 2 (local_M r) (piece 2 6 (part_node r) w) (piece 2 6 (part_node r) v)) = bilinear 2 M w v).
Proof.
  intros thermo rhs jac.
  set (input r := {| e_mu := (false, [1]); e_lambda := (false, [2]); e_gamma := 2; e_theta := 1; e_u := Some (true, piece 2 6 (part_node r) tri_u) |} : elastic_input (F := field)).
  set (p := {| e_mu := (false, [1]); e_lambda := (false, [2]); e_gamma := 2; e_theta := 1; e_u := Some (true, tri_u) |} : elastic_input (F := field)).
  assert (HK : elastic_kernels (tri_kd true) rhs thermo jac) by (intros st; repeat split; exists no_geometry; reflexivity).
  assert (HT : Forall (fun k => call_type k <> ThermoElasticity) tri_history) by (repeat (apply Forall_cons || apply Forall_nil); discriminate).
  assert (HC : forall r, In r [0; 1]%nat -> Forall fields_given (part_history r) /\ Forall (fun k => call_type k <> ThermoElasticity) (part_history r) /\ fold_left elastic_step (part_history r) None = Some (input r)).
  { intros r _. split; [apply part_fields|]. split; [|reflexivity]. repeat (apply Forall_cons || apply Forall_nil); discriminate. }
  destruct (C108_tie_residual [0; 1]%nat 2 1 3 2 part_tie whole_tie (fun _ => 6%nat) part_node 6 (fun _ _ e => e) (tri_kd true) rhs thermo rhs jac input p tri_u (part_tie_split true) HK HC tri_fields HT eq_refl eq_refl) as (res & local & R1 & _ & R3).
  { intros r Hr. repeat split; intros i e; reflexivity. }
  destruct (C108_tie_matrix [0; 1]%nat 2 1 3 2 part_tie whole_tie (fun _ => 6%nat) part_node 6 (fun _ _ e => e) (tri_kd true) rhs thermo jac jac input p (part_tie_split true) HK HC tri_fields HT eq_refl) as (M & local_M & M1 & _ & M3).
  { intros r Hr. repeat split; intros i e; reflexivity. }
  exists res, local, M, local_M. split; [exact R1|]. split; [exact M1|]. split; [exact R3|exact M3].
Qed.
Example C108_heat_nonvacuous :
  let rhs st := poisson_rhs (with_strides (tri_kd false) st) no_geometry in
  let jac st := poisson_jac (with_strides (tri_kd false) st) no_geometry in
  exists (res : list R) (local : nat -> list R),
    tie_vector (fun i => pr_asm (tri_pair false i)) 2 rhs rhs rhs Poisson (tri_after tri_history) (repeat 0 6) = Some res /\
    forall D, (D < 6)%nat -> gathered [0; 1]%nat 1 part_node local D = nth D res 0.
Proof.
  intros rhs jac.
  destruct (C108_tie_heat [0; 1]%nat 2 1 3 2 part_tie whole_tie (fun _ => 6%nat) part_node 6 (fun _ _ e => e) (tri_kd false) rhs rhs rhs jac jac
    (fun r => {| p_kdt := (false, [3]); p_gamma := 3; p_theta := 1; p_T := Some (false, piece 1 6 (part_node r) tri_u) |}) {| p_kdt := (false, [3]); p_gamma := 3; p_theta := 1; p_T := Some (false, tri_u) |} tri_u (part_tie_split false))
    as (res & local & M & local_M & R1 & _ & _ & R2 & _); try reflexivity.
  - intros st. split; exists no_geometry; reflexivity.
  - intros r _. split; [apply part_fields|reflexivity].
  - exact tri_fields.
  - intros r Hr. repeat split; intros i e; reflexivity.
  - exists res, local. now split.
Qed.

(** Contact. *)
Definition part_calls (r : nat) : list (@call (list R) (nat -> list Z)) := [CallGenerate two_dict 1 0; CallDetection (piece 2 6 (part_node r) (repeat 0 12)); CallNitsche 2 (-1)].
Definition part_contact (r : nat) : contact_object unit := {| co_pd := part_pd r true; co_surfaces := part_pair r true; co_basis := two_basis; co_rows := part_owned r; co_move := fun g _ => g;
  co_detect := fun _ i => part_facets r i; co_gap := fun i _ _ => if (i =? r)%nat then [[- two_axis i * (1/2); 0]] else []; co_normals := fun i _ _ => if (i =? r)%nat then [[two_axis i; 0]] else [];
  co_param := fun i f => if (i =? r)%nat then [f] else []; co_h := fun i => if (i =? r)%nat then [[1]] else []; co_geometry := tt; co_calls := part_calls r |}.
Definition whole_contact : contact_object unit := {| co_pd := tri_pd true; co_surfaces := tri_pair true; co_basis := two_basis; co_rows := fun _ => 1%nat; co_move := fun g _ => g; co_detect := two_detect;
  co_gap := fun i _ _ => [[- two_axis i * (1/2); 0]]; co_normals := fun i _ _ => [[two_axis i; 0]]; co_param := fun _ f => [f]; co_h := fun _ => [[1]]; co_geometry := tt; co_calls := two_calls |}.
Notation state_of o := (contact_after (co_pd o) 2 (co_surfaces o) (co_basis o) (co_rows o) (co_move o) (co_detect o) (co_gap o) (co_normals o) (co_param o) (co_h o) (co_geometry o) (co_calls o)).
Notation pairs_of o := (pair_at (co_pd o) (co_surfaces o) (co_basis o) (cp_geom (state_of o)) (cp_map (state_of o))).

Lemma part_tie_setting r : (r < 2)%nat -> tie_setting (part_pd r true) (tri_kd true) 2 (pairs_of (part_contact r)) 1.
Proof.
  intros Hr. destruct (part_setting r true Hr) as [A B C D E F P]. constructor; auto. intros i Hi. destruct (P i Hi) as [P1 P2 P3 P4 P5 P6 P7 P8 P9 P10 P11 P12 P13 P14 P15].
  destruct r as [|[|r]]; [| |lia]; (destruct i as [|[|i]]; [| |lia]); constructor; auto.
Qed.
Lemma part_contact_setting r : (r < 2)%nat -> contact_setting 2 (tri_kd true) (part_contact r).
Proof.
  intros Hr. constructor.
  - repeat constructor.
  - destruct r as [|[|r]]; [| |lia]; reflexivity.
  - intros i. apply Nat.le_refl.
  - now apply part_tie_setting.
  - reflexivity.
  - destruct r as [|[|r]]; [| |lia]; (change (0 < 2); lra).
  - intros i e Hi He. destruct (part_same r i e Hr Hi He) as [-> ->]. destruct r as [|[|r]]; [| |lia]; split; numbers; lra.
Qed.
Lemma whole_contact_setting : contact_setting 2 (tri_kd true) whole_contact.
Proof.
  constructor.
  - repeat constructor.
  - reflexivity.
  - intros i. apply Nat.le_refl.
  - exact two_setting.
  - reflexivity.
  - change (0 < 2). lra.
  - intros i e Hi He. apply (two_stored i e Hi He).
Qed.
Lemma part_contact_split : contact_split [0; 1]%nat 2 (tri_kd true) part_contact whole_contact (fun _ => 6%nat) part_node 6 (fun _ _ e => e).
Proof.
  constructor.
  - intros i Hi. destruct i as [|[|i]]; [| |lia]; apply Permutation_refl.
  - intros r _. apply part_numbering.
  - split; [exact whole_contact_setting|]. intros r Hr. apply part_contact_setting. now apply part_process.
  - intros r Hr. pose proof (part_process r Hr) as Hr'. destruct r as [|[|r]]; [| |lia]; (split; [transitivity 2|transitivity (-1)]); reflexivity.
  - intros r i e Hr Hi He. pose proof (part_process r Hr) as Hr'. destruct (part_same r i e Hr' Hi He) as [-> ->]. split.
    + clear He Hr Hi. destruct r as [|[|r]]; [| |lia]; constructor.
      1-3, 7-9: numbers; reflexivity.
      all: intros; repeat match goal with
      | H : (?j < pd_functions _)%nat |- _ => change (j < 3)%nat in H
      | H : In ?q _ |- _ => cbv in H; destruct H as [<-|[]]
      end; destruct j as [|[|[|j]]]; try lia; numbers; first [reflexivity | split; [lia|reflexivity]].
    + clear He Hr Hi. destruct r as [|[|r]]; [| |lia]; constructor; try (numbers; lra); intros q; [intros a Hq Ha|intros a Hq Ha|intros Hq|intros a b Hq Ha Hb|intros a Hq Ha|intros a Hq Ha|intros Hq|intros a b Hq Ha Hb];
        cbn in Hq; destruct Hq as [<-|[]]; try (change (a < 2)%nat in Ha; destruct a as [|[|a]]; [| |lia]); try (change (b < 2)%nat in Hb; destruct b as [|[|b]]; [| |lia]); numbers; lra.
Qed.
Example C108_contact_nonvacuous : forall law, exists kernels (local : nat -> list kernel_fn), generated two_kd (vector_kinds law) kernels /\
  forall D, (D < 12)%nat ->
    gathered [0; 1]%nat 2 part_node (fun r => contact_vector (part_pd r true) 2 (part_pair r true) two_basis (local r)
      (contact_updated (part_pd r true) 2 (part_pair r true) two_basis (part_owned r) (piece 2 6 (part_node r) two_u) (state_of (part_contact r))) (repeat 0 12)) D =
    nth D (contact_vector (tri_pd true) 2 (tri_pair true) two_basis kernels (two_updated two_u two_s) (repeat 0 12)) 0.
Proof.
  intros law. destruct (two_kernels law) as (kernels & HK). exists kernels, (fun _ => kernels). split; [exact HK|]. intros D HD.
  apply (C108_contact_residual [0; 1]%nat 2 (tri_kd true) part_contact whole_contact (fun _ => 6%nat) part_node 6 (fun _ _ e => e) law kernels (fun _ => kernels) two_u D part_contact_split HK); [|exact HD].
  intros r Hr. exact HK.
Qed.
Lemma part_rows r : (r < 2)%nat -> let o := part_contact r in
  slice (concat (nth r (cp_coeffs (contact_updated (co_pd o) 2 (co_surfaces o) (co_basis o) (co_rows o) (piece 2 6 (part_node r) two_u) (state_of o))) [])) (0 * stride (co_pd o)) (stride (co_pd o)) = two_row r.
Proof.
  intros Hr. destruct r as [|[|r]]; [| |lia]; [rewrite (proj1 two_rows)|rewrite (proj2 two_rows)]; numbers; repeat (apply f_equal2; [first [reflexivity | field; apply Rgt_not_eq; lra | lra]|]); reflexivity.
Qed.
Lemma part_smooth law r : (r < 2)%nat -> off_kinks law two_kd (coordinates_of (pr_asm (part_pair r true r)) 0) 0 (two_row r) [2; -1] 0.
Proof. intros Hr. pose proof (two_off law r Hr) as H. destruct r as [|[|r]]; [exact H|exact H|lia]. Qed.
Example C108_contact_matrix_nonvacuous : forall law, exists kernels (local : nat -> list kernel_fn), generated two_kd (matrix_kinds law) kernels /\
  forall w v, length w = 12%nat -> length v = 12%nat ->
    lsum [0; 1]%nat (fun r => bilinear 2 (contact_matrix (part_pd r true) 2 (part_pair r true) two_basis (local r)
      (contact_updated (part_pd r true) 2 (part_pair r true) two_basis (part_owned r) (piece 2 6 (part_node r) two_u) (state_of (part_contact r)))) (piece 2 6 (part_node r) w) (piece 2 6 (part_node r) v)) =
    bilinear 2 (contact_matrix (tri_pd true) 2 (tri_pair true) two_basis kernels (two_updated two_u two_s)) w v.
Proof.
  intros law.
  assert (X : exists mks, generated two_kd (matrix_kinds law) mks) by (destruct law; eexists; repeat (apply Forall2_cons || apply Forall2_nil); exists no_geometry; reflexivity).
  destruct X as (mks & HM). destruct (two_kernels law) as (kernels & HK). exists mks, (fun _ => mks). split; [exact HM|]. intros w v Hw Hv.
  apply (C108_contact_matrix [0; 1]%nat 2 (tri_kd true) part_contact whole_contact (fun _ => 6%nat) part_node 6 (fun _ _ e => e) law kernels mks (fun _ => kernels) (fun _ => mks) two_u w v part_contact_split); auto.
  - intros i e q Hi asm He Hq. change (e < 1)%nat in He. assert (e = 0)%nat as -> by lia.
    assert (q = 0)%nat as ->. { destruct i as [|[|i]]; [| |lia]; vm_compute in Hq; destruct Hq as [<-|[]]; reflexivity. }
    exact (two_off law i Hi).
  - intros r Hr i e q Hi asm He Hq. pose proof (part_process r Hr) as Hr'. destruct (part_same r i e Hr' Hi He) as [-> ->].
    assert (q = 0)%nat as ->. { clear He. destruct r as [|[|r]]; [| |lia]; vm_compute in Hq; destruct Hq as [<-|[]]; reflexivity. }
    pose proof (part_rows r Hr') as E. cbv zeta in E. change (kd_bs (tri_kd true)) with 2%nat. rewrite E. clear Hq He. pose proof (part_smooth law r Hr') as H. subst asm. destruct r as [|[|r]]; [exact H|exact H|lia].
Qed.
