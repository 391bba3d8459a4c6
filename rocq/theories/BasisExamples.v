(** The theorems of BasisProps apply to the linear basis functions on the triangles of
    the example mesh, and give the balance of C79 its gradient hypothesis. *)
From Coq Require Import List Arith ZArith Lia Bool Reals Lra.
Import ListNotations.
From Verif Require Import Prelude PreludeLemmas RSum RayModel KernelModel DistanceModel GapSpec DistanceProofs GapExamples BasisModel BasisSpec BasisProps.
Local Open Scope R_scope.

(** The linear Lagrange element: the same functions as the geometry. *)
Definition p1 : basis_element := {|
  be_functions := 3; be_vs := 1; be_bs := 1; be_sub_elements := 0;
  be_table := fun X d f _ => match d with O => m_phi facing X f | S j => m_dphi facing X j f end;
  be_transform := fun _ U => U; be_push_forward := fun _ _ _ U => U |}.

Lemma linear_tables m X a : linear_simplices m -> (a < m_nodes m)%nat -> has_gradient (m_tdim m) (fun Y => m_phi m Y a) X (fun d => m_dphi m X d a).
Proof.
  intros LS Ha curve v C0 CL CV. rewrite (ls_nodes m LS) in Ha. destruct a as [|a].
  - apply derivable_pt_lim_ext with (f := fun t => 1 - rsum (m_tdim m) (fun j => nth j (curve t) 0)); [intros t; symmetry; apply (ls_phi_0 m LS)|].
    replace (rsum (m_tdim m) (fun d => m_dphi m X d 0 * v d)) with (0 - rsum (m_tdim m) v).
    + apply (derivable_pt_lim_minus (fun _ => 1)); [apply derivable_pt_lim_const|]. now apply derivable_rsum.
    + rewrite (rsum_ext (m_tdim m) (fun d => m_dphi m X d 0 * v d) (fun d => - 1 * v d)) by (intros; rewrite (ls_dphi_0 m LS) by auto; reflexivity).
      rewrite rsum_scal. ring.
  - apply derivable_pt_lim_ext with (f := fun t => nth a (curve t) 0); [intros t; symmetry; apply (ls_phi_S m LS); lia|].
    replace (rsum (m_tdim m) (fun d => m_dphi m X d (S a) * v d)) with (v a); [apply CV; lia|].
    rewrite (rsum_single (m_tdim m) a); [rewrite (ls_dphi_S m LS), Nat.eqb_refl by lia; ring|lia|].
    intros d Hd N. rewrite (ls_dphi_S m LS) by lia. destruct (Nat.eqb_spec a d); [congruence|ring].
Qed.

Lemma p1_scalar : scalar_element p1.
Proof. constructor; try reflexivity. left. cbn [be_sub_elements p1]. lia. Qed.
Lemma p1_tables X : element_tables facing p1 X.
Proof.
  intros f Hf. cbn [be_functions p1] in Hf. unfold p1; cbn [be_table].
  pose proof (linear_tables facing X f facing_linear ltac:(rewrite (ls_nodes _ facing_linear); cbn; lia)) as H.
  intros curve v C0 CL CV. specialize (H curve v C0 CL CV). cbv beta in *.
  rewrite (rsum_ext _ _ (fun i => m_dphi facing X i f * v i)); [exact H|]. intros i _. replace (i + 1)%nat with (S i) by lia. reflexivity.
Qed.
Lemma p1_call : basis_call facing p1 [1/4; 1/2; 0; 0; 1/3; 1/3] [1; -1; 2]%Z (repeat 7 27) 1.
Proof. constructor; try reflexivity; try (cbn; lia); [apply p1_scalar|apply (ls_dims _ facing_linear)]. Qed.

(** All hypotheses of the gradient theorems hold for cell 1 at the first point. *)
Example C83_nonvacuous :
  exists out, evaluate_basis_functions facing p1 [1/4; 1/2; 0; 0; 1/3; 1/3] [1; -1; 2]%Z (repeat 7 27) 1 = Some out /\
    m_gdim facing = m_tdim facing /\ geometry_tables facing [1/4; 1/2] /\ element_tables facing p1 [1/4; 1/2] /\
    nonsingular facing (geometry_jacobian facing 1 [1/4; 1/2]) /\ nonsingular facing (geometry_jacobian facing 1 []) /\ linear_simplices facing /\
    (forall Y, length Y = 2%nat -> rsum 3 (fun f => be_table p1 Y 0 f 0) = 1).
Proof.
  destruct (C83_values _ _ _ _ _ _ p1_call) as (out & E & _). exists out. split; [exact E|].
  split; [reflexivity|]. split; [intros a Ha; apply linear_tables; [apply facing_linear|exact Ha]|].
  split; [apply p1_tables|].
  assert (N : forall X, nonsingular facing (geometry_jacobian facing 1 X)).
  { intros X. unfold nonsingular. cbn [facing m_gdim m_tdim Nat.eqb]. unfold det. cbn [Nat.eqb]. rewrite !(linear_jacobian facing facing_linear) by (cbn; lia).
    unfold node. cbn. lra. }
  split; [apply N|]. split; [apply N|]. split; [apply facing_linear|].
  intros Y _. unfold p1; cbn [be_table rsum]. rewrite (ls_phi_0 _ facing_linear), !(ls_phi_S _ facing_linear) by (cbn; lia). cbn [facing m_tdim rsum]. ring.
Qed.
