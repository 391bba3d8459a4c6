(** C122: a triangle over the plane y = -1/2, with a second facet that belongs to another
    process. *)
From Coq Require Import List Arith ZArith Lia Bool Reals Lra.
Import ListNotations.
From Verif Require Import Prelude PreludeLemmas RSum RealLemmas EntitiesModel PackingModel AssemblyModel AssemblyProofs RayModel KernelModel KernelSpec RigidKernelModel RigidKernelProps OneSidedModel OneSidedProps
  CoefficientsModel CoefficientsProps SystemSpec TieSystemModel TieSystemProofs TieSystemExamples ContactSystemSpec SystemWeakProps FixedPointProofs PackUProps OneSidedSystemModel OneSidedSystemProps.
Local Open Scope R_scope.

Definition plane_asm : assembly := {| a_max_links := 0; a_ndofs := 3; a_bs := 2; a_gdim := 2; a_num_dofs_g := 3; a_x_dofmap := tri_cells; a_x := tri_x; a_dofs := tri_cells;
  a_active := [0; 2; 1; 0]%nat; a_local := 1; a_map := fun _ => []; a_facet_map := mkAdj [] [0%nat]; a_parent := [] |}.
Definition plane_kd : kernel_data := with_strides (tri_kd true) [1; 1; 1; 2; 2; 4; 2]%nat.
Definition plane_rhs : kernel_fn := rigid_rhs plane_kd no_geometry true.
Definition plane_jac : kernel_fn := rigid_jac plane_kd no_geometry true.
(** Bulk with unit stiffness and a load of one on every dof. *)
Definition plane_bulk (v : list R) : list R := map (fun x => x - 1) v.
Definition plane_matrix : list insertion := map (fun d => ([d], [d], [1; 0; 0; 1])) (seq 0 6).
Notation plane_F := (fun x => assemble_residual (tri_pd true) plane_asm 1 1 (1/2) 2 1 (-1) [1] [1/2; 0] plane_rhs plane_bulk x x).
Notation plane_M := (assemble_jacobian (tri_pd true) plane_asm 1 1 (1/2) 2 1 (-1) [1] [1/2; 0] plane_jac plane_matrix).

Lemma plane_setting : driver_setting (tri_pd true) plane_kd plane_asm.
Proof.
  pose proof (tri_setting true) as TS. constructor; try reflexivity; try (cbn; lia).
  - apply (ts_space _ _ _ _ _ TS).
  - apply (ts_affine _ _ _ _ _ TS).
  - destruct (ts_tables _ _ _ _ _ TS). constructor; assumption.
  - intros f. unfold rigid_layout, num_points. cbn. replace (f + 1 - f)%nat with 1%nat by lia. reflexivity.
  - intros c. cbn. unfold tri_cells. now destruct (c =? 0)%nat.
  - exists [(0, 2); (1, 0)]%nat. split; [reflexivity|cbn; lia].
Qed.
Lemma plane_weight e q : (e < 1)%nat -> (q < 1)%nat -> facet_weight plane_kd plane_asm e q = 1.
Proof.
  intros He Hq. assert (e = 0)%nat as -> by lia. assert (q = 0)%nat as -> by lia.
  cbv -[IZR Rdiv Rminus Rinv Rmult Rplus Ropp sqrt Rabs]. match goal with |- context[sqrt ?x] => replace x with 1 by (simpl; field) end. rewrite sqrt_1, Rabs_R1. ring.
Qed.
Lemma plane_bulk_length v : length (plane_bulk v) = length v.
Proof. apply map_length. Qed.
Lemma plane_bulk_nth v d : (d < length v)%nat -> nth d (plane_bulk v) 0 = nth d v 0 - 1.
Proof. intros H. unfold plane_bulk. now rewrite (nth_map_lt _ v d 0 0) by exact H. Qed.

(** Exactly one equilibrium. *)
Example C122_nonvacuous : exists u, length u = 12%nat /\ plane_F u = repeat 0 12 /\ forall u', length u' = 12%nat -> plane_F u' = repeat 0 12 -> u' = u.
Proof.
  apply (C122_exactly_one_solution (tri_pd true) plane_kd plane_asm 1 1 (1/2) 2 1 (-1) [1] [1/2; 0] plane_rhs no_geometry plane_bulk plane_setting eq_refl eq_refl ltac:(lra)
    ltac:(intros e He; change (e < 1)%nat in He; assert (e = 0)%nat as -> by lia; cbn; lra) 12 1 1 plane_bulk_length); try lra.
  - intros e q He Hq. rewrite plane_weight by assumption. lra.
  - intros u w Lu Lw. replace ((1 + -1) * (1 + -1) / 4) with 0 by field. rewrite Rmult_0_l, Rplus_0_r, Rmult_1_l. right. unfold applied. rewrite !plane_bulk_length, moved_length, Lu, <- rsum_minus.
    apply rsum_ext. intros d Hd. rewrite !plane_bulk_nth by (rewrite ?moved_length; lia). rewrite nth_moved by congruence. ring.
  - intros u v Lu Lv. right. rewrite Rmult_1_l. apply rsum_ext. intros d Hd. rewrite !plane_bulk_nth by lia. ring.
Qed.

(** A body pushed down by 2 penetrates by 3/2: the plane pushes with gamma E / h = 2 times
    that, against a unit test function pointing up. *)
Definition plane_down : list R := [0; -2; 0; -2; 0; -2; 0; 0; 0; 0; 0; 0].
Definition plane_up : list R := [0; 1; 0; 1; 0; 1; 0; 0; 0; 0; 0; 0].
Ltac plain := cbv -[IZR Rdiv Rminus Rinv Rmult Rplus Ropp sqrt Rabs].
Lemma plane_fields v y : (forall j, (j < 3)%nat -> nth (2 * j) v 0 = 0 /\ nth (2 * j + 1) v 0 = y) -> normal_value (tri_pd true) plane_asm 0 0 v = - y /\ normal_stress (tri_pd true) plane_kd plane_asm 1 1 0 0 v = 0.
Proof.
  intros H.
  assert (D : forall j n, (j < 3)%nat -> (n < 2)%nat -> dof_value 2 (pd_dofs (tri_pd true) (facet_cell plane_asm 0)) v j n = if (n =? 0)%nat then 0 else y).
  { intros j n Hj Hn. unfold dof_value. replace (nth j (pd_dofs (tri_pd true) (facet_cell plane_asm 0)) 0%nat) with j by (destruct j as [|[|[|j]]]; [reflexivity..|lia]).
    destruct n as [|[|n]]; [rewrite Nat.add_0_r; apply H, Hj|apply H, Hj|lia]. }
  split.
  - unfold normal_value, along_plane. change (pd_gdim (tri_pd true)) with 2%nat. cbn [rsum].
    assert (X : fe_value (tri_pd true) plane_asm 0 0 v 1 = y).
    { unfold fe_value. change (pd_functions (tri_pd true)) with 3%nat. change (pd_bs (tri_pd true)) with 2%nat. cbn [rsum]. rewrite !D by lia. plain. field. }
    rewrite X. plain. ring.
  - unfold normal_stress, along_plane. change (pd_gdim (tri_pd true)) with 2%nat.
    assert (G : forall b c, (b < 2)%nat -> (c < 2)%nat -> fe_gradient (tri_pd true) plane_asm 0 0 v b c = 0).
    { intros b c Hb Hc. unfold fe_gradient. change (pd_functions (tri_pd true)) with 3%nat. change (pd_bs (tri_pd true)) with 2%nat. cbn [rsum]. rewrite !D by lia.
      destruct b as [|[|b]]; [cbn [Nat.eqb]; ring| |lia]. cbn [Nat.eqb].
      destruct c as [|[|c]]; [| |lia]; plain; field; apply Rgt_not_eq; lra. }
    apply rsum_zero. intros a Ha. rewrite <- (Rmult_0_l (plane_normal 2 a)). f_equal. apply rsum_zero. intros b Hb. rewrite <- (Rmult_0_l (facet_normal plane_kd plane_asm 0 0 b)). f_equal. unfold ElasticityProps.stress. cbn [rsum]. rewrite !G by lia. destruct (a =? b)%nat; ring.
Qed.
Example C122_pushes : applied (plane_F plane_down) plane_up = applied (plane_bulk plane_down) plane_up - 3.
Proof.
  destruct (C122_residual_is_form (tri_pd true) plane_kd plane_asm 1 1 (1/2) 2 1 (-1) [1] [1/2; 0] plane_rhs no_geometry plane_bulk plane_setting eq_refl eq_refl ltac:(lra)
    ltac:(intros e He; change (e < 1)%nat in He; assert (e = 0)%nat as -> by lia; cbn; lra) plane_down plane_up eq_refl (plane_bulk_length _)) as [_ X].
  cbv beta in X. rewrite X. unfold Rminus. f_equal. cbn [plane_asm a_local rsum tri_pd pd_nq]. fold plane_asm. rewrite plane_weight by lia.
  destruct (plane_fields plane_down (-2)) as [V S1]; [intros j Hj; destruct j as [|[|[|j]]]; [| | |lia]; split; reflexivity|].
  destruct (plane_fields plane_up 1) as [V' S']; [intros j Hj; destruct j as [|[|[|j]]]; [| | |lia]; split; reflexivity|].
unfold tri_pd in V, S1, V', S'. unfold tri_pd. rewrite V, S1, V', S'.
  unfold ufl_contact_residual, gamma_scaled, plane_gap. cbn [nth Nat.mul Nat.add Nat.sub pd_gdim].
  match goal with |- context[OpsModel.py_R_minus ?x] => replace x with (-3) by field end. unfold OpsModel.py_R_minus. rewrite Rabs_left by lra. lra.
Qed.
(** There the matrix is the derivative: no point is on the edge of contact. *)
Example C122_derivative_nonvacuous : forall d, (d < 12)%nat -> derivable_pt_lim (fun t => nth d (plane_F (moved plane_down plane_up t)) 0) 0 (matrix_times 2 (plane_M plane_down) plane_up d).
Proof.
  intros d Hd.
  apply (C122_matrix_is_derivative (tri_pd true) plane_kd plane_asm 1 1 (1/2) 2 1 (-1) [1] [1/2; 0] plane_rhs plane_jac no_geometry plane_bulk plane_matrix plane_setting eq_refl eq_refl eq_refl ltac:(lra)
    ltac:(intros e He; change (e < 1)%nat in He; assert (e = 0)%nat as -> by lia; cbn; lra) plane_down plane_up d eq_refl Hd).
  - intros e q He Hq. change (e < 1)%nat in He. change (q < 1)%nat in Hq. assert (e = 0)%nat as -> by lia. assert (q = 0)%nat as -> by lia.
    destruct (plane_fields plane_down (-2)) as [V S1]; [intros j Hj; destruct j as [|[|[|j]]]; [| | |lia]; split; reflexivity|]. rewrite V, S1.
    unfold gamma_scaled, plane_gap. cbn [nth Nat.mul Nat.add Nat.sub pd_gdim tri_pd pd_nq]. lra.
  - assert (Z : matrix_times 2 plane_matrix plane_up d = nth d plane_up 0).
    { do 12 (destruct d as [|d]; [cbn; ring|]). lia. }
    change (pd_bs (tri_pd true)) with 2%nat. rewrite Z. eapply derivable_ext; [intros t; rewrite plane_bulk_nth by (rewrite moved_length; exact Hd); rewrite nth_moved by reflexivity; reflexivity|].
    apply (derivable_ext _ (fun t => (nth d plane_down 0 - 1) + t * nth d plane_up 0)); [intros; ring|]. apply derivable_affine.
Qed.
