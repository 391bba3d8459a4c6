(** The gradients on the opposite surface, as evaluate_basis_functions returns them, meet
    the hypothesis of the balance theorems C79. *)
From Coq Require Import List Arith ZArith Lia Bool Reals Lra.
Import ListNotations.
From Verif Require Import Prelude PreludeLemmas RSum RayModel KernelModel CoefficientsModel DistanceModel GapSpec BasisModel BasisSpec BasisProps AssemblyModel TieSystemModel SystemBalanceProps.
Local Open Scope R_scope.

(** Contact.cpp:1462-1488: evaluate_basis_functions for the one point [X] and the cell
    [c], with one derivative; entry (b + 1, 0, f). *)
Definition contact_gradient (m : mesh_data) (e : basis_element) (X : list R) (c f b : nat) : R :=
  match evaluate_basis_functions m e X [Z.of_nat c] (repeat 0 ((m_gdim m + 1) * be_functions e * be_vs e)) 1 with
  | Some out => nth ((b + 1) * be_functions e + f) out 0
  | None => 0
  end.

(** [reference_x i p]: reference coordinates of contact point [p] of pair [i].  *)
Theorem C83_opposite_gradients :
  forall (m : mesh_data) (e : basis_element) (pd : pack_data) (num_pairs : nat) (pair : nat -> tie_pair) (reference_x : nat -> nat -> list R),
    scalar_element e -> dimensions m -> be_functions e = pd_functions pd -> m_gdim m = pd_gdim pd ->
    (forall Y, length Y = m_tdim m -> rsum (be_functions e) (fun f => be_table e Y 0 f 0) = 1) ->
    (forall i p, length (reference_x i p) = m_tdim m /\ element_tables m e (reference_x i p)) ->
    (forall i c p f b, pr_grad (pair i) c p f b = contact_gradient m e (reference_x i p) c f b) ->
    opposite_gradients pd num_pairs pair.
Proof.
  intros m e pd num_pairs pair ref SE D Ef Eg PU RX PG i e' q c b Hi He Hq Hb.
  set (p := (e' * pd_nq pd + q)%nat). destruct (RX i p) as [LX TE]. rewrite <- Ef.
  assert (B : basis_call m e (ref i p) [Z.of_nat c] (repeat 0 ((m_gdim m + 1) * be_functions e * be_vs e)) 1).
  { constructor; auto; cbn [length]; [lia|]. unfold evaluate_basis_shape. rewrite repeat_length. lia. }
  destruct (C83_values _ _ _ _ _ _ B) as (out & E & _).
  pose proof (C83_partition_of_unity _ _ _ _ _ _ B E PU 0%nat ltac:(cbn [length]; lia) ltac:(cbn [nth]; lia)) as [_ G].
  { unfold reference_point. cbn [Nat.mul skipn]. rewrite <- LX, firstn_all. exact TE. }
  rewrite <- (G b ltac:(lia)). apply rsum_ext. intros f Hf. rewrite PG. unfold contact_gradient. rewrite E. f_equal. cbn [length]. lia.
Qed.
Print Assumptions C83_opposite_gradients.
