(** A full first step that makes the residual zero ends the solve (newton_solver.py 282-455), also
    when the coefficients are updated in place. *)
From Coq Require Import List Arith ZArith Lia Bool Reals Lra.
Import ListNotations.
From Verif Require Import Prelude RSum CropModel NewtonModel NewtonProofs NewtonProps.
Local Open Scope R_scope.
Ltac st := cbn [set_s_A set_s_b set_s_x set_s_dx set_s_coeffs set_trace set_relaxation set_iteration set_krylov_iterations set_residual set_initial_residual max_it rtol atol criterion relaxation error_on_nonconvergence iteration krylov_iterations initial_residual residual s_A s_b s_coeffs s_dx s_x trace owned ghosts] in *.
Section Exact.
  Context {O G B Mt C : Type} (pb : problem O G B Mt C) (cf : iterate O G -> C -> C) (rf : iterate O G -> C -> B) (jf : iterate O G -> C -> Mt -> Mt).
  Context (Hcf : compute_coefficients pb = Some cf) (Hrf : compute_residual pb = Some rf) (Hjf : compute_jacobian pb = Some jf).
  Lemma body_exact (s : state O G B Mt C) fuel res_old dx kit x1 c1 b1 : criterion s = CResidual -> relaxation s <> None -> iteration s = 0%nat ->
      0 < rtol s -> 0 < atol s ->
      ksp pb (s_x s) (s_coeffs s) (jf (s_x s) (s_coeffs s) (s_A s)) (s_b s) = (dx, kit, true) ->
      x1 = axpy pb 1 dx (owned (s_x s)) ->
      c1 = cf {| owned := x1; ghosts := ghosts (s_x s) |} (s_coeffs s) ->
      b1 = rf {| owned := x1; ghosts := ghost_values pb x1 |} c1 ->
      0 < normO pb dx -> 0 <= res_old -> normB pb b1 = 0 ->
      exists s2, newton_body pb (S fuel) res_old s = (Ret (0, true), s2) /\ owned (s_x s2) = x1 /\ error_on_nonconvergence s2 = error_on_nonconvergence s /\ iteration s2 = 1%nat /\ max_it s2 = max_it s.
  Proof.
    intros Hc Hr Hit Hrt Hat Hk E1 E2 E3 Hdx Hb Hs.
    destruct s as [mx rt at_ cr rl er it kr ir rs A b c d0 x tr]. cbn [max_it rtol atol criterion relaxation initial_residual s_x s_A s_b s_coeffs error_on_nonconvergence iteration] in *. subst cr it.
    assert (K1 : rlt res_old 0 = false) by (unfold rlt; destruct (Rlt_dec _ 0); [lra|reflexivity]).
    assert (K3 : (if Req_EM_T (normO pb dx) 0 then false else rlt (0 / normO pb dx) rt) = true).
    { destruct (Req_EM_T (normO pb dx) 0); [lra|]. unfold rlt. destruct (Rlt_dec _ rt) as [L|L]; [reflexivity|]. exfalso. apply L. unfold Rdiv. lra. }
    assert (K4 : rlt 0 at_ = true) by (unfold rlt; destruct (Rlt_dec 0 at_); [reflexivity|contradiction]).
    assert (CK' : forall s1, initial_residual s1 = normO pb dx -> rtol s1 = rt -> atol s1 = at_ -> relaxation s1 <> None -> check_convergence pb 0 s1 = (Ret (0, true), s1)).
    { intros s1 Z1 Z2 Z4 Z3. unfold check_convergence. rewrite !bind_get, Z1, Z2, Z4. destruct (relaxation s1); [|contradiction]. destruct (rank0 pb); unfold ret; now rewrite K3, K4. }
    clear Hr. unfold newton_body. rewrite bind_get, bind_modify, Hjf. st. rewrite bind_bind, bind_get, bind_bind, bind_emit. st. rewrite bind_modify. st. rewrite bind_get.
    st. rewrite Hk. cbn [fst snd]. rewrite bind_get. st. rewrite bind_emit. st. rewrite bind_modify. st. rewrite bind_modify. st. rewrite bind_ret.
    unfold update_solution. rewrite bind_bind, bind_get. st. rewrite bind_bind, bind_get. st. rewrite bind_modify. st. rewrite <- E1.
    unfold call_coefficients. rewrite Hcf, bind_bind, bind_get. st. rewrite bind_bind, bind_emit. st. rewrite bind_modify. st. rewrite <- E2.
    rewrite bind_modify. st. unfold ghost_update. rewrite bind_modify. st.
    unfold call_residual. rewrite Hrf, bind_bind, bind_get. st. rewrite bind_bind, bind_emit. st. rewrite bind_modify. st. rewrite <- E3.
    rewrite bind_get. st. rewrite Hs. cbn [relax_loop]. rewrite K1, bind_ret, bind_get. st. change (0 + 1 =? 1)%nat with true. cbv iota. rewrite bind_modify. st. rewrite bind_get. st.
    rewrite bind_bind, bind_get. st. rewrite Hs, bind_bind. match goal with |- context[bind (check_convergence pb 0) _ ?st] => rewrite (bind_Ret _ _ (0, true) _ _ (CK' st eq_refl eq_refl eq_refl ltac:(discriminate))) end.
    cbn [fst snd]. rewrite bind_bind, bind_modify. st. rewrite bind_ret. unfold ret. eexists. split; [reflexivity|]. st. repeat split; reflexivity.
  Qed.
  Lemma first_step_exact (s : state O G B Mt C) fuel x0 c0 b0 dx kit x1 c1 b1 : (1 < fuel)%nat -> (1 <= max_it s)%nat -> criterion s = CResidual -> relaxation s <> None ->
      initial_residual s = 0 -> 0 < rtol s -> 0 < atol s ->
      x0 = {| owned := owned (s_x s); ghosts := ghost_values pb (owned (s_x s)) |} ->
      c0 = cf (s_x s) (s_coeffs s) -> b0 = rf x0 c0 ->
      ksp pb x0 c0 (jf x0 c0 (s_A s)) b0 = (dx, kit, true) ->
      x1 = axpy pb 1 dx (owned (s_x s)) ->
      c1 = cf {| owned := x1; ghosts := ghosts x0 |} c0 ->
      b1 = rf {| owned := x1; ghosts := ghost_values pb x1 |} c1 ->
      0 < normO pb dx -> 0 <= normB pb b0 -> normB pb b1 = 0 ->
      exists s', solve pb fuel false s = (Ret (1%nat, true), s') /\ owned (s_x s') = x1 /\ error_on_nonconvergence s' = error_on_nonconvergence s.
  Proof.
    intros Hfl Hm Hc Hr H0 Hrt Hat Ex0 Ec0 Eb0 Hk E1 E2 E3 Hdx Hb Hs.
    destruct s as [mx rt at_ cr rl er it kr ir rs A b c d0 x tr]. st. subst cr ir.
    destruct fuel as [|[|fuel]]; [lia|lia|].
    assert (CK : forall nrm s1, initial_residual s1 = 0 -> rtol s1 = rt -> relaxation s1 <> None -> check_convergence pb nrm s1 = (Ret (nrm, false), s1)).
    { intros nrm s1 Z1 Z2 Z3. unfold check_convergence. rewrite !bind_get, Z1, Z2. destruct (relaxation s1); [|contradiction]. destruct (Req_EM_T 0 0); [|contradiction]. destruct (rank0 pb); reflexivity. }
    assert (SO : exists s', solve_once pb (S (S fuel)) {| max_it := mx; rtol := rt; atol := at_; criterion := CResidual; relaxation := rl; error_on_nonconvergence := er; iteration := it; krylov_iterations := kr; initial_residual := 0; residual := rs; s_A := A; s_b := b; s_coeffs := c; s_dx := d0; s_x := x; trace := tr |} = (Ret (1%nat, true), s') /\ owned (s_x s') = x1 /\ error_on_nonconvergence s' = er).
    { unfold solve_once. do 3 (rewrite bind_modify; st). unfold call_coefficients at 1. rewrite Hcf. rewrite bind_bind, bind_get. st. rewrite bind_bind, bind_emit. st. rewrite bind_modify. st. rewrite <- Ec0.
      unfold ghost_update at 1. rewrite bind_modify. st. rewrite <- Ex0. unfold call_residual at 1. rewrite Hrf. rewrite bind_bind, bind_get. st. rewrite bind_bind, bind_emit. st. rewrite bind_modify. st. rewrite <- Eb0.
      rewrite bind_get. st. rewrite bind_get. st. rewrite bind_bind.
      match goal with |- context[bind (check_convergence pb ?n) _ ?st] => rewrite (bind_Ret _ _ (n, false) _ _ (CK n st eq_refl eq_refl Hr)) end. cbn [fst snd]. rewrite bind_bind, bind_modify. st. rewrite bind_ret.
      cbn [newton_loop]. rewrite bind_bind, bind_get. st. destruct mx as [|mx]; [lia|]. rewrite bind_bind, bind_get. st. change (negb false && (0 <? S mx)%nat)%bool with true. cbv iota. rewrite bind_bind.
      match goal with |- context[bind (newton_body pb _ _) _ ?st] => destruct (body_exact st (S fuel) (normB pb b0) dx kit x1 c1 b1) as (s2 & NB & Y1 & Y2 & Y3 & Y4) end; try assumption; try reflexivity.
      { rewrite Ex0. exact E1. }
      rewrite (bind_Ret _ _ _ _ _ NB). cbn [fst snd newton_loop]. st. rewrite bind_bind, bind_get. rewrite bind_bind, bind_get. cbn [negb andb]. cbv iota. rewrite bind_ret.
      rewrite bind_get. cbv iota. rewrite bind_ret, bind_get, Y3. unfold ret. eexists. split; [reflexivity|]. now split. }
    destruct SO as (s' & SO & Y1 & Y2). unfold solve. rewrite (bind_Ret _ _ _ _ _ SO). cbv iota. unfold ghost_update. rewrite bind_modify. unfold ret. eexists. split; [reflexivity|]. st. now split.
  Qed.
End Exact.
