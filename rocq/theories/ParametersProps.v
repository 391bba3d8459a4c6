(** C128: the parameters in force after any history of calls on a contact object, and the facets
    its pairs are coupled to. *)
From Coq Require Import List Arith ZArith Lia Bool Reals.
Import ListNotations.
From Verif Require Import Prelude PreludeLemmas LayoutModel LayoutProps ContactProblemModel ContactProblemProps.
From Verif Require Import EntitiesModel PackingModel AssemblyModel TieSystemModel CoefficientsModel ContactSystemModel ContactSystemProps.

(** Specification: what the calls have set so far.  Penalty and symmetry parameter of the latest
    generate_contact_data (whether it succeeds or not) or update_nitsche_parameters (which needs an
    earlier generate_contact_data); material of the latest successful generation; friction
    coefficient of the latest successful generation with one. *)
Record in_force {F : Type} := { p_constants : option (R * R); p_material : option (F * F); p_friction : option F }.
Definition nothing_set {F : Type} : @in_force F := {| p_constants := None; p_material := None; p_friction := None |}.
Definition param_step {F D : Type} (p : @in_force F) (c : @call F D) : @in_force F :=
  match c with
  | CallGenerate d gamma theta =>
      match d_mu d, d_lambda d with
      | Some mu, Some lambda => {| p_constants := Some (gamma, theta); p_material := Some (mu, lambda); p_friction := match d_fric d with Some f => Some f | None => p_friction p end |}
      | _, _ => {| p_constants := Some (gamma, theta); p_material := p_material p; p_friction := p_friction p |}
      end
  | CallNitsche gamma theta =>
      {| p_constants := match p_constants p with Some _ => Some (gamma, theta) | None => None end; p_material := p_material p; p_friction := p_friction p |}
  | _ => p
  end.
Definition parameters_set {F D : Type} (calls : list (@call F D)) : @in_force F := fold_left param_step calls nothing_set.

Section Parameters.
  Context {F G D : Type} (move : G -> F -> G) (detect : G -> D)
    (pack_gap pack_normals pack_test : nat -> G -> D -> matrix)
    (pack_u pack_grad : nat -> F -> matrix) (pack_u_opp : nat -> G -> D -> F -> matrix)
    (pack_param : nat -> F -> matrix) (pack_h : nat -> matrix)
    (num_pairs : nat) (num_rows num_local : nat -> nat) (nq nd gdim : nat).
  Notation state := (@cp_state G D).
  Notation run := (run_calls move detect pack_gap pack_normals pack_test pack_u pack_grad pack_u_opp pack_param pack_h
                     num_pairs num_rows num_local nq nd gdim).
  Notation step := (do_call move detect pack_gap pack_normals pack_test pack_u pack_grad pack_u_opp pack_param pack_h
                     num_pairs num_rows num_local nq nd gdim).
  Notation upd_data := (update_data pack_u pack_grad pack_u_opp num_pairs num_local nq nd gdim).
  Notation upd_detection := (update_detection move detect pack_gap pack_normals pack_test pack_grad num_pairs num_local nq nd gdim).
  Notation gen := (generate detect pack_gap pack_normals pack_test pack_u pack_grad pack_u_opp pack_param pack_h
                     num_pairs num_rows num_local nq nd gdim).
  Notation shaped := (shapes num_pairs num_rows nq nd gdim).

  Lemma first_columns c : (c < 4)%nat -> (c < 4 + 5 * A1 nq gdim + T1 nq nd gdim + B1 nq gdim)%nat.
  Proof using Type. lia. Qed.
  Lemma data_keeps du (s : state) i r c : shaped s -> (i < num_pairs)%nat -> (r < num_rows i)%nat -> (c < 4)%nat -> entry (upd_data du s) i r c = entry s i r c.
  Proof using Type.
    intros Hs Hi Hr Hc. destruct (cp_ready s) eqn:R; [|unfold update_data; rewrite R; reflexivity].
    rewrite (update_data_entries pack_u pack_grad pack_u_opp num_pairs num_rows num_local nq nd gdim du s i r c Hs R Hi Hr (first_columns c Hc)).
    repeat match goal with |- context [(?x <=? c)%nat] => destruct (Nat.leb_spec x c); try lia end. cbn [andb]. now rewrite ?andb_false_r.
  Qed.
  Lemma detection_keeps u (s : state) i r c : shaped s -> (i < num_pairs)%nat -> (r < num_rows i)%nat -> (c < 4)%nat -> entry (upd_detection u s) i r c = entry s i r c.
  Proof using Type.
    intros Hs Hi Hr Hc. pose proof (first_columns c Hc) as HN. unfold entry, update_detection. destruct (cp_ready s) eqn:R; cbn [negb cp_coeffs]; [|reflexivity].
    unfold shapes in Hs. rewrite R in Hs. destruct Hs as [S1 S2]. specialize (S2 i Hi). rewrite !(each_pair_nth num_pairs) by exact Hi.
    destruct (columns_eq nq nd gdim) as (EQ1 & EQ2 & EQ3 & EQ4 & EQ5 & EQ6 & EQ7 & EQ8 & EQ9). unfold numcoeffs, ml. rewrite EQ7, EQ8, EQ1, EQ2, EQ3, EQ9. cbn zeta.
    rewrite !(at2_write _ (num_rows i) (4 + 5 * A1 nq gdim + T1 nq nd gdim + B1 nq gdim)) by (repeat apply write_shape; auto).
    repeat match goal with |- context [(?x <=? c)%nat] => destruct (Nat.leb_spec x c); try lia end. cbn [andb]. now rewrite ?andb_false_r.
  Qed.

  (** The last step of a generation is an update with the increment, if one is given. *)
  Definition no_increment (d : @coefficient_dict F) : @coefficient_dict F := mkDict (d_mu d) (d_lambda d) (d_fric d) (d_u d) None.
  Lemma generate_increment d gamma theta (s : state) du : d_du d = Some du -> d_mu d <> None -> d_lambda d <> None -> gen d gamma theta s = upd_data du (gen (no_increment d) gamma theta s).
  Proof using Type.
    intros E Em El. destruct d as [mu la fr u du']. cbn [d_mu d_lambda d_du d_fric d_u no_increment] in *. subst du'. destruct mu as [mu|]; [|contradiction]. destruct la as [la|]; [|contradiction]. reflexivity.
  Qed.

  Theorem C128_parameters_in_force :
    forall g (calls : list (@call F D)), let s := run g calls in let p := parameters_set calls in
      cp_consts s = p_constants p /\ (cp_ready s = true <-> p_material p <> None) /\
      forall mu lambda i r, p_material p = Some (mu, lambda) -> (i < num_pairs)%nat -> (r < num_rows i)%nat -> (0 < nq * gdim)%nat ->
        entry s i r 0 = at2 (pack_param i mu) r 0 /\ entry s i r 1 = at2 (pack_param i lambda) r 0 /\
        entry s i r 2 = match p_friction p with Some f => at2 (pack_param i f) r 0 | None => 0%R end /\
        entry s i r 3 = at2 (pack_h i) r 0.
  Proof.
    intros g calls. induction calls as [|c calls IH] using rev_ind; [cbn; split; [reflexivity|split; [split; intros; congruence|intros; discriminate]]|].
    intros s p. unfold s, run_calls, p, parameters_set. rewrite !fold_left_app. cbn [fold_left]. fold (parameters_set calls). fold (run g calls).
    pose proof (run_shapes move detect pack_gap pack_normals pack_test pack_u pack_grad pack_u_opp pack_param pack_h num_pairs num_rows num_local nq nd gdim g calls) as Hs.
    assert (RE : reachable move detect pack_gap pack_normals pack_test pack_u pack_grad pack_u_opp pack_param pack_h num_pairs num_rows num_local nq nd gdim (run g calls)) by (exists g, calls; reflexivity).
    cbv zeta in IH. set (s0 := run g calls) in *. set (p0 := parameters_set calls) in *. assert (FR : p_material p0 = None -> p_friction p0 = None).
    { unfold p0, parameters_set. clear. induction calls as [|c calls IH] using rev_ind; [reflexivity|]. rewrite fold_left_app. cbn [fold_left]. destruct c as [d ga th|du|u|ga th|dm]; cbn [param_step]; auto.
      destruct (d_mu d), (d_lambda d); cbn [p_material p_friction]; auto; discriminate. }
    clearbody s0 p0. destruct IH as (IC & IR & IP).
    destruct c as [d ga th|du|u|ga th|dm]; cbn [do_call param_step].
    - destruct (d_mu d) as [mu|] eqn:Em; [destruct (d_lambda d) as [la|] eqn:El|].
      + assert (GE : forall d', d_mu d' = Some mu -> d_lambda d' = Some la -> d_fric d' = d_fric d -> d_du d' = None -> let s1 := gen d' ga th s0 in
          cp_consts s1 = Some (ga, th) /\ cp_ready s1 = true /\ shaped s1 /\ forall i r, (i < num_pairs)%nat -> (r < num_rows i)%nat -> (0 < nq * gdim)%nat ->
          entry s1 i r 0 = at2 (pack_param i mu) r 0 /\ entry s1 i r 1 = at2 (pack_param i la) r 0 /\
          entry s1 i r 2 = match (match d_fric d with Some f => Some f | None => p_friction p0 end) with Some f => at2 (pack_param i f) r 0 | None => 0%R end /\ entry s1 i r 3 = at2 (pack_h i) r 0).
        { intros d' Dm Dl Df Dd s1.
          assert (SH : shaped s1) by exact (step_shapes move detect pack_gap pack_normals pack_test pack_u pack_grad pack_u_opp pack_param pack_h num_pairs num_rows num_local nq nd gdim s0 (CallGenerate d' ga th) Hs).
          assert (CR : cp_consts s1 = Some (ga, th) /\ cp_ready s1 = true) by (unfold s1, generate, material_keys; rewrite Dm, Dl, Dd; split; reflexivity).
          split; [apply CR|]. split; [apply CR|]. split; [exact SH|]. intros i r Hi Hr Hp.
          destruct (C58_parameters_packed move detect pack_gap pack_normals pack_test pack_u pack_grad pack_u_opp pack_param pack_h num_pairs num_rows num_local nq nd gdim d' ga th s0 mu la RE Dm Dl Dd i r Hi Hr Hp) as (E0 & E1 & E2 & E3).
          split; [exact E0|]. split; [exact E1|]. split; [|exact E3]. unfold s1. rewrite E2, Df. destruct (d_fric d); [reflexivity|].
          destruct (p_material p0) as [[m l]|] eqn:EM; [assert (R0 : cp_ready s0 = true) by (apply IR; discriminate); rewrite R0; apply (IP m l i r eq_refl Hi Hr Hp)|].
          destruct (cp_ready s0) eqn:R0; [exfalso; apply (proj1 IR eq_refl); reflexivity|]. now rewrite (FR eq_refl). }
        cbn [p_constants p_material p_friction]. destruct (d_du d) as [du|] eqn:Ed.
        * rewrite (generate_increment d ga th s0 du Ed) by congruence. destruct (GE (no_increment d) Em El eq_refl eq_refl) as (G1 & G2 & G3 & G4). set (s1 := gen (no_increment d) ga th s0) in *. clearbody s1.
          split; [unfold update_data; rewrite G2; exact G1|]. split; [rewrite update_data_ready, G2; split; [discriminate|reflexivity]|].
          intros mu' la' i r E Hi Hr Hp. injection E as <- <-. rewrite !data_keeps by (auto; lia). now apply G4.
        * destruct (GE d Em El eq_refl Ed) as (G1 & G2 & G3 & G4). split; [exact G1|]. split; [rewrite G2; split; [discriminate|reflexivity]|]. intros mu' la' i r E Hi Hr Hp. injection E as <- <-. now apply G4.
      + unfold generate, material_keys. rewrite Em, El. cbn [cp_consts cp_ready p_constants p_material p_friction]. split; [reflexivity|]. split; [exact IR|]. exact IP.
      + unfold generate, material_keys. rewrite Em. cbn [cp_consts cp_ready p_constants p_material p_friction]. split; [reflexivity|]. split; [exact IR|]. exact IP.
    - split; [unfold update_data; destruct (cp_ready s0); exact IC|]. split; [rewrite update_data_ready; exact IR|]. intros mu la i r E Hi Hr Hp. rewrite !data_keeps by (auto; lia). now apply IP.
    - split; [unfold update_detection; destruct (cp_ready s0); exact IC|]. split; [unfold update_detection; destruct (cp_ready s0) eqn:R0; cbn [negb cp_ready]; exact IR|].
      intros mu la i r E Hi Hr Hp. rewrite !detection_keeps by (auto; lia). now apply IP.
    - unfold update_nitsche. cbn [p_constants p_material p_friction]. rewrite <- IC. destruct (cp_consts s0) as [[a b]|] eqn:E0; cbn [cp_consts cp_ready]; (split; [reflexivity || exact E0|]); (split; [exact IR|exact IP]).
    - split; [exact IC|]. split; [exact IR|exact IP].
  Qed.
End Parameters.

Section Links.
  Context {G : Type} (pd : pack_data) (num_pairs : nat) (surfaces : nat -> tie_pair) (basis : G -> (nat -> list Z) -> nat -> nat -> nat -> R)
    (num_rows : nat -> nat) (move : G -> list R -> G) (detect : G -> nat -> list Z) (pack_gap pack_normals : nat -> G -> (nat -> list Z) -> list (list R))
    (pack_param : nat -> list R -> list (list R)) (pack_h : nat -> list (list R)).
  Notation after := (contact_after pd num_pairs surfaces basis num_rows move detect pack_gap pack_normals pack_param pack_h).

  (** The assembly of pair [i] couples the facet number [e] at its point [q] to what the search on
      the current geometry found for this point of this facet. *)
  Theorem C78_links_of_the_search :
    forall g (calls : list (@call (list R) (nat -> list Z))) i e, Forall no_crop calls ->
      let s := after g calls in
      let links := a_map (pr_asm (pair_at pd surfaces basis (cp_geom s) (cp_map s) i)) e in
      (forall q, (q < pd_nq pd)%nat -> nth q links (-1)%Z = nth (e * pd_nq pd + q) (detect (cp_geom s) i) (-1)%Z) /\ (length links <= pd_nq pd)%nat.
  Proof.
    intros g calls i e H s links. unfold links. cbn [pair_at pr_asm with_map a_map].
    rewrite (map_detected pd num_pairs surfaces basis num_rows move detect pack_gap pack_normals pack_param pack_h g calls H : cp_map s = detect (cp_geom s)). split.
    - intros q Hq. now apply nth_slice.
    - unfold slice. rewrite firstn_length. lia.
  Qed.
End Links.

(** Two generations, the second without friction, one refused generation, calls in between. *)
Definition parameter_calls : list (@call R unit) :=
  [CallNitsche 9 9; CallGenerate (mkDict (Some 5%R) None None None None) 7 7; CallGenerate (mkDict (Some 1%R) (Some 2%R) (Some 3%R) None (Some 8%R)) 3 1; CallDetection 6%R; CallUpdateData 5%R;
   CallGenerate (mkDict (Some 4%R) (Some 6%R) None None None) 4 1; CallDetection 7%R; CallNitsche 2 (-1)].
Example C128_nonvacuous :
  let one (_ : nat) (x : R) : matrix := [[x]] in let s := run_calls (fun (g : R) _ => g) (fun _ => tt) (fun _ _ _ => [[0%R]]) (fun _ _ _ => [[0%R]]) (fun _ _ _ => [[0%R]]) one one (fun _ _ _ x => [[x]]) one (fun _ => [[9%R]]) 1 (fun _ => 1%nat) (fun _ => 1%nat) 1 1 1 0%R parameter_calls in
  cp_consts s = Some (2%R, (-1)%R) /\ cp_ready s = true /\ entry s 0 0 0 = 4%R /\ entry s 0 0 1 = 6%R /\ entry s 0 0 2 = 3%R /\ entry s 0 0 3 = 9%R.
Proof.
  cbv zeta. pose proof (C128_parameters_in_force (fun (g : R) (_ : R) => g) (fun _ => tt) (fun _ _ _ => [[0%R]]) (fun _ _ _ => [[0%R]]) (fun _ _ _ => [[0%R]]) (fun _ x => [[x]]) (fun _ x => [[x]]) (fun _ _ _ x => [[x]]) (fun _ x => [[x]]) (fun _ => [[9%R]]) 1 (fun _ => 1%nat) (fun _ => 1%nat) 1 1 1 0%R parameter_calls) as (C & R & P).
  split; [exact C|]. split; [apply R; discriminate|]. destruct (P 4%R 6%R 0%nat 0%nat eq_refl ltac:(lia) ltac:(lia) ltac:(lia)) as (P0 & P1 & P2 & P3). repeat split; assumption.
Qed.
Print Assumptions C128_parameters_in_force.
Print Assumptions C78_links_of_the_search.
