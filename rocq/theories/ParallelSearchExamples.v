(** C103: two bodies on two ranks meet the hypotheses; a cell with two tagged facets breaks
    the promise. *)
From Coq Require Import List Arith ZArith QArith Lia Lqa Bool Permutation Sorted.
Import ListNotations.
From Verif Require Import Prelude PreludeLemmas PointCloudModel PointCloudSpec GhostingModel LexMatchProofs GhostingProofs GhostingProps
  ContactMeshModel ContactMeshSpec ContactMeshProps ContactMeshExamples ParallelSearchProps.
Local Open Scope nat_scope.

Lemma two_of_three (x y z : nat) (vs : list nat) (ents : list (list nat)) :
  In [x; y] ents -> In [y; z] ents -> In [x; z] ents -> incl vs [x; y; z] -> NoDup vs -> length vs = 2 ->
  exists e, In e ents /\ Permutation e vs.
Proof.
  intros H1 H2 H3 I ND L. destruct vs as [|a [|b [|c vs]]]; try discriminate L.
  inversion ND as [|? ? N1 _]; subst. pose proof (I a (or_introl eq_refl)) as Ia. pose proof (I b (or_intror (or_introl eq_refl))) as Ib.
  cbn [In] in N1, Ia, Ib.
  destruct Ia as [<-|[<-|[<-|[]]]], Ib as [<-|[<-|[<-|[]]]]; try (exfalso; tauto);
    first [exists [x; y]; split; [assumption|]; first [apply Permutation_refl|apply perm_swap]
          |exists [y; z]; split; [assumption|]; first [apply Permutation_refl|apply perm_swap]
          |exists [x; z]; split; [assumption|]; first [apply Permutation_refl|apply perm_swap]].
Qed.

Definition left_new : new_mesh := mkNewMesh [[0; 1; 2]] [[0; 1]; [1; 2]; [0; 2]] (fun v => v) [0; 1; 2] [0; 0; 0; 1; 0; 0; 1; 1; 0]%Q.
Definition news (r : nat) : new_mesh := if r =? 0 then left_new else right_new.

Lemma right_new_facets : simplex_facets 2 right_new.
Proof.
  split; [|split].
  - intros e He. cbn in He. destruct He as [<-|[<-|[<-|[<-|[<-|[<-|[]]]]]]]; (split; [reflexivity|]);
      [exists [0; 1; 2]|exists [0; 1; 2]|exists [0; 1; 2]|exists [3; 4; 5]|exists [3; 4; 5]|exists [3; 4; 5]];
      (split; [cbn; tauto|intros x Hx; cbn in *; tauto]).
  - intros cell vs [<-|[<-|[]]] I ND L; [apply (two_of_three 0 1 2)|apply (two_of_three 3 4 5)]; auto; cbn; tauto.
  - intros a b Ha Hb P. cbn in Ha, Hb.
    assert (S : isort Nat.leb (map (original right_new) (nth a (nm_facets right_new) [])) = isort Nat.leb (map (original right_new) (nth b (nm_facets right_new) []))).
    { assert (In (nth 0 (map (original right_new) (nth a (nm_facets right_new) [])) 0) (map (original right_new) (nth b (nm_facets right_new) []))) as I0.
      { eapply Permutation_in; [exact P|]. do 6 (destruct a as [|a]; [cbn; tauto|]). lia. }
      assert (In (nth 1 (map (original right_new) (nth a (nm_facets right_new) [])) 0) (map (original right_new) (nth b (nm_facets right_new) []))) as I1.
      { eapply Permutation_in; [exact P|]. do 6 (destruct a as [|a]; [cbn; tauto|]). lia. }
      clear P. do 6 (destruct a as [|a]; [do 6 (destruct b as [|b]; [vm_compute in I0, I1; vm_compute; try reflexivity; exfalso; intuition discriminate|]); lia|]). lia. }
    clear P. do 6 (destruct a as [|a]; [do 6 (destruct b as [|b]; [vm_compute in S; try reflexivity; discriminate S|]); lia|]). lia.
Qed.

Lemma bodies_marked (first : list (nat * Z)) :
  (forall f t, In (f, t) first -> f < 3) ->
  let left := mkRankMesh 3 [] 1 [[0; 1; 2]] [[0; 1]; [1; 2]; [0; 2]] (fun _ => 0) [0; 0; 0; 1; 0; 0; 1; 1; 0]%Q (fun v => v) first [(0, 1%Z)] in
  marked_simplex_facets 2 [left; right_body].
Proof.
  intros Hf left r f t Hr Hin. assert (Hr' : r = 0 \/ r = 1) by (cbn in Hr; lia).
  assert (F : f < 3).
  { destruct Hr' as [-> | ->]; cbn in Hin; [eapply Hf; exact Hin|]. destruct Hin as [E|[E|[]]]; injection E as <- <-; lia. }
  clear Hin Hr. destruct Hr' as [-> | ->]; destruct f as [|[|[|f]]]; try lia; cbn;
    (split; [reflexivity|]); (split; [repeat constructor; cbn; intuition discriminate|]); (split; [lia|]);
    (split; [intros x Hx; cbn in *; tauto|]); intros u Hu; unfold local_vertex; cbn; destruct Hu as [<-|[<-|[]]]; lia.
Qed.

Lemma bodies_vertices (first : list (nat * Z)) :
  let left := mkRankMesh 3 [] 1 [[0; 1; 2]] [[0; 1]; [1; 2]; [0; 2]] (fun _ => 0) [0; 0; 0; 1; 0; 0; 1; 1; 0]%Q (fun v => v) first [(0, 1%Z)] in
  vertices_in_cells [left; right_body].
Proof.
  intros left s w Hs Hw. exists s, 0, w. cbn in Hs. assert (Hs' : s = 0 \/ s = 1) by lia.
  destruct Hs' as [-> | ->]; cbn in Hw; (split; [cbn; lia|]); (split; [cbn; lia|]); (split; [|reflexivity]);
    cbn; destruct w as [|[|[|w]]]; try lia; tauto.
Qed.

Ltac entry H := match type of H with _ \/ _ => destruct H as [H|H]; [injection H as <- <-|entry H] | False => destruct H end.

(** The hypotheses of C103 for rank 1, its facet 0 and the facet 1 of rank 0. *)
Example C103_nonvacuous :
  let tags := [5; 6]%Z in let order := [0; 1] in
  (forall r, r < 2 -> contact_mesh 2 bodies tags 2 order r (news r)) /\
  vertices_in_cells bodies /\ simplex_facets 2 (news 1) /\ marked_simplex_facets 2 bodies /\ consistent_markers bodies /\
  candidate_anywhere bodies 5 0 1 /\
  (forall f', In f' (tagged bodies tags 0) -> f' <> 1 -> rm_fcell (mesh_of bodies 0) f' <> rm_fcell (mesh_of bodies 0) 1) /\
  (* and the candidate on rank 1 *)
  (let ents := original_entities right_new (nm_facets right_new) in
   let all := concat (map (facet_markers bodies) (seq 0 2)) in
   candidate_here (new_markers 2 (map (facet_markers bodies) (seq 0 2)) right_new (nm_facets right_new)
     (lex_argsort 2 (entity_keys 2 ents)) (lex_argsort 2 (entity_keys 2 (map fst all)))) 5 4) /\
  new_positions 2 right_new 4 = old_positions 2 left_body 1.
Proof.
  cbv zeta. pose proof C85_nonvacuous as (_ & _ & _ & _ & _ & _ & CM & _). split; [|split; [|split; [|split; [|split; [|split; [|split; [|split]]]]]]].
  - intros r Hr. destruct r as [|[|r]]; [|exact CM|lia]. split; [|split].
    + intros cell [<-|[]]. exists 0, 0. split; [cbn; lia|]. split; [cbn; lia|]. split; [vm_compute; tauto|apply Permutation_refl].
    + intros r c Hr' Hc Hd. cbn in Hr'. destruct r as [|[|r]]; [| |lia]; cbn in Hc; replace c with 0 in * by lia.
      * exists [0; 1; 2]. split; [cbn; tauto|apply Permutation_refl].
      * exfalso. vm_compute in Hd. intuition discriminate.
    + intros cell v j [<-|[]] Hv Hj; destruct Hv as [<-|[<-|[<-|[]]]]; destruct j as [|[|j]]; try lia; reflexivity.
  - apply (bodies_vertices [(1, 5%Z)]).
  - exact right_new_facets.
  - apply (bodies_marked [(1, 5%Z)]). intros f t [E|[]]. injection E as <- <-. lia.
  - intros r e t r' e' t' Hr Hr' He He' P. cbn in Hr, Hr'.
    assert (R1 : r = 0 \/ r = 1) by lia. assert (R2 : r' = 0 \/ r' = 1) by lia.
    destruct R1 as [-> | ->], R2 as [-> | ->]; cbn in He, He'; entry He; entry He'; try reflexivity; exfalso;
      match type of P with Permutation (map ?f ?l) _ => pose proof (Permutation_in _ P (in_map f l _ (or_introl eq_refl))) as K0; pose proof (Permutation_in _ P (in_map f l _ (or_intror (or_introl eq_refl)))) as K1 end;
      vm_compute in K0, K1; intuition discriminate.
  - split; [cbn; lia|]. cbn. tauto.
  - intros f' Hf' Hne. vm_compute in Hf'. destruct Hf' as [<-|[]]. congruence.
  - vm_compute. tauto.
  - reflexivity.
Qed.

(** A cell of rank 0 with two tagged facets, the second farther from rank 1 than [R]. *)
Definition left_two : rank_mesh :=
  mkRankMesh 3 [] 1 [[0; 1; 2]] [[0; 1]; [1; 2]; [0; 2]] (fun _ => 0) [0; 0; 0; 1; 0; 0; 1; 1; 0]%Q (fun v => v) [(1, 5%Z); (2, 5%Z)] [(0, 1%Z)].
Definition bodies_two := [left_two; right_body].
Definition right_alone : new_mesh := mkNewMesh [[0; 1; 2]] [[0; 1]; [1; 2]; [0; 2]] (fun v => v) [3; 4; 5] [2; 0; 0; 2; 1; 0; 3; 0; 0]%Q.

(** The midpoints of facet 1 of rank 0 and of facet 0 of rank 1 are within [R], but rank 1 has
    no candidate at all after create_contact_mesh. *)
Theorem C103_two_facets_refuted :
  let tags := [5; 6]%Z in let R := (6 # 5)%Q in let order := [1; 0; 2] in
  sort_result (concat (all_midpoints bodies_two tags)) order /\
  contact_mesh 2 bodies_two tags R order 1 right_alone /\
  marked_simplex_facets 2 bodies_two /\
  candidate_anywhere bodies_two 5 0 1 /\
  nth_error (tagged bodies_two tags 1) 0 = Some 0 /\ gidx (all_midpoints bodies_two tags) 1 0 <> nth 0 order 0 /\
  (dist2 (facet_center (mesh_of bodies_two 0) 1) (facet_center (mesh_of bodies_two 1) 0) < R * R)%Q /\
  (let ents := original_entities right_alone (nm_facets right_alone) in
   let all := concat (map (facet_markers bodies_two) (seq 0 2)) in
   forall a, ~ candidate_here (new_markers 2 (map (facet_markers bodies_two) (seq 0 2)) right_alone (nm_facets right_alone)
     (lex_argsort 2 (entity_keys 2 ents)) (lex_argsort 2 (entity_keys 2 (map fst all)))) 5 a).
Proof.
  cbv zeta. split; [|split; [|split; [|split; [|split; [|split; [|split]]]]]].
  - split; [apply perm_swap|]. intros a b Hab Hb. change (length (concat (all_midpoints bodies_two [5; 6]%Z))) with 3 in Hb.
    destruct b as [|[|[|b]]]; try lia; destruct a as [|[|a]]; try lia; vm_compute; discriminate.
  - split; [|split].
    + intros cell [<-|[]]. exists 1, 0. split; [cbn; lia|]. split; [cbn; lia|]. split; [vm_compute; tauto|apply Permutation_refl].
    + intros r c Hr Hc Hd. cbn in Hr. destruct r as [|[|r]]; [| |lia]; cbn in Hc; replace c with 0 in * by lia.
      * exfalso. vm_compute in Hd. intuition discriminate.
      * exists [0; 1; 2]. split; [cbn; tauto|apply Permutation_refl].
    + intros cell v j [<-|[]] Hv Hj; destruct Hv as [<-|[<-|[<-|[]]]]; destruct j as [|[|j]]; try lia; reflexivity.
  - apply (bodies_marked [(1, 5%Z); (2, 5%Z)]). intros f t [E|[E|[]]]; injection E as <- <-; lia.
  - split; [cbn; lia|]. cbn. tauto.
  - reflexivity.
  - vm_compute. discriminate.
  - vm_compute. reflexivity.
  - intros a H. vm_compute in H. intuition discriminate.
Qed.
Print Assumptions C103_two_facets_refuted.
