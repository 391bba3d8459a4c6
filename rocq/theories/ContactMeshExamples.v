(** C85: the coordinate promise fails when vertices and nodes are numbered differently; two
    touching bodies on two ranks meet the hypotheses. *)
From Coq Require Import List Arith ZArith QArith Lia Lqa Bool Permutation Sorted.
Import ListNotations.
From Verif Require Import Prelude PreludeLemmas PointCloudModel PointCloudSpec GhostingModel LexMatchProofs GhostingProofs GhostingProps ContactMeshModel ContactMeshSpec ContactMeshProps.
Local Open Scope nat_scope.


(** One triangle with vertices 0, 1, 2 at the nodes 1, 0, 2. *)
Definition swapped : rank_mesh :=
  mkRankMesh 3 [] 1 [[0; 1; 2]] [[0; 1]; [1; 2]; [0; 2]] (fun _ => 0) [0; 0; 0; 1; 0; 0; 1; 1; 0]%Q (fun v => nth v [1; 0; 2] v) [] [].
Definition swapped_new : new_mesh := mkNewMesh [[0; 1; 2]] [[0; 1]; [1; 2]; [0; 2]] (fun v => v) [0; 1; 2] [0; 0; 0; 1; 0; 0; 1; 1; 0]%Q.

Lemma swapped_distributed : distributed 2 [swapped].
Proof.
  split; [|split].
  - intros r Hr. cbn in Hr. replace r with 0 by lia. cbn. lia.
  - intros r c u Hr Hc Hu. cbn in Hr. replace r with 0 in * by lia. cbn in Hc. replace c with 0 in * by lia. cbn in Hu. destruct Hu as [<-|[<-|[<-|[]]]]; cbn; lia.
  - intros r u s w j Hr Hs. cbn in Hr, Hs. replace r with 0 by lia. replace s with 0 by lia. intros Hu Hw E Hj. unfold local_vertex in Hu, Hw. cbn in Hu, Hw.
    unfold local_to_global in E. change (rm_vertices (mesh_of [swapped] 0)) with 3 in E. rewrite (proj2 (Nat.ltb_lt u 3)), (proj2 (Nat.ltb_lt w 3)) in E by lia. cbn in E. now subst.
Qed.
Lemma swapped_created : contact_mesh 2 [swapped] [] 0 [] 0 swapped_new.
Proof.
  split; [|split].
  - intros cell [<-|[]]. exists 0, 0. cbn. repeat split; [lia|lia|now left|apply Permutation_refl].
  - intros r c Hr Hc _. cbn in Hr. replace r with 0 in * by lia. cbn in Hc. replace c with 0 by lia. exists [0; 1; 2]. split; [now left|apply Permutation_refl].
  - intros cell v j [<-|[]] Hv Hj. destruct Hv as [<-|[<-|[<-|[]]]]; destruct j as [|[|j]]; try lia; reflexivity.
Qed.

(** The promise without the numbering hypothesis. *)
Theorem C85_coordinates_refuted :
  ~ (forall (gdim : nat) (ms : list rank_mesh) (tags : list Z) (R : Q) (order : list nat) (q : nat) (n : new_mesh),
       distributed gdim ms -> q < length ms -> contact_mesh gdim ms tags R order q n ->
       forall cell v r u j, In cell (nm_cells n) -> In v cell -> r < length ms -> local_vertex (mesh_of ms r) u -> input_vertex n v = local_to_global ms r u -> j < gdim ->
         (coordinate (nm_x n) (nm_v2g n v) j == vertex_coordinate (mesh_of ms r) u j)%Q).
Proof.
  intros H.
  specialize (H 2 [swapped] [] 0%Q [] 0 swapped_new swapped_distributed ltac:(cbn; lia) swapped_created [0; 1; 2] 0 0 0 0 (or_introl eq_refl) (or_introl eq_refl) ltac:(cbn; lia) ltac:(unfold local_vertex; cbn; lia) eq_refl ltac:(lia)).
  unfold Qeq in H. vm_compute in H. discriminate H.
Qed.
Print Assumptions C85_coordinates_refuted.

(** Two triangles on two ranks, facing each other: facet 1 of rank 0 and facet 0 of rank 1. *)
Definition left_body : rank_mesh :=
  mkRankMesh 3 [] 1 [[0; 1; 2]] [[0; 1]; [1; 2]; [0; 2]] (fun _ => 0) [0; 0; 0; 1; 0; 0; 1; 1; 0]%Q (fun v => v) [(1, 5%Z)] [(0, 1%Z)].
Definition right_body : rank_mesh :=
  mkRankMesh 3 [] 1 [[0; 1; 2]] [[0; 1]; [1; 2]; [0; 2]] (fun _ => 0) [2; 0; 0; 2; 1; 0; 3; 0; 0]%Q (fun v => v) [(0, 6%Z); (1, 7%Z)] [(0, 2%Z)].
Definition bodies := [left_body; right_body].
Definition right_new : new_mesh :=
  mkNewMesh [[0; 1; 2]; [3; 4; 5]] [[0; 1]; [1; 2]; [0; 2]; [3; 4]; [4; 5]; [3; 5]] (fun v => v) [3; 4; 5; 0; 1; 2] [2; 0; 0; 2; 1; 0; 3; 0; 0; 0; 0; 0; 1; 0; 0; 1; 1; 0]%Q.

Example C85_nonvacuous :
  let tags := [5; 6]%Z in let order := [0; 1] in
  sort_result (concat (all_midpoints bodies tags)) order /\ nth_error (tagged bodies tags 1) 0 = Some 0 /\ gidx (all_midpoints bodies tags) 1 0 <> nth 0 order 0 /\
  (dist2 (facet_center left_body 1) (facet_center right_body 0) < 2 * 2)%Q /\ NoDup (tagged bodies tags 0) /\
  distributed 2 bodies /\ contact_mesh 2 bodies tags 2 order 1 right_new /\ nodes_at_vertices 2 bodies.
Proof.
  cbv zeta. split; [|split; [|split; [|split; [|split; [|split; [|split]]]]]].
  - split; [apply Permutation_refl|]. intros a b Hab Hb. change (length (concat (all_midpoints bodies [5; 6]%Z))) with 2 in Hb. replace a with 0 by lia. replace b with 1 by lia. vm_compute. discriminate.
  - reflexivity.
  - vm_compute. discriminate.
  - vm_compute. reflexivity.
  - vm_compute. repeat constructor. intros [].
  - split; [|split].
    + intros r Hr. cbn in Hr. destruct r as [|[|r]]; [cbn; lia|cbn; lia|lia].
    + intros r c u Hr Hc Hu. cbn in Hr. destruct r as [|[|r]]; [| |lia]; cbn in Hc; replace c with 0 in * by lia; cbn in Hu; destruct Hu as [<-|[<-|[<-|[]]]]; cbn; lia.
    + intros r u s w j Hr Hs Hu Hw E Hj. unfold local_vertex in *. cbn in Hr, Hs.
      destruct r as [|[|r]]; [| |lia]; (destruct s as [|[|s]]; [| |lia]); cbn in Hu, Hw; unfold local_to_global in E;
        cbn [mesh_of bodies nth left_body right_body rm_vertices] in E; rewrite (proj2 (Nat.ltb_lt u 3)), (proj2 (Nat.ltb_lt w 3)) in E by lia; cbn in E; try lia; replace w with u by lia; reflexivity.
  - split; [|split].
    + intros cell [<-|[<-|[]]]; [exists 1, 0|exists 0, 0]; (split; [cbn; lia|split; [cbn; lia|split; [vm_compute; tauto|apply Permutation_refl]]]).
    + intros r c Hr Hc _. cbn in Hr. destruct r as [|[|r]]; [| |lia]; cbn in Hc; replace c with 0 by lia; [exists [3; 4; 5]|exists [0; 1; 2]]; (split; [cbn; tauto|apply Permutation_refl]).
    + intros cell v j [<-|[<-|[]]] Hv Hj; destruct Hv as [<-|[<-|[<-|[]]]]; destruct j as [|[|j]]; try lia; reflexivity.
  - intros s w j Hs Hw Hj. reflexivity || (destruct s as [|[|s]]; reflexivity || (cbn in Hs; lia)).
Qed.

(** The markers that result on rank 1. *)
Example C85_markers_example :
  let ents := original_entities right_new (nm_facets right_new) in
  let all := concat (map (facet_markers bodies) (seq 0 2)) in
  new_markers 2 (map (facet_markers bodies) (seq 0 2)) right_new (nm_facets right_new)
    (lex_argsort 2 (entity_keys 2 ents)) (lex_argsort 2 (entity_keys 2 (map fst all))) = ([0; 1; 4], [6; 7; 5]%Z).
Proof. vm_compute. reflexivity. Qed.
