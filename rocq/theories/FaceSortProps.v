(* C11, C12, C52: putting the edges of a face in order. *)
From Verif Require Import Base BaseFacts KeyMapModel FaceSortModel FaceSortSpec FaceSortProofs FaceSortProofs2
  FaceSortProofs3 FaceSortProofs4 FaceSortProofs5.
From Coq Require Import Permutation.

(* ---- C11 ---- *)
Theorem sorted_edges_closed : forall edges, ClosedFace edges -> 3 <= length edges ->
  exists rs, computeSortedFaceEdges edges = Ok (false, edges, rs) /\
    Permutation (map pid rs) (seq 0 (length edges)) /\ head_to_tail edges rs.
Proof. exact closed_ok. Qed.
Print Assumptions sorted_edges_closed.
Example closed_face_ex : ClosedFace [(5,7); (9,2); (7,9); (5,2)]%Z.
Proof.
  exists [0; 2; 1; 3]. split.
  - cbn. constructor. etransitivity; [apply perm_swap|]. reflexivity.
  - exists 5%Z, [7; 9; 2; 5]%Z. split; [|split; [reflexivity|]].
    + cbn. unfold joins; cbn. tauto.
    + repeat constructor; cbn; intuition congruence.
Qed.
Example closed_face_run : computeSortedFaceEdges [(5,7); (9,2); (7,9); (5,2)]%Z =
  Ok (false, [(5,7); (9,2); (7,9); (5,2)], [0; 2; 1; -4])%Z.
Proof. reflexivity. Qed.

(* with two edges: fine in opposite directions, the contract fails for equal ones *)
Theorem sorted_edges_two : forall a b, a <> b ->
  computeSortedFaceEdges [(a, b); (b, a)] = Ok (false, [(a, b); (b, a)], [0; 1]%Z) /\
  computeSortedFaceEdges [(a, b); (a, b)] = Abort.
Proof.
  intros a b N. split.
  - unfold computeSortedFaceEdges, use_count, hashEdge, add_edge, del_edge, edge_at. cbn.
    repeat (rewrite ?Z.eqb_refl, ?(proj2 (Z.eqb_neq a b) N), ?(proj2 (Z.eqb_neq b a) (not_eq_sym N)); cbn).
    unfold start_of, end_of, edge_at; cbn. rewrite ?Z.eqb_refl; cbn; rewrite ?Z.eqb_refl. reflexivity.
  - unfold computeSortedFaceEdges, use_count, hashEdge, add_edge, del_edge, edge_at. cbn.
    repeat (rewrite ?Z.eqb_refl, ?(proj2 (Z.eqb_neq a b) N), ?(proj2 (Z.eqb_neq b a) (not_eq_sym N)); cbn).
    change (Pos.to_nat 1) with 1. cbn.
    rewrite (proj2 (Z.eqb_neq b a)) by auto. reflexivity.
Qed.
Print Assumptions sorted_edges_two.

(* ---- C12 ---- *)
(* the full property *)
Definition open_property : Prop := forall edges, OpenFace edges -> 2 <= length edges ->
  exists e rs, computeSortedFaceEdges edges = Ok (true, edges ++ [e], rs) /\
    loose edges (fst e) /\ loose edges (snd e) /\ fst e <> snd e /\
    Permutation (map pid rs) (seq 0 (length edges + 1)) /\ head_to_tail (edges ++ [e]) rs.

(* i is the first edge with a loose end *)
Definition first_loose (edges : list (Z * Z)) (i : nat) : Prop :=
  i < length edges /\
  (loose edges (fst (nth i edges (0, 0)%Z)) \/ loose edges (snd (nth i edges (0, 0)%Z))) /\
  forall j, j < i -> ~ loose edges (fst (nth j edges (0, 0)%Z)) /\ ~ loose edges (snd (nth j edges (0, 0)%Z)).

Lemma first_loose_i0 edges i0 i1 mid a u1 nm h0 i :
  open_shape edges i0 i1 mid a u1 nm h0 -> first_loose edges i -> i = i0.
Proof.
  intros Sh (Li & Lo & Min). pose proof (i_lt _ _ _ _ _ _ _ _ Sh) as (L0 & L1 & Lt).
  assert (H0 : loose edges (fst (edge_at edges i0)) \/ loose edges (snd (edge_at edges i0))).
  { destruct (J0 _ _ _ _ _ _ _ _ Sh) as [-> | ->]; cbn; [right|left]; apply (loose_open _ _ _ _ _ _ _ _ Sh); auto. }
  destruct (Nat.lt_trichotomy i i0) as [H|[H|H]]; auto.
  - exfalso. assert (Hh : hit edges i = true).
    { unfold hit. rewrite orb_true_iff, !Nat.eqb_eq, !use_count_occ. exact Lo. }
    apply (hit_iff _ _ _ _ _ _ _ _ Sh) in Hh; lia.
  - destruct (Min i0 H) as [A B]. unfold edge_at in H0. destruct H0; contradiction.
Qed.

Theorem sorted_edges_open_partial : forall edges i, OpenFace edges -> 2 <= length edges ->
  first_loose edges i -> loose edges (snd (nth i edges (0, 0)%Z)) ->
  exists e rs, computeSortedFaceEdges edges = Ok (true, edges ++ [e], rs) /\
    loose edges (fst e) /\ loose edges (snd e) /\ fst e <> snd e /\
    Permutation (map pid rs) (seq 0 (length edges + 1)) /\ head_to_tail (edges ++ [e]) rs.
Proof.
  intros edges i O L F Ls. destruct (open_shape_ex edges O L) as (i0 & i1 & mid & a & u1 & nm & h0 & Sh).
  rewrite (first_loose_i0 _ _ _ _ _ _ _ _ _ Sh F) in Ls. fold (edge_at edges i0) in Ls.
  pose proof (loose_open _ _ _ _ _ _ _ _ Sh) as Lo.
  pose proof (a_new _ _ _ _ _ _ _ _ Sh) as [A1 A2]. pose proof (h0_new _ _ _ _ _ _ _ _ Sh) as H0.
  assert (E0 : edge_at edges i0 = (last nm u1, h0)).
  { destruct (J0 _ _ _ _ _ _ _ _ Sh) as [E|E]; auto. exfalso. rewrite E in Ls. cbn in Ls.
    apply Lo in Ls. pose proof (last_in nm u1) as I. destruct Ls as [X|X]; rewrite X in I; contradiction. }
  destruct (open_good _ _ _ _ _ _ _ _ Sh E0) as (rs & E & Pm & HT).
  rewrite app_length in Pm. cbn [length] in Pm.
  exists (if (h0 <? a)%Z then (h0, a) else (a, h0)), rs. split; auto.
  destruct (h0 <? a)%Z; cbn [fst snd]; rewrite !Lo; auto 10.
Qed.
Print Assumptions sorted_edges_open_partial.

Theorem sorted_edges_open_aborts : forall edges i, OpenFace edges -> 2 <= length edges ->
  first_loose edges i -> loose edges (fst (nth i edges (0, 0)%Z)) ->
  computeSortedFaceEdges edges = Abort.
Proof.
  intros edges i O L F Ls. destruct (open_shape_ex edges O L) as (i0 & i1 & mid & a & u1 & nm & h0 & Sh).
  rewrite (first_loose_i0 _ _ _ _ _ _ _ _ _ Sh F) in Ls. fold (edge_at edges i0) in Ls.
  pose proof (loose_open _ _ _ _ _ _ _ _ Sh) as Lo.
  pose proof (a_new _ _ _ _ _ _ _ _ Sh) as [A1 A2]. pose proof (h0_new _ _ _ _ _ _ _ _ Sh) as H0.
  apply (open_bad _ _ _ _ _ _ _ _ Sh).
  destruct (J0 _ _ _ _ _ _ _ _ Sh) as [E|E]; auto. exfalso. rewrite E in Ls. cbn in Ls.
  apply Lo in Ls. pose proof (last_in nm u1) as I. destruct Ls as [X|X]; rewrite X in I; contradiction.
Qed.
Print Assumptions sorted_edges_open_aborts.

Theorem sorted_edges_open_refuted : ~ open_property.
Proof.
  intros H. destruct (H [(0, 1); (1, 2)]%Z) as (e & rs & E & _); [|cbn; lia|discriminate E].
  exists [0; 1]. split; [reflexivity|]. exists 0%Z, [1; 2]%Z. split.
  - cbn. unfold joins; cbn. tauto.
  - repeat constructor; cbn; intuition congruence.
Qed.
Print Assumptions sorted_edges_open_refuted.
Example open_face_ex : OpenFace [(1, 0); (1, 2); (3, 2)]%Z /\ first_loose [(1, 0); (1, 2); (3, 2)]%Z 0 /\
  loose [(1, 0); (1, 2); (3, 2)]%Z 0%Z /\
  computeSortedFaceEdges [(1, 0); (1, 2); (3, 2)]%Z =
    Ok (true, [(1, 0); (1, 2); (3, 2); (0, 3)], [0; 3; 2; -2])%Z.
Proof.
  split; [|split; [|split; reflexivity]].
  - exists [0; 1; 2]. split; [reflexivity|]. exists 0%Z, [1; 2; 3]%Z. split.
    + cbn. unfold joins; cbn. tauto.
    + repeat constructor; cbn; intuition congruence.
  - split; [cbn; lia|]. split; [right; reflexivity|]. intros; lia.
Qed.

(* ---- C52 ---- *)
Theorem sorted_nodes_closed : forall edges,
  (exists es, Permutation es edges /\ cycle (fun e => e) es) -> 3 <= length edges ->
  exists r, computeSortedFaceNodes edges = Ok r /\
    NoDup r /\ (forall k, In k r <-> exists e, In e edges /\ (fst e = k \/ snd e = k)) /\
    forall i x y, nth_error r i = Some x -> nth_error r ((i + 1) mod length r) = Some y ->
      exists e, In e edges /\ (e = (x, y) \/ e = (y, x)).
Proof.
  intros edges H L. destruct (nodes_closed edges H L) as (r & E & [N C] & A). exists r. auto.
Qed.
Print Assumptions sorted_nodes_closed.
(* an open chain: the break lies between the first two nodes of the result *)
Theorem sorted_nodes_open : forall edges,
  (exists es, Permutation es edges /\ path (fun e => e) es) -> 2 <= length edges ->
  exists r, computeSortedFaceNodes edges = Ok r /\
    NoDup r /\ (forall k, In k r <-> exists e, In e edges /\ (fst e = k \/ snd e = k)) /\
    forall i x y, i <> 0 -> nth_error r i = Some x -> nth_error r ((i + 1) mod length r) = Some y ->
      exists e, In e edges /\ (e = (x, y) \/ e = (y, x)).
Proof.
  intros edges H L. destruct (nodes_open edges H L) as (r & E & [N C] & A). exists r. auto.
Qed.
Print Assumptions sorted_nodes_open.
Example sorted_nodes_run :
  computeSortedFaceNodes [(5,7); (2,9); (7,9); (2,5)]%Z = Ok [2; 9; 7; 5]%Z /\
  computeSortedFaceNodes [(5,7); (2,9); (7,9)]%Z = Ok [5; 2; 9; 7]%Z.
Proof. split; reflexivity. Qed.
Example sorted_nodes_hyp : exists es, Permutation es [(5,7); (2,9); (7,9); (2,5)]%Z /\ cycle (fun e => e) es.
Proof.
  exists [(5,7); (7,9); (2,9); (2,5)]%Z. split.
  - constructor. apply perm_swap.
  - exists 5%Z, [7; 9; 2; 5]%Z. split; [|split; [reflexivity|]].
    + cbn. unfold joins; cbn. tauto.
    + repeat constructor; cbn; intuition congruence.
Qed.
