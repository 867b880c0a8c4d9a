(* Properties C05, C06: numbering keys and edges. *)
From Verif Require Import Base BaseFacts KeyMapModel KeyMapProofs.

(* C05, specification.  [ids] is a correct numbering of the history [keys]:
   equal keys and only they share an id, and an id is used only after all smaller
   ids have been used (so ids are handed out densely in order of first appearance). *)
Definition numbers {K} (same : K -> K -> Prop) (keys : list K) (ids : list nat) : Prop :=
  length ids = length keys /\
  (forall a b ka kb ia ib,
     nth_error keys a = Some ka -> nth_error keys b = Some kb ->
     nth_error ids a = Some ia -> nth_error ids b = Some ib ->
     (ia = ib <-> same ka kb)) /\
  (forall a i, nth_error ids a = Some i ->
     forall x, x < i -> exists b, b < a /\ nth_error ids b = Some x).

(* For every comparator whose equivalence (neither key precedes the other) is an
   equivalence relation, and every history of keys. *)
Theorem addKeyToMap_numbers :
  forall (K : Type) (lt : K -> K -> bool),
    (forall a, keyeq lt a a = true) ->
    (forall a b c, keyeq lt a b = true -> keyeq lt b c = true -> keyeq lt a c = true) ->
    forall (keys : list K) ids m,
      addKeys lt keys [] = (ids, m) ->
      numbers (fun a b => keyeq lt a b = true) keys ids /\
      (forall x, x < length m <-> In x ids).
Proof.
  intros K lt R T keys ids m H.
  destruct (keys_numbering lt R T keys ids m H) as (A & B & C & D).
  exact (conj (conj A (conj B C)) D).
Qed.
Print Assumptions addKeyToMap_numbers.

(* An id, once handed out, does not depend on later calls. *)
Theorem addKeyToMap_stable :
  forall (K : Type) (lt : K -> K -> bool),
    (forall a, keyeq lt a a = true) ->
    (forall a b c, keyeq lt a b = true -> keyeq lt b c = true -> keyeq lt a c = true) ->
    forall earlier later : list K,
      firstn (length earlier) (fst (addKeys lt (earlier ++ later) []))
      = fst (addKeys lt earlier []).
Proof. intros K lt R T earlier later. exact (keys_stable lt R T earlier later). Qed.
Print Assumptions addKeyToMap_stable.

(* The key types the library uses: edges (pairs of ints), Point2 and Point3 (compared
   by coordinates only, the index member is ignored). *)
Theorem addKeyToMap_edges :
  forall (edges : list (Z * Z)), numbers eq edges (fst (addKeys edge_lt edges [])).
Proof.
  intros edges. destruct (addKeys edge_lt edges []) as [ids m] eqn:E.
  destruct (addKeyToMap_numbers _ edge_lt edge_refl edge_trans edges ids m E) as [(A & B & C) _].
  split; [exact A|]. split; [|exact C].
  intros a b ka kb ia ib Ha Hb Hia Hib.
  rewrite (B a b ka kb ia ib Ha Hb Hia Hib). exact (keyeq_edge ka kb).
Qed.
Print Assumptions addKeyToMap_edges.

Theorem addKeyToMap_points2 :
  forall (pts : list (Z * Z * nat)),
    numbers (fun p q => fst p = fst q) pts (fst (addKeys point2_lt pts [])).
Proof.
  intros pts. destruct (addKeys point2_lt pts []) as [ids m] eqn:E.
  destruct (addKeyToMap_numbers _ point2_lt point2_refl point2_trans pts ids m E) as [(A & B & C) _].
  split; [exact A|]. split; [|exact C].
  intros a b ka kb ia ib Ha Hb Hia Hib.
  rewrite (B a b ka kb ia ib Ha Hb Hia Hib). exact (keyeq_point2 ka kb).
Qed.
Print Assumptions addKeyToMap_points2.

Theorem addKeyToMap_points3 :
  forall (pts : list (Z * Z * Z * nat)),
    numbers (fun p q => fst p = fst q) pts (fst (addKeys point3_lt pts [])).
Proof.
  intros pts. destruct (addKeys point3_lt pts []) as [ids m] eqn:E.
  destruct (addKeyToMap_numbers _ point3_lt point3_refl point3_trans pts ids m E) as [(A & B & C) _].
  split; [exact A|]. split; [|exact C].
  intros a b ka kb ia ib Ha Hb Hia Hib.
  rewrite (B a b ka kb ia ib Ha Hb Hia Hib). exact (keyeq_point3 ka kb).
Qed.
Print Assumptions addKeyToMap_points3.

(* What std::map requires of a comparator: a strict weak order.  (The model of the map looks
   keys up by equivalence; a tree search finds them only if this holds.) *)
Definition strict_weak_order {K} (lt : K -> K -> bool) : Prop :=
  (forall a, lt a a = false) /\
  (forall a b c, lt a b = true -> lt b c = true -> lt a c = true) /\
  (forall a b c, lt a c = true -> lt a b = true \/ lt b c = true).
Theorem key_comparators_strict_weak :
  strict_weak_order edge_lt /\ strict_weak_order point2_lt /\ strict_weak_order point3_lt.
Proof.
  repeat split.
  - intros [a b]. unfold edge_lt; cbn. lia.
  - intros [a b] [c d] [e f]. unfold edge_lt; cbn. lia.
  - intros [a b] [c d] [e f]. unfold edge_lt; cbn. lia.
  - intros [[a b] i]. unfold point2_lt; cbn. lia.
  - intros [[a b] i] [[c d] j] [[e f] k]. unfold point2_lt; cbn. lia.
  - intros [[a b] i] [[c d] j] [[e f] k]. unfold point2_lt; cbn. lia.
  - intros [[[a b] u] i]. unfold point3_lt; cbn. lia.
  - intros [[[a b] u] i] [[[c d] v] j] [[[e f] w] k]. unfold point3_lt; cbn. lia.
  - intros [[[a b] u] i] [[[c d] v] j] [[[e f] w] k]. unfold point3_lt; cbn. lia.
Qed.
Print Assumptions key_comparators_strict_weak.
(* the fuzzy comparator is not one *)
Theorem fuzzy_not_strict_weak_refuted : ~ (forall fuzz, (0 <= fuzz)%Z -> strict_weak_order (fuzzy2_lt fuzz)).
Proof.
  intros H. destruct (H 1%Z ltac:(lia)) as (_ & _ & W).
  specialize (W (0, 0)%Z (1, 0)%Z (2, 0)%Z eq_refl). cbn in W. destruct W; discriminate.
Qed.
Print Assumptions fuzzy_not_strict_weak_refuted.

Example addKeyToMap_edges_nonvacuous :
  fst (addKeys edge_lt [(0, 1); (1, 2); (0, 1); (2, 3); (1, 2)]%Z []) = [0; 1; 0; 2; 1].
Proof. reflexivity. Qed.

(* Finding: the fuzzy comparator of src/Point.hh does not satisfy the premise, so a
   std::map or sort using it is not covered (equivalence is not transitive). *)
Theorem fuzzy_comparator_refuted :
  ~ (forall fuzz a b c, keyeq (fuzzy2_lt fuzz) a b = true ->
       keyeq (fuzzy2_lt fuzz) b c = true -> keyeq (fuzzy2_lt fuzz) a c = true).
Proof.
  intros H. specialize (H 1%Z (0, 0)%Z (1, 0)%Z (2, 0)%Z eq_refl eq_refl). discriminate.
Qed.
Print Assumptions fuzzy_comparator_refuted.

(* ... and numbering with it can merge two points that are 4 grid cells apart or
   separate a chain depending on the order of insertion: the id of a point depends on
   what was inserted before it. *)
Theorem fuzzy_numbering_order_dependent_refuted :
  ~ (forall fuzz (ks1 ks2 : list (Z * Z)) a b,
       let ids1 := fst (addKeys (fuzzy2_lt fuzz) (ks1 ++ [a; b]) []) in
       let ids2 := fst (addKeys (fuzzy2_lt fuzz) (ks2 ++ [a; b]) []) in
       (nth_error ids1 (length ks1) = nth_error ids1 (S (length ks1)) <->
        nth_error ids2 (length ks2) = nth_error ids2 (S (length ks2)))).
Proof.
  intros H. specialize (H 1%Z [] [(1, 0)]%Z (0, 0)%Z (2, 0)%Z). cbn in H.
  destruct H as [_ H]. specialize (H eq_refl). discriminate.
Qed.
Print Assumptions fuzzy_numbering_order_dependent_refuted.

(* C06: hashEdge names the unordered pair. *)
Theorem hashEdge_unordered :
  forall i j : Z, hashEdge i j = hashEdge j i.
Proof.
  intros i j. unfold hashEdge.
  destruct (Z.eqb_spec i j), (Z.eqb_spec j i); cbn; try lia; try reflexivity.
  destruct (Z.ltb_spec i j), (Z.ltb_spec j i); try lia; reflexivity.
Qed.
Print Assumptions hashEdge_unordered.

Theorem hashEdge_identifies :
  forall i j : Z, i <> j ->
    exists a b, hashEdge i j = Ok (a, b) /\ (a < b)%Z /\
      ((a = i /\ b = j) \/ (a = j /\ b = i)) /\
      forall k l, k <> l ->
        (hashEdge k l = Ok (a, b) <-> ((k = i /\ l = j) \/ (k = j /\ l = i))).
Proof.
  intros i j N. exists (Z.min i j), (Z.max i j). rewrite hash_ok by exact N.
  split; [destruct (Z.ltb_spec i j); do 2 f_equal; lia|].
  split; [lia|]. split; [lia|].
  intros k l Nkl. rewrite hash_ok by exact Nkl. split.
  - intros [= E]. destruct (Z.ltb_spec k l); injection E as E1 E2; lia.
  - intros H. destruct (Z.ltb_spec k l); do 2 f_equal; lia.
Qed.
Print Assumptions hashEdge_identifies.

Theorem hashEdge_equal_aborts : forall i : Z, hashEdge i i = Abort.
Proof. intros i. unfold hashEdge. rewrite Z.eqb_refl. reflexivity. Qed.
Print Assumptions hashEdge_equal_aborts.

(* C06: the 1's complement convention of signed indices: positiveID recovers the
   index from both orientations and the sign recovers the orientation. *)
Theorem signed_index_roundtrip :
  forall i : Z, (0 <= i)%Z ->
    positiveID i = i /\ positiveID (Z.lnot i) = i /\ (Z.lnot i < 0)%Z /\
    Z.lnot (Z.lnot i) = i.
Proof.
  intros i H. rewrite positiveID_lnot, positiveID_pos, Z.lnot_involutive by lia.
  unfold Z.lnot. lia.
Qed.
Print Assumptions signed_index_roundtrip.
