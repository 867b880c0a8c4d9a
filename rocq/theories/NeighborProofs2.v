(* The hulls in the plane. *)
From Verif Require Import Base BaseFacts SerializeModel SerializeSpec MeshModel MeshSpec PLCModel PLCSpec PLCProps Plane AreaProofs WithinModel WithinSpec WithinProofs4 WithinProps
  HullModel HullSpec HullProofs3 HullProofs5 NeighborModel NeighborSpec NeighborProofs.
From Coq Require Import Sorted QArith Lqa Permutation.
Local Open Scope nat_scope.

Lemma pairs_ind2 {A} (P : list A -> Prop) : P [] -> (forall x, P [x]) -> (forall x y t, P t -> P (x :: y :: t)) -> forall l, P l.
Proof. intros H0 H1 H2. fix F 1. intros [|x [|y t]]; [exact H0|exact (H1 x)|exact (H2 x y t (F t))]. Qed.
Lemma points2_pairs val l : points2 val l = pairs (map val l).
Proof. induction l using pairs_ind2; cbn; auto. f_equal. auto. Qed.
Lemma points2_flat val l c : length l = 2 * c -> map val l = flat2 (points2 val l).
Proof.
  revert c. induction l as [|x|x y t IH] using pairs_ind2; intros c L; cbn [length] in L; auto; [lia|]. cbn. f_equal. f_equal. apply (IH (c - 1)). lia.
Qed.
Lemma points2_len val l c : length l = 2 * c -> length (points2 val l) = c.
Proof. revert c. induction l as [|x|x y t IH] using pairs_ind2; intros c L; cbn [length points2] in *; try lia. rewrite (IH (c - 1)); lia. Qed.
Lemma points2_nth val l i p : nth_error (points2 val l) i = Some p -> exists x y, nth_error l (2 * i) = Some x /\ nth_error l (2 * i + 1) = Some y /\ p = (val x, val y).
Proof.
  revert i. induction l as [|x|x y t IH] using pairs_ind2; intros [|i] E; cbn [points2] in E; try discriminate.
  - injection E as <-. exists x, y. auto.
  - cbn [nth_error] in E. destruct (IH i E) as (x' & y' & A & B & C). exists x', y'. replace (2 * S i) with (S (S (2 * i))) by lia. auto.
Qed.
Lemma points2_at val l i x y : nth_error l (2 * i) = Some x -> nth_error l (2 * i + 1) = Some y -> nth_error (points2 val l) i = Some (val x, val y).
Proof.
  revert i. induction l as [|x0|x0 y0 t IH] using pairs_ind2; intros [|i] A B; try (destruct (2 * i); discriminate); try discriminate.
  - replace (2 * S i) with (S (S (2 * i))) in A by lia. cbn in A. destruct i; discriminate.
  - cbn in A, B. injection A as ->. injection B as ->. reflexivity.
  - replace (2 * S i + 1) with (S (S (2 * i + 1))) in B by lia. replace (2 * S i) with (S (S (2 * i))) in A by lia. cbn [nth_error points2] in *. auto.
Qed.
Lemma points2_app val l l' c : length l = 2 * c -> points2 val (l ++ l') = points2 val l ++ points2 val l'.
Proof. revert c. induction l as [|x|x y t IH] using pairs_ind2; intros c L; cbn [length] in L; auto; [lia|]. cbn. f_equal. apply (IH (c - 1)). lia. Qed.

(* points and facets as the tests read them *)
Lemma between_facet val l f e : facet_between (points2 val l) f e -> facet_of (map val l) f e.
Proof.
  intros (i & j & -> & A & B). exists (Z.of_nat i), (Z.of_nat j). split; auto. unfold pt_at. rewrite !Nat2Z.id.
  destruct (points2_nth _ _ _ _ A) as (x & y & A1 & A2 & ->). destruct (points2_nth _ _ _ _ B) as (x' & y' & B1 & B2 & ->). cbn [fst snd].
  split; [split; [lia|split; apply map_nth_error; auto]|split; [lia|split; apply map_nth_error; auto]].
Qed.

Section Meet.
  Context (val : Z -> Q) (pa pb : list Z) (a b : rplc Z).
  Hypothesis OA : Outline val pa a.
  Hypothesis OB : Outline val pb b.

  Lemma outline_flat p h : Outline val p h -> map val (rpoints h) = flat2 (points2 val (rpoints h)) /\ points2 val (rpoints h) <> [].
  Proof. intros [(c & L) _ _ _]. split; [eapply points2_flat; eauto|]. intros E. pose proof (points2_len val _ _ L). rewrite E in H. cbn in H. lia. Qed.
  Lemma outline_sides : exists ea o1 eb o2, Forall2 (facet_between (points2 val (rpoints a))) (rfacets a) ea /\ Forall2 (facet_between (points2 val (rpoints b))) (rfacets b) eb /\
    excludes (rmap val a) (rmap val b) = Ok o1 /\ (o1 = true <-> exists e, In e ea /\ forall q, In q (points2 val (rpoints b)) -> (orient (fst e) (snd e) q < 0)%Q) /\
    excludes (rmap val b) (rmap val a) = Ok o2 /\ (o2 = true <-> exists e, In e eb /\ forall q, In q (points2 val (rpoints a)) -> (orient (fst e) (snd e) q < 0)%Q) /\
    (forall e p, In e ea -> In p (points2 val pa) -> (0 <= orient (fst e) (snd e) p)%Q) /\ (forall e p, In e eb -> In p (points2 val pb) -> (0 <= orient (fst e) (snd e) p)%Q).
  Proof.
    destruct (ou_edges _ _ _ OA) as (ea & Fa & Sa). destruct (ou_edges _ _ _ OB) as (eb & Fb & Sb). destruct (outline_flat _ _ OA) as [La Na]. destruct (outline_flat _ _ OB) as [Lb Nb].
    assert (C : forall h es, Forall2 (facet_between (points2 val (rpoints h))) (rfacets h) es -> Forall2 (facet_of (rpoints (rmap val h))) (rfacets (rmap val h)) es).
    { intros h es F. cbn. induction F; constructor; auto. apply between_facet. auto. }
    destruct (excludes_ok (rmap val a) ea (rmap val b) _ (C _ _ Fa) Lb Nb) as (o1 & E1 & H1). destruct (excludes_ok (rmap val b) eb (rmap val a) _ (C _ _ Fb) La Na) as (o2 & E2 & H2).
    exists ea, o1, eb, o2. auto 10.
  Qed.
  (* the test has an answer, the same both ways round *)
  Lemma meet_sym : exists x, convexIntersect (rmap val a) (rmap val b) = Ok x /\ convexIntersect (rmap val b) (rmap val a) = Ok x.
  Proof.
    destruct outline_sides as (ea & o1 & eb & o2 & _ & _ & E1 & _ & E2 & _). unfold convexIntersect. rewrite E1, E2. cbn [bind]. exists (negb o1 && negb o2). destruct o1, o2; auto.
  Qed.
End Meet.
(* domains with a common point are never told apart *)
Lemma meet_found val pa pb a b x : Outline val pa a -> Outline val pb b -> Combination (points2 val pa) x -> Combination (points2 val pb) x ->
  convexIntersect (rmap val a) (rmap val b) = Ok true.
Proof.
  intros OA OB CA CB. destruct (outline_sides val pa pb a b OA OB) as (ea & o1 & eb & o2 & _ & _ & E1 & H1 & E2 & H2 & Sa & Sb).
  assert (K : forall es p q h, Outline val q h -> (forall e r, In e es -> In r (points2 val p) -> (0 <= orient (fst e) (snd e) r)%Q) -> Combination (points2 val p) x -> Combination (points2 val q) x ->
     ~ exists e, In e es /\ forall r, In r (points2 val (rpoints h)) -> (orient (fst e) (snd e) r < 0)%Q).
  { intros es p q h OH Sp Cp Cq (e & Ie & He). assert (P1 : (0 <= WithinProofs4.val (edge_half (fst e) (snd e)) x)%Q).
    { apply (combination_ge _ _ x Cp). intros r Ir. rewrite val_edge. apply Sp; auto. }
    assert (P2 : (0 < WithinProofs4.val (edge_half (snd e) (fst e)) x)%Q).
    { apply (combination_gt _ _ x Cq). intros r Ir. apply (combination_gt _ _ r (ou_span _ _ _ OH r Ir)). intros t It. rewrite val_edge, orient_swap. specialize (He t It). lra. }
    rewrite val_edge in P1, P2. rewrite orient_swap in P2. lra. }
  unfold convexIntersect. rewrite E1, E2. cbn [bind]. destruct o1; [exfalso; apply (K ea pa pb b OB Sa CA CB); apply H1; auto|]. destruct o2; [exfalso; apply (K eb pb pa a OA Sb CB CA); apply H2; auto|]. auto.
Qed.
