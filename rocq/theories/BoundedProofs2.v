(* The boundary nodes of a mesh of polygons are their outer corners. *)
From Coq Require Import Reals QArith Qreals Lqa.
From Verif Require Import Base BaseFacts SerializeModel MeshModel MeshSpec QuantMeshModel QuantMeshSpec QuantMeshProps QuantMeshProofs QuantMeshProofs2 PLCSpec BoxProps TriModel TriProofs6 TessSpec TessProofs NearModel NearSpec ClipModel ClipSpec BoundedModel2 BoundedSpec BoundedProofs BoundedSpec2.
Local Open Scope nat_scope.

Lemma deq1_inj c0 c1 x0 len i j : (c0 < c1)%Z -> (0 < len)%Q -> (dequantize1 c0 c1 x0 len i == dequantize1 c0 c1 x0 len j)%Q -> i = j.
Proof.
  intros C L E. unfold dequantize1 in E. assert (S : (0 < len / inject_Z (c1 - c0))%Q).
  { apply Qlt_shift_div_l; [|lra]. unfold inject_Z, Qlt. cbn. lia. }
  set (s := (len / inject_Z (c1 - c0))%Q) in *.
  assert (E' : (inject_Z (i - c0) * s == inject_Z (j - c0) * s)%Q) by lra.
  apply Qmult_inj_r in E'; [|lra]. unfold inject_Z, Qeq in E'. cbn in E'. lia.
Qed.
Lemma dequantize_inj f p q : proper f -> dequantize f p = dequantize f q -> p = q.
Proof.
  intros (C & L) E. pose proof (f_equal (fun l => nth 0 l 0%Q) E) as E1. pose proof (f_equal (fun l => nth 1 l 0%Q) E) as E2. cbv beta in E1, E2. cbn [nth dequantize] in E1, E2. destruct p as [a b], q as [c d]. cbn [fst snd] in *.
  assert (K : forall x y : Q, x = y -> (x == y)%Q) by (intros; subst; reflexivity).
  f_equal; [apply (deq1_inj (cmin f) (cmax f) (fx f) (flen f) _ _ C L), K, E1|apply (deq1_inj (cmin f) (cmax f) (fy f) (flen f) _ _ C L), K, E2].
Qed.

Section Outer.
  Context (f : frame) (polys : list polygon) (m : mesh Q) (Pr : proper f) (Pm : PolygonMesh f polys m).
  Definition node_of (ns : list pt) : Prop := NoDup ns /\ nodes m = flat_map (dequantize f) ns /\ forall q, In q ns <-> exists p, In p polys /\ In q p.

  Lemma node_val ns n q : nodes m = flat_map (dequantize f) ns -> nth_error ns n = Some q -> node_at 2 m n = dequantize f q.
  Proof. intros E H. unfold node_at. rewrite E. apply deq_node. auto. Qed.
  Lemma node_index ns n l : nodes m = flat_map (dequantize f) ns -> node_at 2 m n = l -> l <> [] -> exists q, nth_error ns n = Some q.
  Proof.
    intros E H N. apply nth_error_ex. destruct (Nat.lt_ge_cases n (length ns)) as [|L]; auto. exfalso. apply N. rewrite <- H. unfold node_at. rewrite skipn_all2; [apply firstn_nil|].
    rewrite E. clear - L. assert (X : length (flat_map (dequantize f) ns) = 2 * length ns) by (clear; induction ns; cbn in *; lia). lia.
  Qed.
  Lemma node_corner ns n q : nodes m = flat_map (dequantize f) ns -> node_at 2 m n = dequantize f q -> nth_error ns n = Some q.
  Proof.
    intros E H. destruct (node_index ns n _ E H ltac:(discriminate)) as [q' H']. rewrite (node_val ns n q' E H') in H. apply dequantize_inj in H; auto. subst. auto.
  Qed.
  Lemma node_point ns n q : nodes m = flat_map (dequantize f) ns -> nth_error ns n = Some q -> point_at (nodes (real_mesh m)) n (place f q).
  Proof.
    intros E H. unfold point_at, real_mesh, place. cbn [nodes fst snd]. rewrite E. rewrite !nth_error_map.
    assert (K : nth_error (flat_map (dequantize f) ns) (2 * n) = Some (fst (deq f q)) /\ nth_error (flat_map (dequantize f) ns) (2 * n + 1) = Some (snd (deq f q))).
    { revert n H. clear. induction ns as [|a ns IH]; intros [|n] H; try discriminate.
      - injection H as ->. cbn. auto.
      - replace (2 * S n) with (S (S (2 * n))) by lia. cbn [flat_map dequantize app nth_error Nat.add]. apply IH. auto. }
    destruct K as [-> ->]. auto.
  Qed.

  Lemma outer_node ns n : nodes m = flat_map (dequantize f) ns -> In n (boundaryNodes m) -> exists q, nth_error ns n = Some q /\ OuterCorner polys q.
  Proof.
    intros E I. apply (pm_bnodes _ _ _ Pm) in I as (k & l & Ik & Hk & In_). pose proof (pm_mesh _ _ _ Pm) as Wf.
    pose proof (proj1 (pm_bfaces _ _ _ Pm k) Ik) as (fc & Hfc & L). destruct fc as [|w [|? ?]]; try discriminate.
    destruct (wf_face_cell _ _ Wf k [w] w Hfc (or_introl eq_refl)) as (c & Hc & Iz). set (z := sign_face w k) in *.
    assert (Pz : pid z = k) by (unfold z, sign_face; destruct (0 <=? w)%Z; [apply pid_of_nat|apply pid_lnot_of_nat]).
    apply In_nth_error in Iz as [j Hj]. destruct (nth_error_ex polys (pid w)) as [p Hp]; [rewrite <- (pm_cells _ _ _ Pm); eapply nth_error_lt; eauto|].
    pose proof (pm_walk _ _ _ Pm _ c p Hc Hp) as W. destruct (Forall2_nth _ _ _ _ _ W Hj) as (s & Hs & a & b & Wz & Na & Nb).
    pose proof (proj1 (pm_outer _ _ _ Pm _ c p j z s Hc Hp Hj Hs)) as O. rewrite Pz in O. specialize (O Ik).
    unfold walk in Wz. rewrite Pz, Hk in Wz. destruct l as [|x [|y [|? ?]]]; try discriminate.
    assert (X : n = a \/ n = b) by (destruct (0 <=? z)%Z; injection Wz as <- <-; destruct In_ as [<-|[<-|[]]]; auto).
    destruct X as [-> | ->]; [exists (fst s)|exists (snd s)]; (split; [apply node_corner; auto|exists s; auto]).
  Qed.
  Lemma corner_outer ns q : nodes m = flat_map (dequantize f) ns -> OuterCorner polys q -> exists n, In n (boundaryNodes m) /\ nth_error ns n = Some q.
  Proof.
    intros E (s & O & Eq). pose proof O as [I _]. apply in_flat_map in I as (p & Ip & Is). apply In_nth_error in Ip as [i Hp]. apply In_nth_error in Is as [j Hs].
    destruct (nth_error_ex (cells m) i) as [c Hc]; [rewrite (pm_cells _ _ _ Pm); eapply nth_error_lt; eauto|].
    pose proof (pm_walk _ _ _ Pm _ c p Hc Hp) as W. destruct (Forall2_nth_r _ _ _ _ _ W Hs) as (z & Hz & a & b & Wz & Na & Nb).
    pose proof (proj2 (pm_outer _ _ _ Pm _ c p j z s Hc Hp Hz Hs) O) as Ib.
    unfold walk in Wz. destruct (nth_error (faces m) (pid z)) as [[|x [|y [|? ?]]]|] eqn:Ef; try discriminate.
    assert (Ia : forall n, n = x \/ n = y -> In n (boundaryNodes m)). { intros n X. apply (pm_bnodes _ _ _ Pm). exists (pid z), [x; y]. split; auto. split; auto. destruct X as [-> | ->]; cbn; auto. }
    destruct Eq as [-> | ->]; [exists a|exists b]; (split; [apply Ia; destruct (0 <=? z)%Z; injection Wz as <- <-; auto|apply node_corner; auto]).
  Qed.

  Lemma fitting_snappable v g tol corner : Fitting f v g tol polys corner -> exists c, Snappable v g tol (real_mesh m) c.
  Proof.
    intros Ft. destruct (pm_nodes _ _ _ Pm) as (ns & Nd & E & Al).
    set (idx := fun k => match first pt_eqb ns (corner k) with Some i => i | None => 0 end). exists idx.
    assert (Ix : forall k c, point_at v k c -> In (idx k) (boundaryNodes m) /\ nth_error ns (idx k) = Some (corner k)).
    { intros k c P. destruct (fi_corner _ _ _ _ _ _ Ft k c P) as [O _]. destruct (corner_outer ns _ E O) as (n & I & H).
      assert (X : idx k = n); [|rewrite X; auto]. unfold idx. destruct (first pt_eqb ns (corner k)) as [i|] eqn:Ef.
      - apply first_some in Ef as (q & Hq & Eq). apply pt_eqb_iff in Eq. subst q. apply (proj1 (NoDup_nth_error ns) Nd); [eapply nth_error_lt; eauto|congruence].
      - exfalso. apply nth_error_In in H. pose proof (first_none _ _ _ _ Ef H) as Q. rewrite pt_eqb_refl in Q. discriminate. }
    constructor; cbn [boundaryNodes real_mesh].
    - intros k c P. destruct (Ix k c P) as [I H]. split; auto. exists (place f (corner k)). split; [apply (node_point ns); auto|]. apply (fi_corner _ _ _ _ _ _ Ft k c P).
    - intros k c n q P I Pn N. destruct (outer_node ns n E I) as (x & Hx & O). pose proof (node_point ns n x E Hx) as Px.
      assert (q = place f x). { destruct Pn as [A B], Px as [C D]. rewrite A in C. rewrite B in D. destruct q. unfold place in *. cbn [fst snd] in *. congruence. }
      subst q. apply (fi_apart _ _ _ _ _ _ Ft k c x P O). intros ->. apply N. destruct (Ix k c P) as [_ H]. apply (proj1 (NoDup_nth_error ns) Nd); [eapply nth_error_lt; eauto|congruence].
    - intros k k' c c' P P' Eq. apply (fi_inj _ _ _ _ _ _ Ft k k' c c' P P'). destruct (Ix k c P) as [_ H]. destruct (Ix k' c' P') as [_ H']. congruence.
    - intros n I. destruct (outer_node ns n E I) as (x & Hx & O). destruct (fi_near _ _ _ _ _ _ Ft x O) as (c & Oc & L). exists (place f x), c. split; auto. apply (node_point ns); auto.
  Qed.
End Outer.
