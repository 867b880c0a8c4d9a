(* Some face of the mesh lies on its boundary. *)
From Coq Require Import QArith Lqa.
From Verif Require Import Base BaseFacts SerializeModel MeshModel MeshSpec MeshProofs2 QuantMeshModel QuantMeshProps PLCSpec PolygonProofs2 Plane TriSpec TriProofs2 TriProofs5 TriProofs7 TriProofs8 TriProofs9 TessSpec TessProofs.
Local Open Scope nat_scope.

Lemma highest (X : nat -> Q) n : 0 < n -> exists p, p < n /\ forall i, i < n -> (X i <= X p)%Q.
Proof.
  induction n as [|n IH]; [lia|]. intros _. destruct (Nat.eq_dec n 0) as [->|N].
  - exists 0. split; [lia|]. intros i Li. replace i with 0 by lia. lra.
  - destruct IH as (p & Lp & H); [lia|]. destruct (Qlt_le_dec (X p) (X n)) as [G|G].
    + exists n. split; [lia|]. intros i Li. destruct (Nat.eq_dec i n) as [->|Ni]; [lra|]. specialize (H i ltac:(lia)). lra.
    + exists p. split; [lia|]. intros i Li. destruct (Nat.eq_dec i n) as [->|Ni]; [lra|]. apply H. lia.
Qed.

Section Outer.
  Context (pts : list p2) (ngen : nat) (tris : list (nat * nat * nat)) (D : Delaunay pts ngen tris).
  Let X (i : nat) : Q := fst (nth i pts (0, 0)%Q).

  Lemma tri_distinct i a b c : nth_error tris i = Some (a, b, c) -> a <> b /\ a <> c /\ b <> c.
  Proof.
    intros H. destruct (dl_ccw _ _ _ D a b c (nth_error_In _ _ H)) as (A & B & C & Ha & Hb & Hc & O).
    assert (E : forall P Q R : p2, (P = Q \/ P = R \/ Q = R) -> ~ (0 < orient P Q R)%Q) by (intros P Q R [-> |[-> | ->]]; unfold orient; lra).
    repeat split; intros ->; apply (E A B C); auto; [left|right; left|right; right]; congruence.
  Qed.
  (* some generator has a guard beside it *)
  Lemma guard_beside : 0 < ngen -> exists p link ts j, p < ngen /\ Star tris p link ts /\ ngen <= LK link (j + 1).
  Proof.
    intros N0. destruct (highest X ngen N0) as (p & Lp & Hi). destruct (dl_star _ _ _ D p Lp) as (link & ts & S).
    pose proof (st_size _ _ _ _ S) as n3. set (n := length link) in *.
    set (P := nth p pts (0, 0)%Q). set (a := fun j => nth (LK link j) pts (0, 0)%Q).
    assert (O : forall j, (0 < orient P (a j) (a (j + 1)%nat))%Q).
    { intros j. destruct (TR_tri _ _ _ _ S j) as (u & Hu & T). unfold P, a.
      destruct T as [-> | [-> | ->]]; destruct (dl_ccw _ _ _ D _ _ _ (nth_error_In _ _ Hu)) as (x & y & z & Hx & Hy & Hz & O);
        rewrite (nth_some _ _ _ (0, 0)%Q Hx), (nth_some _ _ _ (0, 0)%Q Hy), (nth_some _ _ _ (0, 0)%Q Hz); auto.
      - rewrite <- orient_turn. auto.
      - rewrite orient_turn. auto. }
    assert (C : forall j, (0 < cr (vsub (a j) P) (vsub (a (j + 1)%nat) P))%Q) by (intros j; rewrite <- orient_cr; auto).
    assert (Per : forall i, a (i + n) = a i).
    { intros i. unfold a. f_equal. apply LK_eq. replace (i + n) with (i + 1 * n) by lia. apply Nat.mod_add. lia. }
    destruct (cone n ltac:(lia) (fun j => vsub (a j) P)) with (d := (1, 0)%Q) as (i & al & be & Al & Be & E & _).
    - intros i. rewrite Per. auto.
    - intros i. apply (cr_pos_nonzero _ _ (C i)).
    - intros i. specialize (C i). lra.
    - intros i Z. specialize (C i). lra.
    - exists 0, 1. intros [V1 V2]. specialize (C 0). cbn [Nat.add] in C. unfold cr in C. rewrite V1, V2 in C. lra.
    - reflexivity.
    - assert (B : exists j, (fst P < fst (a j))%Q).
      { cbn [fst vsub] in E. destruct (Qlt_le_dec (fst P) (fst (a i))) as [G1|G1]; [eauto|]. destruct (Qlt_le_dec (fst P) (fst (a (i + 1)%nat))) as [G2|G2]; [eauto|]. exfalso.
        assert (0 <= al * (fst P - fst (a i)))%Q by (apply Qmult_le_0_compat; lra). assert (0 <= be * (fst P - fst (a (i + 1)%nat)))%Q by (apply Qmult_le_0_compat; lra).
        unfold vsub in E. cbn [fst] in E. lra. }
      destruct B as [j B]. exists p, link, ts, (j + n - 1). split; auto. split; auto.
      replace (j + n - 1 + 1) with (j + n) by lia. destruct (Nat.lt_ge_cases (LK link (j + n)) ngen) as [L|L]; auto. exfalso.
      specialize (Hi _ L). unfold X in Hi. fold (a (j + n)) in Hi. rewrite Per in Hi. fold P in Hi. lra.
  Qed.

  (* a side of the cell crosses every spoke of the star *)
  Lemma spoke p q r i : (forall k, In k r <-> exists i, owner ngen tris k i /\ touches tris p i) -> NoDup r -> 3 <= length r ->
    (forall a b, In (a, b) (ring r) -> exists q, AcrossEdge ngen tris p q a b) ->
    p < ngen -> p <> q -> touches tris p i -> touches tris q i -> exists a b, In (a, b) (ring r) /\ AcrossEdge ngen tris p q a b.
  Proof.
    intros Hr Nd L3 Ac Lp Npq Tp Tq.
    assert (Oi : owner ngen tris (nid ngen tris i) i).
    { apply owner_nid. destruct Tp as (t & Ht & Ct). split; [eapply nth_error_lt; eauto|]. split; auto. unfold TriProofs.realb. rewrite Ht. destruct t as [[x y] z].
      unfold real. cbn in Ct. rewrite !orb_true_iff, !Nat.ltb_lt. destruct Ct as [<-|[<-|<-]]; auto. }
    set (k := nid ngen tris i) in *. assert (Ik : In k r) by (apply Hr; eauto).
    apply In_nth_error in Ik as [s Hs]. pose proof (nth_error_lt _ _ _ Hs) as Ls. set (n := length r) in *.
    assert (Nx : nth_error (ring r) s = Some (k, nth ((s + 1) mod n) r 0)).
    { apply ring_nth. split; auto. split; auto. apply nth_error_nth'. apply Nat.mod_upper_bound. lia. }
    set (s' := (s + n - 1) mod n). assert (Ls' : s' < n) by (apply Nat.mod_upper_bound; lia).
    assert (Bk : (s' + 1) mod n = s).
    { unfold s'. rewrite Nat.add_mod_idemp_l by lia. replace (s + n - 1 + 1) with (s + 1 * n) by lia. rewrite Nat.mod_add by lia. apply Nat.mod_small. auto. }
    assert (Pv : nth_error (ring r) s' = Some (nth s' r 0, k)).
    { apply ring_nth. split; auto. split; [apply nth_error_nth'; auto|]. fold n. rewrite Bk. auto. }
    destruct (Ac _ _ (nth_error_In _ _ Nx)) as (q1 & A1). destruct (Ac _ _ (nth_error_In _ _ Pv)) as (q2 & A2).
    pose proof A1 as (N1 & i1 & j1 & O1 & P1 & D1 & T1a & T1b & T1c & T1d). pose proof A2 as (N2 & i2 & j2 & O2 & P2 & D2 & T2a & T2b & T2c & T2d).
    assert (i1 = i) by (unfold owner in *; congruence). assert (j2 = i) by (unfold owner in *; congruence). subst i1 j2.
    (* the three corners of triangle i are p, q1 and q2 *)
    assert (Nq : q1 <> q2).
    { intros <-. destruct (dl_edge _ _ _ D p q1 i j1 i2) as [E|[E|E]]; auto. subst i2.
      assert (nth ((s + 1) mod n) r 0 = nth s' r 0).
      { apply owner_nid in P1. apply owner_nid in O2. destruct P1 as (_ & _ & ->), O2 as (_ & _ & ->). auto. }
      assert (E : (s + 1) mod n = s').
      { apply (proj1 (NoDup_nth r 0) Nd); auto. apply Nat.mod_upper_bound. lia. }
      apply (no_swap n s s'); auto. }
    destruct Tp as (t & Ht & Cp). destruct Tq as (t1 & Ht1 & Cq). destruct T1b as (t2 & Ht2 & C1). destruct T2d as (t3 & Ht3 & C2).
    assert (t1 = t) by congruence. assert (t2 = t) by congruence. assert (t3 = t) by congruence. subst t1 t2 t3. destruct t as [[x y] z]. cbn in Cp, Cq, C1, C2.
    assert (q = q1 \/ q = q2) as [->| ->] by intuition congruence.
    - exists k, (nth ((s + 1) mod n) r 0). split; auto. eapply nth_error_In; eauto.
    - exists (nth s' r 0), k. split; auto. eapply nth_error_In; eauto.
  Qed.

  Context (f : frame) (ns : list pt) (es : list (nat * nat)) (cs : list (list Z)) (m : mesh Q)
    (Du : Dual ngen tris (length ns) es cs) (Fi : Filled f ns es cs m).
  Lemma boundary_face : 0 < ngen -> exists k fc, nth_error (faceCells m) k = Some fc /\ length fc = 1.
  Proof.
    intros N0. destruct (guard_beside N0) as (p & link & ts & j & Lp & S & Lq). set (q := LK link (j + 1)) in *.
    pose proof (du_cells _ _ _ _ _ Du) as Lc. destruct (nth_error_ex cs p) as [c Hc]; [lia|].
    destruct (du_ring _ _ _ _ _ Du p c Hc) as (r & W & L3 & Nd & Hr & Ac).
    assert (Tq : touches tris q (TR link ts j)) by (apply (TR_corner _ _ _ _ S); auto).
    destruct (spoke p q r (TR link ts j) Hr Nd L3 Ac Lp ltac:(lia) (TR_touch _ _ _ _ S j) Tq) as (a & b & Iab & Aab).
    assert (I : In (Some (a, b)) (map (way es) c)) by (rewrite W; apply in_map; auto). apply in_map_iff in I as (z & Ez & Iz).
    pose proof (way_inv _ _ _ _ Ez) as We. set (k := pid z) in *.
    assert (Lk : k < length (faceCells m)) by (rewrite (fd_nfc _ _ _ _ _ Fi); destruct We as [We|We]; eapply nth_error_lt; eauto).
    destruct (nth_error_ex _ _ Lk) as [fc Hfc]. exists k, fc. split; auto.
    destruct (face_cells f ngen tris ns es cs m Du Fi k fc Hfc) as (p' & q' & a' & b' & Ek & A' & Lp' & U & ->).
    destruct (Nat.ltb_spec q' ngen) as [Lq'|]; auto. exfalso.
    (* p is one of the two cells; the other one would be a third common corner *)
    assert (Pp : p = p' \/ p = q') by (apply (U p c Hc); exists z; auto).
    assert (Sx : exists s, s < ngen /\ s <> p /\ exists i j', i <> j' /\ touches tris p i /\ touches tris q i /\ touches tris s i /\ touches tris p j' /\ touches tris q j' /\ touches tris s j').
    { destruct Aab as (_ & i & j' & O1 & O2 & Dij & T1 & T2 & T3 & T4). destruct A' as (Npq & i' & j'' & O1' & O2' & Dij' & T1' & T2' & T3' & T4').
      assert (Same : (i' = i /\ j'' = j') \/ (i' = j' /\ j'' = i)).
      { assert (Fo : forall k x y, owner ngen tris k x -> owner ngen tris k y -> x = y) by (unfold owner; congruence).
        destruct We as [We|We]; rewrite We in Ek; injection Ek as <- <-; [left|right]; split; eapply Fo; eauto. }
      destruct Pp as [<-|<-]; [exists q'|exists p']; (split; [auto|]); (split; [auto|]); exists i, j'; destruct Same as [[-> ->]|[-> ->]]; auto 10. }
    destruct Sx as (s & Ls & Nsp & i & j' & Nij & Pi & Qi & Si & Pj & Qj & Sj).
    pose proof (star_edge _ _ _ _ S tri_distinct) as SE.
    assert (Ks : exists j2, s = LK link (j2 + 1)).
    { destruct (star_tri _ _ _ _ S i Pi) as (m0 & Lm0 & Ei). rewrite Ei in Si. apply (TR_corner _ _ _ _ S) in Si as [E|[E|E]]; [congruence| |eauto].
      exists (m0 + length link - 1). pose proof (st_size _ _ _ _ S). replace (m0 + length link - 1 + 1) with (m0 + 1 * length link) by lia. rewrite E. apply LK_eq. symmetry. apply Nat.mod_add. lia. }
    destruct Ks as [j2 Es]. rewrite Es in Si, Sj.
    pose proof (proj1 (SE j i) (conj Pi Qi)) as X1. pose proof (proj1 (SE j j') (conj Pj Qj)) as X2.
    pose proof (proj1 (SE j2 i) (conj Pi Si)) as X3. pose proof (proj1 (SE j2 j') (conj Pj Sj)) as X4.
    assert (T1 : TR link ts j = TR link ts j2 \/ (TR link ts j = TR link ts (j2 + 1) /\ TR link ts (j + 1) = TR link ts j2)).
    { destruct X1 as [X1|X1], X2 as [X2|X2]; try congruence; destruct X3 as [X3|X3], X4 as [X4|X4]; try congruence; [left|right; split|right; split|left]; congruence. }
    pose proof (st_size _ _ _ _ S) as n3. set (n := length link) in *.
    assert (Q : q = s).
    { rewrite Es. unfold q. apply LK_eq. fold n. destruct T1 as [T1|[T1 T2]].
      - apply (TR_inj _ _ _ _ S) in T1. fold n in T1. rewrite <- (Nat.add_mod_idemp_l j), <- (Nat.add_mod_idemp_l j2) by lia. rewrite T1. auto.
      - exfalso. apply (TR_inj _ _ _ _ S) in T1. apply (TR_inj _ _ _ _ S) in T2. fold n in T1, T2.
        apply (no_swap n (j mod n) (j2 mod n)); try (apply Nat.mod_upper_bound; lia); auto; rewrite Nat.add_mod_idemp_l by lia; auto. }
    lia.
  Qed.
  Lemma boundary_node : 0 < ngen -> exists n, bnode m n.
  Proof.
    intros N0. destruct (boundary_face N0) as (k & fc & H & L). assert (Lk : k < length es) by (rewrite <- (fd_nfc _ _ _ _ _ Fi); eapply nth_error_lt; eauto).
    destruct (nth_error_ex es k Lk) as [[a b] E]. exists a, k, [a; b]. split; [exists fc; auto|]. split; [|left; auto]. rewrite (fd_faces _ _ _ _ _ Fi), nth_error_map, E. auto.
  Qed.
End Outer.
