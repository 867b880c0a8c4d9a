(* The edges around one generator. *)
From Coq Require Import QArith Sorted Permutation.
From Verif Require Import Base BaseFacts StdAlg KeyMapModel KeyMapProofs FaceSortModel FaceSortSpec FaceSortProofs FaceSortProofs4 SerializeModel MeshEditorModel QuantMeshModel BoxModel PLCSpec Plane AreaModel TriModel TriSpec TriProofs.
Local Open Scope nat_scope.

Lemma mod_succ_inj n a b : n <> 0 -> (a + 1) mod n = (b + 1) mod n -> a mod n = b mod n.
Proof.
  intros N E. assert (G : forall x, x mod n = ((x + 1) mod n + (n - 1)) mod n).
  { intros x. rewrite Nat.add_mod_idemp_l by auto. replace (x + 1 + (n - 1)) with (x + 1 * n) by lia. rewrite Nat.mod_add; auto. }
  rewrite (G a), (G b), E. auto.
Qed.

Section Around.
  Context (tris : list tri) (p : nat) (link ts : list nat) (St : Star tris p link ts)
    (Dist : forall i a b c, nth_error tris i = Some (a, b, c) -> a <> b /\ a <> c /\ b <> c).
  Let n := length link.
  Definition LK (j : nat) : nat := nth (j mod n) link 0.
  Definition TR (j : nat) : nat := nth (j mod n) ts 0.

  Lemma n3 : 3 <= n. Proof. clear Dist. apply (st_size _ _ _ _ St). Qed.
  Lemma LK_nth j : nth_error link (j mod n) = Some (LK j).
  Proof. clear Dist. apply nth_error_nth'. apply Nat.mod_upper_bound. pose proof n3. lia. Qed.
  Lemma TR_nth j : nth_error ts (j mod n) = Some (TR j).
  Proof. clear Dist. apply nth_error_nth'. rewrite (st_same _ _ _ _ St). apply Nat.mod_upper_bound. pose proof n3. fold n. lia. Qed.
  Lemma LK_inj i j : LK i = LK j -> i mod n = j mod n.
  Proof.
    clear Dist.
    intros E. pose proof n3. apply (proj1 (NoDup_nth_error link) (st_link _ _ _ _ St)); [apply Nat.mod_upper_bound; fold n; lia|].
    rewrite !LK_nth. congruence.
  Qed.
  Lemma TR_inj i j : TR i = TR j -> i mod n = j mod n.
  Proof.
    clear Dist.
    intros E. pose proof n3. apply (proj1 (NoDup_nth_error ts) (st_tris _ _ _ _ St));
      [rewrite (st_same _ _ _ _ St); apply Nat.mod_upper_bound; fold n; lia|].
    rewrite !TR_nth. congruence.
  Qed.
  Lemma TR_eq i j : i mod n = j mod n -> TR i = TR j.
  Proof. clear Dist. intros E. unfold TR. rewrite E. auto. Qed.
  Lemma LK_eq i j : i mod n = j mod n -> LK i = LK j.
  Proof. clear Dist. intros E. unfold LK. rewrite E. auto. Qed.
  Lemma mod_1 j : (j + 1) mod n <> j mod n.
  Proof.
    clear Dist.
    pose proof n3. intros E. rewrite <- (Nat.add_mod_idemp_l j 1 n) in E by lia. pose proof (Nat.mod_upper_bound j n ltac:(lia)) as B.
    set (k := j mod n) in *. destruct (Nat.eq_dec (k + 1) n) as [Q|Q].
    - rewrite Q, Nat.mod_same in E by lia. lia.
    - rewrite Nat.mod_small in E by lia. lia.
  Qed.
  Lemma TR_next j : TR (j + 1) <> TR j.
  Proof. clear Dist. intros E. apply TR_inj in E. apply (mod_1 j). auto. Qed.

  Lemma TR_tri j : exists u, nth_error tris (TR j) = Some u /\ turned u (p, LK j, LK (j + 1)).
  Proof.
    clear Dist.
    pose proof n3. apply (st_turn _ _ _ _ St (j mod n) (TR j) (LK j) (LK (j + 1))); [apply TR_nth|apply LK_nth|].
    fold n. rewrite Nat.add_mod_idemp_l by lia. apply LK_nth.
  Qed.
  Lemma TR_distinct j : p <> LK j /\ p <> LK (j + 1) /\ LK j <> LK (j + 1).
  Proof.
    destruct (TR_tri j) as (u & Hu & [-> | [-> | ->]]); destruct (Dist _ _ _ _ Hu) as (A & B & C); auto.
  Qed.
  Lemma TR_corner j q : touches tris q (TR j) <-> q = p \/ q = LK j \/ q = LK (j + 1).
  Proof.
    clear Dist. destruct (TR_tri j) as (u & Hu & T). split.
    - intros (u' & Hu' & C). rewrite Hu in Hu'. injection Hu' as <-. destruct T as [-> | [-> | ->]]; cbn in C; tauto.
    - intros C. exists u. split; auto. destruct T as [-> | [-> | ->]]; cbn; tauto.
  Qed.
  Lemma star_tri i : touches tris p i -> exists j, j < n /\ i = TR j.
  Proof.
    clear Dist.
    intros T. apply (st_all _ _ _ _ St) in T. apply In_nth_error in T as [j Hj]. exists j.
    assert (L : j < n) by (pose proof (nth_error_lt _ _ _ Hj); rewrite (st_same _ _ _ _ St) in *; auto).
    split; auto. pose proof (TR_nth j) as X. rewrite Nat.mod_small in X by auto. congruence.
  Qed.
  Lemma TR_touch j : touches tris p (TR j).
  Proof. clear Dist. apply TR_corner. auto. Qed.
  Lemma star_edge j i : touches tris p i /\ touches tris (LK (j + 1)) i <-> i = TR j \/ i = TR (j + 1).
  Proof.
    pose proof n3. split.
    - intros [T1 T2]. destruct (star_tri i T1) as (m & Lm & ->). apply TR_corner in T2 as [E|[E|E]].
      + destruct (TR_distinct j) as (_ & X & _). congruence.
      + right. apply TR_eq. symmetry. apply LK_inj. auto.
      + left. apply TR_eq. apply LK_inj in E. apply mod_succ_inj in E; auto. lia.
    - intros [-> | ->]; (split; [apply TR_touch|]); apply TR_corner; auto.
  Qed.
  (* a corner of the star other than p is a neighbor *)
  Lemma star_link q i : touches tris p i -> touches tris q i -> q <> p -> exists j, q = LK (j + 1) /\ (i = TR j \/ i = TR (j + 1)).
  Proof.
    pose proof n3. intros T1 T2 N. destruct (star_tri i T1) as (m & Lm & ->). apply TR_corner in T2 as [E|[E|E]]; [congruence| |].
    - exists (m + n - 1). assert (X : (m + n - 1 + 1) mod n = m mod n).
      { replace (m + n - 1 + 1) with (m + 1 * n) by lia. apply Nat.mod_add. lia. }
      split; [rewrite E; apply LK_eq; auto|right; apply TR_eq; auto].
    - exists m. auto.
  Qed.
  (* two different triangles at p have at most one more common corner *)
  Lemma star_share i i' q q' : touches tris p i -> touches tris p i' -> i <> i' -> q <> p -> q' <> p ->
    touches tris q i -> touches tris q i' -> touches tris q' i -> touches tris q' i' -> q = q'.
  Proof.
    pose proof n3. intros T T' N Q Q' A A' B B'. destruct (star_link q i T A Q) as (j & -> & Hj).
    assert (Hi : i' = TR j \/ i' = TR (j + 1)) by (apply star_edge; auto).
    destruct (star_link q' i T B Q') as (k & -> & Hk).
    assert (Hi' : i' = TR k \/ i' = TR (k + 1)) by (apply star_edge; auto). clear - Hj Hi Hk Hi' N St H.
    assert (G : forall a b, (a + 1) mod n = b mod n -> (b + 1) mod n = a mod n -> False).
    { clear - H. intros a b E1 E2. rewrite <- (Nat.add_mod_idemp_l a 1 n) in E1 by lia. rewrite <- (Nat.add_mod_idemp_l b 1 n) in E2 by lia.
      pose proof (Nat.mod_upper_bound a n ltac:(lia)). pose proof (Nat.mod_upper_bound b n ltac:(lia)).
      set (x := a mod n) in *. set (y := b mod n) in *.
      destruct (Nat.eq_dec (x + 1) n) as [Ex|Ex]; [rewrite Ex, Nat.mod_same in E1 by lia|rewrite Nat.mod_small in E1 by lia];
      (destruct (Nat.eq_dec (y + 1) n) as [Ey|Ey]; [rewrite Ey, Nat.mod_same in E2 by lia|rewrite Nat.mod_small in E2 by lia]); lia. }
    destruct Hj as [-> | ->], Hi as [-> | ->]; try congruence;
    destruct Hk as [E1|E1], Hi' as [E2|E2]; try congruence; apply TR_inj in E1; apply TR_inj in E2.
    - apply LK_eq. auto.
    - exfalso. apply (G j k); auto.
    - exfalso. apply (G j k); auto.
    - apply LK_eq. auto.
  Qed.
End Around.

(* ---- positions among the kept elements ---- *)
Definition posn (h : nat -> bool) (i : nat) : nat := length (filter h (seq 0 i)).
Lemma posn_nth h n i : i < n -> h i = true -> nth_error (filter h (seq 0 n)) (posn h i) = Some i.
Proof.
  intros L H. replace n with (i + (n - i)) by lia. rewrite seq_app, filter_app. unfold posn.
  rewrite nth_error_app2, Nat.sub_diag by lia. cbn [Nat.add]. destruct (n - i) as [|k] eqn:E; [lia|]. cbn [seq filter]. rewrite H. auto.
Qed.
Lemma posn_unique h n k i : nth_error (filter h (seq 0 n)) k = Some i -> i < n /\ h i = true /\ k = posn h i.
Proof.
  intros H. pose proof (nth_error_In _ _ H) as I. apply filter_In in I as [I Hi]. apply in_seq in I. split; [lia|]. split; auto.
  apply (proj1 (NoDup_nth_error _) (NoDup_filter h (seq_NoDup n 0))); [eapply nth_error_lt; eauto|].
  rewrite H. symmetry. apply posn_nth; auto. lia.
Qed.
Lemma posn_inj h i j : h i = true -> h j = true -> posn h i = posn h j -> i = j.
Proof.
  intros Hi Hj E. set (n := S (Nat.max i j)).
  pose proof (posn_nth h n i ltac:(lia) Hi) as A. pose proof (posn_nth h n j ltac:(lia) Hj) as B. rewrite E in A. congruence.
Qed.

Lemma two_members (l : list nat) i k : NoDup l -> i <> k -> (forall x, In x l <-> x = i \/ x = k) -> l = [i; k] \/ l = [k; i].
Proof.
  intros N D H. assert (P : Permutation l [i; k]).
  { apply NoDup_Permutation; auto.
    - repeat constructor; cbn; intuition congruence.
    - intros x. rewrite H. cbn. intuition auto. }
  symmetry in P. apply Permutation_length_2_inv in P. destruct P; auto.
Qed.

Section Cell.
  Context (f : frame) (pts : list p2) (ngen : nat) (tris : list tri) (st : stars)
    (R : RI f pts ngen tris (length tris) st)
    (Dist : forall i a b c, nth_error tris i = Some (a, b, c) -> a <> b /\ a <> c /\ b <> c).
  Notation realb := (realb ngen tris).
  Notation N := (length tris).
  Definition nid (i : nat) : nat := posn realb i.

  Lemma touches_hasb q i : touches tris q i <-> hasb tris q i = true.
  Proof.
    unfold touches, hasb. split.
    - intros ([[a b] c] & -> & C). cbn in C. rewrite !orb_true_iff, !Nat.eqb_eq. tauto.
    - destruct (nth_error tris i) as [[[a b] c]|] eqn:E; [|discriminate]. intros H. exists (a, b, c). split; auto.
      rewrite !orb_true_iff, !Nat.eqb_eq in H. cbn. tauto.
  Qed.
  Lemma touches_lt q i : touches tris q i -> i < N.
  Proof. intros (t & H & _). eapply nth_error_lt; eauto. Qed.
  Lemma touches_real q i : q < ngen -> touches tris q i -> realb i = true.
  Proof.
    intros L ([[a b] c] & H & C). unfold TriProofs.realb. rewrite H. unfold real. rewrite !orb_true_iff, !Nat.ltb_lt. cbn in C. lia.
  Qed.
  Lemma edgb_touches a b i : a <> b -> (edgb tris (zkey a b) i = true <-> touches tris a i /\ touches tris b i).
  Proof.
    intros D. unfold edgb, touches. destruct (nth_error tris i) as [[[x y] z]|] eqn:E.
    - split.
      + intros H. assert (X : zkey a b = zkey x y \/ zkey a b = zkey x z \/ zkey a b = zkey y z).
        { destruct (edge_dec (zkey a b) (zkey x y)), (edge_dec (zkey a b) (zkey x z)), (edge_dec (zkey a b) (zkey y z)); auto; discriminate. }
        split; (exists (x, y, z); split; auto); cbn; destruct X as [X|[X|X]]; apply zkey_inj in X; lia.
      + intros [(t & Et & C) (t' & Et' & C')]. injection Et as <-. injection Et' as <-. cbn in C, C'.
        assert (X : zkey a b = zkey x y \/ zkey a b = zkey x z \/ zkey a b = zkey y z).
        { destruct C as [-> | [-> | ->]], C' as [-> | [-> | ->]]; try congruence; auto using zkey_sym. }
        destruct (edge_dec (zkey a b) (zkey x y)), (edge_dec (zkey a b) (zkey x z)), (edge_dec (zkey a b) (zkey y z)); auto; tauto.
    - split; [discriminate|]. intros [(t & Et & _) _]. discriminate.
  Qed.
  Lemma around_in a b i : a < ngen -> a <> b -> (In i (around (s_dedge st) (zkey a b)) <-> touches tris a i /\ touches tris b i).
  Proof.
    intros L D. rewrite (ri_edge _ _ _ _ _ _ R), filter_In, andb_true_iff, (edgb_touches a b i D), in_seq. split; [tauto|].
    intros [A B]. pose proof (touches_lt _ _ A). pose proof (touches_real _ _ L A). repeat split; auto; lia.
  Qed.
  Lemma around_nodup e : NoDup (around (s_dedge st) e).
  Proof. rewrite (ri_edge _ _ _ _ _ _ R). apply NoDup_filter, seq_NoDup. Qed.
  Lemma g2t_ok p : p < length pts -> p < ngen -> exists l, nth_error (s_gen2tri st) p = Some l /\ NoDup l /\ forall i, In i l <-> touches tris p i.
  Proof.
    intros L L'. exists (filter (fun i => realb i && hasb tris p i) (seq 0 N)). split; [apply (ri_g2t _ _ _ _ _ _ R); auto|].
    split; [apply NoDup_filter, seq_NoDup|]. intros i. rewrite filter_In, andb_true_iff, <- touches_hasb, in_seq. split; [tauto|].
    intros T. pose proof (touches_lt _ _ T). pose proof (touches_real _ _ L' T). repeat split; auto; lia.
  Qed.
  Lemma id_ok i : i < N -> realb i = true -> nth_error (s_tri2id st) i = Some (Z.of_nat (nid i)) /\ nid i < length (s_nodes st).
  Proof.
    intros L H. pose proof (posn_nth realb N i L H) as P. split; [apply (ri_id _ _ _ _ _ _ R); auto|].
    rewrite (Forall2_len _ _ _ (ri_nodes _ _ _ _ _ _ R)). eapply nth_error_lt; eauto.
  Qed.

  Lemma cross_ok i k e edges : i < N -> realb i = true -> k < N -> realb k = true -> i <> k ->
    (forall x, In x (around (s_dedge st) e) <-> x = i \/ x = k) ->
    cross_edge st i (Z.of_nat (nid i)) e edges = Ok (oinsert edge_lt (zkey (nid i) (nid k)) edges).
  Proof.
    intros Li Ri Lk Rk D H. unfold cross_edge. destruct (id_ok k Lk Rk) as [Ek Bk].
    assert (Nn : nid i <> nid k) by (intros E; apply D; apply (posn_inj realb); auto).
    assert (X : (do h <- hashEdge (Z.of_nat (nid i)) (Z.of_nat (nid k)); Ok (oinsert edge_lt h edges)) = Ok (oinsert edge_lt (zkey (nid i) (nid k)) edges)).
    { fold (nhash (nid i) (nid k)). rewrite nhash_ok by auto. auto. }
    destruct (two_members _ _ _ (around_nodup e) D H) as [-> | ->]; cbn [length Nat.eqb assert bind get nth_error].
    - rewrite Nat.eqb_refl. cbn [orb assert bind]. rewrite (proj2 (get_ok _ _ _) Ek). cbn [bind].
      rewrite (proj2 (Z.leb_le 0 _)), (proj2 (Z.ltb_lt _ _)) by lia. cbn [andb assert bind].
      rewrite (proj2 (Z.eqb_neq _ _)) by lia. cbn [negb]. auto.
    - rewrite (proj2 (Nat.eqb_neq k i)), Nat.eqb_refl by auto. cbn [orb assert bind]. rewrite (proj2 (get_ok _ _ _) Ek). cbn [bind].
      rewrite (proj2 (Z.leb_le 0 _)), (proj2 (Z.ltb_lt _ _)) by lia. cbn [andb assert bind].
      rewrite (proj2 (Z.eqb_neq _ _)) by lia. cbn [negb]. auto.
  Qed.

  Section Ring.
    Context (p : nat) (link ts : list nat) (Lp : p < ngen) (Lpp : p < length pts) (St : Star tris p link ts).
    Let n := length link.
    Notation TR := (TR link ts).
    Notation LK := (LK link).

    Lemma TR_lt j : TR j < N. Proof. eapply touches_lt. eapply TR_touch; eauto. Qed.
    Lemma TR_real j : realb (TR j) = true. Proof. eapply touches_real; eauto. eapply TR_touch; eauto. Qed.
    Definition side (j : nat) : Z * Z := zkey (nid (TR j)) (nid (TR (j + 1))).

    Lemma other_ok a b c : nth_error tris 0 = nth_error tris 0 -> a <> b -> a <> c -> b <> c ->
      findOtherTriIndices [a; b; c] a = Ok (b, c) /\ findOtherTriIndices [b; c; a] a = Ok (b, c) /\ findOtherTriIndices [c; a; b] a = Ok (c, b).
    Proof.
      intros _ A B C. unfold findOtherTriIndices. cbn [length Nat.eqb assert bind get nth_error].
      rewrite !Nat.eqb_refl, (proj2 (Nat.eqb_neq a b)), (proj2 (Nat.eqb_neq a c)), (proj2 (Nat.eqb_neq b c)), (proj2 (Nat.eqb_neq c a)),
        (proj2 (Nat.eqb_neq b a)), (proj2 (Nat.eqb_neq c b)) by auto. cbn. auto.
    Qed.

    Lemma cross_next j edges : cross_edge st (TR j) (Z.of_nat (nid (TR j))) (zkey p (LK (j + 1))) edges = Ok (oinsert edge_lt (side j) edges).
    Proof.
      apply cross_ok; auto using TR_lt, TR_real.
      - intros E. apply (TR_next _ _ _ _ St j). auto.
      - intros x. rewrite around_in; auto; [apply (star_edge _ _ _ _ St Dist)|]. apply (TR_distinct _ _ _ _ St Dist).
    Qed.
    Lemma cross_prev j edges : cross_edge st (TR (j + 1)) (Z.of_nat (nid (TR (j + 1)))) (zkey p (LK (j + 1))) edges = Ok (oinsert edge_lt (side j) edges).
    Proof.
      unfold side. rewrite (zkey_sym (nid (TR j)) (nid (TR (j + 1)))). apply cross_ok; auto using TR_lt, TR_real.
      - apply (TR_next _ _ _ _ St j).
      - intros x. rewrite around_in; auto; [rewrite (star_edge _ _ _ _ St Dist); tauto|]. apply (TR_distinct _ _ _ _ St Dist).
    Qed.

    (* one triangle contributes its two sides *)
    Lemma star_edges_ok j edges : exists e1 e2, star_edges st p edges (TR (j + 1)) = Ok (oinsert edge_lt e2 (oinsert edge_lt e1 edges)) /\
      ((e1 = side j /\ e2 = side (j + 1)) \/ (e1 = side (j + 1) /\ e2 = side j)).
    Proof.
      unfold star_edges. destruct (id_ok _ (TR_lt (j + 1)) (TR_real (j + 1))) as [Ei Bi].
      rewrite (proj2 (get_ok _ _ _) Ei). cbn [bind]. rewrite (proj2 (Z.leb_le 0 _)), (proj2 (Z.ltb_lt _ _)) by lia. cbn [andb assert bind].
      destruct (TR_distinct _ _ _ _ St Dist (j + 1)) as (D1 & D2 & D3).
      destruct (TR_tri _ _ _ _ St (j + 1)) as (u & Hu & T).
      set (x := LK (j + 1)) in *. set (y := LK (j + 1 + 1)) in *.
      destruct (other_ok p x y eq_refl D1 D2 D3) as (O1 & O2 & O3).
      assert (C : exists q r gs, nth_error (s_tri2gens st) (TR (j + 1)) = Some gs /\ findOtherTriIndices gs p = Ok (q, r) /\
         ((q = x /\ r = y) \/ (q = y /\ r = x))).
      { destruct T as [-> | [-> | ->]];
        pose proof (ri_t2g _ _ _ _ _ _ R _ _ _ _ (TR_lt (j + 1)) Hu (TR_real (j + 1))) as G; eexists _, _, _; (split; [exact G|]); eauto. }
      destruct C as (q & r & gs & G & F & Q). rewrite (proj2 (get_ok _ _ _) G). cbn [bind]. rewrite F. cbn [bind].
      assert (Nq : p <> q /\ p <> r) by (destruct Q as [[-> ->] | [-> ->]]; auto). destruct Nq as [Nq Nr].
      rewrite (proj2 (Nat.eqb_neq p q)), (proj2 (Nat.eqb_neq p r)) by auto. cbn [negb andb assert bind].
      rewrite !nhash_ok by auto. cbn [bind].
      destruct Q as [[-> ->] | [-> ->]].
      - unfold x at 1. rewrite cross_prev. cbn [bind]. unfold y. rewrite cross_next. eauto 6.
      - unfold y at 1. rewrite cross_next. cbn [bind]. unfold x. rewrite cross_prev. eauto 6.
    Qed.

    Lemma TR_shift i : touches tris p i -> exists j, i = TR (j + 1).
    Proof.
      intros T. destruct (star_tri _ _ _ _ St i T) as (j & Lj & ->). pose proof (n3 _ _ _ _ St) as n3'. exists (j + n - 1). apply TR_eq.
      fold n; fold n in n3'. replace (j + n - 1 + 1) with (j + 1 * n) by lia. symmetry. apply Nat.mod_add. lia.
    Qed.

    Lemma mesh_edges_ok l : (forall i, In i l <-> touches tris p i) -> exists es, mfold (star_edges st p) l [] = Ok es /\
      StronglySorted (fun a b => edge_lt a b = true) es /\ forall e, In e es <-> exists j, e = side j.
    Proof.
      intros Hl.
      destruct (mfold_inv (star_edges st p) (fun l1 es => StronglySorted (fun a b => edge_lt a b = true) es /\
        (forall e, In e es -> exists j, e = side j) /\ (forall j, In (TR (j + 1)) l1 -> In (side j) es /\ In (side (j + 1)) es)) l []) as (es & E & S & A & B).
      - split; [constructor|]. split; intros ? [].
      - intros l1 i l2 es El (S & A & B).
        destruct (TR_shift i) as [j Ej]; [apply Hl; rewrite El; apply in_or_app; right; left; auto|]. subst i.
        destruct (star_edges_ok j es) as (e1 & e2 & E & C). eexists. split; [exact E|]. split; [|split].
        + apply (oinsert_sorted edge_lt (fun e => e) edge_tra edge_tot), (oinsert_sorted edge_lt (fun e => e) edge_tra edge_tot). auto.
        + intros e. rewrite !(oinsert_in edge_lt (fun e => e) edge_tot). intros [-> | [-> | I]]; auto;
            destruct C as [[-> ->] | [-> ->]]; eauto.
        + intros k Ik. rewrite !(oinsert_in edge_lt (fun e => e) edge_tot). apply in_app_or in Ik as [Ik|[Ik|[]]].
          * destruct (B k Ik). auto.
          * assert (Q : side k = side j /\ side (k + 1) = side (j + 1)).
            { apply (TR_inj _ _ _ _ St) in Ik. fold n in Ik. pose proof (n3 _ _ _ _ St) as n3'. fold n in n3'.
              assert (X : j mod n = k mod n) by (apply mod_succ_inj; auto; lia).
              unfold side. rewrite (TR_eq link ts k j), (TR_eq link ts (k + 1) (j + 1)), (TR_eq link ts (k + 1 + 1) (j + 1 + 1)); auto.
              fold n. rewrite <- (Nat.add_mod_idemp_l (k + 1)), <- (Nat.add_mod_idemp_l (j + 1)), Ik by lia. auto. }
            destruct Q as [-> ->]. destruct C as [[-> ->] | [-> ->]]; auto.
      - exists es. split; auto. split; auto. intros e. split; auto. intros [j ->]. apply B. apply Hl. eapply TR_touch; eauto.
    Qed.
  End Ring.
End Cell.
