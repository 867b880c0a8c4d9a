(* The mesh is dual to the triangulation. *)
From Coq Require Import QArith Sorted Permutation.
From Verif Require Import Base BaseFacts StdAlg KeyMapModel KeyMapProofs FaceSortModel FaceSortSpec FaceSortProofs FaceSortProofs4 SerializeModel MeshEditorModel MeshEditorProofs2 QuantMeshModel BoxModel PLCSpec Plane AreaModel AreaProofs2 PolygonProofs2 TriModel TriSpec TriProofs TriProofs2 TriProofs3 TriProofs4.
Local Open Scope nat_scope.

Record RingOf (ngen : nat) (tris : list tri) (link ts r : list nat) : Prop := {
  ro_len : length r = length link;
  ro_nodup : NoDup r;
  ro_in : forall k, In k r <-> exists j, k = nid ngen tris (TR link ts j);
  ro_adj : forall i x y, nth_error r i = Some x -> nth_error r ((i + 1) mod length link) = Some y ->
     exists m, (x = nid ngen tris (TR link ts m) /\ y = nid ngen tris (TR link ts (m + 1))) \/
               (x = nid ngen tris (TR link ts (m + 1)) /\ y = nid ngen tris (TR link ts m));
  ro_dir : exists m, (forall i, nid ngen tris (TR link ts m) <= nid ngen tris (TR link ts i)) /\
     nth_error r (length link - 1) = Some (nid ngen tris (TR link ts m)) /\
     ((nth_error r 0 = Some (nid ngen tris (TR link ts (m + 1))) /\ nid ngen tris (TR link ts (m + 1)) < nid ngen tris (TR link ts (m + length link - 1))) \/
      (nth_error r 0 = Some (nid ngen tris (TR link ts (m + length link - 1))) /\ nid ngen tris (TR link ts (m + length link - 1)) < nid ngen tris (TR link ts (m + 1)))) }.

Section Build.
  Context (f : frame) (pts : list p2) (ngen : nat) (tris : list tri) (st : stars)
    (R : RI f pts ngen tris (length tris) st)
    (Dist : forall i a b c, nth_error tris i = Some (a, b, c) -> a <> b /\ a <> c /\ b <> c)
    (Lg : ngen <= length pts)
    (Stars : forall p, p < ngen -> exists link ts, Star tris p link ts).

  Lemma nid_TR p link ts : p < ngen -> Star tris p link ts -> forall i j,
    nid ngen tris (TR link ts i) = nid ngen tris (TR link ts j) <-> i mod length link = j mod length link.
  Proof.
    intros Lp S i j. split; intros E.
    - apply (TR_inj _ _ _ _ S). apply (posn_inj (realb ngen tris)); auto; eapply TR_real; eauto.
    - f_equal. apply TR_eq. auto.
  Qed.

  Lemma build_cell_ok p link ts e2id edges cs : p < ngen -> Star tris p link ts -> positional e2id -> edges = map fst e2id ->
    exists e2id' l c r, build_cell st (e2id, edges, cs) p = Ok (e2id', edges ++ l, cs ++ [c]) /\ RingOf ngen tris link ts r /\
      positional e2id' /\ edges ++ l = map fst e2id' /\ map (way (edges ++ l)) c = map Some (ring r) /\
      forall e, In e l -> exists a b, In (a, b) (ring r) /\ e = edge_key a b.
  Proof.
    intros Lp S P Ed. unfold build_cell.
    destruct (g2t_ok f pts ngen tris st R Dist p) as (gl & Eg & Ng & Ig); [lia|auto|].
    rewrite (proj2 (get_ok _ _ _) Eg). cbn [bind].
    destruct (mesh_edges_ok f pts ngen tris st R Dist p link ts Lp (Nat.lt_le_trans _ _ _ Lp Lg) S gl Ig) as (es & Es & So & Ie). rewrite Es. cbn [bind].
    destruct (sorted_ring (length link) (fun j => nid ngen tris (TR link ts j)) (st_size _ _ _ _ S) (nid_TR p link ts Lp S) es So Ie)
      as (r & Er & Lr & Nr & Ir & Adj & Dir).
    rewrite Er. cbn [bind]. cbv zeta. rewrite map_map. rewrite (map_ext (fun x => Z.to_nat (Z.of_nat x)) (fun x => x)), map_id by (intros; lia).
    pose proof (st_size _ _ _ _ S) as L3. rewrite (proj2 (Nat.leb_le 3 (length r))) by lia. cbn [assert bind].
    destruct (ring_fold r e2id edges P Ed Nr) as (m & l & c & E & Pm & Em & W & New); [lia|].
    rewrite E. cbn [bind]. exists m, l, c, r. split; auto. split; [|auto]. constructor; auto.
  Qed.

  Definition Built (k : nat) (s : keymap (K := nat * nat) * list (nat * nat) * list (list Z)) : Prop :=
    let '(m, edges, cs) := s in positional m /\ edges = map fst m /\ length cs = k /\
    (forall p c, nth_error cs p = Some c -> exists link ts r, Star tris p link ts /\ RingOf ngen tris link ts r /\ map (way edges) c = map Some (ring r)) /\
    (forall e, In e edges -> exists p c link ts r a b, nth_error cs p = Some c /\ Star tris p link ts /\ RingOf ngen tris link ts r /\
        map (way edges) c = map Some (ring r) /\ In (a, b) (ring r) /\ e = edge_key a b).

  Lemma build_ok : exists m edges cs, mfold (build_cell st) (seq 0 ngen) ([], [], []) = Ok (m, edges, cs) /\ Built ngen (m, edges, cs).
  Proof.
    destruct (mfold_seq (build_cell st) Built ngen ([], [], [])) as ([[m es] cs] & E & B).
    - split; [split; [intros [|i] q H; discriminate|constructor]|]. repeat split; auto; [intros [|p] c H; discriminate|intros e []].
    - intros k [[m es] cs] Lk (P & Ed & Lc & Hc & He). destruct (Stars k Lk) as (link & ts & S).
      destruct (build_cell_ok k link ts m es cs Lk S P Ed) as (m' & l & c & r & E & Ro & P' & Ed' & W & New).
      exists (m', es ++ l, cs ++ [c]). split; auto. split; auto. split; auto. split; [rewrite app_length; cbn; lia|]. split.
      + intros p c' H. destruct (Nat.lt_ge_cases p (length cs)) as [L|L].
        * rewrite nth_error_app1 in H by auto. destruct (Hc _ _ H) as (lk & t' & r' & A & B & C). exists lk, t', r'. split; auto. split; auto. apply map_way_app; auto.
        * rewrite nth_error_app2 in H by auto. destruct (p - length cs) as [|d] eqn:D; [|destruct d; discriminate]. injection H as <-.
          assert (p = k) by lia. subst p. eauto 6.
      + intros e I. apply in_app_or in I as [I|I].
        * destruct (He _ I) as (p & c' & lk & t' & r' & a & b & A & B & C & D & F & G). exists p, c', lk, t', r', a, b.
          rewrite nth_error_app1 by (eapply nth_error_lt; eauto). split; auto. split; auto. split; auto. split; auto. apply map_way_app; auto.
        * destruct (New _ I) as (a & b & A & B). exists k, c, link, ts, r, a, b. rewrite nth_error_app2, Lc, Nat.sub_diag by lia. auto 10.
    - eauto.
  Qed.

  Lemma owner_nid k i : owner ngen tris k i <-> i < length tris /\ realb ngen tris i = true /\ k = nid ngen tris i.
  Proof.
    unfold owner, owners. fold (realb ngen tris). split.
    - intros H. apply (posn_unique (realb ngen tris)) in H. auto.
    - intros (L & H & ->). apply (posn_nth (realb ngen tris)); auto.
  Qed.

  Lemma pair_tris p link ts r a b : p < ngen -> Star tris p link ts -> RingOf ngen tris link ts r -> In (a, b) (ring r) ->
    exists m, (a = nid ngen tris (TR link ts m) /\ b = nid ngen tris (TR link ts (m + 1))) \/
              (a = nid ngen tris (TR link ts (m + 1)) /\ b = nid ngen tris (TR link ts m)).
  Proof.
    intros Lp S Ro I. apply In_nth_error in I as [i I]. apply ring_nth in I as (Li & Ha & Hb). rewrite (ro_len _ _ _ _ _ Ro) in Hb.
    apply (ro_adj _ _ _ _ _ Ro i); auto.
  Qed.
  Lemma pair_owner p link ts : p < ngen -> Star tris p link ts -> forall j, owner ngen tris (nid ngen tris (TR link ts j)) (TR link ts j).
  Proof. intros Lp S j. apply owner_nid. split; [eapply TR_lt; eauto|]. split; auto. eapply TR_real; eauto. Qed.
  Lemma pair_across p link ts r a b : p < ngen -> Star tris p link ts -> RingOf ngen tris link ts r -> In (a, b) (ring r) ->
    exists q, AcrossEdge ngen tris p q a b.
  Proof.
    intros Lp S Ro I. destruct (pair_tris p link ts r a b Lp S Ro I) as (m & Q). exists (LK link (m + 1)).
    destruct (TR_distinct _ _ _ _ S Dist m) as (_ & Np & _). split; auto.
    pose proof (proj2 (star_edge _ _ _ _ S Dist m (TR link ts m)) (or_introl eq_refl)) as [T1 T2].
    pose proof (proj2 (star_edge _ _ _ _ S Dist m (TR link ts (m + 1))) (or_intror eq_refl)) as [T3 T4].
    pose proof (TR_next _ _ _ _ S m) as Nx. pose proof (pair_owner p link ts Lp S) as O.
    destruct Q as [[-> ->]|[-> ->]]; do 2 eexists; (split; [apply O|]); (split; [apply O|]); auto 10.
  Qed.
  Lemma ring_length3 p link ts r : Star tris p link ts -> RingOf ngen tris link ts r -> 3 <= length r.
  Proof. intros S Ro. rewrite (ro_len _ _ _ _ _ Ro). apply (st_size _ _ _ _ S). Qed.
  Lemma pair_neq p link ts r a b : p < ngen -> Star tris p link ts -> RingOf ngen tris link ts r -> In (a, b) (ring r) -> a <> b.
  Proof.
    intros Lp S Ro I E. destruct (pair_tris p link ts r a b Lp S Ro I) as (m & Q).
    apply (ids_next (length link) (fun j => nid ngen tris (TR link ts j)) (st_size _ _ _ _ S) (nid_TR p link ts Lp S) m). destruct Q as [[-> ->]|[-> ->]]; auto.
  Qed.
  Lemma pair_lt p link ts r k : p < ngen -> Star tris p link ts -> RingOf ngen tris link ts r -> In k r -> k < length (s_nodes st).
  Proof.
    intros Lp S Ro I. apply (ro_in _ _ _ _ _ Ro) in I as [j ->]. apply (id_ok f pts ngen tris st R); [eapply TR_lt; eauto|eapply TR_real; eauto].
  Qed.
  Lemma ring_members {A} (r : list A) a b : In (a, b) (ring r) -> In a r /\ In b r.
  Proof. intros I. apply In_nth_error in I as [i I]. apply ring_nth in I as (_ & A1 & A2). split; eapply nth_error_In; eauto. Qed.

  (* the edge under a side of a ring *)
  Lemma side_edge edges c r z : map (way edges) c = map Some (ring r) -> In z c ->
    exists a b, In (a, b) (ring r) /\ (nth_error edges (pid z) = Some (a, b) \/ nth_error edges (pid z) = Some (b, a)).
  Proof.
    intros W I. apply (in_map (way edges)) in I. rewrite W in I. apply in_map_iff in I as ([a b] & E & I). exists a, b. split; auto. apply way_edge. auto.
  Qed.
  Lemma edge_side edges c r a b : map (way edges) c = map Some (ring r) -> In (a, b) (ring r) ->
    exists z, In z c /\ (nth_error edges (pid z) = Some (a, b) \/ nth_error edges (pid z) = Some (b, a)).
  Proof.
    intros W I. apply (in_map Some) in I. rewrite <- W in I. apply in_map_iff in I as (z & E & I). exists z. split; auto. apply way_edge. auto.
  Qed.

  Lemma dual_of m edges cs : Built ngen (m, edges, cs) -> Dual ngen tris (length (s_nodes st)) edges cs.
  Proof.
    intros ([P0 P] & Ed & Lc & Hc & He). rewrite <- Ed in P.
    assert (Ord : forall a b, In (a, b) edges -> a < b /\ b < length (s_nodes st)).
    { intros a b I. destruct (He _ I) as (p & c & link & ts & r & x & y & Hp & S & Ro & W & Ixy & Q).
      assert (Lp : p < ngen) by (rewrite <- Lc; eapply nth_error_lt; eauto).
      pose proof (pair_neq p link ts r x y Lp S Ro Ixy) as N. destruct (ring_members r x y Ixy) as [Ix Iy].
      apply (pair_lt p link ts r) in Ix; auto. apply (pair_lt p link ts r) in Iy; auto.
      destruct (edge_key_cases x y N) as [[L K]|[L K]]; rewrite K in Q; injection Q as -> ->; auto. }
    constructor; auto.
    - apply (Forall2_len _ _ _ (ri_nodes _ _ _ _ _ _ R)).
    - intros p c H. assert (Lp : p < ngen) by (rewrite <- Lc; eapply nth_error_lt; eauto).
      destruct (Hc _ _ H) as (link & ts & r & S & Ro & W). exists r. split; auto. split; [eapply ring_length3; eauto|]. split; [apply (ro_nodup _ _ _ _ _ Ro)|].
      split; [|intros a b; apply (pair_across p link ts); auto].
      intros k. rewrite (ro_in _ _ _ _ _ Ro). split.
      + intros [j ->]. exists (TR link ts j). split; [eapply pair_owner; eauto|eapply TR_touch; eauto].
      + intros (i & O & T). apply owner_nid in O as (_ & _ & ->). destruct (star_tri _ _ _ _ S i T) as (j & _ & ->). eauto.
    - intros e a b H. destruct (He _ (nth_error_In _ _ H)) as (p & c & link & ts & r & x & y & Hp & S & Ro & W & Ixy & Q).
      assert (Lp : p < ngen) by (rewrite <- Lc; eapply nth_error_lt; eauto).
      destruct (pair_across p link ts r x y Lp S Ro Ixy) as (q & Npq & i & j & Oi & Oj & Nij & Tpi & Tqi & Tpj & Tqj).
      assert (Nxy : x <> y) by (eapply pair_neq; eauto).
      assert (AB : (a = x /\ b = y) \/ (a = y /\ b = x)).
      { destruct (edge_key_cases x y Nxy) as [[L K]|[L K]]; rewrite K in Q; injection Q as -> ->; auto. }
      exists p, q. split; [|split; auto].
      { split; auto. destruct AB as [[-> ->]|[-> ->]]; [exists i, j|exists j, i]; auto 10. }
      assert (Same : forall z u v, (nth_error edges (pid z) = Some (u, v) \/ nth_error edges (pid z) = Some (v, u)) ->
         ((u = x /\ v = y) \/ (u = y /\ v = x)) -> pid z = e).
      { intros z u v Hz D. assert (G : nth_error edges (pid z) = Some (a, b)).
        { destruct (Ord a b (nth_error_In _ _ H)) as [Lab _].
          destruct Hz as [Hz|Hz]; destruct (Ord _ _ (nth_error_In _ _ Hz)) as [Luv _]; rewrite Hz; f_equal; f_equal; lia. }
        apply (proj1 (NoDup_nth_error edges) P); [eapply nth_error_lt; eauto|congruence]. }
      apply owner_nid in Oi as (Li & Ri & Ei). apply owner_nid in Oj as (Lj & Rj & Ej).
      intros p' c' H'. assert (Lp' : p' < ngen) by (rewrite <- Lc; eapply nth_error_lt; eauto).
      destruct (Hc _ _ H') as (link' & ts' & r' & S' & Ro' & W'). split.
      + intros (z & Iz & Ez). destruct (side_edge _ _ _ _ W' Iz) as (u & v & Iuv & Huv). rewrite Ez, H in Huv.
        destruct (pair_across p' link' ts' r' u v Lp' S' Ro' Iuv) as (q' & Npq' & i' & j' & Oi' & Oj' & Nij' & Ti & Tqi' & Tj & Tqj').
        apply owner_nid in Oi' as (Li' & Ri' & Ei'). apply owner_nid in Oj' as (Lj' & Rj' & Ej').
        assert (UV : (u = x /\ v = y) \/ (u = y /\ v = x)) by (destruct Huv as [Hv|Hv]; injection Hv as -> ->; lia).
        assert (IJ : (i' = i /\ j' = j) \/ (i' = j /\ j' = i)).
        { destruct UV as [[Eu Ev]|[Eu Ev]]; [left|right]; split; apply (posn_inj (realb ngen tris)); auto; unfold nid in *; congruence. }
        destruct (Nat.eq_dec p' p) as [->|Np]; auto. right.
        apply (star_share _ _ _ _ S Dist i j); auto; destruct IJ as [[-> ->]|[-> ->]]; auto.
      + intros [-> | ->].
        * rewrite Hp in H'. injection H' as <-. destruct (edge_side _ _ _ _ _ W Ixy) as (z & Iz & Hz). exists z. split; auto. apply (Same z x y); auto.
        * destruct (star_link _ _ _ _ S' Dist p i Tqi Tpi ltac:(auto)) as (k & Ek & Hk).
          assert (Hk' : j = TR link' ts' k \/ j = TR link' ts' (k + 1)) by (apply (star_edge _ _ _ _ S' Dist); rewrite <- Ek; auto).
          destruct (cyc_all (length link') (fun j => nid ngen tris (TR link' ts' j)) (st_size _ _ _ _ S') (nid_TR q link' ts' Lp' S') r'
            (ro_len _ _ _ _ _ Ro') (ro_nodup _ _ _ _ _ Ro') (ro_adj _ _ _ _ _ Ro') k) as (u & v & Iuv & Huv).
          destruct (edge_side _ _ _ _ _ W' Iuv) as (z & Iz & Hz). exists z. split; auto. apply (Same z u v); auto.
          clear - Ei Ej Hk Hk' Huv Nij. destruct Hk as [-> | ->], Hk' as [-> | ->]; try congruence; lia.
  Qed.
End Build.
