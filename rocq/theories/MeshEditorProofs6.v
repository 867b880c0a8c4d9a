(* cleanEdges as a whole. *)
From Verif Require Import Base BaseFacts StdAlg Rank SerializeModel MeshModel MeshSpec MeshProofs MeshProofs2
  KeyMapModel MeshEditorModel MeshEditorSpec MeshEditorProofs MeshEditorProofs2 MeshEditorProofs3 MeshEditorProofs4
  MeshEditorProofs5.
From Coq Require Import Lia Sorted QArith Lqa.
Local Open Scope nat_scope.

Lemma segment_sym m f a b : segment m f a b -> segment m f b a.
Proof. intros [?|?]; [right|left]; auto. Qed.

Lemma key_segment m z a b x y : nth_error (faces m) (pid z) = Some [x; y] -> edge_key x y = edge_key a b ->
  segment m (pid z) a b.
Proof. intros H E. apply edge_key_eq in E as [[-> ->]|[-> ->]]; [left|right]; auto. Qed.

Section Whole.
  Context (tol : Q) (m : mesh Q).
  Hypothesis Tpos : (0 < tol)%Q.
  Hypothesis WF : WellFormed 2 m.
  Hypothesis PL : Planar m.
  Hypothesis SB : simple_border m.
  Let nn := numNodes 2 m.
  Let nf := length (faces m).

  Section Tables.
  Context (st : estate) (c2e : list (list nat)).
  Hypothesis EI : EInv m st.
  Hypothesis NC : Forall2 (named_cell m st) (cells m) c2e.
  Hypothesis KS : forall k, In k (keys st) -> exists c z a b, In c (cells m) /\ In z c /\
        nth_error (faces m) (pid z) = Some [a; b] /\ k = edge_key a b.
  Let K := keys st.

  Lemma Knd : NoDup K.
  Proof. apply (ei_pos _ _ EI). Qed.
  Lemma Klen : length K = length (elen st).
  Proof. unfold K, keys. rewrite map_length. symmetry; apply (ei_len _ _ EI). Qed.

  Lemma Kin i a b : nth_error K i = Some (a, b) -> a < b /\ a < nn /\ b < nn.
  Proof.
    intros H. destruct (ei_key _ _ EI _ _ _ H) as (N & La & Lb & _).
    destruct (KS (a, b)) as (c & z & x & y & Ic & Iz & Hf & E); [eapply nth_error_In; eauto|].
    split; [|split; auto]. symmetry in E. apply (edge_key_lt x y a b); auto.
    intros ->. destruct (pl_face _ PL _ _ Hf) as (u & v & E' & N'). inversion E'; congruence.
  Qed.

  Lemma Kinj i j k : nth_error K i = Some k -> nth_error K j = Some k -> i = j.
  Proof. intros Hi Hj. apply (proj1 (NoDup_nth_error K) Knd); [eapply nth_error_lt; eauto|congruence]. Qed.

  (* edges of cell j are exactly the entries of c2e[j] *)
  Lemma cell_ids j c : nth_error (cells m) j = Some c -> exists ids, nth_error c2e j = Some ids /\ Forall2 (nameF m st) c ids.
  Proof. intros H. destruct (Forall2_nth _ _ _ _ _ NC H) as (ids & Hi & F). eauto. Qed.
  Lemma ids_cell ids : In ids c2e -> exists j c, nth_error (cells m) j = Some c /\ nth_error c2e j = Some ids /\ Forall2 (nameF m st) c ids.
  Proof.
    intros I. apply In_nth_error in I as [j Hj]. destruct (Forall2_nth_r _ _ _ _ _ NC Hj) as (c & Hc & F). eauto.
  Qed.
  Lemma id_edge j c ids i a b : nth_error (cells m) j = Some c -> Forall2 (nameF m st) c ids -> In i ids ->
    nth_error K i = Some (edge_key a b) -> cell_edge m j a b.
  Proof.
    intros Hc F I Hk. destruct (Forall2_in_r _ _ _ _ F I) as (z & Iz & x & y & Hf & Hx).
    exists c, z. split; auto. split; auto. eapply key_segment; eauto. fold K in Hx. congruence.
  Qed.
  Lemma edge_id j a b : cell_edge m j a b -> exists ids i, nth_error c2e j = Some ids /\ In i ids /\ nth_error K i = Some (edge_key a b).
  Proof.
    intros (c & z & Hc & Iz & S). destruct (cell_ids j c Hc) as (ids & Hi & F).
    destruct (Forall2_in_l _ _ _ _ F Iz) as (i & Ii & x & y & Hf & Hx). exists ids, i. split; auto. split; auto.
    unfold K. rewrite Hx. f_equal. destruct S as [S|S]; rewrite S in Hf; inversion Hf; subst; auto. apply edge_key_sym.
  Qed.

  Lemma ids_range ids e : In ids c2e -> In e ids -> e < length (elen st).
  Proof.
    intros I Ie. destruct (ids_cell ids I) as (j & c & Hc & _ & F).
    destruct (Forall2_in_r _ _ _ _ F Ie) as (z & Iz & x & y & Hf & Hx).
    rewrite <- Klen. eapply nth_error_lt; eauto.
  Qed.

  Lemma len_key i a b : nth_error K i = Some (edge_key a b) -> (nth i (elen st) 0 == len2 m a b)%Q.
  Proof.
    intros H. destruct (edge_key a b) as [x y] eqn:E.
    destruct (ei_key _ _ EI _ _ _ H) as (_ & _ & _ & q & Hq & Eq). rewrite (nth_error_nth _ _ 0%Q Hq), Eq.
    destruct (edge_key_or a b) as [E'|E']; rewrite E in E'; inversion E'; subst.
    - reflexivity.
    - apply dist2_comm.
  Qed.

  Lemma len_nonneg e : (0 <= nth e (elen st) 0)%Q.
  Proof.
    destruct (Nat.lt_ge_cases e (length K)) as [L|L].
    - destruct (nth_error_ex K e L) as [[a b] H]. destruct (ei_key _ _ EI _ _ _ H) as (_ & _ & _ & q & Hq & Eq).
      rewrite (nth_error_nth _ _ 0%Q Hq), Eq. apply dist2_nonneg.
    - rewrite nth_overflow by (rewrite <- Klen; auto). lra.
  Qed.

  Lemma sh_short mx i a b : max_inv (elen st) c2e mx -> nth_error K i = Some (edge_key a b) ->
    (sh tol (elen st) mx i <-> short m tol a b).
  Proof.
    intros M Hi. assert (Li : i < length (elen st)) by (rewrite <- Klen; eapply nth_error_lt; eauto).
    destruct (nth_error_ex mx i) as [x Hx]; [rewrite (proj1 M); auto|].
    pose proof (short_iff (elen st) c2e tol mx i x M Hx len_nonneg) as SI.
    assert (SH : sh tol (elen st) mx i <-> Qlt_bool (nth i (elen st) 0%Q) (tol * tol * x) = true).
    { unfold sh. rewrite (nth_error_nth' _ 0%Q Li), Hx. split.
      - intros (le & y & E1 & E2 & L). inversion E1; inversion E2; subst; auto.
      - intros L. eauto. }
    rewrite SH, SI. split.
    - intros (ids & e' & I1 & I2 & I3 & L). destruct (ids_cell ids I1) as (j & c & Hc & _ & F).
      assert (Le : e' < length K) by (rewrite Klen; eapply ids_range; eauto).
      destruct (nth_error_ex K e' Le) as [k Hk].
      destruct (KS k) as (_ & z & p & q & _ & _ & _ & ->); [eapply nth_error_In; eauto|].
      exists j, p, q. split; [apply (id_edge j c ids i a b); auto|]. split; [apply (id_edge j c ids e' p q); auto|].
      rewrite <- (len_key i a b), <- (len_key e' p q); auto.
    - intros (j & p & q & C1 & C2 & L).
      destruct (edge_id j a b C1) as (ids & i' & Hid & I1 & K1). destruct (edge_id j p q C2) as (ids' & e' & Hid' & I2 & K2).
      rewrite Hid in Hid'; inversion Hid'; subst ids'. rewrite (Kinj i' i _ K1 Hi) in I1.
      exists ids, e'. split; [eapply nth_error_In; eauto|]. split; auto. split; auto.
      rewrite (len_key i a b), (len_key e' p q); auto.
  Qed.

  Lemma short_key a b : short m tol a b -> exists i, nth_error K i = Some (edge_key a b).
  Proof. intros (j & p & q & C & _). destruct (edge_id j a b C) as (ids & i & _ & _ & H). eauto. Qed.

  (* every face has an edge id *)
  Lemma face_id f : f < nf -> exists a b i, nth_error (faces m) f = Some [a; b] /\ nth_error K i = Some (edge_key a b) /\
    find nedge_lt (edge_key a b) (e2i st) = Some i.
  Proof.
    intros L. pose proof (face_in_cell m WF f L) as I. apply in_map_iff in I as (z & Ez & I).
    apply in_concat in I as (c & Ic & Iz). apply In_nth_error in Ic as [j Hc].
    destruct (cell_ids j c Hc) as (ids & _ & F). destruct (Forall2_in_l _ _ _ _ F Iz) as (i & _ & a & b & Hf & Hk).
    rewrite Ez in Hf. exists a, b, i. split; auto. split; auto. apply find_pos; auto. apply (ei_pos _ _ EI).
  Qed.

  (* ---- face mask ---- *)
  Lemma face_masks_ok pairs em : length em = length K ->
    (forall i v, nth_error em i = Some v ->
       (v = 0 /\ exists k d, In (k, d) pairs /\ nth_error K i = Some (edge_key k d)) \/
       (v = 1 /\ ~ exists k d, In (k, d) pairs /\ nth_error K i = Some (edge_key k d))) ->
    exists fm, face_masks 2 m (e2i st) em = Ok fm /\ length fm = nf /\
      forall f a b, nth_error (faces m) f = Some [a; b] -> exists v, nth_error fm f = Some v /\
        ((v = 0 /\ (In (a, b) pairs \/ In (b, a) pairs)) \/ (v = 1 /\ ~ In (a, b) pairs /\ ~ In (b, a) pairs)).
  Proof.
    intros Le Em. unfold face_masks. fold nf.
    match goal with |- context [mfold ?g (seq 0 nf) _] => set (step := g) end.
    destruct (mfold_seq step (fun n fm => length fm = nf /\ (forall f, n <= f -> f < nf -> nth_error fm f = Some 1) /\
      forall f a b, f < n -> nth_error (faces m) f = Some [a; b] -> exists v, nth_error fm f = Some v /\
        ((v = 0 /\ (In (a, b) pairs \/ In (b, a) pairs)) \/ (v = 1 /\ ~ In (a, b) pairs /\ ~ In (b, a) pairs)))
      nf (repeat 1 nf)) as (fm & -> & A & _ & C).
    - split; [apply repeat_length|]. split; [intros; apply nth_error_repeat; auto|intros; lia].
    - intros n fm Lnf (A & B & C). destruct (face_id n Lnf) as (a & b & i & Hf & Hk & Fd).
      unfold step. rewrite (proj2 (get_ok _ _ _) Hf). cbn [bind]. change (face_edges [a; b]) with [(a, b)].
      cbn [mfold]. rewrite Fd. assert (Li : i < length em) by (rewrite Le; eapply nth_error_lt; eauto).
      destruct (nth_error_ex em i Li) as [v Hv]. rewrite (proj2 (get_ok _ _ _) Hv). cbn [bind plus Nat.eqb].
      assert (PK : (exists k d, In (k, d) pairs /\ nth_error K i = Some (edge_key k d)) <-> In (a, b) pairs \/ In (b, a) pairs).
      { split.
        - intros (k & d & I & E). rewrite Hk in E. inversion E as [E']. apply edge_key_eq in E' as [[-> ->]|[-> ->]]; auto.
        - intros [I|I]; [exists a, b|exists b, a]; split; auto. rewrite edge_key_sym; auto. }
      destruct (Em i v Hv) as [[-> P]|[-> P]]; rewrite PK in P.
      + change (0 <? 1) with true. cbv iota. rewrite set_lt by lia. eexists; split; [reflexivity|]. split; [rewrite upd_length; auto|]. split.
        * intros f L1 L2. rewrite upd_other by lia. apply B; lia.
        * intros f x y L Hxy. destruct (Nat.eq_dec f n) as [->|N].
          -- rewrite upd_same by lia. exists 0. split; auto. left; split; auto. rewrite Hf in Hxy; inversion Hxy; subst; auto.
          -- rewrite upd_other by auto. apply C; auto; lia.
      + change (1 <? 1) with false. cbv iota. eexists; split; [reflexivity|]. split; auto. split.
        * intros; apply B; lia.
        * intros f x y L Hxy. destruct (Nat.eq_dec f n) as [->|N].
          -- exists 1. split; [apply B; auto|]. right. rewrite Hf in Hxy; inversion Hxy; subst. tauto.
          -- apply C; auto; lia.
    - exists fm. split; auto. split; auto. intros f a b Hf. apply C; auto. eapply nth_error_lt; eauto.
  Qed.

  (* carrying out a given set of collapses *)
  Lemma collapse_ok pairs em nm1 col : pairs <> [] -> NoDup (ends pairs) ->
    (forall k d, In (k, d) pairs -> exists i, nth_error K i = Some (edge_key k d)) ->
    length em = length K -> length nm1 = nn -> length col = nn ->
    (forall i v, nth_error em i = Some v ->
       (v = 0 /\ exists k d, In (k, d) pairs /\ nth_error K i = Some (edge_key k d)) \/
       (v = 1 /\ ~ exists k d, In (k, d) pairs /\ nth_error K i = Some (edge_key k d))) ->
    (forall n, n < nn -> exists v, nth_error nm1 n = Some v /\ ((v = 0 /\ removed pairs n) \/ (v = 1 /\ ~ removed pairs n))) ->
    (forall n v, nth_error col n = Some v -> In (v, n) pairs \/ (v = n /\ ~ removed pairs n)) ->
    exists m', collapse 2 m (e2i st) em nm1 col = Ok m' /\ exists keepF keepN, Collapsed m m' pairs keepF keepN.
  Proof.
    intros Pne Once Chosen Lem Lnm1 Lcol Em Hn1 Col. unfold collapse.
    destruct (face_masks_ok pairs em Lem Em) as (fm & -> & Lfm & Hfm). cbn [bind].
    assert (On : forall n, n < nn -> (on nm1 n = true <-> ~ removed pairs n)).
    { intros n L. destruct (Hn1 n L) as (v & Hv & C). rewrite (on_nth _ _ _ Hv).
      destruct C as [[-> R]|[-> R]]; cbn; split; intros; auto; try discriminate; contradiction. }
    assert (Bn : forall k, In k nm1 -> k = 0 \/ k = 1).
    { intros k I. apply In_nth_error in I as [n H]. destruct (Hn1 n) as (v & Hv & C).
      - rewrite <- Lnm1; eapply nth_error_lt; eauto.
      - rewrite H in Hv; inversion Hv; subst. tauto. }
    assert (Bf : forall k, In k fm -> k = 0 \/ k = 1).
    { intros k I. apply In_nth_error in I as [f H]. pose proof (nth_error_lt _ _ _ H) as L. rewrite Lfm in L.
      destruct (face_ends m WF PL f L) as (a & b & Hf & _). destruct (Hfm f a b Hf) as (v & Hv & C).
      rewrite H in Hv; inversion Hv; subst. tauto. }
    destruct (prefix_map nm1 0) as [nmap0 ncount] eqn:Pn. destruct (prefix_map_spec _ _ _ _ Pn) as (Ln0 & Nc & Hn0).
    destruct (prefix_map fm 0) as [fmap fcount] eqn:Pf. destruct (prefix_map_spec _ _ _ _ Pf) as (Lf0 & Fc & Hf0).
    assert (ColK : forall i k, nth_error col i = Some k -> k < nn /\ nth_error col k = Some k /\ ~ removed pairs k).
    { intros i k H. assert (Li : i < nn) by (rewrite <- Lcol; eapply nth_error_lt; eauto).
      assert (Lk : k < nn /\ ~ removed pairs k).
      { destruct (Col i k H) as [I|[-> R]]; [|auto]. split.
        - destruct (Chosen k i I) as (e & Hk). destruct (edge_key k i) as [x y] eqn:E.
          destruct (Kin e x y Hk) as (_ & X & Y).
          destruct (edge_key_or k i) as [E'|E']; rewrite E in E'; inversion E'; subst; auto.
        - intros (k' & Ik'). destruct (in_split _ _ I) as (l1 & l2 & El). unfold ends in Once.
          rewrite El, flat_map_app in Once. cbn in Once. apply NoDup_remove_2 in Once. apply Once.
          rewrite in_app_iff. cbn. rewrite !in_flat_map. rewrite El in Ik'. apply in_app_iff in Ik' as [Ik'|[Ik'|Ik']].
          + left. exists (k', k); cbn; auto.
          + inversion Ik'; subst. auto.
          + right. right. exists (k', k); cbn; auto. }
      destruct Lk as [Lk R]. split; auto. split; auto.
      destruct (nth_error_ex col k ltac:(lia)) as [v Hv]. rewrite Hv. f_equal.
      destruct (Col k v Hv) as [I|[E _]]; auto. exfalso; apply R. exists v; auto. }
    destruct (collapse_map_ok col nmap0) as (nmap & -> & Lnmap & Hnmap).
    { lia. }
    { intros i k H. destruct (ColK i k H) as (? & ? & _). split; auto. lia. }
    cbn [bind]. rewrite (total_rank nm1 Bn). subst ncount. cbn [plus]. rewrite Nat.eqb_refl. cbn [assert bind].
    assert (Fle : (fcount <=? length (faces m)) = true).
    { apply Nat.leb_le. subst fcount. pose proof (rank_bound (on fm) (length fm)). fold nf. lia. }
    rewrite Fle. cbn [assert bind].
    destruct pairs as [|[k0 d0] rest] eqn:Ep; [congruence|]. rewrite <- Ep in *.
    assert (Ip : In (k0, d0) pairs) by (rewrite Ep; left; auto).
    destruct (Chosen k0 d0 Ip) as (e0 & Hk0).
    assert (Ld0 : d0 < nn).
    { destruct (edge_key k0 d0) as [x y] eqn:E. destruct (Kin e0 x y Hk0) as (_ & X & Y).
      destruct (edge_key_or k0 d0) as [E'|E']; rewrite E in E'; inversion E'; subst; auto. }
    assert (Rd0 : removed pairs d0) by (exists k0; auto).
    assert (Lt : (rank (on nm1) (length nm1) <? nn) = true).
    { apply Nat.ltb_lt. rewrite Lnm1. apply rank_gap with (j := d0); auto.
      destruct (on nm1 d0) eqn:O; auto. apply On in O; auto. contradiction. }
    fold nn. rewrite Lt. cbn [assert bind].
    destruct (KS (edge_key k0 d0)) as (c & z & a & b & Ic & Iz & Hf & _); [eapply nth_error_In; eauto|].
    assert (Mnode : forall n k, nth_error col n = Some k -> nth_error nmap n = Some (rank (on nm1) k)).
    { intros n k H. rewrite (Hnmap n k H). destruct (ColK n k H) as (L & _). rewrite Hn0 by lia. reflexivity. }
    destruct (cleanMesh_all m fm nm1 fmap nmap WF Lfm Lnm1 Bf Bn) as
      (m' & -> & Q1 & Q2 & Q3 & Q4 & Q5 & Q6 & Q7 & Q8 & Q9 & Q10 & Q11 & Q12 & _).
    { intros f L. rewrite Hf0 by lia. reflexivity. }
    { fold nn. lia. }
    { intros n L O. apply Mnode. destruct (nth_error_ex col n) as [k Hk]; [fold nn in L; lia|]. rewrite Hk. f_equal.
      destruct (Col n k Hk) as [I|[E _]]; auto. exfalso. apply On in O; auto. apply O. exists k; auto. }
    { intros X. rewrite X in Ic. destruct Ic. }
    { intros X. rewrite X in Hf. destruct (pid z); discriminate. }
    { intros X. pose proof (numNodes_eq 2 m ltac:(lia) WF) as E. rewrite X in E. cbn [length] in E. fold nn in E. lia. }
    exists m'. split; auto.
    exists (kept (on fm) nf), (kept (on nm1) nn).
    constructor; auto.
    - apply kept_sorted.
    - apply kept_sorted.
    - intros n. rewrite kept_in. rewrite (node_lt 2 m ltac:(lia) WF n). fold nn. split.
      + intros [L O]. split; auto. apply On; auto.
      + intros [L R]. split; auto. apply On; auto.
    - intros f. rewrite kept_in. split.
      + intros [L O]. destruct (face_ends m WF PL f L) as (x & y & Hxy & _). exists x, y. split; auto.
        destruct (Hfm f x y Hxy) as (v & Hv & C). rewrite (on_nth _ _ _ Hv) in O. apply Nat.eqb_eq in O. subst v.
        destruct C as [[? _]|[_ C]]; [discriminate|auto].
      + intros (x & y & Hxy & N1 & N2). split; [eapply nth_error_lt; eauto|].
        destruct (Hfm f x y Hxy) as (v & Hv & C). rewrite (on_nth _ _ _ Hv). destruct C as [[-> C]|[-> _]]; [tauto|reflexivity].
    - intros x f Hx. destruct (Q5 x f Hx) as ((ns & ns' & E1 & E2 & F) & _). exists ns, ns'. split; auto. split; auto.
      assert (R : forall n, In n ns -> n < nn).
      { intros n I. apply (node_lt 2 m ltac:(lia) WF). eapply (wf_faces _ _ WF); eauto. }
      clear - F R Col Lcol Mnode On ColK. induction F as [|n n' ns ns' H F IH]; constructor; [|apply IH; intros; apply R; right; auto].
      destruct (nth_error_ex col n) as [k Hk]; [rewrite Lcol; apply R; left; auto|].
      exists k. rewrite (Mnode n k Hk) in H. inversion H; subst n'. split.
      + destruct (Col n k Hk) as [I|[-> N]]; [left; auto|right; auto].
      + destruct (ColK n k Hk) as (L & _ & N). apply kept_nth; auto. apply On; auto.
    - intros x f Hx. apply (Q5 x f Hx).
    - rewrite Q6, map_length. auto.
    - intros i c' Hc'. rewrite Q6. exists (new_cell fm fmap c'). split; [rewrite nth_error_map, Hc'; auto|].
      assert (R : forall z, In z c' -> pid z < nf) by (intros z' I; eapply (wf_cells _ _ WF); eauto).
      clear - R Hf0 Lfm. unfold new_cell. induction c' as [|z c IH]; [constructor|]. cbn [filter].
      destruct (on fm (pid z)) eqn:O.
      + cbn [map]. constructor; [apply kept_in; split; auto; apply R; left; auto| |apply IH; intros; apply R; right; auto].
        assert (Lz : pid z < nf) by (apply R; left; auto).
        rewrite (nth_error_nth _ _ 0 (Hf0 (pid z) ltac:(lia))). cbn [plus]. unfold stands, resign.
        destruct (Z.ltb_spec z 0).
        * split; [unfold Z.lnot; lia|]. rewrite pid_lnot_of_nat. apply kept_nth; auto.
        * split; [lia|]. rewrite pid_of_nat. apply kept_nth; auto.
      + constructor 3; [rewrite kept_in; intros [_ ?]; congruence|apply IH; intros; apply R; right; auto].
  Qed.
  End Tables.

  (* what is flagged *)
  Lemma flags_ok : exists st c2e em nm col clean pairs, flags 2 tol m = Ok (st, (em, nm, col, clean)) /\
    EInv m st /\ Forall2 (named_cell m st) (cells m) c2e /\
    (forall k, In k (keys st) -> exists c z a b, In c (cells m) /\ In z c /\ nth_error (faces m) (pid z) = Some [a; b] /\ k = edge_key a b) /\
    GoodCollapses tol m pairs /\ (clean = true <-> pairs = []) /\
    (forall k d, In (k, d) pairs -> exists i, nth_error (keys st) i = Some (edge_key k d)) /\
    length em = length (keys st) /\ length nm = nn /\ length col = nn /\
    (forall i v, nth_error em i = Some v ->
       (v = 0 /\ exists k d, In (k, d) pairs /\ nth_error (keys st) i = Some (edge_key k d)) \/
       (v = 1 /\ ~ exists k d, In (k, d) pairs /\ nth_error (keys st) i = Some (edge_key k d))) /\
    (forall n, n < nn -> exists v, nth_error nm n = Some v /\ ((v = 0 /\ removed pairs n) \/ (v = 1 /\ ~ removed pairs n))) /\
    (forall n v, nth_error col n = Some v -> In (v, n) pairs \/ (v = n /\ ~ removed pairs n)).
  Proof.
    unfold flags. rewrite (proj2 (Qlt_bool_iff _ _) Tpos). cbn [assert bind].
    destruct (collect_ok m WF PL) as (st & c2e & -> & EI & NC & BP & KS). cbn [bind].
    rewrite BP. destruct (corners_ok m WF PL SB) as (cs & -> & Hcs). cbn [bind].
    set (border := unique (StdAlg.sort (map fst (flat_map (bpushes m) (concat (cells m)))))).
    assert (Hb : forall n, In n border <-> border_node m n) by (intros; apply border_in; auto).
    destruct (max_lengths_ok (elen st) c2e (ids_range st c2e EI NC)) as (mx & -> & MI). cbn [bind].
    change (map fst (e2i st)) with (keys st). fold nn.
    destruct (flag_ok tol (keys st) (elen st) mx border cs nn) as (em & nm & col & clean & pairs & -> & FI).
    { apply Knd; auto. } { apply Kin; auto. } { symmetry; apply Klen; auto. }
    { rewrite (proj1 MI). symmetry. apply Klen; auto. }
    cbn [bind].
    assert (GC : GoodCollapses tol m pairs).
    { split.
      - apply (fi_once _ _ _ _ _ _ _ _ _ _ _ _ _ FI).
      - intros k d I. destruct (fi_chosen _ _ _ _ _ _ _ _ _ _ _ _ _ FI k d I) as (i & Li & Hi & S & N & C1 & C2 & B).
        rewrite !Hcs in *. rewrite !Hb in B. split; auto. eapply sh_short; eauto.
      - intros a b S Ca Cb. destruct (short_key st c2e NC a b S) as (i & Hi).
        destruct (edge_key a b) as [x y] eqn:E.
        assert (Sh : sh tol (elen st) mx i) by (eapply sh_short; eauto; rewrite E; auto).
        assert (X : In x (ends pairs) \/ In y (ends pairs)).
        { apply (fi_max _ _ _ _ _ _ _ _ _ _ _ _ _ FI i x y); auto.
          - eapply nth_error_lt; eauto.
          - rewrite Hcs. destruct (edge_key_or a b) as [E'|E']; rewrite E in E'; inversion E'; subst; auto.
          - rewrite Hcs. destruct (edge_key_or a b) as [E'|E']; rewrite E in E'; inversion E'; subst; auto. }
        rewrite !ends_in in X.
        destruct (edge_key_or a b) as [E'|E']; rewrite E in E'; inversion E'; subst;
          destruct X as [(k & d & I & [-> | ->])|(k & d & I & [-> | ->])]; exists k, d; auto 6. }
    pose proof (fi_clean _ _ _ _ _ _ _ _ _ _ _ _ _ FI) as Cl.
    destruct FI as [Once Chosen _ Lem Lnm Lcol Em Nm Col _].
    set (nm1 := map (fun k => if k =? 2 then 1 else k) nm).
    assert (Lnm1 : length nm1 = nn) by (unfold nm1; rewrite map_length; auto).
    assert (Hn1 : forall n, n < nn -> exists v, nth_error nm1 n = Some v /\
        ((v = 0 /\ removed pairs n) \/ (v = 1 /\ ~ removed pairs n))).
    { intros n L. destruct (nth_error_ex nm n ltac:(lia)) as [v Hv]. unfold nm1. rewrite nth_error_map, Hv. cbn [option_map].
      eexists; split; [reflexivity|].
      destruct (Nm n v Hv) as [[-> R]|[(-> & d & I)|[-> R]]]; cbn.
      - left; auto.
      - right; split; auto. intros (k & Ik).
        destruct (in_split _ _ I) as (l1 & l2 & El). unfold ends in Once. rewrite El, flat_map_app in Once. cbn in Once.
        apply NoDup_remove_2 in Once. apply Once. rewrite in_app_iff. cbn. rewrite !in_flat_map.
        rewrite El in Ik. apply in_app_iff in Ik as [Ik|[Ik|Ik]].
        + left. exists (k, n); cbn; auto.
        + inversion Ik; subst. auto.
        + right. right. exists (k, n); cbn; auto.
      - right; split; auto. intros (k & Ik). apply R, ends_in. eauto. }
    exists st, c2e, em, nm1, col, clean, pairs. split; [reflexivity|]. do 5 (split; [auto|]).
    split; [intros k d I; destruct (Chosen k d I) as (i & _ & Hi & _); eauto|]. do 5 (split; [auto|]). auto.
  Qed.

  Theorem cleanEdges_ok : exists m' pairs, cleanEdges 2 tol m = Ok m' /\ GoodCollapses tol m pairs /\
    ((pairs = [] /\ m' = m) \/ (pairs <> [] /\ exists keepF keepN, Collapsed m m' pairs keepF keepN)).
  Proof.
    unfold cleanEdges. destruct flags_ok as (st & c2e & em & nm & col & clean & pairs & -> & EI & NC & KS & GC & Cl & Ch & Lem & Lnm & Lcol & Em & Nm & Col). cbn [bind].
    destruct clean.
    { exists m, pairs. split; auto. split; auto. left. split; auto. apply Cl; auto. }
    assert (Pne : pairs <> []) by (intros X; apply Cl in X; discriminate).
    destruct (collapse_ok st c2e EI NC KS pairs em nm col Pne (gc_once _ _ _ GC) Ch Lem Lnm Lcol Em Nm Col) as (m' & -> & Co).
    exists m', pairs. auto.
  Qed.
End Whole.
