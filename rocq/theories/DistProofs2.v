(* The mesh a rank keeps. *)
From Verif Require Import Base BaseFacts StdAlg SerializeModel MeshModel MeshSpec MeshProofs MeshProofs2 MeshProps SerialDistSpec SerialDistProofs2 SerialDistProofs3 HullProofs3 CheckModel CheckProofs DistModel DistSpec DistProofs.
From Coq Require Import Sorted Lia Permutation.

Lemma sorted_filter {A} (R : A -> A -> Prop) p l : StronglySorted R l -> StronglySorted R (filter p l).
Proof. induction 1 as [|a l H IH F]; cbn; [constructor|]. destruct (p a); auto. constructor; auto. rewrite Forall_forall in *. intros x I. apply filter_In in I as []. auto. Qed.
Lemma nodupb_ok (l : list nat) : NoDup l -> nodupb l = true.
Proof. intros N. unfold nodupb. rewrite nodup_fixed_point by auto. apply Nat.eqb_refl. Qed.
Lemma map_sorted' {A B} (f : A -> B) (R : B -> B -> Prop) l : StronglySorted (fun a b => R (f a) (f b)) l -> StronglySorted R (map f l).
Proof. induction 1 as [|a l H IH F]; cbn; constructor; auto. rewrite Forall_map. auto. Qed.
Lemma nth_error_combine {A B} (l : list A) (l' : list B) i a b : nth_error l i = Some a -> nth_error l' i = Some b -> nth_error (combine l l') i = Some (a, b).
Proof. revert l' i. induction l as [|x l IH]; intros [|y l'] [|i] E E'; cbn in *; try discriminate; [congruence|]. apply IH; auto. Qed.
Lemma nth_error_combine_inv {A B} (l : list A) (l' : list B) i a b : nth_error (combine l l') i = Some (a, b) -> nth_error l i = Some a /\ nth_error l' i = Some b.
Proof. revert l' i. induction l as [|x l IH]; intros [|y l'] [|i] E; cbn in *; try discriminate; [injection E as -> ->; auto|]. apply IH; auto. Qed.
Lemma part_without {V} D (m m0 : mesh V) nd sn sf nd' sn' sf' kC kF kN : sharedNodes m = [] -> sharedFaces m = [] -> neighborDomains m = [] -> PartOf D (withLists m nd sn sf) m0 kC kF kN -> PartOf D m (withLists (withLists m0 nd' sn' sf') [] [] []) kC kF kN.
Proof.
  intros E1 E2 E3 []. constructor; auto; cbn [sharedNodes sharedFaces neighborDomains withLists]; rewrite ?E1, ?E2; auto; intros d l H; destruct d; discriminate.
Qed.

Definition nk {V} (D : nat) (hash : list V -> list Z) (m : mesh V) (i : nat) : list Z := hash (node_at D m i).
Lemma nodeKey_ok {V} (D : nat) (m : mesh V) hash i : D * i + D <= length (nodes m) -> nodeKey D hash m i = Ok (nk D hash m i).
  Proof.
    intros L. unfold nodeKey, nk, node_at. enough (H : forall n a, a + n <= D -> mmap (fun k => get (nodes m) (D * i + k)) (seq a n) = Ok (firstn n (skipn (D * i + a) (nodes m)))). { rewrite (H D 0) by lia. cbn [bind]. rewrite Nat.add_0_r. auto. }
    induction n as [|n IH]; intros a La; [auto|]. cbn [seq mmap]. destruct (nth_error_ex (nodes m) (D * i + a)) as [v Ev]; [lia|]. rewrite (proj2 (get_ok _ _ _) Ev). cbn [bind]. rewrite IH by lia. cbn [bind]. destruct (nth_error_split _ _ Ev) as (l1 & l2 & E & Ll). rewrite E. rewrite <- Ll. rewrite (skipn_app (length l1)), skipn_all, Nat.sub_diag. cbn [app skipn firstn]. do 3 f_equal. replace (D * i + S a) with (S (length l1)) by lia. rewrite skipn_app, skipn_all2 by lia. replace (S (length l1) - length l1) with 1 by lia. auto.
  Qed.

Section Build.
  Context {V : Type} (D : nat) (Dpos : 0 < D) (m : mesh V) (g2d : list nat) (me : nat) (nd : list nat) (nlocal : nat).
  Hypothesis DI : DistInput D m g2d me nd nlocal.
  Context (hash : list V -> list Z) (fkey : mesh V -> nat -> res (list Z)).
  Local Notation owns := (From_ g2d).
  Local Notation nk := (nk D hash m).
  Local Notation FR := (di_fresh _ _ _ _ _ _ DI).
  Local Notation WF := (fr_wf D m (di_fresh _ _ _ _ _ _ DI)).
  Lemma mask_ok : nlocal <= length (cells m) /\ (forall i, nth_error (repeat 1 nlocal ++ repeat 0 (length (cells m) - nlocal)) i = Some 1 <-> i < nlocal).
  Proof.
    assert (L : nlocal <= length (cells m)). { rewrite <- (di_size _ _ _ _ _ _ DI). pose proof (di_some _ _ _ _ _ _ DI). assert (O : owns me (nlocal - 1)) by (apply (di_own _ _ _ _ _ _ DI); lia). apply nth_error_lt in O. lia. }
    split; auto. intros i. destruct (Nat.lt_ge_cases i nlocal) as [Li|Li].
    - rewrite nth_error_app1 by (rewrite repeat_length; auto). rewrite nth_error_repeat by auto. tauto.
    - rewrite nth_error_app2 by (rewrite repeat_length; auto). split; [|lia]. intros E. apply nth_error_In, repeat_spec in E. discriminate.
  Qed.

  (* without communication information the neighbors found beforehand cannot be pruned *)
  Lemma local_off : nd <> [] -> forall m', localMesh D hash fkey false m g2d me nd nlocal <> Ok m'.
  Proof.
    intros Nn m' E. unfold localMesh in E. cbn [bind] in E. destruct mask_ok as [Ln M]. rewrite (proj2 (Nat.leb_le _ _) Ln) in E. cbn [bind] in E. apply bind_ok in E as (m0 & Ed & E). destruct (fr_lists D m FR) as (F1 & F2 & F3). rewrite F2, F3 in Ed.
    assert (B01 : forall k, In k (repeat 1 nlocal ++ repeat 0 (length (cells m) - nlocal)) -> k = 0 \/ k = 1) by (intros k I; apply in_app_or in I as [I|I]; apply repeat_spec in I; auto).
    change (withComm m nd [] []) with (withLists m nd [] []) in Ed.
    assert (WF1 : WellFormed D (withLists m nd [] [])). { destruct WF. constructor; auto; cbn [sharedNodes sharedFaces withLists]; intros d l x El; destruct d; discriminate. }
    destruct (deleteCells_keeps_mesh V D (withLists m nd [] []) (repeat 1 nlocal ++ repeat 0 (length (cells m) - nlocal))) as (m1 & kC & kF & kN & Ed1 & P & KC); auto.
    { rewrite app_length, !repeat_length. cbn. lia. }
    { right. apply nth_error_In with (n := 0). apply M. exact (di_some _ _ _ _ _ _ DI). }
    rewrite Ed in Ed1. injection Ed1 as <-. rewrite (po_nd _ _ _ _ _ _ P) in E. pose proof (po_nsn _ _ _ _ _ _ P) as Ls. cbn [withLists sharedNodes neighborDomains length] in E, Ls. destruct (sharedNodes m0); [|discriminate]. destruct nd as [|s nd']; [congruence|]. cbn [length prune] in E. unfold get in E. destruct (length nd'); discriminate.
  Qed.
  Context (fk : nat -> list Z).
  Hypothesis FK : forall f, f < length (faces m) -> fkey m f = Ok (fk f).
  (* the lists before the cells of others go *)
  Lemma build_ok : exists sn sf, buildComm D hash fkey m g2d me nd nlocal = Ok (sn, sf) /\ length sn = length nd /\ length sf = length nd /\
    (forall i s l, nth_error nd i = Some s -> nth_error sn i = Some l -> NoDup l /\ Ordered nk l /\ forall x, In x l <-> s <> me /\ RankNode m owns s x) /\
    (forall i s l, nth_error nd i = Some s -> nth_error sf i = Some l -> NoDup l /\ Ordered fk l /\ forall f, In f l <-> s <> me /\ SharedFace m owns me s f).
  Proof.
    destruct (nodeCells_ok D m Dpos WF) as (nc & NC). unfold buildComm. rewrite nodupb_ok by (eapply nd_nodup; eauto). cbn [assert bind].
    rewrite (commFaces_ok D Dpos m g2d me nd nlocal DI), (commNodes_ok D Dpos m g2d me nd nlocal DI nc NC). cbn [bind]. cbv zeta.
    assert (K1 : forall o x, In (o, x) (nodePairs g2d me nc) -> In o nd). { intros o x I. apply (nodePairs_in D Dpos m g2d me nd nlocal DI nc NC) in I as [N R]. eapply known; eauto. }
    assert (K2 : forall o x, In (o, x) (facePairs m g2d me nlocal) -> In o nd). { intros o x I. apply (facePairs_in D Dpos m g2d me nd nlocal DI) in I as (N & _ & j & O & _). eapply (di_known _ _ _ _ _ _ DI); eauto. }
    destruct (putI_all nd _ (nd_nodup D m g2d me nd nlocal DI) K1 (repeat [] (length nd)) (repeat_length _ _)) as [L1 A1]. destruct (putI_all nd _ (nd_nodup D m g2d me nd nlocal DI) K2 (repeat [] (length nd)) (repeat_length _ _)) as [L2 A2].
    set (sn0 := fold_left (putI nd) (nodePairs g2d me nc) _) in *. set (sf0 := fold_left (putI nd) (facePairs m g2d me nlocal) _) in *. set (sn1 := map (fun l => unique (StdAlg.sort l)) sn0).
    assert (In1 : forall i s l, nth_error nd i = Some s -> nth_error sn1 i = Some l -> NoDup l /\ forall x, In x l <-> s <> me /\ RankNode m owns s x).
    { intros i s l Es El. unfold sn1 in El. rewrite nth_error_map, (A1 i s Es) in El. cbn in El. injection El as <-. rewrite nth_repeat by (eapply nth_error_lt; eauto). cbn [app]. split; [apply sorted_lt_nodup, unique_sorted, sort_sorted|]. intros x. rewrite unique_in, sort_in, in_map_iff. rewrite <- (nodePairs_in D Dpos m g2d me nd nlocal DI nc NC). split; [intros ([o y] & <- & I); apply filter_In in I as [I Eo]; apply Nat.eqb_eq in Eo; cbn in *; subst; auto|intros I; exists (s, x); split; auto; apply filter_In; split; auto; apply Nat.eqb_refl]. }
    assert (In2 : forall i s l, nth_error nd i = Some s -> nth_error sf0 i = Some l -> NoDup l /\ forall f, In f l <-> s <> me /\ SharedFace m owns me s f).
    { intros i s l Es El. rewrite (A2 i s Es) in El. injection El as <-. rewrite nth_repeat by (eapply nth_error_lt; eauto). cbn [app]. split.
      - apply nodup_map_in; [apply NoDup_filter; eapply facePairs_nodup; eauto|]. intros [o y] [o' y'] I I' E. apply filter_In in I as [_ I]. apply filter_In in I' as [_ I']. apply Nat.eqb_eq in I, I'. cbn in *. congruence.
      - intros x. rewrite in_map_iff, <- (facePairs_in D Dpos m g2d me nd nlocal DI). split; [intros ([o y] & <- & I); apply filter_In in I as [I Eo]; apply Nat.eqb_eq in Eo; cbn in *; subst; auto|intros I; exists (s, x); split; auto; apply filter_In; split; auto; apply Nat.eqb_refl]. }
    assert (S1 : exists sn, mmap (sortBy (nodeKey D hash m)) sn1 = Ok sn /\ Forall2 (fun l l' => Permutation l' l /\ Ordered nk l') sn1 sn).
    { apply mmap_forall2. intros l Il. apply In_nth_error in Il as [i Ei]. assert (Li : i < length nd) by (pose proof (nth_error_lt _ _ _ Ei) as L; unfold sn1 in L; rewrite map_length in L; lia). destruct (nth_error_ex nd i Li) as [s Es]. destruct (In1 i s l Es Ei) as [_ I]. apply sortBy_ok. intros x Ix. apply nodeKey_ok. apply I in Ix as (_ & j & _ & c & z & ns & Ec & Iz & En & In_). eapply (wf_faces _ _ WF); eauto. }
    assert (S2 : exists sf, mmap (sortBy (fkey m)) sf0 = Ok sf /\ Forall2 (fun l l' => Permutation l' l /\ Ordered fk l') sf0 sf).
    { apply mmap_forall2. intros l Il. apply In_nth_error in Il as [i Ei]. assert (Li : i < length nd) by (pose proof (nth_error_lt _ _ _ Ei) as L; lia). destruct (nth_error_ex nd i Li) as [s Es]. destruct (In2 i s l Es Ei) as [_ I]. apply sortBy_ok. intros x Ix. apply FK. apply I in Ix as (_ & (j & _ & c & z & Ec & Iz & <-) & _). eapply (wf_cells _ _ WF); eauto. }
    destruct S1 as (sn & -> & F1). destruct S2 as (sf & -> & F2). cbn [bind]. exists sn, sf. split; auto. split; [rewrite <- (Forall2_len _ _ _ F1); unfold sn1; rewrite map_length; auto|]. split; [rewrite <- (Forall2_len _ _ _ F2); auto|]. split.
    - intros i s l Es El. assert (Li : i < length sn1) by (rewrite (Forall2_len _ _ _ F1); eapply nth_error_lt; eauto). destruct (nth_error_ex sn1 i Li) as [l0 E0]. destruct (Forall2_nth _ _ _ _ _ F1 E0) as (l1 & E1 & P & O). rewrite El in E1. injection E1 as <-. destruct (In1 i s l0 Es E0) as [ND I]. split; [eapply Permutation_NoDup; [symmetry; eauto|auto]|]. split; auto. intros x. rewrite <- I. split; apply Permutation_in; auto. symmetry; auto.
    - intros i s l Es El. assert (Li : i < length sf0) by (rewrite (Forall2_len _ _ _ F2); eapply nth_error_lt; eauto). destruct (nth_error_ex sf0 i Li) as [l0 E0]. destruct (Forall2_nth _ _ _ _ _ F2 E0) as (l1 & E1 & P & O). rewrite El in E1. injection E1 as <-. destruct (In2 i s l0 Es E0) as [ND I]. split; [eapply Permutation_NoDup; [symmetry; eauto|auto]|]. split; auto. intros x. rewrite <- I. split; apply Permutation_in; auto. symmetry; auto.
  Qed.

  Lemma local_ok : exists m' kC kF kN, localMesh D hash fkey true m g2d me nd nlocal = Ok m' /\ Kept D m g2d me nd nk fk m' kC kF kN.
  Proof.
    destruct build_ok as (sn & sf & Eb & L1 & L2 & A1 & A2). destruct mask_ok as [Ln M]. unfold localMesh. rewrite Eb. cbn [bind]. rewrite (proj2 (Nat.leb_le _ _) Ln). cbn [bind]. change (withComm m nd sn sf) with (withLists m nd sn sf). set (mask := repeat 1 nlocal ++ _) in *.
    assert (WF1 : WellFormed D (withLists m nd sn sf)).
    { destruct WF. constructor; auto; cbn [sharedNodes sharedFaces withLists nodes faces].
      - lia.
      - intros d l x El Ix. assert (Ld : d < length nd) by (rewrite <- L1; eapply nth_error_lt; eauto). destruct (nth_error_ex nd d Ld) as [s Es]. apply (A1 d s l Es El) in Ix as (_ & j & _ & c & z & ns & Ec & Iz & En & In_). eapply wf_faces; eauto.
      - intros d l x El Ix. assert (Ld : d < length nd) by (rewrite <- L2; eapply nth_error_lt; eauto). destruct (nth_error_ex nd d Ld) as [s Es]. apply (A2 d s l Es El) in Ix as (_ & (j & _ & c & z & Ec & Iz & <-) & _). eapply wf_cells; eauto. }
    assert (B01 : forall k, In k mask -> k = 0 \/ k = 1) by (intros k I; apply in_app_or in I as [I|I]; apply repeat_spec in I; auto).
    destruct (deleteCells_keeps_mesh V D (withLists m nd sn sf) mask) as (m0 & kC & kF & kN & Ed & P & KC); auto.
    { unfold mask. rewrite app_length, !repeat_length. cbn. lia. }
    { right. apply nth_error_In with (n := 0). apply M. exact (di_some _ _ _ _ _ _ DI). }
    rewrite Ed. cbn [bind]. destruct (deleteCells_wellformed V D _ m0 mask Dpos WF1 B01 Ed) as (WF0 & _).
    pose proof (po_nd _ _ _ _ _ _ P) as Pnd. pose proof (po_nsn _ _ _ _ _ _ P) as Psn. pose proof (po_nsf _ _ _ _ _ _ P) as Psf. cbn [withLists neighborDomains sharedNodes sharedFaces] in Pnd, Psn, Psf. rewrite Pnd.
    rewrite prune_ok by lia. cbn [bind]. set (z0 := combine nd (combine (sharedNodes m0) (sharedFaces m0))). set (z := filter live z0).
    assert (KC' : forall i, In i kC <-> owns me i) by (intros i; rewrite KC, M, (di_own _ _ _ _ _ _ DI); tauto).
    assert (KF : forall f, In f kF <-> exists i, owns me i /\ FaceOf m i f). { intros f. rewrite (po_F _ _ _ _ _ _ P). split; [intros (i & c & w & Ii & Ec & Iw & E); exists i; split; [apply KC'; auto|exists c, w; auto]|intros (i & Oi & c & w & Ec & Iw & E); exists i, c, w; split; [apply KC'; auto|auto]]. }
    assert (KN : forall x, In x kN <-> RankNode m owns me x). { intros x. rewrite (po_N _ _ _ _ _ _ P). split; [intros (f & ns & If & Ef & Ix); apply KF in If as (i & Oi & c & w & Ec & Iw & <-); exists i; split; auto; exists c, w, ns; auto|intros (i & Oi & c & w & ns & Ec & Iw & Ef & Ix); exists (pid w), ns; split; auto; apply KF; exists i; split; auto; exists c, w; auto]. }
    (* every surviving list before pruning *)
    assert (SN : forall s l, (exists k, nth_error nd k = Some s /\ nth_error (sharedNodes m0) k = Some l) -> exists xs, Stand kN l xs /\ NoDup xs /\ Ordered nk xs /\ forall x, In x xs <-> s <> me /\ SharedNode m owns me s x).
    { intros s l (k & Es & El). destruct (nth_error_ex sn k) as [l0 E0]; [rewrite L1; eapply nth_error_lt; eauto|]. destruct (po_sn _ _ _ _ _ _ P k l0 E0) as (l' & E' & Sel). rewrite El in E'. injection E' as <-. destruct (selected_sub _ _ _ _ Sel) as (xs & F & I & SS & ND). destruct (A1 k s l0 Es E0) as (B1 & B2 & B3). exists xs. split; auto. split; auto. split; [apply SS; auto|]. intros x. rewrite I, B3, KN. unfold SharedNode. tauto. }
    assert (SF : forall s l, (exists k, nth_error nd k = Some s /\ nth_error (sharedFaces m0) k = Some l) -> exists xs, Stand kF l xs /\ NoDup xs /\ Ordered fk xs /\ forall x, In x xs <-> s <> me /\ SharedFace m owns me s x).
    { intros s l (k & Es & El). destruct (nth_error_ex sf k) as [l0 E0]; [rewrite L2; eapply nth_error_lt; eauto|]. destruct (po_sf _ _ _ _ _ _ P k l0 E0) as (l' & E' & Sel). rewrite El in E'. injection E' as <-. destruct (selected_sub _ _ _ _ Sel) as (xs & F & I & SS & ND). destruct (A2 k s l0 Es E0) as (B1 & B2 & B3). exists xs. split; auto. split; auto. split; [apply SS; auto|]. intros x. rewrite I, B3, KF. unfold SharedFace. tauto. }
    assert (Z0 : forall s a b, In (s, (a, b)) z0 -> exists k, nth_error nd k = Some s /\ nth_error (sharedNodes m0) k = Some a /\ nth_error (sharedFaces m0) k = Some b). { intros s a b I. apply In_nth_error in I as [k Ek]. exists k. apply nth_error_combine_inv in Ek as [E1 E2]. apply nth_error_combine_inv in E2 as [E2 E3]. auto. }
    assert (ZL : forall s a b, In (s, (a, b)) z0 -> live (s, (a, b)) = true <-> Neighbor m owns me s).
    { intros s a b I. destruct (Z0 s a b I) as (k & E1 & E2 & E3). destruct (SN s a) as (xs & F & _ & _ & Ix); [eauto|]. destruct (SF s b) as (ys & G & _ & _ & Iy); [eauto|]. unfold live. cbn [fst snd]. split.
      - intros Lv. destruct a as [|a0 a]; [|inversion F as [|? x ? xs' Hx Hxs E E']; subst; destruct (proj1 (Ix x)) as [N S0]; [left; auto|]; split; auto; exists x; auto].
        destruct b as [|b0 b]; [discriminate|]. inversion G as [|? y ? ys' Hy Hys E E']; subst. destruct (proj1 (Iy y)) as [N S0]; [left; auto|]. split; auto. eapply shared_face_node; eauto.
      - intros (N & x & S0). assert (In x xs) by (apply Ix; auto). destruct a; [inversion F; subst; contradiction|]. auto. }
    destruct (unzip3 nd (sharedNodes m0) (sharedFaces m0) ltac:(lia) ltac:(lia)) as (Lz & Z1 & Z2 & Z3). fold z0 in Lz, Z1, Z2, Z3.
    assert (ZE : forall i s l (f : nat * (list nat * list nat) -> list nat), nth_error (map fst z) i = Some s -> nth_error (map f z) i = Some l -> exists a b, In (s, (a, b)) z0 /\ live (s, (a, b)) = true /\ l = f (s, (a, b))).
    { intros i s l f E1 E2. rewrite nth_error_map in E1, E2. destruct (nth_error z i) as [[s' [a b]]|] eqn:Ez; [|discriminate]. injection E1 as <-. injection E2 as <-. exists a, b. apply nth_error_In, filter_In in Ez as [I Lv]. auto. }
    exists (withLists m0 (map fst z) (map (fun e => fst (snd e)) z) (map (fun e => snd (snd e)) z)), kC, kF, kN. split; [reflexivity|]. destruct (fr_lists D m FR) as (F1 & F2 & F3).
    constructor; cbn [withLists neighborDomains sharedNodes sharedFaces].
    - exact (part_without D m m0 nd sn sf _ _ _ kC kF kN F2 F3 F1 P).
    - exact KC'.
    - destruct WF0. constructor; auto; cbn [sharedNodes sharedFaces withLists nodes faces].
      + rewrite !map_length. auto.
      + intros d l x El Ix. apply nth_error_In in El. apply in_map_iff in El as ([s [a b]] & <- & I). apply filter_In in I as [I _]. destruct (Z0 s a b I) as (k & _ & E2 & _). eapply wf_shared_nodes; eauto.
      + intros d l x El Ix. apply nth_error_In in El. apply in_map_iff in El as ([s [a b]] & <- & I). apply filter_In in I as [I _]. destruct (Z0 s a b I) as (k & _ & _ & E3). eapply wf_shared_faces; eauto.
    - apply map_sorted'. apply sorted_filter. apply map_sorted. rewrite Z1. apply DI.
    - intros s. rewrite in_map_iff. split.
      + intros ([s' [a b]] & <- & I). apply filter_In in I as [I Lv]. cbn [fst]. destruct (Z0 _ _ _ I) as (k & E1 & _). split; [eapply nth_error_In; eauto|]. apply (ZL _ _ _ I); auto.
      + intros (I & N). rewrite <- Z1 in I. apply in_map_iff in I as ([s' [a b]] & <- & I). exists (s', (a, b)). split; auto. apply filter_In. split; auto. apply (ZL _ _ _ I); auto.
    - rewrite !map_length. auto.
    - intros i s l E1 E2. destruct (ZE i s l _ E1 E2) as (a & b & I & Lv & ->). destruct (Z0 _ _ _ I) as (k & K1 & K2 & K3). destruct (SN s a) as (xs & X1 & X2 & X3 & X4); [eauto|]. exists xs. cbn [fst snd]. split; auto. split; auto. split; auto. intros x. rewrite X4. apply (ZL _ _ _ I) in Lv as [N _]. tauto.
    - intros i s l E1 E2. destruct (ZE i s l _ E1 E2) as (a & b & I & Lv & ->). destruct (Z0 _ _ _ I) as (k & K1 & K2 & K3). destruct (SF s b) as (xs & X1 & X2 & X3 & X4); [eauto|]. exists xs. cbn [fst snd]. split; auto. split; auto. split; auto. intros x. rewrite X4. apply (ZL _ _ _ I) in Lv as [N _]. tauto.
  Qed.

  Lemma local_off_alone : nd = [] -> exists m' kC kF kN, localMesh D hash fkey false m g2d me nd nlocal = Ok m' /\ Kept D m g2d me nd nk fk m' kC kF kN.
  Proof.
    intros Nn. destruct local_ok as (m' & kC & kF & kN & E & K). exists m', kC, kF, kN. split; auto. rewrite <- E. destruct build_ok as (sn & sf & Eb & L1 & L2 & _). unfold localMesh. rewrite Eb. cbn [bind]. destruct (fr_lists D m FR) as (F1 & F2 & F3). rewrite F2, F3. rewrite Nn in L1, L2. destruct sn; [|discriminate]. destruct sf; [|discriminate]. auto.
  Qed.
End Build.
