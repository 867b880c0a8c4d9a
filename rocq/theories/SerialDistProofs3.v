(* What each rank keeps. *)
From Verif Require Import Base BaseFacts StdAlg SerializeModel MeshModel MeshSpec MeshProofs MeshProofs2 MeshProps CollModel SerialDistModel SerialDistSpec SerialDistProofs SerialDistProofs2 HullProofs3 ExchangeSpec ExchangeProofs2.
From Coq Require Import Sorted Lia Permutation.

Lemma unique_same l : StronglySorted lt l -> unique l = l.
Proof.
  intros S0. apply sorted_lt_ext; auto; [|intros; apply unique_in]. apply unique_sorted. clear - S0. induction S0; constructor; auto. rewrite Forall_forall in *. intros x I. specialize (H x I). lia.
Qed.
Lemma selected_all {A B} (P : A -> Prop) (R : A -> B -> Prop) l l' : selected P R l l' -> (forall x, In x l -> P x) -> Forall2 (fun b a => R a b) l' l.
Proof. induction 1; intros Q; [constructor| |exfalso; apply H; apply Q; left; auto]. constructor; auto. apply IHselected. intros; apply Q; right; auto. Qed.

Section Keep.
  Context {V : Type} (D : nat) (Dpos : 0 < D) (n : nat) (pts : nat -> list Z) (m : mesh V).
  Hypothesis Whole : forall r, r < n -> exists c, length (pts r) = D * c.
  Hypothesis FR : Fresh D m.
  Hypothesis Cells : length (cells m) = before D pts n.
  Local Notation owns := (Owns D pts).
  Local Notation offs := (offsets D n pts).
  Local Notation WF := (fr_wf D m FR).

  Lemma shareLists_ok me : me < n -> exists nd sn sf, shareLists D m offs me = Ok (nd, sn, sf) /\ SharedLists n m owns me nd sn sf.
  Proof.
    intros Lme. destruct (nodeCells_ok D m Dpos WF) as (nc & NC). unfold shareLists. rewrite (shareNodes_ok D Dpos n pts m Whole FR Cells nc NC me Lme). cbn [bind]. destruct (fr_lists D m FR) as (-> & -> & _). cbn [app].
    set (L := nodePairs D n pts m nc me). pose proof (push_all me L [] (SSorted_nil _)) as P. cbv zeta in P. set (mp := fold_left (push me) L []) in *. destruct P as (S0 & K & LK). set (nd := StdAlg.sort (map fst mp)).
    assert (Snd : StronglySorted lt nd) by (apply sort_nodup, sorted_lt_nodup; auto).
    assert (Ind : forall s, In s nd <-> s < n /\ Neighbor m owns me s).
    { intros s. unfold nd. rewrite sort_in, K. unfold Neighbor. split.
      - intros [[]|(N & x & I)]. apply (nodePairs_in D Dpos n pts m Whole FR Cells nc NC me Lme) in I as [Ls I]. split; auto. split; eauto.
      - intros (Ls & N & x & I). right. split; auto. exists x. apply (nodePairs_in D Dpos n pts m Whole FR Cells nc NC me Lme). auto. }
    rewrite (shareFaces_ok D Dpos n pts m Whole FR Cells nc NC me Lme nd (conj Snd Ind)). cbn [bind].
    set (LF := facePairs D n pts m me). assert (HLF : forall o f, In (o, f) LF -> In o nd).
    { intros o f I. apply (facePairs_in D Dpos n pts m Whole FR Cells nc NC me Lme) in I as (N & Lo & SF). apply Ind. split; auto. eapply (shared_face_node D pts m FR me); eauto. }
    destruct (put_all nd LF Snd HLF (repeat [] (length nd)) (repeat_length _ _)) as [LP HP]. set (sf := fold_left (put nd) LF (repeat [] (length nd))) in *.
    assert (HS : forall i s, nth_error nd i = Some s -> exists l, nth_error sf i = Some l /\ NoDup l /\ forall f, In f l <-> SharedFace m owns me s f).
    { intros i s E. exists (map snd (filter (fun e => fst e =? s) LF)). pose proof (proj1 (Ind s) (nth_error_In _ _ E)) as (Ls & Ns & _). split; [|split].
      - rewrite (HP i s E). f_equal. rewrite nth_repeat. reflexivity.
      - apply nodup_map_in; [apply NoDup_filter, (facePairs_nodup D Dpos n pts m Whole FR Cells nc NC me Lme)|]. intros [o f] [o' f'] I I' F. apply filter_In in I as [_ I]. apply filter_In in I' as [_ I']. apply Nat.eqb_eq in I. apply Nat.eqb_eq in I'. cbn in *. congruence.
      - intros f. rewrite in_map_iff. split.
        + intros ([o f'] & <- & I). apply filter_In in I as [I E']. apply Nat.eqb_eq in E'. cbn in *. subst o. apply (facePairs_in D Dpos n pts m Whole FR Cells nc NC me Lme) in I. tauto.
        + intros SF. exists (s, f). split; auto. apply filter_In. cbn. rewrite Nat.eqb_refl. split; auto. apply (facePairs_in D Dpos n pts m Whole FR Cells nc NC me Lme). auto. }
    assert (MS : mmap sortFaces sf = Ok (map StdAlg.sort sf)).
    { apply mmap_eq. apply forall2_of_nth; [rewrite map_length; auto|]. intros i l l' E E'. rewrite nth_error_map, E in E'. cbn in E'. injection E' as <-. destruct (nth_error_ex nd i) as [s Es]; [rewrite <- LP; eapply nth_error_lt; eauto|]. destruct (HS i s Es) as (l1 & E1 & ND & _). rewrite E in E1. injection E1 as <-.
      unfold sortFaces. rewrite unique_same by (apply sort_nodup; auto). rewrite Nat.eqb_refl. reflexivity. }
    rewrite MS. cbn [bind]. eexists _, _, _. split; [reflexivity|]. constructor; auto.
    - rewrite !map_length. auto.
    - intros i s l E El. rewrite nth_error_map, E in El. cbn in El. injection El as <-. split; [apply unique_sorted, sort_sorted|]. intros x. rewrite unique_in, sort_in. pose proof (proj1 (Ind s) (nth_error_In _ _ E)) as (Ls & Ns & _). change (In x (lk mp s) <-> SharedNode m owns me s x). rewrite LK by auto. cbn [lk find app]. rewrite in_map_iff. split.
      + intros ([o y] & <- & I). apply filter_In in I as [I E']. apply Nat.eqb_eq in E'. cbn in *. subst o. apply (nodePairs_in D Dpos n pts m Whole FR Cells nc NC me Lme) in I. tauto.
      + intros SN. exists (s, x). split; auto. apply filter_In. cbn. rewrite Nat.eqb_refl. split; auto. apply (nodePairs_in D Dpos n pts m Whole FR Cells nc NC me Lme). auto.
    - intros i s l E El. rewrite nth_error_map in El. destruct (HS i s E) as (l1 & E1 & ND & I1). rewrite E1 in El. cbn in El. injection El as <-. split; [apply sort_nodup; auto|]. intros f. rewrite sort_in. apply I1.
  Qed.

  Lemma lists_sym r s nd sn sf nd' sn' sf' i : r < n -> s < n -> SharedLists n m owns r nd sn sf -> SharedLists n m owns s nd' sn' sf' -> nth_error nd i = Some s ->
    exists i', nth_error nd' i' = Some r /\ nth_error sn' i' = nth_error sn i /\ nth_error sf' i' = nth_error sf i.
  Proof.
    intros Lr Ls A B E. destruct (proj1 (sl_nd _ _ _ _ _ _ _ A s) (nth_error_In _ _ E)) as (_ & N & x & X1 & X2).
    assert (I : In r nd'). { apply (sl_nd _ _ _ _ _ _ _ B). split; auto. split; auto. exists x. split; auto. }
    apply In_nth_error in I as [i' E']. exists i'. split; auto. pose proof (nth_error_lt _ _ _ E) as Li. pose proof (nth_error_lt _ _ _ E') as Li'. destruct (sl_sizes _ _ _ _ _ _ _ A) as [A1 A2]. destruct (sl_sizes _ _ _ _ _ _ _ B) as [B1 B2]. split.
    - destruct (nth_error_ex sn i) as [l El]; [lia|]. destruct (nth_error_ex sn' i') as [l' El']; [lia|]. rewrite El, El'. f_equal. destruct (sl_sn _ _ _ _ _ _ _ A i s l E El) as [S1 H1]. destruct (sl_sn _ _ _ _ _ _ _ B i' r l' E' El') as [S2 H2]. apply sorted_lt_ext; auto. intros y. rewrite H1, H2. unfold SharedNode. tauto.
    - destruct (nth_error_ex sf i) as [l El]; [lia|]. destruct (nth_error_ex sf' i') as [l' El']; [lia|]. rewrite El, El'. f_equal. destruct (sl_sf _ _ _ _ _ _ _ A i s l E El) as [S1 H1]. destruct (sl_sf _ _ _ _ _ _ _ B i' r l' E' El') as [S2 H2]. apply sorted_lt_ext; auto. intros y. rewrite H1, H2. unfold SharedFace. tauto.
  Qed.

  Lemma ownMask_ok me : me < n -> exists mask, ownMask offs me (length (cells m)) = Ok mask /\ length mask = length (cells m) /\ (forall k, In k mask -> k = 0 \/ k = 1) /\ (forall i, nth_error mask i = Some 1 <-> owns me i).
  Proof.
    intros Lme. unfold ownMask. rewrite (proj2 (get_ok _ _ _) (offsets_nth D Dpos n pts Whole me ltac:(lia))). cbn [bind]. rewrite (proj2 (get_ok _ _ _) (offsets_nth D Dpos n pts Whole (me + 1) ltac:(lia))). cbn [bind]. replace (me + 1) with (S me) by lia.
    pose proof (before_mono D Dpos n pts Whole me (S me) ltac:(lia) ltac:(lia)) as M1. pose proof (before_mono D Dpos n pts Whole (S me) n ltac:(lia) ltac:(lia)) as M2. rewrite <- Cells in M2. set (lo := before D pts me) in *. set (hi := before D pts (S me)) in *.
    replace (lo <=? hi) with true by (symmetry; apply Nat.leb_le; auto). replace (hi <=? length (cells m)) with true by (symmetry; apply Nat.leb_le; auto). cbn [andb]. eexists. split; [reflexivity|]. split; [rewrite !app_length, !repeat_length; lia|]. split.
    - intros k I. rewrite !in_app_iff in I. destruct I as [I|[I|I]]; apply repeat_spec in I; auto.
    - intros i. unfold Owns. fold lo hi. destruct (Nat.lt_ge_cases i lo) as [L|L].
      + rewrite nth_error_app1 by (rewrite repeat_length; auto). rewrite nth_error_repeat by lia. split; [discriminate|lia].
      + rewrite nth_error_app2 by (rewrite repeat_length; auto). rewrite repeat_length. destruct (Nat.lt_ge_cases i hi) as [L'|L'].
        * rewrite nth_error_app1 by (rewrite repeat_length; lia). rewrite nth_error_repeat by lia. split; auto.
        * rewrite nth_error_app2 by (rewrite repeat_length; lia). rewrite repeat_length. split; [|lia]. intros E. apply nth_error_In, repeat_spec in E. discriminate.
  Qed.

  Lemma lists_wf me nd sn sf : me < n -> SharedLists n m owns me nd sn sf -> WellFormed D (withLists m nd sn sf).
  Proof.
    intros Lme SL. pose proof WF as W. destruct (sl_sizes _ _ _ _ _ _ _ SL) as [A1 A2]. constructor; cbn; try apply W; try congruence.
    - intros d l x El Ix. destruct (nth_error_ex nd d) as [s Es]; [rewrite <- A1; eapply nth_error_lt; eauto|]. destruct (sl_sn _ _ _ _ _ _ _ SL d s l Es El) as [_ H]. destruct (proj1 (H x) Ix) as [(i & Oi & c & z & ns & Ec & Iz & En & Ix') Q]. eapply (wf_faces _ _ W); eauto.
    - intros d l x El Ix. destruct (nth_error_ex nd d) as [s Es]; [rewrite <- A2; eapply nth_error_lt; eauto|]. destruct (sl_sf _ _ _ _ _ _ _ SL d s l Es El) as [_ H]. destruct (proj1 (H x) Ix) as [(i & Oi & c & z & Ec & Iz & Ef) Q]. rewrite <- Ef. eapply (wf_cells _ _ W); eauto.
  Qed.

  Lemma cull_ok me : me < n -> before D pts me < before D pts (S me) -> exists m' kC kF kN, cull D m offs me = Ok m' /\ Domain D n m owns me m' kC kF kN.
  Proof.
    intros Lme Some. destruct (shareLists_ok me Lme) as (nd & sn & sf & E & SL). destruct (ownMask_ok me Lme) as (mask & EM & LM & BM & OM). unfold cull. rewrite E. cbn [bind]. rewrite EM. cbn [bind]. fold (withLists m nd sn sf).
    pose proof (lists_wf me nd sn sf Lme SL) as W.
    assert (O1 : In 1 mask). { apply (nth_error_In mask (before D pts me)). apply OM. split; auto. }
    destruct (deleteCells_keeps_mesh V D (withLists m nd sn sf) mask Dpos W LM BM (or_intror O1)) as (m' & kC & kF & kN & Ed & P & HC). exists m', kC, kF, kN. split; auto.
    assert (HN : forall x, RankNode m owns me x -> In x kN). { intros x (i & Oi & c & z & ns & Ec & Iz & En & Ix). apply (po_N _ _ _ _ _ _ P). exists (pid z), ns. split; auto. apply (po_F _ _ _ _ _ _ P). exists i, c, z. split; auto. apply HC, OM. auto. }
    assert (HF : forall f, (exists i, owns me i /\ FaceOf m i f) -> In f kF). { intros f (i & Oi & c & z & Ec & Iz & Ef). apply (po_F _ _ _ _ _ _ P). exists i, c, z. split; auto. apply HC, OM. auto. }
    pose proof (po_nd _ _ _ _ _ _ P) as PD. cbn in PD. destruct (sl_sizes _ _ _ _ _ _ _ SL) as [A1 A2].
    constructor.
    - exists nd, sn, sf. auto.
    - intros i. rewrite HC. apply OM.
    - eapply deleteCells_wellformed; eauto.
    - rewrite PD. apply SL.
    - rewrite PD. apply SL.
    - rewrite PD, (po_nsn _ _ _ _ _ _ P), (po_nsf _ _ _ _ _ _ P). cbn. auto.
    - rewrite PD. intros i s l' Es El'. destruct (nth_error_ex sn i) as [l El]; [rewrite A1; eapply nth_error_lt; eauto|]. destruct (po_sn _ _ _ _ _ _ P i l El) as (l2 & El2 & Sel). rewrite El' in El2. injection El2 as <-. destruct (sl_sn _ _ _ _ _ _ _ SL i s l Es El) as [S1 H1]. exists l. split; auto. apply (selected_all _ _ _ _ Sel). intros x I. apply HN. apply H1 in I. apply I.
    - rewrite PD. intros i s l' Es El'. destruct (nth_error_ex sf i) as [l El]; [rewrite A2; eapply nth_error_lt; eauto|]. destruct (po_sf _ _ _ _ _ _ P i l El) as (l2 & El2 & Sel). rewrite El' in El2. injection El2 as <-. destruct (sl_sf _ _ _ _ _ _ _ SL i s l Es El) as [S1 H1]. exists l. split; auto. apply (selected_all _ _ _ _ Sel). intros x I. apply HF. apply H1 in I. apply I.
  Qed.

  Lemma cull_empty me : me < n -> before D pts me = before D pts (S me) -> cells m <> [] -> cull D m offs me = Abort.
  Proof.
    intros Lme None Nc. destruct (shareLists_ok me Lme) as (nd & sn & sf & E & SL). destruct (ownMask_ok me Lme) as (mask & EM & LM & BM & OM). unfold cull. rewrite E. cbn [bind]. rewrite EM. cbn [bind]. apply deleteCells_refuses. right. split; auto. intros I. apply In_nth_error in I as [i I]. apply OM in I. unfold Owns in I. lia.
  Qed.
End Keep.

(* the domains of a mesh fit together *)
Lemma domains_sym {V} D n (m : mesh V) owns r s m1 c1 f1 n1 m2 c2 f2 n2 i : r < n -> s < n -> Domain D n m owns r m1 c1 f1 n1 -> Domain D n m owns s m2 c2 f2 n2 -> nth_error (neighborDomains m1) i = Some s ->
  exists i' l l' g g' xs ys, nth_error (neighborDomains m2) i' = Some r /\
    nth_error (sharedNodes m1) i = Some l /\ nth_error (sharedNodes m2) i' = Some l' /\ Stand n1 l xs /\ Stand n2 l' xs /\
    nth_error (sharedFaces m1) i = Some g /\ nth_error (sharedFaces m2) i' = Some g' /\ Stand f1 g ys /\ Stand f2 g' ys.
Proof.
  intros Lr Ls A B E. destruct (proj1 (dm_nd _ _ _ _ _ _ _ _ _ A s) (nth_error_In _ _ E)) as (_ & N & x & X1 & X2).
  assert (I : In r (neighborDomains m2)). { apply (dm_nd _ _ _ _ _ _ _ _ _ B). split; auto. split; auto. exists x. split; auto. }
  apply In_nth_error in I as [i' E']. pose proof (nth_error_lt _ _ _ E) as Li. pose proof (nth_error_lt _ _ _ E') as Li'. destruct (dm_sizes _ _ _ _ _ _ _ _ _ A) as [A1 A2]. destruct (dm_sizes _ _ _ _ _ _ _ _ _ B) as [B1 B2].
  destruct (nth_error_ex (sharedNodes m1) i) as [l El]; [lia|]. destruct (nth_error_ex (sharedNodes m2) i') as [l' El']; [lia|]. destruct (nth_error_ex (sharedFaces m1) i) as [g Eg]; [lia|]. destruct (nth_error_ex (sharedFaces m2) i') as [g' Eg']; [lia|].
  destruct (dm_sn _ _ _ _ _ _ _ _ _ A i s l E El) as (xs & T1 & S1 & H1). destruct (dm_sn _ _ _ _ _ _ _ _ _ B i' r l' E' El') as (xs' & T1' & S1' & H1'). destruct (dm_sf _ _ _ _ _ _ _ _ _ A i s g E Eg) as (ys & T2 & S2 & H2). destruct (dm_sf _ _ _ _ _ _ _ _ _ B i' r g' E' Eg') as (ys' & T2' & S2' & H2').
  assert (xs' = xs) by (apply sorted_lt_ext; auto; intros y; rewrite H1, H1'; unfold SharedNode; tauto). assert (ys' = ys) by (apply sorted_lt_ext; auto; intros y; rewrite H2, H2'; unfold SharedFace; tauto). subst xs' ys'.
  exists i', l, l', g, g', xs, ys. auto 15.
Qed.
Definition asPart {V} (m : mesh V) (kN : list nat) : part V := mkPart (nodes m) kN (neighborDomains m) (sharedNodes m).
Lemma domains_consistent {V} D n (m : mesh V) owns (out : nat -> mesh V) kC kF kN : (forall r, r < n -> Domain D n m owns r (out r) (kC r) (kF r) (kN r)) ->
  Consistent D n (fun r => asPart (out r) (kN r)).
Proof.
  intros H. constructor; cbn.
  - intros r L. destruct (dm_part _ _ _ _ _ _ _ _ _ (H r L)) as (nd & sn & sf & P). split; [apply (po_nnodes _ _ _ _ _ _ P)|apply (dm_sizes _ _ _ _ _ _ _ _ _ (H r L))].
  - intros r L. destruct (dm_part _ _ _ _ _ _ _ _ _ (H r L)) as (nd & sn & sf & P). apply sorted_lt_nodup, (po_sortedN _ _ _ _ _ _ P).
  - intros r L. split; [apply sorted_lt_nodup, (dm_sorted _ _ _ _ _ _ _ _ _ (H r L))|]. intros s I. apply (dm_nd _ _ _ _ _ _ _ _ _ (H r L)) in I as (Ls & N & _). auto.
  - intros r i s l L E El. assert (Ls : s < n) by (apply (dm_nd _ _ _ _ _ _ _ _ _ (H r L) s); eapply nth_error_In; eauto).
    destruct (domains_sym D n m owns r s _ _ _ _ _ _ _ _ i L Ls (H r L) (H s Ls) E) as (i' & l1 & l' & g & g' & xs & ys & E1 & E2 & E3 & T1 & T2 & _). rewrite El in E2. injection E2 as <-. exists i', l'. split; auto. split; auto. exists xs. auto.
  - intros r s x Lr Ls N Hr Hs. unfold Holds in *. cbn in *.
    assert (G : forall q, q < n -> In x (kN q) -> RankNode m owns q x).
    { intros q Lq I. destruct (dm_part _ _ _ _ _ _ _ _ _ (H q Lq)) as (nd & sn & sf & P). destruct (proj1 (po_N _ _ _ _ _ _ P x) I) as (f & ns & If & En & Ix). destruct (proj1 (po_F _ _ _ _ _ _ P f) If) as (i & c & z & Ii & Ec & Iz & Ef). subst f. exists i. split; [apply (dm_cells _ _ _ _ _ _ _ _ _ (H q Lq)); auto|]. exists c, z, ns. auto. }
    assert (SN : SharedNode m owns r s x) by (split; auto). assert (I : In s (neighborDomains (out r))). { apply (dm_nd _ _ _ _ _ _ _ _ _ (H r Lr)). split; auto. split; eauto. }
    apply In_nth_error in I as [i E]. destruct (dm_sizes _ _ _ _ _ _ _ _ _ (H r Lr)) as [A1 _]. destruct (nth_error_ex (sharedNodes (out r)) i) as [l El]; [rewrite A1; eapply nth_error_lt; eauto|].
    destruct (dm_sn _ _ _ _ _ _ _ _ _ (H r Lr) i s l E El) as (xs & T & _ & HX). apply HX in SN. destruct (Forall2_in_r _ _ _ _ T SN) as (j & Ij & Ej). exists i, l, j. auto.
Qed.
