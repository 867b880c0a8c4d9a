(* Exchanging edge masks: what ranks with one neighbor each agree on. *)
From Verif Require Import Base BaseFacts StdAlg SerializeModel MeshModel KeyMapModel MeshEditorModel MeshEditorSpec MeshEditorProofs MeshEditorProofs2 MeshEditorProofs4 MpiModel MpiSpec ExchangeModel ExchangeProofs2 CheckModel CheckProofs DistModel DistProofs SerialDistProofs2 EdgeMaskModel EdgeMaskSpec EdgeMaskProofs EdgeMaskProofs2 EdgeMaskProofs3.
From Coq Require Import Lia.

Section Ranks.
  Context (n : nat) (P : nat -> piece).
  Hypothesis J : Joined n P.
  Local Notation nn r := (pnodes (P r)).
  Local Notation E r := (pedges (P r)).
  Local Notation nb r := (pnbrs (P r)).
  Local Notation sn r := (plists (P r)).
  Local Notation em r := (pmask (P r)).

  Lemma lists_of r i l : r < n -> nth_error (sn r) i = Some l -> exists s, nth_error (nb r) i = Some s /\ Shares P r s l.
  Proof. intros L H. destruct (jn_nbrs _ _ J r L) as [_ Le]. destruct (nth_error_ex (nb r) i) as [s Hs]; [rewrite <- Le; eapply nth_error_lt; eauto|]. exists s. split; auto. exists i. auto. Qed.
  Lemma lists_ok r i l : r < n -> nth_error (sn r) i = Some l -> NoDup l /\ forall x, In x l -> x < nn r.
  Proof. intros L H. destruct (lists_of r i l L H) as (s & _ & Sh). destruct (jn_lists _ _ J r s l L Sh) as (A & B & _). auto. Qed.
  Lemma shares_fun r s l l' : r < n -> Shares P r s l -> Shares P r s l' -> l = l'.
  Proof. intros L (i & A & B) (j & C & D). destruct (jn_nbrs _ _ J r L) as [ND _]. rewrite (nodup_nth _ _ _ _ ND A C) in B. congruence. Qed.
  Lemma shares_range r s l : r < n -> Shares P r s l -> s < n.
  Proof. intros L (i & A & _). apply (jn_range _ _ J r); auto. eapply nth_error_In; eauto. Qed.
  Lemma mutual r s l l' : r < n -> Shares P r s l -> Shares P s r l' -> length l' = length l /\ (forall p q, (exists i, Between (E r) l p q i) <-> (exists i, Between (E s) l' p q i)).
  Proof. intros L A B. destruct (jn_lists _ _ J r s l L A) as (_ & _ & l1 & C & D & F). rewrite (shares_fun s r l' l1); auto. eapply shares_range; eauto. Qed.
  Lemma mutual_nbrs r s : r < n -> In s (nb r) -> In r (nb s).
  Proof. intros L I. apply In_nth_error in I as [i Hi]. destruct (jn_nbrs _ _ J r L) as [_ Le]. destruct (nth_error_ex (sn r) i) as [l Hl]; [rewrite Le; eapply nth_error_lt; eauto|]. destruct (jn_lists _ _ J r s l L) as (_ & _ & l' & (j & Hj & _) & _); [exists i; auto|]. eapply nth_error_In; eauto. Qed.
  Lemma same_edgesAt r s l l' : r < n -> Shares P r s l -> Shares P s r l' -> edgesAt (E r) l = edgesAt (E s) l'.
  Proof.
    intros L A B. pose proof (shares_range r s l L A) as Ls. destruct (mutual r s l l' L A B) as [_ M]. destruct (jn_lists _ _ J r s l L A) as (N & _). destruct (jn_lists _ _ J s r l' Ls B) as (N' & _).
    destruct (jn_edges _ _ J r L) as [Ed Ei]. destruct (jn_edges _ _ J s Ls) as [Ed' Ei']. apply sort_same.
    - eapply placed_nodup; eauto.
    - eapply placed_nodup; eauto.
    - intros [p q]. rewrite (placed_in (nn r)) by auto. rewrite (placed_in (nn s)) by auto. rewrite M. tauto.
  Qed.

  (* the masks every rank sends *)
  Lemma my_masks r : r < n -> exists ms, mmap (sharedMask (nn r) (table (E r)) (sn r) (em r)) (seq 0 (length (nb r))) = Ok (combine (map (edgesAt (E r)) (sn r)) ms) /\ Forall2 (Masks (E r) (em r)) (sn r) ms.
  Proof.
    intros L. destruct (jn_edges _ _ J r L) as [Ed Ei]. destruct (jn_mask _ _ J r L) as [Lm _]. destruct (jn_nbrs _ _ J r L) as [_ Le].
    destruct (masks_all (nn r) (E r) Ed Ei (nb r) (sn r) (em r)) as (ems & H & F1 & F2); auto; [intros; eapply lists_ok; eauto|].
    exists (map snd ems). rewrite <- F1. split; auto. rewrite H. f_equal. clear. induction ems as [|[a b] t IH]; cbn; congruence.
  Qed.
  Lemma masks_small r ms : r < n -> Forall2 (Masks (E r) (em r)) (sn r) ms -> Forall small ms /\ (Z.of_nat (length (flat_map ser ms)) < 2 ^ 32)%Z.
  Proof.
    intros L F. destruct (jn_mask _ _ J r L) as [Lm B]. destruct (jn_nbrs _ _ J r L) as [_ Le]. pose proof (jn_small _ _ J r L) as Sm. destruct (jn_edges _ _ J r L) as [Ed Ei].
    assert (M : forall m, In m ms -> Forall (fun v => v <= 1) m /\ length m <= length (E r)). { intros m I. destruct (Forall2_in_r _ _ _ _ F I) as (l & Il & Hm). split.
      - apply Forall_forall. intros v Iv. destruct (Forall2_in_r _ _ _ _ Hm Iv) as (pq & _ & i & _ & Hi). destruct (B v (nth_error_In _ _ Hi)); lia.
      - rewrite <- (Forall2_len _ _ _ Hm). apply In_nth_error in Il as [j Hj]. apply edgesAt_len; auto. }
    pose proof (Forall2_len _ _ _ F) as Lms. rewrite Le in Lms.
    assert (Sml : Forall small ms). { apply Forall_forall. intros m I. destruct (M m I) as [M1 M2]. split; auto. destruct ms as [|m0 t]; [destruct I|]. cbn in Lms. rewrite Lms in Sm. nia. }
    split; auto. enough (length (flat_map ser ms) <= length ms * (4 + 4 * length (E r))) by (rewrite Lms in Sm; lia).
    clear Lms F. induction ms as [|m t IH]; cbn [flat_map length]; [lia|]. rewrite app_length. inversion Sml; subst. specialize (IH (fun m' I => M m' (or_intror I)) H2). rewrite ser_len4 by auto. destruct (M m (or_introl eq_refl)). lia.
  Qed.

  (* what a rank's masks become *)
  Definition Merged (r : nat) (em' : list nat) : Prop := length em' = length (E r) /\
    (forall s l l' p q i i', Shares P r s l -> Shares P s r l' -> Between (E r) l p q i -> Between (E s) l' p q i' ->
       exists x y, nth_error (em r) i = Some x /\ nth_error (em s) i' = Some y /\ nth_error em' i = Some (Nat.max x y)) /\
    (forall i, (forall s l p q, Shares P r s l -> ~ Between (E r) l p q i) -> nth_error em' i = nth_error (em r) i).
  Lemma merged_vals r em' : r < n -> Merged r em' -> (forall v, In v em' -> v = 0 \/ v = 1) /\ (~ In 0 (em r) -> ~ In 0 em') /\ (forall i, nth_error em' i = Some 0 -> nth_error (em r) i = Some 0).
  Proof.
    intros L (Le & A & B). destruct (jn_mask _ _ J r L) as [Lm Bm].
    assert (V : forall i v, nth_error em' i = Some v -> exists x, nth_error (em r) i = Some x /\ (v = x \/ exists y, (y = 0 \/ y = 1) /\ v = Nat.max x y)).
    { intros i v H. destruct (nth_error_ex (em r) i) as [x Hx]; [rewrite Lm, <- Le; eapply nth_error_lt; eauto|]. exists x. split; auto.
      assert (Dec : (exists s l p q, Shares P r s l /\ Between (E r) l p q i) \/ ~ (exists s l p q, Shares P r s l /\ Between (E r) l p q i)).
      { destruct (nth_error (E r) i) as [[a b]|] eqn:He; [|right; intros (s & l & p & q & _ & a & b & _ & _ & [X|X]); congruence].
        assert (D : (exists j l, nth_error (sn r) j = Some l /\ In a l /\ In b l) \/ ~ (exists j l, nth_error (sn r) j = Some l /\ In a l /\ In b l)).
        { assert (forall ll : list (list nat), (exists l, In l ll /\ In a l /\ In b l) \/ ~ (exists l, In l ll /\ In a l /\ In b l)) as D. { clear. induction ll as [|l ll IH]; [right; intros (l & [] & _)|]. destruct (in_dec Nat.eq_dec a l), (in_dec Nat.eq_dec b l); try (left; exists l; cbn; tauto); (destruct IH as [(l' & A & B)|N]; [left; exists l'; cbn; tauto|right; intros (l' & [->|I] & B); [tauto|eauto]]). }
          destruct (D (sn r)) as [(l & I & X)|N]; [left; apply In_nth_error in I as [j Hj]; eauto|right; intros (j & l & Hj & X); apply N; exists l; split; auto; eapply nth_error_In; eauto]. }
        destruct D as [(j & l & Hj & Ia & Ib)|N].
        - left. destruct (lists_of r j l L Hj) as (s & _ & Sh). apply In_nth_error in Ia as [p Hp]. apply In_nth_error in Ib as [q Hq]. exists s, l, p, q. split; auto. exists a, b. repeat split; auto. left; auto.
        - right. intros (s & l & p & q & (j & _ & Hj) & a' & b' & Hp & Hq & [X|X]); rewrite He in X; injection X as <- <-; apply N; exists j, l; repeat split; auto; eapply nth_error_In; eauto. }
      destruct Dec as [(s & l & p & q & Sh & Bt)|N].
      - right. destruct (jn_lists _ _ J r s l L Sh) as (_ & _ & l' & Sh' & _ & M). destruct (proj1 (M p q) ltac:(eauto)) as [i' Bt']. destruct (A s l l' p q i i' Sh Sh' Bt Bt') as (x' & y & Hx' & Hy & Hv). exists y. split; [|congruence]. destruct (jn_mask _ _ J s (shares_range r s l L Sh)) as [_ Bs]. apply Bs. eapply nth_error_In; eauto.
      - left. rewrite B in H; [congruence|]. intros s l p q Sh Bt. apply N. eauto 10. }
    split; [|split].
    - intros v I. apply In_nth_error in I as [i Hi]. destruct (V i v Hi) as (x & Hx & O). destruct (Bm x (nth_error_In _ _ Hx)), O as [->|(y & Y & ->)]; lia.
    - intros N I. apply In_nth_error in I as [i Hi]. destruct (V i 0 Hi) as (x & Hx & O). apply N. destruct O as [<-|(y & Y & O)]; [eapply nth_error_In; eauto|]. assert (x = 0) by lia. subst x. eapply nth_error_In; eauto.
    - intros i Hi. destruct (V i 0 Hi) as (x & Hx & O). destruct O as [<-|(y & Y & O)]; auto. assert (x = 0) by lia. congruence.
  Qed.

  Hypothesis One : forall r, r < n -> length (nb r) <= 1.
  Lemma only r s : r < n -> In s (nb r) -> nb r = [s].
  Proof. intros L I. specialize (One r L). destruct (nb r) as [|a [|]]; [destruct I|destruct I as [->|[]]; auto|cbn in One; lia]. Qed.
  Lemma only_list r s : r < n -> nb r = [s] -> exists l, sn r = [l] /\ Shares P r s l.
  Proof. intros L H. destruct (jn_nbrs _ _ J r L) as [_ Le]. rewrite H in Le. destruct (sn r) as [|l [|]] eqn:El; try discriminate. exists l. split; auto. exists 0. rewrite H, El. auto. Qed.
  (* the masks that come in *)
  Definition incoming (ms : nat -> list (list nat)) (r : nat) : list (list nat) := match nb r with [] => [] | s :: _ => [hd [] (ms s)] end.

  Lemma merged r ms : r < n -> (forall s, s < n -> Forall2 (Masks (E s) (em s)) (sn s) (ms s)) -> exists em', mergeMasks (nn r) (table (E r)) (nb r) (sn r) (map (edgesAt (E r)) (sn r)) (incoming ms r) (em r) = Ok em' /\ Merged r em'.
  Proof.
    intros L F. destruct (jn_edges _ _ J r L) as [Ed Ei]. destruct (jn_mask _ _ J r L) as [Lm _]. destruct (jn_nbrs _ _ J r L) as [_ Le]. unfold incoming. destruct (nb r) as [|s t] eqn:En.
    - exists (em r). split; [reflexivity|]. split; auto. split; auto. intros s l l' p q i i' (k & X & _). rewrite En in X. destruct k; discriminate.
    - assert (Es : nb r = [s]) by (apply only; auto; rewrite En; left; auto). assert (t = []) by congruence. subst t. destruct (only_list r s L Es) as (l & El & Sh).
      assert (Is : In s (nb r)) by (rewrite Es; left; auto). pose proof (jn_range _ _ J r s L Is) as Ls. pose proof (only s r Ls (mutual_nbrs r s L Is)) as Er. destruct (only_list s r Ls Er) as (l' & El' & Sh').
      pose proof (F s Ls) as Fs. rewrite El' in Fs. inversion Fs as [|? m ? ? Hm F0]; subst. inversion F0; subst. cbn [hd].
      destruct (jn_edges _ _ J s Ls) as [Ed' Ei']. destruct (jn_lists _ _ J r s l L Sh) as (Nl & _). destruct (jn_lists _ _ J s r l' Ls Sh') as (Nl' & _).
      rewrite El. cbn [map]. pose proof (same_edgesAt r s l l' L Sh Sh') as Se.
      destruct (merge_one (nn r) (E r) Ed Ei [s] [l] (em r)) with (l := l) (ms := m) as (em' & H & A1 & A2 & A3); auto; try discriminate.
      + intros i l0 H0. apply (lists_ok r i); auto. rewrite El. auto.
      + rewrite Se. symmetry. exact (Forall2_len _ _ _ Hm).
      + exists em'. split; auto. split; auto. split.
        * assert (Gen : forall p q i i', p < q -> Between (E r) l p q i -> Between (E s) l' p q i' -> exists x y, nth_error (em r) i = Some x /\ nth_error (em s) i' = Some y /\ nth_error em' i = Some (Nat.max x y)).
          { intros p q i i' Lp B B'. assert (I : In (p, q) (edgesAt (E s) l')) by (apply (edgesAt_in (nn s)); eauto). apply In_nth_error in I as [j Hj]. destruct (Forall2_nth _ _ _ _ _ Hm Hj) as (y & Hy & i2 & B2 & Hi2). cbn [fst snd] in B2. rewrite (between_fun (nn s) (E s) Ed' Ei' l' _ _ _ _ B' B2) in *.
            destruct (nth_error_ex (em r) i) as [x Hx]. { rewrite Lm. destruct B as (a & b & _ & _ & [X|X]); eapply nth_error_lt; eauto. }
            exists x, y. split; auto. split; auto. apply (A2 j p q); auto. rewrite Se. auto. }
          intros s0 l0 l0' p q i i' S0 S0' B B'. assert (s0 = s). { destruct S0 as (k & X & _). rewrite Es in X. destruct k as [|[|]]; cbn in X; congruence. } subst s0.
          rewrite (shares_fun r s l0 l L S0 Sh) in B. rewrite (shares_fun s r l0' l' Ls S0' Sh') in B'.
          destruct (Nat.lt_trichotomy p q) as [H0|[->|H0]]; [eauto| |apply (Gen q p); auto; apply between_swap; auto].
          exfalso. exact (between_ne (nn r) (E r) Ei l _ _ _ B eq_refl).
        * intros i N. apply A3. intros (p & q & B). exact (N s l p q Sh B).
  Qed.

  (* one half of the same fate *)
  Lemma fate_half r s l l' em1 em2 nm1 nm2 col1 col2 c1 c2 pairs1 pairs2 p q k d k' d' : r < n -> Shares P r s l -> Shares P s r l' ->
    Merged r em1 -> Merged s em2 -> Settled (P r) l em1 nm1 col1 c1 pairs1 -> Settled (P s) l' em2 nm2 col2 c2 pairs2 ->
    nth_error l p = Some k -> nth_error l q = Some d -> nth_error l' p = Some k' -> nth_error l' q = Some d' -> In (k, d) pairs1 -> In (k', d') pairs2.
  Proof.
    intros L Sh Sh' M1 M2 S1 S2 Hk Hd Hk' Hd' I. pose proof (shares_range r s l L Sh) as Ls. destruct (jn_lists _ _ J r s l L Sh) as (Nl & _). 
    apply (se_pairs _ _ _ _ _ _ _ S1) in I as (i & a & b & He & Hm & Hab & HIn & _).
    destruct (HIn (nth_error_In _ _ Hd)) as (p' & q' & Lp & Hp' & Hq'). rewrite <- (nodup_nth l p p' k Nl Hk Hp'), <- (nodup_nth l q q' d Nl Hd Hq') in Lp.
    assert (B : Between (E r) l p q i). { exists k, d. split; auto. split; auto. destruct Hab as [[-> ->]|[-> ->]]; [left|right]; auto. }
    destruct (mutual r s l l' L Sh Sh') as [_ M]. destruct (proj1 (M p q) ltac:(eauto)) as [i' B'].
    destruct M1 as (_ & M1 & _). destruct M2 as (_ & M2 & _). destruct (M1 _ _ _ _ _ _ _ Sh Sh' B B') as (x & y & X1 & X2 & X3). destruct (M2 _ _ _ _ _ _ _ Sh' Sh B' B) as (x2 & y2 & Y1 & Y2 & Y3).
    apply (se_pairs _ _ _ _ _ _ _ S2). destruct B' as (k1 & d1 & E1 & E2 & Jn). assert (k1 = k') by congruence. assert (d1 = d') by congruence. subst k1 d1. exists i'.
    assert (Z : nth_error em2 i' = Some 0) by (rewrite Y3; f_equal; rewrite X2 in Y1; injection Y1 as ->; rewrite X1 in Y2; injection Y2 as ->; rewrite Hm in X3; injection X3 as X3; lia).
    destruct Jn as [Jn|Jn]; [exists k', d'|exists d', k']; (split; [auto|]); (split; [auto|]); (split; [auto|]); (split; [intros _; exists p, q; auto|]); intros N1 N2; exfalso; [apply N1|apply N2]; eapply nth_error_In; eauto.
  Qed.
  Lemma shared_to_shared p l em1 nm1 col1 c1 pairs1 x k : Settled p l em1 nm1 col1 c1 pairs1 -> In x l -> In (k, x) pairs1 -> In k l.
  Proof. intros S1 Ix I. apply (se_pairs _ _ _ _ _ _ _ S1) in I as (i & a & b & He & Hm & Hab & HIn & _). destruct (HIn Ix) as (p' & q' & _ & Hk & _). eapply nth_error_In; eauto. Qed.
  Lemma same_fate r s l l' em1 em2 nm1 nm2 col1 col2 c1 c2 pairs1 pairs2 : r < n -> Shares P r s l -> Shares P s r l' ->
    Merged r em1 -> Merged s em2 -> Settled (P r) l em1 nm1 col1 c1 pairs1 -> Settled (P s) l' em2 nm2 col2 c2 pairs2 -> SameFate pairs1 pairs2 l l'.
  Proof.
    intros L Sh Sh' M1 M2 S1 S2. pose proof (shares_range r s l L Sh) as Ls. destruct (mutual r s l l' L Sh Sh') as [Ll _].
    assert (H1 : forall p q k d k' d', nth_error l p = Some k -> nth_error l q = Some d -> nth_error l' p = Some k' -> nth_error l' q = Some d' -> (In (k, d) pairs1 <-> In (k', d') pairs2)).
    { intros p q k d k' d' A B C D. split; intros I; [apply (fate_half r s l l' em1 em2 nm1 nm2 col1 col2 c1 c2 pairs1 pairs2 p q k d k' d'); auto|apply (fate_half s r l' l em2 em1 nm2 nm1 col2 col1 c2 c1 pairs2 pairs1 p q k' d' k d); auto]. }
    assert (H3 : forall p x k, nth_error l p = Some x -> In (k, x) pairs1 -> In k l) by (intros p x k Hx; eapply shared_to_shared; eauto; eapply nth_error_In; eauto).
    assert (H3' : forall p x k, nth_error l' p = Some x -> In (k, x) pairs2 -> In k l') by (intros p x k Hx; eapply shared_to_shared; eauto; eapply nth_error_In; eauto).
    split; auto. split; auto. intros p x x' A B. split; intros (k & I).
    - pose proof (H3 p x k A I) as Ik. apply In_nth_error in Ik as [q Hq]. destruct (nth_error_ex l' q) as [k' Hq']; [rewrite Ll; eapply nth_error_lt; eauto|]. exists k'. apply (H1 q p k x k' x'); auto.
    - pose proof (H3' p x' k B I) as Ik. apply In_nth_error in Ik as [q Hq]. destruct (nth_error_ex l q) as [k' Hq']; [rewrite <- Ll; eapply nth_error_lt; eauto|]. exists k'. apply (H1 q p k' x k x'); auto.
  Qed.
End Ranks.

(* every rank has at most one neighbor *)
Lemma exchange_ok n P (clean : nat -> bool) (col : nat -> list nat) : Joined n P -> (forall r, r < n -> length (pnbrs (P r)) <= 1) -> (forall r, r < n -> clean r = true -> ~ In 0 (pmask (P r))) ->
  exists em nm col' clean' pairs,
    (forall r, r < n -> Settled (P r) (hd [] (plists (P r))) (em r) (nm r) (col' r) (clean' r) (pairs r) /\ (forall i, nth_error (em r) i = Some 0 -> nth_error (pmask (P r)) i = Some 0) /\
       forall i, (forall s l p q, Shares P r s l -> ~ Between (pedges (P r)) l p q i) -> nth_error (em r) i = nth_error (pmask (P r)) i) /\
    (forall r s l l', r < n -> Shares P r s l -> Shares P s r l' -> SameMasks P em r s l l' /\ SameFate (pairs r) (pairs s) l l') /\
    forall A (k : nat -> _ -> res A) ps, (forall r, r < n -> ps r = exchangeMasks (pnodes (P r)) (table (pedges (P r))) (pnbrs (P r)) (plists (P r)) (pmask (P r)) (col r) (clean r) (k r)) ->
      (forall r, n <= r -> exists b, ps r = Ret b) -> exists a, Finishes n ps a /\ forall r, r < n -> a r = k r (em r, nm r, col' r, clean' r).
Proof.
  intros J One Cl. destruct (choose [] (fun r ms => mmap (sharedMask (pnodes (P r)) (table (pedges (P r))) (plists (P r)) (pmask (P r))) (seq 0 (length (pnbrs (P r)))) = Ok (combine (map (edgesAt (pedges (P r))) (plists (P r))) ms) /\ Forall2 (Masks (pedges (P r)) (pmask (P r))) (plists (P r)) ms) n) as [ms Hms]; [intros r L; apply (my_masks n P J); auto|].
  assert (Fm : forall s, s < n -> Forall2 (Masks (pedges (P s)) (pmask (P s))) (plists (P s)) (ms s)) by (intros s L; apply Hms; auto).
  destruct (choose ([], [], [], false, []) (fun r '(e, nm, c, cl, prs) => settle (pnodes (P r)) (table (pedges (P r))) (pnbrs (P r)) (plists (P r)) (pmask (P r)) (col r) (clean r) (map (edgesAt (pedges (P r))) (plists (P r))) (incoming P ms r) = Ok (e, nm, c, cl) /\ Merged P r e /\ Settled (P r) (hd [] (plists (P r))) e nm c cl prs) n) as [f Hf].
  { intros r L. destruct (merged n P J One r ms L Fm) as (e & He & M). destruct (merged_vals n P J r e L M) as (V1 & V2 & V3). destruct (jn_edges _ _ J r L) as [Ed Ei]. destruct (jn_mask _ _ J r L) as [Lm B]. destruct (jn_nbrs _ _ J r L) as [_ Le].
    destruct (settle_ok (pnodes (P r)) (pedges (P r)) (pnbrs (P r)) (plists (P r)) (pmask (P r)) (col r) (clean r) Ei (One r L) Le) with (ess := map (edgesAt (pedges (P r))) (plists (P r))) (theirs := incoming P ms r) (em' := e) as (nm & c & cl & prs & Hs & S); auto.
    - destruct (plists (P r)) as [|l t] eqn:El; [constructor|]. apply (lists_ok n P J r 0 l L). rewrite El. auto.
    - apply M.
    - exists (e, nm, c, cl, prs). split; auto. split; auto. destruct (P r); auto. }
  set (em r := fst (fst (fst (fst (f r))))). set (nm r := snd (fst (fst (fst (f r))))). set (c r := snd (fst (fst (f r)))). set (cl r := snd (fst (f r))). set (prs r := snd (f r)).
  assert (Hg : forall r, r < n -> settle (pnodes (P r)) (table (pedges (P r))) (pnbrs (P r)) (plists (P r)) (pmask (P r)) (col r) (clean r) (map (edgesAt (pedges (P r))) (plists (P r))) (incoming P ms r) = Ok (em r, nm r, c r, cl r) /\ Merged P r (em r) /\ Settled (P r) (hd [] (plists (P r))) (em r) (nm r) (c r) (cl r) (prs r)).
  { intros r L. specialize (Hf r L). unfold em, nm, c, cl, prs. destruct (f r) as [[[[? ?] ?] ?] ?]. exact Hf. }
  exists em, nm, c, cl, prs.
  assert (Hd : forall r s l, r < n -> Shares P r s l -> hd [] (plists (P r)) = l). { intros r s l L Sh. destruct Sh as (i & A & B). pose proof (only n P One r s L (nth_error_In _ _ A)) as Es. destruct (only_list n P J r s L Es) as (l0 & El & _). rewrite El in *. destruct i as [|[|]]; cbn in *; congruence. }
  split; [|split].
  - intros r L. destruct (Hg r L) as (_ & M & S). split; auto. split; [eapply merged_vals; eauto|]. apply M.
  - intros r s l l' L Sh Sh'. pose proof (shares_range n P J r s l L Sh) as Ls. destruct (Hg r L) as (_ & M & S). destruct (Hg s Ls) as (_ & M' & S'). split.
    + intros p q i i' B B'. destruct M as (_ & M & _). destruct M' as (_ & M' & _). destruct (M _ _ _ _ _ _ _ Sh Sh' B B') as (x & y & X1 & X2 & X3). destruct (M' _ _ _ _ _ _ _ Sh' Sh B' B) as (x2 & y2 & Y1 & Y2 & Y3). exists x, y. repeat split; auto. rewrite Y3, Nat.max_comm. congruence.
    + rewrite (Hd r s l L Sh) in S. rewrite (Hd s r l' Ls Sh') in S'. eapply (same_fate n P J One r s); eauto.
  - intros A k ps Hp Ho. destruct (wire_ok n (fun r => pnbrs (P r)) ms (fun r ts => bind (settle (pnodes (P r)) (table (pedges (P r))) (pnbrs (P r)) (plists (P r)) (pmask (P r)) (col r) (clean r) (map (edgesAt (pedges (P r))) (plists (P r))) ts) (k r))) with (ps := ps) as (a & Fin & Ha); auto.
    + intros r L. rewrite <- (Forall2_len _ _ _ (Fm r L)). apply (jn_nbrs _ _ J r L).
    + intros r L. apply (jn_nbrs _ _ J r L).
    + apply (jn_range _ _ J).
    + intros r s L I. eapply mutual_nbrs; eauto.
    + intros r L. eapply masks_small; eauto.
    + intros r L. rewrite Hp by auto. unfold exchangeMasks. destruct (Hms r L) as [H F]. rewrite H. cbn [lift]. destruct (combine_fst (map (edgesAt (pedges (P r))) (plists (P r))) (ms r)) as [E1 E2]; [rewrite map_length; symmetry; exact (Forall2_len _ _ _ F)|]. rewrite E1, E2. reflexivity.
    + exists a. split; auto. intros r L. destruct (Ha r L) as [_ H]. rewrite (H (incoming P ms r)).
      * destruct (Hg r L) as [-> _]. reflexivity.
      * unfold incoming. destruct (pnbrs (P r)) as [|s t] eqn:En; [constructor|]. assert (Is : In s (pnbrs (P r))) by (rewrite En; left; auto). pose proof (only n P One r s L Is) as Es. assert (t = []) by congruence. subst t. constructor; [|constructor].
        pose proof (jn_range _ _ J r s L Is) as Ls. pose proof (only n P One s r Ls (mutual_nbrs n P J r s L Is)) as Er. destruct (only_list n P J s r Ls Er) as (l' & El' & _). split; [rewrite Er; auto|]. pose proof (Fm s Ls) as F. rewrite El' in F. inversion F; subst. auto.
Qed.

(* a neighbor that lists another rank first: its mask is preceded by the other's *)
Lemma exchange_abort n P A (clean : nat -> bool) (col : nat -> list nat) (k : nat -> _ -> res A) ps : Joined n P ->
  (forall r, r < n -> ps r = exchangeMasks (pnodes (P r)) (table (pedges (P r))) (pnbrs (P r)) (plists (P r)) (pmask (P r)) (col r) (clean r) (k r)) ->
  (forall r, n <= r -> exists b, ps r = Ret b) ->
  exists a, Finishes n ps a /\ forall r s, r < n -> In s (pnbrs (P r)) -> nth_error (pnbrs (P s)) 0 <> Some r -> a r = Abort.
Proof.
  intros J Hp Ho. destruct (choose [] (fun r ms => mmap (sharedMask (pnodes (P r)) (table (pedges (P r))) (plists (P r)) (pmask (P r))) (seq 0 (length (pnbrs (P r)))) = Ok (combine (map (edgesAt (pedges (P r))) (plists (P r))) ms) /\ Forall2 (Masks (pedges (P r)) (pmask (P r))) (plists (P r)) ms) n) as [ms Hms]; [intros r L; apply (my_masks n P J); auto|].
  assert (Fm : forall s, s < n -> Forall2 (Masks (pedges (P s)) (pmask (P s))) (plists (P s)) (ms s)) by (intros s L; apply Hms; auto).
  destruct (wire_ok n (fun r => pnbrs (P r)) ms (fun r ts => bind (settle (pnodes (P r)) (table (pedges (P r))) (pnbrs (P r)) (plists (P r)) (pmask (P r)) (col r) (clean r) (map (edgesAt (pedges (P r))) (plists (P r))) ts) (k r))) with (ps := ps) as (a & Fin & Ha); auto.
  + intros r L. rewrite <- (Forall2_len _ _ _ (Fm r L)). apply (jn_nbrs _ _ J r L).
  + intros r L. apply (jn_nbrs _ _ J r L).
  + apply (jn_range _ _ J).
  + intros r s L I. eapply mutual_nbrs; eauto.
  + intros r L. eapply masks_small; eauto.
  + intros r L. rewrite Hp by auto. unfold exchangeMasks. destruct (Hms r L) as [H F]. rewrite H. cbn [lift]. destruct (combine_fst (map (edgesAt (pedges (P r))) (plists (P r))) (ms r)) as [E1 E2]; [rewrite map_length; symmetry; exact (Forall2_len _ _ _ F)|]. rewrite E1, E2. reflexivity.
  + exists a. split; auto. intros r s L I N. destruct (Ha r L) as [H _]. apply H. eauto.
Qed.
