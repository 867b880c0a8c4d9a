(* Exchanging edge masks: what one rank computes. *)
From Verif Require Import Base BaseFacts StdAlg SerializeModel MeshModel KeyMapModel MeshEditorModel MeshEditorSpec MeshEditorProofs MeshEditorProofs2 MeshEditorProofs4 MpiModel ExchangeModel ExchangeProofs2 CheckModel CheckProofs DistModel DistProofs DistProofs3 SerialDistProofs2 EdgeMaskModel EdgeMaskSpec.
From Coq Require Import Lia Sorted Permutation.

Definition table (E : list (nat * nat)) : keymap (K := nat * nat) := combine E (seq 0 (length E)).
Lemma table_fst E : map fst (table E) = E.
Proof. unfold table. generalize 0. induction E as [|e E IH]; intros o; cbn; auto. rewrite IH. auto. Qed.
Lemma table_len E : length (table E) = length E.
Proof. unfold table. rewrite combine_length, seq_length. lia. Qed.
Lemma table_pos E : NoDup E -> positional (table E).
Proof.
  intros N. split; [|rewrite table_fst; auto]. intros i p H. unfold table in H. revert H. assert (G : forall o i p, nth_error (combine E (seq o (length E))) i = Some p -> snd p = o + i); [|intros H; apply (G 0); auto].
  clear. induction E as [|e E IH]; intros o [|i] p H; cbn in H; try discriminate; [injection H as <-; cbn; lia|]. rewrite (IH (S o) i p H). lia.
Qed.
Lemma pos_table m : positional m -> m = table (map fst m).
Proof.
  intros [P _]. unfold table. rewrite map_length.
  assert (G : forall (l : keymap (K := nat * nat)) o, (forall i p, nth_error l i = Some p -> snd p = o + i) -> l = combine (map fst l) (seq o (length l))).
  { induction l as [|[k x] l IH]; intros o Q; auto. cbn. pose proof (Q 0 _ eq_refl) as P0. cbn in P0. rewrite <- (IH (S o)); [f_equal; f_equal; lia|]. intros i p H. rewrite (Q (S i) p H). lia. }
  apply (G m 0). auto.
Qed.

Lemma mmap_total {A B} (f : A -> res B) l : (forall x, In x l -> exists y, f x = Ok y) -> exists ys, mmap f l = Ok ys /\ Forall2 (fun x y => f x = Ok y) l ys.
Proof.
  induction l as [|x l IH]; intros H; [exists []; auto|]. destruct (H x ltac:(left; auto)) as [y Ey]. destruct IH as (ys & E & F); [intros; apply H; right; auto|]. exists (y :: ys). split; [cbn; rewrite Ey, E; auto|auto].
Qed.

(* sorting pairs *)
Definition pkey (e : nat * nat) : list Z := [Z.of_nat (fst e); Z.of_nat (snd e)].
Lemma pkey_inj a b : pkey a = pkey b -> a = b.
Proof. destruct a, b. unfold pkey. cbn. intros [= H1 H2]. f_equal; lia. Qed.
Lemma pkey_lt a b : nedge_lt a b = lexlt (pkey a) (pkey b).
Proof.
  destruct a as [a b0], b as [c d]. unfold nedge_lt, pkey. cbn [fst snd lexlt].
  repeat match goal with |- context [Nat.ltb ?x ?y] => destruct (Nat.ltb_spec x y) | |- context [Nat.eqb ?x ?y] => destruct (Nat.eqb_spec x y) | |- context [Z.ltb ?x ?y] => destruct (Z.ltb_spec x y) | |- context [Z.eqb ?x ?y] => destruct (Z.eqb_spec x y) end; cbn; auto; lia.
Qed.
Lemma sort_pairs l : map pkey (sortb nedge_lt l) = sortb lexlt (map pkey l).
Proof.
  rewrite <- (sortb_map pkey). f_equal. induction l as [|a l IH]; auto. cbn [sortb]. rewrite IH. generalize (sortb (fun a b => lexlt (pkey a) (pkey b)) l). clear. induction l as [|b l IH]; auto. cbn. rewrite pkey_lt, IH. auto.
Qed.
Lemma sort_same l l' : NoDup l -> NoDup l' -> (forall x, In x l <-> In x l') -> sortb nedge_lt l = sortb nedge_lt l'.
Proof.
  intros N N' H. apply (map_inj_in pkey); [intros; apply pkey_inj; auto|]. rewrite !sort_pairs. apply sorted_perm; try apply sortK_sorted. rewrite !sortb_perm. apply Permutation_map. apply NoDup_Permutation; auto.
Qed.

Lemma between_swap E l p q i : Between E l p q i -> Between E l q p i.
Proof. intros (a & b & H1 & H2 & [J|J]); exists b, a; (split; [auto|split; [auto|]]); [right|left]; auto. Qed.

Lemma nth_first {X} (l : list X) : forall j k, k < j -> nth_error (firstn j l) k = nth_error l k.
Proof. induction l as [|a l IH]; intros [|j] [|k] L; try lia; auto. cbn. apply IH. lia. Qed.

Section Local.
  Context (nn : nat) (E : list (nat * nat)).
  Hypothesis End_ : NoDup E.
  Hypothesis Ein : forall a b, In (a, b) E -> a < b /\ b < nn.

  Section OneList.
  Context (l : list nat).
  Hypothesis Nd : NoDup l.

  Lemma place x p : nth_error l p = Some x <-> findIndex l x = Some p.
  Proof. split; [apply find_nth; auto|apply (proj1 (find_index l x))]. Qed.
  Lemma no_place x : findIndex l x = None <-> ~ In x l.
  Proof. apply (proj2 (find_index l x)). Qed.

  Lemma sharePositions_ok : (forall x, In x l -> x < nn) -> sharePositions nn l = Ok tt.
  Proof.
    intros Lin.    unfold sharePositions. destruct (mfold_inv (fun seen x => do _ <- assert (negb (mem x seen)); do _ <- (if x <? nn then Ok tt else UB); Ok (seen ++ [x])) (fun d s => s = d) l []) as (s & -> & _); auto.
    intros l1 x l2 s El ->. assert (Nx : ~ In x l1). { rewrite El in Nd. apply NoDup_remove_2 in Nd. intros I. apply Nd, in_or_app. auto. }
    destruct (mem x l1) eqn:M; [apply mem_in in M; contradiction|]. cbn [negb assert bind]. assert (Lx : x < nn) by (apply Lin; rewrite El; apply in_or_app; right; left; auto). destruct (Nat.ltb_spec x nn); [|lia]. cbn [bind]. eauto.
  Qed.

  Definition placed (e : nat * nat) : list (nat * nat) := match findIndex l (fst e), findIndex l (snd e) with Some p, Some q => [edge_key p q] | _, _ => [] end.
  Lemma joins_ends a b i : Joins E a b i -> a <> b /\ a < nn /\ b < nn /\ nth_error E i = Some (edge_key a b).
  Proof.
    intros [J|J]; pose proof (Ein _ _ (nth_error_In _ _ J)); (split; [lia|split; [lia|split; [lia|]]]); unfold edge_key; [destruct (Nat.ltb_spec a b)|destruct (Nat.ltb_spec a b)]; auto; lia.
  Qed.
  Lemma between_ne p q i : Between E l p q i -> p <> q.
  Proof. intros (a & b & Ha & Hb & J) ->. apply joins_ends in J as [N _]. congruence. Qed.
  Lemma between_fun p q i j : Between E l p q i -> Between E l p q j -> i = j.
  Proof.
    intros (a & b & Ha & Hb & J) (a' & b' & Ha' & Hb' & J'). assert (a' = a) by congruence. assert (b' = b) by congruence. subst. apply joins_ends in J as (_ & _ & _ & J). apply joins_ends in J' as (_ & _ & _ & J'). exact (nodup_nth E i j _ End_ J J').
  Qed.
  Lemma between_inj p q p' q' i : Between E l p q i -> Between E l p' q' i -> p < q -> p' < q' -> (p, q) = (p', q').
  Proof.
    intros (a & b & Ha & Hb & J) (a' & b' & Ha' & Hb' & J') L L'. apply joins_ends in J as (_ & _ & _ & J). apply joins_ends in J' as (_ & _ & _ & J'). rewrite J in J'. injection J' as J'. apply edge_key_eq in J' as [[-> ->]|[-> ->]].
    - rewrite (nodup_nth l p p' _ Nd Ha Ha'), (nodup_nth l q q' _ Nd Hb Hb'). auto.
    - pose proof (nodup_nth l p q' _ Nd Ha Hb'). pose proof (nodup_nth l q p' _ Nd Hb Ha'). lia.
  Qed.
  Lemma placed_in p q : In (p, q) (flat_map placed E) <-> p < q /\ exists i, Between E l p q i.
  Proof.
    rewrite in_flat_map. split.
    - intros ((a, b) & I & H). unfold placed in H. cbn [fst snd] in H. destruct (findIndex l a) as [u|] eqn:Ea; [|destruct H]. destruct (findIndex l b) as [v|] eqn:Eb; [|destruct H]. destruct H as [H|[]]. apply place in Ea, Eb. apply In_nth_error in I as [i Hi].
      assert (B : Between E l u v i) by (exists a, b; split; [auto|split; [auto|left; auto]]). pose proof (between_ne _ _ _ B) as N. pose proof (edge_key_lt u v p q N H) as L. split; auto. exists i. destruct (edge_key_or u v) as [X|X]; rewrite X in H; injection H as <- <-; auto. apply between_swap; auto.
    - intros [L [i (a & b & Ha & Hb & J)]]. apply place in Ha, Hb. destruct J as [J|J]; [exists (a, b)|exists (b, a)]; (split; [eapply nth_error_In; eauto|]); unfold placed; cbn [fst snd]; rewrite Ha, Hb; left; unfold edge_key; [destruct (Nat.ltb_spec p q)|destruct (Nat.ltb_spec q p)]; auto; lia.
  Qed.
  Lemma placed_nodup : NoDup (flat_map placed E).
  Proof.
    apply nodup_flat; auto.
    - intros [a b] _. unfold placed. cbn [fst snd]. destruct (findIndex l a), (findIndex l b); repeat constructor. intros [].
    - intros [a b] [c d] [p q] I1 I2 H1 H2. apply In_nth_error in I1 as [i Hi]. apply In_nth_error in I2 as [j Hj]. unfold placed in *. cbn [fst snd] in *.
      destruct (findIndex l a) as [u|] eqn:Ea; [|destruct H1]. destruct (findIndex l b) as [v|] eqn:Eb; [|destruct H1]. destruct H1 as [H1|[]]. destruct (findIndex l c) as [x|] eqn:Ec; [|destruct H2]. destruct (findIndex l d) as [y|] eqn:Ed; [|destruct H2]. destruct H2 as [H2|[]]. apply place in Ea, Eb, Ec, Ed. rewrite <- H1 in H2. apply edge_key_eq in H2.
      pose proof (Ein _ _ (nth_error_In _ _ Hi)). pose proof (Ein _ _ (nth_error_In _ _ Hj)). destruct H2 as [[-> ->]|[-> ->]]; [f_equal; congruence|]. assert (c = b) by congruence. assert (d = a) by congruence. lia.
  Qed.
  Definition edgesAt : list (nat * nat) := sortb nedge_lt (flat_map placed E).
  Lemma edgesAt_in p q : In (p, q) edgesAt <-> p < q /\ exists i, Between E l p q i.
  Proof. rewrite <- placed_in. unfold edgesAt. split; apply Permutation_in; [|symmetry]; apply sortb_perm. Qed.
  Lemma edgesAt_nodup : NoDup edgesAt.
  Proof. apply (Permutation_NoDup (l := flat_map placed E)); [symmetry; apply sortb_perm|apply placed_nodup]. Qed.
  Lemma edgesAt_len : length edgesAt <= length E.
  Proof.
    unfold edgesAt. rewrite (Permutation_length (sortb_perm _ _)). clear. induction E as [|e t IH]; auto. cbn [flat_map]. rewrite app_length. assert (length (placed e) <= 1) by (unfold placed; destruct (findIndex l (fst e)), (findIndex l (snd e)); cbn; lia). cbn. lia.
  Qed.

  Lemma sharedEdges_ok : sharedEdges nn (table E) l = Ok edgesAt.
  Proof.
    unfold sharedEdges, edgesAt. match goal with |- bind (mfold ?f _ _) _ = _ => destruct (mfold_inv f (fun d s => s = flat_map placed (map fst d)) (table E) []) as (s & -> & ->); auto end.
    - intros l1 [[a b] i] l2 s El ->. assert (I : In (a, b) E). { rewrite <- (table_fst E), El, map_app. apply in_or_app. right. left. auto. } destruct (Ein _ _ I) as [L1 L2]. destruct (Nat.ltb_spec a b); [|lia]. destruct (Nat.ltb_spec a nn); [|lia]. destruct (Nat.ltb_spec b nn); [|lia]. cbn [assert bind andb].
      rewrite map_app, flat_map_app. cbn [map fst flat_map]. rewrite app_nil_r. change (placed (a, b)) with (match findIndex l a, findIndex l b with Some p, Some q => [edge_key p q] | _, _ => [] end).
      destruct (findIndex l a) as [p|] eqn:Ea; [|rewrite ?app_nil_r; eauto]. destruct (findIndex l b) as [q|] eqn:Eb; [|rewrite ?app_nil_r; eauto]. apply place in Ea, Eb. assert (p <> q) by (intros ->; rewrite Ea in Eb; injection Eb; lia). destruct (Nat.eqb_spec p q); [contradiction|]. cbn [negb assert bind]. eauto.
    - cbn [bind]. rewrite table_fst. auto.
  Qed.
  Lemma edgeOf_ok p q i : Between E l p q i -> edgeOf nn (table E) l (p, q) = Ok i.
  Proof.
    intros (a & b & Ha & Hb & J). apply joins_ends in J as (N & La & Lb & J). unfold edgeOf. rewrite (proj2 (Nat.ltb_lt _ _) (nth_error_lt _ _ _ Ha)), (proj2 (Nat.ltb_lt _ _) (nth_error_lt _ _ _ Hb)). cbn [andb assert bind]. rewrite (proj2 (get_ok _ _ _) Ha), (proj2 (get_ok _ _ _) Hb). cbn [bind].
    rewrite (proj2 (Nat.ltb_lt _ _) La), (proj2 (Nat.ltb_lt _ _) Lb). cbn [andb assert bind]. destruct (Nat.eqb_spec a b); [contradiction|]. cbn [negb assert bind]. rewrite (proj2 (find_pos (table E) (edge_key a b) i (table_pos E End_))) by (rewrite table_fst; auto). rewrite table_len, (proj2 (Nat.ltb_lt _ _) (nth_error_lt _ _ _ J)). reflexivity.
  Qed.
  (* the edges of the list by number *)
  Lemma numbers : exists is, Forall2 (fun pq i => Between E l (fst pq) (snd pq) i) edgesAt is /\ NoDup is /\ forall i, In i is <-> exists p q, Between E l p q i.
  Proof.
    assert (H : forall pq, In pq edgesAt -> exists i, Between E l (fst pq) (snd pq) i) by (intros [p q] I; apply edgesAt_in in I; apply I).
    assert (G : forall es, (forall pq, In pq es -> exists i, Between E l (fst pq) (snd pq) i) -> exists is, Forall2 (fun pq i => Between E l (fst pq) (snd pq) i) es is).
    { clear. induction es as [|e es IH]; intros H; [exists []; auto|]. destruct (H e ltac:(left; auto)) as [i Hi]. destruct IH as [is F]; [intros; apply H; right; auto|]. exists (i :: is). auto. }
    destruct (G _ H) as [is F]. exists is. split; auto. split.
    - apply NoDup_nth_error. intros x y Lx Exy. destruct (nth_error_ex is x Lx) as [i Hi]. rewrite Hi in Exy. symmetry in Exy. destruct (Forall2_nth_r _ _ _ _ _ F Hi) as ([p q] & H1 & B1). destruct (Forall2_nth_r _ _ _ _ _ F Exy) as ([p' q'] & H2 & B2). cbn [fst snd] in *.
      pose proof (proj1 (proj1 (edgesAt_in p q) (nth_error_In _ _ H1))) as L1. pose proof (proj1 (proj1 (edgesAt_in p' q') (nth_error_In _ _ H2))) as L2. pose proof (between_inj _ _ _ _ _ B1 B2 L1 L2) as X. injection X as <- <-. exact (nodup_nth _ x y _ edgesAt_nodup H1 H2).
    - intros i. split.
      + intros I. destruct (Forall2_in_r _ _ _ _ F I) as ([p q] & _ & B). eauto.
      + intros (p & q & B). assert (B' : exists p q, p < q /\ Between E l p q i) by (destruct (Nat.lt_total p q) as [|[->|]]; [eauto|exfalso; apply (between_ne _ _ _ B); auto|exists q, p; split; auto; apply between_swap; auto]). destruct B' as (u & v & Lv & Bv). destruct (Forall2_in_l _ _ _ (u, v) F) as (j & Ij & Bj); [apply edgesAt_in; eauto|]. cbn [fst snd] in Bj. rewrite (between_fun _ _ _ _ Bv Bj). auto.
  Qed.
  End OneList.

  Context (nd : list nat) (sn : list (list nat)) (em : list nat).
  Hypothesis Lsn : length sn = length nd.
  Hypothesis Lem : length em = length E.
  Hypothesis Sn : forall i l, nth_error sn i = Some l -> NoDup l /\ forall x, In x l -> x < nn.

  (* masks of the shared edges *)
  Definition Masks (l : list nat) (ms : list nat) : Prop := Forall2 (fun pq v => exists i, Between E l (fst pq) (snd pq) i /\ nth_error em i = Some v) (edgesAt l) ms.
  Lemma sharedMask_ok i l : nth_error sn i = Some l -> exists ms, sharedMask nn (table E) sn em i = Ok (edgesAt l, ms) /\ Masks l ms.
  Proof.
    intros El. destruct (Sn i l El) as [N Lx]. unfold sharedMask. rewrite (proj2 (get_ok _ _ _) El). cbn [bind]. rewrite (sharePositions_ok l N Lx). cbn [bind]. rewrite (sharedEdges_ok l N). cbn [bind].
    destruct (mmap_total (fun pq => do ie <- edgeOf nn (table E) l pq; get em ie) (edgesAt l)) as (ms & -> & F).
    - intros [p q] I. apply (edgesAt_in l N) in I as [_ [j B]]. rewrite (edgeOf_ok l p q j B). cbn [bind]. destruct B as (a & b & _ & _ & J). apply joins_ends in J as (_ & _ & _ & J). destruct (nth_error_ex em j) as [v Hv]; [rewrite Lem; eapply nth_error_lt; eauto|]. rewrite (proj2 (get_ok _ _ _) Hv). eauto.
    - cbn [bind]. exists ms. split; auto. unfold Masks. 
      assert (G : forall es ms, Forall2 (fun pq v => (do ie <- edgeOf nn (table E) l pq; get em ie) = Ok v) es ms -> (forall pq, In pq es -> exists i, Between E l (fst pq) (snd pq) i) -> Forall2 (fun pq v => exists i, Between E l (fst pq) (snd pq) i /\ nth_error em i = Some v) es ms).
      { clear - End_ Ein. induction 1 as [|[p q] v es ms H F IH]; intros B; constructor; [|apply IH; intros; apply B; right; auto]. destruct (B (p, q) ltac:(left; auto)) as [i Bi]. cbn [fst snd] in *. exists i. split; auto. rewrite (edgeOf_ok l p q i Bi) in H. cbn [bind] in H. apply (proj1 (get_ok _ _ _)) in H. auto. }
      apply G; auto. intros [p q] I. apply (edgesAt_in l N) in I. apply I.
  Qed.
  Lemma masks_all : exists ems, mmap (sharedMask nn (table E) sn em) (seq 0 (length nd)) = Ok ems /\ map fst ems = map edgesAt sn /\ Forall2 Masks sn (map snd ems).
  Proof.
    destruct (mmap_total (sharedMask nn (table E) sn em) (seq 0 (length nd))) as (ems & E1 & F).
    - intros i I. apply in_seq in I. destruct (nth_error_ex sn i) as [l El]; [lia|]. destruct (sharedMask_ok i l El) as (ms & H & _). eauto.
    - exists ems. split; auto. rewrite <- Lsn in F. clear E1 Lsn. assert (G : forall o ls, (forall j l, nth_error ls j = Some l -> nth_error sn (o + j) = Some l) -> forall ems, Forall2 (fun x y => sharedMask nn (table E) sn em x = Ok y) (seq o (length ls)) ems -> map fst ems = map edgesAt ls /\ Forall2 Masks ls (map snd ems)).
      { clear ems F. intros o ls. revert o. induction ls as [|l ls IH]; intros o H ems F; inversion F as [|? [es ms] ? ems' H1 F1]; subst; [split; auto; constructor|]. pose proof (H 0 l eq_refl) as H0. rewrite Nat.add_0_r in H0. destruct (sharedMask_ok o l H0) as (ms' & H2 & M). rewrite H1 in H2. injection H2 as -> ->. destruct (IH (S o)) with (ems := ems') as [A1 A2]; auto; [intros j l0 Hl; rewrite Nat.add_succ_comm; apply H; auto|]. cbn. rewrite A1. auto. }
      apply (G 0); auto.
  Qed.

  (* ---- one neighbor ---- *)
  Lemma get_nth {X} (l : list X) i x : nth_error l i = Some x -> get l i = Ok x.
  Proof. apply get_ok. Qed.
  Lemma merge_one l ms : nd <> [] -> length nd <= 1 -> sn = [l] -> length ms = length (edgesAt l) -> exists em', mergeMasks nn (table E) nd sn [edgesAt l] [ms] em = Ok em' /\ length em' = length E /\
    (forall j p q i v x, nth_error (edgesAt l) j = Some (p, q) -> Between E l p q i -> nth_error ms j = Some v -> nth_error em i = Some x -> nth_error em' i = Some (Nat.max x v)) /\
    (forall i, ~ (exists p q, Between E l p q i) -> nth_error em' i = nth_error em i).
  Proof.
    intros Ne L1 El Lm. assert (Ln : length nd = 1) by (destruct nd as [|? [|]]; cbn in *; [congruence|auto|lia]). destruct (Sn 0 l ltac:(rewrite El; auto)) as [N Lx].
    unfold mergeMasks. rewrite Ln, El. cbn [seq mfold get nth_error bind].
    destruct (numbers l N) as (is & F & ND & Is). assert (Li : length is = length (edgesAt l)) by (symmetry; exact (Forall2_len _ _ _ F)).
    match goal with |- context [mfold ?f _ em] => destruct (mfold_seq f (fun j em' => length em' = length E /\ (forall k i v x, k < j -> nth_error is k = Some i -> nth_error ms k = Some v -> nth_error em i = Some x -> nth_error em' i = Some (Nat.max x v)) /\ (forall i, ~ In i (firstn j is) -> nth_error em' i = nth_error em i)) (length (edgesAt l)) em) as (em' & -> & A1 & A2 & A3) end.
    - split; auto. split; [intros; lia|auto].
    - intros j em1 Lj (B1 & B2 & B3). destruct (nth_error_ex (edgesAt l) j Lj) as [[p q] Hj]. destruct (Forall2_nth _ _ _ _ _ F Hj) as (i & Hi & Bi). cbn [fst snd] in Bi. rewrite (get_nth _ _ _ Hj). cbn [bind]. rewrite (edgeOf_ok l p q i Bi). cbn [bind].
      assert (LiE : i < length E). { destruct Bi as (a & b & _ & _ & J). apply joins_ends in J as (_ & _ & _ & J). eapply nth_error_lt; eauto. }
      destruct (nth_error_ex em1 i) as [x Hx]; [lia|]. destruct (nth_error_ex ms j) as [v Hv]; [lia|]. rewrite (get_nth _ _ _ Hx), (get_nth _ _ _ Hv). cbn [bind]. rewrite set_lt by lia. eexists. split; [reflexivity|]. rewrite upd_length. split; auto.
      assert (Fresh : ~ In i (firstn j is)). { intros I. apply In_nth_error in I as [k Hk]. pose proof (nth_error_lt _ _ _ Hk) as Lk. rewrite firstn_length in Lk. rewrite nth_first in Hk by lia. pose proof (nodup_nth is k j i ND Hk Hi). lia. }
      split.
      + intros k i' v' x' Lk Hk Hv' Hx'. destruct (Nat.eq_dec k j) as [->|Nk].
        * assert (i' = i) by congruence. assert (v' = v) by congruence. subst. rewrite upd_same by lia. rewrite (B3 i Fresh) in Hx. f_equal. congruence.
        * rewrite upd_other; [apply (B2 k); auto; lia|]. intros ->. apply Nk. exact (nodup_nth is k j _ ND Hk Hi).
      + intros i' Ni. rewrite upd_other; [apply B3|].
        * intros I. apply Ni. clear - I. revert is I. induction j as [|j IH]; intros [|a is] I; try destruct I. left; auto. right. apply IH. auto.
        * intros ->. apply Ni. clear - Hi. revert is Hi. induction j as [|j IH]; intros [|a is] H; try discriminate; [injection H as ->; left; auto|right; apply IH; auto].
    - cbn [bind]. exists em'. split; auto. split; auto. split.
      + intros j p q i v x Hj B Hv Hx. destruct (Forall2_nth _ _ _ _ _ F Hj) as (i' & Hi & Bi). cbn [fst snd] in Bi. rewrite (between_fun l _ _ _ _ B Bi) in *. apply (A2 j); auto. eapply nth_error_lt; eauto.
      + intros i Ni. apply A3. rewrite <- Li, firstn_all. rewrite Is. auto.
  Qed.
End Local.
