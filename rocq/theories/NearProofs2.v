From Verif Require Import Base BaseFacts SerializeModel MeshModel StdAlg NearModel NearSpec NearProofs.
From Coq Require Import Reals Lra Sorted.
Local Open Scope R_scope.

(* a property kept by every step holds at the end *)
Lemma mfold_hoare {A S} (f : S -> A -> res S) (P : list A -> S -> Prop) l s0 s :
  P [] s0 -> (forall l1 a l2 s s', l = l1 ++ a :: l2 -> P l1 s -> f s a = Ok s' -> P (l1 ++ [a]) s') ->
  mfold f l s0 = Ok s -> P l s.
Proof.
  intros H0 Hs. assert (G : forall l2 l1 s1, l = l1 ++ l2 -> P l1 s1 -> mfold f l2 s1 = Ok s -> P l s).
  { induction l2 as [|a l2 IH]; intros l1 s1 E HP HE; cbn in HE.
    - injection HE as <-. rewrite E, app_nil_r. auto.
    - destruct (f s1 a) as [s2| | |] eqn:F; try discriminate. cbn [bind] in HE.
      apply (IH (l1 ++ [a]) s2); auto; [rewrite <- app_assoc; auto|]. eapply Hs; eauto. }
  apply (G l [] s0); auto.
Qed.

Lemma write2_ok ns n q ns' : write2 ns n q = Ok ns' -> length ns' = length ns /\ point_at ns' n q /\
  forall n' r, n' <> n -> (point_at ns' n' r <-> point_at ns n' r).
Proof.
  unfold write2. intros H. destruct (set ns (2 * n) (fst q)) as [ns1| | |] eqn:E1; try discriminate. cbn [bind] in H.
  apply set_ok in E1 as [L1 ->]. apply set_ok in H as [L2 ->]. rewrite upd_length in L2. rewrite !upd_length. split; auto.
  assert (X1 : nth_error (upd (upd ns (2 * n) (fst q)) (2 * n + 1) (snd q)) (2 * n) = Some (fst q)).
  { rewrite upd_other by lia. apply upd_same. auto. }
  split.
  - split; auto. apply upd_same. rewrite upd_length. auto.
  - intros n' r Ne. unfold point_at. rewrite !upd_other by lia. tauto.
Qed.

Lemma read2_lt v i q : point_at v i q -> (2 * i + 1 < length v)%nat.
Proof. intros [_ H]. apply (nth_error_lt _ _ _ H). Qed.
Lemma write2_lt ns n q : (2 * n + 1 < length ns)%nat -> exists ns', write2 ns n q = Ok ns'.
Proof.
  intros H. unfold write2. rewrite set_lt by lia. cbn [bind]. rewrite set_lt by (rewrite upd_length; lia). eauto.
Qed.

Lemma write2_same ns n q : point_at ns n q -> write2 ns n q = Ok ns.
Proof.
  intros [A B]. assert (L : (2 * n + 1 < length ns)%nat) by (eapply nth_error_lt; eauto).
  assert (G : forall i x, nth_error ns i = Some x -> upd ns i x = ns).
  { clear. induction ns as [|y ns IH]; intros [|i] x H; try discriminate; cbn in *; [injection H as ->; auto|]. rewrite IH; auto. }
  unfold write2. rewrite set_lt by lia. cbn [bind]. rewrite (G _ _ A). rewrite set_lt by lia. rewrite (G _ _ B). reflexivity.
Qed.

(* ---- scanning for a near node ---- *)
Lemma scan_spec tol rp ns bn last d r : scan tol rp ns bn last d = Ok r ->
  r = (last, d) \/ exists n q, In n bn /\ point_at ns n q /\ r = (Some n, euclid q rp).
Proof.
  revert last d. induction bn as [|n bn IH]; intros last d H; cbn in H; [left; congruence|].
  destruct (rlt tol d); [|left; congruence].
  destruct (read2 ns n) as [q| | |] eqn:E; try discriminate. cbn [bind] in H. apply read2_ok in E. rewrite distance2_dist in H.
  destruct (IH _ _ H) as [-> | (n' & q' & I & P & ->)]; right.
  - exists n, q. split; [left; auto|]. split; auto.
  - exists n', q'. split; [right; auto|]. split; auto.
Qed.

(* ---- phase 1 ---- *)
Section Phase1.
  Context (big tol : R) (v : list R) (ns0 : list R) (bn0 : list nat) (Nd0 : NoDup bn0).
  Record inv1 (c : nat) (st : list R * list nat * list nat * list nat) : Prop := {
    i1_len : length (fst (fst (fst st))) = length ns0;
    i1_nd : NoDup (snd (fst (fst st)));
    i1_bn : forall n, In n bn0 <-> In n (snd (fst st)) \/ In n (snd (fst (fst st)));
    i1_dis : forall n, In n (snd (fst st)) -> ~ In n (snd (fst (fst st)));
    i1_same : forall n q, ~ In n (snd (fst st)) -> (point_at (fst (fst (fst st))) n q <-> point_at ns0 n q);
    i1_used : forall n, In n (snd (fst st)) -> exists k q q', (k < c)%nat /\ point_at v k q' /\ point_at ns0 n q /\
       point_at (fst (fst (fst st))) n q' /\ euclid q q' < tol;
    i1_pts : forall k, (k < c)%nat -> In k (snd st) \/ exists n q', In n (snd (fst st)) /\ point_at v k q' /\ point_at (fst (fst (fst st))) n q' }.

  Lemma phase1 c st : mfold (snap_point big tol v) (seq 0 c) (ns0, bn0, [], []) = Ok st -> inv1 c st.
  Proof.
    intros H. apply (mfold_hoare _ (fun l st => inv1 (length l) st)) in H; [rewrite seq_length in H; auto| |].
    - constructor; cbn; auto; try tauto; try (intros; lia). 
    - intros l1 i l2 [[[ns bn] used] missing] st' El V Ef. assert (Hi : i = length l1).
      { assert (X : nth_error (seq 0 c) (length l1) = Some i) by (rewrite El, nth_error_app2, Nat.sub_diag by lia; auto).
        pose proof (nth_error_nth _ _ 0%nat X) as Y. pose proof (nth_error_lt _ _ _ X) as Z. rewrite seq_length in Z. rewrite seq_nth in Y by auto. lia. }
      rewrite app_length. cbn [length]. rewrite Nat.add_1_r. rewrite <- Hi in *. clear Hi El.
      destruct V as [V1 V2 V3 V4 V5 V6 V7]. cbn [fst snd] in *. unfold snap_point in Ef.
      destruct (read2 v i) as [rp| | |] eqn:Er; try discriminate. cbn [bind] in Ef. apply read2_ok in Er.
      destruct (scan tol rp ns bn None big) as [[last d]| | |] eqn:Es; try discriminate. cbn [bind] in Ef.
      destruct (rlt d tol) eqn:Ed.
      + destruct last as [n|]; [|discriminate]. destruct (write2 ns n rp) as [ns'| | |] eqn:Ew; try discriminate. cbn [bind] in Ef.
        injection Ef as <-. apply rlt_true in Ed.
        destruct (scan_spec _ _ _ _ _ _ _ Es) as [[=]|(n' & q & In_ & Pq & [= <- ->])].
        apply write2_ok in Ew as (W1 & W2 & W3).
        assert (Nu : ~ In n used) by (intros X; apply (V4 n X); auto).
        constructor; cbn [fst snd].
        * congruence.
        * clear - V2. induction bn as [|x bn IH]; cbn; auto. inversion V2; subst. destruct (Nat.eq_dec n x); auto. constructor; auto.
          intros C. apply in_remove in C. tauto.
        * intros x. rewrite V3, in_app_iff. cbn. destruct (Nat.eq_dec x n) as [->|Ne]; [split; auto|].
          split; [intros [A|A]; auto; right; apply in_in_remove; auto|]. intros [[A|[A|[]]]|A]; auto; [congruence|]. apply in_remove in A. tauto.
        * intros x A C. apply in_remove in C as [C C']. apply in_app_or in A as [A|[A|[]]]; [apply (V4 x A C)|congruence].
        * intros x r A. rewrite in_app_iff in A. cbn in A. assert (x <> n) by (intros ->; tauto). rewrite W3 by auto. apply V5. tauto.
        * intros x A. apply in_app_or in A as [A|[<-|[]]].
          -- destruct (V6 x A) as (k & q1 & q2 & B1 & B2 & B3 & B4 & B5). exists k, q1, q2. repeat split; auto; try apply B2; try apply B3; try (apply W3; auto; congruence). 
          -- exists i, q, rp. repeat split; auto; try apply Er; try apply W2; apply (V5 n q Nu); auto.
        * intros k Hk. destruct (Nat.eq_dec k i) as [->|Ne].
          -- right. exists n, rp. split; [apply in_or_app; right; left; auto|]. auto.
          -- destruct (V7 k ltac:(lia)) as [A|(x & q' & A & B & C)]; auto. right. exists x, q'. split; [apply in_or_app; auto|]. split; auto.
             apply W3; auto. congruence.
      + injection Ef as <-. constructor; cbn [fst snd]; auto.
        * intros x A. destruct (V6 x A) as (k & q1 & q2 & B1 & B). exists k, q1, q2. split; [lia|auto].
        * intros k Hk. destruct (Nat.eq_dec k i) as [->|Ne]; [left; apply in_or_app; right; left; auto|].
          destruct (V7 k ltac:(lia)) as [A|A]; auto. left. apply in_or_app; auto.
  Qed.
End Phase1.

(* ---- phase 3 ---- *)
Lemma in_range_inv z n : in_range z n = true -> exists i, z = Z.of_nat i /\ (i < n)%nat.
Proof. unfold in_range. intros H. apply andb_prop in H as [A B]. apply Z.leb_le in A. apply Z.ltb_lt in B. exists (Z.to_nat z). lia. Qed.
Lemma facets_segs big p nv v fs r : closest_on_facets big p nv v fs = Ok r -> segs nv fs.
Proof.
  unfold closest_on_facets. intros H. refine (mfold_hoare _ (fun l _ => segs nv l) _ _ _ _ _ H).
  - intros f [].
  - intros l1 f l2 [d q] s' _ S E f' I. apply in_app_or in I as [I|[<-|[]]]; [auto|].
    destruct f as [|i [|j [|? ?]]]; try discriminate.
    destruct (in_range i nv) eqn:Ri; [|discriminate]. cbn [assert bind] in E. destruct (in_range j nv) eqn:Rj; [|discriminate].
    apply in_range_inv in Ri as (i' & -> & Hi). apply in_range_inv in Rj as (j' & -> & Hj). eauto.
Qed.
Lemma nearest_segs big p nv v g r : nearestPoint big p nv v g = Ok r -> segs nv (facets g) /\ forall h, In h (holes g) -> segs nv h.
Proof.
  unfold nearestPoint. intros H. destruct (closest_on_facets big p nv v (facets g)) as [b| | |] eqn:E; try discriminate. cbn [bind] in H.
  split; [eapply facets_segs; eauto|].
  refine (mfold_hoare _ (fun l _ => forall h, In h l -> segs nv h) _ _ _ _ _ H); [intros h []|].
  intros l1 h l2 [d q] s' _ S E' h' I. apply in_app_or in I as [I|[<-|[]]]; [auto|].
  destruct (closest_on_facets big p nv v h) as [b'| | |] eqn:E2; try discriminate. eapply facets_segs; eauto.
Qed.
Lemma some_facet_in g f : In f (facets g ++ concat (holes g)) <-> some_facet g f.
Proof.
  unfold some_facet. rewrite in_app_iff, in_concat. split; intros [A|(h & A & B)]; eauto.
Qed.

Lemma best_nearest big p v g q : best big p v (facets g ++ concat (holes g)) (euclid p q) (Some q) -> NearestOn v g p q.
Proof.
  intros B. destruct (be_some _ _ _ _ _ _ B q eq_refl) as (_ & _ & f & If & Of). split; [|split].
  - exists f. split; auto. apply some_facet_in; auto.
  - intros c (f' & F & O). apply (be_min _ _ _ _ _ _ B f' c); auto. apply some_facet_in; auto.
  - intros N c (f' & F & O). apply (be_min' _ _ _ _ _ _ B) with f'; auto; [|apply some_facet_in; auto].
    intros i j a b I. apply N. apply some_facet_in; auto.
Qed.

Lemma snap_node_spec big tol v g ns n ns' : snap_node big tol v g ns n = Ok ns' ->
  exists q q', point_at ns n q /\ point_at ns' n q' /\ euclid q q' < tol /\ NearestOn v g q q' /\
    length ns' = length ns /\ forall n' r, n' <> n -> (point_at ns' n' r <-> point_at ns n' r).
Proof.
  unfold snap_node. intros H. destruct (read2 ns n) as [q| | |] eqn:Eq; try discriminate. cbn [bind] in H. apply read2_ok in Eq.
  destruct (nearestPoint big q (length v / 2) v g) as [[d c]| | |] eqn:En; try discriminate. cbn [bind] in H.
  destruct (rlt d tol) eqn:Ed.
  - destruct c as [c|]; [|discriminate]. destruct (write2 ns n c) as [ns1| | |] eqn:Ew; try discriminate. cbn [assert bind] in H.
    injection H as <-. apply rlt_true in Ed. apply write2_ok in Ew as (W1 & W2 & W3).
    destruct (nearest_segs _ _ _ _ _ _ En) as [S1 S2].
    destruct (nearest_ok big q v (length v / 2)) with (g := g) as (d' & r' & E' & B); auto.
    { pose proof (Nat.div_mod (length v) 2 ltac:(lia)). lia. }
    rewrite En in E'. injection E' as <- <-. destruct (be_some _ _ _ _ _ _ B c eq_refl) as (-> & _ & f & If & Of).
    exists q, c. split; auto. split; auto. split; auto. split; auto. eapply best_nearest; eauto.
  - cbn [assert bind] in H. discriminate.
Qed.

Lemma phase3 big tol v g bn ns0 ns : NoDup bn -> mfold (snap_node big tol v g) bn ns0 = Ok ns ->
  length ns = length ns0 /\ (forall n q, ~ In n bn -> (point_at ns n q <-> point_at ns0 n q)) /\
  forall n, In n bn -> exists q q', point_at ns0 n q /\ point_at ns n q' /\ euclid q q' < tol /\ NearestOn v g q q'.
Proof.
  intros Nd H. apply (mfold_hoare _ (fun l ns => length ns = length ns0 /\ (forall n q, ~ In n l -> (point_at ns n q <-> point_at ns0 n q)) /\
    forall n, In n l -> exists q q', point_at ns0 n q /\ point_at ns n q' /\ euclid q q' < tol /\ NearestOn v g q q')) in H; auto.
  - split; auto. split; [tauto|intros n []].
  - intros l1 n l2 s s' El (L & S & O) E. apply snap_node_spec in E as (q & q' & Q1 & Q2 & Q3 & Q4 & Q5 & Q6).
    assert (Nn : ~ In n l1). { rewrite El in Nd. apply NoDup_remove_2 in Nd. intros X. apply Nd. apply in_or_app; auto. }
    split; [congruence|]. split.
    + intros x r A. rewrite in_app_iff in A. cbn in A. assert (x <> n) by (intros ->; tauto). rewrite Q6 by auto. apply S. tauto.
    + intros x A. apply in_app_or in A as [A|[<-|[]]].
      * destruct (O x A) as (a & b & B1 & B2 & B3 & B4). exists a, b. split; auto. split; [apply Q6; auto; congruence|auto].
      * exists q, q'. split; [apply S; auto|auto].
Qed.

(* ---- tolerance ---- *)
Lemma fold_max l x0 : fold_left Rmax l x0 >= x0 /\ (forall x, In x l -> x <= fold_left Rmax l x0) /\ (fold_left Rmax l x0 = x0 \/ In (fold_left Rmax l x0) l).
Proof.
  revert x0. induction l as [|a l IH]; intros x0; cbn; [repeat split; auto; try lra; intros x []|].
  destruct (IH (Rmax x0 a)) as (A & B & C). pose proof (Rmax_l x0 a). pose proof (Rmax_r x0 a). split; [lra|]. split.
  - intros x [<-|I]; [lra|auto].
  - destruct C as [C|C]; auto. rewrite C. unfold Rmax. destruct (Rle_dec x0 a); auto.
Qed.
Lemma fold_min l x0 : fold_left Rmin l x0 <= x0 /\ (forall x, In x l -> fold_left Rmin l x0 <= x) /\ (fold_left Rmin l x0 = x0 \/ In (fold_left Rmin l x0) l).
Proof.
  revert x0. induction l as [|a l IH]; intros x0; cbn; [repeat split; auto; try lra; intros x []|].
  destruct (IH (Rmin x0 a)) as (A & B & C). pose proof (Rmin_l x0 a). pose proof (Rmin_r x0 a). split; [lra|]. split.
  - intros x [<-|I]; [lra|auto].
  - destruct C as [C|C]; auto. rewrite C. unfold Rmin. destruct (Rle_dec x0 a); auto.
Qed.
(* extent is the largest difference *)
Lemma extent_ok big l : l <> [] -> (forall x, In x l -> - big <= x <= big) ->
  (forall x y, In x l -> In y l -> Rabs (x - y) <= extent big l) /\ exists x y, In x l /\ In y l /\ x - y = extent big l.
Proof.
  intros Ne B. destruct (fold_max l (- big)) as (_ & A2 & A3). destruct (fold_min l big) as (_ & B2 & B3). unfold extent.
  set (M := fold_left Rmax l (- big)) in *. set (m := fold_left Rmin l big) in *. split.
  - intros x y X Y. pose proof (A2 x X). pose proof (A2 y Y). pose proof (B2 x X). pose proof (B2 y Y). apply Rabs_le. lra.
  - assert (EM : exists x, In x l /\ x = M).
    { destruct A3 as [A3|A3]; [|eauto]. destruct l as [|z l]; [congruence|]. exists z. split; [left; auto|]. pose proof (A2 z (or_introl eq_refl)). pose proof (B z (or_introl eq_refl)). lra. }
    assert (Em : exists x, In x l /\ x = m).
    { destruct B3 as [B3|B3]; [|eauto]. destruct l as [|z l]; [congruence|]. exists z. split; [left; auto|]. pose proof (B2 z (or_introl eq_refl)). pose proof (B z (or_introl eq_refl)). lra. }
    destruct EM as (x & X & ->), Em as (y & Y & ->). exists M, m. auto.
Qed.
Lemma evens_in v x : (length v mod 2 = 0)%nat -> (In x (evens v) <-> exists i a, point_at v i a /\ fst a = x).
Proof.
  intros M. pose proof (Nat.div_mod (length v) 2 ltac:(lia)) as DM. unfold evens. rewrite in_map_iff. split.
  - intros (i & E & I). apply in_seq in I. destruct (point_ex v i) as [a Ha]; [lia|]. exists i, a. split; auto.
    destruct Ha as [Ha _]. rewrite (nth_error_nth _ _ 0 Ha) in E. auto.
  - intros (i & a & Ha & <-). pose proof (read2_lt _ _ _ Ha). exists i. destruct Ha as [Ha _]. split; [apply (nth_error_nth _ _ 0 Ha)|]. apply in_seq. lia.
Qed.
Lemma odds_in v x : (length v mod 2 = 0)%nat -> (In x (odds v) <-> exists i a, point_at v i a /\ snd a = x).
Proof.
  intros M. pose proof (Nat.div_mod (length v) 2 ltac:(lia)) as DM. unfold odds. rewrite in_map_iff. split.
  - intros (i & E & I). apply in_seq in I. destruct (point_ex v i) as [a Ha]; [lia|]. exists i, a. split; auto.
    destruct Ha as [_ Ha]. rewrite (nth_error_nth _ _ 0 Ha) in E. auto.
  - intros (i & a & Ha & <-). pose proof (read2_lt _ _ _ Ha). exists i. destruct Ha as [_ Ha]. split; [apply (nth_error_nth _ _ 0 Ha)|]. apply in_seq. lia.
Qed.
Lemma snap_tol_ok big v deg : (length v mod 2 = 0)%nat -> v <> [] -> (forall x, In x v -> - big <= x <= big) ->
  exists w, LargestSide v w /\ snap_tol big v deg = 4 * deg * w.
Proof.
  intros M Ne B. pose proof (Nat.div_mod (length v) 2 ltac:(lia)) as DM.
  assert (N1 : (0 < length v / 2)%nat) by (destruct v; [congruence|cbn [length] in *; lia]).
  assert (Ee : evens v <> []) by (unfold evens; destruct (length v / 2)%nat; [lia|discriminate]).
  assert (Eo : odds v <> []) by (unfold odds; destruct (length v / 2)%nat; [lia|discriminate]).
  assert (Be : forall x, In x (evens v) -> - big <= x <= big).
  { intros x I. apply (evens_in v x M) in I as (i & a & [Ha _] & <-). apply B. eapply nth_error_In; eauto. }
  assert (Bo : forall x, In x (odds v) -> - big <= x <= big).
  { intros x I. apply (odds_in v x M) in I as (i & a & [_ Ha] & <-). apply B. eapply nth_error_In; eauto. }
  destruct (extent_ok big _ Ee Be) as [A1 (x1 & y1 & X1 & Y1 & E1)]. destruct (extent_ok big _ Eo Bo) as [A2 (x2 & y2 & X2 & Y2 & E2)].
  unfold snap_tol. exists (Rmax (extent big (evens v)) (extent big (odds v))). split; auto. constructor.
  - intros i j a b Ha Hb. split.
    + eapply Rle_trans; [|apply Rmax_l]. apply A1; apply (evens_in v _ M); eauto.
    + eapply Rle_trans; [|apply Rmax_r]. apply A2; apply (odds_in v _ M); eauto.
  - unfold Rmax. destruct (Rle_dec (extent big (evens v)) (extent big (odds v))).
    + apply (odds_in v _ M) in X2 as (i & a & Ha & <-). apply (odds_in v _ M) in Y2 as (j & b & Hb & <-). exists i, j, a, b. auto.
    + apply (evens_in v _ M) in X1 as (i & a & Ha & <-). apply (evens_in v _ M) in Y1 as (j & b & Hb & <-). exists i, j, a, b. auto.
Qed.

Lemma side_unique v w w' : LargestSide v w -> LargestSide v w' -> w = w'.
Proof.
  intros [A (i & j & a & b & Ha & Hb & E)] [B (i' & j' & a' & b' & Ha' & Hb' & E')].
  pose proof (A i' j' a' b' Ha' Hb') as [A1 A2]. pose proof (B i j a b Ha Hb) as [B1 B2].
  pose proof (Rle_abs (fst a' - fst b')). pose proof (Rle_abs (snd a' - snd b')). pose proof (Rle_abs (fst a - fst b)). pose proof (Rle_abs (snd a - snd b)).
  lra.
Qed.

Lemma uniq_sort_nodup l : NoDup (unique (StdAlg.sort l)).
Proof. apply sorted_lt_nodup, unique_sorted, sort_sorted. Qed.
Lemma uniq_sort_in l n : In n (unique (StdAlg.sort l)) <-> In n l.
Proof. rewrite unique_in, sort_in. tauto. Qed.

Lemma snap_ok big m v g deg m' : snapToBoundary big m v g deg = Ok m' -> Snapped v g (snap_tol big v deg) m m'.
Proof.
  unfold snapToBoundary. set (bn0 := unique _). set (tol := snap_tol big v deg).
  destruct (length v mod 2 =? 0)%nat eqn:M; [|discriminate]. cbn [assert bind]. apply Nat.eqb_eq in M.
  destruct (mfold (snap_point big tol v) _ _) as [[[[ns bn] used] missing]| | |] eqn:E1; try discriminate. cbn [bind].
  destruct missing as [|]; [|discriminate]. cbn [assert bind isnil].
  destruct (length used =? length v / 2)%nat eqn:L; [|discriminate]. cbn [assert bind].
  destruct (mfold (snap_node big tol v g) bn ns) as [ns'| | |] eqn:E3; try discriminate. cbn [bind]. intros [= <-].
  assert (Nd : NoDup bn0) by apply uniq_sort_nodup.
  destruct (phase1 big tol v (nodes m) bn0 Nd _ _ E1) as [V1 V2 V3 V4 V5 V6 V7]. cbn [fst snd] in *.
  destruct (phase3 _ _ _ _ _ _ _ V2 E3) as (W1 & W2 & W3).
  assert (Ib : forall n, In n (boundaryNodes m) <-> In n used \/ In n bn) by (intros n; rewrite <- V3; symmetry; apply uniq_sort_in).
  constructor; cbn [nodes cells faces boundaryNodes boundaryFaces faceCells convexHull neighborDomains sharedNodes sharedFaces]; auto.
  - congruence.
  - intros n q A P. rewrite Ib in A. apply W2; [tauto|]. apply V5; auto.
  - intros k c P. destruct (V7 k) as [[]|(n & q' & A & B & C)].
    { apply read2_lt in P. pose proof (Nat.div_mod (length v) 2 ltac:(lia)). lia. }
    exists n. rewrite (point_fun _ _ _ _ P B). split; [apply Ib; auto|]. apply W2; auto.
  - intros n A. apply Ib in A as [A|A].
    + destruct (V6 n A) as (k & q & q' & B1 & B2 & B3 & B4 & B5). exists q, q'. split; auto. split; [apply W2; auto|]. split; eauto.
    + destruct (W3 n A) as (q & q' & B1 & B2 & B3 & B4). exists q, q'. split; [|auto]. apply V5; auto. intros C. apply (V4 n C A).
Qed.

(* ---- success ---- *)
Section Success.
  Context (big deg : R) (m : mesh R) (v : list R) (g : plc) (corner : nat -> nat).
  Let tol := snap_tol big v deg.
  Hypothesis (Ev : (length v mod 2 = 0)%nat) (Hs : segments v g) (Hb : tol < big) (HS : Snappable v g tol m corner).
  Let nv := (length v / 2)%nat.
  Let bn0 := unique (StdAlg.sort (boundaryNodes m)).

  Lemma scan_stop rp ns bn last d : d <= tol -> scan tol rp ns bn last d = Ok (last, d).
  Proof. intros H. destruct bn; cbn; auto. replace (rlt tol d) with false; auto. symmetry. apply rlt_false. lra. Qed.
  Lemma scan_found rp ns bn n0 q0 : In n0 bn -> point_at ns n0 q0 -> euclid q0 rp < tol ->
    (forall n, In n bn -> n <> n0 -> exists q, point_at ns n q /\ tol < euclid q rp) ->
    forall last d, tol < d -> scan tol rp ns bn last d = Ok (Some n0, euclid q0 rp).
  Proof.
    intros I P D. induction bn as [|n bn IH]; intros O last d Hd; [destruct I|]. cbn [scan].
    replace (rlt tol d) with true by (symmetry; apply rlt_true; auto).
    destruct (Nat.eq_dec n n0) as [->|Ne].
    - rewrite (proj2 (read2_ok _ _ _) P). cbn [bind]. rewrite distance2_dist. apply scan_stop. lra.
    - destruct (O n (or_introl eq_refl) Ne) as (q & Pq & Dq). rewrite (proj2 (read2_ok _ _ _) Pq). cbn [bind]. rewrite distance2_dist.
      apply IH; auto; [destruct I as [I|I]; [congruence|auto]|]. intros x X. apply O. right; auto.
  Qed.

  Lemma phase1_runs c : (c <= nv)%nat -> exists ns bn, mfold (snap_point big tol v) (seq 0 c) (nodes m, bn0, [], []) = Ok (ns, bn, map corner (seq 0 c), []).
  Proof.
    induction c as [|c IH]; intros Hc; [cbn; eauto|]. destruct (IH ltac:(lia)) as (ns & bn & E). rewrite seq_S, mfold_app, E. cbn [bind mfold].
    destruct (phase1 big tol v (nodes m) bn0 (uniq_sort_nodup _) _ _ E) as [V1 V2 V3 V4 V5 V6 V7]. cbn [fst snd] in *.
    pose proof (Nat.div_mod (length v) 2 ltac:(lia)) as DM. fold nv in DM.
    destruct (point_ex v c) as [rp Pr]; [lia|].
    destruct (sb_corner _ _ _ _ _ HS c rp Pr) as (I & q & Pq & Dq).
    assert (Nu : ~ In (corner c) (map corner (seq 0 c))).
    { intros X. apply in_map_iff in X as (k & Ek & Ik). apply in_seq in Ik. destruct (point_ex v k) as [ck Pk]; [lia|].
      pose proof (sb_inj _ _ _ _ _ HS k c ck rp Pk Pr Ek). lia. }
    assert (Ib : In (corner c) bn). { destruct (proj1 (V3 (corner c))) as [X|X]; auto; [apply uniq_sort_in; auto|tauto]. }
    cbn [Nat.add]. unfold snap_point. rewrite (proj2 (read2_ok _ _ _) Pr). cbn [bind].
    rewrite (scan_found rp ns bn (corner c) q Ib); auto.
    - cbn [bind]. replace (rlt (euclid q rp) tol) with true by (symmetry; apply rlt_true; auto).
      destruct (write2_lt ns (corner c) rp) as [ns' ->]; [rewrite V1; eapply read2_lt; eauto|]. cbn [bind].
      rewrite map_app. cbn [map]. eauto.
    - apply V5; auto.
    - intros n In_ Ne. assert (A : In n (boundaryNodes m)) by (apply uniq_sort_in, V3; auto).
      destruct (sb_near _ _ _ _ _ HS n A) as (qn & c' & Pn & _). exists qn. split; [apply V5; auto|].
      + intros X. apply (V4 n X In_).
      + apply (sb_apart _ _ _ _ _ HS c rp n qn); auto.
  Qed.

  Lemma snap_node_runs ns n q : In n (boundaryNodes m) -> point_at (nodes m) n q -> point_at ns n q -> exists ns', snap_node big tol v g ns n = Ok ns'.
  Proof.
    intros I P0 P. pose proof (Nat.div_mod (length v) 2 ltac:(lia)) as DM. unfold snap_node. rewrite (proj2 (read2_ok _ _ _) P). cbn [bind].
    destruct (nearest_ok big q v (length v / 2) ltac:(lia) g) as (d & r & E & B).
    { intros f F. destruct (Hs f (or_introl F)) as (i & j & -> & Hi & Hj). exists i, j. repeat split; auto; lia. }
    { intros h H f F. destruct (Hs f (or_intror (ex_intro _ h (conj H F)))) as (i & j & -> & Hi & Hj). exists i, j. repeat split; auto; lia. }
    rewrite E. cbn [bind]. destruct (sb_near _ _ _ _ _ HS n I) as (qn & c & Pn & (f & F & O) & D).
    rewrite (point_fun _ _ _ _ Pn P0) in D.
    assert (Dd : d < tol). { pose proof (be_min _ _ _ _ _ _ B f c (proj2 (some_facet_in _ _) F) O). lra. }
    replace (rlt d tol) with true by (symmetry; apply rlt_true; auto).
    destruct r as [c'|]; [|pose proof (be_none _ _ _ _ _ _ B eq_refl); lra].
    destruct (write2_lt ns n c') as [ns' ->]; [eapply read2_lt; eauto|]. cbn. eauto.
  Qed.

  Lemma phase3_runs ns bn : NoDup bn -> (forall n, In n bn -> In n (boundaryNodes m)) ->
    (forall n q, In n bn -> (point_at ns n q <-> point_at (nodes m) n q)) -> exists ns', mfold (snap_node big tol v g) bn ns = Ok ns'.
  Proof.
    revert ns. induction bn as [|n bn IH]; intros ns Nd I P; [cbn; eauto|]. cbn [mfold]. inversion Nd as [|? ? N1 N2]; subst.
    destruct (sb_near _ _ _ _ _ HS n (I n (or_introl eq_refl))) as (q & c & Pq & _).
    destruct (snap_node_runs ns n q) as [ns' E]; auto; [apply I; left; auto|apply P; auto; left; auto|]. rewrite E. cbn [bind].
    apply IH; auto; [intros; apply I; right; auto|]. intros x r X.
    destruct (snap_node_spec _ _ _ _ _ _ _ E) as (_ & _ & _ & _ & _ & _ & _ & W). rewrite W by congruence. apply P. right; auto.
  Qed.

  Lemma snap_runs : exists m', snapToBoundary big m v g deg = Ok m'.
  Proof.
    unfold snapToBoundary. rewrite (proj2 (Nat.eqb_eq _ _) Ev). cbn [assert bind]. fold tol. fold bn0. fold nv.
    destruct (phase1_runs nv ltac:(lia)) as (ns & bn & E). rewrite E. cbn [bind isnil assert]. rewrite map_length, seq_length, Nat.eqb_refl. cbn [bind assert].
    destruct (phase1 big tol v (nodes m) bn0 (uniq_sort_nodup _) _ _ E) as [V1 V2 V3 V4 V5 V6 V7]. cbn [fst snd] in *.
    destruct (phase3_runs ns bn V2) as [ns' ->]; [| |cbn; eauto].
    - intros n X. apply uniq_sort_in, V3. auto.
    - intros n q X. apply V5. intros C. apply (V4 n C X).
  Qed.
End Success.
