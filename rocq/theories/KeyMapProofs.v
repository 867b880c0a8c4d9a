From Verif Require Import Base BaseFacts KeyMapModel.

Section Facts.
  Context {K : Type} (lt : K -> K -> bool).
  Notation eqv := (keyeq lt).
  Hypothesis eqv_refl : forall a, eqv a a = true.
  Hypothesis eqv_trans : forall a b c, eqv a b = true -> eqv b c = true -> eqv a c = true.

  Lemma eqv_sym a b : eqv a b = eqv b a.
  Proof. unfold keyeq; apply andb_comm. Qed.

  (* the map always holds keys numbered by position, pairwise inequivalent *)
  Definition Inv (m : keymap (K:=K)) : Prop :=
    map snd m = seq 0 (length m) /\
    forall i j a b, nth_error m i = Some a -> nth_error m j = Some b ->
                    eqv (fst a) (fst b) = true -> i = j.

  Lemma Inv_nil : Inv [].
  Proof. split; [reflexivity|]. intros [|i] j a b H; discriminate. Qed.

  Lemma Inv_nth m i a : Inv m -> nth_error m i = Some a -> snd a = i.
  Proof.
    intros [E _] H. assert (L := nth_error_lt _ _ _ H).
    apply (map_nth_error snd) in H. rewrite E in H.
    rewrite (nth_error_nth' _ 0) in H by (rewrite seq_length; lia).
    rewrite seq_nth in H by lia. injection H; lia.
  Qed.

  Lemma find_some m k i : Inv m -> find lt k m = Some i ->
    exists k', nth_error m i = Some (k', i) /\ eqv k k' = true.
  Proof.
    intros I. assert (H : find lt k m = Some i ->
      exists n k', nth_error m n = Some (k', i) /\ eqv k k' = true).
    { clear I; induction m as [|[k' i'] m IH]; cbn; [discriminate|].
      destruct (eqv k k') eqn:E; intros H.
      - injection H as ->. exists 0, k'; auto.
      - destruct (IH H) as (n & k'' & Hn & He). exists (S n), k''; auto. }
    intros F; destruct (H F) as (n & k' & Hn & He).
    assert (En := Inv_nth _ _ _ I Hn); cbn in En. subst. exists k'; auto.
  Qed.

  Lemma find_none m k : find lt k m = None -> forall i a, nth_error m i = Some a -> eqv k (fst a) = false.
  Proof.
    induction m as [|[k' i'] m IH]; cbn; intros H [|i] a Hi; cbn in Hi; try discriminate.
    - injection Hi as <-; cbn. destruct (eqv k k'); congruence.
    - destruct (eqv k k'); [discriminate|]. eauto.
  Qed.

  Lemma find_nth m k i a : Inv m -> nth_error m i = Some a -> eqv k (fst a) = true ->
    find lt k m = Some i.
  Proof.
    intros I Hi He. destruct (find lt k m) as [j|] eqn:F.
    - destruct (find_some _ _ _ I F) as (k' & Hj & He').
      f_equal. destruct I as [_ U]. apply (U j i (k', j) a Hj Hi). cbn.
      apply eqv_trans with k; auto. rewrite eqv_sym; auto.
    - rewrite (find_none _ _ F i a Hi) in He; discriminate.
  Qed.

  Lemma add_inv m k : Inv m -> Inv (snd (addKeyToMap lt k m)).
  Proof.
    intros I; unfold addKeyToMap. destruct (find lt k m) eqn:F; [exact I|].
    destruct I as [E U]; cbn [snd]; split.
    - rewrite map_app, app_length, E; cbn. rewrite seq_app; reflexivity.
    - intros i j a b Hi Hj He.
      assert (Li := nth_error_lt _ _ _ Hi). assert (Lj := nth_error_lt _ _ _ Hj).
      rewrite app_length in Li, Lj; cbn in Li, Lj.
      destruct (Nat.lt_ge_cases i (length m)) as [Mi|Mi], (Nat.lt_ge_cases j (length m)) as [Mj|Mj].
      + rewrite nth_error_app1 in Hi, Hj by auto. eauto.
      + rewrite nth_error_app1 in Hi by auto. rewrite nth_error_app2 in Hj by auto.
        replace (j - length m) with 0 in Hj by lia. cbn in Hj; injection Hj as <-.
        cbn in He. rewrite eqv_sym, (find_none _ _ F i a Hi) in He; discriminate.
      + rewrite nth_error_app2 in Hi by auto. rewrite nth_error_app1 in Hj by auto.
        replace (i - length m) with 0 in Hi by lia. cbn in Hi; injection Hi as <-.
        cbn in He. rewrite (find_none _ _ F j b Hj) in He; discriminate.
      + lia.
  Qed.

  (* after adding k the map knows k under the returned id, and old entries stay *)
  Lemma add_result m k i m' : Inv m -> addKeyToMap lt k m = (i, m') ->
    (exists k', nth_error m' i = Some (k', i) /\ eqv k k' = true) /\
    (exists l, m' = m ++ l) /\ i <= length m /\ (length m' = Nat.max (length m) (S i)).
  Proof.
    intros I H; unfold addKeyToMap in H. destruct (find lt k m) as [j|] eqn:F; injection H as <- <-.
    - destruct (find_some _ _ _ I F) as (k' & Hj & He).
      assert (L := nth_error_lt _ _ _ Hj).
      split; [exists k'; auto|]. split; [exists []; now rewrite app_nil_r|]. lia.
    - split.
      + exists k. rewrite nth_error_app2, Nat.sub_diag by lia. cbn; auto.
      + split; [eauto|]. rewrite app_length; cbn; lia.
  Qed.

  Lemma adds_spec ks : forall m is m',
    Inv m -> addKeys lt ks m = (is, m') ->
    Inv m' /\ (exists l, m' = m ++ l) /\ length is = length ks /\
    (forall n k i, nth_error ks n = Some k -> nth_error is n = Some i ->
       exists k', nth_error m' i = Some (k', i) /\ eqv k k' = true) /\
    (forall n i, nth_error is n = Some i ->
       forall x, length m <= x -> x < i -> exists n', n' < n /\ nth_error is n' = Some x) /\
    (forall x, length m <= x < length m' -> In x is) /\
    (forall i, In i is -> i < length m').
  Proof.
    induction ks as [|k ks IH]; intros m is m' I H; cbn in H.
    - injection H as <- <-. split; [exact I|]. split; [exists []; now rewrite app_nil_r|].
      split; [reflexivity|]. split; [intros [|n]; discriminate|].
      split; [intros [|n] i H; discriminate|]. split; [intros; lia|intros i []].
    - destruct (addKeyToMap lt k m) as [i1 m1] eqn:A.
      destruct (addKeys lt ks m1) as [is2 m2] eqn:B. injection H as <- <-.
      assert (I1 : Inv m1). { pose proof (add_inv m k I) as X; rewrite A in X; exact X. }
      destruct (add_result _ _ _ _ I A) as ((k' & Hk' & He') & (l1 & El1) & Li & Lm1).
      destruct (IH _ _ _ I1 B) as (I2 & (l2 & El2) & Len & Look & Dense & Cover & Bound).
      assert (Lm2 : length m1 <= length m2). { rewrite El2, app_length; lia. }
      split; [exact I2|]. split; [exists (l1 ++ l2); rewrite El2, El1, app_assoc; reflexivity|].
      split; [cbn; congruence|]. repeat split.
      + intros [|n] kn i Hn Hi; cbn in Hn, Hi.
        * injection Hn as <-; injection Hi as <-. exists k'. split; auto.
          rewrite El2, nth_error_app1; auto. apply nth_error_lt in Hk'; auto.
        * eapply Look; eauto.
      + intros [|n] i Hi x Hx Hxi; cbn in Hi.
        * injection Hi as <-. lia.
        * destruct (Nat.eq_dec x i1) as [->|N].
          -- exists 0; split; [lia|reflexivity].
          -- destruct (Dense n i Hi x) as (n' & Hn' & E'); try lia.
             exists (S n'); split; [lia|exact E'].
      + intros x Hx. destruct (Nat.eq_dec x i1) as [->|N]; [left; auto|].
        right; apply Cover; lia.
      + intros i [<-|Hi]; [|auto]. lia.
  Qed.

  Lemma keys_numbering ks is m : addKeys lt ks [] = (is, m) ->
    length is = length ks /\
    (forall a b ka kb ia ib,
       nth_error ks a = Some ka -> nth_error ks b = Some kb ->
       nth_error is a = Some ia -> nth_error is b = Some ib ->
       (ia = ib <-> eqv ka kb = true)) /\
    (forall a i, nth_error is a = Some i ->
       forall x, x < i -> exists b, b < a /\ nth_error is b = Some x) /\
    (forall x, x < length m <-> In x is).
  Proof.
    intros H. destruct (adds_spec ks [] is m Inv_nil H) as (I & _ & Len & Look & Dense & Cover & Bound).
    split; [exact Len|]. split; [|split].
    - intros a b ka kb ia ib Ka Kb Ia Ib.
      destruct (Look _ _ _ Ka Ia) as (k1 & N1 & E1).
      destruct (Look _ _ _ Kb Ib) as (k2 & N2 & E2).
      split.
      + intros <-. rewrite N1 in N2; injection N2 as <-.
        apply eqv_trans with k1; auto. rewrite eqv_sym; auto.
      + intros E. destruct I as [_ U]. apply (U _ _ _ _ N1 N2). cbn.
        apply eqv_trans with ka; [rewrite eqv_sym; auto|]. apply eqv_trans with kb; auto.
    - intros a i Ha x Hx. apply (Dense a i Ha x); cbn; lia.
    - intros x; split; [intros; apply Cover; cbn; lia|apply Bound].
  Qed.

  Lemma keys_app ks1 ks2 m :
    addKeys lt (ks1 ++ ks2) m =
    let (i1, m1) := addKeys lt ks1 m in
    let (i2, m2) := addKeys lt ks2 m1 in (i1 ++ i2, m2).
  Proof.
    revert m; induction ks1 as [|k ks1 IH]; intros m; cbn.
    - destruct (addKeys lt ks2 m); reflexivity.
    - destruct (addKeyToMap lt k m) as [i m1]. rewrite IH.
      destruct (addKeys lt ks1 m1) as [i1 m1']. destruct (addKeys lt ks2 m1'); reflexivity.
  Qed.

  Lemma keys_stable ks1 ks2 :
    firstn (length ks1) (fst (addKeys lt (ks1 ++ ks2) [])) = fst (addKeys lt ks1 []).
  Proof.
    rewrite keys_app. destruct (addKeys lt ks1 []) as [i1 m1] eqn:E.
    destruct (addKeys lt ks2 m1) as [i2 m2]; cbn [fst].
    destruct (adds_spec ks1 [] i1 m1 Inv_nil E) as (_ & _ & Len & _).
    rewrite <- Len, firstn_app, Nat.sub_diag, firstn_all, firstn_O, app_nil_r. reflexivity.
  Qed.
End Facts.

Lemma keyeq_edge a b : keyeq edge_lt a b = true <-> a = b.
Proof.
  destruct a as [a1 a2], b as [b1 b2]; unfold keyeq, edge_lt; cbn.
  split; [intros H; f_equal; lia|intros [= -> ->]; lia].
Qed.

Lemma edge_refl a : keyeq edge_lt a a = true.
Proof. apply keyeq_edge; reflexivity. Qed.
Lemma edge_trans a b c :
  keyeq edge_lt a b = true -> keyeq edge_lt b c = true -> keyeq edge_lt a c = true.
Proof. rewrite !keyeq_edge; congruence. Qed.

Lemma keyeq_point2 a b : keyeq point2_lt a b = true <-> fst a = fst b.
Proof.
  destruct a as [[a1 a2] i], b as [[b1 b2] j]; unfold keyeq, point2_lt; cbn.
  split; [intros H; f_equal; lia|intros [= -> ->]; lia].
Qed.
Lemma point2_refl a : keyeq point2_lt a a = true.
Proof. apply keyeq_point2; reflexivity. Qed.
Lemma point2_trans a b c :
  keyeq point2_lt a b = true -> keyeq point2_lt b c = true -> keyeq point2_lt a c = true.
Proof. rewrite !keyeq_point2; congruence. Qed.

Lemma keyeq_point3 a b : keyeq point3_lt a b = true <-> fst a = fst b.
Proof.
  destruct a as [[[a1 a2] a3] i], b as [[[b1 b2] b3] j]; unfold keyeq, point3_lt; cbn.
  split; [intros H; f_equal; [f_equal|]; lia|intros [= -> -> ->]; lia].
Qed.
Lemma point3_refl a : keyeq point3_lt a a = true.
Proof. apply keyeq_point3; reflexivity. Qed.
Lemma point3_trans a b c :
  keyeq point3_lt a b = true -> keyeq point3_lt b c = true -> keyeq point3_lt a c = true.
Proof. rewrite !keyeq_point3; congruence. Qed.

(* hashEdge *)
Lemma hash_ok i j : i <> j ->
  hashEdge i j = Ok (if (i <? j)%Z then (i, j) else (j, i)).
Proof.
  intros N; unfold hashEdge. destruct (Z.eqb_spec i j); [contradiction|reflexivity].
Qed.
