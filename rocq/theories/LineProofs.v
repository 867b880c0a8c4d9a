From Coq Require Import Reals Lra Permutation.
From Verif Require Import Base BaseFacts NearModel RayCircleModel RayCircleSpec RayCircleProofs LineModel LineSpec.
Local Open Scope R_scope.

Lemma push_all : forall ks cells i l, nth_error cells i = Some l -> push_nodes cells i ks = Ok (upd cells i (l ++ ks)).
Proof.
  induction ks; intros cells i l H.
  - cbn. rewrite app_nil_r. f_equal. apply nth_error_ext. intros j. rewrite upd_nth. destruct ((i =? j)%nat && (j <? length cells)%nat) eqn:E; auto. apply andb_true_iff in E. destruct E as [E _]. apply Nat.eqb_eq in E. subst j. auto.
  - assert (L : (i < length cells)%nat) by (apply nth_error_lt in H; auto). unfold push_nodes in *. cbn [mfold]. unfold push_node at 1. unfold get. rewrite H. cbn [bind]. rewrite set_lt by auto. cbn [bind].
    rewrite (IHks _ i (l ++ [a])).
    + f_equal. rewrite <- app_assoc. cbn [app]. apply nth_error_ext. intros j. rewrite !upd_nth, upd_length. destruct (i =? j)%nat; cbn [andb]; auto; destruct (j <? length cells)%nat; auto.
    + apply upd_same. auto.
Qed.

Section Fold.
  Variables (c : pt2) (r : R) (ref : list (pt2 * nat)) (n : nat).
  Hypothesis (N2 : (2 <= n)%nat) (RL : length ref = n).
  Definition P (k : nat) : pt2 := fst (nth k ref ((0, 0), O)).
  Definition I (k : nat) : nat := snd (nth k ref ((0, 0), O)).
  Hypothesis (Ib : forall k, (k < n)%nat -> (I k < n)%nat) (Ii : forall k l, (k < n)%nat -> (l < n)%nat -> I k = I l -> k = l).
  Variables (A B : nat -> pt2) (N0 N1 : pt2).
  Hypothesis (FE : forall k, (k + 1 < n)%nat -> face_ends c r (P k) (P (k + 1)) = Ok (A k, B k)).
  Hypothesis (F0 : rayCircleIntersection (P 0) (back2 (unitVector2 (rsub2 (P 1) (P 0)))) c r line_tol = Ok N0).
  Hypothesis (F1 : rayCircleIntersection (P (n - 1)) (unitVector2 (rsub2 (P (n - 1)) (P (n - 2)))) c r line_tol = Ok N1).

  Lemma ref_at k : (k < n)%nat -> get ref k = Ok (P k, I k).
  Proof using RL. intros H. apply get_ok. unfold P, I. rewrite <- surjective_pairing. apply nth_error_nth'. rewrite RL. exact H. Qed.

  Definition half1 (i k : nat) : list nat := if (k =? 0)%nat then [0%nat] else if (k <=? i)%nat then [2 * k; 2 * k - 1]%nat else [].
  Definition half2 (i k : nat) : list nat := if (k <? i)%nat then [2 * k + 1; 2 * k + 2]%nat else [].
  Definition Inv (i : nat) (s : list (list nat) * list pt2) : Prop :=
    length (fst s) = n /\ length (snd s) = (2 * n)%nat /\ nth_error (snd s) 0 = Some N0 /\
    (forall k, (k < i)%nat -> nth_error (snd s) (2 * k + 1) = Some (A k) /\ nth_error (snd s) (2 * k + 2) = Some (B k)) /\
    (forall k, (k < n)%nat -> nth_error (fst s) (I k) = Some (half1 i k ++ half2 i k)).

  Lemma step_inv i s : (1 <= i)%nat -> (i + 1 < n)%nat -> Inv i s -> exists s', line_step c r ref s i = Ok s' /\ Inv (i + 1) s'.
  Proof using N2 RL Ib Ii FE.
    destruct s as [cells nodes]. intros I1 In_ (LC & LN & Z0 & Zn & Zc). cbn [fst snd] in *. unfold line_step. rewrite !ref_at by lia. cbn [bind fst snd]. rewrite FE by lia. cbn [bind].
    rewrite set_lt by lia. cbn [bind]. rewrite set_lt by (rewrite upd_length; lia). cbn [bind].
    rewrite (push_all _ _ _ _ (Zc i ltac:(lia))). cbn [bind].
    assert (NE : I i <> I (i + 1)) by (intros E; apply Ii in E; lia).
    rewrite (push_all _ _ _ (half1 i (i + 1) ++ half2 i (i + 1))) by (rewrite upd_other by auto; apply Zc; lia). cbn [bind].
    eexists. split; [reflexivity|]. unfold Inv. cbn [fst snd]. rewrite !upd_length. split; [auto|]. split; [auto|]. split; [rewrite !upd_other by lia; auto|]. split.
    - intros k Hk. destruct (Nat.eq_dec k i) as [->|].
      + split; [rewrite upd_other by lia; apply upd_same; lia|]. replace (2 * i + 2)%nat with (2 * i + 1 + 1)%nat by lia. apply upd_same. rewrite upd_length. lia.
      + rewrite !upd_other by lia. apply Zn. lia.
    - intros k Hk. destruct (Nat.eq_dec k (i + 1)) as [->|N].
      + rewrite upd_same by (rewrite upd_length, LC; apply Ib; lia). f_equal. unfold half1, half2.
        destruct (i + 1 =? 0)%nat eqn:E0; [apply Nat.eqb_eq in E0; lia|]. destruct (i + 1 <=? i)%nat eqn:E1; [apply Nat.leb_le in E1; lia|]. destruct (i + 1 <? i)%nat eqn:E2; [apply Nat.ltb_lt in E2; lia|]. destruct (i + 1 <=? i + 1)%nat eqn:E3; [|apply Nat.leb_nle in E3; lia]. destruct (i + 1 <? i + 1)%nat eqn:E4; [apply Nat.ltb_lt in E4; lia|].
        cbn [app]. f_equal; [lia|]. f_equal. lia.
      + assert (I k <> I (i + 1)) by (intros E; apply Ii in E; lia). rewrite upd_other by auto. destruct (Nat.eq_dec k i) as [->|N'].
        * rewrite upd_same by (rewrite LC; apply Ib; lia). f_equal. unfold half1, half2.
          destruct (i =? 0)%nat eqn:E0; [apply Nat.eqb_eq in E0; lia|]. destruct (i <=? i)%nat eqn:E1; [|apply Nat.leb_nle in E1; lia]. destruct (i <? i)%nat eqn:E2; [apply Nat.ltb_lt in E2; lia|]. destruct (i <=? i + 1)%nat eqn:E3; [|apply Nat.leb_nle in E3; lia]. destruct (i <? i + 1)%nat eqn:E4; [|apply Nat.ltb_nlt in E4; lia].
          cbn [app]. do 3 f_equal. f_equal. lia.
        * assert (I k <> I i) by (intros E; apply Ii in E; lia). rewrite upd_other by auto. rewrite Zc by lia. f_equal. unfold half1, half2.
          destruct (Nat.lt_total k i) as [L|[L|L]]; [|lia|].
          -- destruct (k <=? i)%nat eqn:E1; [|apply Nat.leb_nle in E1; lia]. destruct (k <=? i + 1)%nat eqn:E2; [|apply Nat.leb_nle in E2; lia]. destruct (k <? i)%nat eqn:E3; [|apply Nat.ltb_nlt in E3; lia]. destruct (k <? i + 1)%nat eqn:E4; [|apply Nat.ltb_nlt in E4; lia]. auto.
          -- destruct (k <=? i)%nat eqn:E1; [apply Nat.leb_le in E1; lia|]. destruct (k <=? i + 1)%nat eqn:E2; [apply Nat.leb_le in E2; lia|]. destruct (k <? i)%nat eqn:E3; [apply Nat.ltb_lt in E3; lia|]. destruct (k <? i + 1)%nat eqn:E4; [apply Nat.ltb_lt in E4; lia|]. auto.
  Qed.
  Lemma steps_inv : forall m i s, (1 <= i)%nat -> (i + m < n)%nat -> Inv i s -> exists s', mfold (line_step c r ref) (seq i m) s = Ok s' /\ Inv (i + m) s'.
  Proof using N2 RL Ib Ii FE.
    induction m; intros i s I1 Im H.
    - exists s. rewrite Nat.add_0_r. split; auto.
    - cbn [seq mfold]. destruct (step_inv i s I1 ltac:(lia) H) as (s1 & E & H1). rewrite E. cbn [bind]. destruct (IHm (S i) s1 ltac:(lia) ltac:(lia)) as (s' & E' & H'); [replace (S i) with (i + 1)%nat by lia; auto|].
      exists s'. split; auto. replace (i + S m)%nat with (S i + m)%nat by lia. auto.
  Qed.

  (* the corners of the cell of the k-th generator along the line *)
  Definition shape (k : nat) : list nat :=
    (if (k =? 0)%nat then [0%nat] else [2 * k; 2 * k - 1]%nat) ++ (if (k =? n - 1)%nat then [2 * n - 1]%nat else [2 * k + 1; 2 * k + 2]%nat).

  Lemma run srt points : length points = n -> srt (combine points (seq 0 n)) = ref ->
    exists cells nodes, constructCells1d srt points c r = Ok (cells, nodes) /\ length cells = n /\ length nodes = (2 * n)%nat /\
      nth_error nodes 0 = Some N0 /\ nth_error nodes (2 * n - 1) = Some N1 /\
      (forall k, (k + 1 < n)%nat -> nth_error nodes (2 * k + 1) = Some (A k) /\ nth_error nodes (2 * k + 2) = Some (B k)) /\
      (forall k, (k < n)%nat -> nth_error cells (I k) = Some (shape k)).
  Proof using N2 RL Ib Ii FE F0 F1.
    intros PL SR. unfold constructCells1d. rewrite PL, SR. rewrite !ref_at by lia. cbn [bind fst snd]. rewrite F0. cbn [bind].
    rewrite set_lt by (rewrite repeat_length; lia). cbn [bind]. pose proof (FE 0 ltac:(lia)) as FE0; cbn [Nat.add] in FE0; rewrite FE0. cbn [bind].
    rewrite set_lt by (rewrite upd_length, repeat_length; lia). cbn [bind]. rewrite set_lt by (rewrite !upd_length, repeat_length; lia). cbn [bind].
    assert (NE : I 0 <> I 1) by (intros E; apply Ii in E; lia).
    rewrite (push_all _ _ _ []) by (apply nth_error_repeat; apply Ib; lia). cbn [bind].
    rewrite (push_all _ _ _ []) by (rewrite upd_other by auto; apply nth_error_repeat; apply Ib; lia). cbn [bind app].
    destruct (steps_inv (n - 2) 1 (upd (upd (repeat [] n) (I 0) [0; 1; 2]%nat) (I 1) [2; 1]%nat, upd (upd (upd (repeat (0, 0) (2 * n)) 0 N0) 1 (A 0)) 2 (B 0))) as ([cells nodes] & E & (LC & LN & Z0 & Zn & Zc)).
    - lia.
    - lia.
    - unfold Inv. cbn [fst snd]. rewrite !upd_length, !repeat_length. split; [auto|]. split; [auto|]. split; [rewrite !upd_other by lia; apply upd_same; rewrite repeat_length; lia|]. split.
      + intros k Hk. replace k with 0%nat by lia. cbn [Nat.mul Nat.add]. split; [rewrite upd_other by lia; apply upd_same; rewrite upd_length, repeat_length; lia|apply upd_same; rewrite !upd_length, repeat_length; lia].
      + intros k Hk. destruct (Nat.eq_dec k 1) as [->|N].
        * rewrite upd_same by (rewrite upd_length, repeat_length; apply Ib; lia). reflexivity.
        * rewrite upd_other by (intros E; apply Ii in E; lia). destruct (Nat.eq_dec k 0) as [->|N'].
          -- rewrite upd_same by (rewrite repeat_length; apply Ib; lia). reflexivity.
          -- rewrite upd_other by (intros E; apply Ii in E; lia). rewrite nth_error_repeat by (apply Ib; lia). f_equal. unfold half1, half2. destruct k as [|[|k]]; try lia. reflexivity.
    - rewrite E. cbn [bind]. rewrite F1. cbn [bind fst snd] in *. rewrite set_lt by lia. cbn [bind]. rewrite (push_all _ _ _ _ (Zc (n - 1)%nat ltac:(lia))). cbn [bind]. rewrite !upd_length, LC, LN, !Nat.eqb_refl. cbn [assert bind].
      eexists _, _. split; [reflexivity|]. rewrite !upd_length. split; [auto|]. split; [auto|]. split; [rewrite upd_other by lia; auto|]. split; [apply upd_same; lia|]. split.
      + intros k Hk. rewrite !upd_other by lia. apply Zn. lia.
      + intros k Hk. unfold shape. unfold half1, half2 in Zc. destruct (Nat.eq_dec k (n - 1)) as [->|N].
        * rewrite upd_same by (rewrite LC; apply Ib; lia). f_equal. unfold half1, half2. rewrite Nat.eqb_refl. destruct (n - 1 =? 0)%nat eqn:E0; [apply Nat.eqb_eq in E0; lia|]. destruct (n - 1 <=? 1 + (n - 2))%nat eqn:E1; [|apply Nat.leb_nle in E1; lia]. destruct (n - 1 <? 1 + (n - 2))%nat eqn:E2; [apply Nat.ltb_lt in E2; lia|]. rewrite app_nil_r. auto.
        * rewrite upd_other by (intros E'; apply Ii in E'; lia). rewrite (Zc k Hk). f_equal. destruct (k =? n - 1)%nat eqn:E0; [apply Nat.eqb_eq in E0; lia|]. destruct (k <=? 1 + (n - 2))%nat eqn:E1; [|apply Nat.leb_nle in E1; lia]. destruct (k <? 1 + (n - 2))%nat eqn:E2; [|apply Nat.ltb_nlt in E2; lia]. auto.
  Qed.
End Fold.
