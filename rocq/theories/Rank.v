(* Renumbering: the indices kept by a filter and the rank of an index among them.
   Pure list facts used by several proofs. *)
From Verif Require Import Base BaseFacts.

Section Rank.
  Context (keep : nat -> bool).

  Definition kept (n : nat) : list nat := filter keep (seq 0 n).
  Definition rank (k : nat) : nat := length (kept k).

  Lemma kept_S n : kept (S n) = kept n ++ (if keep n then [n] else []).
  Proof.
    unfold kept. rewrite seq_S, filter_app. cbn. destruct (keep n); reflexivity.
  Qed.

  Lemma rank_S n : rank (S n) = rank n + (if keep n then 1 else 0).
  Proof. unfold rank; rewrite kept_S, app_length. destruct (keep n); cbn; lia. Qed.

  Lemma rank_0 : rank 0 = 0.
  Proof. reflexivity. Qed.

  Lemma rank_le k n : k <= n -> rank k <= rank n.
  Proof.
    induction 1 as [|n H IH]; [lia|]. rewrite rank_S. destruct (keep n); lia.
  Qed.

  Lemma rank_lt k n : k < n -> keep k = true -> rank k < rank n.
  Proof.
    intros H Hk. apply Nat.lt_le_trans with (rank (S k)).
    - rewrite rank_S, Hk; lia.
    - apply rank_le; lia.
  Qed.

  Lemma rank_bound k : rank k <= k.
  Proof. induction k as [|k IH]; [rewrite rank_0; lia|]. rewrite rank_S; destruct (keep k); lia. Qed.

  Lemma rank_inj k k' : keep k = true -> keep k' = true -> rank k = rank k' -> k = k'.
  Proof.
    intros Hk Hk' E. destruct (Nat.lt_trichotomy k k') as [L|[L|L]]; auto.
    - pose proof (rank_lt _ _ L Hk); lia.
    - pose proof (rank_lt _ _ L Hk'); lia.
  Qed.

  Lemma kept_nth k n : k < n -> keep k = true -> nth_error (kept n) (rank k) = Some k.
  Proof.
    induction n as [|n IH]; intros H Hk; [lia|]. rewrite kept_S.
    destruct (Nat.eq_dec k n) as [->|N].
    - rewrite nth_error_app2 by (fold (rank n); lia). fold (rank n).
      rewrite Nat.sub_diag, Hk; reflexivity.
    - assert (L : k < n) by lia. pose proof (rank_lt _ _ L Hk) as R.
      rewrite nth_error_app1 by (exact R). auto.
  Qed.

  Lemma kept_in k n : In k (kept n) <-> k < n /\ keep k = true.
  Proof. unfold kept. rewrite filter_In, in_seq. lia. Qed.

  Lemma nth_kept p n k : nth_error (kept n) p = Some k -> k < n /\ keep k = true /\ rank k = p.
  Proof.
    intros H. pose proof (nth_error_In _ _ H) as I. apply kept_in in I as [L Hk].
    split; [auto|split; [auto|]].
    pose proof (kept_nth _ _ L Hk) as H'.
    assert (ND : NoDup (kept n)) by (apply NoDup_filter, seq_NoDup).
    rewrite NoDup_nth_error in ND. apply ND.
    - apply rank_lt; auto.
    - congruence.
  Qed.

  Lemma rank_onto p n : p < rank n -> exists k, k < n /\ keep k = true /\ rank k = p.
  Proof.
    intros H. destruct (nth_error_ex (kept n) p H) as [k Hk].
    exists k. apply nth_kept; auto.
  Qed.
End Rank.

Lemma rank_ext f g n : (forall k, k < n -> f k = g k) -> rank f n = rank g n.
Proof.
  induction n as [|n IH]; intros H; [reflexivity|].
  rewrite !rank_S, IH, H by (auto; intros; apply H; lia). reflexivity.
Qed.

Lemma kept_ext f g n : (forall k, k < n -> f k = g k) -> kept f n = kept g n.
Proof.
  induction n as [|n IH]; intros H; [reflexivity|].
  rewrite !kept_S, IH, H by (auto; intros; apply H; lia). reflexivity.
Qed.

(* The elements of an array kept by index. *)
Definition keep_elems {A} (keep : nat -> bool) (l : list A) : list A :=
  map snd (filter (fun p => keep (fst p)) (combine (seq 0 (length l)) l)).

Lemma combine_app' {A B} (l1 l2 : list A) (m1 m2 : list B) :
  length l1 = length m1 -> combine (l1 ++ l2) (m1 ++ m2) = combine l1 m1 ++ combine l2 m2.
Proof.
  revert m1; induction l1 as [|a l1 IH]; intros [|b m1] H; cbn in *; try lia; [reflexivity|].
  f_equal; auto.
Qed.

Lemma keep_elems_snoc {A} keep (l : list A) a :
  keep_elems keep (l ++ [a]) = keep_elems keep l ++ (if keep (length l) then [a] else []).
Proof.
  unfold keep_elems. rewrite app_length, Nat.add_1_r, seq_S, combine_app' by (rewrite seq_length; auto).
  rewrite filter_app, map_app. cbn. destruct (keep (length l)); reflexivity.
Qed.

Lemma keep_elems_length {A} keep (l : list A) : length (keep_elems keep l) = rank keep (length l).
Proof.
  induction l as [|a l IH] using rev_ind; [reflexivity|].
  rewrite keep_elems_snoc, app_length, IH, app_length, Nat.add_1_r, rank_S.
  destruct (keep (length l)); reflexivity.
Qed.

Lemma keep_elems_nth {A} keep (l : list A) k : k < length l -> keep k = true ->
  nth_error (keep_elems keep l) (rank keep k) = nth_error l k.
Proof.
  induction l as [|a l IH] using rev_ind; intros L Hk; cbn in L; [lia|].
  rewrite app_length in L; cbn in L. rewrite keep_elems_snoc.
  destruct (Nat.eq_dec k (length l)) as [->|N].
  - rewrite nth_error_app2, keep_elems_length, Nat.sub_diag, Hk by (rewrite keep_elems_length; lia).
    rewrite nth_error_app2, Nat.sub_diag by lia. reflexivity.
  - rewrite nth_error_app1 by (rewrite keep_elems_length; apply rank_lt; auto; lia).
    rewrite nth_error_app1 by lia. apply IH; auto; lia.
Qed.
