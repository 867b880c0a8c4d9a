(* Proofs about simplifyPLCfacets: dropping unused points. *)
From Verif Require Import Base BaseFacts Rank SimplifyModel SimplifySpec.
From Coq Require Import QArith Permutation.
Local Open Scope nat_scope.

Definition keepk (fs : list (list nat)) (k : nat) : bool := existsb (Nat.eqb k) (concat fs).
Lemma keepk_in fs k : keepk fs k = true <-> exists f, In f fs /\ In k f.
Proof.
  unfold keepk. rewrite existsb_exists. split.
  - intros (x & I & E). apply Nat.eqb_eq in E. subst x. apply in_concat in I. firstorder.
  - intros (f & I & J). exists k. split; [apply in_concat; eauto|apply Nat.eqb_refl].
Qed.
Lemma used_flat fs : forall mask, mfold (fun mask f => mfold (fun mask k => set mask k 1%Z) f mask) fs mask = mfold (fun mask k => set mask k 1%Z) (concat fs) mask.
Proof. induction fs as [|f fs IH]; intros mask; [reflexivity|]. cbn [mfold concat]. rewrite mfold_app. destruct (mfold _ f mask); cbn [bind]; auto. Qed.
Lemma used_ok ks : forall mask, (forall k, In k ks -> k < length mask) -> exists mask', mfold (fun mask k => set mask k 1%Z) ks mask = Ok mask' /\ length mask' = length mask /\
  forall k, k < length mask -> nth_error mask' k = if existsb (Nat.eqb k) ks then Some 1%Z else nth_error mask k.
Proof.
  induction ks as [|k0 ks IH]; intros mask H; [exists mask; auto|]. cbn [mfold existsb].
  rewrite set_lt by (apply H; left; auto). cbn [bind].
  destruct (IH (upd mask k0 1%Z)) as (m2 & E2 & L2 & N2); [intros; rewrite upd_length; apply H; right; auto|]. exists m2. rewrite upd_length in *. split; auto. split; auto.
  intros k K. rewrite N2 by auto. destruct (existsb (Nat.eqb k) ks); [rewrite Bool.orb_true_r; auto|]. rewrite Bool.orb_false_r. destruct (Nat.eqb_spec k k0) as [->|N]; [rewrite upd_same; auto|rewrite upd_other; auto].
Qed.

Lemma used_mask_ok n fs : (forall f k, In f fs -> In k f -> k < n) -> exists mask, used_mask n fs = Ok mask /\ length mask = n /\
  forall k, k < n -> nth_error mask k = Some (if keepk fs k then 1%Z else (-1)%Z).
Proof.
  intros H. unfold used_mask. rewrite used_flat. destruct (used_ok (concat fs) (repeat (-1)%Z n)) as (mask & E & L & N).
  - intros k I. rewrite repeat_length. apply in_concat in I. destruct I as (f & I & J). eauto.
  - rewrite repeat_length in *. exists mask. split; auto. split; auto. intros k K. rewrite N by auto. unfold keepk. destruct (existsb (Nat.eqb k) (concat fs)); auto. apply nth_error_repeat. auto.
Qed.
Section Mask.
Context (keep : nat -> bool) (n : nat).
Lemma number_ok mask : length mask = n -> (forall k, k < n -> nth_error mask k = Some (if keep k then 1%Z else (-1)%Z)) ->
  exists mask', number_mask mask = Ok (mask', rank keep n) /\ length mask' = n /\
    forall k, k < n -> nth_error mask' k = Some (if keep k then Z.of_nat (rank keep k) else (-1)%Z).
Proof.
  intros L H. unfold number_mask. rewrite L.
  destruct (mfold_seq (fun '(mask, n) i => do m <- get mask i; if (m =? 1)%Z then do mask <- set mask i (Z.of_nat n); Ok (mask, S n) else Ok (mask, n))
     (fun i st => snd st = rank keep i /\ length (fst st) = n /\ (forall k, k < i -> nth_error (fst st) k = Some (if keep k then Z.of_nat (rank keep k) else (-1)%Z)) /\
        forall k, i <= k < n -> nth_error (fst st) k = Some (if keep k then 1%Z else (-1)%Z)) n (mask, 0)) as ((mask' & c) & E & Ec & L' & N & _).
  - cbn [fst snd]. split; [reflexivity|]. split; auto. split; [intros; lia|]. intros; apply H; lia.
  - intros k [mk c] K (Ec & Lm & N1 & N2). cbn [fst snd] in *. rewrite (proj2 (get_ok _ _ _) (N2 k ltac:(lia))). cbn [bind]. rewrite !Nat.add_1_r. destruct (keep k) eqn:Kk.
    + cbn [Z.eqb Pos.eqb]. rewrite set_lt by lia. cbn [bind]. eexists. split; [reflexivity|]. cbn [fst snd]. rewrite rank_S, Kk, Ec. split; [lia|]. rewrite upd_length. split; auto. split.
      * intros j J. destruct (Nat.eq_dec k j) as [<-|]; [rewrite upd_same by lia; rewrite Kk; auto|]. rewrite upd_other by auto. apply N1. lia.
      * intros j J. rewrite upd_other by lia. apply N2. lia.
    + cbn [Z.eqb]. eexists. split; [reflexivity|]. cbn [fst snd]. rewrite rank_S, Kk, Ec. split; [lia|]. split; auto. split.
      * intros j J. destruct (Nat.eq_dec k j) as [<-|]; [rewrite N2 by lia; rewrite Kk; auto|]. apply N1. lia.
      * intros j J. apply N2. lia.
  - cbn [fst snd] in *. subst c. rewrite E. exists mask'. auto.
Qed.
Lemma compact_ok mask pts : length mask = n -> 2 * n <= length pts -> (forall k, k < n -> nth_error mask k = Some (if keep k then Z.of_nat (rank keep k) else (-1)%Z)) ->
  exists pts', compact mask pts = Ok pts' /\ length pts' = length pts /\
    forall k, k < n -> keep k = true -> nth_error pts' (2 * rank keep k) = nth_error pts (2 * k) /\ nth_error pts' (2 * rank keep k + 1) = nth_error pts (2 * k + 1).
Proof.
  intros L Lp H. unfold compact. rewrite L.
  destruct (mfold_seq (fun pts i =>
      do m <- get mask i;
      if negb (m =? -1)%Z then
        do _ <- assert (m <=? Z.of_nat i)%Z;
        if (m <? 0)%Z then UB else
        do x <- get pts (2 * i); do pts <- set pts (2 * Z.to_nat m) x;
        do y <- get pts (2 * i + 1); set pts (2 * Z.to_nat m + 1) y
      else Ok pts)
     (fun i p => length p = length pts /\ (forall k, k < i -> keep k = true -> nth_error p (2 * rank keep k) = nth_error pts (2 * k) /\ nth_error p (2 * rank keep k + 1) = nth_error pts (2 * k + 1)) /\
        forall j, 2 * i <= j -> nth_error p j = nth_error pts j) n pts) as (p & E & Lq & N & _).
  - split; auto. split; [intros; lia|auto].
  - intros k p K (Lq & N1 & N2). rewrite (proj2 (get_ok _ _ _) (H k K)). cbn [bind]. destruct (keep k) eqn:Kk.
    + pose proof (rank_bound keep k) as R. destruct (Z.eqb_spec (Z.of_nat (rank keep k)) (-1)); [lia|]. cbn [negb]. destruct (Z.leb_spec (Z.of_nat (rank keep k)) (Z.of_nat k)); [|lia]. cbn [assert bind].
      destruct (Z.ltb_spec (Z.of_nat (rank keep k)) 0); [lia|]. rewrite Nat2Z.id. set (r := rank keep k) in *.
      destruct (nth_error_ex pts (2 * k)) as [x Ex]; [lia|]. destruct (nth_error_ex pts (2 * k + 1)) as [y Ey]; [lia|].
      rewrite (proj2 (get_ok p (2 * k) x)) by (rewrite N2; auto; lia). cbn [bind]. rewrite set_lt by lia. cbn [bind].
      rewrite (proj2 (get_ok _ (2 * k + 1) y)) by (rewrite upd_other by lia; rewrite N2; auto; lia). cbn [bind]. rewrite set_lt by (rewrite upd_length; lia). eexists. split; [reflexivity|].
      rewrite !upd_length. split; auto. split.
      * intros j J Kj. destruct (Nat.eq_dec j k) as [->|Nj].
        -- fold r. split; [rewrite upd_other by lia; rewrite upd_same by lia; auto|rewrite upd_same by (rewrite upd_length; lia); auto].
        -- assert (Lj : rank keep j < r) by (apply rank_lt; auto; lia). rewrite !upd_other by lia. apply N1; auto. lia.
      * intros j J. rewrite !upd_other by lia. apply N2. lia.
    + cbn [Z.eqb negb]. exists p. split; auto. split; auto. split; [|intros; apply N2; lia].
      intros j J Kj. destruct (Nat.eq_dec j k) as [->|Nj]; [congruence|]. apply N1; auto. lia.
  - exists p. auto.
Qed.
Lemma renumber_ok mask fs : length mask = n -> (forall k, k < n -> nth_error mask k = Some (if keep k then Z.of_nat (rank keep k) else (-1)%Z)) ->
  (forall f k, In f fs -> In k f -> k < n /\ keep k = true) -> renumber mask fs = Ok (map (map (rank keep)) fs).
Proof.
  intros L H K. unfold renumber. apply mmap_ok. intros f F. apply mmap_ok. intros k I. destruct (K f k F I) as [Lk Kk]. rewrite (proj2 (get_ok _ _ _) (H k Lk)), Kk. cbn [bind].
  destruct (Z.eqb_spec (Z.of_nat (rank keep k)) (-1)); [lia|]. cbn [negb assert bind]. rewrite Nat2Z.id. auto.
Qed.
End Mask.

(* all of it *)
Lemma drop_ok pts fs : (forall f k, In f fs -> In k f -> k < length pts / 2) -> exists pts',
  (do mask <- used_mask (length pts / 2) fs; do (mask, k) <- number_mask mask; do pts <- compact mask pts; do merged <- renumber mask fs; Ok (firstn (2 * k) pts, merged))
    = Ok (pts', map (map (rank (keepk fs))) fs) /\ length pts' = 2 * rank (keepk fs) (length pts / 2) /\
  forall f k, In f fs -> In k f -> pos2 pts' (rank (keepk fs) k) = pos2 pts k /\ rank (keepk fs) k < rank (keepk fs) (length pts / 2).
Proof.
  intros H. set (n := length pts / 2). assert (Ln : 2 * n <= length pts) by (apply Nat.mul_div_le; lia).
  destruct (used_mask_ok n fs H) as (m1 & E1 & L1 & N1). destruct (number_ok (keepk fs) n m1 L1 N1) as (m2 & E2 & L2 & N2). destruct (compact_ok (keepk fs) n m2 pts L2 Ln N2) as (p & E3 & L3 & N3).
  assert (Kp : forall f k, In f fs -> In k f -> k < n /\ keepk fs k = true). { intros f k I J. split; [eapply H; eauto|]. apply keepk_in. eauto. }
  pose proof (rank_bound (keepk fs) n) as RB.
  exists (firstn (2 * rank (keepk fs) n) p). rewrite E1. cbn [bind]. rewrite E2. cbn [bind]. rewrite E3. cbn [bind]. rewrite (renumber_ok (keepk fs) n m2 fs L2 N2 Kp). cbn [bind]. split; auto. split; [rewrite firstn_length; lia|].
  intros f k I J. destruct (Kp f k I J) as [Lk Kk]. assert (Lr : rank (keepk fs) k < rank (keepk fs) n) by (apply rank_lt; auto). split; auto.
  destruct (N3 k Lk Kk) as [A B]. unfold pos2.
  assert (G : forall i j, i < 2 * rank (keepk fs) n -> nth_error p i = nth_error pts j -> nth i (firstn (2 * rank (keepk fs) n) p) 0%Q = nth j pts 0%Q).
  { intros i j Li E. assert (X : nth_error (firstn (2 * rank (keepk fs) n) p) i = nth_error p i). { clear - Li. revert p Li. generalize (2 * rank (keepk fs) n). intros m. revert i. induction m as [|m IH]; intros [|i] [|a p] Li; cbn; auto; try lia. apply IH. lia. }
    rewrite <- X in E. clear - E. destruct (nth_error pts j) as [y|] eqn:Ey; [rewrite (nth_error_nth _ _ 0%Q E), (nth_error_nth _ _ 0%Q Ey); auto|]. apply nth_error_None in E, Ey. rewrite !nth_overflow; auto. }
  f_equal; apply G; auto; lia.
Qed.
