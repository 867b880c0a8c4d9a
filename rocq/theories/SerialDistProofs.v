(* Gathering the generators, and finding who owns one. *)
From Verif Require Import Base BaseFacts StdAlg SerializeModel SerializeSpec SerializeProofs MeshModel CollModel SerialDistModel SerialDistSpec.
From Coq Require Import Sorted Lia.

Lemma clift_ok {A B} (b : B) (k : B -> cprog A) : clift (Ok b) k = k b.
Proof. reflexivity. Qed.
Lemma together_ext {A} n (ps ps' : nat -> cprog A) a : (forall r, r < n -> ps r = ps' r) -> Together n ps a -> Together n ps' a.
Proof.
  intros E H. revert ps' E. induction H; intros ps' E.
  - apply t_ret. intros r L. rewrite <- E; auto.
  - apply t_bcast with root cnt v k; auto. intros r L. rewrite <- E; auto.
  - apply t_min with v k m; auto. intros r L. rewrite <- E; auto.
Qed.
Lemma together_det {A} n (ps : nat -> cprog A) a : Together n ps a -> forall b, Together n ps b -> forall r, r < n -> a r = b r.
Proof.
  induction 1 as [ps a H|ps root cnt v k a L H C T IH|ps v k a m H M1 M2 T IH]; intros b Tb r Lr.
  - inversion Tb; subst; match goal with G : forall r, r < n -> ps r = _ |- _ => pose proof (G r Lr) as E; rewrite H in E by auto; congruence end.
  - inversion Tb as [? ? G|? root' cnt' v' k' ? L' G C' T'|? ? ? ? ? G]; subst.
    + pose proof (G r Lr) as E. rewrite H in E by auto. discriminate.
    + assert (E0 : forall q, q < n -> root' = root /\ v' q = v q /\ k' q = k q). { intros q Lq. pose proof (G q Lq) as E. rewrite H in E by auto. injection E as E1 E2 E3. auto. }
      assert (root' = root) by (apply (E0 r Lr)). subst root'. apply IH; auto. eapply together_ext; [|exact T']. intros q Lq. cbn. destruct (E0 q Lq) as (_ & _ & ->). destruct (E0 root L') as (_ & -> & _). auto.
    + pose proof (G r Lr) as E. rewrite H in E by auto. discriminate.
  - inversion Tb as [? ? G|? root' cnt' v' k' ? L' G C' T'|? v' k' ? m' G N1 N2 T']; subst.
    + pose proof (G r Lr) as E. rewrite H in E by auto. discriminate.
    + pose proof (G r Lr) as E. rewrite H in E by auto. discriminate.
    + assert (E0 : forall q, q < n -> v' q = v q /\ k' q = k q). { intros q Lq. pose proof (G q Lq) as E. rewrite H in E by auto. injection E as E1 E2. auto. }
      assert (m' = m). { destruct M1 as (q & Lq & <-). destruct N1 as (q' & Lq' & <-). destruct (E0 q Lq) as [E1 _]. destruct (E0 q' Lq') as [E2 _]. specialize (M2 q' Lq'). specialize (N2 q Lq). lia. } subst m'.
      apply IH; auto. eapply together_ext; [|exact T']. intros q Lq. cbn. destruct (E0 q Lq) as (_ & ->). auto.
Qed.

(* ---- offsets ---- *)
Lemma ub_split l v : StronglySorted le l -> let p := upper_bound l v in p <= length l /\ (forall i x, nth_error l i = Some x -> i < p -> x <= v) /\ (forall i x, nth_error l i = Some x -> p <= i -> v < x).
Proof.
  induction 1 as [|a l S0 IH F]; cbn [upper_bound length]; cbv zeta in *.
  - split; auto. split; intros i x E; destruct i; discriminate.
  - destruct (Nat.ltb_spec v a).
    + split; [lia|]. split; [intros; lia|]. intros i x E _. destruct i; cbn in E; [congruence|]. apply nth_error_In in E. rewrite Forall_forall in F. specialize (F x E). lia.
    + destruct IH as (I1 & I2 & I3). split; [lia|]. split; intros i x E Li; destruct i as [|i]; cbn in E; try lia; [injection E as <-; lia|apply (I2 i x E); lia|apply (I3 i x E); lia].
Qed.
Lemma lb_index l s : StronglySorted lt l -> forall i, nth_error l i = Some s -> lower_bound l s = i.
Proof.
  induction 1 as [|a l S0 IH F]; intros i E; [destruct i; discriminate|]. cbn [lower_bound]. destruct i as [|i]; cbn in E.
  - injection E as ->. destruct (Nat.ltb_spec s s); [lia|auto].
  - rewrite Forall_forall in F. pose proof (F s (nth_error_In _ _ E)). destruct (Nat.ltb_spec a s); [|lia]. rewrite (IH i E). auto.
Qed.

Section Offsets.
  Context (D : nat) (Dpos : 0 < D) (n : nat) (pts : nat -> list Z).
  Hypothesis Whole : forall r, r < n -> exists c, length (pts r) = D * c.

  Lemma gathered_S r : gathered (S r) pts = gathered r pts ++ pts r.
  Proof. unfold gathered. rewrite seq_S, flat_map_app. cbn. rewrite app_nil_r. auto. Qed.
  Lemma gathered_whole r : r <= n -> length (gathered r pts) = D * before D pts r.
  Proof.
    intros L. assert (E : exists c, length (gathered r pts) = D * c).
    { induction r as [|r IH]; [exists 0; cbn; lia|]. destruct IH as [c Ec]; [lia|]. destruct (Whole r L) as [c' E']. exists (c + c'). rewrite gathered_S, app_length. lia. }
    destruct E as [c E]. unfold before. rewrite E. rewrite Nat.mul_comm at 2. rewrite Nat.div_mul by lia. auto.
  Qed.
  Lemma before_0 : before D pts 0 = 0.
  Proof. unfold before. cbn. apply Nat.div_0_l. lia. Qed.
  Lemma before_S r : r < n -> exists c, length (pts r) = D * c /\ before D pts (S r) = before D pts r + c.
  Proof.
    intros L. destruct (Whole r L) as [c E]. exists c. split; auto. pose proof (gathered_whole r) as G1. pose proof (gathered_whole (S r)) as G2. rewrite gathered_S, app_length in G2. nia.
  Qed.
  Lemma before_mono r s : r <= s -> s <= n -> before D pts r <= before D pts s.
  Proof. intros L. induction L as [|s L IH]; intros Ls; auto. destruct (before_S s) as (c & _ & ->); [lia|]. lia. Qed.
  Definition offsets := map (before D pts) (seq 0 (S n)).
  Lemma offsets_nth r : r <= n -> nth_error offsets r = Some (before D pts r).
  Proof. intros L. unfold offsets. rewrite nth_error_map. rewrite nth_error_nth' with (d := 0) by (rewrite seq_length; lia). rewrite seq_nth by lia. auto. Qed.
  Lemma offsets_len : length offsets = S n.
  Proof. unfold offsets. rewrite map_length, seq_length. auto. Qed.
  Lemma offsets_sorted : StronglySorted le offsets.
  Proof.
    unfold offsets. assert (G : forall k a, a + k <= S n -> StronglySorted le (map (before D pts) (seq a k))).
    { induction k as [|k IH]; intros a L; cbn; constructor; [apply IH; lia|]. apply Forall_forall. intros x I. apply in_map_iff in I as (b & <- & I). apply in_seq in I. apply before_mono; lia. }
    apply G. lia.
  Qed.
  Lemma owner_ok i : 0 < n -> i < before D pts n -> exists r, r < n /\ Owns D pts r i /\ ownerRank i offsets = Ok r.
  Proof.
    intros Ln Li. destruct (ub_split offsets i offsets_sorted) as (U1 & U2 & U3). unfold ownerRank. rewrite offsets_len in *. set (p := upper_bound offsets i) in *.
    assert (P0 : 0 < p). { destruct p; [|lia]. pose proof (U3 0 0). rewrite offsets_nth in H by lia. rewrite before_0 in H. specialize (H eq_refl ltac:(lia)). lia. }
    assert (Pn : p < S n). { destruct (Nat.eq_dec p (S n)) as [E|E]; [|lia]. pose proof (U2 n (before D pts n)). rewrite offsets_nth in H by lia. specialize (H eq_refl ltac:(lia)). lia. }
    exists (p - 1). split; [lia|]. split.
    - split; [apply (U2 (p - 1)); [apply offsets_nth; lia|lia]|]. replace (S (p - 1)) with p by lia. apply (U3 p); auto. apply offsets_nth. lia.
    - replace (1 <? S n) with true by (symmetry; apply Nat.ltb_lt; lia). cbn [assert bind]. rewrite (proj2 (get_ok offsets (S n - 1) (before D pts n))) by (rewrite <- offsets_nth by lia; f_equal; lia). cbn [bind].
      replace (i <? before D pts n) with true by (symmetry; apply Nat.ltb_lt; lia). cbn [assert bind]. replace (0 <? p) with true by (symmetry; apply Nat.ltb_lt; lia). replace (p <? S n) with true by (symmetry; apply Nat.ltb_lt; lia). reflexivity.
  Qed.
  Lemma owner_unique r s i : r < n -> s < n -> Owns D pts r i -> Owns D pts s i -> r = s.
  Proof.
    intros Lr Ls [A1 A2] [B1 B2]. destruct (Nat.lt_trichotomy r s) as [L|[L|L]]; auto; exfalso.
    - pose proof (before_mono (S r) s). lia.
    - pose proof (before_mono (S s) r). lia.
  Qed.
  Lemma owner_of r i : r < n -> Owns D pts r i -> ownerRank i offsets = Ok r.
  Proof.
    intros L O. destruct (owner_ok i) as (s & Ls & Os & E); [lia|destruct O; pose proof (before_mono (S r) n); lia|]. rewrite E. f_equal. apply (owner_unique s r i); auto.
  Qed.
End Offsets.

(* ---- the gathering loop ---- *)
Lemma enc_len (l : list Z) : length (flat_map (scalar_enc 8) l) = 8 * length l.
Proof. induction l as [|x l IH]; [reflexivity|]. cbn [flat_map length]. rewrite app_length, IH. unfold scalar_enc. rewrite le_bytes_length. lia. Qed.
Lemma ser_len (l : list Z) : (Z.of_nat (length l) < 2 ^ 32)%Z -> length (serialize (TVec TDouble) l) = 4 + 8 * length l.
Proof.
  intros L. cbn [serialize TDouble]. unfold vec_enc. rewrite app_length. unfold scalar_enc at 1. rewrite le_bytes_length. rewrite usize_small by auto. rewrite Nat2Z.id, firstn_all. rewrite enc_len. auto.
Qed.
Lemma resize_same {A} (d : A) l : resize d (length l) l = l.
Proof. unfold resize. rewrite firstn_all, Nat.sub_diag. cbn. apply app_nil_r. Qed.

Lemma gathered_le r n pts : r <= n -> length (gathered r pts) <= length (gathered n pts).
Proof. intros L. induction L as [|m L IH]; auto. unfold gathered in *. rewrite seq_S, flat_map_app, app_length. lia. Qed.
Section Gather.
  Context {A : Type} (D : nat) (Dpos : 0 < D) (n : nat) (pts : nat -> list Z) (k : nat -> list Z -> list nat -> cprog A).
  Hypothesis Whole : forall r, r < n -> exists c, length (pts r) = D * c.
  Hypothesis Fit : forall r, r < n -> Forall (fits TDouble) (pts r).
  Hypothesis Small : forall r, r < n -> (4 + 8 * Z.of_nat (length (pts r)) < 2 ^ 32)%Z.
  Hypothesis Total : (Z.of_nat (length (gathered n pts)) < 2 ^ 32)%Z.

  Lemma gather_loop a todo p : p + todo = n -> Together n (fun r => k r (gathered n pts) (offsets D n pts)) a ->
    Together n (fun r => gather D (serialize (TVec TDouble) (pts r)) (seq p todo) (gathered p pts) (map (before D pts) (seq 0 (S p))) (k r)) a.
  Proof.
    revert p. induction todo as [|todo IH]; intros p E T.
    - cbn [seq gather]. replace p with n by lia. exact T.
    - cbn [seq gather]. assert (Lp : p < n) by lia. pose proof (Small p Lp) as Sp.
      assert (F : fits (TVec TDouble) (pts p)) by (split; [change (Z.of_nat (@length Z (pts p)) < 2 ^ 32)%Z; lia|apply Fit; auto]). assert (Us : forall r, r < n -> usize (serialize (TVec TDouble) (pts r)) = Z.of_nat (4 + 8 * length (pts r))). { intros r Lr. pose proof (Small r Lr). rewrite usize_small; rewrite ser_len; lia. }
      eapply t_bcast; [exact Lp|intros r Lr; reflexivity|reflexivity|]. cbn beta. rewrite Us by auto. cbn match. rewrite Nat2Z.id.
      eapply t_bcast; [exact Lp|intros r Lr; reflexivity| |].
      + cbn beta. rewrite <- (ser_len (pts p)) by lia. rewrite resize_same. auto.
      + cbn beta. eapply together_ext; [|exact (IH (S p) ltac:(lia) T)]. intros r Lr. cbn beta. symmetry.
        rewrite <- (ser_len (pts p)) by lia. rewrite resize_same.
        pose proof (append TDouble true (gathered p pts) (pts p) [] F) as Ap. rewrite app_nil_r in Ap. rewrite Ap. 2:{ pose proof (gathered_le (S p) n pts). rewrite gathered_S, app_length in H. change (Z.of_nat (@length Z (gathered p pts) + @length Z (pts p)) < 2 ^ 32)%Z. lia. }
        cbn [clift isnil assert]. rewrite <- gathered_S. change (length (gathered (S p) pts) / D) with (before D pts (S p)). f_equal. rewrite (seq_S (S p)), map_app. auto.
  Qed.
End Gather.
