(* The ring of a cell and the numbering of its edges. *)
From Coq Require Import QArith Sorted Permutation.
From Verif Require Import Base BaseFacts StdAlg KeyMapModel KeyMapProofs FaceSortModel FaceSortSpec FaceSortProofs FaceSortProofs4 SerializeModel MeshEditorModel MeshEditorProofs2 QuantMeshModel BoxModel PLCSpec Plane AreaModel PolygonProofs2 TriModel TriSpec TriProofs TriProofs2.
Local Open Scope nat_scope.

(* ---- a closed walk along a cycle goes one way ---- *)
Lemma mod_plus n a b c : a mod n = b mod n -> (a + c) mod n = (b + c) mod n.
Proof.
  intros E. destruct (Nat.eq_dec n 0) as [->|N]; [cbn in *; congruence|].
  rewrite <- (Nat.add_mod_idemp_l a), <- (Nat.add_mod_idemp_l b), E by lia. auto.
Qed.
Section Cyc.
  Context (n : nat) (ids : nat -> nat) (n3 : 3 <= n) (Hid : forall i j, ids i = ids j <-> i mod n = j mod n)
    (r : list nat) (Lr : length r = n) (Nr : NoDup r)
    (Adj : forall i x y, nth_error r i = Some x -> nth_error r ((i + 1) mod n) = Some y ->
       exists m, (x = ids m /\ y = ids (m + 1)) \/ (x = ids (m + 1) /\ y = ids m)).

  Lemma r_inj i j x : nth_error r i = Some x -> nth_error r j = Some x -> i = j.
  Proof. intros Hi Hj. apply (proj1 (NoDup_nth_error r) Nr); [eapply nth_error_lt; eauto|congruence]. Qed.

  Lemma cyc_fwd j : nth_error r (n - 1) = Some (ids j) -> nth_error r 0 = Some (ids (j + 1)) ->
    forall i, i < n -> nth_error r i = Some (ids (j + 1 + i)).
  Proof.
    intros Ha Hb. assert (G : forall i, i < n -> nth_error r i = Some (ids (j + 1 + i)) /\ nth_error r ((i + n - 1) mod n) = Some (ids (j + i))).
    { induction i as [|i IH]; intros Li.
      - rewrite !Nat.add_0_r, Nat.mod_small by lia. auto.
      - destruct (IH ltac:(lia)) as [Hi Hp]. replace (S i + n - 1) with (i + 1 * n) by lia.
        rewrite Nat.mod_add, Nat.mod_small by lia. replace (j + S i) with (j + 1 + i) by lia. split; auto.
        destruct (nth_error_ex r (S i)) as [y Hy]; [lia|].
        destruct (Adj i (ids (j + 1 + i)) y Hi) as (m & [[E1 E2]|[E1 E2]]); [rewrite Nat.mod_small by lia; replace (i + 1) with (S i) by lia; auto| |].
        + rewrite Hy, E2. f_equal. apply Hid. apply Hid in E1. replace (j + 1 + S i) with (j + 1 + i + 1) by lia. apply mod_plus. auto.
        + exfalso. apply Hid in E1. replace (j + 1 + i) with (j + i + 1) in E1 by lia. apply mod_succ_inj in E1; [|lia].
          apply Hid in E1. rewrite <- E1 in E2. subst y. pose proof (r_inj _ _ _ Hp Hy) as X.
          destruct i as [|i]; [rewrite Nat.mod_small in X by lia; lia|].
          replace (S i + n - 1) with (i + 1 * n) in X by lia. rewrite Nat.mod_add, Nat.mod_small in X by lia. lia. }
    intros i Li. apply G. auto.
  Qed.
  Lemma cyc_bwd j : nth_error r (n - 1) = Some (ids (j + 1)) -> nth_error r 0 = Some (ids j) ->
    forall i, i < n -> nth_error r i = Some (ids (j + n - i)).
  Proof.
    intros Ha Hb. assert (G : forall i, i < n -> nth_error r i = Some (ids (j + n - i)) /\ nth_error r ((i + n - 1) mod n) = Some (ids (j + n - i + 1))).
    { induction i as [|i IH]; intros Li.
      - rewrite Nat.sub_0_r, Nat.add_0_l, (Nat.mod_small (n - 1)) by lia. rewrite Hb, Ha. split; f_equal; apply Hid.
        + replace (j + n) with (j + 1 * n) by lia. rewrite Nat.mod_add; lia.
        + replace (j + n + 1) with (j + 1 + 1 * n) by lia. rewrite Nat.mod_add; lia.
      - destruct (IH ltac:(lia)) as [Hi Hp]. replace (S i + n - 1) with (i + 1 * n) by lia.
        rewrite Nat.mod_add, Nat.mod_small by lia. replace (j + n - S i + 1) with (j + n - i) by lia. split; auto.
        destruct (nth_error_ex r (S i)) as [y Hy]; [lia|].
        destruct (Adj i (ids (j + n - i)) y Hi) as (m & [[E1 E2]|[E1 E2]]); [rewrite Nat.mod_small by lia; replace (i + 1) with (S i) by lia; auto| |].
        + exfalso. apply Hid in E1. assert (X : ids (m + 1) = ids (j + n - i + 1)) by (apply Hid, mod_plus; auto).
          rewrite X in E2. subst y. pose proof (r_inj _ _ _ Hp Hy) as Y.
          destruct i as [|i]; [rewrite Nat.mod_small in Y by lia; lia|].
          replace (S i + n - 1) with (i + 1 * n) in Y by lia. rewrite Nat.mod_add, Nat.mod_small in Y by lia. lia.
        + rewrite Hy, E2. f_equal. apply Hid. apply Hid in E1. replace (j + n - i) with (j + n - S i + 1) in E1 by lia.
          apply mod_succ_inj in E1; [auto|lia]. }
    intros i Li. apply G. auto.
  Qed.

  (* every side of the cycle is walked *)
  Lemma cyc_all m : exists a b, In (a, b) (PLCSpec.ring r) /\ ((a = ids m /\ b = ids (m + 1)) \/ (a = ids (m + 1) /\ b = ids m)).
  Proof.
    destruct (nth_error_ex r (n - 1)) as [x Hx]; [lia|]. destruct (nth_error_ex r 0) as [y Hy]; [lia|].
    assert (W : (n - 1 + 1) mod n = 0) by (replace (n - 1 + 1) with n by lia; apply Nat.mod_same; lia).
    destruct (Adj (n - 1) x y Hx) as (j & [[-> ->]|[-> ->]]); [rewrite W; auto| |].
    - pose proof (cyc_fwd j Hx Hy) as G. set (i := (m + n * (j + 1) - (j + 1)) mod n).
      assert (Li : i < n) by (apply Nat.mod_upper_bound; lia).
      assert (Ei : (j + 1 + i) mod n = m mod n).
      { unfold i. rewrite Nat.add_mod_idemp_r by lia. replace (j + 1 + (m + n * (j + 1) - (j + 1))) with (m + (j + 1) * n) by nia. apply Nat.mod_add. lia. }
      exists (ids m), (ids (m + 1)). split; auto. apply (nth_error_In _ i). apply ring_nth. rewrite Lr. split; auto.
      split; [rewrite (G i Li); f_equal; apply Hid; auto|].
      rewrite (G ((i + 1) mod n)) by (apply Nat.mod_upper_bound; lia). f_equal. apply Hid. rewrite Nat.add_mod_idemp_r by lia.
      replace (j + 1 + (i + 1)) with (j + 1 + i + 1) by lia. apply mod_plus. auto.
    - pose proof (cyc_bwd j Hx Hy) as G.
      (* r_i = ids (j + n - i) = ids (m + 1) *)
      set (i := (j + n * (m + 1) - (m + 1)) mod n).
      assert (Li : i < n) by (apply Nat.mod_upper_bound; lia).
      assert (Ei : (j + n - i) mod n = (m + 1) mod n).
      { assert (X : (m + 1 + i) mod n = (j + n) mod n).
        { unfold i. rewrite Nat.add_mod_idemp_r by lia. replace (m + 1 + (j + n * (m + 1) - (m + 1))) with (j + (m + 1) * n) by nia.
          rewrite Nat.mod_add by lia. replace (j + n) with (j + 1 * n) by lia. rewrite Nat.mod_add by lia. auto. }
        clear - X n3 Li. symmetry.
        assert (G : forall k, k <= i -> (m + 1 + k) mod n = (j + n - i + k) mod n -> (m + 1) mod n = (j + n - i) mod n).
        { induction k as [|k IH]; intros Lk E; [rewrite !Nat.add_0_r in E; auto|]. apply IH; [lia|]. apply mod_succ_inj; [lia|].
          replace (m + 1 + k + 1) with (m + 1 + S k) by lia. replace (j + n - i + k + 1) with (j + n - i + S k) by lia. auto. }
        apply (G i); auto. replace (j + n - i + i) with (j + n) by lia. auto. }
      exists (ids (m + 1)), (ids m). split; auto. apply (nth_error_In _ i). apply ring_nth. rewrite Lr. split; auto.
      split; [rewrite (G i Li); f_equal; apply Hid; auto|].
      rewrite (G ((i + 1) mod n)) by (apply Nat.mod_upper_bound; lia). f_equal. apply Hid. apply mod_succ_inj; [lia|].
      rewrite <- Ei. destruct (Nat.eq_dec (i + 1) n) as [Q|Q].
      + rewrite Q, Nat.mod_same by lia. replace (j + n - 0 + 1) with (j + n - i + 1 * n) by lia. rewrite Nat.mod_add by lia. auto.
      + rewrite (Nat.mod_small (i + 1)) by lia. f_equal. lia.
  Qed.
End Cyc.

(* ---- the sorted ring ---- *)
Lemma zkey_cases a b : a <> b -> (a < b /\ zkey a b = (Z.of_nat a, Z.of_nat b)) \/ (b < a /\ zkey a b = (Z.of_nat b, Z.of_nat a)).
Proof. intros N. unfold zkey. destruct (Nat.ltb_spec a b); [left|right]; split; auto; lia. Qed.

Section SortedRing.
  Context (n : nat) (ids : nat -> nat) (n3 : 3 <= n) (Hid : forall i j, ids i = ids j <-> i mod n = j mod n).
  Let sd (j : nat) : Z * Z := zkey (ids j) (ids (j + 1)).

  Lemma ids_next j : ids j <> ids (j + 1).
  Proof.
    intros E. apply Hid in E. rewrite <- (Nat.add_mod_idemp_l j 1 n) in E by lia. pose proof (Nat.mod_upper_bound j n ltac:(lia)) as B.
    set (k := j mod n) in *. destruct (Nat.eq_dec (k + 1) n) as [Q|Q].
    - rewrite Q, Nat.mod_same in E by lia. lia.
    - rewrite Nat.mod_small in E by lia. lia.
  Qed.
  Lemma ids_per j : ids (j + n) = ids j.
  Proof. apply Hid. replace (j + n) with (j + 1 * n) by lia. apply Nat.mod_add. lia. Qed.
  Lemma ids_prev j : ids (j + n - 1 + 1) = ids j.
  Proof. replace (j + n - 1 + 1) with (j + n) by lia. apply ids_per. Qed.
  Lemma ids_two j : ids (j + n - 1) <> ids (j + 1).
  Proof.
    intros E. assert (X : ids j = ids (j + 1 + 1)).
    { rewrite <- (ids_prev j). apply Hid. apply mod_plus. apply Hid. auto. }
    clear E. apply Hid in X. rewrite <- (Nat.add_mod_idemp_l (j + 1) 1 n), <- (Nat.add_mod_idemp_l j 1 n) in X by lia.
    pose proof (Nat.mod_upper_bound j n ltac:(lia)) as B. set (k := j mod n) in *. destruct (Nat.eq_dec (k + 1) n) as [Q|Q].
    - rewrite Q, Nat.mod_same, Nat.mod_small in X by lia. lia.
    - rewrite (Nat.mod_small (k + 1)) in X by lia. destruct (Nat.eq_dec (k + 1 + 1) n) as [Q'|Q'].
      + rewrite Q', Nat.mod_same in X by lia. lia.
      + rewrite Nat.mod_small in X by lia. lia.
  Qed.

  Lemma cyc_route k m : route (fun e : Z * Z => e) (Z.of_nat (ids k)) (map sd (seq k m)) (map (fun j => Z.of_nat (ids (j + 1))) (seq k m)).
  Proof.
    revert k. induction m as [|m IH]; intros k; cbn [seq map route]; auto. split.
    - unfold joins, sd. destruct (zkey_cases (ids k) (ids (k + 1)) (ids_next k)) as [[_ ->]|[_ ->]]; auto.
    - rewrite (Nat.add_1_r k). apply IH.
  Qed.
  Lemma sd_mod j : sd (j mod n) = sd j.
  Proof.
    unfold sd. assert (E : (j mod n) mod n = j mod n) by (apply Nat.mod_mod; lia).
    rewrite (proj2 (Hid (j mod n) j) E). f_equal. apply Hid. apply mod_plus. auto.
  Qed.

  Lemma sorted_ring es : StronglySorted (fun a b => edge_lt a b = true) es -> (forall e, In e es <-> exists j, e = sd j) ->
    exists r, computeSortedFaceNodes es = Ok (map Z.of_nat r) /\ length r = n /\ NoDup r /\ (forall k, In k r <-> exists j, k = ids j) /\
      (forall i x y, nth_error r i = Some x -> nth_error r ((i + 1) mod n) = Some y ->
         exists m, (x = ids m /\ y = ids (m + 1)) \/ (x = ids (m + 1) /\ y = ids m)) /\
      exists m, (forall i, ids m <= ids i) /\ nth_error r (n - 1) = Some (ids m) /\
        ((nth_error r 0 = Some (ids (m + 1)) /\ ids (m + 1) < ids (m + n - 1)) \/
         (nth_error r 0 = Some (ids (m + n - 1)) /\ ids (m + n - 1) < ids (m + 1))).
  Proof.
    intros S H.
    assert (NN : NoDup (map (fun j => Z.of_nat (ids (j + 1))) (seq 0 n))).
    { apply NoDup_nth_error. intros i j Li E. rewrite map_length, seq_length in Li.
      assert (Lj : j < n).
      { destruct (Nat.lt_ge_cases j n); auto.
        rewrite (proj2 (nth_error_None _ j)) in E by (rewrite map_length, seq_length; auto).
        apply nth_error_None in E. rewrite map_length, seq_length in E. lia. }
      rewrite !nth_error_map, !nth_error_seq in E by auto. cbn in E. injection E as E. apply Nat2Z.inj in E. apply Hid in E.
      apply mod_succ_inj in E; [|lia]. rewrite !Nat.mod_small in E by auto. auto. }
    assert (LL : last (map (fun j => Z.of_nat (ids (j + 1))) (seq 0 n)) (Z.of_nat (ids 0)) = Z.of_nat (ids 0)).
    { destruct n as [|k]; [lia|]. rewrite seq_S, map_app. cbn [map Nat.add]. rewrite last_last. f_equal. apply Hid. rewrite Nat.add_1_r. rewrite Nat.mod_same, Nat.mod_0_l by lia. auto. }
    pose proof (cyc_route 0 n) as Rt.
    assert (ND : NoDup (map sd (seq 0 n))).
    { eapply (cycle_nodup (fun e : Z * Z => e)); eauto. rewrite map_length, seq_length. auto. }
    assert (NE : NoDup es).
    { clear - S. induction S; constructor; auto. intros I. rewrite Forall_forall in H. specialize (H _ I). rewrite edge_irr in H. discriminate. }
    assert (P : Permutation (map sd (seq 0 n)) es).
    { apply NoDup_Permutation; auto. intros e. rewrite H, in_map_iff. split.
      - intros (j & <- & _). eauto.
      - intros (j & ->). exists (j mod n). split; [apply sd_mod|]. apply in_seq. pose proof (Nat.mod_upper_bound j n ltac:(lia)). lia. }
    assert (Ln : length es = n) by (rewrite <- P, map_length, seq_length; auto).
    destruct (nodes_closed_from es) as (rz & E & [C1 C2] & A & Lr & F); [exists (map sd (seq 0 n)); split; auto; do 2 eexists; eauto|lia|].
    assert (Fst : forall j, exists x y, sd j = (Z.of_nat x, Z.of_nat y) /\ x < y /\ ((x = ids j /\ y = ids (j + 1)) \/ (x = ids (j + 1) /\ y = ids j))).
    { intros j. unfold sd. destruct (zkey_cases (ids j) (ids (j + 1)) (ids_next j)) as [[L ->]|[L ->]]; eauto 10. }
    assert (Rn : forall z, In z rz <-> exists j, z = Z.of_nat (ids j)).
    { intros z. rewrite C2. split.
      - intros (e & Ie & He). apply H in Ie as [j ->]. destruct (Fst j) as (x & y & Q & _ & D). rewrite Q in He. cbn in He. destruct He as [<-|<-], D as [[-> ->]|[-> ->]]; eauto.
      - intros [j ->]. exists (sd j). split; [apply H; eauto|]. destruct (Fst j) as (x & y & Q & _ & D). rewrite Q. cbn. destruct D as [[-> ->]|[-> ->]]; auto. }
    set (r := map Z.to_nat rz).
    assert (Er : map Z.of_nat r = rz).
    { unfold r. rewrite map_map. rewrite <- (map_id rz) at 2. apply map_ext_in. intros z Iz. apply Rn in Iz as [j ->]. lia. }
    assert (Hr : forall i x, nth_error r i = Some x <-> nth_error rz i = Some (Z.of_nat x)).
    { intros i x. rewrite <- Er, nth_error_map. destruct (nth_error r i) as [y|]; cbn; split; intros Q; try discriminate; injection Q as Q; f_equal; lia. }
    exists r. rewrite Er. split; auto. assert (Lrn : length r = n) by (unfold r; rewrite map_length; congruence). split; auto.
    assert (Adj : forall i x y, nth_error r i = Some x -> nth_error r ((i + 1) mod n) = Some y ->
         exists m, (x = ids m /\ y = ids (m + 1)) \/ (x = ids (m + 1) /\ y = ids m)).
    { intros i x y Hx Hy. apply Hr in Hx. apply Hr in Hy. rewrite <- Ln, <- Lr in Hy. destruct (A i _ _ Hx Hy) as (e & Ie & J). apply H in Ie as [j ->]. exists j.
      destruct (Fst j) as (u & v & Q & _ & D). unfold joins in J. rewrite Q in J. destruct J as [J|J]; injection J as J1 J2; apply Nat2Z.inj in J1; apply Nat2Z.inj in J2; clear - D J1 J2; subst; tauto. }
    split; [rewrite <- Er in C1; apply NoDup_map_inv in C1; auto|]. split.
    { intros k. split.
      - intros I. apply (in_map Z.of_nat) in I. rewrite Er in I. apply Rn in I as [j Q]. exists j. lia.
      - intros [j ->]. unfold r. apply in_map_iff. exists (Z.of_nat (ids j)). split; [lia|]. apply Rn. eauto. }
    split; auto. destruct es as [|e0 t]; [cbn in Ln; lia|]. destruct (F e0 t eq_refl S) as [F0 Fl].
    assert (I0 : exists j, e0 = sd j) by (apply H; left; auto). destruct I0 as [j ->].
    assert (Low : forall i, sd i = sd j \/ edge_lt (sd j) (sd i) = true).
    { intros i. assert (I : In (sd i) (sd j :: t)) by (apply H; eauto). destruct I as [->|I]; auto. right. apply StronglySorted_inv in S as [_ H3]. rewrite Forall_forall in H3. auto. }
    destruct (Fst j) as (a & b & Q & Lab & D). rewrite Q in F0, Fl. cbn [fst snd] in F0, Fl. rewrite Lr, Ln in Fl.
    assert (Hmin : forall i, a <= ids i).
    { intros i. destruct (Fst i) as (x & y & Qi & Lxy & Di). assert (a <= x).
      { destruct (Low i) as [G|G]; rewrite Q, Qi in G; [injection G; lia|]. apply edge_lt_spec in G. cbn in G. lia. }
      destruct Di as [[-> ->]|[-> ->]]; lia. }
    (* the other edge at the smallest node *)
    assert (Oth : forall i y, sd i = (Z.of_nat a, Z.of_nat y) -> y <> b -> b < y).
    { intros i y G Ny. destruct (Low i) as [K|K]; rewrite Q, G in K; [injection K; lia|]. apply edge_lt_spec in K. cbn in K. lia. }
    assert (Key : forall i y, y <> a -> a <= y -> zkey a y = sd i -> y <> b -> b < y).
    { intros i y N1 L1 G N2. apply (Oth i); auto. rewrite <- G. destruct (zkey_cases a y) as [[? ->]|[? ->]]; auto. lia. }
    destruct D as [[-> ->]|[-> ->]].
    - exists j. split; auto. split; [apply Hr; auto|]. left. split; [apply Hr; auto|].
      apply (Key (j + n - 1) (ids (j + n - 1))).
      + rewrite <- (ids_prev j). apply ids_next.
      + apply Hmin.
      + unfold sd. rewrite ids_prev. apply zkey_sym.
      + apply ids_two.
    - exists (j + 1). split; auto. split; [apply Hr; auto|]. right. replace (j + 1 + n - 1) with (j + n) by lia. rewrite ids_per. split; [apply Hr; auto|].
      apply (Key (j + 1) (ids (j + 1 + 1))).
      + intros X. apply (ids_next (j + 1)). auto.
      + apply Hmin.
      + reflexivity.
      + intros X. apply (ids_two (j + 1)). replace (j + 1 + n - 1) with (j + n) by lia. rewrite ids_per. auto.
  Qed.
End SortedRing.
