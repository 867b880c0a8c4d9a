(* Proofs for C24: the clean-up after orphans. *)
From Verif Require Import Base BaseFacts Rank ArrayModel ArrayProofs QuantMeshModel QuantMeshSpec QuantMeshProofs2.
From Coq Require Import Sorted.

(* how often edge e occurs in the cells *)
Definition occ (e : nat) (zs : list Z) : nat := length (filter (fun z => pid z =? e) zs).

Lemma occ_app e l l' : occ e (l ++ l') = occ e l + occ e l'.
Proof. unfold occ. rewrite filter_app, app_length. auto. Qed.
Lemma occ_pos e l : 0 < occ e l <-> exists z, In z l /\ pid z = e.
Proof.
  unfold occ. split.
  - destruct (filter _ l) as [|z t] eqn:F; cbn; [lia|]. intros _.
    assert (I : In z (filter (fun z => pid z =? e) l)) by (rewrite F; left; auto).
    apply filter_In in I as [I E]. apply Nat.eqb_eq in E. eauto.
  - intros (z & I & E). assert (J : In z (filter (fun z => pid z =? e) l)).
    { apply filter_In. split; auto. apply Nat.eqb_eq; auto. }
    destruct (filter _ l); [destruct J|cbn; lia].
Qed.

Lemma count_row n c cnt : length cnt = n -> (forall z, In z c -> pid z < n) ->
  exists cnt', mfold (fun cnt z =>
           do _ <- assert (positiveID z <? Z.of_nat n)%Z;
           do k <- get cnt (pid z);
           set cnt (pid z) (S k)) c cnt = Ok cnt' /\ length cnt' = n /\
    forall e k, nth_error cnt e = Some k -> nth_error cnt' e = Some (k + occ e c).
Proof.
  revert cnt. induction c as [|z c IH]; intros cnt L B; cbn [mfold].
  - exists cnt. repeat split; auto. intros. cbn. rewrite Nat.add_0_r. auto.
  - assert (Lz : pid z < n) by (apply B; left; auto).
    assert (X : (positiveID z <? Z.of_nat n)%Z = true) by (apply Z.ltb_lt, pid_lt_pos; auto).
    rewrite X. cbn [assert bind]. destruct (get_lt cnt (pid z)) as [k0 G]; [lia|]. rewrite G. cbn [bind].
    rewrite set_lt by lia. cbn [bind]. apply (proj1 (get_ok _ _ _)) in G.
    destruct (IH (upd cnt (pid z) (S k0))) as (cnt' & E & L' & H); [rewrite upd_length; auto|intros; apply B; right; auto|].
    exists cnt'. repeat split; auto. intros e k Hk. unfold occ. cbn [filter].
    destruct (Nat.eqb_spec (pid z) e) as [<-|N].
    + rewrite G in Hk. injection Hk as <-. erewrite H by (apply upd_same; lia). cbn. f_equal. unfold occ. lia.
    + apply H. rewrite upd_other by auto. auto.
Qed.

Lemma count_rows n cs cnt : length cnt = n -> (forall c z, In c cs -> In z c -> pid z < n) ->
  exists cnt', mfold (fun cnt c => mfold (fun cnt z =>
           do _ <- assert (positiveID z <? Z.of_nat n)%Z;
           do k <- get cnt (pid z);
           set cnt (pid z) (S k)) c cnt) cs cnt = Ok cnt' /\ length cnt' = n /\
    forall e k, nth_error cnt e = Some k -> nth_error cnt' e = Some (k + occ e (concat cs)).
Proof.
  revert cnt. induction cs as [|c cs IH]; intros cnt L B; cbn [mfold concat].
  - exists cnt. repeat split; auto. intros. cbn. rewrite Nat.add_0_r. auto.
  - destruct (count_row n c cnt L) as (c1 & E1 & L1 & H1); [intros; eapply B; [left; eauto|auto]|].
    rewrite E1. cbn [bind]. destruct (IH c1 L1) as (c2 & E2 & L2 & H2); [intros; eapply B; [right; eauto|auto]|].
    exists c2. repeat split; auto. intros e k Hk. rewrite (H2 e _ (H1 e k Hk)), occ_app. f_equal. lia.
Qed.

Lemma count_edges_ok n cs : (forall c z, In c cs -> In z c -> pid z < n) ->
  exists cnt, count_edges n cs = Ok cnt /\ length cnt = n /\ forall e, e < n -> nth_error cnt e = Some (occ e (concat cs)).
Proof.
  intros B. unfold count_edges. destruct (count_rows n cs (repeat 0 n) (repeat_length _ _) B) as (cnt & E & L & H).
  exists cnt. repeat split; auto. intros e Le. rewrite (H e 0); auto. apply nth_error_repeat; auto.
Qed.

Definition zero_at (cnt : list nat) (i : nat) : bool := match nth_error cnt i with Some 0 => true | _ => false end.

Lemma edges2kill_ok cnt : (forall k, In k cnt -> k <= 2) -> edges2kill cnt = Ok (kept (zero_at cnt) (length cnt)).
Proof.
  intros B. unfold edges2kill.
  destruct (mfold_seq (fun kill i => do k <- get cnt i;
           do _ <- assert ((k =? 0) || (k =? 1) || (k =? 2));
           Ok (if k =? 0 then kill ++ [i] else kill)) (fun n s => s = kept (zero_at cnt) n) (length cnt) []) as (s & E & ->); auto.
  intros k s L ->. destruct (get_lt cnt k L) as [x G]. rewrite G. apply (proj1 (get_ok _ _ _)) in G. cbn [bind].
  assert (x <= 2) by (apply B; eapply nth_error_In; eauto).
  assert (X : (x =? 0) || (x =? 1) || (x =? 2) = true) by (destruct x as [|[|[|]]]; auto; lia).
  rewrite X. cbn [assert bind]. eexists; split; [reflexivity|]. rewrite Nat.add_1_r, kept_S.
  assert (Z : zero_at cnt k = (x =? 0)) by (unfold zero_at; rewrite G; destruct x; auto). rewrite Z.
  destruct (x =? 0); [auto|rewrite app_nil_r; auto].
Qed.
Lemma nodes2kill_ok cnt : nodes2kill cnt = Ok (kept (zero_at cnt) (length cnt)).
Proof.
  unfold nodes2kill.
  destruct (mfold_seq (fun kill i => do k <- get cnt i;
           Ok (if k =? 0 then kill ++ [i] else kill)) (fun n s => s = kept (zero_at cnt) n) (length cnt) []) as (s & E & ->); auto.
  intros k s L ->. destruct (get_lt cnt k L) as [x G]. rewrite G. apply (proj1 (get_ok _ _ _)) in G. cbn [bind].
  eexists; split; [reflexivity|]. rewrite Nat.add_1_r, kept_S.
  assert (Z : zero_at cnt k = (x =? 0)) by (unfold zero_at; rewrite G; destruct x; auto). rewrite Z.
  destruct (x =? 0); [auto|rewrite app_nil_r; auto].
Qed.

Lemma kept_sorted f n : StronglySorted lt (kept f n).
Proof.
  unfold kept. generalize 0. induction n as [|n IH]; intros s; cbn; [constructor|].
  destruct (f s); [|auto]. constructor; auto. apply Forall_forall. intros x I. apply filter_In in I as [I _].
  apply in_seq in I. lia.
Qed.

(* removing the entries with use count zero *)
Definition used_at (cnt : list nat) (k : nat) : bool := negb (zero_at cnt k).
Lemma remove_unused {V} (vec : list V) cnt keep : length cnt = length vec -> keep = used_at cnt ->
  exists vec' o2n, removeElements vec (kept (zero_at cnt) (length cnt)) = Ok (vec', o2n) /\
    length vec' = rank keep (length vec) /\ length o2n = length vec /\
    (forall k, k < length vec -> keep k = true -> nth_error vec' (rank keep k) = nth_error vec k) /\
    (forall k, k < length vec -> nth_error o2n k = Some (if keep k then Z.of_nat (rank keep k) else (-1)%Z)).
Proof.
  intros L ->. set (keep := used_at cnt). set (els := kept (zero_at cnt) (length cnt)).
  destruct (removeElements_ok vec els) as (vec' & o2n & E & Lv & _ & Lo & Hv & Ho).
  - apply kept_sorted.
  - intros e I. apply kept_in in I as [I _]. lia.
  - assert (X : forall k, k < length vec -> keepf els k = keep k).
    { intros k Lk. unfold keepf, keep, used_at. f_equal. apply eq_true_iff_eq. rewrite mem_in. unfold els.
      rewrite kept_in, L. split; [intros []; auto|auto]. }
    assert (R : forall k, k <= length vec -> rank (keepf els) k = rank keep k).
    { intros k Lk. apply rank_ext. intros j Lj. apply X. lia. }
    exists vec', o2n. rewrite R in Lv by auto. repeat split; auto.
    + intros k Lk Kk. rewrite <- (R k) by lia. apply Hv; auto. rewrite X; auto.
    + intros k Lk. rewrite (Ho k Lk), X, R by lia. auto.
Qed.

Lemma count_nodes_gen es cnt n : length cnt = n -> (forall a b, In (a, b) es -> a < n /\ b < n) ->
  exists cnt', mfold (fun cnt e =>
           do a <- get cnt (fst e);
           do cnt <- set cnt (fst e) (S a);
           do b <- get cnt (snd e);
           set cnt (snd e) (S b)) es cnt = Ok cnt' /\ length cnt' = n /\
    forall i k, nth_error cnt i = Some k -> exists k', nth_error cnt' i = Some k' /\
      (0 < k' <-> 0 < k \/ exists a b, In (a, b) es /\ (i = a \/ i = b)).
Proof.
  revert cnt. induction es as [|[a b] es IH]; intros cnt L B; cbn [mfold].
  - exists cnt. repeat split; auto. intros i k H. exists k. split; auto. split; auto. intros [?|(a & b & [] & _)]; auto.
  - destruct (B a b (or_introl eq_refl)) as [La Lb]. cbn [fst snd].
    destruct (get_lt cnt a) as [ka Ga]; [lia|]. rewrite Ga. cbn [bind]. rewrite set_lt by lia. cbn [bind].
    destruct (get_lt (upd cnt a (S ka)) b) as [kb Gb]; [rewrite upd_length; lia|]. rewrite Gb. cbn [bind].
    rewrite set_lt by (rewrite upd_length; lia). cbn [bind].
    apply (proj1 (get_ok _ _ _)) in Ga, Gb.
    destruct (IH (upd (upd cnt a (S ka)) b (S kb))) as (c' & E & L' & H); [rewrite !upd_length; auto|intros; apply B; right; auto|].
    exists c'. repeat split; auto. intros i k Hk.
    destruct (nth_error_ex (upd (upd cnt a (S ka)) b (S kb)) i) as [x Hx].
    { rewrite !upd_length. eapply nth_error_lt; eauto. }
    destruct (H i x Hx) as (k' & Hk' & Iff). exists k'. split; auto. rewrite Iff.
    assert (Hx2 : 0 < x <-> 0 < k \/ i = a \/ i = b).
    { rewrite !upd_nth in Hx. rewrite !upd_nth in Gb. rewrite !upd_length in Hx.
      destruct (Nat.eqb_spec b i) as [->|]; cbn [andb] in Hx.
      - destruct (Nat.ltb_spec i (length cnt)); [|lia]. injection Hx as <-. split; auto; lia.
      - destruct (Nat.eqb_spec a i) as [->|]; cbn [andb] in Hx.
        + destruct (Nat.ltb_spec i (length cnt)); [|lia]. injection Hx as <-. split; auto; lia.
        + rewrite Hk in Hx. injection Hx as <-. split; [auto|]. intros [?|[?|?]]; subst; auto; congruence. }
    rewrite Hx2. split.
    + intros [[?|[?|?]]|(c & d & I & Q)]; auto; right; [exists a, b; split; [left|]; auto..|]. exists c, d; split; [right|]; auto.
    + intros [?|(c & d & [I|I] & Q)]; auto; [injection I as <- <-; auto|]. right. exists c, d; auto.
Qed.

Lemma count_nodes_ok n es : (forall a b, In (a, b) es -> a < n /\ b < n) ->
  exists cnt, count_nodes n es = Ok cnt /\ length cnt = n /\
    forall i, i < n -> zero_at cnt i = false <-> exists a b, In (a, b) es /\ (i = a \/ i = b).
Proof.
  intros B. unfold count_nodes. destruct (count_nodes_gen es (repeat 0 n) n (repeat_length _ _) B) as (cnt & E & L & H).
  exists cnt. repeat split; auto.
  - intros Z. destruct (H i 0) as (k & Hk & Iff); [apply nth_error_repeat; auto|].
    unfold zero_at in Z. rewrite Hk in Z. destruct k; [discriminate|]. destruct Iff as [Iff _].
    destruct Iff as [?|?]; [lia|lia|auto].
  - intros X. destruct (H i 0) as (k & Hk & Iff); [apply nth_error_repeat; auto|].
    unfold zero_at. rewrite Hk. destruct k; auto. destruct Iff as [_ Iff]. specialize (Iff (or_intror X)). lia.
Qed.

Lemma patch_edge_ok o2n z k : nth_error o2n (pid z) = Some (Z.of_nat k) ->
  patch_edge o2n z = Ok (if (0 <=? z)%Z then Z.of_nat k else Z.lnot (Z.of_nat k)).
Proof.
  intros H. unfold patch_edge. assert (X : negb (Z.of_nat k =? -1)%Z = true) by (apply negb_true_iff, Z.eqb_neq; lia).
  destruct (Z.ltb_spec z 0).
  - assert (E : Z.to_nat (Z.lnot z) = pid z) by (unfold pid; rewrite positiveID_neg; auto).
    rewrite E. unfold get. rewrite H. cbn [bind]. rewrite X. cbn [assert bind].
    destruct (Z.leb_spec 0 z); [lia|auto].
  - assert (E : Z.to_nat z = pid z) by (unfold pid; rewrite positiveID_pos; auto).
    rewrite E. unfold get. rewrite H. cbn [bind]. rewrite X. cbn [assert bind].
    destruct (Z.leb_spec 0 z); [auto|lia].
Qed.

Lemma clean_up_ok {P} (ns : list P) es cs :
  (forall c z, In c cs -> In z c -> pid z < length es) ->
  (forall a b, In (a, b) es -> a < length ns /\ b < length ns) ->
  (forall e, e < length es -> occ e (concat cs) <= 2) ->
  exists ns' es' cs' keepE keepN, clean_up ns es cs = Ok (ns', es', cs') /\ 
    StronglySorted lt keepE /\ StronglySorted lt keepN /\
    (forall e, In e keepE <-> e < length es /\ exists c z, In c cs /\ In z c /\ pid z = e) /\
    (forall n, In n keepN <-> exists e a b, In e keepE /\ nth_error es e = Some (a, b) /\ (n = a \/ n = b)) /\
    length ns' = length keepN /\ (forall k n, nth_error keepN k = Some n -> nth_error ns' k = nth_error ns n) /\
    length es' = length keepE /\ (forall k e, nth_error keepE k = Some e -> exists a b a' b',
        nth_error es e = Some (a, b) /\ nth_error es' k = Some (a', b') /\
        nth_error keepN a' = Some a /\ nth_error keepN b' = Some b) /\
    Forall2 (Forall2 (fun z z' => ((0 <= z)%Z <-> (0 <= z')%Z) /\ nth_error keepE (pid z') = Some (pid z))) cs cs'.
Proof.
  intros Bc Be Bo. unfold clean_up.
  destruct (count_edges_ok (length es) cs Bc) as (cnt & E1 & L1 & H1). rewrite E1. cbn [bind].
  rewrite edges2kill_ok.
  2:{ intros k I. apply In_nth_error in I as [e He]. assert (Le := nth_error_lt _ _ _ He). rewrite L1 in Le.
      rewrite (H1 e Le) in He. injection He as <-. auto. }
  cbn [bind]. set (kE := used_at cnt) in *. destruct (remove_unused es cnt kE L1 eq_refl) as (es1 & o2n & E2 & L2 & L2' & H2 & H2'). rewrite E2. cbn [bind].
  assert (KE : forall e, e < length es -> kE e = true <-> exists c z, In c cs /\ In z c /\ pid z = e).
  { intros e Le. unfold kE, used_at, zero_at. rewrite (H1 e Le). split.
    - intros Hk. assert (O : 0 < occ e (concat cs)) by (destruct (occ e (concat cs)); [discriminate|lia]).
      apply occ_pos in O as (z & I & Ez). apply in_concat in I as (c & Ic & Iz). eauto.
    - intros (c & z & Ic & Iz & Ez). assert (O : 0 < occ e (concat cs)).
      { apply occ_pos. exists z. split; auto. apply in_concat. eauto. }
      destruct (occ e (concat cs)); [lia|auto]. }
  set (keepE := kept kE (length es)).
  assert (E3 : exists cs', mmap (mmap (patch_edge o2n)) cs = Ok cs' /\
    Forall2 (Forall2 (fun z z' => ((0 <= z)%Z <-> (0 <= z')%Z) /\ nth_error keepE (pid z') = Some (pid z))) cs cs').
  { apply mmap_forall2. intros c Ic. apply mmap_forall2. intros z Iz.
    assert (Lz := Bc c z Ic Iz). assert (Kz : kE (pid z) = true) by (apply KE; eauto).
    rewrite (patch_edge_ok o2n z (rank kE (pid z))) by (rewrite (H2' _ Lz), Kz; auto).
    eexists; split; [reflexivity|]. destruct (Z.leb_spec 0 z).
    - split; [lia|]. rewrite pid_of_nat. apply kept_nth; auto.
    - split; [unfold Z.lnot; lia|]. rewrite pid_lnot_of_nat. apply kept_nth; auto. }
  destruct E3 as (cs' & E3 & H3). rewrite E3. cbn [bind].
  assert (Es1 : forall k p, nth_error es1 k = Some p -> exists e, nth_error keepE k = Some e /\ nth_error es e = Some p).
  { intros k p Hk. assert (Lk := nth_error_lt _ _ _ Hk). rewrite L2 in Lk.
    destruct (rank_onto kE k (length es) Lk) as (e & Le & Ke & <-). exists e. split; [apply kept_nth; auto|].
    rewrite <- (H2 e Le Ke). auto. }
  destruct (count_nodes_ok (length ns) es1) as (ncnt & E4 & L4 & H4).
  { intros a b I. apply In_nth_error in I as [k Hk]. destruct (Es1 k _ Hk) as (e & _ & He). apply Be. eapply nth_error_In; eauto. }
  rewrite E4. cbn [bind]. rewrite nodes2kill_ok. cbn [bind].
  set (kN := used_at ncnt) in *. destruct (remove_unused ns ncnt kN L4 eq_refl) as (ns1 & n2n & E5 & L5 & L5' & H5 & H5'). rewrite E5. cbn [bind].
  set (keepN := kept kN (length ns)).
  assert (KN : forall n, n < length ns -> kN n = true <-> exists a b, In (a, b) es1 /\ (n = a \/ n = b)).
  { intros n Ln. unfold kN, used_at. rewrite negb_true_iff. apply H4; auto. }
  assert (B1 : forall a b, In (a, b) es1 -> a < length ns /\ b < length ns).
  { intros a b I. apply In_nth_error in I as [k Hk]. destruct (Es1 k _ Hk) as (e & _ & He). apply Be. eapply nth_error_In; eauto. }
  assert (E6 : exists es', mmap (patch_nodes n2n) es1 = Ok es' /\
     Forall2 (fun p p' => nth_error keepN (fst p') = Some (fst p) /\ nth_error keepN (snd p') = Some (snd p)) es1 es').
  { apply mmap_forall2. intros [a b] I. destruct (B1 a b I) as [La Lb].
    assert (Ka : kN a = true) by (apply KN; eauto). assert (Kb : kN b = true) by (apply KN; eauto).
    unfold patch_nodes. cbn [fst snd]. unfold get. rewrite (H5' a La), Ka. cbn [bind].
    assert (X : forall k, negb (Z.of_nat k =? -1)%Z = true) by (intros k; apply negb_true_iff, Z.eqb_neq; lia).
    rewrite X. cbn [assert bind]. rewrite (H5' b Lb), Kb. cbn [bind]. rewrite X. cbn [assert bind].
    eexists; split; [reflexivity|]. cbn [fst snd]. rewrite !Nat2Z.id. split; apply kept_nth; auto. }
  destruct E6 as (es' & E6 & H6). rewrite E6. cbn [bind].
  exists ns1, es', cs', keepE, keepN. split; [reflexivity|]. split; [apply kept_sorted|]. split; [apply kept_sorted|].
  split.
  { intros e. unfold keepE. rewrite kept_in. split; intros [Le H]; split; auto; apply KE; auto. }
  split.
  { intros n. unfold keepN. rewrite kept_in. split.
    - intros [Ln Kn]. apply KN in Kn as (a & b & I & Q); auto. apply In_nth_error in I as [k Hk].
      destruct (Es1 k _ Hk) as (e & Ke & He). exists e, a, b. split; auto. eapply nth_error_In; eauto.
    - intros (e & a & b & Ie & He & Q). apply kept_in in Ie as [Le Ke].
      assert (I : In (a, b) es1). { apply nth_error_In with (rank kE e). rewrite (H2 e Le Ke). auto. }
      destruct (B1 a b I). assert (Ln : n < length ns) by (destruct Q; subst; auto). split; auto. apply KN; eauto. }
  split; [exact L5|]. split.
  { intros k n H. apply nth_kept in H as (Ln & Kn & <-). auto. }
  split; [rewrite <- (Forall2_len _ _ _ H6); exact L2|]. split; [|exact H3].
  intros k e H. apply nth_kept in H as (Le & Ke & <-). pose proof (H2 e Le Ke) as Q.
  destruct (nth_error_ex es e Le) as [[a b] Hab]. rewrite Hab in Q.
  destruct (Forall2_nth _ _ _ _ _ H6 Q) as ([a' b'] & Hp & Ha & Hb). cbn [fst snd] in *.
  exists a, b, a', b'. auto.
Qed.

(* more than two uses of an edge are refused *)
Lemma clean_up_refuses {P} (ns : list P) es cs e :
  (forall c z, In c cs -> In z c -> pid z < length es) ->
  e < length es -> 2 < occ e (concat cs) -> clean_up ns es cs = Abort.
Proof.
  intros Bc Le O. unfold clean_up.
  destruct (count_edges_ok (length es) cs Bc) as (cnt & E1 & L1 & H1). rewrite E1. cbn [bind].
  assert (X : edges2kill cnt = Abort); [|rewrite X; auto].
  unfold edges2kill. assert (G : forall l s, (forall i, In i l -> i < length cnt) -> In e l ->
    mfold (fun kill i => do k <- get cnt i;
           do _ <- assert ((k =? 0) || (k =? 1) || (k =? 2));
           Ok (if k =? 0 then kill ++ [i] else kill)) l s = Abort).
  { induction l as [|i l IH]; intros s B I; [destruct I|]. cbn [mfold].
    destruct (get_lt cnt i) as [k G]; [apply B; left; auto|]. rewrite G. cbn [bind].
    destruct ((k =? 0) || (k =? 1) || (k =? 2)) eqn:K; cbn [assert bind]; [|auto].
    destruct (Nat.eq_dec i e) as [->|N].
    - apply (proj1 (get_ok _ _ _)) in G. rewrite (H1 e Le) in G. injection G as G. rewrite <- G in K.
      destruct (Nat.eqb_spec (occ e (concat cs)) 0), (Nat.eqb_spec (occ e (concat cs)) 1), (Nat.eqb_spec (occ e (concat cs)) 2);
        cbn in K; try discriminate; lia.
    - apply IH; [intros; apply B; right; auto|]. destruct I; [congruence|auto]. }
  apply G; [intros i I; apply in_seq in I; lia|]. apply in_seq. lia.
Qed.
