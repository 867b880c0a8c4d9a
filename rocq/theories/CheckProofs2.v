(* All ranks come to the same verdict. *)
From Verif Require Import Base BaseFacts SerializeModel SerializeSpec SerializeProofs MeshModel MeshProofs2 CollModel SerialDistProofs HullProofs3 CheckModel CheckSpec CheckProofs.
From Coq Require Import Sorted Lia Permutation.
From Coq Require String.
Import String.StringSyntax.

Definition okv {A} (d : A) (x : res A) : A := match x with Ok a => a | _ => d end.
Definition short (x : list Z) : Prop := (Z.of_nat (length x) < 2 ^ 32)%Z.

Section Verdict.
  Context (t : ty) (key : denote t -> list Z) (txt : nat -> nat -> nat -> list (denote t) -> list (denote t) -> list Z) (n : nat) (L : nat -> local t).
  Hypothesis Np : 0 < n.
  Hypothesis Txt : forall k p r a b, txt k p r a b <> [] /\ short (txt k p r a b).
  Hypothesis SA : forall r, r < n -> Sane (L r).
  Hypothesis RD : Readable n L.

  Lemma list_hashes r i l : r < n -> nth_error (lists (L r)) i = Some l -> exists hs, Forall2 (fun j h => nth_error (hashed (L r)) j = Some h) l hs /\ mmap (get (hashed (L r))) l = Ok hs.
  Proof.
    intros Lr E. assert (X : exists hs, Forall2 (fun j h => nth_error (hashed (L r)) j = Some h) l hs).
    { pose proof (sa_ids _ (SA r Lr) i l) as H. specialize (fun j => H j E). clear E. induction l as [|j l IH]; [exists []; constructor|]. destruct IH as [hs F]; [intros; apply H; right; auto|]. destruct (nth_error_ex (hashed (L r)) j) as [h Eh]; [apply H; left; auto|]. exists (h :: hs). constructor; auto. }
    destruct X as [hs F]. exists hs. split; auto. apply mmap_eq. clear - F. induction F; constructor; auto. apply get_ok. auto.
  Qed.
  Lemma pack_ok r k l hs : r < n -> nth_error (lists (L r)) k = Some l -> Forall2 (fun j h => nth_error (hashed (L r)) j = Some h) l hs ->
    pack t (hashed (L r)) (lists (L r)) k = Ok (serialize TUnsigned (usize l) ++ flat_map (serialize t) hs).
  Proof.
    intros Lr E F. unfold pack. rewrite (proj2 (get_ok _ _ _) E). cbn [bind]. rewrite (mmap_eq _ _ (map (serialize t) hs)).
    - cbn [bind]. rewrite <- flat_map_concat_map. auto.
    - clear E. induction F as [|j h l hs Ej F IH]; constructor; auto. pose proof (nth_error_lt _ _ _ Ej) as Lj. apply Nat.ltb_lt in Lj. rewrite Lj. cbn [assert bind]. rewrite (proj2 (get_ok _ _ _) Ej). auto.
  Qed.
  Lemma hs_fits r l hs : r < n -> Forall2 (fun j h => nth_error (hashed (L r)) j = Some h) l hs -> Forall (fits t) hs.
  Proof.
    intros Lr F. pose proof (sa_fits _ (SA r Lr)) as G. rewrite Forall_forall in G. apply Forall_forall. intros h I. destruct (Forall2_in_r _ _ _ _ F I) as (j & _ & E). apply G. eapply nth_error_In; eauto.
  Qed.
  Lemma unpack_ok r k l hs : r < n -> nth_error (lists (L r)) k = Some l -> Forall2 (fun j h => nth_error (hashed (L r)) j = Some h) l hs ->
    unpackHashes t (serialize TUnsigned (usize l) ++ flat_map (serialize t) hs) = Ok hs.
  Proof.
    intros Lr E F. destruct (sa_list_size _ (SA r Lr) k l hs E F) as [B1 B2]. unfold unpackHashes. pose proof (roundtrip TUnsigned true (usize l) (flat_map (serialize t) hs)) as R. change (fresh TUnsigned) with 0%Z in R. rewrite R. 2:{ cbn. split; [lia|]. unfold usize. apply Z.mod_pos_bound. lia. }
    cbn [bind]. rewrite usize_small by auto. rewrite Nat2Z.id. rewrite (Forall2_len _ _ _ F). pose proof (loop_rt (serialize t) (fun dbg => deserialize t dbg (fresh t)) (fits t) true hs [] (deserialize_good t) (hs_fits r l hs Lr F)) as G. rewrite app_nil_r in G. rewrite G. cbn [bind isnil assert]. auto.
  Qed.
  Lemma pack_short r k l hs : r < n -> nth_error (lists (L r)) k = Some l -> Forall2 (fun j h => nth_error (hashed (L r)) j = Some h) l hs -> short (serialize TUnsigned (usize l) ++ flat_map (serialize t) hs).
  Proof.
    intros Lr E F. destruct (sa_list_size _ (SA r Lr) k l hs E F) as [B1 B2]. unfold short. rewrite app_length. cbn [serialize TUnsigned]. unfold scalar_enc. rewrite le_bytes_length. auto.
  Qed.

  (* ListsFor as a function of the position *)
  Lemma lists_at r s i l hs ks : r < n -> nth_error (nbrs (L r)) i = Some s -> nth_error (lists (L r)) i = Some l -> Forall2 (fun j h => nth_error (hashed (L r)) j = Some h) l hs -> ListsFor key (L r) s ks -> ks = map key hs.
  Proof.
    intros Lr E El F (i' & l' & hs' & E' & El' & F' & ->). assert (i' = i) by (apply (sorted_inj (nbrs (L r)) i' i s); auto; apply SA; auto). subst i'. rewrite El in El'. injection El' as <-. f_equal. clear - F F'. revert hs' F'. induction F; intros hs' F'; inversion F'; subst; auto. f_equal; [congruence|auto].
  Qed.

  (* r agrees with what p sent it as its k-th neighbor *)
  Definition AgreeAt (p r : nat) (hs : list (denote t)) : Prop := In p (nbrs (L r)) /\ forall ks, ListsFor key (L r) p ks -> ks = map key hs.

  Lemma same_ok r l hs : Forall2 (fun j h => nth_error (hashed (L r)) j = Some h) l hs -> forall recv, length recv = length l -> exists b, same t key (hashed (L r)) recv l = Ok b /\ (b = true <-> map key recv = map key hs).
  Proof.
    induction 1 as [|j h l hs E F IH]; intros recv Le; destruct recv as [|g recv]; try discriminate; cbn [same map].
    - exists true. split; auto. tauto.
    - rewrite (proj2 (get_ok _ _ _) E). cbn [bind]. unfold eqp. destruct (lexeq (key g) (key h)) eqn:Q.
      + apply lexeq_ok in Q. destruct (IH recv) as (b & Eb & Hb); [cbn in Le; lia|]. exists b. split; auto. rewrite Hb, Q. split; [intros ->; auto|intros [= ->]; auto].
      + exists false. split; auto. split; [discriminate|]. intros [= Q1 Q2]. apply lexeq_ok in Q1. congruence.
  Qed.

  Lemma judge_ok p k l hs r s x : p < n -> r < n -> nth_error (nbrs (L p)) k = Some s -> nth_error (lists (L p)) k = Some l -> Forall2 (fun j h => nth_error (hashed (L p)) j = Some h) l hs -> short x ->
    exists y, judge t key txt r (hashed (L r)) (nbrs (L r)) (lists (L r)) p k s hs x = Ok y /\ short y /\ (y = [] <-> x = [] /\ (s = r -> AgreeAt p r hs)).
  Proof.
    intros Lp Lr Es El F Sx. unfold judge. destruct (Nat.eqb_spec r s) as [->|N]; cbn [andb].
    2:{ exists x. split; auto. split; auto. split; [intros ->; split; auto; intros; congruence|tauto]. }
    destruct x as [|c x]; cbn [isnil].
    2:{ exists (c :: x). split; auto. split; auto. split; [discriminate|intros [? _]; discriminate]. }
    destruct (find_index (nbrs (L s)) p) as [F1 F2]. destruct (findIndex (nbrs (L s)) p) as [kk|] eqn:Ek.
    2:{ exists (txt 0 p s [] []). split; auto. split; [apply Txt|]. split; [intros Q; exfalso; apply (proj1 (Txt 0 p s [] [])); auto|]. intros [_ H]. destruct (H eq_refl) as [I _]. exfalso. apply (proj1 F2); auto. }
    pose proof (F1 kk eq_refl) as Ekk. clear F1 F2. destruct (nth_error_ex (lists (L s)) kk) as [l' El']; [rewrite (sa_lists _ (SA s Lr)); eapply nth_error_lt; eauto|]. rewrite (proj2 (get_ok _ _ _) El'). cbn [bind]. destruct (list_hashes s kk l' Lr El') as (hs' & F' & EM).
    assert (AG : AgreeAt p s hs <-> map key hs' = map key hs). { split; [intros [_ H]; apply H; exists kk, l', hs'; auto|]. intros H. split; [eapply nth_error_In; eauto|]. intros ks K. rewrite (lists_at s p kk l' hs' ks Lr Ekk El' F' K). auto. }
    pose proof (Forall2_len _ _ _ F) as Lh. pose proof (Forall2_len _ _ _ F') as Lh'.
    destruct (Nat.eqb_spec (length hs) (length l')) as [Le|Le]; cbn [negb].
    - destruct (same_ok s l' hs' F' hs Le) as (b & Eb & Hb). rewrite Eb. cbn [bind]. destruct b.
      + exists []. split; auto. split; auto. split; auto. intros _. split; auto. intros _. apply AG. symmetry. apply Hb. auto.
      + rewrite EM. cbn [bind]. eexists. split; [reflexivity|]. split; [apply Txt|]. split; [intros Q; exfalso; apply (proj1 (Txt 2 p s hs hs')); auto|]. intros [_ H]. exfalso. specialize (H eq_refl). apply AG in H. symmetry in H. apply Hb in H. discriminate.
    - destruct (nth_error_ex (lists (L s)) k) as [lk Elk]; [eapply (RD p s k kk l l'); eauto; lia|]. rewrite (proj2 (get_ok _ _ _) Elk). cbn [bind]. eexists. split; [reflexivity|]. split; [apply Txt|]. split; [intros Q; exfalso; apply (proj1 (Txt 1 p s hs [])); auto|]. intros [_ H]. exfalso. specialize (H eq_refl). apply AG in H. apply (f_equal (@length _)) in H. rewrite !map_length in H. lia.
  Qed.

  Definition agrees (p : nat) (k : nat) (r : nat) : Prop := forall l hs, nth_error (nbrs (L p)) k = Some r -> nth_error (lists (L p)) k = Some l -> Forall2 (fun j h => nth_error (hashed (L p)) j = Some h) l hs -> AgreeAt p r hs.
  Lemma checks_ok p : p < n -> forall ks x, (forall k, In k ks -> k < length (nbrs (L p))) -> (forall r, r < n -> short (x r)) ->
    exists x', Together n (fun r => checks t key txt r (hashed (L r)) (nbrs (L r)) (lists (L r)) p ks (x r)) (fun r => Ok (x' r)) /\
      forall r, r < n -> short (x' r) /\ (x' r = [] <-> x r = [] /\ forall k, In k ks -> agrees p k r).
  Proof.
    intros Lp. induction ks as [|k ks IH]; intros x Hk Sx.
    - exists x. split; [apply t_ret; auto|]. intros r Lr. split; auto. split; [intros ->; split; auto; intros k []|tauto].
    - assert (Lk : k < length (nbrs (L p))) by (apply Hk; left; auto). destruct (nth_error_ex _ _ Lk) as [s Es]. destruct (nth_error_ex (lists (L p)) k) as [l El]; [rewrite (sa_lists _ (SA p Lp)); auto|]. destruct (list_hashes p k l Lp El) as (hs & F & EM).
      set (x1 := fun r => okv [] (judge t key txt r (hashed (L r)) (nbrs (L r)) (lists (L r)) p k s hs (x r))).
      assert (J : forall r, r < n -> judge t key txt r (hashed (L r)) (nbrs (L r)) (lists (L r)) p k s hs (x r) = Ok (x1 r) /\ short (x1 r) /\ (x1 r = [] <-> x r = [] /\ (s = r -> AgreeAt p r hs))).
      { intros r Lr. destruct (judge_ok p k l hs r s (x r) Lp Lr Es El F (Sx r Lr)) as (y & E & Sy & Hy). unfold x1. rewrite E. cbn. auto. }
      destruct (IH x1) as (x' & T & H); [intros; apply Hk; right; auto|intros r Lr; apply J; auto|]. exists x'. split.
      + cbn [checks]. set (buf := serialize TUnsigned (usize l) ++ flat_map (serialize t) hs).
        eapply together_ext with (ps := fun r => CBcast p 1 [if r =? p then Z.of_nat s else 0%Z] (fun r1 => match r1 with
          | [recvProc] => clift (if r =? p then Ok buf else Ok []) (fun buffer => CBcast p 1 [usize buffer] (fun r2 => match r2 with
              | [bufSize] => CBcast p (Z.to_nat bufSize) (resize 0%Z (Z.to_nat bufSize) buffer) (fun b => clift (unpackHashes t b) (fun recv =>
                  clift (judge t key txt r (hashed (L r)) (nbrs (L r)) (lists (L r)) p k (Z.to_nat recvProc) recv (x r)) (checks t key txt r (hashed (L r)) (nbrs (L r)) (lists (L r)) p ks)))
              | _ => CRet UB end)) | _ => CRet UB end)).
        { intros r Lr. cbn beta. destruct (Nat.eqb_spec r p) as [->|N]; [|reflexivity]. rewrite (proj2 (get_ok _ _ _) Es). cbn [clift]. rewrite (pack_ok p k l hs Lp El F). fold buf. reflexivity. }
        eapply t_bcast; [exact Lp|intros r Lr; reflexivity|reflexivity|]. cbn beta. rewrite Nat.eqb_refl. cbn match. rewrite Nat2Z.id.
        eapply together_ext with (ps := fun r => CBcast p 1 [usize (if r =? p then buf else [])] (fun r2 => match r2 with
              | [bufSize] => CBcast p (Z.to_nat bufSize) (resize 0%Z (Z.to_nat bufSize) (if r =? p then buf else [])) (fun b => clift (unpackHashes t b) (fun recv =>
                  clift (judge t key txt r (hashed (L r)) (nbrs (L r)) (lists (L r)) p k s recv (x r)) (checks t key txt r (hashed (L r)) (nbrs (L r)) (lists (L r)) p ks)))
              | _ => CRet UB end)).
        { intros r Lr. cbn beta. destruct (r =? p); reflexivity. }
        pose proof (pack_short p k l hs Lp El F) as Sb. fold buf in Sb. unfold short in Sb.
        eapply t_bcast; [exact Lp|intros r Lr; reflexivity|reflexivity|]. cbn beta. rewrite Nat.eqb_refl. cbn match. rewrite (usize_small buf) by auto. rewrite Nat2Z.id.
        eapply t_bcast; [exact Lp|intros r Lr; reflexivity| |]. { cbn beta. rewrite Nat.eqb_refl, resize_same. auto. }
        cbn beta. rewrite Nat.eqb_refl, resize_same. unfold buf. rewrite (unpack_ok p k l hs Lp El F). cbn [clift].
        eapply together_ext; [|exact T]. intros r Lr. cbn beta. destruct (J r Lr) as [-> _]. reflexivity.
      + intros r Lr. destruct (H r Lr) as [S' H']. destruct (J r Lr) as (_ & S1 & H1). split; auto. rewrite H', H1. split.
        * intros [[X A] B]. split; auto. intros k' [<-|I]; auto. intros l0 hs0 Es0 El0 F0. rewrite Es in Es0. injection Es0 as ->. rewrite El in El0. injection El0 as <-. assert (hs0 = hs); [|subst; auto]. clear - F F0. revert hs0 F0. induction F; intros hs0 F0; inversion F0; subst; auto. f_equal; [congruence|auto].
        * intros [X A]. split; [split; auto; intros ->; apply (A k (or_introl eq_refl) l hs); auto|]. intros; apply A; right; auto.
  Qed.

  Lemma consistent_ok label procs : (forall p, In p procs -> p < n) -> exists y, Together n (fun r => checkConsistent t key txt n r (hashed (L r)) (nbrs (L r)) (lists (L r)) label procs []) (fun _ => Ok y) /\
    (y = [] <-> forall p k r, In p procs -> r < n -> agrees p k r) /\ (y = [] \/ exists z, y = label ++ bytes " : " ++ z).
  Proof.
    induction procs as [|p procs IH]; intros Hp.
    - exists []. split; [apply t_ret; auto|]. split; [|auto]. split; auto. intros _ p k r [].
    - assert (Lp : p < n) by (apply Hp; left; auto). destruct IH as (y & T & Hy & Fy); [intros; apply Hp; right; auto|].
      destruct (checks_ok p Lp (seq 0 (length (nbrs (L p)))) (fun _ => [])) as (x & Tx & Hx); [intros k I; apply in_seq in I; lia|intros; unfold short; cbn; lia|].
      destruct (lowest_ex n x) as [z Lz]. pose proof (reduce_ok n x z Np (fun r Lr => proj1 (Hx r Lr)) Lz) as Tz. pose proof (lowest_nil n x z Lz) as Zn.
      assert (Eq : z = [] <-> forall k r, r < n -> agrees p k r).
      { rewrite Zn. split.
        - intros H k r Lr l hs Ek. apply (proj2 (proj1 (proj2 (Hx r Lr)) (H r Lr))); auto. apply in_seq. pose proof (nth_error_lt _ _ _ Ek). lia.
        - intros H r Lr. apply (proj2 (Hx r Lr)). split; auto. }
      destruct (sa_size _ (SA p Lp)) as (B1 & _ & _).
      exists (if isnil z then y else label ++ bytes " : " ++ z). split.
      + cbn [checkConsistent]. eapply t_bcast; [exact Lp|intros r Lr; reflexivity|reflexivity|]. cbn beta match. rewrite (usize_small (nbrs (L p))) by auto. rewrite Nat2Z.id.
        eapply (together_bind n (fun r => checks t key txt r (hashed (L r)) (nbrs (L r)) (lists (L r)) p (seq 0 (length (nbrs (L p)))) []) x); [exact Tx|]. cbn beta. eapply (together_bind n (fun r => reduceToMaxString (x r) r n) (fun _ => z)); [exact Tz|]. cbn beta. destruct z; cbn [isnil]; [exact T|apply t_ret; auto].
      + destruct z as [|c z]; cbn [isnil].
        * split; auto. rewrite Hy. split; [intros H q k r [<-|I] Lr; [apply Eq; auto|apply (H q k r I Lr)]|intros H q k r I Lr; apply (H q k r); auto; right; auto].
        * split; [|right; eauto]. split; [intros Q; apply app_eq_nil in Q as [_ Q]; discriminate|]. intros H. exfalso. assert (Q : c :: z = []) by (apply Eq; intros; apply H; auto; left; auto). discriminate.
  Qed.
End Verdict.
