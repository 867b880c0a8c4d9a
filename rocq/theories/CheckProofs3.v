(* The search for missing shared nodes, and the whole check. *)
From Verif Require Import Base BaseFacts SerializeModel SerializeSpec SerializeProofs MeshModel MeshProofs2 CollModel SerialDistProofs HullProofs3 CheckModel CheckSpec CheckProofs CheckProofs2.
From Coq Require Import Sorted Lia Permutation.
From Coq Require String.
Import String.StringSyntax.

Lemma flat_map_perm_len {A B} (f : A -> list B) l l' : Permutation l l' -> length (flat_map f l) = length (flat_map f l').
Proof. induction 1; cbn; auto; rewrite ?app_length in *; lia. Qed.

Section Found.
  Context (t : ty) (key : denote t -> list Z) (txt : nat -> nat -> nat -> list (denote t) -> list (denote t) -> list Z) (n : nat) (L : nat -> local t).
  Hypothesis Np : 0 < n.
  Hypothesis Txt : forall k p r a b, txt k p r a b <> [] /\ short (txt k p r a b).
  Hypothesis SA : forall r, r < n -> Sane (L r).
  Hypothesis RD : Readable n L.
  Local Notation sorted r := (sortb (ltp t key) (hashed (L r))).

  Definition FoundOK (p r : nat) : Prop := (In p (nbrs (L r)) <-> exists c, In c (positions key (L r)) /\ In c (positions key (L p))) /\
    forall ks c, ListsFor key (L r) p ks -> times c ks = Nat.min (times c (positions key (L r))) (times c (positions key (L p))).

  Lemma common_keys r p : map key (interb (ltp t key) (sorted r) (sorted p)) = interb lexlt (sortb lexlt (positions key (L r))) (sortb lexlt (positions key (L p))).
  Proof. unfold ltp. rewrite (interb_map key), !(sortb_map key). auto. Qed.
  Lemma common_times r p c : times c (map key (interb (ltp t key) (sorted r) (sorted p))) = Nat.min (times c (positions key (L r))) (times c (positions key (L p))).
  Proof. rewrite common_keys, inter_times by apply sortK_sorted. f_equal; apply times_perm, sortb_perm. Qed.
  Lemma common_some r p : 0 < length (interb (ltp t key) (sorted r) (sorted p)) <-> exists c, In c (positions key (L r)) /\ In c (positions key (L p)).
  Proof.
    rewrite <- (map_length key). split.
    - intros H. destruct (map key (interb (ltp t key) (sorted r) (sorted p))) as [|c l] eqn:E; [cbn in H; lia|]. exists c. pose proof (common_times r p c) as T. rewrite E, times_cons in T. destruct (list_eq_dec Z.eq_dec c c); [|congruence]. split; apply times_in; lia.
    - intros (c & I1 & I2). apply times_in in I1. apply times_in in I2. pose proof (common_times r p c) as T. assert (I : In c (map key (interb (ltp t key) (sorted r) (sorted p)))) by (apply times_in; lia). destruct (map key _); [destruct I|cbn; lia].
  Qed.
  Lemma found_ok p r x : p < n -> r < n -> short x -> exists y, found t key txt r (hashed (L r)) (nbrs (L r)) (lists (L r)) p (sorted r) (sorted p) true x = Ok y /\ short y /\ (y = [] <-> x = [] /\ FoundOK p r).
  Proof.
    intros Lp Lr Sx. unfold found. set (common := interb (ltp t key) (sorted r) (sorted p)). pose proof (common_some r p) as CS. fold common in CS.
    assert (TX : forall k p r a b, txt k p r a b = [] <-> False) by (intros; split; [apply Txt|tauto]).
    assert (TI : forall k p r a b, isnil (txt k p r a b) = false). { intros k q s a b. destruct (txt k q s a b) eqn:E; auto. apply TX in E. tauto. }
    destruct (find_index (nbrs (L r)) p) as [F1 F2]. destruct (findIndex (nbrs (L r)) p) as [k|] eqn:Ek.
    - pose proof (F1 k eq_refl) as Ekk. assert (Ip : In p (nbrs (L r))) by (eapply nth_error_In; eauto). clear F1 F2. cbn [negb andb]. rewrite andb_false_r. cbn [andb].
      destruct x as [|c0 x]; cbn [isnil andb].
      2:{ eexists. split; [reflexivity|]. split; auto. split; [discriminate|intros [? _]; discriminate]. }
      destruct (Nat.eqb_spec (length common) 0) as [E0|E0].
      + rewrite TI. cbn [andb]. eexists. split; [reflexivity|]. split; [apply Txt|]. rewrite TX. split; [tauto|]. intros [_ [H _]]. apply H in Ip. apply CS in Ip. lia.
      + cbn [isnil andb]. replace (0 <? length common) with true by (symmetry; apply Nat.ltb_lt; lia). destruct (nth_error_ex (lists (L r)) k) as [l El]; [rewrite (sa_lists _ (SA r Lr)); eapply nth_error_lt; eauto|]. rewrite (proj2 (get_ok _ _ _) El). cbn [bind]. destruct (list_hashes t n L SA r k l Lr El) as (hs & F & EM).
        assert (FO : FoundOK p r <-> Permutation (map key hs) (map key common)).
        { split.
          - intros [_ H]. apply times_perm. intros c. unfold common. rewrite common_times. apply H. exists k, l, hs. auto.
          - intros P. split; [split; auto; intros _; apply CS; lia|]. intros ks c K. rewrite (lists_at t key n L SA r p k l hs ks Lr Ekk El F K). rewrite (proj1 (times_perm _ _) P c). apply common_times. }
        destruct (Nat.eqb_spec (length l) (length common)) as [Le|Le]; cbn [negb].
        * rewrite EM. cbn [bind]. pose proof (same_keys key (sortb (ltp t key) hs) common) as SK. change (fun '(a, b) => lexeq (key a) (key b)) with (fun '(a, b) => eqp t key a b) in SK.
          assert (Q : Permutation (map key hs) (map key common) <-> map key (sortb (ltp t key) hs) = map key common).
          { unfold ltp at 1. rewrite (sortb_map key). unfold common. rewrite common_keys. split.
            - intros P. apply sorted_perm; [apply sortK_sorted|apply inter_sorted; apply sortK_sorted|]. rewrite sortb_perm. auto.
            - intros <-. symmetry. apply sortb_perm. }
          destruct ((length (sortb (ltp t key) hs) =? length common) && forallb (fun '(a, b) => eqp t key a b) (combine (sortb (ltp t key) hs) common)) eqn:Eq.
          -- exists []. split; auto. split; auto. split; auto. intros _. split; auto. apply FO, Q, SK. auto.
          -- eexists. split; [reflexivity|]. split; [apply Txt|]. rewrite TX. split; [tauto|]. intros [_ H]. apply FO, Q in H. apply SK in H. discriminate.
        * eexists. split; [reflexivity|]. split; [apply Txt|]. rewrite TX. split; [tauto|]. intros [_ H]. apply FO, Permutation_length in H. rewrite !map_length in H. apply Forall2_len in F. lia.
    - assert (Np' : ~ In p (nbrs (L r))) by (apply F2; auto). cbn [negb andb]. rewrite andb_true_r.
      destruct x as [|c0 x]; cbn [isnil andb].
      2:{ eexists. split; [reflexivity|]. split; auto. split; [discriminate|intros [? _]; discriminate]. }
      destruct (Nat.ltb_spec 0 (length common)) as [E0|E0].
      + rewrite TI. cbn [andb]. eexists. split; [reflexivity|]. split; [apply Txt|]. rewrite TX. split; [tauto|]. intros [_ [H _]]. apply Np'. apply H. apply CS. auto.
      + cbn [isnil andb]. exists []. split; auto. split; auto. split; auto. intros _. split; auto. split; [split; [tauto|intros H; apply CS in H; lia]|]. intros ks c (i & l & hs & E & _). exfalso. apply Np'. eapply nth_error_In; eauto.
  Qed.

  Lemma sorted_msg p : p < n -> short (serialize (TVec t) (sorted p)) /\ deserialize (TVec t) true [] (serialize (TVec t) (sorted p)) = Ok (sorted p, []).
  Proof.
    intros Lp. destruct (sa_size _ (SA p Lp)) as (_ & B2 & B3). pose proof (Permutation_length (sortb_perm (ltp t key) (hashed (L p)))) as Ls.
    assert (Fi : fits (TVec t) (sorted p)). { split; [rewrite Ls; auto|]. apply (Permutation_Forall (Permutation_sym (sortb_perm (ltp t key) (hashed (L p))))). apply SA; auto. }
    split.
    - unfold short. cbn [serialize]. unfold vec_enc. rewrite app_length. unfold scalar_enc. rewrite le_bytes_length. rewrite usize_small by (rewrite Ls; auto). rewrite Nat2Z.id, firstn_all. rewrite (flat_map_perm_len (serialize t) _ _ (sortb_perm (ltp t key) (hashed (L p)))). auto.
    - pose proof (roundtrip (TVec t) true (sorted p) [] Fi) as R. rewrite app_nil_r in R. exact R.
  Qed.

  Lemma checkFound_ok label procs : (forall p, In p procs -> p < n) -> exists y, Together n (fun r => checkFound t key txt n r (hashed (L r)) (nbrs (L r)) (lists (L r)) label (sorted r) true procs []) (fun _ => Ok y) /\
    (y = [] <-> forall p r, In p procs -> r < n -> r <> p -> FoundOK p r) /\ (y = [] \/ exists z, y = label ++ bytes " : " ++ z).
  Proof.
    induction procs as [|p procs IH]; intros Hp.
    - exists []. split; [apply t_ret; auto|]. split; [|auto]. split; auto. intros _ p r [].
    - assert (Lp : p < n) by (apply Hp; left; auto). destruct IH as (y & T & Hy & Fy); [intros; apply Hp; right; auto|].
      set (x := fun r => if r =? p then [] else okv [] (found t key txt r (hashed (L r)) (nbrs (L r)) (lists (L r)) p (sorted r) (sorted p) true [])).
      assert (Hx : forall r, r < n -> (if r =? p then Ok [] else found t key txt r (hashed (L r)) (nbrs (L r)) (lists (L r)) p (sorted r) (sorted p) true []) = Ok (x r) /\ short (x r) /\ (x r = [] <-> (r <> p -> FoundOK p r))).
      { intros r Lr. unfold x. destruct (Nat.eqb_spec r p) as [->|N]; [split; auto; split; [unfold short; cbn; lia|]; split; auto; congruence|]. destruct (found_ok p r [] Lp Lr) as (z & E & Sz & Hz); [unfold short; cbn; lia|]. rewrite E. cbn. split; auto. split; auto. rewrite Hz. tauto. }
      destruct (lowest_ex n x) as [z Lz]. pose proof (reduce_ok n x z Np (fun r Lr => proj1 (proj2 (Hx r Lr))) Lz) as Tz. pose proof (lowest_nil n x z Lz) as Zn.
      assert (Eq : z = [] <-> forall r, r < n -> r <> p -> FoundOK p r). { rewrite Zn. split; intros H r Lr; apply (proj2 (proj2 (Hx r Lr))); auto. }
      destruct (sorted_msg p Lp) as [Sm Dm]. unfold short in Sm.
      exists (if isnil z then y else label ++ bytes " : " ++ z). split.
      + cbn [checkFound]. cbv zeta. eapply t_bcast; [exact Lp|intros r Lr; reflexivity|reflexivity|]. cbn beta match. rewrite (usize_small (serialize (TVec t) (sorted p))) by exact Sm. rewrite Nat2Z.id.
        eapply t_bcast; [exact Lp|intros r Lr; reflexivity|cbn beta; rewrite resize_same; auto|]. cbn beta. rewrite resize_same. rewrite Dm. cbn [clift].
        eapply together_ext with (ps := fun r => cbind (reduceToMaxString (x r) r n) (fun result => if isnil result then checkFound t key txt n r (hashed (L r)) (nbrs (L r)) (lists (L r)) label (sorted r) true procs result else CRet (Ok (label ++ bytes " : " ++ result)))).
        { intros r Lr. cbn beta. destruct (Hx r Lr) as [-> _]. reflexivity. }
        eapply (together_bind n (fun r => reduceToMaxString (x r) r n) (fun _ => z)); [exact Tz|]. cbn beta. destruct z; cbn [isnil]; [exact T|apply t_ret; auto].
      + destruct z as [|c z]; cbn [isnil].
        * split; auto. rewrite Hy. split; [intros H q r [<-|I] Lr; [apply Eq; auto|apply (H q r I Lr)]|intros H q r I Lr; apply (H q r); auto; right; auto].
        * split; [|right; eauto]. split; [intros Q; apply app_eq_nil in Q as [_ Q]; discriminate|]. intros H. exfalso. assert (Q : c :: z = []) by (apply Eq; intros; apply H; auto; left; auto). discriminate.
  Qed.

  Definition Mutual (p r : nat) : Prop := In r (nbrs (L p)) <-> In p (nbrs (L r)).
  Lemma talking_ok procs : (forall p, In p procs -> p < n) -> forall x, (forall r, r < n -> x r = [] \/ x r = dont_agree) -> exists x', Together n (fun r => talking r (nbrs (L r)) procs (x r)) (fun r => Ok (x' r)) /\
    forall r, r < n -> (x' r = [] \/ x' r = dont_agree) /\ (x' r = [] <-> x r = [] /\ forall p, In p procs -> nbrs (L p) <> [] -> Mutual p r).
  Proof.
    induction procs as [|p procs IH]; intros Hp x Hx.
    - exists x. split; [apply t_ret; auto|]. intros r Lr. split; auto. split; [intros ->; split; auto; intros p []|tauto].
    - assert (Lp : p < n) by (apply Hp; left; auto). destruct (sa_size _ (SA p Lp)) as (B1 & _ & _). destruct (nbrs (L p)) as [|a l] eqn:En.
      + destruct (IH ltac:(intros; apply Hp; right; auto) x Hx) as (x' & T & H). exists x'. split.
        * cbn [talking]. eapply t_bcast; [exact Lp|intros r Lr; reflexivity|reflexivity|]. cbn beta match. rewrite En. exact T.
        * intros r Lr. destruct (H r Lr) as [H1 H2]. split; auto. rewrite H2. split; intros [A B]; split; auto; [intros q [<-|I] Ne; auto; congruence|intros q I; apply B; right; auto].
      + rewrite <- En in *. set (x1 := fun r => if Bool.eqb (okv false (binary_search (nbrs (L p)) r)) (okv false (binary_search (nbrs (L r)) p)) then x r else dont_agree).
        assert (H1 : forall r, r < n -> exists b1 b2, binary_search (nbrs (L p)) r = Ok b1 /\ binary_search (nbrs (L r)) p = Ok b2 /\ x1 r = (if Bool.eqb b1 b2 then x r else dont_agree) /\ (x1 r = [] \/ x1 r = dont_agree) /\ (x1 r = [] <-> x r = [] /\ Mutual p r)).
        { intros r Lr. destruct (search_ok (nbrs (L p)) r (sa_sorted _ (SA p Lp))) as (b1 & E1 & I1). destruct (search_ok (nbrs (L r)) p (sa_sorted _ (SA r Lr))) as (b2 & E2 & I2). exists b1, b2. unfold x1. rewrite E1, E2. cbn [okv]. split; auto. split; auto. split; auto. unfold Mutual. rewrite <- I1, <- I2.
          destruct b1, b2; cbn [Bool.eqb]; split; auto; (split; [|intros [? ?]]); try tauto; try discriminate; try (intros ->; split; tauto); intuition discriminate. }
        destruct (IH ltac:(intros; apply Hp; right; auto) x1) as (x' & T & H). { intros r Lr. destruct (H1 r Lr) as (b1 & b2 & _ & _ & _ & E & _). auto. }
        exists x'. split.
        * cbn [talking]. eapply t_bcast; [exact Lp|intros r Lr; reflexivity|reflexivity|]. cbn beta match. rewrite (usize_small (nbrs (L p))) by auto. replace (0 <? Z.of_nat (length (nbrs (L p))))%Z with true by (symmetry; apply Z.ltb_lt; rewrite En; cbn; lia). rewrite Nat2Z.id.
          eapply t_bcast; [exact Lp|intros r Lr; reflexivity|cbn beta; rewrite <- (map_length Z.of_nat (nbrs (L p))), resize_same; auto|]. cbn beta. replace (resize 0%Z (length (nbrs (L p))) (map Z.of_nat (nbrs (L p)))) with (map Z.of_nat (nbrs (L p))) by (rewrite <- (map_length Z.of_nat (nbrs (L p))) at 1; rewrite resize_same; auto). rewrite map_map. rewrite (map_ext _ (fun x => x)) by (intros; apply Nat2Z.id). rewrite map_id.
          eapply together_ext; [|exact T]. intros r Lr. cbn beta. destruct (H1 r Lr) as (b1 & b2 & -> & -> & -> & _). reflexivity.
        * intros r Lr. destruct (H r Lr) as [A1 A2]. split; auto. rewrite A2. destruct (H1 r Lr) as (_ & _ & _ & _ & _ & _ & ->). split.
          -- intros [[X M] B]. split; auto. intros q [<-|I] Ne; auto.
          -- intros [X B]. split; [split; auto; apply B; [left; auto|rewrite En; discriminate]|]. intros; apply B; auto. right. auto.
  Qed.

  Lemma check_ok : exists y, Together n (fun r => checkDistributed t key txt n r (hashed (L r)) (nbrs (L r)) (lists (L r))) (fun _ => Ok y) /\ (y = bytes "ok" <-> Good key n L).
  Proof.
    assert (Sq : forall p, In p (seq 0 n) -> p < n) by (intros p I; apply in_seq in I; lia). assert (Qs : forall p, p < n -> In p (seq 0 n)) by (intros; apply in_seq; lia).
    destruct (talking_ok (seq 0 n) Sq (fun _ => []) ltac:(auto)) as (x & Tx & Hx). destruct (lowest_ex n x) as [z Lz].
    assert (Tz : Together n (fun r => reduceToMaxString (x r) r n) (fun _ => Ok z)). { apply reduce_ok; auto. intros r Lr. destruct (Hx r Lr) as [[->| ->] _]; cbn; lia. }
    assert (Zn : z = [] <-> forall r s, r < n -> s < n -> In s (nbrs (L r)) -> In r (nbrs (L s))).
    { rewrite (lowest_nil n x z Lz). split.
      - intros H r s Lr Ls I. apply (proj2 (proj1 (proj2 (Hx s Ls)) (H s Ls)) r (Qs r Lr)); auto. intros Q. rewrite Q in I. destruct I.
      - intros H r Lr. apply (proj2 (Hx r Lr)). split; auto. intros p Ip _. split; intros I; apply H; auto. }
    assert (Zd : z = [] \/ z = dont_agree). { destruct Lz as [[-> _]|(r & Lr & _ & -> & _)]; auto. destruct (Hx r Lr) as [? _]. auto. }
    destruct (consistent_ok t key txt n L Np Txt SA RD (bytes "Node") (seq 0 n) Sq) as (u & Tu & Hu & Fu).
    destruct (checkFound_ok (bytes "Node") (seq 0 n) Sq) as (w & Tw & Hw & Fw).
    assert (Gu : z = [] -> u = [] <-> forall r s ks ks', r < n -> s < n -> ListsFor key (L r) s ks -> ListsFor key (L s) r ks' -> ks = ks').
    { intros Z0. pose proof (proj1 Zn Z0) as Mu. rewrite Hu. split.
      - intros H r s ks ks' Lr Ls (i & l & hs & Ei & El & F & ->) K'. destruct (H r i s (Qs r Lr) Ls l hs Ei El F) as [_ A]. symmetry. apply A. auto.
      - intros H p k r Ip Lr l hs Ek El F. split; [apply Mu; auto; eapply nth_error_In; eauto|]. intros ks K. symmetry. apply (H p r); auto. exists k, l, hs. auto. }
    assert (Gw : w = [] <-> (forall r s, r < n -> s < n -> r <> s -> FoundOK s r)). { rewrite Hw. split; intros H; intros; apply H; auto. }
    exists (if isnil z then if isnil u then if isnil w then bytes "ok" else w else u else z). split.
    - unfold checkDistributed. eapply (together_bind n (fun r => talking r (nbrs (L r)) (seq 0 n) []) x); [exact Tx|]. cbn beta. eapply (together_bind n (fun r => reduceToMaxString (x r) r n) (fun _ => z)); [exact Tz|]. cbn beta.
      destruct z as [|c z]; cbn [isnil]; [|apply t_ret; intros; reflexivity].
      eapply (together_bind n (fun r => checkConsistent t key txt n r (hashed (L r)) (nbrs (L r)) (lists (L r)) (bytes "Node") (seq 0 n) []) (fun _ => u)); [exact Tu|]. cbn beta.
      destruct u as [|c u]; cbn [isnil]; [|apply t_ret; intros; reflexivity].
      eapply (together_bind n (fun r => checkFound t key txt n r (hashed (L r)) (nbrs (L r)) (lists (L r)) (bytes "Node") (sorted r) true (seq 0 n) []) (fun _ => w)); [exact Tw|]. cbn beta. apply t_ret. auto.
    - split.
      + intros E. destruct z as [|c z]; cbn [isnil] in E; [|destruct Zd as [Q|Q]; rewrite Q in E; discriminate]. destruct u as [|c u]; cbn [isnil] in E; [|destruct Fu as [Q|[q Q]]; rewrite Q in E; discriminate]. destruct w as [|c w]; cbn [isnil] in E; [|destruct Fw as [Q|[q Q]]; rewrite Q in E; discriminate].
        constructor; [apply Zn; auto|apply Gu; auto| |].
        * intros r s Lr Ls N. apply (proj1 Gw eq_refl r s Lr Ls N).
        * intros r s ks c Lr Ls N K. apply (proj1 Gw eq_refl r s Lr Ls N). auto.
      + intros [G1 G2 G3 G4]. assert (Z0 : z = []) by (apply Zn; auto). rewrite Z0. cbn [isnil]. replace u with (@nil Z) by (symmetry; apply Gu; auto). cbn [isnil]. replace w with (@nil Z); [auto|]. symmetry. apply Gw. intros r s Lr Ls N. split; [apply G3; auto|intros ks c K; apply (G4 r s); auto].
  Qed.
End Found.
