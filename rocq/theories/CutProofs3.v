(* Lemmas for CutProps.v: one cut of the linked list. *)
From Verif Require Import Base BaseFacts Plane PLCSpec MeshEditorModel CutModel CutSpec CutProofs CutProofs2.
From Coq Require Import QArith Lqa.
Local Open Scope nat_scope.

Lemma way_frame link link' l : (forall i, In i (removelast l) -> link' i = link i) -> Way link l -> Way link' l.
Proof.
  induction l as [|a [|b l] IH]; auto. intros H [A B]. split; [rewrite H; auto; left; auto|]. apply IH; auto. intros i Hi. apply H. right; auto.
Qed.
Lemma last_map {A B} (f : A -> B) l d : last (map f l) (f d) = f (last l d).
Proof. induction l as [|a l IH]; auto. destruct l; auto. Qed.
Lemma last_rev {A} (l : list A) d : last (rev l) d = hd d l.
Proof. destruct l; auto. cbn [rev hd]. apply last_last. Qed.
Lemma held_hd s os vs j w : Forall2 (At s) os vs -> At s j w -> At s (hd j os) (hd w vs).
Proof. intros H K. inversion H; subst; auto. Qed.
Lemma held_last s os vs j w : Forall2 (At s) os vs -> At s j w -> At s (last os j) (last vs w).
Proof. intros H K. induction H as [|i v os vs A H IH]; auto. destruct H; auto. Qed.
Lemma f2_rev {A B} (R : A -> B -> Prop) l m : Forall2 R l m -> Forall2 R (rev l) (rev m).
Proof. induction 1; cbn; [constructor|]. apply Forall2_app; auto. Qed.
Lemma last_in_cons {A} (a : A) l : In (last l a) (a :: l).
Proof. revert a. induction l as [|b l IH]; intros a; [left; auto|]. right. destruct l as [|c l]; [left; auto|]. change (In (last (c :: l) a) (b :: c :: l)). assert (E : last (c :: l) a = last (c :: l) b) by (clear; revert c; induction l as [|d l IH]; intros c; auto; apply (IH d)). rewrite E. apply IH. Qed.

Lemma last_cons {A} (a : A) l d : last (a :: l) d = last l a.
Proof. revert a d. induction l as [|b l IH]; intros a d; auto. change (last (b :: l) d = last (b :: l) a). rewrite !IH. auto. Qed.

Lemma nd_generic (up : nat) ob k oa : NoDup (up :: ob ++ k ++ oa) -> NoDup k /\ (forall i, In i k -> i <> up /\ ~ In i ob /\ ~ In i oa) /\ NoDup (up :: ob ++ rev oa).
Proof.
    intros ND. inversion ND as [|? ? A B]; subst. split; [|split].
    - clear -B. induction ob; [|inversion B; auto]. cbn [app] in B. induction oa as [|a l IH] using rev_ind; [rewrite app_nil_r in B; auto|]. rewrite app_assoc in B. apply NoDup_remove_1 in B. rewrite app_nil_r in B. auto.
    - intros i H. split; [intros ->; apply A, in_or_app; right; apply in_or_app; auto|]. clear -B H. split.
      + intros K. induction ob as [|a l IH]; [destruct K|]. cbn [app] in B. inversion B as [|? ? C D]; subst. destruct K as [K|K]; [subst; apply C, in_or_app; right; apply in_or_app; auto|auto].
      + intros K. apply in_split in K. destruct K as (l1 & l2 & E). rewrite E in B. rewrite !app_assoc in B. apply NoDup_remove_2 in B. apply B. rewrite <- !app_assoc. apply in_or_app. right. apply in_or_app. auto.
    - constructor.
      + intros K. apply A. apply in_app_or in K. rewrite <- in_rev in K. apply in_or_app. rewrite in_app_iff. tauto.
      + assert (NoDup (ob ++ oa)). { clear -B. assert (P : Permutation.Permutation (ob ++ k ++ oa) (k ++ (ob ++ oa))) by (rewrite !app_assoc; apply Permutation.Permutation_app_tail, Permutation.Permutation_app_comm). apply (Permutation.Permutation_NoDup P) in B. clear P. induction k; auto. inversion B; auto. }
        apply (Permutation.Permutation_NoDup (Permutation.Permutation_app_head ob (Permutation.Permutation_rev oa))). auto.
  Qed.


Lemma f2_in {A B} (R R' : A -> B -> Prop) l m : Forall2 R l m -> (forall i v, In i l -> R i v -> R' i v) -> Forall2 R' l m.
Proof. induction 1 as [|i v l m A0 F IH]; intros H; constructor; [apply H; auto; left; auto|]. apply IH. intros j w J. apply H. right; auto. Qed.

Section S.
  Variable (x y rsq : Q) (p_id : Z).
  Notation u := (vpos x y rsq).
  Variable (s : vcell) (up : nat) (ob kt oa : list nat) (k1 : nat) (vup vk1 : corner) (vob vkt voa : list corner).
  Let k := k1 :: kt. Let vk := vk1 :: vkt. Let c := up :: ob ++ k ++ oa. Let kn := last kt k1. Let vkn := last vkt vk1.
  Hypothesis ND : NoDup c.
  Hypothesis ALL : forall i, In i c <-> i < vp s.
  Hypothesis RD : Round (vnext s) (vprev s) c.
  Hypothesis Hup : At s up vup.
  Hypothesis Hob : Forall2 (At s) ob vob.
  Hypothesis Hk1 : At s k1 vk1.
  Hypothesis Hkt : Forall2 (At s) kt vkt.
  Hypothesis Hoa : Forall2 (At s) oa voa.
  Hypothesis Oup : (cut_tol < u vup)%Q.
  Hypothesis Oob : Forall (fun v => cut_tol < u v)%Q vob.
  Hypothesis Ooa : Forall (fun v => cut_tol < u v)%Q voa.
  Hypothesis Ik : Forall (fun v => u v <= cut_tol)%Q vk.

  Lemma k_split : exists k', k = k' ++ [kn].
  Proof. unfold k, kn. clear. generalize k1. induction kt as [|a l IH]; intros z; [exists []; auto|]. destruct (IH a) as (k' & E). exists (z :: k'). rewrite last_cons. cbn [app]. f_equal. exact E. Qed.
  Lemma path_all : Path (vnext s) (vprev s) (up :: ob ++ k ++ oa ++ [up]).
  Proof. pose proof RD as R. unfold Round in R. unfold c in R. cbn [firstn] in R. rewrite <- app_comm_cons, <- !app_assoc in R. exact R. Qed.
  Lemma path1 : Path (vnext s) (vprev s) (up :: ob ++ [k1]).
  Proof. pose proof path_all as P. change (up :: ob ++ k ++ oa ++ [up]) with ((up :: ob) ++ k1 :: (kt ++ oa ++ [up])) in P. apply path_app in P. apply P. Qed.
  Lemma path2 : Path (vnext s) (vprev s) k.
  Proof. pose proof path_all as P. change (up :: ob ++ k ++ oa ++ [up]) with ((up :: ob) ++ k1 :: (kt ++ oa ++ [up])) in P. apply path_app in P. destruct P as [_ P]. destruct k_split as (k' & E). change (k1 :: kt ++ oa ++ [up]) with (k ++ oa ++ [up]) in P. rewrite E in P |- *. rewrite <- app_assoc in P. cbn [app] in P. apply path_app in P. apply P. Qed.
  Lemma path3 : Path (vnext s) (vprev s) (kn :: oa ++ [up]).
  Proof. pose proof path_all as P. change (up :: ob ++ k ++ oa ++ [up]) with ((up :: ob) ++ k1 :: (kt ++ oa ++ [up])) in P. apply path_app in P. destruct P as [_ P]. destruct k_split as (k' & E). change (k1 :: kt ++ oa ++ [up]) with (k ++ oa ++ [up]) in P. rewrite E in P. rewrite <- app_assoc in P. cbn [app] in P. apply path_app in P. apply P. Qed.
  Lemma kn_in : In kn k.
  Proof. apply last_in_cons. Qed.
  Lemma nd_parts : NoDup k /\ (forall i, In i k -> i <> up /\ ~ In i ob /\ ~ In i oa) /\ NoDup (up :: ob ++ rev oa).
  Proof. exact (nd_generic up ob k oa ND). Qed.

  (* the second half, from the new corner e, if there is one *)
  Lemma tail_ok s1 e ev : length e <= 1 -> (forall i, i < vp s1 <-> In i c \/ In i e) -> (forall i, In i e -> ~ In i c) ->
    (forall i, In i c -> vx s1 i = vx s i) -> (forall i, In i c -> vnext s1 i = vnext s i) -> (forall i, In i c -> i <> k1 -> vprev s1 i = vprev s i) ->
    (e <> [] -> Path (vnext s1) (vprev s1) (e ++ [k1])) -> Forall2 (At s1) e ev ->
    exists s', (do up3 <- peek (vprev s1) up; do u3 <- vpos_at x y rsq s1 up3;
      do r <- sweep x y rsq s1 (vprev s1) k1 (vp s1) (up :: ob) (u vup) up3 u3;
      let '(stk, l, up3, u3, _) := r in
      do s <- (if Qlt_bool cut_tol u3 then
          do v <- peek (vx s1) up3;
          Ok (mkV (vp s1) (poke (vx s1) up3 (Some (fst v, p_id))) (poke (vnext s1) up3 (Some (hd k1 e))) (poke (vprev s1) (hd k1 e) (Some up3)))
        else
          do lp <- peek (vnext s1) up3; do a <- peek (vx s1) lp; do b <- peek (vx s1) up3;
          let p := vp s1 in
          Ok (mkV (S p) (poke (vx s1) p (Some (cross_at (fst b) (fst a) u3 l, p_id)))
            (poke (poke (vnext s1) p (Some (hd k1 e))) up3 (Some p)) (poke (poke (vprev s1) (hd k1 e) (Some p)) p (Some up3))));
      do s <- drop s stk;
      Ok (true, s)) = Ok (true, s') /\ CellOf s' (vk ++ (crossing x y rsq vkn (hd vup voa), p_id) :: ev).
  Proof.
    intros Le AL DI SX SN SP PE He. destruct nd_parts as (NK & DK & NS). pose proof kn_in as Ikn. destruct k_split as (k' & Ek).
    assert (Cup : In up c) by (left; auto). assert (Ck : forall i, In i k -> In i c) by (intros i H; right; apply in_or_app; right; apply in_or_app; auto).
    assert (Coa : forall i, In i oa -> In i c) by (intros i H; right; apply in_or_app; right; apply in_or_app; auto).
    assert (Knup : up <> k1) by (intros K; apply (proj1 (DK k1 (or_introl eq_refl))); auto).
    pose proof (path_back _ _ _ path3) as W. cbn [rev] in W. rewrite rev_app_distr in W. cbn [rev app] in W.
    assert (W1 : Way (vprev s1) (up :: rev oa ++ [kn])).
    { revert W. apply way_frame. intros i Hi. change (up :: rev oa ++ [kn]) with ((up :: rev oa) ++ [kn]) in Hi. rewrite removelast_last in Hi. destruct Hi as [Hi|Hi]; [subst; apply SP; auto|]. rewrite <- in_rev in Hi. apply SP; auto. intros ->. apply (DK k1 (or_introl eq_refl)); auto. }
    assert (E3 : vprev s1 up = Some (hd kn (rev oa))) by (destruct (rev oa); destruct W1 as [W1 _]; exact W1).
    assert (A1 : forall i v, In i c -> At s i v -> At s1 i v) by (intros i v H K; unfold At in *; rewrite SX; auto).
    assert (Akn : At s1 kn vkn) by (apply A1; [apply Ck; auto|apply held_last; auto]).
    assert (Aoa : Forall2 (At s1) oa voa) by (apply (f2_in _ _ _ _ Hoa); intros i v H; apply A1; auto).
    unfold peek at 1. rewrite E3. cbn [bind]. rewrite (pos_at x y rsq s1 _ _ (held_hd s1 (rev oa) (rev voa) kn vkn (f2_rev _ _ _ Aoa) Akn)). cbn [bind].
    assert (Ukn : (u vkn <= cut_tol)%Q). { unfold vkn. pose proof (last_in_cons vk1 vkt) as H. rewrite Forall_forall in Ik. apply Ik. exact H. }
    destruct (sweep_ok x y rsq s1 (vprev s1) k1 (rev oa) (rev voa) (vp s1) (up :: ob) (u vup) (hd kn (rev oa)) kn vkn (f2_rev _ _ _ Aoa) Akn ltac:(apply Forall_rev; auto) Ukn (way_tl _ _ _ W1)) as (b & Es & _); auto.
    { rewrite rev_length. assert (H : length c <= length (seq 0 (vp s))) by (apply NoDup_incl_length; auto; intros i Hi; apply in_seq; apply ALL in Hi; lia). rewrite seq_length in H.
      assert (H2 : vp s <= vp s1). { destruct (vp s) as [|q] eqn:Eq; [lia|]. assert (K : In q c) by (apply ALL; lia). assert (q < vp s1) by (apply AL; auto). lia. }
      unfold c in H. cbn [length] in H. rewrite !app_length in H. lia. }
    { rewrite <- in_rev. apply (DK k1 (or_introl eq_refl)). }
    rewrite Es. cbn [bind]. rewrite (proj2 (qlt_f _ _) Ukn).
    assert (En : vnext s1 kn = Some (hd up oa)). { rewrite SN by (apply Ck; auto). pose proof path3 as P. destruct oa; destruct P as [P _]; exact P. }
    assert (Ao1 : At s1 (hd up oa) (hd vup voa)) by (apply held_hd; auto).
    unfold peek at 1. rewrite En. cbn [bind]. unfold peek at 1. rewrite Ao1. cbn [bind]. unfold peek at 1. rewrite Akn. cbn [bind].
    rewrite last_map, last_rev. set (P := vp s1).
    assert (Pc : ~ In P c /\ ~ In P e) by (split; intros K; assert (P < vp s1) by (apply AL; auto); unfold P in *; lia). destruct Pc as [Pc Pe].
    assert (Kc : forall i, In i k -> i <> P) by (intros i H ->; apply Pc, Ck, H).
    match goal with |- context [drop ?s2 ?st] => destruct (drop_ok s2 st (k ++ P :: e) (vk ++ (crossing x y rsq vkn (hd vup voa), p_id) :: ev)) as (s' & Ed & Hc) end; cbn [vp vx vnext vprev].
    + assert (NE : NoDup (P :: e)). { constructor; auto. destruct e as [|q [|q' e]]; [constructor|constructor; [intros []|constructor]|cbn in Le; lia]. }
      assert (DE : forall i, In i k -> ~ In i (P :: e)). { intros i H [K|K]; [apply (Kc i H); auto|]. apply (DI i K), Ck, H. }
      clear -NK NE DE. induction k as [|a l IH]; auto. cbn [app]. inversion NK; subst. constructor; [|apply IH; auto; intros; apply DE; right; auto]. intros K. apply in_app_or in K. destruct K as [K|K]; [auto|]. apply (DE a); auto. left; auto.
    + rewrite app_length. unfold k. cbn [length]. lia.
    + exact NS.
    + intros i Hi K. apply in_app_or in K. assert (Ic : In i c) by (change (In i (up :: ob ++ rev oa)) in Hi; destruct Hi as [Hi|Hi]; [left; auto|]; apply in_app_or in Hi; rewrite <- in_rev in Hi; destruct Hi; [right; apply in_or_app; auto|auto]).
      destruct K as [K|[K|K]]; [|subst; auto|apply (DI i K); auto]. destruct (DK i K) as (D1 & D2 & D3). destruct Hi as [Hi|Hi]; [auto|]. apply in_app_or in Hi. rewrite <- in_rev in Hi. tauto.
    + intros i. rewrite in_app_iff. cbn [In]. change (In i ((up :: ob) ++ rev oa)) with (up = i \/ In i (ob ++ rev oa)). rewrite in_app_iff, <- in_rev. split.
      * intros H. destruct (Nat.eq_dec i P) as [->|N]; [auto|]. assert (H1 : i < vp s1) by (unfold P in *; lia). apply AL in H1. unfold c in H1. cbn [In] in H1. rewrite !in_app_iff in H1. tauto.
      * intros H. assert (H1 : i = P \/ In i c \/ In i e) by (unfold c; cbn [In]; rewrite !in_app_iff; intuition). destruct H1 as [->|H1]; [lia|]. assert (i < vp s1) by (apply AL; auto). unfold P. lia.
    + unfold Round. assert (Fi : firstn 1 (k ++ P :: e) = [k1]) by reflexivity. rewrite Fi, <- app_assoc. cbn [app]. rewrite Ek, <- app_assoc. cbn [app]. apply path_app. rewrite <- Ek. split.
      * generalize path2. apply path_frame.
        -- intros i Hi. rewrite Ek, removelast_last in Hi. assert (Ii : In i k) by (rewrite Ek; apply in_or_app; auto). rewrite !poke_other; auto. intros ->. rewrite Ek in NK. apply NoDup_remove_2 in NK. rewrite app_nil_r in NK. auto.
        -- intros i Hi. unfold k in Hi. cbn [tl] in Hi. assert (Ii : In i k) by (right; auto). assert (i <> k1) by (intros ->; unfold k in NK; inversion NK; auto).
           rewrite poke_other by auto. rewrite poke_other; [apply SP; auto|]. destruct e as [|q e]; [auto|]. cbn [hd]. intros ->. apply (DI q); [left; auto|auto].
      * assert (PK : P <> kn) by (intros K; apply (Kc kn); auto).
        destruct e as [|q [|q' e]]; [| |cbn in Le; lia].
        -- cbn [hd app Path]. assert (P <> k1) by (intros K; apply (Kc k1); auto; left; auto). rewrite poke_same. split; auto. rewrite poke_same. split; auto. rewrite poke_other, poke_same by auto. split; auto. rewrite poke_other, poke_same by auto. auto.
        -- destruct (PE ltac:(discriminate)) as (E1 & E2 & _). cbn [hd app Path]. assert (Pq : P <> q) by (intros K; apply Pe; left; auto). assert (qc : ~ In q c) by (apply DI; left; auto). assert (qk : q <> kn) by (intros ->; auto). assert (qk1 : q <> k1) by (intros K; apply qc, Ck; left; auto).
           assert (Pk1 : P <> k1) by (intros K; apply (Kc k1); auto; left; auto).
           rewrite poke_same. split; auto. rewrite poke_same. split; auto. rewrite poke_other, poke_same by auto. split; auto. rewrite poke_other, poke_same by auto. split; auto. rewrite !poke_other by auto. auto.
    + unfold Held. assert (HH : forall i v, i <> P -> At s1 i v -> poke (vx s1) P (Some (cross_at (fst vkn) (fst (hd vup voa)) (u vkn) (u (hd vup voa)), p_id)) i = Some v) by (intros i v N K; rewrite poke_other; auto).
      cbn [vx]. apply Forall2_app.
      * assert (Fk : Forall2 (At s) k vk) by (constructor; auto). apply (f2_in _ _ _ _ Fk). intros i v H K. apply HH; auto.
      * constructor; [unfold crossing; rewrite poke_same; auto|]. apply (f2_in _ _ _ _ He). intros i v H K. apply HH; auto. intros ->. auto.
    + exists s'. split; auto. change ((up :: ob) ++ rev oa) with (up :: ob ++ rev oa) in *. rewrite Ed. cbn [bind]. auto.
  Qed.

  Lemma cut_ok : exists s', nplane_cut x y rsq p_id s (u vup) up = Ok (true, s') /\ CellOf s' (left_over x y rsq p_id (hd vup voa) (last vob vup) vk1 vkn vk).
  Proof.
    destruct nd_parts as (NK & DK & NS). pose proof path1 as P1. pose proof (path_way _ _ _ P1) as W.
    assert (Cup : In up c) by (left; auto). assert (Ck1 : In k1 c) by (right; apply in_or_app; right; left; auto).
    assert (Cob : forall i, In i ob -> In i c) by (intros i H; right; apply in_or_app; auto).
    assert (Knup : up <> k1) by (intros K; apply (proj1 (DK k1 (or_introl eq_refl))); auto).
    unfold nplane_cut. assert (E2 : vnext s up = Some (hd k1 ob)) by (destruct ob; destruct W as [W _]; exact W). unfold peek at 1. rewrite E2. cbn [bind].
    rewrite (pos_at x y rsq s _ _ (held_hd _ _ _ _ _ Hob Hk1)). cbn [bind].
    assert (Uk1 : (u vk1 <= cut_tol)%Q) by (inversion Ik; auto).
    destruct (sweep_ok x y rsq s (vnext s) up ob vob (vp s) [up] (u vup) (hd k1 ob) k1 vk1 Hob Hk1 Oob Uk1 (way_tl _ _ _ W)) as (b & Es & Hb); auto.
    { assert (H : length c <= length (seq 0 (vp s))) by (apply NoDup_incl_length; auto; intros i Hi; apply in_seq; apply ALL in Hi; lia). rewrite seq_length in H. unfold c in H. cbn [length] in H. rewrite !app_length in H. lia. }
    { intros K. inversion NS as [|? ? A B]; subst. apply A, in_or_app; auto. }
    rewrite Es, (Hb Knup). cbn [bind]. rewrite last_map. unfold left_over. change ([up] ++ ob) with (up :: ob). destruct (Qlt_bool (- cut_tol) (u vk1)) eqn:C.
    - cbn [bind]. apply (tail_ok s [] []); auto; try (intros; congruence). intros i. rewrite <- ALL. cbn. tauto.
    - assert (Ep : vprev s k1 = Some (last ob up)).
      { clear -P1. revert P1. generalize up. induction ob as [|o l IH]; intros a P; [destruct P as (_ & P & _); exact P|]. destruct P as (_ & _ & P). rewrite last_cons. apply IH. exact P. }
      unfold peek at 1. rewrite Ep. cbn [bind]. unfold peek at 1. rewrite (held_last _ _ _ _ _ Hob Hup). cbn [bind]. unfold peek at 1. rewrite Hk1. cbn [bind].
      set (P := vp s). assert (Pc : forall i, In i c -> i <> P) by (intros i Hi ->; apply ALL in Hi; unfold P in Hi; lia).
      match goal with |- context [sweep x y rsq ?s0] => apply (tail_ok s0 [P] [(crossing x y rsq vk1 (last vob vup), snd (last vob vup))]) end; cbn [vp vx vnext vprev length hd]; auto.
      + intros i. rewrite ALL. cbn. unfold P. lia.
      + intros i [Hi|[]] K. apply (Pc i K); auto.
      + intros i Hi. rewrite poke_other; auto.
      + intros i Hi. rewrite poke_other; auto.
      + intros i Hi N. rewrite poke_other; auto.
      + intros _. cbn [app Path]. rewrite poke_same. split; auto. rewrite poke_same. auto.
      + constructor; [unfold At; cbn [vx]; rewrite poke_same; auto|constructor].
  Qed.
End S.
