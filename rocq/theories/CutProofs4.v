(* Lemmas for CutProps.v: nplane on the list of corners. *)
From Verif Require Import Base BaseFacts Plane PLCSpec MeshEditorModel CutModel CutSpec CutProofs CutProofs2 CutProofs3.
From Coq Require Import QArith Lqa.
Local Open Scope nat_scope.

Lemma nd_turn {A} (a b : list A) : NoDup (a ++ b) -> NoDup (b ++ a).
Proof. apply Permutation.Permutation_NoDup, Permutation.Permutation_app_comm. Qed.
Lemma cell_turn s a b : CellOf s (a ++ b) -> CellOf s (b ++ a).
Proof.
  intros (c & ND & AL & RO & HE). apply Forall2_app_inv_r in HE. destruct HE as (ca & cb & Ha & Hb & ->). exists (cb ++ ca). split; [apply nd_turn; auto|]. split; [intros i; rewrite <- AL, !in_app_iff; tauto|]. split; [apply round_turn; auto|]. apply Forall2_app; auto.
Qed.
Lemma cell_len s vs c : NoDup c -> (forall i, In i c <-> i < vp s) -> Forall2 (At s) c vs -> length c = vp s.
Proof.
  intros ND AL F. apply Nat.le_antisymm.
  - rewrite <- (seq_length (vp s) 0). apply NoDup_incl_length; auto. intros i H. apply in_seq. apply AL in H. lia.
  - rewrite <- (seq_length (vp s) 0) at 1. apply NoDup_incl_length; [apply seq_NoDup|]. intros i H. apply in_seq in H. apply AL. lia.
Qed.
Lemma f2_split {A B} (R : A -> B -> Prop) a x b vs : Forall2 R (a ++ x :: b) vs -> exists va v vb, vs = va ++ v :: vb /\ Forall2 R a va /\ R x v /\ Forall2 R b vb.
Proof. intros H. apply Forall2_app_inv_l in H. destruct H as (va & v2 & H1 & H2 & ->). inversion H2; subst. eauto 8. Qed.

Section S.
  Variable (x y rsq : Q) (p_id : Z).
  Notation u := (vpos x y rsq).
  (* the search that nplane and plane_intersects begin with *)
  Definition probe {T} (no : res T) (yes : Q -> nat -> res T) (s : vcell) : res T :=
    do u <- vpos_at x y rsq s 0;
    if Qlt_bool u cut_tol then
      do up2 <- peek (vnext s) 0; do u2 <- vpos_at x y rsq s up2;
      do up3 <- peek (vprev s) 0; do u3 <- vpos_at x y rsq s up3;
      do f <- (if Qlt_bool u3 u2 then seek x y rsq s (vnext s) up3 (vp s) up2 u2 else seek x y rsq s (vprev s) up2 (vp s) up3 u3);
      match f with None => no | Some (up, u) => yes u up end
    else yes u 0.
  Lemma probe_ok {T} (no : res T) yes s vs : CellOf s vs -> 3 <= length vs ->
    (probe no yes s = no /\ Forall (fun v => u v < cut_tol)%Q vs) \/
    (exists up v, At s up v /\ up < vp s /\ (cut_tol <= u v)%Q /\ probe no yes s = yes (u v) up).
  Proof.
    intros (c & ND & AL & RO & HE) L3. pose proof (cell_len _ _ _ ND AL HE) as Len. pose proof (Forall2_len _ _ _ HE) as Len2.
    assert (I0 : In 0 c) by (apply AL; lia). apply in_split in I0. destruct I0 as (a & b & Ec). subst c.
    destruct (f2_split _ _ _ _ _ HE) as (va & v0 & vb & Ev & Fa & A0 & Fb). apply round_turn in RO. cbn [app] in RO. apply nd_turn in ND. cbn [app] in ND.
    assert (Fd : Forall2 (At s) (b ++ a) (vb ++ va)) by (apply Forall2_app; auto).
    assert (Ld : 2 <= length (b ++ a)) by (rewrite !app_length in *; cbn [length] in *; lia).
    assert (Ald : forall i, In i (b ++ a) -> i < vp s) by (intros i H; apply AL; rewrite in_app_iff in *; cbn; tauto).
    assert (Lv : length (b ++ a) <= vp s) by (rewrite <- Len, !app_length; cbn; lia).
    assert (Vs : forall P : corner -> Prop, P v0 -> Forall P (vb ++ va) -> Forall P vs) by (intros P H K; subst vs; apply Forall_app in K; apply Forall_app; split; [tauto|constructor; tauto]).
    clear Ev Fa Fb HE AL Len Len2. revert Fd Vs. generalize (vb ++ va). intros vd Fd Vs. remember (b ++ a) as d eqn:Ed. clear Ed.
    destruct d as [|up2 d]; [cbn in Ld; lia|]. destruct (exists_last (l := d)) as (d' & up3 & Ed); [intros ->; cbn in Ld; lia|]. subst d.
    inversion Fd as [|? v2 ? vd' A2 Fd']; subst. apply Forall2_app_inv_l in Fd'. destruct Fd' as (vd2 & vt & Fd2 & Ft & ->). inversion Ft as [|? v3 ? ? A3 Fn]; subst. inversion Fn; subst.
    unfold Round in RO. cbn [firstn] in RO.
    assert (R' : Path (vnext s) (vprev s) ((0 :: up2 :: d') ++ up3 :: [0])) by (cbn [app] in *; rewrite <- app_assoc in RO; exact RO).
    apply path_app in R'. destruct R' as [R1 R2]. destruct R2 as (_ & B3 & _). pose proof R1 as R1'. destruct R1' as (N2 & _ & R3). change (Path (vnext s) (vprev s) ((up2 :: d') ++ [up3])) in R3.
    assert (U2 : up2 <> up3 /\ ~ In up2 d' /\ ~ In up3 d'). { inversion ND as [|? ? _ ND1]; subst. inversion ND1 as [|? ? X ND2]; subst. apply NoDup_remove_2 in ND2. rewrite app_nil_r in ND2. repeat split; auto; intros K; apply X, in_or_app; [right; left; auto|auto]. }
    destruct U2 as (U23 & U2 & U3).
    unfold probe. rewrite (pos_at _ _ _ _ _ _ A0). cbn [bind]. destruct (Qlt_bool (u v0) cut_tol) eqn:C0.
    2: { right. exists 0, v0. apply qlt_f in C0. split; auto. split; [cbn [length] in Lv; lia|]. split; auto. }
    apply qlt_t in C0. unfold peek. rewrite N2. cbn [bind]. rewrite (pos_at _ _ _ _ _ _ A2). cbn [bind]. rewrite B3. cbn [bind]. rewrite (pos_at _ _ _ _ _ _ A3). cbn [bind].
    assert (Lf : length (up2 :: d') <= vp s) by (cbn [length] in *; rewrite app_length in Lv; cbn in Lv; lia).
    destruct (Qlt_bool (u v3) (u v2)) eqn:C1; [apply qlt_t in C1|apply qlt_f in C1].
    - destruct (seek_ok x y rsq s (vnext s) up3 (up2 :: d') (v2 :: vd2) (vp s) up2 v3) as [(i1 & i2 & v & E & NE & Av & Tv & Es)|[Fi Es]]; auto; try discriminate; [apply (path_way _ _ _ R3)|intros [K|K]; auto| |].
      + cbn [hd] in Es. rewrite Es. cbn [bind]. right. exists (hd up3 i2), v. split; auto. split; [|split; auto]. apply Ald. change (up2 :: d' ++ [up3]) with ((up2 :: d') ++ [up3]). rewrite E. destruct i2; [congruence|]. cbn [hd]. apply in_or_app. left. apply in_or_app. right. left; auto.
      + cbn [hd] in Es. rewrite Es. cbn [bind]. left. split; auto. apply Vs; auto. inversion Fi; subst. constructor; auto. apply Forall_app. split; auto. constructor; auto. lra.
    - assert (W : Way (vprev s) ((up3 :: rev d') ++ [up2])) by (pose proof (path_back _ _ _ R3) as W; rewrite rev_app_distr in W; cbn [rev app] in *; exact W).
      destruct (seek_ok x y rsq s (vprev s) up2 (up3 :: rev d') (v3 :: rev vd2) (vp s) up3 v2) as [(i1 & i2 & v & E & NE & Av & Tv & Es)|[Fi Es]]; auto; try discriminate.
      + constructor; auto. apply f2_rev; auto.
      + cbn [length] in *. rewrite rev_length. auto.
      + intros [K|K]; [auto|]. rewrite <- in_rev in K. auto.
      + cbn [hd] in Es. rewrite Es. cbn [bind]. right. exists (hd up2 i2), v. split; auto. split; [|split; auto]. apply Ald. assert (K : In (hd up2 i2) (up3 :: rev d')) by (rewrite E; destruct i2; [congruence|]; cbn [hd]; apply in_or_app; right; left; auto).
        destruct K as [K|K]; [rewrite <- K; right; apply in_or_app; right; left; auto|]. rewrite <- in_rev in K. right. apply in_or_app. auto.
      + cbn [hd] in Es. rewrite Es. cbn [bind]. left. split; auto. apply Vs; auto. inversion Fi as [|? ? X Y]; subst. constructor; [lra|]. apply Forall_app. split; [|constructor; auto]. apply Forall_rev in Y. rewrite rev_involutive in Y. auto.
  Qed.
  Lemma search_ok s vs : CellOf s vs -> 3 <= length vs ->
    (nplane x y rsq p_id s = Ok (true, s) /\ Forall (fun v => u v < cut_tol)%Q vs) \/
    (exists up v, At s up v /\ up < vp s /\ (cut_tol <= u v)%Q /\ nplane x y rsq p_id s = nplane_cut x y rsq p_id s (u v) up).
  Proof. exact (probe_ok (Ok (true, s)) (nplane_cut x y rsq p_id s) s vs). Qed.
  Lemma at_in s c vs i v : Forall2 (At s) c vs -> In i c -> At s i v -> In v vs.
  Proof. induction 1 as [|j w c vs A F IH]; intros H K; [destruct H|]. destruct H as [->|H]; [left; unfold At in *; congruence|right; auto]. Qed.

  Lemma none_ok s vs : CellOf s vs -> 3 <= length vs -> Forall (fun v => u v < cut_tol)%Q vs -> nplane x y rsq p_id s = Ok (true, s).
  Proof.
    intros C L F. destruct (search_ok s vs C L) as [[E _]|(up & v & A & Lu & T & E)]; auto. exfalso. destruct C as (c & ND & AL & RO & HE).
    assert (In v vs) by (apply (at_in s c vs up v); auto; apply AL; auto). rewrite Forall_forall in F. specialize (F v H). lra.
  Qed.
  Lemma gone_ok s vs : CellOf s vs -> 3 <= length vs -> Forall (fun v => cut_tol < u v)%Q vs -> nplane x y rsq p_id s = Ok (false, s).
  Proof.
    intros C L F. destruct (search_ok s vs C L) as [[E K]|(up & v & A & Lu & T & E)].
    - exfalso. destruct vs as [|v vs]; [cbn in L; lia|]. inversion F; subst. inversion K; subst. lra.
    - rewrite E. destruct C as (c & ND & AL & RO & HE). pose proof (cell_len _ _ _ ND AL HE) as Len. pose proof (Forall2_len _ _ _ HE) as Len2. assert (I0 : In up c) by (apply AL; auto). apply in_split in I0. destruct I0 as (a & b & Ec). subst c.
      destruct (f2_split _ _ _ _ _ HE) as (va & v0 & vb & Ev & Fa & A0 & Fb). assert (v0 = v) by (unfold At in *; congruence). subst v0. apply round_turn in RO. cbn [app] in RO. apply nd_turn in ND. cbn [app] in ND.
      assert (Fd : Forall2 (At s) (b ++ a) (vb ++ va)) by (apply Forall2_app; auto). assert (Fo : Forall (fun v => cut_tol < u v)%Q (vb ++ va)) by (subst vs; apply Forall_app in F; destruct F as [F1 F2]; inversion F2; subst; apply Forall_app; auto).
      assert (Ld : 2 <= length (b ++ a) <= vp s) by (rewrite !app_length in *; cbn [length] in *; lia).
      unfold Round in RO. cbn [firstn] in RO. pose proof (path_way _ _ _ RO) as W. cbn [app] in W.
      unfold nplane_cut. assert (E2 : vnext s up = Some (hd up (b ++ a))) by (destruct (b ++ a); destruct W as [W _]; exact W). unfold peek at 1. rewrite E2. cbn [bind].
      rewrite (pos_at _ _ _ _ _ _ (held_hd _ _ _ _ _ Fd A)). cbn [bind].
      destruct (sweep_gone x y rsq s (vnext s) up (b ++ a) (vb ++ va) (vp s) [up] (u v) (hd up (b ++ a)) v) as (r1 & r2 & r3 & r4 & Es); auto; try lia; [exact (way_tl _ _ _ W)|intros K; rewrite K in Ld; cbn in Ld; lia|inversion ND; auto|].
      rewrite Es. cbn [bind]. auto.
  Qed.
  Lemma part_ok s o k v0 : CellOf s (o ++ k) -> 3 <= length (o ++ k) -> o <> [] -> k <> [] -> Forall (fun v => cut_tol < u v)%Q o -> Forall (fun v => u v < cut_tol)%Q k ->
    exists s', nplane x y rsq p_id s = Ok (true, s') /\ CellOf s' (left_over x y rsq p_id (hd v0 o) (last o v0) (hd v0 k) (last k v0) k).
  Proof.
    intros C L No Nk Fo Fk. destruct (search_ok s _ C L) as [[E K]|(up & v & A & Lu & T & E)].
    - exfalso. destruct o as [|w o]; [congruence|]. inversion Fo; subst. inversion K; subst. lra.
    - rewrite E. destruct C as (c & ND & AL & RO & HE). apply Forall2_app_inv_r in HE. destruct HE as (co & ck & Ho & Hk & ->).
      assert (I0 : In up (co ++ ck)) by (apply AL; auto). apply in_app_or in I0. destruct I0 as [I0|I0].
      2: { exfalso. pose proof (at_in s ck k up v Hk I0 A) as Iv. rewrite Forall_forall in Fk. specialize (Fk v Iv). lra. }
      apply in_split in I0. destruct I0 as (oa & ob & ->). destruct (f2_split _ _ _ _ _ Ho) as (voa & v' & vob & -> & Fa & Av & Fb). assert (v' = v) by (unfold At in *; congruence). subst v'.
      apply Forall_app in Fo. destruct Fo as [Foa Fo]. inversion Fo as [|? ? Fv Fob]; subst. destruct k as [|vk1 vkt]; [congruence|]. inversion Hk as [|k1 ? kt ? Hk1 Hkt]; subst.
      assert (Eq : forall T (w : T) l1 l2 l3, (l1 ++ w :: l2) ++ l3 = l1 ++ (w :: l2 ++ l3)) by (intros; rewrite <- app_assoc; auto).
      change (Round (vnext s) (vprev s) ((oa ++ up :: ob) ++ k1 :: kt)) in RO. rewrite Eq in ND, RO. apply nd_turn in ND. apply round_turn in RO. cbn [app] in ND, RO. rewrite <- app_assoc in ND, RO.
      destruct (cut_ok x y rsq p_id s up ob kt oa k1 v vk1 vob vkt voa) as (s' & E' & C'); auto.
      + intros i. rewrite <- AL. repeat (cbn [In]; rewrite ?in_app_iff). tauto.
      + revert Fk. apply Forall_impl. intros w H. apply Qlt_le_weak. exact H.
      + exists s'. split; auto. replace (hd v0 (voa ++ v :: vob)) with (hd v voa) by (destruct voa; auto). assert (El : last (voa ++ v :: vob) v0 = last vob v).
        { clear. induction voa as [|w l IH]; [cbn [app]; apply last_cons|]. cbn [app]. rewrite last_cons. rewrite <- IH. destruct l; cbn [app]; rewrite !last_cons; auto. }
        rewrite El. cbn [hd]. rewrite last_cons. exact C'.
  Qed.
End S.
