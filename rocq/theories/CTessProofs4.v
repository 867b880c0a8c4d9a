From Verif Require Import Base BaseFacts SerializeModel MeshModel CTessModel CTessSpec CTessProofs CTessProofs2 CTessProofs3.
From Coq Require Import Lia.

Section Life.
  Context {V : Type} (zn : bool) (D : nat).
  Implicit Types w : world V.
  Hypothesis D23 : D = 2 \/ D = 3.

  Definition Fresh w : Prop := ptrs w FaceCells = Undef /\ (forall f, f <> FaceCells -> ptrs w f = Null) /\ mem w = [Some BStruct] /\ self w = 0.
  Lemma new_fresh : exists w, tessNew (V := V) D = Ok w /\ Fresh w.
  Proof.
    unfold tessNew. assert ((D =? 2) || (D =? 3) = true) as -> by (destruct D23 as [-> | ->]; auto). cbn [assert bind]. eexists. split; [reflexivity|].
    repeat split; auto. intros f F. cbn. destruct f; tauto.
  Qed.
  Lemma skip_null w f b : ptrs w f = Null -> ifSet w f b = Ok w.
  Proof. intros E. unfold ifSet. rewrite E. auto. Qed.
  Lemma fresh_clear w : Fresh w -> tessClear w = UB.
  Proof.
    intros (U & N & _). unfold tessClear. rewrite !(skip_null w) by (apply N; discriminate). cbn [bind]. rewrite !(skip_null w) by (apply N; discriminate). cbn [bind].
    rewrite !(skip_null w) by (apply N; discriminate). cbn [bind]. rewrite !(skip_null w) by (apply N; discriminate). cbn [bind]. rewrite !(skip_null w) by (apply N; discriminate). cbn [bind].
    unfold ifSet at 1. rewrite U. reflexivity.
  Qed.
  Lemma stale_clear w R : Stale w R -> tessClear w = UB.
  Proof.
    intros [SN SD SU (a & SF) SO]. unfold tessClear.
    assert (N : forall f, ~ Stays f -> ptrs w f = Null) by auto.
    rewrite (skip_null w Nodes) by (apply N; unfold Stays; intuition discriminate). cbn [bind].
    rewrite (skip_null w CellFaces) by (apply N; unfold Stays; intuition discriminate). cbn [bind].
    rewrite (skip_null w FaceNodes) by (apply N; unfold Stays; intuition discriminate). cbn [bind].
    assert (FD : forall f b, ptrs w f = Ptr b -> freeField w f = UB).
    { intros f b P. unfold freeField. rewrite P. rewrite (free_dead _ b _ SO) by (eapply SD; eauto). reflexivity. }
    assert (G : forall f, ifSet w f (freeField w f) = Ok w \/ ifSet w f (freeField w f) = UB).
    { intros f. unfold ifSet. destruct (ptrs w f) eqn:P; [destruct (SU f P)|left; auto|right]. eapply FD; eauto. }
    destruct (G BoundaryNodes) as [-> | ->]; [cbn [bind]|reflexivity]. destruct (G BoundaryFaces) as [-> | ->]; [cbn [bind]|reflexivity].
    unfold ifSet at 1. rewrite SF. rewrite (FD _ _ SF). reflexivity.
  Qed.
  Lemma free_full w R : Full w R -> exists h, tessFree w = Ok h /\ Own h R.
  Proof.
    intros F. destruct (clear_full w R F) as (w' & E & ST). unfold tessFree. rewrite E. cbn [bind].
    destruct (free_own _ _ _ (stale_own _ _ ST)) as (h & E' & O & _). eauto.
  Qed.
  Definition good (a : @action V) : Prop := match a with Fill t => Shaped D t /\ faces t <> [] | Clear => True end.
  Lemma nonempty_len (t : mesh V) : faces t <> [] -> 0 < length (faces t).
  Proof. destruct (faces t); [congruence|cbn; lia]. Qed.
  Lemma fill_gen w t HL L : good (Fill t) -> Own (mem w) (HL ++ self w :: L) -> HullOwn w HL -> ptrs w NodeCellOffsets = Null ->
    exists w' X, fillC zn D t w = Ok w' /\ Full w' (X ++ L) /\ (HL = [] -> X = []).
  Proof.
    intros [SH NE] O HO NC. destruct (fillC_ok zn D t w (self w :: L) HL) as (w' & HL' & X & E & SE & HO' & O' & XE & C & DF & PT & FC & N1 & N2); auto; [lia|].
    exists w', X. split; auto. split; auto. constructor; auto.
    - apply Forall_forall. intros f F. change (In f ([CellOffsets; CellFaces; FaceOffsets; FaceNodes; SharedNodeOffsets; SharedNodes; SharedFaceOffsets; SharedFaces] ++ [FaceCells])) in F.
      apply in_app_iff in F as [F|[<-|[]]]; [|apply FC, nonempty_len; auto]. rewrite Forall_forall in PT. auto.
    - rewrite N1; auto.
    - exists HL'. split; auto. eapply own_ext; [exact O'|]. intros a. rewrite SE. rewrite !count_occ_app. cbn [count_occ]. rewrite !count_occ_app. destruct (Nat.eq_dec (self w) a); lia.
  Qed.
  Lemma fill_fresh w t : good (Fill t) -> Fresh w -> exists w', fillC zn D t w = Ok w' /\ Full w' [].
  Proof.
    intros G (U & N & M & SE). destruct (fill_gen w t [] []) as (w' & X & E & F & XE); auto.
    - rewrite M, SE. cbn. intros a. cbn. unfold liveb. destruct a as [|a]; cbn; [auto|]. destruct a; auto.
    - left. split; auto. apply N. discriminate.
    - apply N. discriminate.
    - rewrite XE in F by auto. eauto.
  Qed.
  Lemma fill_stale w t R : good (Fill t) -> Stale w R -> exists w', fillC zn D t w = Ok w' /\ Full w' R.
  Proof.
    intros G [SN SD SU SF SO]. destruct (fill_gen w t [] R) as (w' & X & E & F & XE); auto.
    - left. split; auto. apply SN. unfold Stays. intuition discriminate.
    - apply SN. unfold Stays. intuition discriminate.
    - rewrite XE in F by auto. eauto.
  Qed.
  Lemma fill_full w t R : good (Fill t) -> Full w R -> exists w' a R', fillC zn D t w = Ok w' /\ Full w' (a :: R').
  Proof.
    intros G [FD FP NC (HL & HO & O)].
    destruct (fill_gen w t HL (owned w ++ R)) as (w' & X & E & F & XE); auto.
    { eapply own_ext; [exact O|]. intros a. rewrite !count_occ_app. cbn [count_occ]. rewrite !count_occ_app. destruct (Nat.eq_dec (self w) a); lia. }
    inversion FP as [|? ? (a & P) _]; subst. cbv beta in P.
    destruct F as [F1 F2 F3 (HL' & F4 & F5)]. 
    exists w', a, (X ++ addrs (ptrs w Nodes) ++ flat_map (fun f => addrs (ptrs w f)) (skipn 2 simple) ++ R). split; auto. constructor; auto. exists HL'. split; auto.
    assert (OW : owned w = addrs (ptrs w Nodes) ++ a :: flat_map (fun f => addrs (ptrs w f)) (skipn 2 simple)).
    { unfold owned. change simple with (Nodes :: CellOffsets :: skipn 2 simple) at 1. cbn [flat_map]. rewrite P. auto. }
    eapply own_ext; [exact F5|]. intros b. rewrite OW.
    repeat (rewrite ?count_occ_app; cbn [count_occ]).
    destruct (Nat.eq_dec a b), (Nat.eq_dec (self w') b); lia.
  Qed.

  (* the histories *)
  Fixpoint okb (clear : bool) (l : list (@action V)) : bool :=
    match l with
    | [] => negb clear
    | Fill _ :: l => okb false l
    | Clear :: l => if clear then false else okb true l
    end.
  Fixpoint tidyb (clear : bool) (l : list (@action V)) : bool :=
    match l with [] => true | Fill _ :: l => clear && tidyb false l | Clear :: l => tidyb true l end.
  Definition rest w (l : list (@action V)) : res (heap V) := do w <- mfold (act zn D) l w; tessFree w.
  Lemma rest_bind w a l : rest w (a :: l) = do w <- act zn D w a; rest w l.
  Proof. unfold rest. cbn [mfold]. destruct (act zn D w a); auto. Qed.
  Lemma rest_ok l : Forall good l ->
    (forall w R, Full w R -> (okb false l = false -> rest w l = UB) /\
       (okb false l = true -> exists h R', rest w l = Ok h /\ Own h R' /\ (R' = [] <-> R = [] /\ tidyb false l = true))) /\
    (forall w R, Stale w R -> (okb true l = false -> rest w l = UB) /\
       (okb true l = true -> exists h R', rest w l = Ok h /\ Own h R' /\ (R' = [] <-> R = [] /\ tidyb true l = true))).
  Proof.
    induction 1 as [|a l G F [IF IS]].
    - split; intros w R ST; cbn [okb negb tidyb]; split; try discriminate; intros _; unfold rest; cbn [mfold bind].
      + destruct (free_full w R ST) as (h & E & O). exists h, R. split; auto. split; auto. tauto.
      + unfold tessFree. rewrite (stale_clear w R ST). reflexivity.
    - split; intros w R ST; rewrite rest_bind; destruct a as [t|]; cbn [act okb tidyb].
      + destruct (fill_full w t R G ST) as (w' & a & R' & E & F'). rewrite E. cbn [bind andb]. destruct (IF _ _ F') as [A B]. split; auto.
        intros K. destruct (B K) as (h & R2 & E2 & O2 & Q). exists h, R2. split; auto. split; auto. rewrite Q. split; [intros [X _]; discriminate|intros [_ X]; discriminate].
      + destruct (clear_full w R ST) as (w' & E & S'). rewrite E. cbn [bind]. apply IS; auto.
      + destruct (fill_stale w t R G ST) as (w' & E & F'). rewrite E. cbn [bind andb]. apply IF; auto.
      + rewrite (stale_clear w R ST). cbn [bind]. split; auto. discriminate.
  Qed.
  Lemma life_cases l : Forall good l ->
    match l with
    | Fill t :: l' => (okb false l' = false -> life zn D l = UB) /\
        (okb false l' = true -> exists h R, life zn D l = Ok h /\ Own h R /\ (R = [] <-> tidyb false l' = true))
    | _ => life zn D l = UB
    end.
  Proof.
    intros G. destruct new_fresh as (w & E & FR). assert (LR : life zn D l = rest w l). { unfold life, rest. rewrite E. auto. }
    rewrite LR. destruct l as [|[t|] l].
    - unfold rest. cbn. unfold tessFree. rewrite fresh_clear; auto.
    - rewrite rest_bind. inversion G as [|? ? G1 G2]; subst. cbn [act]. destruct (fill_fresh w t G1 FR) as (w' & E' & F). rewrite E'. cbn [bind].
      destruct (proj1 (rest_ok l G2) w' [] F) as [A B]. split; auto. intros K. destruct (B K) as (h & R & E2 & O & Q). exists h, R. split; auto. split; auto. rewrite Q. tauto.
    - rewrite rest_bind. cbn [act]. rewrite fresh_clear by auto. reflexivity.
  Qed.
  Lemma adj_cons (a : @action V) l x y : Adjacent (a :: l) x y <-> (a = x /\ exists l2, l = y :: l2) \/ Adjacent l x y.
  Proof.
    split.
    - intros ([|b l1] & l2 & E); cbn in E; injection E as -> ->; [left; eauto|right; exists l1, l2; auto].
    - intros [[-> (l2 & ->)]|(l1 & l2 & ->)]; [exists [], l2; auto|exists (a :: l1), l2; auto].
  Qed.
  Lemma okb_ok l : forall c a, c = isClear a -> okb c l = true <-> (forall l', a :: l <> l' ++ [Clear]) /\ ~ Adjacent (a :: l) Clear Clear.
  Proof.
    induction l as [|b l IH]; intros c a ->; cbn [okb].
    - destruct a; cbn; split; try discriminate; auto.
      + intros _. split; [intros [|x [|]]; discriminate|]. intros ([|? [|]] & l2 & E); discriminate.
      + intros [H _]. destruct (H []); auto.
    - assert (EN : (forall l', a :: b :: l <> l' ++ [Clear]) <-> (forall l', b :: l <> l' ++ [Clear])).
      { split; [intros H l' E; apply (H (a :: l')); rewrite E; auto|]. intros H [|x l'] E; [discriminate|]. injection E as -> E. apply (H l'); auto. }
      rewrite EN. rewrite adj_cons. destruct b as [t|].
      + rewrite (IH false (Fill t)) by auto. split; intros [A B]; split; auto. intros [[_ (l2 & Q)]|Q]; [discriminate|auto].
      + destruct a as [t|]; cbn [isClear].
        * rewrite (IH true Clear) by auto. split; intros [A B]; split; auto. intros [[Q _]|Q]; [discriminate|auto].
        * split; [discriminate|]. intros [_ B]. destruct B. left. eauto.
  Qed.
  Lemma tidyb_ok l : forall c a, c = isClear a -> tidyb c l = true <-> Tidy (a :: l).
  Proof.
    unfold Tidy. induction l as [|b l IH]; intros c a ->; cbn [tidyb].
    - split; auto. intros _ t t' ([|? [|]] & l2 & E); discriminate.
    - destruct b as [t|].
      + rewrite Bool.andb_true_iff, (IH false (Fill t)) by auto. split.
        * intros [A B] u u' H. apply adj_cons in H as [[-> _]|H]; [discriminate|]. apply (B u u'); auto.
        * intros H. split; [destruct a as [u|]; auto; destruct (H u t); apply adj_cons; left; eauto|]. intros u u' Q. apply (H u u'). apply adj_cons. auto.
      + rewrite (IH true Clear) by auto. split; intros H u u' Q.
        * apply adj_cons in Q as [[_ (l2 & Q)]|Q]; [discriminate|]. apply (H u u'); auto.
        * apply (H u u'). apply adj_cons. auto.
  Qed.
End Life.
