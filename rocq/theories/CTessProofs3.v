From Verif Require Import Base BaseFacts SerializeModel MeshModel CTessModel CTessSpec CTessProofs CTessProofs2.
From Coq Require Import Lia.

Section Clear.
  Context {V : Type} (zn : bool).
  Implicit Types w : world V.
  Definition Shrinks (h h' : heap V) : Prop := forall a b, nth_error h' a = Some (Some b) -> nth_error h a = Some (Some b).
  Lemma shrinks_refl h : Shrinks h h.
  Proof. intros a b; auto. Qed.
  Lemma shrinks_trans h h' h'' : Shrinks h h' -> Shrinks h' h'' -> Shrinks h h''.
  Proof. intros A B a b H. apply A, B; auto. Qed.
  Lemma free_shrinks h p h' : free h p = Ok h' -> Shrinks h h'.
  Proof.
    destruct p as [| |a]; cbn; try discriminate; [intros E; injection E as <-; apply shrinks_refl|].
    destruct (nth_error h a) as [[b|]|] eqn:E; try discriminate. intros Q. injection Q as <-. intros c d. rewrite upd_nth.
    destruct ((a =? c) && (c <? length h)); [discriminate|auto].
  Qed.
  (* what one step of clear does: the fields fs are freed, and set to NULL if nulls *)
  Record Did (fs : list pfield) (nulls : bool) (w w' : world V) : Prop := {
    did_self : self w' = self w;
    did_shrinks : Shrinks (mem w) (mem w');
    did_fs : forall f, In f fs -> ptrs w' f = if nulls then Null else ptrs w f;
    did_others : forall f, ~ In f fs -> ptrs w' f = ptrs w f }.
  Definition heads w (fs : list pfield) : list nat := flat_map (fun f => addrs (ptrs w f)) fs.

  Lemma freeField_own w f L : ptrs w f <> Undef -> Own (mem w) (addrs (ptrs w f) ++ L) -> exists h, freeField w f = Ok (setm w h) /\ Own h L /\ Shrinks (mem w) h.
  Proof.
    intros U O. destruct (freep_own _ _ _ U O) as (h & E & O' & _). exists h. unfold freeField. rewrite E. split; auto. split; auto. eapply free_shrinks; eauto.
  Qed.
  (* if (f != NULL) free(f) *)
  Lemma guard_plain w f L : ptrs w f <> Undef -> Own (mem w) (addrs (ptrs w f) ++ L) ->
    exists w', ifSet w f (freeField w f) = Ok w' /\ Own (mem w') L /\ Did [f] false w w'.
  Proof.
    intros U O. destruct (freeField_own w f L U O) as (h & E & O' & SH). unfold ifSet. rewrite E. destruct (ptrs w f) eqn:P; [tauto| |].
    - exists w. split; auto. split; auto. constructor; auto using shrinks_refl.
    - exists (setm w h). split; auto. split; auto. constructor; auto.
  Qed.
  Lemma guard_null w f n L : ptrs w f <> Undef -> Own (mem w) (addrs (ptrs w f) ++ L) ->
    exists w', ifSet w f (do w <- freeField w f; Ok (setp (setn w n 0) f Null)) = Ok w' /\ Own (mem w') L /\ Did [f] true w w'.
  Proof.
    intros U O. destruct (freeField_own w f L U O) as (h & E & O' & SH). unfold ifSet. rewrite E. cbn [bind]. destruct (ptrs w f) eqn:P; [tauto| |].
    - exists w. split; auto. split; auto. constructor; auto using shrinks_refl. intros g [<-|[]]; auto.
    - eexists. split; [reflexivity|]. split; auto. constructor; auto.
      + intros g [<-|[]]. cbn. destruct (pfield_dec f f); tauto.
      + intros g G. cbn. destruct (pfield_dec g f) as [->|]; auto. cbn in G. tauto.
  Qed.
  Lemma guard_pair w f g c K L : f <> g -> isPtr (ptrs w c) -> ptrs w f <> Undef -> ptrs w g <> Undef -> Own (mem w) (addrs (ptrs w f) ++ addrs (ptrs w g) ++ L) ->
    (forall w, mem (K w) = mem w /\ self (K w) = self w /\ ptrs (K w) f = Null /\ ptrs (K w) g = Null /\ forall e, e <> f -> e <> g -> ptrs (K w) e = ptrs w e) ->
    exists w', ifSet w c (do w <- freeField w f; do w <- freeField w g; Ok (K w)) = Ok w' /\ Own (mem w') L /\ Did [f; g] true w w'.
  Proof.
    intros N (a & C) U1 U2 O HK. unfold ifSet. rewrite C. destruct (freeField_own w f _ U1 O) as (h & E & O' & SH). rewrite E. cbn [bind].
    destruct (freeField_own (setm w h) g L U2 O') as (h' & E' & O'' & SH'). rewrite E'. cbn [bind]. eexists. split; [reflexivity|].
    destruct (HK (setm (setm w h) h')) as (K1 & K2 & K3 & K4 & K5). rewrite K1. split; [exact O''|]. constructor; auto.
    - rewrite K1. eapply shrinks_trans; eauto.
    - intros e [<-|[<-|[]]]; auto.
    - intros e I. apply K5; intros ->; apply I; cbn; auto.
  Qed.
  Lemma guard_hull w HL L : HullOwn w HL -> Own (mem w) (HL ++ L) ->
    exists w', ifSet w ConvexHull (do h <- hullFree (mem w) (ptrs w ConvexHull); Ok (setp (setm w h) ConvexHull Null)) = Ok w' /\ Own (mem w') L /\ Did [ConvexHull] true w w'.
  Proof.
    intros [[P ->]|(a & b & P & -> & Q)] O; unfold ifSet; rewrite P.
    - exists w. split; auto. split; auto. constructor; auto using shrinks_refl. intros g [<-|[]]; auto.
    - assert (OB : Own (mem w) (b :: a :: L)). { eapply own_ext; [exact O|]. intros c. cbn. destruct (Nat.eq_dec a c), (Nat.eq_dec b c); lia. }
      destruct (free_own _ _ _ OB) as (h1 & E1 & O1 & EU1). destruct (free_own _ _ _ O1) as (h2 & E2 & O2 & EU2).
      assert (HF : hullFree (mem w) (Ptr a) = Ok h2). { unfold hullFree. destruct Q as [-> | ->]; rewrite E1; cbn [bind]; auto. }
      rewrite HF. cbn [bind]. eexists. split; [reflexivity|]. split; auto. constructor; auto.
      + cbn [mem setp setm]. eapply shrinks_trans; eapply free_shrinks; eauto.
      + intros g [<-|[]]. reflexivity.
      + intros g G. cbn. destruct (pfield_dec g ConvexHull) as [->|]; auto. cbn in G. tauto.
  Qed.

  (* the states of the object *)
  Record Full w (R : list nat) : Prop := {
    full_defined : forall f, In f simple -> ptrs w f <> Undef;
    full_ptrs : Forall (fun f => isPtr (ptrs w f)) [CellOffsets; CellFaces; FaceOffsets; FaceNodes; SharedNodeOffsets; SharedNodes; SharedFaceOffsets; SharedFaces; FaceCells];
    full_nc : ptrs w NodeCellOffsets = Null;
    full_own : exists HL, HullOwn w HL /\ Own (mem w) (owned w ++ HL ++ self w :: R) }.
  Definition Stays (f : pfield) : Prop := f = BoundaryNodes \/ f = BoundaryFaces \/ f = FaceCells.
  Record Stale w (R : list nat) : Prop := {
    stale_null : forall f, ~ Stays f -> ptrs w f = Null;
    stale_dead : forall f a, ptrs w f = Ptr a -> ~ In a (self w :: R);
    stale_defined : forall f, ptrs w f <> Undef;
    stale_faceCells : isPtr (ptrs w FaceCells);
    stale_own : Own (mem w) (self w :: R) }.

  Lemma in_own_once h a L (L1 L2 : list nat) : Own (V := V) h L -> L = L1 ++ a :: L2 -> ~ In a L1 /\ ~ In a L2.
  Proof.
    intros O ->. specialize (O a). rewrite count_occ_app in O. cbn [count_occ] in O. destruct (Nat.eq_dec a a); [|tauto].
    assert (count_occ Nat.eq_dec L1 a = 0 /\ count_occ Nat.eq_dec L2 a = 0) as [A B] by (destruct (liveb h a); lia).
    split; apply (count_occ_not_In Nat.eq_dec); auto.
  Qed.
  Lemma not_in_dec (f : pfield) fs : (if in_dec pfield_dec f fs then true else false) = false -> ~ In f fs.
  Proof. destruct (in_dec pfield_dec f fs); [discriminate|auto]. Qed.

  Lemma own_split h (A B : list nat) a : Own (V := V) h (A ++ B) -> In a A -> ~ In a B.
  Proof.
    intros O I J. specialize (O a). rewrite count_occ_app in O. apply (count_occ_In Nat.eq_dec) in I, J. destruct (liveb h a); lia.
  Qed.
  Lemma clear_full w R : Full w R -> exists w', tessClear w = Ok w' /\ Stale w' R.
  Proof.
    intros [FD FP NC (HL & HO & O)]. unfold tessClear.
    assert (FP' : forall f, In f [CellOffsets; CellFaces; FaceOffsets; FaceNodes; SharedNodeOffsets; SharedNodes; SharedFaceOffsets; SharedFaces; FaceCells] -> isPtr (ptrs w f)) by (apply Forall_forall; auto).
    pose proof O as O0. unfold owned, simple in O. cbn [flat_map] in O. rewrite app_nil_r, <- !app_assoc in O.
    destruct (guard_null w Nodes NumNodes _ (FD Nodes ltac:(cbn; tauto)) O) as (w1 & E1 & O1 & D1). rewrite E1. cbn [bind]. clear E1 O.
    assert (Q1 : forall f, f <> Nodes -> ptrs w1 f = ptrs w f). { intros f F. apply (did_others _ _ _ _ D1). cbn. intuition congruence. }
    destruct (guard_pair w1 CellOffsets CellFaces CellFaces (fun w => setp (setp (setn w NumCells 0) CellOffsets Null) CellFaces Null) (flat_map (fun f => addrs (ptrs w f)) [FaceOffsets; FaceNodes; BoundaryNodes; BoundaryFaces; FaceCells; NeighborDomains; SharedNodeOffsets; SharedNodes; SharedFaceOffsets; SharedFaces] ++ HL ++ self w :: R)) as (w2 & E2 & O2 & D2);
      [discriminate|rewrite Q1 by discriminate; apply FP'; cbn; tauto|rewrite Q1 by discriminate; apply FD; cbn; tauto|rewrite Q1 by discriminate; apply FD; cbn; tauto
      |rewrite !Q1 by discriminate; cbn [flat_map]; rewrite app_nil_r, <- !app_assoc; exact O1| |].
    { intros x. repeat split; auto. intros e N1 N2. cbn. destruct (pfield_dec e CellFaces); [tauto|]. destruct (pfield_dec e CellOffsets); tauto. }
    rewrite E2. cbn [bind]. clear E2 O1.
    assert (Q2 : forall f, ~ In f [Nodes; CellOffsets; CellFaces] -> ptrs w2 f = ptrs w f).
    { intros f F. rewrite (did_others _ _ _ _ D2) by (cbn in *; tauto). apply Q1. cbn in F. intuition congruence. }
    destruct (guard_pair w2 FaceOffsets FaceNodes FaceNodes (fun w => setp (setp (setn w NumFaces 0) FaceOffsets Null) FaceNodes Null) (flat_map (fun f => addrs (ptrs w f)) [BoundaryNodes; BoundaryFaces; FaceCells; NeighborDomains; SharedNodeOffsets; SharedNodes; SharedFaceOffsets; SharedFaces] ++ HL ++ self w :: R)) as (w3 & E3 & O3 & D3);
      [discriminate|rewrite Q2 by (apply not_in_dec; reflexivity); apply FP'; cbn; tauto|rewrite Q2 by (apply not_in_dec; reflexivity); apply FD; cbn; tauto|rewrite Q2 by (apply not_in_dec; reflexivity); apply FD; cbn; tauto
      |rewrite !Q2 by (apply not_in_dec; reflexivity); cbn [flat_map] in *; rewrite app_nil_r, <- !app_assoc in *; exact O2| |].
    { intros x. repeat split; auto. intros e N1 N2. cbn. destruct (pfield_dec e FaceNodes); [tauto|]. destruct (pfield_dec e FaceOffsets); tauto. }
    rewrite E3. cbn [bind]. clear E3 O2.
    assert (Q3 : forall f, ~ In f [Nodes; CellOffsets; CellFaces; FaceOffsets; FaceNodes] -> ptrs w3 f = ptrs w f).
    { intros f F. rewrite (did_others _ _ _ _ D3) by (cbn in *; tauto). apply Q2. cbn in *. tauto. }
    cbn [flat_map] in O3. rewrite app_nil_r, <- !app_assoc in O3.
    destruct (guard_plain w3 BoundaryNodes (flat_map (fun f => addrs (ptrs w f)) [BoundaryFaces; FaceCells; NeighborDomains; SharedNodeOffsets; SharedNodes; SharedFaceOffsets; SharedFaces] ++ HL ++ self w :: R)) as (w4 & E4 & O4 & D4);
      [rewrite Q3 by (apply not_in_dec; reflexivity); apply FD; cbn; tauto|rewrite !Q3 by (apply not_in_dec; reflexivity); cbn [flat_map]; rewrite app_nil_r, <- !app_assoc; exact O3|].
    rewrite E4. cbn [bind]. clear E4 O3.
    assert (Q4 : forall f, ~ In f [Nodes; CellOffsets; CellFaces; FaceOffsets; FaceNodes] -> ptrs w4 f = ptrs w f).
    { intros f F. destruct (pfield_dec f BoundaryNodes) as [->|N]; [rewrite (did_fs _ _ _ _ D4) by (cbn; auto)|rewrite (did_others _ _ _ _ D4) by (cbn; intuition congruence)]; apply Q3; auto. }
    cbn [flat_map] in O4. rewrite app_nil_r, <- !app_assoc in O4.
    destruct (guard_plain w4 BoundaryFaces (flat_map (fun f => addrs (ptrs w f)) [FaceCells; NeighborDomains; SharedNodeOffsets; SharedNodes; SharedFaceOffsets; SharedFaces] ++ HL ++ self w :: R)) as (w5 & E5 & O5 & D5);
      [rewrite Q4 by (apply not_in_dec; reflexivity); apply FD; cbn; tauto|rewrite !Q4 by (apply not_in_dec; reflexivity); cbn [flat_map]; rewrite app_nil_r, <- !app_assoc; exact O4|].
    rewrite E5. cbn [bind]. clear E5 O4.
    assert (Q5 : forall f, ~ In f [Nodes; CellOffsets; CellFaces; FaceOffsets; FaceNodes] -> ptrs w5 f = ptrs w f).
    { intros f F. destruct (pfield_dec f BoundaryFaces) as [->|N]; [rewrite (did_fs _ _ _ _ D5) by (cbn; auto)|rewrite (did_others _ _ _ _ D5) by (cbn; intuition congruence)]; apply Q4; auto. }
    cbn [flat_map] in O5. rewrite app_nil_r, <- !app_assoc in O5.
    destruct (guard_plain w5 FaceCells (flat_map (fun f => addrs (ptrs w f)) [NeighborDomains; SharedNodeOffsets; SharedNodes; SharedFaceOffsets; SharedFaces] ++ HL ++ self w :: R)) as (w6 & E6 & O6 & D6);
      [rewrite Q5 by (apply not_in_dec; reflexivity); apply FD; cbn; tauto|rewrite !Q5 by (apply not_in_dec; reflexivity); cbn [flat_map]; rewrite app_nil_r, <- !app_assoc; exact O5|].
    rewrite E6. cbn [bind]. clear E6 O5.
    assert (Q6 : forall f, ~ In f [Nodes; CellOffsets; CellFaces; FaceOffsets; FaceNodes] -> ptrs w6 f = ptrs w f).
    { intros f F. destruct (pfield_dec f FaceCells) as [->|N]; [rewrite (did_fs _ _ _ _ D6) by (cbn; auto)|rewrite (did_others _ _ _ _ D6) by (cbn; intuition congruence)]; apply Q5; auto. }
    cbn [flat_map] in O6. rewrite app_nil_r, <- !app_assoc in O6.
    destruct (guard_null w6 NeighborDomains NumNeighborDomains (flat_map (fun f => addrs (ptrs w f)) [SharedNodeOffsets; SharedNodes; SharedFaceOffsets; SharedFaces] ++ HL ++ self w :: R)) as (w7 & E7 & O7 & D7);
      [rewrite Q6 by (apply not_in_dec; reflexivity); apply FD; cbn; tauto|rewrite !Q6 by (apply not_in_dec; reflexivity); cbn [flat_map]; rewrite app_nil_r, <- !app_assoc; exact O6|].
    rewrite E7. cbn [bind]. clear E7 O6.
    assert (Q7 : forall f, ~ In f [Nodes; CellOffsets; CellFaces; FaceOffsets; FaceNodes; NeighborDomains] -> ptrs w7 f = ptrs w f).
    { intros f F. rewrite (did_others _ _ _ _ D7) by (cbn in *; tauto). apply Q6. cbn in *. tauto. }
    cbn [flat_map] in O7. rewrite app_nil_r, <- !app_assoc in O7.
    destruct (guard_pair w7 SharedNodeOffsets SharedNodes SharedNodeOffsets (fun w => setp (setp w SharedNodeOffsets Null) SharedNodes Null) (flat_map (fun f => addrs (ptrs w f)) [SharedFaceOffsets; SharedFaces] ++ HL ++ self w :: R)) as (w8 & E8 & O8 & D8);
      [discriminate|rewrite Q7 by (apply not_in_dec; reflexivity); apply FP'; cbn; tauto|rewrite Q7 by (apply not_in_dec; reflexivity); apply FD; cbn; tauto|rewrite Q7 by (apply not_in_dec; reflexivity); apply FD; cbn; tauto
      |rewrite !Q7 by (apply not_in_dec; reflexivity); cbn [flat_map] in *; rewrite app_nil_r, <- !app_assoc in *; exact O7| |].
    { intros x. repeat split; auto. intros e N1 N2. cbn. destruct (pfield_dec e SharedNodes); [tauto|]. destruct (pfield_dec e SharedNodeOffsets); tauto. }
    rewrite E8. cbn [bind]. clear E8 O7.
    assert (Q8 : forall f, ~ In f [Nodes; CellOffsets; CellFaces; FaceOffsets; FaceNodes; NeighborDomains; SharedNodeOffsets; SharedNodes] -> ptrs w8 f = ptrs w f).
    { intros f F. rewrite (did_others _ _ _ _ D8) by (cbn in *; tauto). apply Q7. cbn in *. tauto. }
    cbn [flat_map] in O8. rewrite app_nil_r, <- !app_assoc in O8.
    destruct (guard_pair w8 SharedFaceOffsets SharedFaces SharedFaceOffsets (fun w => setp (setp w SharedFaceOffsets Null) SharedFaces Null) (HL ++ self w :: R)) as (w9 & E9 & O9 & D9);
      [discriminate|rewrite Q8 by (apply not_in_dec; reflexivity); apply FP'; cbn; tauto|rewrite Q8 by (apply not_in_dec; reflexivity); apply FD; cbn; tauto|rewrite Q8 by (apply not_in_dec; reflexivity); apply FD; cbn; tauto
      |rewrite !Q8 by (apply not_in_dec; reflexivity); exact O8| |].
    { intros x. repeat split; auto. intros e N1 N2. cbn. destruct (pfield_dec e SharedFaces); [tauto|]. destruct (pfield_dec e SharedFaceOffsets); tauto. }
    rewrite E9. cbn [bind]. clear E9 O8.
    assert (Q9 : forall f, ~ In f [Nodes; CellOffsets; CellFaces; FaceOffsets; FaceNodes; NeighborDomains; SharedNodeOffsets; SharedNodes; SharedFaceOffsets; SharedFaces] -> ptrs w9 f = ptrs w f).
    { intros f F. rewrite (did_others _ _ _ _ D9) by (cbn in *; tauto). apply Q8. cbn in *. tauto. }
    assert (NC9 : ptrs w9 NodeCellOffsets = Null) by (rewrite Q9 by (apply not_in_dec; reflexivity); auto).
    assert (EN : forall b, ifSet w9 NodeCellOffsets b = Ok w9) by (intros b; unfold ifSet; rewrite NC9; auto). rewrite EN. cbn [bind].
    assert (SH : Shrinks (mem w) (mem w9)).
    { repeat (eapply shrinks_trans; [|match goal with D : Did _ _ _ ?x |- Shrinks _ (mem ?x) => exact (did_shrinks _ _ _ _ D) end]). apply shrinks_refl. }
    assert (HO9 : HullOwn w9 HL).
    { destruct HO as [[P ->]|(a & b & P & -> & Q)]; [left; split; auto; rewrite Q9 by (apply not_in_dec; reflexivity); auto|right].
      exists a, b. split; [rewrite Q9 by (apply not_in_dec; reflexivity); auto|]. split; auto.
      pose proof (O9 a) as LA. cbn [app count_occ] in LA. destruct (Nat.eq_dec a a); [|tauto]. unfold liveb in LA.
      destruct (nth_error (mem w9) a) as [[x|]|] eqn:EX; try discriminate. apply SH in EX. rewrite EX in Q. destruct Q as [Q|Q]; [left|right]; congruence. }
    destruct (guard_hull w9 HL (self w :: R) HO9 O9) as (w10 & E10 & O10 & D10). rewrite E10. cbn [bind]. clear E10.
    assert (SE : self w10 = self w).
    { rewrite (did_self _ _ _ _ D10), (did_self _ _ _ _ D9), (did_self _ _ _ _ D8), (did_self _ _ _ _ D7), (did_self _ _ _ _ D6), (did_self _ _ _ _ D5), (did_self _ _ _ _ D4),
        (did_self _ _ _ _ D3), (did_self _ _ _ _ D2), (did_self _ _ _ _ D1). auto. }
    eexists. split; [reflexivity|].
    assert (PS : forall f, Stays f -> ptrs w10 f = ptrs w f).
    { intros f S. rewrite (did_others _ _ _ _ D10); [apply Q9|]; destruct S as [-> |[-> | ->]]; apply not_in_dec; reflexivity. }
    assert (PN : forall f, ~ Stays f -> f <> NodeCellOffsets -> f <> NodeCells -> ptrs w10 f = Null).
    { intros f S N1 N2.
      assert (A1 : forall f, In f [Nodes] -> ptrs w9 f = Null).
      { intros g [<-|[]]. rewrite (did_others _ _ _ _ D9), (did_others _ _ _ _ D8), (did_others _ _ _ _ D7), (did_others _ _ _ _ D6), (did_others _ _ _ _ D5), (did_others _ _ _ _ D4), (did_others _ _ _ _ D3), (did_others _ _ _ _ D2) by (apply not_in_dec; reflexivity).
        apply (did_fs _ _ _ _ D1). cbn; auto. }
      assert (A2 : forall f, In f [CellOffsets; CellFaces] -> ptrs w9 f = Null).
      { intros g G. rewrite (did_others _ _ _ _ D9), (did_others _ _ _ _ D8), (did_others _ _ _ _ D7), (did_others _ _ _ _ D6), (did_others _ _ _ _ D5), (did_others _ _ _ _ D4), (did_others _ _ _ _ D3) by (destruct G as [<-|[<-|[]]]; apply not_in_dec; reflexivity).
        apply (did_fs _ _ _ _ D2); auto. }
      assert (A3 : forall f, In f [FaceOffsets; FaceNodes] -> ptrs w9 f = Null).
      { intros g G. rewrite (did_others _ _ _ _ D9), (did_others _ _ _ _ D8), (did_others _ _ _ _ D7), (did_others _ _ _ _ D6), (did_others _ _ _ _ D5), (did_others _ _ _ _ D4) by (destruct G as [<-|[<-|[]]]; apply not_in_dec; reflexivity).
        apply (did_fs _ _ _ _ D3); auto. }
      assert (A7 : forall f, In f [NeighborDomains] -> ptrs w9 f = Null).
      { intros g G. rewrite (did_others _ _ _ _ D9), (did_others _ _ _ _ D8) by (destruct G as [<-|[]]; apply not_in_dec; reflexivity). apply (did_fs _ _ _ _ D7); auto. }
      assert (A8 : forall f, In f [SharedNodeOffsets; SharedNodes] -> ptrs w9 f = Null).
      { intros g G. rewrite (did_others _ _ _ _ D9) by (destruct G as [<-|[<-|[]]]; apply not_in_dec; reflexivity). apply (did_fs _ _ _ _ D8); auto. }
      assert (A9 : forall f, In f [SharedFaceOffsets; SharedFaces] -> ptrs w9 f = Null) by (intros g G; apply (did_fs _ _ _ _ D9); auto).
      destruct (pfield_dec f ConvexHull) as [->|NH]; [apply (did_fs _ _ _ _ D10); cbn; auto|].
      rewrite (did_others _ _ _ _ D10) by (cbn; intuition congruence).
      destruct f; try (now (unfold Stays in S; tauto)); try tauto;
        first [apply A1; cbn; tauto|apply A2; cbn; tauto|apply A3; cbn; tauto|apply A7; cbn; tauto|apply A8; cbn; tauto|apply A9; cbn; tauto]. }
    assert (PF : forall f, ptrs (setp (setp w10 NodeCellOffsets Null) NodeCells Null) f = if in_dec pfield_dec f [BoundaryNodes; BoundaryFaces; FaceCells] then ptrs w f else Null).
    { intros f. destruct (in_dec pfield_dec f _) as [I|I].
      - rewrite <- PS by (destruct I as [<-|[<-|[<-|[]]]]; unfold Stays; auto). destruct I as [<-|[<-|[<-|[]]]]; reflexivity.
      - cbn. destruct (pfield_dec f NodeCells); auto. destruct (pfield_dec f NodeCellOffsets); auto. apply PN; auto. unfold Stays. cbn in I. intuition congruence. }
    constructor.
    - intros f S. rewrite PF. destruct (in_dec _ f _) as [I|I]; auto. exfalso. apply S. unfold Stays. cbn in I. intuition.
    - intros f a P. rewrite PF in P. destruct (in_dec _ f _) as [I|I]; [|discriminate]. change (self (setp (setp w10 NodeCellOffsets Null) NodeCells Null)) with (self w10). rewrite SE.
      assert (IO : In a (owned w)). { unfold owned. apply in_flat_map. exists f. split; [destruct I as [<-|[<-|[<-|[]]]]; cbn; tauto|]. rewrite P. cbn; auto. }
      intros J. eapply (own_split _ _ _ a O0 IO). apply in_app_iff. auto.
    - intros f. rewrite PF. destruct (in_dec _ f _) as [I|I]; [|discriminate]. apply FD. destruct I as [<-|[<-|[<-|[]]]]; cbn; tauto.
    - rewrite PF. cbn [in_dec]. apply FP'. cbn. tauto.
    - cbn. rewrite SE. auto.
  Qed.
End Clear.
