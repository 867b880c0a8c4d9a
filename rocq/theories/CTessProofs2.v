From Verif Require Import Base BaseFacts SerializeModel MeshModel CTessModel CTessSpec CTessProofs.
From Coq Require Import Lia.

Section Fill.
  Context {V : Type} (zn : bool).
  (* in the order in which they are freed *)
  Definition simple : list pfield := [Nodes; CellOffsets; CellFaces; FaceOffsets; FaceNodes; BoundaryNodes; BoundaryFaces; FaceCells;
    NeighborDomains; SharedNodeOffsets; SharedNodes; SharedFaceOffsets; SharedFaces].
  Definition owned (w : world V) : list nat := flat_map (fun f => addrs (ptrs w f)) simple.
  Definition HullOwn (w : world V) (HL : list nat) : Prop :=
    (ptrs w ConvexHull = Null /\ HL = []) \/
    exists a b, ptrs w ConvexHull = Ptr a /\ HL = [a; b] /\
      (nth_error (mem w) a = Some (Some (BHandle (Ptr b) Null)) \/ nth_error (mem w) a = Some (Some (BHandle Null (Ptr b)))).
  Definition isPtr (p : ptr) : Prop := exists a, p = Ptr a.
  Definition offs {A} (rows : list (list A)) : list (option Z) := map (fun i => Some (Z.of_nat (offset rows i))) (seq 0 (length rows + 1)).
  Record Contents (D : nat) (w : world V) (t : mesh V) : Prop := {
    c_nodes : num w NumNodes = length (nodes t) / D /\ Holds (mem w) (ptrs w Nodes) (length (nodes t) =? 0) (BReal (map Some (nodes t)));
    c_cells : num w NumCells = length (cells t) /\ Holds (mem w) (ptrs w CellOffsets) false (BInt (offs (cells t))) /\
              Holds (mem w) (ptrs w CellFaces) false (BInt (map Some (concat (cells t)) ++ [None]));
    c_faces : num w NumFaces = length (faces t) /\ Holds (mem w) (ptrs w FaceOffsets) false (BInt (offs (faces t))) /\
              Holds (mem w) (ptrs w FaceNodes) false (BUns (map Some (concat (faces t)) ++ [None]));
    c_bnodes : num w NumBoundaryNodes = length (boundaryNodes t) /\ Holds (mem w) (ptrs w BoundaryNodes) (length (boundaryNodes t) =? 0) (BUns (map Some (boundaryNodes t)));
    c_bfaces : num w NumBoundaryFaces = length (boundaryFaces t) /\ Holds (mem w) (ptrs w BoundaryFaces) (length (boundaryFaces t) =? 0) (BUns (map Some (boundaryFaces t)));
    c_faceCells : Holds (mem w) (ptrs w FaceCells) (2 * length (faces t) =? 0) (BInt (pairs (faceCells t)));
    c_domains : num w NumNeighborDomains = length (neighborDomains t) /\ Holds (mem w) (ptrs w NeighborDomains) (length (neighborDomains t) =? 0) (BUns (map Some (neighborDomains t)));
    c_sharedNodes : Holds (mem w) (ptrs w SharedNodeOffsets) false (BInt (offs (sharedNodes t))) /\
                    Holds (mem w) (ptrs w SharedNodes) false (BUns (map Some (concat (sharedNodes t)) ++ [None]));
    c_sharedFaces : Holds (mem w) (ptrs w SharedFaceOffsets) false (BInt (offs (sharedFaces t))) /\
                    Holds (mem w) (ptrs w SharedFaces) false (BUns (map Some (concat (sharedFaces t)) ++ [None])) }.


  Lemma setp_same (w : world V) f : forall g, ptrs (setp w f (ptrs w f)) g = ptrs w g.
  Proof. intros g. cbn. destruct (pfield_dec g f) as [->|]; auto. Qed.

  Ltac step O h p O' G H U P :=
    match goal with |- context [mallocTo zn ?w ?f ?s ?b] =>
      let E := fresh "E" in
      destruct (mallocTo_step zn w f s b _ O) as (h & p & E & O' & G & H & U & P); rewrite E; clear E; cbv zeta; cbn [mem setp setm setn] in O', G, H
    end.

  Lemma fillC_ok D t (w : world V) L HL : 0 < D -> Shaped D t -> Own (mem w) (HL ++ L) -> HullOwn w HL ->
    exists w' HL' X, fillC zn D t w = Ok w' /\ self w' = self w /\ HullOwn w' HL' /\ Own (mem w') (owned w' ++ HL' ++ X ++ L) /\
      (HL = [] -> X = []) /\ Contents D w' t /\ (forall f, In f simple -> ptrs w' f <> Undef) /\
      Forall (fun f => isPtr (ptrs w' f)) [CellOffsets; CellFaces; FaceOffsets; FaceNodes; SharedNodeOffsets; SharedNodes; SharedFaceOffsets; SharedFaces] /\
      (0 < length (faces t) -> isPtr (ptrs w' FaceCells)) /\
      ptrs w' NodeCellOffsets = ptrs w NodeCellOffsets /\ ptrs w' NodeCells = ptrs w NodeCells.
  Proof.
    intros DP [SN SFC SC SSN SSF] O HO. unfold fillC. cbv zeta.
    assert (DN : D * (length (nodes t) / D) = length (nodes t)). { pose proof (Nat.div_mod (length (nodes t)) D ltac:(lia)). lia. }
    rewrite DN, copyTo_all. cbn [bind].
    assert (O0 : Own (mem (setn w NumNodes (length (nodes t) / D))) (HL ++ L)) by auto.
    step O0 h1 p1 O1 G1 H1 U1 P1. rewrite !crs_ok. cbn [bind fst snd].
    set (w1 := setp (setm (setn w NumNodes (length (nodes t) / D)) h1) Nodes p1).
    assert (O1' : Own (mem (setn w1 NumCells (length (cells t)))) (addrs p1 ++ HL ++ L)) by auto.
    step O1' h2 p2 O2 G2 H2 U2 P2. set (w2 := setp (setm (setn w1 NumCells (length (cells t))) h2) CellOffsets p2).
    assert (O2' : Own (mem w2) (addrs p2 ++ addrs p1 ++ HL ++ L)) by auto.
    step O2' h3 p3 O3 G3 H3 U3 P3. set (w3 := setp (setm w2 h3) CellFaces p3).
    assert (O3' : Own (mem (setn w3 NumFaces (length (faces t)))) (addrs p3 ++ addrs p2 ++ addrs p1 ++ HL ++ L)) by auto.
    step O3' h4 p4 O4 G4 H4 U4 P4. set (w4 := setp (setm (setn w3 NumFaces (length (faces t))) h4) FaceOffsets p4).
    assert (O4' : Own (mem w4) (addrs p4 ++ addrs p3 ++ addrs p2 ++ addrs p1 ++ HL ++ L)) by auto.
    step O4' h5 p5 O5 G5 H5 U5 P5. set (w5 := setp (setm w4 h5) FaceNodes p5).
    rewrite !copyTo_all. cbn [bind].
    assert (O5' : Own (mem (setn w5 NumBoundaryNodes (length (boundaryNodes t)))) (addrs p5 ++ addrs p4 ++ addrs p3 ++ addrs p2 ++ addrs p1 ++ HL ++ L)) by auto.
    step O5' h6 p6 O6 G6 H6 U6 P6. set (w6 := setp (setm (setn w5 NumBoundaryNodes (length (boundaryNodes t))) h6) BoundaryNodes p6).
    assert (O6' : Own (mem (setn w6 NumBoundaryFaces (length (boundaryFaces t)))) (addrs p6 ++ addrs p5 ++ addrs p4 ++ addrs p3 ++ addrs p2 ++ addrs p1 ++ HL ++ L)) by auto.
    step O6' h7 p7 O7 G7 H7 U7 P7. set (w7 := setp (setm (setn w6 NumBoundaryFaces (length (boundaryFaces t))) h7) BoundaryFaces p7).
    assert (NF : num w7 NumFaces = length (faces t)) by reflexivity. rewrite NF. rewrite SFC, Nat.eqb_refl. cbn [assert bind].
    assert (FCA : faceCellArray (length (faces t)) (faceCells t) = Ok (pairs (faceCells t))) by (rewrite <- SFC; apply faceCellArray_ok; auto).
    rewrite FCA. cbn [bind].
    assert (O7' : Own (mem w7) (addrs p7 ++ addrs p6 ++ addrs p5 ++ addrs p4 ++ addrs p3 ++ addrs p2 ++ addrs p1 ++ HL ++ L)) by auto.
    step O7' h8 p8 O8 G8 H8 U8 P8. set (w8 := setp (setm w7 h8) FaceCells p8).
    assert (HU : exists h9 q9 HL' X, (if negb (plc_empty (convexHull t)) then setp (setm w8 (fst (hullNew D (mem w8) (convexHull t)))) ConvexHull (snd (hullNew D (mem w8) (convexHull t))) else w8)
        = mkWorld h9 (self w8) (num w8) q9 /\ (forall f, f <> ConvexHull -> q9 f = ptrs w8 f) /\ Grows h8 h9 /\
        Own h9 (HL' ++ X ++ addrs p8 ++ addrs p7 ++ addrs p6 ++ addrs p5 ++ addrs p4 ++ addrs p3 ++ addrs p2 ++ addrs p1 ++ L) /\ (HL = [] -> X = []) /\
        ((q9 ConvexHull = Null /\ HL' = []) \/ exists a b, q9 ConvexHull = Ptr a /\ HL' = [a; b] /\
           (nth_error h9 a = Some (Some (BHandle (Ptr b) Null)) \/ nth_error h9 a = Some (Some (BHandle Null (Ptr b)))))).
    { destruct (negb (plc_empty (convexHull t))).
      - unfold hullNew. cbn [fst snd]. change (mem w8) with h8. eexists _, _, [length h8; S (length h8)], HL. split; [reflexivity|]. split; [|split; [|split; [|split]]].
        + intros f F. cbn. destruct (pfield_dec f ConvexHull); [tauto|auto].
        + eexists; reflexivity.
        + pose proof (own_app _ (BPlc (convexHull t)) _ (own_app _ (if D =? 2 then BHandle (Ptr (S (length h8))) Null else BHandle Null (Ptr (S (length h8)))) _ O8)) as Q.
          rewrite <- app_assoc in Q. cbn [app] in Q. eapply own_ext; [exact Q|]. intros a. rewrite !app_length. cbn [length]. rewrite Nat.add_1_r.
          cbn [app count_occ]. rewrite !count_occ_app. destruct (Nat.eq_dec (S (length h8)) a), (Nat.eq_dec (length h8) a); lia.
        + auto.
        + right. exists (length h8), (S (length h8)). split; [reflexivity|]. split; auto. cbn [mem setm setp]. rewrite nth_error_app2, Nat.sub_diag by auto. cbn. destruct (D =? 2); auto.
      - exists h8, (ptrs w8), HL, []. split; [reflexivity|]. split; [auto|]. split; [apply grows_refl|]. split; [|split; auto].
        + eapply own_ext; [exact O8|]. intros a. cbn [app]. rewrite !count_occ_app. lia.
        + assert (GR : Grows (mem w) h8) by (eauto 10 using grows_trans).
          destruct HO as [HO|(a & b & A1 & A2 & A3)]; [left; auto|right]. exists a, b. split; [exact A1|]. split; auto.
          destruct A3 as [A3|A3]; [left|right]; eapply grows_nth; eauto. }
    destruct HU as (h9 & q9 & HL' & X & -> & Q9 & G9 & O9 & XE & HO9). cbv zeta.
    set (w9 := mkWorld h9 (self w8) (num w8) q9).
    set (R9 := HL' ++ X ++ addrs p8 ++ addrs p7 ++ addrs p6 ++ addrs p5 ++ addrs p4 ++ addrs p3 ++ addrs p2 ++ addrs p1 ++ L) in *.
    assert (O9' : Own (mem (setn w9 NumNeighborDomains (length (neighborDomains t)))) R9) by auto.
    step O9' h10 p10 O10 G10 H10 U10 P10. set (w10 := setp (setm (setn w9 NumNeighborDomains (length (neighborDomains t))) h10) NeighborDomains p10).
    assert (CSN : crs (length (neighborDomains t)) (sharedNodes t) = Ok (offs (sharedNodes t), map Some (concat (sharedNodes t)) ++ [None])) by (rewrite <- SSN; apply crs_ok).
    rewrite CSN. cbn [bind fst snd].
    assert (O10' : Own (mem w10) (addrs p10 ++ R9)) by auto.
    step O10' h11 p11 O11 G11 H11 U11 P11. set (w11 := setp (setm w10 h11) SharedNodeOffsets p11).
    assert (O11' : Own (mem w11) (addrs p11 ++ addrs p10 ++ R9)) by auto.
    step O11' h12 p12 O12 G12 H12 U12 P12. set (w12 := setp (setm w11 h12) SharedNodes p12).
    assert (CSF : crs (length (neighborDomains t)) (sharedFaces t) = Ok (offs (sharedFaces t), map Some (concat (sharedFaces t)) ++ [None])) by (rewrite <- SSF; apply crs_ok).
    rewrite CSF. cbn [bind fst snd].
    assert (O12' : Own (mem w12) (addrs p12 ++ addrs p11 ++ addrs p10 ++ R9)) by auto.
    step O12' h13 p13 O13 G13 H13 U13 P13. set (w13 := setp (setm w12 h13) SharedFaceOffsets p13).
    assert (O13' : Own (mem w13) (addrs p13 ++ addrs p12 ++ addrs p11 ++ addrs p10 ++ R9)) by auto.
    step O13' h14 p14 O14 G14 H14 U14 P14. set (w14 := setp (setm w13 h14) SharedFaces p14).
    change (mem w9) with h9 in *. change (mem w8) with h8 in *. change (mem w10) with h10 in *. change (mem w11) with h11 in *. change (mem w12) with h12 in *. change (mem w13) with h13 in *.
    change (mem w1) with h1 in *. change (mem w2) with h2 in *. change (mem w3) with h3 in *. change (mem w4) with h4 in *. change (mem w5) with h5 in *. change (mem w6) with h6 in *. change (mem w7) with h7 in *.
    assert (T13 : Grows h13 h14) by auto. assert (T12 : Grows h12 h14) by (eapply grows_trans; eauto). assert (T11 : Grows h11 h14) by (eapply grows_trans; eauto).
    assert (T10 : Grows h10 h14) by (eapply grows_trans; eauto). assert (T9 : Grows h9 h14) by (eapply grows_trans; eauto). assert (T8 : Grows h8 h14) by (eapply grows_trans; eauto).
    assert (T7 : Grows h7 h14) by (eapply grows_trans; eauto). assert (T6 : Grows h6 h14) by (eapply grows_trans; eauto). assert (T5 : Grows h5 h14) by (eapply grows_trans; eauto).
    assert (T4 : Grows h4 h14) by (eapply grows_trans; eauto). assert (T3 : Grows h3 h14) by (eapply grows_trans; eauto). assert (T2 : Grows h2 h14) by (eapply grows_trans; eauto).
    assert (T1 : Grows h1 h14) by (eapply grows_trans; eauto).
    assert (PT : forall f, ptrs w14 f = match f with Nodes => p1 | CellOffsets => p2 | CellFaces => p3 | FaceOffsets => p4 | FaceNodes => p5 | BoundaryNodes => p6 | BoundaryFaces => p7
        | FaceCells => p8 | ConvexHull => q9 ConvexHull | NeighborDomains => p10 | SharedNodeOffsets => p11 | SharedNodes => p12 | SharedFaceOffsets => p13 | SharedFaces => p14
        | NodeCellOffsets => ptrs w NodeCellOffsets | NodeCells => ptrs w NodeCells end).
    { intros f. destruct f; try reflexivity; cbn [w14 w13 w12 w11 w10 w9 ptrs setp setm setn]; try (rewrite Q9 by discriminate; reflexivity).
      all: unfold w14, w13, w12, w11, w10, w9; cbn; rewrite Q9 by discriminate; reflexivity. }
    exists w14, HL', X. split; [reflexivity|]. split; [reflexivity|]. split; [|split; [|split; [|split; [|split; [|split; [|split; [|split]]]]]]]; auto.
    - unfold HullOwn. rewrite PT. destruct HO9 as [HO9|(a & b & A1 & A2 & A3)]; [left; auto|right]. exists a, b. split; auto. split; auto.
      change (mem w14) with h14. destruct A3 as [A3|A3]; [left|right]; apply (grows_nth h9 h14 a _ T9 A3).
    - change (mem w14) with h14. eapply own_ext; [exact O14|]. intros a. unfold owned, simple, R9. cbn [flat_map]. rewrite !PT. rewrite !count_occ_app. cbn [count_occ]. lia.
    - change (mem w14) with h14 in *. constructor; rewrite ?PT; change (mem w14) with h14; repeat split; try reflexivity;
      [exact (holds_grows _ _ _ _ _ T1 H1)|exact (holds_grows _ _ _ _ _ T2 H2)|exact (holds_grows _ _ _ _ _ T3 H3)|exact (holds_grows _ _ _ _ _ T4 H4)|exact (holds_grows _ _ _ _ _ T5 H5)
      |exact (holds_grows _ _ _ _ _ T6 H6)|exact (holds_grows _ _ _ _ _ T7 H7)|exact (holds_grows _ _ _ _ _ T8 H8)|exact (holds_grows _ _ _ _ _ T10 H10)|exact (holds_grows _ _ _ _ _ T11 H11)
      |exact (holds_grows _ _ _ _ _ T12 H12)|exact (holds_grows _ _ _ _ _ T13 H13)|exact H14].
    - intros f F. rewrite PT. destruct F as [<-|[<-|[<-|[<-|[<-|[<-|[<-|[<-|[<-|[<-|[<-|[<-|[<-|[]]]]]]]]]]]]]]; auto.
    - repeat constructor; rewrite PT; unfold isPtr; auto.
    - intros LF. rewrite PT. apply P8. apply Nat.eqb_neq. lia.
    - apply PT.
    - apply PT.
  Qed.
End Fill.
