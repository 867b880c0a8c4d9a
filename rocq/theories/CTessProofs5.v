From Verif Require Import Base BaseFacts SerializeModel MeshModel CTessModel CTessSpec CTessProofs CTessProofs2 HullProofs3.
From Coq Require Import Lia.

Section Read.
  Context {V : Type} (D : nat).
  Variables (w : world V) (t : mesh V).
  Hypotheses (DP : 0 < D) (SH : Shaped D t) (C : Contents D w t).

  Lemma holds_false {h : heap V} {p b} : Holds h p false b -> exists a, p = Ptr a /\ nth_error h a = Some (Some b).
  Proof. intros [[_ E]|H]; [discriminate|auto]. Qed.
  Lemma readInt_ok f l i z : Holds (mem w) (ptrs w f) false (BInt l) -> nth_error l i = Some (Some z) -> readInt w f i = Ok z.
  Proof. intros H E. destruct (holds_false H) as (a & P & Q). unfold readInt. rewrite P, Q. unfold entry. rewrite E. auto. Qed.
  Lemma readUns_ok f l i z : Holds (mem w) (ptrs w f) false (BUns l) -> nth_error l i = Some (Some z) -> readUns w f i = Ok z.
  Proof. intros H E. destruct (holds_false H) as (a & P & Q). unfold readUns. rewrite P, Q. unfold entry. rewrite E. auto. Qed.
  Lemma readReal_ok f l i z : Holds (mem w) (ptrs w f) false (BReal l) -> nth_error l i = Some (Some z) -> readReal w f i = Ok z.
  Proof. intros H E. destruct (holds_false H) as (a & P & Q). unfold readReal. rewrite P, Q. unfold entry. rewrite E. auto. Qed.
  Lemma holds_defined f s b : Holds (mem w) (ptrs w f) s b -> defined w f = Ok tt.
  Proof. unfold defined. intros [[-> _]|(a & -> & _)]; auto. Qed.
  Lemma mmap_nth {A} (r : nat -> res A) l : (forall i x, nth_error l i = Some x -> r i = Ok x) -> mmap r (seq 0 (length l)) = Ok l.
  Proof.
    intros H. apply mmap_eq, forall2_of_nth; [apply seq_length|]. intros i a x Q X. apply H.
    assert (i < length l) by (apply nth_error_Some; congruence). rewrite (nth_error_nth' _ 0) in Q by (rewrite seq_length; auto).
    rewrite seq_nth in Q by auto. cbn in Q. congruence.
  Qed.
  Lemma flat_read {A} (r : nat -> res A) (l : list A) s :
    (forall i x, s = false -> nth_error (map Some l) i = Some (Some x) -> r i = Ok x) -> s = (length l =? 0) -> mmap r (seq 0 (length l)) = Ok l.
  Proof.
    intros H ->. apply mmap_nth. intros i x X. apply H.
    - apply Nat.eqb_neq. destruct l; [destruct i; discriminate|cbn; lia].
    - rewrite nth_error_map, X. auto.
  Qed.
  Lemma offs_nth {A} (rows : list (list A)) i : i <= length rows -> nth_error (offs rows) i = Some (Some (Z.of_nat (offset rows i))).
  Proof.
    intros L. unfold offs. rewrite nth_error_map, (nth_error_nth' _ 0) by (rewrite seq_length; lia). rewrite seq_nth by lia. auto.
  Qed.
  Lemma rows_ok {A} fo (data : nat -> res A) (rows : list (list A)) i row : Holds (mem w) (ptrs w fo) false (BInt (offs rows)) ->
    (forall k x, nth_error (concat rows) k = Some x -> data k = Ok x) -> nth_error rows i = Some row -> readRow w fo data i = Ok row.
  Proof.
    intros H R E. assert (L : i < length rows) by (apply nth_error_Some; congruence). unfold readRow.
    rewrite (readInt_ok fo _ _ _ H (offs_nth rows (i + 1) ltac:(lia))). cbn [bind].
    rewrite (readInt_ok fo _ _ _ H (offs_nth rows i ltac:(lia))). cbn [bind].
    rewrite Nat.add_1_r, (offset_row rows i row E).
    destruct (Z.ltb_spec (Z.of_nat (offset rows i + length row)) (Z.of_nat (offset rows i))); [lia|].
    replace (Z.to_nat (Z.of_nat (offset rows i + length row) - Z.of_nat (offset rows i))) with (length row) by lia.
    apply mmap_nth. intros j x X. apply R. replace (Z.to_nat (Z.of_nat (offset rows i) + Z.of_nat j)) with (offset rows i + j) by lia.
    rewrite (concat_nth rows i row j E); auto. apply nth_error_Some. congruence.
  Qed.
  Lemma data_ok {A} (l : list A) k x : nth_error l k = Some x -> nth_error (map Some l ++ [None]) k = Some (Some x).
  Proof. intros E. assert (k < length l) by (apply nth_error_Some; congruence). rewrite nth_error_app1 by (rewrite map_length; auto). rewrite nth_error_map, E. auto. Qed.
  Definition told (fc : list Z) : list Z := match fc with [c; d] => if (d =? -1)%Z then [c] else fc | _ => fc end.
  Lemma fillCpp_ok t0 : fillCpp D w t0 = Ok (mkMesh (nodes t) (cells t) (faces t) (boundaryNodes t) (boundaryFaces t) (map told (faceCells t)) (convexHull t0)
     (neighborDomains t) (sharedNodes t) (sharedFaces t)).
  Proof.
    destruct SH as [SN SFC SC SSN SSF]. destruct C as [[NN HN] (NC & HCO & HCF) (NF & HFO & HFN) [NBN HBN] [NBF HBF] HFC [ND HND] [HSO HSN] [HSO' HSF]]. unfold fillCpp.
    rewrite (holds_defined _ _ _ HN). cbn [bind]. rewrite NN.
    replace (D * (length (nodes t) / D)) with (length (nodes t)) by (pose proof (Nat.div_mod (length (nodes t)) D ltac:(lia)); lia).
    rewrite (flat_read (readReal w Nodes) (nodes t) _ (fun i x S E => readReal_ok Nodes _ i x (eq_ind _ (fun s => Holds (mem w) (ptrs w Nodes) s _) HN _ S) E) eq_refl). cbn [bind].
    rewrite NC. rewrite (mmap_nth (readRow w CellOffsets (readInt w CellFaces)) (cells t)); [cbn [bind]|].
    2:{ intros i row E. eapply rows_ok; eauto. intros k x X. eapply readInt_ok; eauto. apply data_ok; auto. }
    rewrite NF. rewrite (mmap_nth (readRow w FaceOffsets (readUns w FaceNodes)) (faces t)); [cbn [bind]|].
    2:{ intros i row E. eapply rows_ok; eauto. intros k x X. eapply readUns_ok; eauto. apply data_ok; auto. }
    rewrite (holds_defined _ _ _ HBN). cbn [bind]. rewrite NBN.
    rewrite (flat_read (readUns w BoundaryNodes) (boundaryNodes t) _ (fun i x S E => readUns_ok BoundaryNodes _ i x (eq_ind _ (fun s => Holds (mem w) (ptrs w BoundaryNodes) s _) HBN _ S) E) eq_refl). cbn [bind].
    rewrite (holds_defined _ _ _ HBF). cbn [bind]. rewrite NBF.
    rewrite (flat_read (readUns w BoundaryFaces) (boundaryFaces t) _ (fun i x S E => readUns_ok BoundaryFaces _ i x (eq_ind _ (fun s => Holds (mem w) (ptrs w BoundaryFaces) s _) HBF _ S) E) eq_refl). cbn [bind].
    rewrite <- SFC. rewrite <- (map_length told (faceCells t)) at 1. rewrite (mmap_nth _ (map told (faceCells t))); [cbn [bind]|].
    2:{ intros i x E. rewrite nth_error_map in E. destruct (nth_error (faceCells t) i) as [fc|] eqn:F; [|discriminate]. cbn in E. injection E as <-.
        assert (FI : i < length (faceCells t)) by (apply nth_error_Some; congruence).
        assert (HF : Holds (mem w) (ptrs w FaceCells) false (BInt (pairs (faceCells t)))).
        { replace false with (2 * length (faces t) =? 0); [exact HFC|]. apply Nat.eqb_neq. lia. }
        destruct (pairs_nth _ _ _ F) as [P1 P2]. rewrite (readInt_ok _ _ _ _ HF P2). cbn [bind].
        assert (R0 : readInt w FaceCells (2 * i + 0) = Ok (first fc)). { rewrite Nat.add_0_r. eapply readInt_ok; eauto. }
        assert (R1 : readInt w FaceCells (2 * i + 1) = Ok (second fc)) by (eapply readInt_ok; eauto).
        destruct (SC fc (nth_error_In _ _ F)) as [L|L].
        - destruct fc as [|c [|]]; try discriminate. cbn [second Z.eqb]. cbn [Z.eqb Pos.eqb negb seq mmap]. rewrite R0. reflexivity.
        - destruct fc as [|c [|d [|]]]; try discriminate. cbn [second told] in *. destruct (Z.eqb_spec d (-1)) as [E|E]; cbn [negb seq mmap]; rewrite R0; [reflexivity|]. cbn [bind]. rewrite R1. reflexivity. }
    rewrite (holds_defined _ _ _ HND). cbn [bind]. rewrite ND.
    rewrite (flat_read (readUns w NeighborDomains) (neighborDomains t) _ (fun i x S E => readUns_ok NeighborDomains _ i x (eq_ind _ (fun s => Holds (mem w) (ptrs w NeighborDomains) s _) HND _ S) E) eq_refl). cbn [bind].
    replace (length (neighborDomains t)) with (length (combine (sharedNodes t) (sharedFaces t))) by (rewrite combine_length, SSN, SSF; lia).
    rewrite (mmap_nth _ (combine (sharedNodes t) (sharedFaces t))); [cbn [bind]|].
    2:{ intros i [a b] E. assert (nth_error (sharedNodes t) i = Some a /\ nth_error (sharedFaces t) i = Some b) as [E1 E2].
        { clear -E. revert E. generalize (sharedNodes t), (sharedFaces t). induction i as [|i IH]; intros [|x l] [|y l'] E; try discriminate; cbn in *; [injection E as -> ->; auto|]. apply IH; auto. }
        rewrite (rows_ok SharedNodeOffsets (readUns w SharedNodes) (sharedNodes t) i a); auto; [cbn [bind]|intros k x X; eapply readUns_ok; eauto; apply data_ok; auto].
        rewrite (rows_ok SharedFaceOffsets (readUns w SharedFaces) (sharedFaces t) i b); auto. intros k x X; eapply readUns_ok; eauto; apply data_ok; auto. }
    f_equal. assert (LL : length (sharedNodes t) = length (sharedFaces t)) by congruence. clear -LL.
    f_equal.
    - revert LL. generalize (sharedNodes t), (sharedFaces t). induction l as [|x l IH]; intros [|y l'] L; try discriminate; cbn in *; auto. f_equal. auto.
    - revert LL. generalize (sharedNodes t), (sharedFaces t). induction l as [|x l IH]; intros [|y l'] L; try discriminate; cbn in *; auto. f_equal. auto.
  Qed.
End Read.
