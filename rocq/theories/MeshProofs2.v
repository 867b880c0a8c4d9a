(* Consequences of PartOf, and the query routines. *)
From Verif Require Import Base BaseFacts StdAlg Rank SerializeModel MeshModel MeshSpec MeshProofs.
From Coq Require Import Sorted.

Lemma sorted_inj l a b x : StronglySorted lt l -> nth_error l a = Some x -> nth_error l b = Some x -> a = b.
Proof.
  intros S Ha Hb. apply sorted_lt_nodup in S. rewrite NoDup_nth_error in S. apply S.
  - apply nth_error_lt in Ha; auto.
  - congruence.
Qed.

Lemma selected_in_l {A B} (P : A -> Prop) (R : A -> B -> Prop) l l' a :
  selected P R l l' -> In a l -> P a -> exists b, In b l' /\ R a b.
Proof.
  induction 1; intros I Pa; [contradiction| |].
  - destruct I as [->|I]; [exists b; split; [left; auto|auto]|].
    destruct (IHselected I Pa) as (b' & ? & ?); exists b'; split; [right; auto|auto].
  - destruct I as [->|I]; [contradiction|auto].
Qed.
Lemma selected_in_r {A B} (P : A -> Prop) (R : A -> B -> Prop) l l' b :
  selected P R l l' -> In b l' -> exists a, In a l /\ P a /\ R a b.
Proof.
  induction 1; intros I; [contradiction| |].
  - destruct I as [->|I]; [exists a; split; [left; auto|auto]|].
    destruct (IHselected I) as (a' & ? & ? & ?); exists a'; split; [right; auto|auto].
  - destruct (IHselected I) as (a' & ? & ? & ?); exists a'; split; [right; auto|auto].
Qed.
Lemma selected_length {A B} (P : A -> Prop) (R : A -> B -> Prop) l l' :
  selected P R l l' -> length l' <= length l.
Proof. induction 1; cbn; lia. Qed.

Lemma pid_sign_cell z i : pid (sign_cell z i) = i.
Proof. unfold sign_cell. destruct (0 <=? z)%Z; [apply pid_of_nat|apply pid_lnot_of_nat]. Qed.
Lemma pid_sign_face z i : pid (sign_face z i) = i.
Proof. apply pid_sign_cell. Qed.
Lemma sign_cell_nonneg z i : (0 <= sign_cell z i)%Z <-> (0 <= z)%Z.
Proof. unfold sign_cell, Z.lnot. destruct (Z.leb_spec 0 z); lia. Qed.
Lemma signed_ext x y : ((0 <= x)%Z <-> (0 <= y)%Z) -> pid x = pid y -> x = y.
Proof.
  unfold pid, positiveID, Z.lnot. intros E P.
  destruct (Z.leb_spec 0 x), (Z.leb_spec 0 y); lia.
Qed.

Section Part.
  Context {V : Type} (D : nat) (m m' : mesh V) (kC kF kN : list nat).
  Hypothesis Dpos : 0 < D.
  Hypothesis WF : WellFormed D m.
  Hypothesis PO : PartOf D m m' kC kF kN.

  Lemma part_cell a c' : nth_error (cells m') a = Some c' ->
    exists i c, nth_error kC a = Some i /\ nth_error (cells m) i = Some c /\ Forall2 (stands kF) c c'.
  Proof.
    intros H. assert (L : a < length kC) by (rewrite <- (po_ncells _ _ _ _ _ _ PO); eapply nth_error_lt; eauto).
    destruct (nth_error_ex kC a L) as [i Hi].
    destruct (po_cells _ _ _ _ _ _ PO a i Hi) as (c & c2 & Hc & Hc2 & F).
    rewrite H in Hc2; inversion Hc2; subst. exists i, c; auto.
  Qed.
  Lemma part_face a ns' : nth_error (faces m') a = Some ns' ->
    exists f ns, nth_error kF a = Some f /\ nth_error (faces m) f = Some ns /\
      Forall2 (fun n n' => nth_error kN n' = Some n) ns ns'.
  Proof.
    intros H. assert (L : a < length kF) by (rewrite <- (po_nfaces _ _ _ _ _ _ PO); eapply nth_error_lt; eauto).
    destruct (nth_error_ex kF a L) as [i Hi].
    destruct (po_faces _ _ _ _ _ _ PO a i Hi) as (c & c2 & Hc & Hc2 & F).
    rewrite H in Hc2; inversion Hc2; subst. exists i, c; auto.
  Qed.
  Lemma part_fc a fc' : nth_error (faceCells m') a = Some fc' ->
    exists f fc, nth_error kF a = Some f /\ nth_error (faceCells m) f = Some fc /\
      selected (fun z => In (pid z) kC) (stands kC) fc fc'.
  Proof.
    intros H. assert (L : a < length kF) by (rewrite <- (po_nfc _ _ _ _ _ _ PO); eapply nth_error_lt; eauto).
    destruct (nth_error_ex kF a L) as [i Hi].
    destruct (po_fc _ _ _ _ _ _ PO a i Hi) as (c & c2 & Hc & Hc2 & F).
    rewrite H in Hc2; inversion Hc2; subst. exists i, c; auto.
  Qed.

  Lemma kF_has_cell f fc : In f kF -> nth_error (faceCells m) f = Some fc ->
    exists z, In z fc /\ In (pid z) kC.
  Proof.
    intros I Hfc. apply (po_F _ _ _ _ _ _ PO) in I as (i & c & z & Ii & Hc & Iz & <-).
    exists (sign_cell z i). split; [eapply (wf_cell_face _ _ WF); eauto|].
    rewrite pid_sign_cell; auto.
  Qed.

  Theorem part_wf : WellFormed D m'.
  Proof.
    assert (SC := po_sortedC _ _ _ _ _ _ PO). assert (SF := po_sortedF _ _ _ _ _ _ PO).
    constructor.
    - exists (length kN). apply (po_nnodes _ _ _ _ _ _ PO).
    - intros a c' z' Hc' I. destruct (part_cell a c' Hc') as (i & c & _ & _ & F).
      destruct (Forall2_in_r _ _ _ _ F I) as (z & _ & _ & Hz).
      rewrite (po_nfaces _ _ _ _ _ _ PO). apply nth_error_lt in Hz; auto.
    - intros a ns' n' Hn I. destruct (part_face a ns' Hn) as (f & ns & _ & _ & F).
      destruct (Forall2_in_r _ _ _ _ F I) as (n & _ & Hn').
      rewrite (po_nnodes _ _ _ _ _ _ PO). apply nth_error_lt in Hn'. nia.
    - rewrite (po_nfc _ _ _ _ _ _ PO), (po_nfaces _ _ _ _ _ _ PO); auto.
    - intros a fc' H. destruct (part_fc a fc' H) as (f & fc & Hf & Hfc & Sel).
      assert (If := nth_error_In _ _ Hf).
      destruct (kF_has_cell f fc If Hfc) as (z & Iz & Kz).
      destruct (selected_in_l _ _ _ _ _ Sel Iz Kz) as (b & Ib & _).
      pose proof (selected_length _ _ _ _ Sel).
      assert (0 < length fc') by (destruct fc'; [contradiction|cbn; lia]).
      destruct (wf_fc _ _ WF _ _ Hfc); lia.
    - intros a c' z' fc' Hc' I Hfc'.
      destruct (part_cell a c' Hc') as (i & c & Hi & Hc & F).
      destruct (Forall2_in_r _ _ _ _ F I) as (z & Iz & Sz & Hz).
      destruct (part_fc _ fc' Hfc') as (f & fc & Hf & Hfc & Sel).
      rewrite Hz in Hf; inversion Hf; subst f.
      pose proof (wf_cell_face _ _ WF _ _ _ _ Hc Iz Hfc) as Ic.
      assert (Ki : In (pid (sign_cell z i)) kC) by (rewrite pid_sign_cell; eapply nth_error_In; eauto).
      destruct (selected_in_l _ _ _ _ _ Sel Ic Ki) as (y & Iy & Sy & Hy).
      rewrite pid_sign_cell in Hy. rewrite sign_cell_nonneg in Sy.
      assert (y = sign_cell z' a); [|subst; auto].
      apply signed_ext; [rewrite sign_cell_nonneg; tauto|].
      rewrite pid_sign_cell. exact (sorted_inj kC _ _ i SC Hy Hi).
    - intros b fc' z' Hfc' I. destruct (part_fc _ fc' Hfc') as (f & fc & Hf & Hfc & Sel).
      destruct (selected_in_r _ _ _ _ _ Sel I) as (z & Iz & Kz & Sz & Hz).
      destruct (wf_face_cell _ _ WF _ _ _ Hfc Iz) as (c & Hc & Ic).
      destruct (po_cells _ _ _ _ _ _ PO _ _ Hz) as (c0 & c' & Hc0 & Hc' & F).
      rewrite Hc in Hc0; inversion Hc0; subst c0.
      exists c'; split; auto.
      destruct (Forall2_in_l _ _ _ _ F Ic) as (y & Iy & Sy & Hy).
      rewrite pid_sign_face in Hy. unfold sign_face in Sy. fold (sign_cell z f) in Sy.
      rewrite sign_cell_nonneg in Sy.
      assert (y = sign_face z' b); [|subst; auto].
      apply signed_ext; [unfold sign_face; fold (sign_cell z' b); rewrite sign_cell_nonneg; tauto|].
      rewrite pid_sign_face. exact (sorted_inj kF _ _ f SF Hy Hf).
    - rewrite (po_nsn _ _ _ _ _ _ PO), (po_nsf _ _ _ _ _ _ PO). apply (wf_shared_size _ _ WF).
    - intros d l' n' Hl' I. 
      assert (L : d < length (sharedNodes m)) by (rewrite <- (po_nsn _ _ _ _ _ _ PO); eapply nth_error_lt; eauto).
      destruct (nth_error_ex _ _ L) as [l Hl].
      destruct (po_sn _ _ _ _ _ _ PO d l Hl) as (l2 & Hl2 & Sel).
      rewrite Hl' in Hl2; inversion Hl2; subst l2.
      destruct (selected_in_r _ _ _ _ _ Sel I) as (n & _ & _ & Hn).
      rewrite (po_nnodes _ _ _ _ _ _ PO). apply nth_error_lt in Hn. nia.
    - intros d l' n' Hl' I. 
      assert (L : d < length (sharedFaces m)) by (rewrite <- (po_nsf _ _ _ _ _ _ PO); eapply nth_error_lt; eauto).
      destruct (nth_error_ex _ _ L) as [l Hl].
      destruct (po_sf _ _ _ _ _ _ PO d l Hl) as (l2 & Hl2 & Sel).
      rewrite Hl' in Hl2; inversion Hl2; subst l2.
      destruct (selected_in_r _ _ _ _ _ Sel I) as (n & _ & _ & Hn).
      rewrite (po_nfaces _ _ _ _ _ _ PO). apply nth_error_lt in Hn. auto.
  Qed.

  (* every face of the result is used by a cell, every node by a face *)
  Theorem part_no_orphans :
    (forall f, f < length (faces m') ->
       exists i c z, nth_error (cells m') i = Some c /\ In z c /\ pid z = f) /\
    (forall n, D * n + D <= length (nodes m') ->
       exists f ns, nth_error (faces m') f = Some ns /\ In n ns).
  Proof.
    assert (SF := po_sortedF _ _ _ _ _ _ PO). assert (SN := po_sortedN _ _ _ _ _ _ PO). split.
    - intros b L. rewrite (po_nfaces _ _ _ _ _ _ PO) in L. destruct (nth_error_ex kF b L) as [f Hf].
      assert (If := nth_error_In _ _ Hf).
      apply (po_F _ _ _ _ _ _ PO) in If as (i & c & z & Ii & Hc & Iz & <-).
      apply In_nth_error in Ii as [a Ha].
      destruct (po_cells _ _ _ _ _ _ PO _ _ Ha) as (c0 & c' & Hc0 & Hc' & F).
      rewrite Hc in Hc0; inversion Hc0; subst c0.
      destruct (Forall2_in_l _ _ _ _ F Iz) as (y & Iy & Sy & Hy).
      exists a, c', y. repeat split; auto. exact (sorted_inj kF _ _ _ SF Hy Hf).
    - intros b L. rewrite (po_nnodes _ _ _ _ _ _ PO) in L.
      assert (L' : b < length kN) by nia. destruct (nth_error_ex kN b L') as [n Hn].
      assert (In0 := nth_error_In _ _ Hn).
      apply (po_N _ _ _ _ _ _ PO) in In0 as (f & ns & If & Hf & Ix).
      apply In_nth_error in If as [a Ha].
      destruct (po_faces _ _ _ _ _ _ PO _ _ Ha) as (ns0 & ns' & Hns0 & Hns' & F).
      rewrite Hf in Hns0; inversion Hns0; subst ns0.
      destruct (Forall2_in_l _ _ _ _ F Ix) as (y & Iy & Hy).
      exists a, ns'. split; auto. assert (y = b) by exact (sorted_inj kN _ _ _ SN Hy Hn). subst; auto.
  Qed.
End Part.

(* matching shared lists stay matching *)
Lemma selected_match {A} (P1 P2 : A -> Prop) (R1 R2 : A -> A -> Prop) (M : A -> A -> Prop) l1 l2 l1' l2' :
  Forall2 (fun a b => M a b /\ (P1 a <-> P2 b)) l1 l2 ->
  selected P1 R1 l1 l1' -> selected P2 R2 l2 l2' ->
  Forall2 (fun a' b' => exists a b, R1 a a' /\ R2 b b' /\ M a b) l1' l2'.
Proof.
  intros F; revert l1' l2'. induction F as [|a b l1 l2 [Hm Hp] F IH]; intros l1' l2' S1 S2.
  - inversion S1; inversion S2; constructor.
  - inversion S1; subst; inversion S2; subst; try tauto.
    + constructor; [exists a, b; auto|auto].
    + auto.
Qed.

(* ----------------------------------------------------------------- queries *)
Lemma set_insert_in x s y : In y (set_insert x s) <-> y = x \/ In y s.
Proof.
  induction s as [|a s IH]; cbn [set_insert]; [cbn; intuition|].
  destruct (Nat.ltb_spec x a); [cbn; intuition|].
  destruct (Nat.ltb_spec a x); cbn [In]; [rewrite IH; intuition|].
  assert (x = a) by lia; subst; intuition.
Qed.
Lemma set_insert_sorted x s : StronglySorted lt s -> StronglySorted lt (set_insert x s).
Proof.
  induction 1 as [|a s S IH F]; cbn [set_insert]; [repeat constructor|].
  destruct (Nat.ltb_spec x a).
  - constructor; [constructor; auto|]. constructor; auto.
    eapply Forall_impl; [|eassumption]; cbn; lia.
  - destruct (Nat.ltb_spec a x).
    + constructor; auto. rewrite Forall_forall in *. intros y Hy.
      apply set_insert_in in Hy as [->|Hy]; auto.
    + constructor; auto.
Qed.

Section Query.
  Context {V : Type} (D : nat) (m : mesh V).
  Hypothesis Dpos : 0 < D.
  Hypothesis WF : WellFormed D m.

  (* cell i touches node n *)
  Definition touches (i n : nat) : Prop :=
    exists c z ns, nth_error (cells m) i = Some c /\ In z c /\
                   nth_error (faces m) (pid z) = Some ns /\ In n ns.

  Definition setsOf (r : list (list nat)) (P : nat -> nat -> Prop) : Prop :=
    forall n s, nth_error r n = Some s -> StronglySorted lt s /\ forall i, In i s <-> P i n.

  Lemma setsOf_ext r P Q : (forall i n, n < length r -> (P i n <-> Q i n)) -> setsOf r P -> setsOf r Q.
  Proof.
    intros E H n s Hn. destruct (H n s Hn) as [S I]. split; auto. intros i; rewrite I.
    apply E. apply nth_error_lt in Hn; auto.
  Qed.

  Lemma put_ok r P i n : setsOf r P -> n < length r ->
    exists r', (do _ <- assert (n <? length r); do s <- get r n; set r n (set_insert i s)) = Ok r' /\
      length r' = length r /\ setsOf r' (fun j k => P j k \/ (j = i /\ k = n)).
  Proof.
    intros H L. destruct (Nat.ltb_spec n (length r)); [|lia]. cbn [assert bind].
    destruct (nth_error_ex r n L) as [s Hs]. rewrite (proj2 (get_ok _ _ _) Hs). cbn [bind].
    rewrite set_lt by auto. eexists; split; [reflexivity|]. split; [apply upd_length|].
    intros k t Hk. destruct (Nat.eq_dec k n) as [->|N].
    - rewrite upd_same in Hk by auto. inversion Hk; subst. destruct (H n s Hs) as [S I].
      split; [apply set_insert_sorted; auto|]. intros j. rewrite set_insert_in, I. intuition.
    - rewrite upd_other in Hk by auto. destruct (H k t Hk) as [S I]. split; auto.
      intros j; rewrite I. intuition.
  Qed.

  Theorem nodeCells_ok : exists r, computeNodeCells D m = Ok r /\ length r = numNodes D m /\
    setsOf r touches.
  Proof.
    unfold computeNodeCells. cbv zeta.
    match goal with |- context [mfold ?f (seq 0 _) _] => set (F := f) end.
    destruct (mfold_seq F (fun k r => length r = numNodes D m /\
        setsOf r (fun i n => i < k /\ touches i n)) (length (cells m)) (repeat [] (numNodes D m)))
      as (r & E & L & H).
    - split; [apply repeat_length|]. intros n s Hn.
      rewrite nth_error_repeat in Hn by (apply nth_error_lt in Hn; rewrite repeat_length in Hn; auto).
      inversion Hn; subst. split; [constructor|]. intros i; cbn; split; [tauto|lia].
    - intros k r Lk [L H]. unfold F. destruct (nth_error_ex (cells m) k Lk) as [c Hc].
      rewrite (proj2 (get_ok _ _ _) Hc). cbn [bind].
      match goal with |- context [mfold ?f c r] => set (G := f) end.
      destruct (mfold_inv G (fun done r => length r = numNodes D m /\
          setsOf r (fun i n => (i < k /\ touches i n) \/ (i = k /\
             exists z ns, In z done /\ nth_error (faces m) (pid z) = Some ns /\ In n ns))) c r)
        as (r' & E & L' & H').
      + split; auto. eapply setsOf_ext; eauto. intros i n _; cbn. split; [auto|].
        intros [?|[_ (z & ns & [] & _)]]; auto.
      + intros l1 z l2 s Ec [Ls Hs]. unfold G.
        assert (Iz : In z c) by (rewrite Ec; apply in_or_app; right; left; auto).
        destruct (nth_error_ex (faces m) (pid z)) as [ns Hns]; [eapply (wf_cells _ _ WF); eauto|].
        rewrite (proj2 (get_ok _ _ _) Hns). cbn [bind].
        match goal with |- context [mfold ?f ns s] => set (K := f) end.
        destruct (mfold_inv K (fun done r => length r = numNodes D m /\
          setsOf r (fun i n => ((i < k /\ touches i n) \/ (i = k /\
             exists z ns, In z l1 /\ nth_error (faces m) (pid z) = Some ns /\ In n ns)) \/
             (i = k /\ In n done))) ns s) as (s' & E' & L'' & H'').
        * split; auto. eapply setsOf_ext; eauto. intros; cbn; tauto.
        * intros a1 n a2 t En [Lt Ht].
          assert (Ln : n < length t).
          { rewrite Lt. apply (node_lt D m Dpos WF). eapply (wf_faces _ _ WF); eauto.
            rewrite En; apply in_or_app; right; left; auto. }
          destruct (put_ok t _ k n Ht Ln) as (t' & Et & Lt' & Ht'). exists t'; split; [exact Et|].
          split; [lia|]. eapply setsOf_ext; eauto. intros i j _; cbn. rewrite in_app_iff. cbn.
          intuition.
        * exists s'; split; [exact E'|]. split; auto. eapply setsOf_ext; eauto. intros i n _; cbn.
          split.
          -- intros [[?|[-> (z' & ns' & I & Hn & J)]]|[-> J]]; auto; right; split; auto.
             ++ exists z', ns'; rewrite in_app_iff; auto.
             ++ exists z, ns; rewrite in_app_iff; cbn; auto.
          -- intros [?|[-> (z' & ns' & I & Hn & J)]]; auto.
             apply in_app_or in I as [I|[<-|[]]].
             ++ left; right; split; auto. exists z', ns'; auto.
             ++ right; split; auto. rewrite Hns in Hn; inversion Hn; subst; auto.
      + exists r'; split; [exact E|]. split; auto. eapply setsOf_ext; eauto. intros i n _; cbn. split.
        * intros [[? ?]|[-> (z & ns & I & Hn & J)]]; [split; auto; lia|]. split; [lia|].
          exists c, z, ns; auto.
        * intros [Li T]. destruct (Nat.eq_dec i k) as [->|N]; [|left; split; auto; lia].
          right; split; auto. destruct T as (c' & z & ns & Hc' & I & Hn & J).
          rewrite Hc in Hc'; inversion Hc'; subst. exists z, ns; auto.
    - exists r. split; auto. split; auto. eapply setsOf_ext; eauto. intros i n _; cbn.
      split; [tauto|]. intros T; split; auto. destruct T as (c & z & ns & Hc & _).
      apply nth_error_lt in Hc; auto.
  Qed.

  Theorem cellNodes_ok : exists r, computeCellToNodes m = Ok r /\ length r = length (cells m) /\
    setsOf r (fun n i => touches i n).
  Proof.
    unfold computeCellToNodes.
    match goal with |- context [mmap ?f _] => set (F := f) end.
    destruct (mmap_forall2 F (fun c s => StronglySorted lt s /\ forall n, In n s <->
       exists z ns, In z c /\ nth_error (faces m) (pid z) = Some ns /\ In n ns) (cells m))
      as (r & E & H).
    - intros c Ic. unfold F. apply In_nth_error in Ic as [i Hc].
      match goal with |- context [mfold ?f c []] => set (G := f) end.
      destruct (mfold_inv G (fun done s => StronglySorted lt s /\ forall n, In n s <->
         exists z ns, In z done /\ nth_error (faces m) (pid z) = Some ns /\ In n ns) c [])
        as (s & E & H).
      + split; [constructor|]. intros n; split; [intros []|intros (z & ns & [] & _)].
      + intros l1 z l2 s Ec [Ss Hs]. unfold G.
        assert (Iz : In z c) by (rewrite Ec; apply in_or_app; right; left; auto).
        assert (Lz : pid z < length (faces m)) by (eapply (wf_cells _ _ WF); eauto).
        rewrite (wf_fcs _ _ WF). destruct (Nat.ltb_spec (pid z) (length (faces m))); [|lia]. cbn [assert bind].
        destruct (nth_error_ex (faces m) (pid z) Lz) as [ns Hns].
        rewrite (proj2 (get_ok _ _ _) Hns). cbn [bind].
        match goal with |- context [mfold ?f ns s] => set (K := f) end.
        destruct (mfold_inv K (fun done t => StronglySorted lt t /\ forall n, In n t <-> In n s \/ In n done) ns s)
          as (s' & E' & S' & H').
        * split; auto. intros n; cbn; tauto.
        * intros a1 n a2 t En [St Ht]. unfold K.
          assert (Ln : n < length (nodes m)).
          { assert (D * n + D <= length (nodes m)); [|nia]. eapply (wf_faces _ _ WF); eauto.
            rewrite En; apply in_or_app; right; left; auto. }
          destruct (Nat.ltb_spec n (length (nodes m))); [|lia]. cbn [assert bind].
          eexists; split; [reflexivity|]. split; [apply set_insert_sorted; auto|].
          intros j. rewrite set_insert_in, Ht, in_app_iff. cbn. intuition.
        * exists s'; split; [exact E'|]. split; auto. intros n. rewrite H', Hs. split.
          -- intros [(z' & ns' & I & Hn & J)|J].
             ++ exists z', ns'; rewrite in_app_iff; auto.
             ++ exists z, ns; rewrite in_app_iff; cbn; auto.
          -- intros (z' & ns' & I & Hn & J). apply in_app_or in I as [I|[<-|[]]].
             ++ left; exists z', ns'; auto.
             ++ right. rewrite Hns in Hn; inversion Hn; subst; auto.
      + exists s; split; auto.
    - exists r. split; auto. split; [symmetry; eapply Forall2_len; eauto|].
      intros i s Hs. destruct (Forall2_nth_r _ _ _ _ _ H Hs) as (c & Hc & S & I). split; auto.
      intros n. rewrite I. unfold touches. split.
      + intros (z & ns & A & B & C). exists c, z, ns; auto.
      + intros (c' & z & ns & A & B & C & E'). rewrite Hc in A; inversion A; subst. exists z, ns; auto.
  Qed.

  (* boundary *)
  Definition bface (f : nat) : Prop := exists fc, nth_error (faceCells m) f = Some fc /\ length fc = 1.
  Definition bnode (n : nat) : Prop := exists f ns, bface f /\ nth_error (faces m) f = Some ns /\ In n ns.

  Lemma boundary_loop : exists bf bn,
    mfold (fun '(bf, bn) iface =>
      do fc <- get (faceCells m) iface;
      do _ <- assert ((length fc =? 1) || (length fc =? 2));
      if length fc =? 1 then
        do f <- get (faces m) iface; Ok (bf ++ [iface], bn ++ f)
      else Ok (bf, bn)) (seq 0 (length (faces m))) ([], []) = Ok (bf, bn) /\
    StronglySorted lt bf /\ (forall f, In f bf <-> bface f) /\ (forall n, In n bn <-> bnode n).
  Proof.
    match goal with |- context [mfold ?f _ _] => set (F := f) end.
    destruct (mfold_seq F (fun k st => StronglySorted lt (fst st) /\
        (forall f, In f (fst st) <-> f < k /\ bface f) /\
        (forall n, In n (snd st) <-> exists f ns, f < k /\ bface f /\ nth_error (faces m) f = Some ns /\ In n ns))
        (length (faces m)) ([], [])) as ([bf bn] & E & S & H1 & H2).
    - cbn. split; [constructor|]. split; [intros; lia|]. intros n; split; [tauto|].
      intros (f & ns & L & _); lia.
    - intros k [bf bn] Lk (S & H1 & H2). cbn [fst snd] in *. unfold F.
      assert (Lfc : k < length (faceCells m)) by (rewrite (wf_fcs _ _ WF); auto).
      destruct (nth_error_ex _ _ Lfc) as [fc Hfc]. rewrite (proj2 (get_ok _ _ _) Hfc). cbn [bind].
      assert (W := wf_fc _ _ WF _ _ Hfc).
      replace ((length fc =? 1) || (length fc =? 2)) with true.
      2:{ destruct W as [-> | ->]; reflexivity. }
      cbn [assert bind]. destruct (Nat.eqb_spec (length fc) 1) as [E1|E1].
      + destruct (nth_error_ex (faces m) k Lk) as [ns Hns]. rewrite (proj2 (get_ok _ _ _) Hns). cbn [bind].
        eexists; split; [reflexivity|]. cbn [fst snd]. split; [|split].
        * assert (G : forall l, StronglySorted lt l -> (forall x, In x l -> x < k) -> StronglySorted lt (l ++ [k])).
          { clear. induction 1 as [|a l S IH F]; intros B; cbn; [repeat constructor|].
            constructor; [apply IH; intros; apply B; right; auto|].
            apply Forall_app; split; auto. repeat constructor. apply B; left; auto. }
          apply G; auto. intros x Ix. apply H1 in Ix; tauto.
        * intros f. rewrite in_app_iff, H1. cbn. split.
          -- intros [[? ?]|[<-|[]]]; [split; auto; lia|]. split; [lia|]. exists fc; auto.
          -- intros [L B]. destruct (Nat.eq_dec f k) as [->|N]; [auto|left; split; auto; lia].
        * intros n. rewrite in_app_iff, H2. split.
          -- intros [(f & ns' & L & B)|I]; [exists f, ns'; split; [lia|auto]|].
             exists k, ns; repeat split; auto; [lia|exists fc; auto].
          -- intros (f & ns' & L & B & Hn & I). destruct (Nat.eq_dec f k) as [->|N].
             ++ right. rewrite Hns in Hn; inversion Hn; subst; auto.
             ++ left; exists f, ns'; repeat split; auto; lia.
      + eexists; split; [reflexivity|]. cbn [fst snd].
        assert (NB : ~ bface k).
        { intros (fc' & Hfc' & L). rewrite Hfc in Hfc'; inversion Hfc'; subst; auto. }
        split; [auto|]. split.
        * intros f. rewrite H1. split; [intros [? ?]; split; auto; lia|].
          intros [L B]. split; auto. destruct (Nat.eq_dec f k) as [->|]; [contradiction|lia].
        * intros n. rewrite H2. split; intros (f & ns' & L & B & C).
          -- exists f, ns'; split; [lia|auto].
          -- exists f, ns'; split; [|auto].
             destruct (Nat.eq_dec f k) as [->|]; [contradiction|lia].
    - exists bf, bn. cbn [fst snd] in *. split; auto. split; auto. split.
      + intros f. rewrite H1. split; [tauto|]. intros B; split; auto.
        destruct B as (fc & Hfc & _). apply nth_error_lt in Hfc. rewrite <- (wf_fcs _ _ WF); auto.
      + intros n. rewrite H2. split; intros (f & ns & B).
        * exists f, ns; tauto.
        * exists f, ns. destruct B as (B & Hn & I). repeat split; auto. apply nth_error_lt in Hn; auto.
  Qed.

  Theorem boundary_ok : 2 <= D -> (exists n, bnode n) ->
    exists bf bn, findBoundaryElements m = Ok (bf, bn) /\
      StronglySorted lt bf /\ (forall f, In f bf <-> bface f) /\
      StronglySorted lt bn /\ (forall n, In n bn <-> bnode n).
  Proof.
    intros D2 [n0 B0]. unfold findBoundaryElements.
    destruct boundary_loop as (bf & bn & -> & S & H1 & H2). cbn [bind].
    set (u := unique (StdAlg.sort bn)).
    assert (Hu : forall n, In n u <-> bnode n).
    { intros n. unfold u. rewrite unique_in, sort_in. apply H2. }
    assert (Su : StronglySorted lt u) by (apply unique_sorted, sort_sorted).
    assert (Pos : 0 < length u) by (apply Hu in B0; destruct u; [contradiction|cbn; lia]).
    destruct (Nat.ltb_spec 0 (length u)); [|lia]. cbn [assert bind].
    assert (Le : length u <= numNodes D m).
    { rewrite <- (seq_length (numNodes D m) 0). apply NoDup_incl_length; [apply sorted_lt_nodup; auto|].
      intros n I. apply in_seq. apply Hu in I as (f & ns & _ & Hn & I).
      split; [lia|]. apply (node_lt D m Dpos WF). eapply (wf_faces _ _ WF); eauto. }
    assert (Hd : length u <= length (nodes m) / 2).
    { rewrite (numNodes_eq D m Dpos WF). apply Nat.div_le_lower_bound; nia. }
    apply Nat.leb_le in Hd. rewrite Hd. cbn [assert bind].
    exists bf, u; auto.
  Qed.

  Theorem boundary_closed : (forall f, ~ bface f) -> findBoundaryElements m = Abort.
  Proof.
    intros N. unfold findBoundaryElements.
    destruct boundary_loop as (bf & bn & -> & S & H1 & H2). cbn [bind].
    assert (bn = []).
    { destruct bn as [|n bn]; [auto|]. destruct (proj1 (H2 n)) as (f & ns & B & _); [left; auto|].
      exfalso; eapply N; eauto. }
    subst. reflexivity.
  Qed.
End Query.
