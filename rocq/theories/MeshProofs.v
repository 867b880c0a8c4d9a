From Verif Require Import Base BaseFacts StdAlg Rank SerializeModel MeshModel MeshSpec.
From Coq Require Import Sorted.

(* ------------------------------------------------------------------- ranks *)
Lemma rank_shift keep k : rank keep (S k) = (if keep 0 then 1 else 0) + rank (fun i => keep (S i)) k.
Proof.
  induction k as [|k IH].
  - rewrite rank_S, !rank_0. destruct (keep 0); reflexivity.
  - rewrite rank_S, IH, rank_S. lia.
Qed.

Lemma kept_sorted keep n : StronglySorted lt (kept keep n).
Proof.
  induction n as [|n IH]; [constructor|]. rewrite kept_S.
  assert (G : forall l, StronglySorted lt l -> (forall x, In x l -> x < n) -> StronglySorted lt (l ++ [n])).
  { clear. induction 1 as [|a l S IH F]; intros B; cbn; [repeat constructor|].
    constructor; [apply IH; intros; apply B; right; auto|].
    apply Forall_app; split; auto. repeat constructor. apply B; left; auto. }
  destruct (keep n); [|rewrite app_nil_r; auto].
  apply G; auto. intros x I. apply kept_in in I; tauto.
Qed.

Definition on (mask : list nat) (i : nat) : bool := nth i mask 0 =? 1.

Lemma number_spec mask next l n : number mask next = (l, n) ->
  length l = length mask /\ n = next + rank (on mask) (length mask) /\
  forall i, i < length mask ->
    nth_error l i = Some (if on mask i then Some (next + rank (on mask) i) else None).
Proof.
  revert next l n; induction mask as [|k t IH]; intros next l n E; cbn [number] in E.
  - inversion E; subst. cbn. repeat split; auto. intros; lia.
  - assert (R : forall j, rank (on (k :: t)) (S j) = (if k =? 1 then 1 else 0) + rank (on t) j).
    { intros j. rewrite rank_shift. reflexivity. }
    destruct (number t (if k =? 1 then S next else next)) as [l' n'] eqn:E'.
    destruct (IH _ _ _ E') as (L & N & H).
    assert (l = (if k =? 1 then Some next else None) :: l' /\ n = n') as [-> ->].
    { destruct (k =? 1); rewrite E' in E; inversion E; auto. }
    cbn [length]. rewrite R. split; [lia|]. split.
    + destruct (k =? 1); lia.
    + intros [|i] Hi.
      * cbn [nth_error]. rewrite rank_0. unfold on; cbn [nth]. destruct (k =? 1); repeat f_equal; lia.
      * cbn [nth_error]. rewrite H by lia. rewrite R. unfold on; cbn.
        destruct (nth i t 0 =? 1); [|auto]. do 2 f_equal. destruct (k =? 1); lia.
Qed.

Lemma has_key_number mask l n i : number mask 0 = (l, n) -> i < length mask ->
  has_key l i = on mask i.
Proof.
  intros E L. destruct (number_spec _ _ _ _ E) as (_ & _ & H). unfold has_key.
  rewrite H by auto. destruct (on mask i); auto.
Qed.
Lemma at_key_number mask l n i : number mask 0 = (l, n) -> i < length mask -> on mask i = true ->
  at_key l i = rank (on mask) i.
Proof.
  intros E L K. destruct (number_spec _ _ _ _ E) as (_ & _ & H). unfold at_key.
  rewrite H, K by auto. reflexivity.
Qed.

Lemma get_on mask i : i < length mask -> exists k, get mask i = Ok k /\ (k =? 1) = on mask i.
Proof.
  intros L. destruct (nth_error_ex mask i L) as [k Hk]. exists k; split; [apply get_ok; auto|].
  unfold on. rewrite (nth_error_nth _ _ 0 Hk). reflexivity.
Qed.

(* loops of the form: for i, if mask[i] == 1 push_back(g i) *)
Lemma push_loop {X} (mask : list nat) (g : nat -> res X) (R : nat -> X -> Prop) n :
  n <= length mask ->
  (forall i, i < n -> on mask i = true -> exists x, g i = Ok x /\ R i x) ->
  exists l, mfold (fun acc i => do k <- get mask i;
                                if k =? 1 then do x <- g i; Ok (acc ++ [x]) else Ok acc)
                  (seq 0 n) [] = Ok l /\
    length l = rank (on mask) n /\
    forall a i, nth_error (kept (on mask) n) a = Some i -> exists x, nth_error l a = Some x /\ R i x.
Proof.
  intros L H.
  destruct (mfold_seq (fun acc i => do k <- get mask i;
                          if k =? 1 then do x <- g i; Ok (acc ++ [x]) else Ok acc)
     (fun k l => length l = rank (on mask) k /\
        forall a i, nth_error (kept (on mask) k) a = Some i -> exists x, nth_error l a = Some x /\ R i x)
     n []) as (l & E & Hl & Hn).
  - split; [reflexivity|]. intros [|a] i; discriminate.
  - intros k s Lk (Hl & Hn). destruct (get_on mask k) as (v & -> & Ev); [lia|]. cbn [bind].
    rewrite Ev. rewrite Nat.add_1_r, rank_S, kept_S. destruct (on mask k) eqn:K.
    + destruct (H k Lk K) as (x & -> & Rx). cbn [bind]. eexists; split; [reflexivity|].
      rewrite app_length; cbn. split; [lia|]. intros a i Ha.
      destruct (Nat.lt_ge_cases a (rank (on mask) k)) as [La|La].
      * rewrite nth_error_app1 in Ha by auto. rewrite nth_error_app1 by lia. auto.
      * rewrite nth_error_app2 in Ha by auto. rewrite nth_error_app2 by lia.
        rewrite Hl. unfold rank in *. destruct (a - length (kept (on mask) k)) as [|j]; cbn in *.
        -- inversion Ha; subst. eauto.
        -- destruct j; discriminate.
    + eexists; split; [reflexivity|]. rewrite app_nil_r. split; [lia|auto].
  - eauto.
Qed.

Section Del.
  Context {V : Type} (D : nat) (m : mesh V) (cellMask : list nat).
  Hypothesis Dpos : 0 < D.
  Hypothesis WF : WellFormed D m.
  Hypothesis Lmask : length cellMask = length (cells m).

  Definition usedF (f : nat) : Prop :=
    exists i c z, on cellMask i = true /\ nth_error (cells m) i = Some c /\ In z c /\ pid z = f.
  Definition usedN (n : nat) : Prop :=
    exists f ns, usedF f /\ nth_error (faces m) f = Some ns /\ In n ns.

  Lemma numNodes_eq : length (nodes m) = D * numNodes D m.
  Proof using Dpos WF.
    clear Lmask. destruct (wf_nodes _ _ WF) as [n Hn]. unfold numNodes. rewrite Hn.
    rewrite Nat.mul_comm, Nat.div_mul by lia. lia.
  Qed.

  Lemma node_lt n : D * n + D <= length (nodes m) <-> n < numNodes D m.
  Proof using Dpos WF. clear Lmask. rewrite numNodes_eq. split; intros; nia. Qed.

  (* a mask of the given size holding exactly the elements of P *)
  Definition maskOf (l : list nat) (n : nat) (P : nat -> Prop) : Prop :=
    length l = n /\ forall i, i < n -> (P i /\ nth_error l i = Some 1) \/ (~ P i /\ nth_error l i = Some 0).

  Lemma maskOf_ext l n P Q : (forall i, i < n -> (P i <-> Q i)) -> maskOf l n P -> maskOf l n Q.
  Proof.
    intros E [L H]; split; auto. intros i Hi. specialize (E i Hi).
    destruct (H i Hi) as [[A B]|[A B]]; [left|right]; split; auto; tauto.
  Qed.

  Lemma maskOf_set l n P i : maskOf l n P -> i < n ->
    exists l', set l i 1 = Ok l' /\ maskOf l' n (fun j => P j \/ j = i).
  Proof.
    intros [L H] Hi. exists (upd l i 1). rewrite set_lt by lia. split; [auto|].
    split; [rewrite upd_length; auto|]. intros j Hj.
    destruct (Nat.eq_dec j i) as [->|N].
    - left; split; auto. apply upd_same; lia.
    - rewrite upd_other by auto. destruct (H j Hj) as [[A B]|[A B]]; [left|right]; split; auto.
      intros [X|X]; auto.
  Qed.

  Lemma maskOf_on l n P i : maskOf l n P -> i < n -> (on l i = true <-> P i).
  Proof.
    intros [L H] Hi. unfold on. destruct (H i Hi) as [[A B]|[A B]];
      rewrite (nth_error_nth _ _ 0 B); cbn; split; auto; try discriminate; tauto.
  Qed.

  Definition cellF (c : list Z) (f : nat) : Prop := exists z, In z c /\ pid z = f.
  Definition cellN (c : list Z) (n : nat) : Prop :=
    exists f ns, cellF c f /\ nth_error (faces m) f = Some ns /\ In n ns.

  Lemma mark_cell_ok i c fm nm PF PN :
    nth_error (cells m) i = Some c ->
    maskOf fm (length (faces m)) PF -> maskOf nm (numNodes D m) PN ->
    exists fm' nm', mark_cell D m (fm, nm) c = Ok (fm', nm') /\
      maskOf fm' (length (faces m)) (fun f => PF f \/ cellF c f) /\
      maskOf nm' (numNodes D m) (fun n => PN n \/ cellN c n).
  Proof.
    intros Hc MF MN. unfold mark_cell.
    destruct (mfold_inv (fun '(fm, nm) f =>
      do _ <- assert (pid f <? length (faces m));
      do fm <- set fm (pid f) 1;
      do ns <- get (faces m) (pid f);
      do nm <- mfold (fun nm n => do _ <- assert (n <? numNodes D m); set nm n 1) ns nm;
      Ok (fm, nm))
      (fun l st => maskOf (fst st) (length (faces m)) (fun f => PF f \/ cellF l f) /\
                   maskOf (snd st) (numNodes D m) (fun n => PN n \/ cellN l n)) c (fm, nm))
      as ([fm' nm'] & E & H1 & H2).
    - cbn. split; eapply maskOf_ext; eauto; intros j _.
      + split; [auto|]. intros [?|(z & [] & _)]; auto.
      + split; [auto|]. intros [?|(f & ns & (z & [] & _) & _)]; auto.
    - intros l1 z l2 [fm1 nm1] Ec [M1 M2]. cbn [fst snd] in *.
      assert (Hz : pid z < length (faces m)).
      { eapply (wf_cells _ _ WF); eauto. rewrite Ec; apply in_or_app; right; left; auto. }
      destruct (Nat.ltb_spec (pid z) (length (faces m))); [|lia]. cbn [assert bind].
      destruct (maskOf_set _ _ _ (pid z) M1 Hz) as (fm2 & -> & M1'). cbn [bind].
      destruct (nth_error_ex (faces m) (pid z) Hz) as [ns Hns].
      rewrite (proj2 (get_ok _ _ _) Hns). cbn [bind].
      destruct (mfold_inv (fun nm n => do _ <- assert (n <? numNodes D m); set nm n 1)
        (fun l nm => maskOf nm (numNodes D m) (fun n => (PN n \/ cellN l1 n) \/ In n l)) ns nm1)
        as (nm2 & -> & M2').
      + eapply maskOf_ext; eauto. intros; cbn; tauto.
      + intros a1 n a2 s Ens Ms.
        assert (Hn : n < numNodes D m).
        { apply node_lt. eapply (wf_faces _ _ WF); eauto. rewrite Ens; apply in_or_app; right; left; auto. }
        destruct (Nat.ltb_spec n (numNodes D m)); [|lia]. cbn [assert bind].
        destruct (maskOf_set _ _ _ n Ms Hn) as (s' & -> & Ms'). exists s'; split; auto.
        eapply maskOf_ext; eauto. intros j _. rewrite in_app_iff. cbn. intuition.
      + cbn [bind]. eexists; split; [reflexivity|]. cbn [fst snd]. split.
        * eapply maskOf_ext; eauto. intros j _. cbn. split.
          -- intros [[?|(z' & I & P)]| ->]; auto.
             ++ right; exists z'; split; auto. apply in_or_app; auto.
             ++ right; exists z; split; auto. apply in_or_app; right; left; auto.
          -- intros [?|(z' & I & P)]; auto. apply in_app_or in I as [I|[<-|[]]]; auto.
             left; right; exists z'; auto.
        * eapply maskOf_ext; eauto. intros j _. cbn. split.
          -- intros [[?|(f & ns' & (z' & I & P) & Hf & J)]|J]; auto.
             ++ right; exists f, ns'; split; auto. exists z'; split; auto. apply in_or_app; auto.
             ++ right; exists (pid z), ns; split; auto. exists z; split; auto.
                apply in_or_app; right; left; auto.
          -- intros [?|(f & ns' & (z' & I & P) & Hf & J)]; auto.
             apply in_app_or in I as [I|[<-|[]]].
             ++ left; right; exists f, ns'; split; auto. exists z'; auto.
             ++ right. subst f. rewrite Hns in Hf; inversion Hf; subst; auto.
    - exists fm', nm'; split; auto.
  Qed.

  Lemma make_masks_ok : exists fm nm, make_masks D m cellMask = Ok (fm, nm) /\
    maskOf fm (length (faces m)) usedF /\ maskOf nm (numNodes D m) usedN.
  Proof.
    unfold make_masks.
    destruct (mfold_seq (fun st icell =>
      do k <- get cellMask icell;
      if k =? 1 then do c <- get (cells m) icell; mark_cell D m st c else Ok st)
      (fun k st => maskOf (fst st) (length (faces m))
           (fun f => exists i c, i < k /\ on cellMask i = true /\ nth_error (cells m) i = Some c /\ cellF c f) /\
         maskOf (snd st) (numNodes D m)
           (fun n => exists i c, i < k /\ on cellMask i = true /\ nth_error (cells m) i = Some c /\ cellN c n))
      (length (cells m)) (repeat 0 (length (faces m)), repeat 0 (numNodes D m)))
      as ([fm nm] & E & H1 & H2).
    - cbn. split; (split; [apply repeat_length|]); intros i Hi; right;
        (split; [intros (? & ? & ? & _); lia|apply nth_error_repeat; auto]).
    - intros k [fm nm] Lk [M1 M2]. cbn [fst snd] in *.
      destruct (get_on cellMask k) as (v & -> & Ev); [lia|]. cbn [bind]. rewrite Ev.
      destruct (on cellMask k) eqn:K.
      + destruct (nth_error_ex (cells m) k Lk) as [c Hc]. rewrite (proj2 (get_ok _ _ _) Hc). cbn [bind].
        destruct (mark_cell_ok k c fm nm _ _ Hc M1 M2) as (fm' & nm' & -> & M1' & M2').
        eexists; split; [reflexivity|]. cbn [fst snd].
        split; (eapply maskOf_ext; [|eauto]); intros j _; cbn; split.
        * intros [(i & c' & L & A & B & C)|C]; [exists i, c'|exists k, c]; repeat split; auto; lia.
        * intros (i & c' & L & A & B & C). destruct (Nat.eq_dec i k) as [->|N].
          -- right. congruence.
          -- left; exists i, c'; repeat split; auto; lia.
        * intros [(i & c' & L & A & B & C)|C]; [exists i, c'|exists k, c]; repeat split; auto; lia.
        * intros (i & c' & L & A & B & C). destruct (Nat.eq_dec i k) as [->|N].
          -- right. congruence.
          -- left; exists i, c'; repeat split; auto; lia.
      + eexists; split; [reflexivity|]. cbn [fst snd].
        split; (eapply maskOf_ext; [|eauto]); intros j _; cbn; split;
          intros (i & c' & L & A & B & C); (destruct (Nat.eq_dec i k) as [->|N]; [congruence|]);
          exists i, c'; repeat split; auto; lia.
    - exists fm, nm; split; auto. split.
      + eapply maskOf_ext; [|eauto]. intros f _; cbn; split.
        * intros (i & c & L & A & B & z & I & P). exists i, c, z; auto.
        * intros (i & c & z & A & B & I & P). exists i, c; repeat split; auto.
          -- apply nth_error_lt in B; auto.
          -- exists z; auto.
      + eapply maskOf_ext; [|eauto]. intros n _; cbn; split.
        * intros (i & c & L & A & B & f & ns & (z & I & P) & Hf & J).
          exists f, ns; split; auto. exists i, c, z; auto.
        * intros (f & ns & (i & c & z & A & B & I & P) & Hf & J). exists i, c; repeat split; auto.
          -- apply nth_error_lt in B; auto.
          -- exists f, ns; split; auto. exists z; auto.
  Qed.

  Lemma keep_nodes_ok nm : length nm = numNodes D m ->
    exists ns', keep_nodes D (nodes m) nm = Ok ns' /\
      length ns' = D * rank (on nm) (numNodes D m) /\
      forall a n, nth_error (kept (on nm) (numNodes D m)) a = Some n ->
        firstn D (skipn (D * a) ns') = node_at D m n.
  Proof.
    intros L. unfold keep_nodes. rewrite L.
    destruct (mfold_seq (fun acc i =>
      do k <- get nm i;
      if k =? 1 then
        if D * (i + 1) <=? length (nodes m) then Ok (acc ++ firstn D (skipn (D * i) (nodes m))) else UB
      else Ok acc)
      (fun k acc => length acc = D * rank (on nm) k /\
         forall a n, nth_error (kept (on nm) k) a = Some n ->
           firstn D (skipn (D * a) acc) = node_at D m n) (numNodes D m) []) as (ns' & E & H).
    - split; [rewrite rank_0; cbn; lia|]. intros [|a] n; discriminate.
    - intros k acc Lk (Hl & Hn). destruct (get_on nm k) as (v & -> & Ev); [lia|]. cbn [bind]. rewrite Ev.
      rewrite Nat.add_1_r, rank_S, kept_S. destruct (on nm k) eqn:K.
      + destruct (Nat.leb_spec (D * S k) (length (nodes m))); [|pose proof numNodes_eq; nia].
        eexists; split; [reflexivity|].
        assert (Lc : length (firstn D (skipn (D * k) (nodes m))) = D).
        { rewrite firstn_length, skipn_length. nia. }
        split; [rewrite app_length, Lc; lia|]. intros a n Ha.
        destruct (Nat.lt_ge_cases a (rank (on nm) k)) as [La|La].
        * rewrite nth_error_app1 in Ha by auto. rewrite <- (Hn a n Ha).
          rewrite skipn_app, firstn_app, skipn_length.
          replace (D - (length acc - D * a)) with 0 by nia. cbn. apply app_nil_r.
        * rewrite nth_error_app2 in Ha by auto. unfold rank in *.
          destruct (a - length (kept (on nm) k)) as [|j] eqn:Ea; cbn in Ha; [|destruct j; discriminate].
          inversion Ha; subst n. assert (a = length (kept (on nm) k)) by lia. subst a.
          rewrite skipn_app, <- Hl, skipn_all, Nat.sub_diag. cbn [app skipn].
          rewrite firstn_all2 by lia. reflexivity.
      + eexists; split; [reflexivity|]. rewrite app_nil_r. split; [lia|auto].
    - exists ns'. auto.
  Qed.

  Lemma kept_rank mask n i : i < n -> on mask i = true ->
    nth_error (kept (on mask) n) (rank (on mask) i) = Some i.
  Proof. intros; apply kept_nth; auto. Qed.

  Definition keepC := kept (on cellMask) (length (cells m)).

  Lemma keep_faceCell_ok o2nc ncells1 z : number cellMask 0 = (o2nc, ncells1) ->
    pid z < length (cells m) ->
    exists r, keep_faceCell cellMask o2nc z = Ok r /\
      (on cellMask (pid z) = true -> exists z', r = [z'] /\ stands keepC z z') /\
      (on cellMask (pid z) = false -> r = []).
  Proof.
    intros En Lz. unfold keep_faceCell.
    destruct (get_on cellMask (pid z)) as (v & -> & Ev); [lia|]. cbn [bind]. rewrite Ev.
    destruct (on cellMask (pid z)) eqn:K.
    - eexists; split; [reflexivity|]. split; [|discriminate]. intros _.
      rewrite (at_key_number _ _ _ _ En) by (auto; lia).
      eexists; split; [reflexivity|]. unfold stands.
      destruct (Z.ltb_spec z 0).
      + rewrite pid_lnot_of_nat. split.
        * unfold Z.lnot. lia.
        * apply kept_rank; auto.
      + rewrite pid_of_nat. split; [lia|apply kept_rank; auto].
    - eexists; split; [reflexivity|]. split; [discriminate|auto].
  Qed.

  Lemma in_keepC i : In i keepC <-> i < length (cells m) /\ on cellMask i = true.
  Proof. apply kept_in. Qed.

  Lemma face_has_cell f : usedF f -> exists fc z, nth_error (faceCells m) f = Some fc /\ In z fc /\
      pid z < length (cells m) /\ on cellMask (pid z) = true.
  Proof.
    intros (i & c & z & K & Hc & I & P). subst f.
    assert (Lf : pid z < length (faceCells m)).
    { rewrite (wf_fcs _ _ WF). eapply (wf_cells _ _ WF); eauto. }
    destruct (nth_error_ex _ _ Lf) as [fc Hfc]. exists fc, (sign_cell z i). split; auto.
    split; [eapply (wf_cell_face _ _ WF); eauto|].
    assert (E : pid (sign_cell z i) = i).
    { unfold sign_cell. destruct (0 <=? z)%Z; [apply pid_of_nat|apply pid_lnot_of_nat]. }
    rewrite E. split; auto. apply nth_error_lt in Hc; auto.
  Qed.

  Lemma fc_in_range f fc z : nth_error (faceCells m) f = Some fc -> In z fc ->
    pid z < length (cells m).
  Proof.
    intros H I. destruct (wf_face_cell _ _ WF _ _ _ H I) as (c & Hc & _).
    apply nth_error_lt in Hc; auto.
  Qed.

  Lemma keep_faces_ok fm nm o2nn nn1 o2nc nc1 :
    maskOf fm (length (faces m)) usedF -> maskOf nm (numNodes D m) usedN ->
    number nm 0 = (o2nn, nn1) -> number cellMask 0 = (o2nc, nc1) ->
    exists nf nfc, keep_faces m cellMask fm o2nn o2nc = Ok (nf, nfc) /\
      length nf = rank (on fm) (length (faces m)) /\
      length nfc = rank (on fm) (length (faces m)) /\
      (forall a f, nth_error (kept (on fm) (length (faces m))) a = Some f ->
         exists ns ns', nth_error (faces m) f = Some ns /\ nth_error nf a = Some ns' /\
           Forall2 (fun n n' => nth_error (kept (on nm) (numNodes D m)) n' = Some n) ns ns') /\
      (forall a f, nth_error (kept (on fm) (length (faces m))) a = Some f ->
         exists fc fc', nth_error (faceCells m) f = Some fc /\ nth_error nfc a = Some fc' /\
           selected (fun z => In (pid z) keepC) (stands keepC) fc fc').
  Proof.
    intros MF MN En Ec. assert (Lfm := proj1 MF). assert (Lnm := proj1 MN).
    set (n := length (faces m)) in *. set (NN := numNodes D m) in *.
    unfold keep_faces. fold n.
    match goal with |- context [mfold ?f (seq 0 n) ([], [])] => set (F := f) end.
    set (RF := fun f ns' => exists ns, nth_error (faces m) f = Some ns /\
           Forall2 (fun x x' => nth_error (kept (on nm) NN) x' = Some x) ns ns').
    set (RC := fun f fc' => exists fc, nth_error (faceCells m) f = Some fc /\
           selected (fun z => In (pid z) keepC) (stands keepC) fc fc').
    destruct (mfold_seq F (fun k st =>
        length (fst st) = rank (on fm) k /\ length (snd st) = rank (on fm) k /\
        forall a f, nth_error (kept (on fm) k) a = Some f ->
          (exists x, nth_error (fst st) a = Some x /\ RF f x) /\
          (exists y, nth_error (snd st) a = Some y /\ RC f y)) n ([], []))
      as ([nf nfc] & E & L1 & L2 & H).
    - cbn. repeat split; destruct a; discriminate.
    - intros k [nf nfc] Lk (L1 & L2 & H). cbn [fst snd] in *. unfold F.
      destruct (get_on fm k) as (v & -> & Ev); [lia|]. cbn [bind]. rewrite Ev.
      rewrite Nat.add_1_r, rank_S, kept_S. destruct (on fm k) eqn:K.
      + assert (U : usedF k) by (apply (maskOf_on _ _ _ _ MF Lk); auto).
        destruct (nth_error_ex (faces m) k Lk) as [ns Hns].
        rewrite (proj2 (get_ok _ _ _) Hns). cbn [bind].
        destruct (mmap_forall2 (fun n0 => do _ <- assert (has_key o2nn n0); Ok (at_key o2nn n0))
           (fun x x' => nth_error (kept (on nm) NN) x' = Some x) ns) as (ns' & -> & F2).
        { intros x Ix. assert (Lx : x < NN).
          { apply node_lt. eapply (wf_faces _ _ WF); eauto. }
          assert (Ux : on nm x = true).
          { apply (maskOf_on _ _ _ _ MN Lx). exists k, ns; auto. }
          rewrite (has_key_number _ _ _ _ En), Ux by lia. cbn [assert bind].
          eexists; split; [reflexivity|]. rewrite (at_key_number _ _ _ _ En) by (auto; lia).
          apply kept_rank; auto. }
        cbn [bind].
        assert (Lfc : k < length (faceCells m)) by (rewrite (wf_fcs _ _ WF); auto).
        destruct (nth_error_ex (faceCells m) k Lfc) as [fc Hfc].
        rewrite (proj2 (get_ok _ _ _) Hfc). cbn [bind].
        assert (exists fc', (do _ <- assert ((length fc =? 1) || (length fc =? 2));
            do z0 <- get fc 0;
            do c0 <- keep_faceCell cellMask o2nc z0;
            do c1 <- (if length fc =? 2 then do z1 <- get fc 1; keep_faceCell cellMask o2nc z1
                      else Ok []);
            let fc' := c0 ++ c1 in
            do _ <- assert ((length fc' =? 1) || (length fc' =? 2));
            Ok (nf ++ [ns'], nfc ++ [fc'])) = Ok (nf ++ [ns'], nfc ++ [fc']) /\
            selected (fun z => In (pid z) keepC) (stands keepC) fc fc') as (fc' & Efc & Sel).
        { destruct (face_has_cell k U) as (fc0 & z & Hfc0 & Iz & Lz & Kz).
          rewrite Hfc in Hfc0; inversion Hfc0; subst fc0.
          assert (Rg := fun y => fc_in_range k fc y Hfc).
          assert (Dec : forall z, In z fc -> exists r, keep_faceCell cellMask o2nc z = Ok r /\
             ((on cellMask (pid z) = true /\ exists z', r = [z'] /\ stands keepC z z') \/
              (on cellMask (pid z) = false /\ r = []))).
          { intros y Iy. destruct (keep_faceCell_ok _ _ y Ec (Rg y Iy)) as (r & Er & A & B).
            exists r; split; auto. destruct (on cellMask (pid y)); [left|right]; auto. }
          destruct (wf_fc _ _ WF _ _ Hfc) as [L'|L'].
          - destruct fc as [|z0 [|]]; try discriminate. destruct Iz as [->|[]].
            cbn [length Nat.eqb orb assert bind]. cbn [get nth_error bind].
            destruct (Dec z) as (r & -> & [[A (z' & -> & S)]|[A _]]); [left; auto| |congruence].
            cbn [bind app length Nat.eqb orb assert]. eexists; split; [reflexivity|].
            apply sel_yes; auto; [apply in_keepC; auto|constructor].
          - destruct fc as [|z0 [|z1 [|]]]; try discriminate.
            cbn [length Nat.eqb orb assert bind]. unfold get at 1 2. cbn [nth_error bind].
            destruct (Dec z0) as (r0 & -> & D0); [left; auto|]. cbn [bind].
            destruct (Dec z1) as (r1 & -> & D1); [right; left; auto|]. cbn [bind].
            assert (R0 := Rg z0 (or_introl eq_refl)).
            assert (R1 := Rg z1 (or_intror (or_introl eq_refl))).
            assert (NI : forall y, on cellMask (pid y) = false -> ~ In (pid y) keepC).
            { intros y Ky I. apply in_keepC in I as [_ I]. congruence. }
            destruct D0 as [[A0 (y0 & -> & S0)]|[A0 ->]], D1 as [[A1 (y1 & -> & S1)]|[A1 ->]];
              cbn [app length Nat.eqb orb assert bind].
            + eexists; split; [reflexivity|]. apply sel_yes; [apply in_keepC; auto|auto|].
              apply sel_yes; [apply in_keepC; auto|auto|constructor].
            + eexists; split; [reflexivity|]. apply sel_yes; [apply in_keepC; auto|auto|].
              apply sel_no; [apply NI; auto|constructor].
            + eexists; split; [reflexivity|]. apply sel_no; [apply NI; auto|].
              apply sel_yes; [apply in_keepC; auto|auto|constructor].
            + exfalso. destruct Iz as [<-|[<-|[]]]; congruence. }
        cbv zeta in Efc. rewrite Efc. eexists; split; [reflexivity|]. cbn [fst snd].
        rewrite !app_length; cbn [length]. split; [lia|]. split; [lia|].
        intros a f Ha. destruct (Nat.lt_ge_cases a (rank (on fm) k)) as [La|La].
        * rewrite nth_error_app1 in Ha by auto. rewrite !nth_error_app1 by lia. apply H; auto.
        * rewrite nth_error_app2 in Ha by auto. rewrite !nth_error_app2 by lia.
          rewrite L1, L2. unfold rank in *.
          destruct (a - length (kept (on fm) k)) as [|j]; cbn in *; [|destruct j; discriminate].
          inversion Ha; subst f. split.
          -- exists ns'; split; auto. exists ns; auto.
          -- exists fc'; split; auto. exists fc; auto.
      + eexists; split; [reflexivity|]. cbn [fst snd]. rewrite app_nil_r. repeat split; try lia; apply H; auto.
    - exists nf, nfc. split; auto. cbn [fst snd] in *. split; auto. split; auto. split; intros a f Ha.
      + destruct (H a f Ha) as [(x & Hx & ns & Hns & F2) _]. exists ns, x; auto.
      + destruct (H a f Ha) as [_ (x & Hx & fc & Hfc & F2)]. exists fc, x; auto.
  Qed.

  Lemma keep_cells_ok fm o2nf nf1 :
    maskOf fm (length (faces m)) usedF -> number fm 0 = (o2nf, nf1) ->
    exists nc, keep_cells m cellMask o2nf = Ok nc /\
      length nc = rank (on cellMask) (length (cells m)) /\
      forall a i, nth_error keepC a = Some i ->
        exists c c', nth_error (cells m) i = Some c /\ nth_error nc a = Some c' /\
          Forall2 (stands (kept (on fm) (length (faces m)))) c c'.
  Proof.
    intros MF En. unfold keep_cells. assert (Lfm := proj1 MF).
    set (g := fun i => do c <- get (cells m) i; mmap (fun z =>
          do _ <- assert (has_key o2nf (pid z));
          Ok (if (0 <=? z)%Z then Z.of_nat (at_key o2nf (pid z))
              else Z.lnot (Z.of_nat (at_key o2nf (pid z))))) c).
    destruct (push_loop cellMask g (fun i c' => exists c, nth_error (cells m) i = Some c /\
        Forall2 (stands (kept (on fm) (length (faces m)))) c c') (length (cells m)))
      as (nc & E & L & H); [lia| |].
    - intros i Li K. destruct (nth_error_ex (cells m) i Li) as [c Hc]. unfold g.
      rewrite (proj2 (get_ok _ _ _) Hc). cbn [bind].
      destruct (mmap_forall2 (fun z =>
          do _ <- assert (has_key o2nf (pid z));
          Ok (if (0 <=? z)%Z then Z.of_nat (at_key o2nf (pid z))
              else Z.lnot (Z.of_nat (at_key o2nf (pid z)))))
          (stands (kept (on fm) (length (faces m)))) c) as (c' & E & F2).
      + intros z Iz. assert (Lz : pid z < length (faces m)) by (eapply (wf_cells _ _ WF); eauto).
        assert (U : on fm (pid z) = true).
        { apply (maskOf_on _ _ _ _ MF Lz). exists i, c, z; auto. }
        rewrite (has_key_number _ _ _ _ En), U by lia. cbn [assert bind].
        rewrite (at_key_number _ _ _ _ En) by (auto; lia).
        eexists; split; [reflexivity|]. unfold stands. destruct (Z.leb_spec 0 z).
        * rewrite pid_of_nat. split; [lia|apply kept_rank; auto].
        * rewrite pid_lnot_of_nat. split; [unfold Z.lnot; lia|apply kept_rank; auto].
      + exists c'; split; [exact E|]. exists c; auto.
    - exists nc. split.
      + rewrite <- E. apply mfold_ext. intros acc i. unfold g.
        destruct (get cellMask i) as [k| | |]; cbn [bind]; auto.
        destruct (k =? 1); cbn [bind]; auto.
        destruct (get (cells m) i) as [c| | |]; cbn [bind]; auto.
      + split; auto. intros a i Ha. destruct (H a i Ha) as (c' & Hc' & c & Hc & F2).
        exists c, c'; auto.
  Qed.

  Lemma keep_shared_ok mask n P o2n n1 l :
    maskOf mask n P -> number mask 0 = (o2n, n1) -> (forall x, In x l -> x < n) ->
    exists l', keep_shared mask o2n l = Ok l' /\
      selected (fun x => In x (kept (on mask) n))
               (fun x x' => nth_error (kept (on mask) n) x' = Some x) l l'.
  Proof.
    intros M En B. unfold keep_shared. assert (Lm := proj1 M).
    enough (G : forall l acc, (forall x, In x l -> x < n) -> exists l',
       mfold (fun acc i => do k <- get mask i; if k =? 1 then Ok (acc ++ [at_key o2n i]) else Ok acc) l acc
         = Ok (acc ++ l') /\
       selected (fun x => In x (kept (on mask) n))
               (fun x x' => nth_error (kept (on mask) n) x' = Some x) l l').
    { destruct (G l [] B) as (l' & E & S). exists l'; auto. }
    clear l B. induction l as [|x l IH]; intros acc B.
    - exists []; rewrite app_nil_r; split; [reflexivity|constructor].
    - cbn [mfold]. assert (Lx : x < n) by (apply B; left; auto).
      destruct (get_on mask x) as (v & -> & Ev); [lia|]. cbn [bind]. rewrite Ev.
      destruct (on mask x) eqn:K.
      + cbn [bind]. destruct (IH (acc ++ [at_key o2n x])) as (l' & E & S).
        { intros; apply B; right; auto. }
        rewrite E. exists (at_key o2n x :: l'). rewrite <- app_assoc. split; [reflexivity|].
        apply sel_yes; auto; [apply kept_in; auto|].
        rewrite (at_key_number _ _ _ _ En) by (auto; lia). apply kept_rank; auto.
      + cbn [bind]. destruct (IH acc) as (l' & E & S). { intros; apply B; right; auto. }
        exists l'; split; auto. apply sel_no; auto. rewrite kept_in. intros [_ X]; congruence.
  Qed.

  Lemma max1 : length (cells m) > 0 -> (forall k, In k cellMask -> k <= 1) -> In 1 cellMask ->
    (fold_right Nat.max 0 cellMask =? 1) = true.
  Proof.
    intros _ B I. apply Nat.eqb_eq.
    assert (G : forall l, (forall k, In k l -> k <= 1) -> fold_right Nat.max 0 l <= 1).
    { clear. induction l as [|a l IH]; cbn; intros B; [lia|].
      pose proof (B a (or_introl eq_refl)). specialize (IH (fun k h => B k (or_intror h))). lia. }
    assert (G' : forall l, In 1 l -> 1 <= fold_right Nat.max 0 l).
    { clear. induction l as [|a l IH]; cbn; intros []; [subst; lia|]. specialize (IH H); lia. }
    pose proof (G _ B). pose proof (G' _ I). lia.
  Qed.

  Theorem deleteCells_ok :
    (forall k, In k cellMask -> k = 0 \/ k = 1) -> (cells m = [] \/ In 1 cellMask) ->
    exists m' keepF keepN, deleteCells D m cellMask = Ok m' /\
      PartOf D m m' keepC keepF keepN.
  Proof.
    intros B01 Ex. unfold deleteCells.
    rewrite Lmask, Nat.eqb_refl. cbn [assert bind].
    assert (Hmax : (length (cells m) =? 0) || (fold_right Nat.max 0 cellMask =? 1) = true).
    { destruct Ex as [E|I]; [rewrite E; reflexivity|].
      rewrite max1; [apply orb_true_r| | |auto].
      - rewrite <- Lmask. destruct cellMask; [contradiction|cbn; lia].
      - intros k Ik. destruct (B01 k Ik); lia. }
    rewrite Hmax. cbn [assert bind].
    destruct make_masks_ok as (fm & nm & -> & MF & MN). cbn [bind].
    destruct (number nm 0) as [o2nn nn1] eqn:En.
    destruct (number fm 0) as [o2nf nf1] eqn:Ef.
    destruct (number cellMask 0) as [o2nc nc1] eqn:Ec.
    assert (Lfm := proj1 MF). assert (Lnm := proj1 MN).
    destruct (keep_nodes_ok nm Lnm) as (ns' & -> & Lns & Hns). cbn [bind].
    destruct (keep_faces_ok fm nm _ _ _ _ MF MN En Ec) as (nf & nfc & -> & Lnf & Lnfc & Hnf & Hnfc).
    cbn [bind].
    destruct (keep_cells_ok fm _ _ MF Ef) as (nc & -> & Lnc & Hnc). cbn [bind].
    rewrite (wf_shared_size _ _ WF), Nat.eqb_refl. cbn [assert bind].
    destruct (mmap_forall2 (keep_shared nm o2nn)
      (selected (fun x => In x (kept (on nm) (numNodes D m)))
         (fun x x' => nth_error (kept (on nm) (numNodes D m)) x' = Some x)) (sharedNodes m))
      as (sn & -> & Hsn).
    { intros l Il. apply keep_shared_ok with (1:=MN) (2:=En). intros x Ix. apply node_lt.
      apply In_nth_error in Il as [d Hd]. eapply (wf_shared_nodes _ _ WF); eauto. }
    cbn [bind].
    destruct (mmap_forall2 (keep_shared fm o2nf)
      (selected (fun x => In x (kept (on fm) (length (faces m))))
         (fun x x' => nth_error (kept (on fm) (length (faces m))) x' = Some x)) (sharedFaces m))
      as (sf & -> & Hsf).
    { intros l Il. apply keep_shared_ok with (1:=MF) (2:=Ef). intros x Ix.
      apply In_nth_error in Il as [d Hd]. eapply (wf_shared_faces _ _ WF); eauto. }
    cbn [bind].
    destruct (number_spec _ _ _ _ En) as (_ & Nn & _). rewrite Lnm in Nn. cbn in Nn.
    destruct (number_spec _ _ _ _ Ef) as (_ & Nf & _). rewrite Lfm in Nf. cbn in Nf.
    destruct (number_spec _ _ _ _ Ec) as (_ & Nc & _). rewrite Lmask in Nc. cbn in Nc.
    rewrite Lns, Nn, Nat.eqb_refl, Lnf, Nf, Nat.eqb_refl. cbn [assert bind].
    rewrite Lnfc, Nat.eqb_refl, Lnc, Nc, Nat.eqb_refl. cbn [assert bind].
    eexists; exists (kept (on fm) (length (faces m))), (kept (on nm) (numNodes D m)).
    split; [reflexivity|].
    assert (InF : forall f, In f (kept (on fm) (length (faces m))) <-> usedF f).
    { intros f. rewrite kept_in. split.
      - intros [L K]. apply (maskOf_on _ _ _ _ MF L); auto.
      - intros U. assert (L : f < length (faces m)).
        { destruct U as (i & c & z & _ & Hc & I & <-). eapply (wf_cells _ _ WF); eauto. }
        split; auto. apply (maskOf_on _ _ _ _ MF L); auto. }
    constructor; cbn [nodes cells faces boundaryNodes boundaryFaces faceCells convexHull
                      neighborDomains sharedNodes sharedFaces]; auto.
    - apply kept_sorted.
    - apply kept_sorted.
    - apply kept_sorted.
    - intros f. rewrite InF. unfold usedF. split; intros (i & c & z & A & Hc & I & P); exists i, c, z.
      + repeat split; auto. apply in_keepC. split; auto. apply nth_error_lt in Hc; auto.
      + repeat split; auto. apply in_keepC in A; tauto.
    - intros n. rewrite kept_in. split.
      + intros [L K]. apply (maskOf_on _ _ _ _ MN L) in K. destruct K as (f & ns & U & Hf & I).
        exists f, ns; repeat split; auto. apply InF; auto.
      + intros (f & ns & U & Hf & I). apply InF in U.
        assert (L : n < numNodes D m).
        { apply node_lt. eapply (wf_faces _ _ WF); eauto. }
        split; auto. apply (maskOf_on _ _ _ _ MN L). exists f, ns; auto.
    - apply Forall2_len in Hsn; auto.
    - intros d l Hd. apply (Forall2_nth _ _ _ _ _ Hsn Hd).
    - apply Forall2_len in Hsf; auto.
    - intros d l Hd. apply (Forall2_nth _ _ _ _ _ Hsf Hd).
  Qed.
End Del.
