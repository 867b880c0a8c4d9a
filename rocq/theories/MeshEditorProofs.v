From Verif Require Import Base BaseFacts StdAlg Rank SerializeModel MeshModel MeshSpec MeshProofs MeshProofs2
  MeshEditorModel.
From Coq Require Import Sorted QArith.
Local Open Scope nat_scope.

(* ------------------------------------------------------------ loops *)
Lemma mfold_mono {A S} (f g : S -> A -> res S) l s r :
  (forall s a r, In a l -> f s a = Ok r -> g s a = Ok r) -> mfold f l s = Ok r -> mfold g l s = Ok r.
Proof.
  revert s; induction l as [|a l IH]; intros s H E; cbn [mfold] in *; [auto|].
  apply bind_ok in E as (s' & E1 & E2). rewrite (H s a s') by (auto; left; auto). cbn [bind].
  apply IH; auto. intros; apply H; auto; right; auto.
Qed.

Lemma mmap_mono {A B} (f g : A -> res B) l r :
  (forall a r, In a l -> f a = Ok r -> g a = Ok r) -> mmap f l = Ok r -> mmap g l = Ok r.
Proof.
  revert r; induction l as [|a l IH]; intros r H E; cbn [mmap] in *; [auto|].
  apply bind_ok in E as (b & E1 & E2). apply bind_ok in E2 as (bs & E2 & E3).
  rewrite (H a b) by (auto; left; auto). cbn [bind]. rewrite (IH bs); auto. intros; apply H; auto; right; auto.
Qed.

(* a loop whose steps keep P or are undefined, one of them certainly undefined *)
Lemma mfold_ub {A S} (f : S -> A -> res S) (P : S -> Prop) l s :
  (forall s a, In a l -> P s -> (exists s', f s a = Ok s' /\ P s') \/ f s a = UB) ->
  (exists a, In a l /\ forall s, P s -> f s a = UB) -> P s -> mfold f l s = UB.
Proof.
  revert s; induction l as [|a l IH]; intros s H (b & I & U) Ps; [destruct I|]. cbn [mfold].
  destruct I as [<-|I].
  - rewrite (U s Ps). reflexivity.
  - destruct (H s a (or_introl eq_refl) Ps) as [(s' & -> & Ps')| ->]; [|reflexivity]. cbn [bind].
    apply IH; auto. intros; apply H; auto; right; auto. exists b; auto.
Qed.

(* ------------------------------------------------------------ maps *)
Lemma on_cons k t i : on (k :: t) (S i) = on t i.
Proof. reflexivity. Qed.
Lemma rank_cons k t j : rank (on (k :: t)) (S j) = (if k =? 1 then 1 else 0) + rank (on t) j.
Proof. rewrite rank_shift. reflexivity. Qed.

Lemma prefix_map_spec mask next l n : prefix_map mask next = (l, n) ->
  length l = length mask /\ n = next + rank (on mask) (length mask) /\
  forall i, i < length mask -> nth_error l i = Some (next + rank (on mask) i).
Proof.
  revert next l n; induction mask as [|k t IH]; intros next l n E; cbn [prefix_map] in E.
  - inversion E; subst. cbn. repeat split; auto. intros; lia.
  - destruct (prefix_map t (if k =? 1 then S next else next)) as [l' n'] eqn:E'.
    destruct (IH _ _ _ E') as (L & N & H). inversion E; subst.
    cbn [length]. rewrite rank_cons. split; [lia|]. split; [destruct (k =? 1); lia|].
    intros [|i] Hi; cbn [nth_error].
    + rewrite rank_0. f_equal; lia.
    + rewrite H by lia. rewrite rank_cons. f_equal. destruct (k =? 1); lia.
Qed.

Lemma cell_map_spec mask next l n : cell_map mask next = (l, n) ->
  length l = length mask /\ n = next + rank (on mask) (length mask) /\
  forall i, i < length mask -> nth_error l i = Some (if on mask i then next + rank (on mask) i else 0).
Proof.
  revert next l n; induction mask as [|k t IH]; intros next l n E; cbn [cell_map] in E.
  - inversion E; subst. cbn. repeat split; auto. intros; lia.
  - destruct (cell_map t (if k =? 1 then S next else next)) as [l' n'] eqn:E'.
    destruct (IH _ _ _ E') as (L & N & H).
    assert (l = (if k =? 1 then next else 0) :: l' /\ n = n') as [-> ->].
    { destruct (k =? 1); rewrite E' in E; inversion E; auto. }
    cbn [length]. rewrite rank_cons. split; [lia|]. split; [destruct (k =? 1); lia|].
    intros [|i] Hi; cbn [nth_error].
    + rewrite rank_0. unfold on; cbn [nth]. destruct (k =? 1); f_equal; lia.
    + rewrite H by lia. rewrite rank_cons, on_cons. destruct (on t i); [|auto].
      f_equal. destruct (k =? 1); lia.
Qed.

Lemma total_rank mask : (forall k, In k mask -> k = 0 \/ k = 1) -> total mask = rank (on mask) (length mask).
Proof.
  induction mask as [|k t IH]; intros B; [reflexivity|]. cbn [length].
  rewrite rank_cons. cbn. fold (total t). rewrite IH by (intros; apply B; right; auto).
  destruct (B k (or_introl eq_refl)); subst; reflexivity.
Qed.

Lemma rank_gap keep j k : j < k -> keep j = false -> rank keep k < k.
Proof.
  induction k as [|k IH]; intros L K; [lia|]. rewrite rank_S.
  destruct (Nat.eq_dec j k) as [->|N].
  - rewrite K. pose proof (rank_bound keep k). lia.
  - specialize (IH ltac:(lia) K). destruct (keep k); lia.
Qed.

Lemma rank_full keep k : (forall i, i < k -> keep i = true) -> rank keep k = k.
Proof.
  induction k as [|k IH]; intros H; [reflexivity|]. rewrite rank_S, IH, H by auto. lia.
Qed.

(* ------------------------------------------------------------ deleteCells *)
Definition del_mask (n : nat) (l : list nat) : list nat :=
  map (fun i => if mem i l then 0 else 1) (seq 0 n).

Lemma mem_in i l : mem i l = true <-> In i l.
Proof.
  unfold mem. rewrite existsb_exists. split.
  - intros (x & I & E). apply Nat.eqb_eq in E. subst; auto.
  - intros I. exists i; split; auto. apply Nat.eqb_refl.
Qed.

Lemma nth_error_map_seq {A} (f : nat -> A) n i : i < n -> nth_error (map f (seq 0 n)) i = Some (f i).
Proof.
  intros L. rewrite nth_error_map, (nth_error_nth' _ 0) by (rewrite seq_length; auto).
  rewrite seq_nth by auto. reflexivity.
Qed.

Lemma list_mask_ok n l : (forall i, In i l -> i < n) -> list_mask n l = Ok (del_mask n l).
Proof.
  intros H. unfold list_mask.
  destruct (mfold_inv (fun mask i => do _ <- assert (i <? n); set mask i 0)
    (fun l mask => length mask = n /\ forall i, i < n -> nth_error mask i = Some (if mem i l then 0 else 1))
    l (repeat 1 n)) as (mask & -> & L & E).
  - split; [apply repeat_length|]. intros; cbn. apply nth_error_repeat; auto.
  - intros l1 a l2 s -> [L E]. assert (La : a < n) by (apply H, in_or_app; right; left; auto).
    destruct (Nat.ltb_spec a n); [|lia]. cbn [assert bind]. rewrite set_lt by lia.
    eexists; split; [reflexivity|]. split; [rewrite upd_length; auto|]. intros i Li.
    rewrite upd_nth, L. destruct (Nat.ltb_spec i n); [|lia]. rewrite andb_true_r.
    unfold mem. rewrite existsb_app. cbn [existsb]. rewrite orb_false_r. rewrite (Nat.eqb_sym i a).
    destruct (a =? i); [rewrite orb_true_r; auto|]. rewrite orb_false_r. apply E; auto.
  - f_equal. apply nth_error_ext. intros i. destruct (Nat.lt_ge_cases i n) as [Li|Li].
    + rewrite E by auto. unfold del_mask. rewrite nth_error_map_seq; auto.
    + rewrite (proj2 (nth_error_None mask i)) by lia. symmetry. apply nth_error_None.
      unfold del_mask. rewrite map_length, seq_length. auto.
Qed.

Lemma list_mask_abort n l : ~ (forall i, In i l -> i < n) -> list_mask n l = Abort.
Proof.
  intros H. unfold list_mask.
  assert (G : forall s, length s = n -> mfold (fun mask i => do _ <- assert (i <? n); set mask i 0) l s = Abort).
  { induction l as [|a l IH]; intros s L; [exfalso; apply H; intros i []|]. cbn [mfold].
    destruct (Nat.ltb_spec a n); [|reflexivity]. cbn [assert bind]. rewrite set_lt by lia. cbn [bind].
    apply IH; [|rewrite upd_length; auto]. intros X. apply H. intros i [<-|I]; auto. }
  apply G. apply repeat_length.
Qed.

Lemma del_mask_length n l : length (del_mask n l) = n.
Proof. unfold del_mask. rewrite map_length, seq_length. reflexivity. Qed.
Lemma del_mask_bin n l k : In k (del_mask n l) -> k = 0 \/ k = 1.
Proof. unfold del_mask. intros I. apply in_map_iff in I as (i & <- & _). destruct (mem i l); auto. Qed.
Lemma del_mask_on n l i : i < n -> on (del_mask n l) i = negb (mem i l).
Proof.
  intros L. unfold on, del_mask. rewrite (nth_error_nth _ _ 0 (nth_error_map_seq _ _ _ L)).
  destruct (mem i l); reflexivity.
Qed.
Lemma del_mask_max n l : (exists i, i < n /\ ~ In i l) -> In 1 (del_mask n l).
Proof.
  intros (i & L & N). unfold del_mask. apply in_map_iff. exists i. split; [|apply in_seq; lia].
  destruct (mem i l) eqn:E; auto. apply mem_in in E; contradiction.
Qed.
Lemma max_one mask : (forall k, In k mask -> k = 0 \/ k = 1) -> In 1 mask -> fold_right Nat.max 0 mask = 1.
Proof.
  intros B I. assert (U : fold_right Nat.max 0 mask <= 1).
  { clear I. induction mask as [|a t IH]; cbn; [lia|].
    assert (a = 0 \/ a = 1) by (apply B; left; auto).
    assert (fold_right Nat.max 0 t <= 1) by (apply IH; intros; apply B; right; auto). lia. }
  assert (1 <= fold_right Nat.max 0 mask); [|lia].
  clear B U. induction mask as [|a t IH]; cbn; [destruct I|]. destruct I as [->|I]; [lia|].
  specialize (IH I). lia.
Qed.

(* the faces and shared lists are rebuilt as by deleteCells *)
Lemma ed_faceCell_mono cm o2nc cmap nc z r : number cm 0 = (o2nc, nc) -> cell_map cm 0 = (cmap, nc) ->
  keep_faceCell cm o2nc z = Ok r -> ed_faceCell cm cmap z = Ok r.
Proof.
  intros En Ec E. unfold keep_faceCell, ed_faceCell in *.
  apply bind_ok in E as (k & Ek & E). rewrite Ek. cbn [bind].
  destruct (Nat.eqb_spec k 1) as [->|]; [|auto].
  rewrite get_ok in Ek. pose proof (nth_error_lt _ _ _ Ek) as L.
  assert (O : on cm (pid z) = true) by (unfold on; rewrite (nth_error_nth _ _ 0 Ek); reflexivity).
  rewrite (at_key_number _ _ _ _ En) in E by auto.
  destruct (cell_map_spec _ _ _ _ Ec) as (_ & _ & H).
  rewrite (proj2 (get_ok cmap (pid z) (rank (on cm) (pid z)))); [exact E|].
  rewrite H, O by auto. reflexivity.
Qed.

Lemma node_map_get nm o2nn nmap c1 c2 n : number nm 0 = (o2nn, c1) -> prefix_map nm 0 = (nmap, c2) ->
  has_key o2nn n = true -> get nmap n = Ok (at_key o2nn n) /\ n < length nm /\ on nm n = true.
Proof.
  intros En Ep K.
  destruct (number_spec _ _ _ _ En) as (L1 & _ & H1).
  assert (L : n < length nm).
  { rewrite <- L1. unfold has_key in K. destruct (nth_error o2nn n) eqn:E; [|discriminate].
    eapply nth_error_lt; eauto. }
  assert (O : on nm n = true) by (rewrite <- (has_key_number _ _ _ _ En); auto).
  destruct (prefix_map_spec _ _ _ _ Ep) as (_ & _ & H2).
  split; [|auto]. apply get_ok. rewrite H2 by auto. rewrite (at_key_number _ _ _ _ En) by auto. reflexivity.
Qed.

Lemma ed_faces_mono {V} (m : mesh V) cm fm nm o2nn o2nc cmap nmap c1 c2 c3 r :
  number nm 0 = (o2nn, c1) -> prefix_map nm 0 = (nmap, c2) ->
  number cm 0 = (o2nc, c3) -> cell_map cm 0 = (cmap, c3) ->
  keep_faces m cm fm o2nn o2nc = Ok r -> ed_faces m cm fm cmap nmap = Ok r.
Proof.
  intros E1 E2 E3 E4. unfold keep_faces, ed_faces. apply mfold_mono.
  intros [nf nfc] i [nf' nfc'] _ E. apply bind_ok in E as (k & -> & E). cbn [bind].
  destruct (k =? 1); [|exact E].
  apply bind_ok in E as (f & -> & E). cbn [bind].
  apply bind_ok in E as (f' & Ef & E).
  assert (Ef2 : mmap (get nmap) f = Ok f').
  { revert Ef. apply mmap_mono. intros a b _ X. apply bind_ok in X as (u & X1 & X2).
    apply assert_ok in X1. injection X2 as <-. eapply node_map_get; eauto. }
  rewrite Ef2. cbn [bind].
  apply bind_ok in E as (fc & -> & E). cbn [bind].
  apply bind_ok in E as (u & -> & E). cbn [bind].
  apply bind_ok in E as (z0 & -> & E). cbn [bind].
  apply bind_ok in E as (c0 & X0 & E). rewrite (ed_faceCell_mono _ _ _ _ _ _ E3 E4 X0). cbn [bind].
  apply bind_ok in E as (c1' & X1 & E).
  assert (Y : (if length fc =? 2 then do z1 <- get fc 1; ed_faceCell cm cmap z1 else Ok []) = Ok c1').
  { destruct (length fc =? 2); [|exact X1]. apply bind_ok in X1 as (z1 & -> & X1). cbn [bind].
    apply (ed_faceCell_mono _ _ _ _ _ _ E3 E4 X1). }
  rewrite Y. cbn [bind]. exact E.
Qed.

Lemma ed_shared_mono mask o2n pmap c1 c2 l r : number mask 0 = (o2n, c1) -> prefix_map mask 0 = (pmap, c2) ->
  keep_shared mask o2n l = Ok r -> ed_shared mask pmap l = Ok r.
Proof.
  intros E1 E2. unfold keep_shared, ed_shared. apply mfold_mono.
  intros s i r' _ E. apply bind_ok in E as (k & Ek & E). rewrite Ek. cbn [bind].
  destruct (Nat.eqb_spec k 1) as [->|]; [|exact E].
  rewrite get_ok in Ek. pose proof (nth_error_lt _ _ _ Ek) as L.
  assert (O : on mask i = true) by (unfold on; rewrite (nth_error_nth _ _ 0 Ek); reflexivity).
  assert (K : has_key o2n i = true) by (rewrite (has_key_number _ _ _ _ E1); auto).
  destruct (node_map_get _ _ _ _ _ _ E1 E2 K) as [-> _]. cbn [bind]. exact E.
Qed.

(* one cell: the pushes into newCells[i] *)
Definition resign (z : Z) (f : nat) : Z := if (z <? 0)%Z then Z.lnot (Z.of_nat f) else Z.of_nat f.
Lemma push_cell fm fmap i : forall c nc old, nth_error nc i = Some old ->
  (forall z, In z c -> pid z < length fm /\ pid z < length fmap) ->
  mfold (fun nc z =>
        do k <- get fm (pid z);
        if k =? 1 then
          do f <- get fmap (pid z);
          do old <- get nc i;
          set nc i (old ++ [if (z <? 0)%Z then Z.lnot (Z.of_nat f) else Z.of_nat f])
        else Ok nc) c nc
  = Ok (upd nc i (old ++ map (fun z => resign z (nth (pid z) fmap 0)) (filter (fun z => on fm (pid z)) c))).
Proof.
  induction c as [|z c IH]; intros nc old Ho B; cbn [mfold filter map].
  - rewrite app_nil_r. f_equal. apply nth_error_ext. intros j. rewrite upd_nth.
    destruct (Nat.eqb_spec i j) as [->|]; cbn [andb]; auto.
    destruct (Nat.ltb_spec j (length nc)); auto.
  - destruct (B z (or_introl eq_refl)) as [B1 B2].
    destruct (get_on fm (pid z) B1) as (k & -> & Ek). cbn [bind]. rewrite Ek.
    assert (B' : forall z, In z c -> pid z < length fm /\ pid z < length fmap) by (intros; apply B; right; auto).
    destruct (on fm (pid z)) eqn:O.
    + destruct (nth_error_ex fmap (pid z) B2) as [f Hf]. rewrite (proj2 (get_ok _ _ _) Hf). cbn [bind].
      rewrite (proj2 (get_ok _ _ _) Ho). cbn [bind]. pose proof (nth_error_lt _ _ _ Ho) as Li.
      rewrite set_lt by auto. cbn [bind].
      rewrite (IH _ (old ++ [resign z f])); [|rewrite upd_same; auto|auto].
      cbn [map]. rewrite (nth_error_nth _ _ 0 Hf). rewrite <- app_assoc. cbn [app].
      f_equal. apply nth_error_ext. intros j. rewrite !upd_nth, upd_length.
      destruct (i =? j); cbn [andb]; auto. destruct (j <? length nc); auto.
    + apply IH; auto.
Qed.

Lemma upd_app' {A} (l1 l2 : list A) x a i : length l1 = i -> upd (l1 ++ x :: l2) i a = l1 ++ a :: l2.
Proof. intros <-. apply upd_app. Qed.

(* the shared prefix of the two routines *)
Section Ed.
  Context {V : Type} (D : nat) (m : mesh V) (l : list nat).
  Hypothesis Dpos : 0 < D.
  Hypothesis WF : WellFormed D m.
  Hypothesis Lin : forall i, In i l -> i < length (cells m).
  Hypothesis Lne : l <> [].
  Hypothesis Surv : exists i, i < length (cells m) /\ ~ In i l.
  Hypothesis Fne : faces m <> [].
  Hypothesis Nne : nodes m <> [].
  Let mask := del_mask (length (cells m)) l.

  Lemma ed_vs_delete : exists m' fm o2nf fmap c1 c2,
    deleteCells D m mask = Ok m' /\ length fm = length (faces m) /\
    number fm 0 = (o2nf, c1) /\ prefix_map fm 0 = (fmap, c2) /\
    keep_cells m mask o2nf = Ok (cells m') /\
    length (cells m') = rank (on mask) (length (cells m)) /\
    (ed_cells m mask fm fmap = UB -> ed_deleteCells D m l = UB) /\
    (ed_cells m mask fm fmap = Ok (cells m') -> ed_deleteCells D m l = Ok m').
  Proof.
    assert (Lm : length mask = length (cells m)) by apply del_mask_length.
    assert (Bm : forall k, In k mask -> k = 0 \/ k = 1) by (intros k; apply del_mask_bin).
    assert (Im : In 1 mask) by (apply del_mask_max; auto).
    destruct (deleteCells_ok D m mask Dpos WF Lm Bm (or_intror Im)) as (m' & kF & kN & E & P).
    pose proof E as E0. unfold deleteCells in E.
    apply bind_ok in E as (u & _ & E). apply bind_ok in E as (u2 & _ & E).
    apply bind_ok in E as ([fm nm] & Em & E).
    destruct (make_masks_ok D m mask Dpos WF Lm) as (fm2 & nm2 & Em2 & [LF MF] & [LN MN]).
    rewrite Em in Em2. injection Em2 as <- <-.
    destruct (number nm 0) as [o2nn nn1] eqn:En.
    destruct (number fm 0) as [o2nf nf1] eqn:Ef.
    destruct (number mask 0) as [o2nc nc1] eqn:Ec.
    apply bind_ok in E as (ns' & Ens & E). apply bind_ok in E as ([fs' fcs'] & Efs & E).
    apply bind_ok in E as (cs' & Ecs & E). apply bind_ok in E as (u3 & Esh & E).
    apply bind_ok in E as (sn & Esn & E). apply bind_ok in E as (sf & Esf & E).
    apply bind_ok in E as (u4 & A1 & E). apply bind_ok in E as (u5 & A2 & E).
    apply bind_ok in E as (u6 & A3 & E). apply bind_ok in E as (u7 & A4 & E).
    injection E as <-. apply assert_ok in A1, A2, A3, A4. cbn [cells].
    destruct (prefix_map fm 0) as [fmap fc1] eqn:Pf.
    destruct (prefix_map nm 0) as [nmap nc2] eqn:Pn.
    destruct (cell_map mask 0) as [cmap cc1] eqn:Pc.
    destruct (number_spec _ _ _ _ En) as (_ & N1 & _).
    destruct (number_spec _ _ _ _ Ef) as (_ & N2 & _).
    destruct (number_spec _ _ _ _ Ec) as (_ & N3 & _).
    destruct (prefix_map_spec _ _ _ _ Pf) as (_ & N4 & _).
    destruct (prefix_map_spec _ _ _ _ Pn) as (_ & N5 & _).
    destruct (cell_map_spec _ _ _ _ Pc) as (_ & N6 & _).
    assert (Ef1 : cc1 = nc1) by lia. rewrite Ef1 in Pc. clear N6.
    assert (BF : forall k, In k fm -> k = 0 \/ k = 1).
    { intros k I. apply In_nth_error in I as [i Hi]. pose proof (nth_error_lt _ _ _ Hi) as L.
      destruct (MF i) as [[_ X]|[_ X]]; [lia|rewrite X in Hi; inversion Hi; auto..]. }
    assert (BN : forall k, In k nm -> k = 0 \/ k = 1).
    { intros k I. apply In_nth_error in I as [i Hi]. pose proof (nth_error_lt _ _ _ Hi) as L.
      destruct (MN i) as [[_ X]|[_ X]]; [lia|rewrite X in Hi; inversion Hi; auto..]. }
    pose proof (total_rank _ BF) as T1. pose proof (total_rank _ BN) as T2. pose proof (total_rank _ Bm) as T3.
    exists (mkMesh ns' cs' fs' (boundaryNodes m) (boundaryFaces m) fcs' plc_new (neighborDomains m) sn sf),
      fm, o2nf, fmap, nf1, fc1. cbn [cells].
    split; [exact E0|]. split; [exact LF|]. split; [exact Ef|]. split; [exact Pf|]. split; [exact Ecs|].
    split; [rewrite <- Lm; lia|].
    assert (NE : forall A (l : list A), l <> [] -> nonempty l = true) by (intros A [|]; cbn; congruence).
    assert (Nem : nonempty mask = true).
    { apply NE. intros X. rewrite X in Im. destruct Im. }
    assert (Nef : nonempty fm = true).
    { apply NE. intros X. apply Fne. apply length_zero_iff_nil. rewrite <- LF, X. reflexivity. }
    assert (Nen : nonempty nm = true).
    { apply NE. intros X. apply Nne. apply length_zero_iff_nil. rewrite (numNodes_eq D m Dpos WF), <- LN, X.
      cbn; lia. }
    assert (Hd : ed_deleteCells D m l =
      cleanMesh D m mask fm nm cmap fmap nmap).
    { unfold ed_deleteCells. rewrite (NE _ l Lne). cbn [assert bind].
      rewrite list_mask_ok by auto. cbn [bind]. fold mask. rewrite Nem. cbn [assert bind].
      rewrite Lm, Nat.eqb_refl. cbn [assert bind].
      rewrite (max_one mask Bm Im). rewrite orb_true_r. cbn [assert bind].
      rewrite Em. cbn [bind]. rewrite Nef, Nen. cbn [assert bind andb].
      rewrite Pn, Pf, Pc.
      replace (total nm =? nc2) with true by (symmetry; apply Nat.eqb_eq; lia).
      replace (total fm =? fc1) with true by (symmetry; apply Nat.eqb_eq; lia).
      replace (total mask =? nc1) with true by (symmetry; apply Nat.eqb_eq; lia).
      reflexivity. }
    rewrite Hd. unfold cleanMesh. rewrite Nem, Nef, Nen. cbn [assert bind andb].
    rewrite Ens. cbn [bind]. rewrite (ed_faces_mono _ _ _ _ _ _ _ _ _ _ _ _ En Pn Ec Pc Efs). cbn [bind].
    split.
    - intros ->. reflexivity.
    - intros ->. cbn [bind].
      rewrite Esh. cbn [bind].
      rewrite (mmap_mono _ (ed_shared nm nmap) _ _ (fun a r _ => ed_shared_mono _ _ _ _ _ a r En Pn) Esn).
      cbn [bind].
      rewrite (mmap_mono _ (ed_shared fm fmap) _ _ (fun a r _ => ed_shared_mono _ _ _ _ _ a r Ef Pf) Esf).
      cbn [bind].
      rewrite T1, T2, T3.
      replace (rank (on nm) (length nm)) with nn1 by lia. rewrite A1. cbn [assert bind].
      replace (rank (on fm) (length fm)) with nf1 by lia. rewrite A2. cbn [assert bind]. rewrite A3. cbn [assert bind].
      replace (rank (on mask) (length mask)) with nc1 by lia. rewrite A4. cbn [assert bind].
      reflexivity.
  Qed.

  Lemma mask_on i : i < length (cells m) -> on mask i = negb (mem i l).
  Proof. apply del_mask_on. Qed.

  (* deleted cells all trail: newCells[i] is the right entry *)
  Lemma ed_trailing : (forall i j, ~ In i l -> i < length (cells m) -> In j l -> i < j) ->
    exists m', deleteCells D m mask = Ok m' /\ ed_deleteCells D m l = Ok m'.
  Proof.
    intros T. destruct ed_vs_delete as (m' & fm & o2nf & fmap & c1 & c2 & E & LF & Ef & Pf & Kc & Lc & _ & G).
    exists m'; split; auto. apply G. clear G.
    set (n1 := rank (on mask) (length (cells m))) in *.
    assert (Lm : length mask = length (cells m)) by apply del_mask_length.
    assert (Bm : forall k, In k mask -> k = 0 \/ k = 1) by (intros k; apply del_mask_bin).
    destruct (prefix_map_spec _ _ _ _ Pf) as (Lfm & _ & Hfm).
    (* below n1 everything is kept, above nothing *)
    assert (Below : forall i, i < length (cells m) -> on mask i = true -> rank (on mask) i = i).
    { intros i Li O. apply rank_full. intros j Lj. rewrite mask_on in * by lia.
      destruct (mem j l) eqn:M; auto. apply mem_in in M.
      assert (NI : ~ In i l). { intros X. apply mem_in in X. rewrite X in O. discriminate. }
      specialize (T i j NI Li M). lia. }
    unfold ed_cells. rewrite total_rank by auto. rewrite Lm. fold n1.
    (* follow keep_cells *)
    unfold keep_cells in Kc.
    assert (Gen : forall k nc, k <= length (cells m) ->
      mfold (fun nc i =>
         do k <- get mask i;
         if k =? 1 then
           do c <- get (cells m) i;
           do c' <- mmap (fun z =>
               do _ <- assert (has_key o2nf (pid z));
               Ok (if (0 <=? z)%Z then Z.of_nat (at_key o2nf (pid z))
                   else Z.lnot (Z.of_nat (at_key o2nf (pid z))))) c;
           Ok (nc ++ [c'])
         else Ok nc) (seq 0 k) [] = Ok nc ->
      length nc = rank (on mask) k /\
      mfold (fun nc i =>
        do k <- get mask i;
        if k =? 1 then
          do c <- get (cells m) i;
          mfold (fun nc z =>
            do k <- get fm (pid z);
            if k =? 1 then
              do f <- get fmap (pid z);
              do old <- get nc i;
              set nc i (old ++ [if (z <? 0)%Z then Z.lnot (Z.of_nat f) else Z.of_nat f])
            else Ok nc) c nc
        else Ok nc) (seq 0 k) (repeat [] n1) = Ok (nc ++ repeat [] (n1 - length nc))).
    { induction k as [|k IH]; intros nc Lk Enc.
      - injection Enc as <-. split; [reflexivity|]. cbn. rewrite Nat.sub_0_r. reflexivity.
      - rewrite seq_S, mfold_app in Enc. apply bind_ok in Enc as (nc0 & E0 & E1).
        destruct (IH nc0 ltac:(lia) E0) as (L0 & F0). rewrite seq_S, mfold_app, F0. cbn [bind].
        cbn [mfold plus] in *. apply bind_ok in E1 as (nc1 & E1 & E2). injection E2 as ->.
        destruct (get_on mask k ltac:(lia)) as (v & Gv & Ev). rewrite Gv in *. cbn [bind] in *.
        rewrite Ev in *. rewrite rank_S. destruct (on mask k) eqn:O.
        + destruct (nth_error_ex (cells m) k ltac:(lia)) as [c Hc]. rewrite (proj2 (get_ok _ _ _) Hc) in *.
          cbn [bind] in *. apply bind_ok in E1 as (c' & Ec' & E1). injection E1 as <-.
          assert (L0k : length nc0 = k) by (rewrite L0; apply Below; auto; lia).
          split; [rewrite app_length; cbn; lia|].
          assert (Kn : k < n1).
          { unfold n1. rewrite <- (Below k ltac:(lia) O). apply rank_lt; auto; lia. }
          assert (Sp : nc0 ++ repeat [] (n1 - length nc0) = nc0 ++ [] :: repeat [] (n1 - S k)).
          { f_equal. replace (n1 - length nc0) with (S (n1 - S k)) by lia. reflexivity. }
          rewrite Sp.
          apply mmap_inv in Ec'.
          assert (Hz : forall z, In z c -> has_key o2nf (pid z) = true).
          { intros z I. destruct (Forall2_in_l _ _ _ _ Ec' I) as (b & _ & X).
            apply bind_ok in X as (u & X & _). apply assert_ok in X. auto. }
          rewrite (push_cell fm fmap k c _ []).
          * cbn [bind]. f_equal. rewrite upd_app' by exact L0k. rewrite <- app_assoc. cbn [app].
            f_equal. f_equal.
            -- clear - Ec' Hz Ef Pf. induction Ec' as [|z b c c' X F IH]; [reflexivity|].
               apply bind_ok in X as (u & X1 & X2). apply assert_ok in X1. injection X2 as <-.
               destruct (node_map_get _ _ _ _ _ _ Ef Pf X1) as (G1 & _ & O). rewrite get_ok in G1.
               cbn [filter]. rewrite O. cbn [map]. rewrite (nth_error_nth _ _ 0 G1). f_equal.
               ++ unfold resign. destruct (Z.ltb_spec z 0), (Z.leb_spec 0 z); lia || reflexivity.
               ++ apply IH. intros; apply Hz; right; auto.
            -- f_equal. rewrite app_length. cbn. lia.
          * rewrite nth_error_app2 by lia. replace (k - length nc0) with 0 by lia. reflexivity.
          * intros z I. destruct (node_map_get _ _ _ _ _ _ Ef Pf (Hz z I)) as (_ & X & _). lia.
        + injection E1 as <-. split; [lia|]. cbn [bind]. reflexivity. }
    destruct (Gen _ _ (Nat.le_refl _) Kc) as (L & F). rewrite F. f_equal.
    rewrite L. fold n1. rewrite Nat.sub_diag. cbn. apply app_nil_r.
  Qed.

  (* otherwise it writes outside newCells *)
  Lemma ed_overrun i j : ~ In i l -> i < length (cells m) -> In j l -> j < i ->
    (forall k c, nth_error (cells m) k = Some c -> c <> []) -> ed_deleteCells D m l = UB.
  Proof.
    intros Ni Li Ij Lji Cne.
    destruct ed_vs_delete as (m' & fm & o2nf & fmap & c1 & c2 & E & LF & Ef & Pf & Kc & Lc & G & _).
    apply G. clear G.
    assert (Lm : length mask = length (cells m)) by apply del_mask_length.
    assert (Bm : forall k, In k mask -> k = 0 \/ k = 1) by (intros k; apply del_mask_bin).
    destruct (prefix_map_spec _ _ _ _ Pf) as (Lfm & _ & Hfm).
    set (n1 := rank (on mask) (length (cells m))) in *.
    (* the last kept cell *)
    assert (Oi : on mask i = true).
    { rewrite mask_on by auto. destruct (mem i l) eqn:M; auto. apply mem_in in M; contradiction. }
    assert (P1 : 0 < n1). { pose proof (rank_lt (on mask) i (length (cells m)) Li Oi). unfold n1. lia. }
    destruct (rank_onto (on mask) (n1 - 1) (length (cells m)) ltac:(unfold n1 in *; lia)) as (k & Lk & Ok_ & Rk).
    assert (Lik : i <= k).
    { destruct (Nat.le_gt_cases i k) as [|X]; auto. exfalso.
      pose proof (rank_lt (on mask) k i X Ok_). pose proof (rank_lt (on mask) i (length (cells m)) Li Oi).
      unfold n1 in *. lia. }
    assert (Kn : n1 <= k).
    { assert (rank (on mask) k < k); [|lia]. apply (rank_gap _ j); [lia|].
      rewrite mask_on by lia. apply mem_in in Ij. rewrite Ij. reflexivity. }
    unfold ed_cells. rewrite total_rank, Lm by auto. fold n1.
    (* faces of kept cells are marked *)
    assert (Marked : forall a c z, a < length (cells m) -> on mask a = true -> nth_error (cells m) a = Some c ->
       In z c -> on fm (pid z) = true /\ pid z < length fm).
    { intros a c z La Oa Hc Iz.
      unfold keep_cells in Kc.
      assert (In a (seq 0 (length (cells m)))) as Ia by (apply in_seq; lia).
      apply in_split in Ia as (s1 & s2 & Es). rewrite Es, mfold_app in Kc.
      apply bind_ok in Kc as (x & _ & Kc). cbn [mfold] in Kc. apply bind_ok in Kc as (y & Ky & _).
      destruct (get_on mask a ltac:(lia)) as (v & Gv & Ev). rewrite Gv in Ky. cbn [bind] in Ky. rewrite Ev, Oa in Ky.
      rewrite (proj2 (get_ok _ _ _) Hc) in Ky. cbn [bind] in Ky. apply bind_ok in Ky as (c' & Ec' & _).
      apply mmap_inv in Ec'. destruct (Forall2_in_l _ _ _ _ Ec' Iz) as (b & _ & X).
      apply bind_ok in X as (u & X & _). apply assert_ok in X.
      destruct (node_map_get _ _ _ _ _ _ Ef Pf X) as (_ & A & B). auto. }
    apply (mfold_ub _ (fun nc : list (list Z) => length nc = n1)).
    - intros nc a Ia Ln. apply in_seq in Ia. destruct (get_on mask a ltac:(lia)) as (v & -> & Ev). cbn [bind].
      rewrite Ev. destruct (on mask a) eqn:Oa; [|left; eauto].
      destruct (nth_error_ex (cells m) a ltac:(lia)) as [c Hc]. rewrite (proj2 (get_ok _ _ _) Hc). cbn [bind].
      destruct (Nat.lt_ge_cases a n1) as [La|La].
      + destruct (nth_error_ex nc a ltac:(lia)) as [old Ho]. left.
        rewrite (push_cell fm fmap a c nc old Ho).
        * eexists; split; [reflexivity|]. rewrite upd_length; auto.
        * intros z Iz. destruct (Marked a c z ltac:(lia) Oa Hc Iz). lia.
      + right. destruct c as [|z c]; [exfalso; eapply Cne; eauto|]. cbn [mfold].
        destruct (Marked a _ z ltac:(lia) Oa Hc (or_introl eq_refl)) as [Oz Lz].
        destruct (get_on fm (pid z) Lz) as (k' & -> & Ek). cbn [bind]. rewrite Ek, Oz.
        destruct (nth_error_ex fmap (pid z) ltac:(lia)) as [f Hf]. rewrite (proj2 (get_ok _ _ _) Hf). cbn [bind].
        unfold get. rewrite (proj2 (nth_error_None nc a)) by lia. reflexivity.
    - exists k. split; [apply in_seq; lia|]. intros nc Ln.
      destruct (get_on mask k ltac:(lia)) as (v & -> & Ev). cbn [bind]. rewrite Ev, Ok_.
      destruct (nth_error_ex (cells m) k ltac:(lia)) as [c Hc]. rewrite (proj2 (get_ok _ _ _) Hc). cbn [bind].
      destruct c as [|z c]; [exfalso; eapply Cne; eauto|]. cbn [mfold].
      destruct (Marked k _ z ltac:(lia) Ok_ Hc (or_introl eq_refl)) as [Oz Lz].
      destruct (get_on fm (pid z) Lz) as (k' & -> & Ek). cbn [bind]. rewrite Ek, Oz.
      destruct (nth_error_ex fmap (pid z) ltac:(lia)) as [f Hf]. rewrite (proj2 (get_ok _ _ _) Hf). cbn [bind].
      unfold get. rewrite (proj2 (nth_error_None nc k)) by lia. reflexivity.
    - apply repeat_length.
  Qed.
End Ed.
