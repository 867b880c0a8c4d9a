(* Proofs for C22 (the two node maps) and C23 (fillTessellation). *)
From Verif Require Import Base BaseFacts KeyMapModel PointMapModel PointMapProofs SerializeModel MeshModel MeshSpec MeshProofs2 MeshEditorModel MeshEditorProofs2 QuantMeshModel QuantMeshSpec QuantMeshProofs.
From Coq Require Import QArith.
Local Open Scope nat_scope.

(* ------------------------------------------------------------ BoostTessellator *)
Definition bmap (o : nat) (ns : list pt) : keymap (K := Z * Z * nat) :=
  combine (map (fun p => (p, 0)) ns) (seq o (length ns)).

Lemma keyeq_pt p q : keyeq point2_lt (p, 0) (q, 0) = pt_eqb q p.
Proof.
  destruct p as [a b], q as [c d]. unfold keyeq, point2_lt, pt_eqb; cbn [fst snd].
  destruct (Z.ltb_spec a c), (Z.ltb_spec c a), (Z.eqb_spec a c), (Z.eqb_spec c a), (Z.ltb_spec b d), (Z.ltb_spec d b),
    (Z.eqb_spec d b); cbn; auto; lia.
Qed.

Lemma find_bmap p ns o : find point2_lt (p, 0) (bmap o ns) = option_map (fun j => o + j) (first pt_eqb ns p).
Proof.
  revert o. induction ns as [|q t IH]; intros o; [reflexivity|].
  unfold bmap. cbn [length map combine seq find]. rewrite keyeq_pt. cbn [first]. destruct (pt_eqb q p).
  - cbn. f_equal. lia.
  - fold (bmap (S o) t). rewrite IH. destruct (first pt_eqb t p); cbn; auto with arith.
Qed.
Lemma bmap_length o ns : length (bmap o ns) = length ns.
Proof. unfold bmap. rewrite combine_length, map_length, seq_length. lia. Qed.
Lemma bmap_snoc o ns p : bmap o (ns ++ [p]) = bmap o ns ++ [((p, 0), o + length ns)].
Proof.
  revert o. induction ns as [|q t IH]; intros o.
  - unfold bmap; cbn. do 2 f_equal. rewrite Nat.add_0_r; auto.
  - unfold bmap in *. cbn [length map combine seq app]. rewrite IH, Nat.add_succ_comm. reflexivity.
Qed.
Lemma first_lt cl ns p j : first cl ns p = Some j -> j < length ns.
Proof. intros F. destruct (first_some _ _ _ _ F) as (q & H & _). eapply nth_error_lt; eauto. Qed.
Lemma first_snoc cl ns p : cl p p = true -> first cl ns p = None -> first cl (ns ++ [p]) p = Some (length ns).
Proof.
  intros R. induction ns as [|q t IH]; cbn; intros F; [rewrite R; auto|].
  destruct (cl q p); [discriminate|]. destruct (first cl t p); [discriminate|]. rewrite IH; auto.
Qed.
Lemma pt_eqb_refl p : pt_eqb p p = true. Proof. apply pt_eqb_iff; auto. Qed.
Lemma pt_eqb_sym p q : pt_eqb p q = pt_eqb q p.
Proof. unfold pt_eqb. rewrite (Z.eqb_sym (fst p)), (Z.eqb_sym (snd p)). auto. Qed.

Definition BI (m : keymap (K := Z * Z * nat)) (ns : list pt) : Prop := m = bmap 0 ns.

Lemma boost_node_eq ns p : boost_node (bmap 0 ns, ns) p =
  match first pt_eqb ns p with
  | Some j => Ok (j, (bmap 0 ns, ns))
  | None => Ok (length ns, (bmap 0 (ns ++ [p]), ns ++ [p]))
  end.
Proof.
  unfold boost_node, addKeyToMap. rewrite find_bmap, bmap_length.
  destruct (first pt_eqb ns p) as [j|] eqn:F; cbn [option_map].
  - apply first_lt in F. destruct (Nat.eqb_spec (0 + j) (length ns)); [lia|]. reflexivity.
  - rewrite Nat.eqb_refl. cbn [assert bind]. rewrite bmap_snoc. reflexivity.
Qed.
Lemma boost_HA m ns p j m' ns' : BI m ns -> True -> boost_node (m, ns) p = Ok (j, (m', ns')) ->
  BI m' ns' /\ first pt_eqb ns' p = Some j /\ (ns' = ns \/ (ns' = ns ++ [p] /\ first pt_eqb ns p = None)).
Proof.
  intros -> _ E. rewrite boost_node_eq in E. destruct (first pt_eqb ns p) as [k|] eqn:F; injection E as <- <- <-.
  - unfold BI; auto.
  - unfold BI. split; auto. split; [|auto]. apply first_snoc; auto. apply pt_eqb_refl.
Qed.
Lemma boost_HT m ns p : BI m ns -> True -> exists r, boost_node (m, ns) p = Ok r.
Proof. intros -> _. rewrite boost_node_eq. destruct (first pt_eqb ns p); eauto. Qed.

(* ------------------------------------------------------------ clipQuantizedTessellation *)
Definition near2 (tol : Z) (p q : pt) : bool := (Z.abs (fst p - fst q) <=? tol)%Z && (Z.abs (snd p - snd q) <=? tol)%Z.
Definition as_list (p : pt) : list Z := [fst p; snd p].
Definition CI (Good : pt -> Prop) (m : ipmap) (ns : list pt) : Prop := Holds m 2 2 (map as_list ns) /\ Forall Good ns /\ NoDup ns.

Lemma near2_iff tol p q : near2 tol p q = true <-> near tol (as_list p) (as_list q).
Proof.
  unfold near2, near, as_list. rewrite andb_true_iff, !Z.leb_le. split.
  - intros []; repeat constructor; auto.
  - intros H. inversion H as [|? ? ? ? A B]; subst. inversion B; subst. auto.
Qed.
Lemma near2_refl p : near2 2 p p = true.
Proof. unfold near2. rewrite !Z.sub_diag. reflexivity. Qed.
Lemma near2_sym p q : near2 2 p q = near2 2 q p.
Proof. unfold near2. f_equal; f_equal; lia. Qed.

Lemma clip_HA (Good : pt -> Prop) m ns p j m' ns' : CI Good m ns -> Good p -> clip_node (m, ns) p = Ok (j, (m', ns')) ->
  CI Good m' ns' /\ first (near2 2) ns' p = Some j /\ (ns' = ns \/ (ns' = ns ++ [p] /\ first (near2 2) ns p = None)).
Proof.
  intros (H & G & ND) Gp E. unfold clip_node in E. apply bind_ok in E as ([k mk] & E & E2).
  injection E2 as -> -> <-. change [fst p; snd p] with (as_list p) in E.
  destruct (index_spec m 2 2 _ (as_list p) ltac:(lia) ltac:(lia) eq_refl H)
    as [(k0 & q & Hq & Nq & I & U)|[(k0 & k1 & q & q' & Ne & Hk & Hk' & Nq & Nq' & I)|(Nn & m0 & I & H')]];
    rewrite I in E; try discriminate; injection E as <- <-.
  - assert (L : k0 < length ns) by (apply nth_error_lt in Hq; rewrite map_length in Hq; auto).
    destruct (Nat.eqb_spec k0 (length ns)); [lia|]. split; [split; auto|]. split; auto.
    destruct (nth_error_ex ns k0 L) as [x Hx]. rewrite nth_error_map, Hx in Hq. injection Hq as <-.
    apply first_intro with x; auto; [apply near2_iff; auto|].
    intros i r Hi C. apply near2_iff in C. apply (U i (as_list r)); auto. rewrite nth_error_map, Hi. auto.
  - rewrite map_length. rewrite Nat.eqb_refl.
    assert (F : first (near2 2) ns p = None).
    { destruct (first (near2 2) ns p) as [k|] eqn:F; auto. exfalso.
      destruct (first_some _ _ _ _ F) as (q & Hq & C). apply (Nn (as_list q)); [|apply near2_iff; auto].
      apply in_map. eapply nth_error_In; eauto. }
    split; [|split; auto; apply first_snoc; auto; apply near2_refl].
    split; [rewrite map_app; exact H'|]. split; [apply Forall_app; auto|].
    apply NoDup_app_snoc; auto. intros Ip. pose proof (first_none _ _ _ p F Ip) as X. rewrite near2_refl in X. discriminate.
Qed.
Lemma clip_init Good : CI Good (ipm_new 2 2) [].
Proof. split; [apply new_holds|split; constructor]. Qed.

(* points told apart by the tolerance never meet an ambiguous match *)
Lemma clip_HT (Good : pt -> Prop) m ns p :
  (forall x y, Good x -> Good y -> x = y \/ (4 < Z.abs (fst x - fst y))%Z \/ (4 < Z.abs (snd x - snd y))%Z) ->
  CI Good m ns -> Good p -> exists r, clip_node (m, ns) p = Ok r.
Proof.
  intros Sep (H & G & ND) Gp. unfold clip_node. change [fst p; snd p] with (as_list p).
  destruct (index_spec m 2 2 _ (as_list p) ltac:(lia) ltac:(lia) eq_refl H)
    as [(k0 & q & Hq & Nq & I & U)|[(k0 & k1 & q & q' & Ne & Hk & Hk' & Nq & Nq' & I)|(Nn & m0 & I & H')]];
    rewrite I; cbn [bind]; eauto.
  exfalso. rewrite nth_error_map in Hk, Hk'. destruct (nth_error ns k0) as [x|] eqn:X; [|discriminate].
  destruct (nth_error ns k1) as [y|] eqn:Y; [|discriminate]. injection Hk as <-. injection Hk' as <-.
  apply near2_iff in Nq, Nq'. unfold near2 in Nq, Nq'. rewrite andb_true_iff, !Z.leb_le in Nq, Nq'.
  rewrite Forall_forall in G. destruct (Sep x y) as [->|S].
  - apply G. eapply nth_error_In; eauto.
  - apply G. eapply nth_error_In; eauto.
  - apply Ne. apply (proj1 (NoDup_nth_error ns) ND); [eapply nth_error_lt; eauto|congruence].
  - lia.
Qed.

(* ------------------------------------------------------------ fillTessellation *)
(* what is appended to the list of face f while walking cells [0, n) *)
Definition uses (f : nat) (cs : list (list Z)) (i : nat) : list Z :=
  match nth_error cs i with
  | Some c => map (fun z => sign_cell z i) (filter (fun z => pid z =? f) c)
  | None => []
  end.

Lemma resize_length {A} (a : A) n l : length (resize a n l) = n.
Proof. unfold resize. rewrite app_length, firstn_length, repeat_length. lia. Qed.
Lemma resize_nil {A} (a : A) n : resize a n [] = repeat a n.
Proof. unfold resize. rewrite firstn_nil. cbn. rewrite Nat.sub_0_r. auto. Qed.

Lemma pid_lt_pos z n : pid z < n <-> (positiveID z < Z.of_nat n)%Z.
Proof. unfold pid. pose proof (positiveID_nonneg z). lia. Qed.

Lemma fill_faces faces0 (es : list (nat * nat)) : length faces0 = length es -> Forall (fun f : list nat => length f = 2) faces0 ->
  mmap (fun '(fo, e) => do _ <- assert (length fo =? 2); Ok [fst e; snd e]) (combine faces0 es)
  = Ok (map (fun e => [fst e; snd e]) es).
Proof.
  revert es. induction faces0 as [|fo faces0 IH]; intros [|e es] L F; cbn in L; try discriminate; [reflexivity|].
  inversion F; subst. cbn [combine mmap map]. rewrite H1. cbn [Nat.eqb assert bind]. rewrite IH; auto.
Qed.

Definition push_use (nf i : nat) (fcs : list (list Z)) (k : Z) : res (list (list Z)) :=
  do _ <- assert (positiveID k <? Z.of_nat nf)%Z;
  do l <- get fcs (pid k);
  set fcs (pid k) (l ++ [if (k <? 0)%Z then Z.lnot (Z.of_nat i) else Z.of_nat i]).

Lemma push_uses nf i c fcs : length fcs = nf -> (forall z, In z c -> pid z < nf) ->
  exists fcs', mfold (push_use nf i) c fcs = Ok fcs' /\ length fcs' = nf /\
    forall f l, nth_error fcs f = Some l ->
      nth_error fcs' f = Some (l ++ map (fun z => sign_cell z i) (filter (fun z => pid z =? f) c)).
Proof.
  revert fcs. induction c as [|z c IH]; intros fcs L B; cbn [mfold].
  - exists fcs. repeat split; auto. intros. cbn. rewrite app_nil_r. auto.
  - assert (Lz : pid z < nf) by (apply B; left; auto). unfold push_use at 1.
    assert (X : (positiveID z <? Z.of_nat nf)%Z = true) by (apply Z.ltb_lt, pid_lt_pos; auto).
    rewrite X. cbn [assert bind]. destruct (get_lt fcs (pid z)) as [l0 G]; [lia|]. rewrite G. cbn [bind].
    rewrite set_lt by lia. cbn [bind]. apply (proj1 (get_ok _ _ _)) in G.
    destruct (IH (upd fcs (pid z) (l0 ++ [if (z <? 0)%Z then Z.lnot (Z.of_nat i) else Z.of_nat i])))
      as (fcs' & E & L' & H); [rewrite upd_length; auto|intros; apply B; right; auto|].
    exists fcs'. repeat split; auto. intros f l Hf. cbn [filter].
    destruct (Nat.eqb_spec (pid z) f) as [<-|Nf].
    + rewrite G in Hf. injection Hf as <-. erewrite H by (apply upd_same; lia).
      rewrite <- app_assoc. cbn [map app]. unfold sign_cell at 2. do 3 f_equal.
      destruct (Z.ltb_spec z 0), (Z.leb_spec 0 z); auto; lia.
    + apply H. rewrite upd_other by auto. auto.
Qed.

Lemma fill_uses nf cs n fcs : length fcs = nf -> n <= length cs ->
  (forall i c z, nth_error cs i = Some c -> In z c -> pid z < nf) ->
  exists fcs', mfold (fun fcs i => do c <- get cs i; mfold (push_use nf i) c fcs) (seq 0 n) fcs = Ok fcs' /\
    length fcs' = nf /\ forall f l, nth_error fcs f = Some l -> nth_error fcs' f = Some (l ++ flat_map (uses f cs) (seq 0 n)).
Proof.
  intros L Ln B. induction n as [|n IH].
  - exists fcs. cbn. repeat split; auto. intros. rewrite app_nil_r; auto.
  - destruct IH as (f1 & E1 & L1 & H1); [lia|]. rewrite seq_S, mfold_app, E1. cbn [bind Nat.add mfold].
    destruct (get_lt cs n) as [c G]; [lia|]. rewrite G. cbn [bind]. apply (proj1 (get_ok _ _ _)) in G.
    destruct (push_uses nf n c f1 L1) as (f2 & E2 & L2 & H2); [intros z Iz; eapply B; eauto|].
    rewrite E2. cbn [bind]. exists f2. repeat split; auto. intros f l Hf.
    rewrite (H2 f _ (H1 f l Hf)). rewrite flat_map_app, <- app_assoc. cbn [flat_map]. rewrite app_nil_r.
    unfold uses at 3. rewrite G. auto.
Qed.

Lemma fill_ok f ng ns es cs old :
  ng <= length cs -> (forall i c z, nth_error cs i = Some c -> In z c -> pid z < length es) ->
  Forall (fun x : list nat => length x = 2) (firstn (length es) (faces old)) ->
  exists m, fill f ng ns es cs old = Ok m /\ nodes m = flat_map (dequantize f) ns /\ cells m = cs /\
    faces m = map (fun e => [fst e; snd e]) es /\ length (faceCells m) = length es /\
    (forall k l, nth_error (resize [] (length es) (faceCells old)) k = Some l ->
       nth_error (faceCells m) k = Some (l ++ flat_map (uses k cs) (seq 0 ng))) /\
    boundaryNodes m = boundaryNodes old /\ boundaryFaces m = boundaryFaces old /\ convexHull m = convexHull old /\
    neighborDomains m = neighborDomains old /\ sharedNodes m = sharedNodes old /\ sharedFaces m = sharedFaces old.
Proof.
  intros Ln B F2. unfold fill.
  rewrite fill_faces; [|apply resize_length|].
  2:{ unfold resize. apply Forall_app; split; auto. apply Forall_forall. intros x I. apply repeat_spec in I. subst; auto. }
  cbn [bind].
  destruct (fill_uses (length es) cs ng (resize [] (length es) (faceCells old)) (resize_length _ _ _) Ln B)
    as (fcs & E & L & H).
  unfold push_use in E. rewrite E. cbn [bind]. eexists. split; [reflexivity|]. cbn. repeat split; auto.
Qed.
