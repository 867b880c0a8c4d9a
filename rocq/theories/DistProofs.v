(* The lists of shared elements before and after the other ranks' cells are deleted. *)
From Verif Require Import Base BaseFacts StdAlg SerializeModel MeshModel MeshSpec MeshProofs MeshProofs2 MeshProps SerialDistSpec SerialDistProofs2 SerialDistProofs3 HullProofs3 CheckModel CheckProofs DistModel DistSpec.
From Coq Require Import Sorted Lia Permutation.

Definition putI (nd : list nat) (ls : list (list nat)) (e : nat * nat) := match findIndex nd (fst e) with Some j => upd ls j (nth j ls [] ++ [snd e]) | None => ls end.
Lemma find_nth nd o i : NoDup nd -> nth_error nd i = Some o -> findIndex nd o = Some i.
Proof.
  intros N E. destruct (find_index nd o) as [F1 F2]. destruct (findIndex nd o) as [j|] eqn:Ej; [f_equal; pose proof (F1 j eq_refl) as E'; rewrite NoDup_nth_error in N; apply N; [eapply nth_error_lt; eauto|congruence]|]. exfalso. apply (proj1 F2 eq_refl). eapply nth_error_In; eauto.
Qed.
Lemma add_ok nd o x ls : NoDup nd -> In o nd -> length ls = length nd -> add nd o x ls = Ok (putI nd ls (o, x)) /\ length (putI nd ls (o, x)) = length nd.
Proof.
  intros N I L. apply In_nth_error in I as [j E]. unfold add, putI. cbn [fst snd]. rewrite (find_nth nd o j N E). pose proof (nth_error_lt _ _ _ E) as Lj. destruct (nth_error_ex ls j) as [l El]; [lia|]. rewrite (proj2 (get_ok _ _ _) El). cbn [bind]. rewrite (nth_error_nth _ _ [] El), set_lt by lia. rewrite upd_length. auto.
Qed.
Lemma putI_all nd L : NoDup nd -> (forall o f, In (o, f) L -> In o nd) -> forall sf, length sf = length nd ->
  length (fold_left (putI nd) L sf) = length nd /\ forall i s, nth_error nd i = Some s -> nth_error (fold_left (putI nd) L sf) i = Some (nth i sf [] ++ map snd (filter (fun e => fst e =? s) L)).
Proof.
  intros S0. induction L as [|[o f] L IH]; intros H sf Ls; cbn [fold_left].
  - split; auto. intros i s E. cbn. rewrite app_nil_r. apply nth_error_nth'. rewrite Ls. eapply nth_error_lt; eauto.
  - assert (Io : In o nd) by (apply (H o f); left; auto). destruct (add_ok nd o f sf S0 Io Ls) as [_ L1]. destruct (IH ltac:(intros; eapply H; right; eauto) _ L1) as [A B]. split; auto. intros i s E. rewrite (B i s E). f_equal.
    apply In_nth_error in Io as [j Ej]. unfold putI. cbn [fst snd filter]. rewrite (find_nth nd o j S0 Ej). pose proof (nth_error_lt _ _ _ Ej) as Lj.
    destruct (Nat.eqb_spec o s) as [->|N].
    + pose proof (find_nth nd s j S0 Ej) as F1. rewrite (find_nth nd s i S0 E) in F1. injection F1 as ->. rewrite (nth_error_nth _ _ [] (upd_same sf j _ ltac:(lia))). cbn [map snd]. rewrite <- app_assoc. auto.
    + assert (j <> i) by (intros ->; congruence). f_equal. destruct (nth_error_ex sf i) as [y Ey]; [rewrite Ls; eapply nth_error_lt; eauto|]. rewrite (nth_error_nth _ _ [] Ey). apply nth_error_nth. rewrite upd_other by auto. auto.
Qed.

(* sorting by keys *)
Lemma map_sorted {A B} (f : A -> B) (R : B -> B -> Prop) l : StronglySorted R (map f l) -> StronglySorted (fun a b => R (f a) (f b)) l.
Proof. induction l as [|a l IH]; cbn; intros H; [constructor|]. inversion H; subst. constructor; auto. rewrite Forall_map in *. auto. Qed.
Lemma sortBy_ok key kf l : (forall i, In i l -> key i = Ok (kf i)) -> exists l', sortBy key l = Ok l' /\ Permutation l' l /\ Ordered kf l'.
Proof.
  intros K. unfold sortBy. assert (E : mmap (fun i => do k <- key i; Ok (k, i)) l = Ok (map (fun i => (kf i, i)) l)).
  { apply mmap_eq. induction l as [|i l IH]; cbn; constructor; [rewrite K by (left; auto); auto|]. apply IH. intros; apply K; right; auto. }
  rewrite E. cbn [bind]. eexists. split; [reflexivity|]. set (ps := map (fun i => (kf i, i)) l). set (q := sortb _ ps). pose proof (sortb_perm (fun a b : list Z * nat => lexlt (fst a) (fst b)) ps) as P. fold q in P. split.
  - transitivity (map snd ps); [apply Permutation_map; auto|]. unfold ps. rewrite map_map. cbn. rewrite map_id. auto.
  - assert (F : forall e, In e q -> fst e = kf (snd e)). { intros e I. apply (Permutation_in _ P) in I. apply in_map_iff in I as (i & <- & _). auto. }
    unfold Ordered. apply map_sorted with (R := lexle). rewrite map_map. rewrite (map_ext_in _ fst q) by (intros e I; symmetry; auto). unfold q. rewrite (sortb_map (fst (A := list Z) (B := nat)) ps). apply sortK_sorted.
Qed.

(* the surviving entries *)
Lemma selected_sub {A B} (P : A -> Prop) (R : A -> B -> Prop) l l' : selected P R l l' -> exists xs, Forall2 (fun b a => R a b) l' xs /\ (forall x, In x xs <-> In x l /\ P x) /\
  (forall Q, StronglySorted Q l -> StronglySorted Q xs) /\ (NoDup l -> NoDup xs).
Proof.
  induction 1 as [|a l b l' Pa Rab S0 (xs & F & I & SS & ND)|a l l' Na S0 (xs & F & I & SS & ND)].
  - exists []. split; [constructor|]. split; [cbn; tauto|auto].
  - exists (a :: xs). split; [constructor; auto|]. split; [intros x; cbn; rewrite I; split; [intros [<-|[? ?]]; auto|intros [[<-|?] ?]; auto]|]. split.
    + intros Q H. inversion H as [|? ? H1 H2]; subst. constructor; auto. rewrite Forall_forall in *. intros x Ix. apply H2. apply I. auto.
    + intros H. inversion H; subst. constructor; auto. rewrite I. tauto.
  - exists xs. split; auto. split; [intros x; rewrite I; cbn; split; [intros [? ?]; auto|intros [[<-|?] ?]; auto; contradiction]|]. split.
    + intros Q H. inversion H; subst. auto.
    + intros H. inversion H; subst. auto.
Qed.

(* pruning *)
Definition live (e : nat * (list nat * list nat)) : bool := negb (isnil (fst (snd e)) && isnil (snd (snd e))).
Lemma erase_mid {A} (l1 : list A) a l2 : erase (length l1) (l1 ++ a :: l2) = l1 ++ l2.
Proof. unfold erase. induction l1 as [|b l1 IH]; [auto|]. cbn [length app firstn skipn]. f_equal. exact IH. Qed.
Lemma prune_app (z z2 : list (nat * (list nat * list nat))) : prune (length z) (map fst (z ++ z2)) (map (fun e => fst (snd e)) (z ++ z2)) (map (fun e => snd (snd e)) (z ++ z2)) =
  Ok (map fst (filter live z ++ z2), map (fun e => fst (snd e)) (filter live z ++ z2), map (fun e => snd (snd e)) (filter live z ++ z2)).
Proof.
  revert z2. induction z as [|e z IH] using rev_ind; intros z2; [reflexivity|]. rewrite app_length. cbn [length]. rewrite Nat.add_1_r. cbn [prune]. rewrite <- !app_assoc. cbn [app].
  assert (G : forall {B} (f : nat * (list nat * list nat) -> B), get (map f (z ++ e :: z2)) (length z) = Ok (f e)). { intros B f. apply get_ok. rewrite map_app, nth_error_app2; rewrite map_length; [rewrite Nat.sub_diag; auto|lia]. }
  assert (R : forall {B} (f : nat * (list nat * list nat) -> B), erase (length z) (map f (z ++ e :: z2)) = map f (z ++ z2)). { intros B f. rewrite !map_app. cbn [map]. rewrite <- (map_length f z). apply erase_mid. }
  rewrite G. cbn [bind]. rewrite filter_app. cbn [filter]. unfold live at 2 4 6. destruct (isnil (fst (snd e))) eqn:E1; cbn [andb negb]; [rewrite G; cbn [bind]; destruct (isnil (snd (snd e))) eqn:E2; cbn [negb]|].
  - rewrite !R, app_nil_r. apply IH.
  - rewrite (IH (e :: z2)). rewrite <- !app_assoc. auto.
  - rewrite (IH (e :: z2)). rewrite <- !app_assoc. auto.
Qed.
Lemma unzip3 (nd : list nat) (sn sf : list (list nat)) : length sn = length nd -> length sf = length nd ->
  let z := combine nd (combine sn sf) in length z = length nd /\ map fst z = nd /\ map (fun e => fst (snd e)) z = sn /\ map (fun e => snd (snd e)) z = sf.
Proof.
  intros L1 L2. cbv zeta. revert sn sf L1 L2. induction nd as [|a nd IH]; intros [|b sn] [|c sf] L1 L2; try discriminate; [auto|]. cbn. destruct (IH sn sf) as (A & B & C & E); cbn in *; try lia. repeat split; f_equal; auto.
Qed.
Lemma prune_ok nd sn sf : length sn = length nd -> length sf = length nd -> let z := filter live (combine nd (combine sn sf)) in
  prune (length nd) nd sn sf = Ok (map fst z, map (fun e => fst (snd e)) z, map (fun e => snd (snd e)) z).
Proof.
  intros L1 L2. cbv zeta. destruct (unzip3 nd sn sf L1 L2) as (A & B & C & E). set (z := combine nd (combine sn sf)) in *. pose proof (prune_app z []) as P. rewrite !app_nil_r in P. rewrite A, B, C, E in P. exact P.
Qed.

Section Lists.
  Context {V : Type} (D : nat) (Dpos : 0 < D) (m : mesh V) (g2d : list nat) (me : nat) (nd : list nat) (nlocal : nat).
  Hypothesis DI : DistInput D m g2d me nd nlocal.
  Local Notation owns := (From_ g2d).
  Local Notation FR := (di_fresh _ _ _ _ _ _ DI).
  Local Notation WF := (fr_wf D m (di_fresh _ _ _ _ _ _ DI)).

  Definition ownF (i : nat) : nat := nth i g2d 0.
  Lemma cell_owned i : i < length (cells m) -> nth_error g2d i = Some (ownF i).
  Proof. intros L. apply nth_error_nth'. rewrite (di_size _ _ _ _ _ _ DI). auto. Qed.
  Lemma owned_cell r i : owns r i -> i < length (cells m) /\ ownF i = r.
  Proof. intros O. split; [rewrite <- (di_size _ _ _ _ _ _ DI); eapply nth_error_lt; eauto|]. apply nth_error_nth with (d := 0) in O. auto. Qed.
  Lemma range_in i : In i (seq 0 nlocal) <-> owns me i.
  Proof. rewrite in_seq, (di_own _ _ _ _ _ _ DI). lia. Qed.
  Lemma nd_nodup : NoDup nd.
  Proof. apply sorted_lt_nodup, DI. Qed.

  (* faces *)
  Definition facePair (i : nat) (z : Z) : list (nat * nat) := flat_map (fun oc => if ownF oc =? me then [] else [(ownF oc, pid z)]) (other i (nth (pid z) (faceCells m) [])).
  Definition facePairs := flat_map (fun i => flat_map (facePair i) (nth i (cells m) [])) (seq 0 nlocal).
  Lemma facePair_in i c z s f : nth_error (cells m) i = Some c -> In z c -> owns me i ->
    In (s, f) (facePair i z) <-> f = pid z /\ s <> me /\ exists j, owns s j /\ FaceOf m j f.
  Proof.
    intros Ec Iz Oi. pose proof (wf_cells _ _ WF i c z Ec Iz) as Lf. rewrite <- (wf_fcs _ _ WF) in Lf. destruct (nth_error_ex _ _ Lf) as [fc Efc]. unfold facePair. rewrite (nth_error_nth _ _ [] Efc). pose proof (wf_cell_face _ _ WF i c z fc Ec Iz Efc) as Ifc. pose proof (pid_sign_cell z i) as Pi.
    rewrite in_flat_map. split.
    - intros (oc & Io & H). destruct (Nat.eqb_spec (ownF oc) me) as [|Nm]; [destruct H|]. destruct H as [[= <- <-]|[]]. split; auto. split; auto.
      assert (W : exists w, In w fc /\ pid w = oc). { destruct fc as [|a [|b [|]]]; cbn in Io; try contradiction. destruct Io as [<-|[]]. destruct (pid a =? i); [exists b|exists a]; cbn; auto. }
      destruct W as (w & Iw & <-). destruct (wf_face_cell _ _ WF (pid z) fc w Efc Iw) as (c' & Ec' & Is). exists (pid w). split; [apply cell_owned; eapply nth_error_lt; eauto|]. exists c', (sign_face w (pid z)). split; auto. split; auto. apply pid_sign_face.
    - intros (-> & Ns & j & Oj & c' & z' & Ec' & Iz' & E'). rewrite <- E' in Efc. pose proof (wf_cell_face _ _ WF j c' z' fc Ec' Iz' Efc) as Jfc. pose proof (pid_sign_cell z' j) as Pj.
      destruct (owned_cell s j Oj) as [_ Fj]. destruct (owned_cell me i Oi) as [_ Fi]. assert (Nij : i <> j) by (intros ->; congruence).
      exists j. rewrite Fj. split; [|destruct (Nat.eqb_spec s me); [congruence|left; auto]].
      destruct (wf_fc _ _ WF _ _ Efc) as [L1|L2].
      + destruct fc as [|a [|]]; try discriminate. destruct Ifc as [->|[]]. destruct Jfc as [E|[]]. congruence.
      + destruct fc as [|a [|b [|]]]; try discriminate. cbn. destruct Ifc as [Ea|[Ea|[]]], Jfc as [Eb|[Eb|[]]]; subst; try (exfalso; congruence).
        * rewrite Pi, Nat.eqb_refl. auto.
        * rewrite Pj. destruct (Nat.eqb_spec j i); [congruence|auto].
  Qed.
  Lemma facePairs_in s f : In (s, f) facePairs <-> s <> me /\ SharedFace m owns me s f.
  Proof.
    unfold facePairs. rewrite in_flat_map. split.
    - intros (i & Ii & H). apply range_in in Ii. destruct (owned_cell me i Ii) as [Li _]. destruct (nth_error_ex _ _ Li) as [c Ec]. rewrite (nth_error_nth _ _ [] Ec) in H. apply in_flat_map in H as (z & Iz & H). apply (facePair_in i c z s f Ec Iz Ii) in H as (-> & Ns & J). split; auto. split; auto. exists i. split; auto. exists c, z. auto.
    - intros (Ns & (i & Oi & c & z & Ec & Iz & <-) & J). exists i. split; [apply range_in; auto|]. rewrite (nth_error_nth _ _ [] Ec). apply in_flat_map. exists z. split; auto. apply (facePair_in i c z _ _ Ec Iz Oi). auto.
  Qed.
  Lemma facePairs_nodup : NoDup facePairs.
  Proof.
    unfold facePairs. apply nodup_flat; [apply seq_NoDup| |].
    - intros i Ii. apply range_in in Ii. destruct (owned_cell me i Ii) as [Li _]. destruct (nth_error_ex _ _ Li) as [c Ec]. rewrite (nth_error_nth _ _ [] Ec). apply nodup_flat; [apply (fr_cells D m FR i c Ec)| |].
      + intros z Iz. unfold facePair. destruct (nth (pid z) (faceCells m) []) as [|a [|b [|]]]; cbn; try constructor. destruct (ownF _ =? me); cbn; repeat constructor. intros [].
      + intros z z' [s f] Iz Iz' H H'. pose proof H as H0. apply (facePair_in i c z s f Ec Iz Ii) in H as (-> & Ns & J). apply (facePair_in i c z' s _ Ec Iz' Ii) in H' as (E & _). destruct (Z.eq_dec z z') as [|Nz]; auto. exfalso.
        pose proof (wf_cells _ _ WF i c z Ec Iz) as Lf. rewrite <- (wf_fcs _ _ WF) in Lf. destruct (nth_error_ex _ _ Lf) as [fc Efc]. pose proof (wf_cell_face _ _ WF i c z fc Ec Iz Efc) as I1. pose proof (wf_cell_face _ _ WF i c z' fc Ec Iz' ltac:(rewrite <- E; auto)) as I2.
        assert (Ndiff : sign_cell z i <> sign_cell z' i). { intros Es. apply Nz. apply signed_ext; auto. pose proof (sign_cell_nonneg z i) as A1. pose proof (sign_cell_nonneg z' i) as A2. rewrite Es in A1. tauto. }
        unfold facePair in H0. rewrite (nth_error_nth _ _ [] Efc) in H0. destruct (owned_cell me i Ii) as [_ Fi].
        destruct (wf_fc _ _ WF _ _ Efc) as [L1|L2]; [destruct fc as [|a [|]]; try discriminate; destruct H0|]. destruct fc as [|a [|b [|]]]; try discriminate. cbn in H0.
        assert (Pa : pid a = i /\ pid b = i). { destruct I1 as [I1|[I1|[]]], I2 as [I2|[I2|[]]]; try (exfalso; congruence); rewrite I1, I2, !pid_sign_cell; auto. }
        destruct Pa as [Pa Pb]. rewrite Pa, Pb, Nat.eqb_refl, Fi, Nat.eqb_refl in H0. destruct H0.
    - intros i i' [s f] Ii Ii' H H'. apply range_in in Ii. apply range_in in Ii'. destruct (owned_cell me i Ii) as [Li Fi]. destruct (owned_cell me i' Ii') as [Li' Fi']. destruct (nth_error_ex _ _ Li) as [c Ec]. destruct (nth_error_ex _ _ Li') as [c' Ec']. rewrite (nth_error_nth _ _ [] Ec) in H. rewrite (nth_error_nth _ _ [] Ec') in H'.
      apply in_flat_map in H as (z & Iz & H). apply in_flat_map in H' as (z' & Iz' & H'). pose proof H as H0. apply (facePair_in i c z s f Ec Iz Ii) in H as (-> & Ns & J). apply (facePair_in i' c' z' s _ Ec' Iz' Ii') in H' as (E & _). destruct (Nat.eq_dec i i') as [|Ni]; auto. exfalso.
      pose proof (wf_cells _ _ WF i c z Ec Iz) as Lf. rewrite <- (wf_fcs _ _ WF) in Lf. destruct (nth_error_ex _ _ Lf) as [fc Efc]. pose proof (wf_cell_face _ _ WF i c z fc Ec Iz Efc) as I1. pose proof (wf_cell_face _ _ WF i' c' z' fc Ec' Iz' ltac:(rewrite <- E; auto)) as I2.
      pose proof (pid_sign_cell z i) as P1. pose proof (pid_sign_cell z' i') as P2. unfold facePair in H0. rewrite (nth_error_nth _ _ [] Efc) in H0.
      destruct (wf_fc _ _ WF _ _ Efc) as [L1|L2]; [destruct fc as [|a [|]]; try discriminate; destruct H0|]. destruct fc as [|a [|b [|]]]; try discriminate. cbn in H0.
      assert (Po : (if pid a =? i then pid b else pid a) = i'). { destruct I1 as [I1|[I1|[]]], I2 as [I2|[I2|[]]]; try (exfalso; congruence); rewrite I1, I2, P1, P2, ?Nat.eqb_refl; auto. destruct (Nat.eqb_spec i' i); [congruence|auto]. }
      rewrite Po, Fi', Nat.eqb_refl in H0. destruct H0.
  Qed.
  Lemma shared_face_node s f : SharedFace m owns me s f -> exists x, SharedNode m owns me s x.
  Proof.
    intros ((i & Oi & c & z & Ec & Iz & <-) & (j & Oj & c' & z' & Ec' & Iz' & E')).
    pose proof (wf_cells _ _ WF i c z Ec Iz) as Lf. destruct (nth_error_ex (faces m) (pid z) Lf) as [ns En].
    pose proof (fr_faces D m FR _ _ En) as Nn. destruct ns as [|x ns]; [congruence|]. exists x.
    split; [exists i; split; auto; exists c, z, (x :: ns)|exists j; split; auto; exists c', z', (x :: ns)]; rewrite ?E'; cbn; auto 10.
  Qed.
  Lemma commFaces_ok : commFaces m g2d me nd nlocal = Ok (fold_left (putI nd) facePairs (repeat [] (length nd))).
  Proof.
    unfold commFaces. destruct (fr_lists D m FR) as (_ & _ & ->). rewrite SerializeProofs.resize_nil. unfold facePairs. rewrite <- fold_left_flat. apply (mfold_pure (fun sf => length sf = length nd)); [|apply repeat_length].
    intros sf i Ls Ii. apply range_in in Ii. destruct (owned_cell me i Ii) as [Li _]. destruct (nth_error_ex _ _ Li) as [c Ec]. rewrite (proj2 (get_ok _ _ _) Ec). cbn [bind]. rewrite (nth_error_nth _ _ [] Ec). rewrite <- fold_left_flat.
    apply (mfold_pure (fun sf => length sf = length nd)); auto. clear sf Ls. intros sf z Ls Iz. unfold commFace.
    pose proof (wf_cells _ _ WF i c z Ec Iz) as Lf. rewrite <- (wf_fcs _ _ WF) in Lf. destruct (nth_error_ex _ _ Lf) as [fc Efc]. rewrite (proj2 (get_ok _ _ _) Efc). cbn [bind]. pose proof (wf_cell_face _ _ WF i c z fc Ec Iz Efc) as I1. pose proof (pid_sign_cell z i) as P1.
    unfold facePair in *. rewrite (nth_error_nth _ _ [] Efc) in *.
    destruct (wf_fc _ _ WF _ _ Efc) as [L1|L2].
    - destruct fc as [|a [|]]; try discriminate. cbn. auto.
    - destruct fc as [|a [|b [|]]]; try discriminate. cbn [length Nat.eqb orb assert bind get nth_error]. cbn [other flat_map app] in *.
      assert (As : (pid a =? i) || (pid b =? i) = true). { apply orb_true_iff. destruct I1 as [->|[->|[]]]; rewrite P1, Nat.eqb_refl; auto. } rewrite As. cbn [assert bind].
      set (oc := if pid a =? i then pid b else pid a) in *.
      assert (Loc : oc < length (cells m)). { assert (W : exists w, In w [a; b] /\ pid w = oc) by (unfold oc; destruct (pid a =? i); [exists b|exists a]; cbn; auto). destruct W as (w & Iw & <-). destruct (wf_face_cell _ _ WF (pid z) _ w Efc Iw) as (c' & Ec' & _). eapply nth_error_lt; eauto. }
      rewrite (di_size _ _ _ _ _ _ DI). replace (oc <? length (cells m)) with true by (symmetry; apply Nat.ltb_lt; auto). cbn [assert bind]. rewrite (proj2 (get_ok _ _ _) (cell_owned oc Loc)). cbn [bind]. destruct (Nat.eqb_spec (ownF oc) me) as [|No]; [cbn; auto|]. cbn [app fold_left].
      apply add_ok; auto; [apply nd_nodup|]. eapply (di_known _ _ _ _ _ _ DI); [apply cell_owned; eauto|auto].
  Qed.
  Variables (nc : list (list nat)).
  Hypothesis NC : computeNodeCells D m = Ok nc /\ length nc = numNodes D m /\ setsOf nc (touches m).
  Definition nodePairs := flat_map (fun x => flat_map (fun oc => if ownF oc =? me then [] else [(ownF oc, x)]) (nth x nc [])) (seq 0 (length nc)).
  Lemma nodePairs_in s x : In (s, x) nodePairs <-> s <> me /\ RankNode m owns s x.
  Proof.
    destruct NC as (_ & Ln & SO). unfold nodePairs. rewrite in_flat_map. split.
    - intros (y & Iy & H). apply in_seq in Iy. apply in_flat_map in H as (oc & Io & H). destruct (Nat.eqb_spec (ownF oc) me) as [|N]; [destruct H|]. destruct H as [[= <- ->]|[]]. split; auto. destruct (nth_error_ex nc x) as [cs Ecs]; [lia|]. rewrite (nth_error_nth _ _ [] Ecs) in Io. apply (SO x cs Ecs) in Io. exists oc. split; auto. destruct Io as (c & z & ns & Ec & _). apply cell_owned. eapply nth_error_lt; eauto.
    - intros (N & oc & Oo & No). pose proof No as (c & z & ns & Ec & Iz & En & Ix). exists x. assert (Lx : x < length nc) by (rewrite Ln; apply (node_lt D m Dpos WF); eapply (wf_faces _ _ WF); eauto). split; [apply in_seq; lia|]. destruct (nth_error_ex nc x Lx) as [cs Ecs]. rewrite (nth_error_nth _ _ [] Ecs). apply in_flat_map. exists oc. split; [apply (SO x cs Ecs); auto|]. destruct (owned_cell s oc Oo) as [_ ->]. destruct (Nat.eqb_spec s me); [congruence|left; auto].
  Qed.
  Lemma known s x : s <> me -> RankNode m owns s x -> In s nd.
  Proof. intros N (i & O & _). eapply (di_known _ _ _ _ _ _ DI); eauto. Qed.
  Lemma commNodes_ok : commNodes D m g2d me nd = Ok (fold_left (putI nd) nodePairs (repeat [] (length nd))).
  Proof.
    pose proof NC as (E & Ln & SO). unfold commNodes. rewrite E. cbn [bind]. destruct (fr_lists D m FR) as (_ & -> & _). rewrite SerializeProofs.resize_nil. unfold nodePairs. rewrite <- fold_left_flat. apply (mfold_pure (fun sf => length sf = length nd)); [|apply repeat_length].
    intros sn x Ls Ix. apply in_seq in Ix. destruct (nth_error_ex nc x) as [cs Ecs]; [lia|]. rewrite (proj2 (get_ok _ _ _) Ecs). cbn [bind]. rewrite (nth_error_nth _ _ [] Ecs). rewrite <- fold_left_flat. apply (mfold_pure (fun sf => length sf = length nd)); auto. clear sn Ls. intros sn oc Ls Io.
    apply (SO x cs Ecs) in Io as No. assert (Lo : oc < length (cells m)) by (destruct No as (c & z & ns & Ec & _); eapply nth_error_lt; eauto). rewrite (di_size _ _ _ _ _ _ DI). replace (oc <? length (cells m)) with true by (symmetry; apply Nat.ltb_lt; auto). cbn [assert bind]. rewrite (proj2 (get_ok _ _ _) (cell_owned oc Lo)). cbn [bind].
    destruct (Nat.eqb_spec (ownF oc) me) as [|N]; [auto|]. apply add_ok; auto; [apply nd_nodup|]. apply (known _ x N). exists oc. split; auto. apply cell_owned. auto.
  Qed.
End Lists.
