(* The lists of shared nodes and faces. *)
From Verif Require Import Base BaseFacts StdAlg SerializeModel MeshModel MeshSpec MeshProofs MeshProofs2 CollModel SerialDistModel SerialDistSpec SerialDistProofs.
From Coq Require Import Sorted Lia Permutation.

Lemma mfold_pure {S A} (I : S -> Prop) (f : S -> A -> res S) (g : S -> A -> S) l : (forall s a, I s -> In a l -> f s a = Ok (g s a) /\ I (g s a)) -> forall s, I s -> mfold f l s = Ok (fold_left g l s) /\ I (fold_left g l s).
Proof.
  induction l as [|a l IH]; intros H s Is; [auto|]. cbn [mfold fold_left]. destruct (H s a Is) as [E I']; [left; auto|]. rewrite E. cbn [bind]. apply IH; auto. intros; apply H; auto. right. auto.
Qed.
Lemma mfold_pure' {S A} (f : S -> A -> res S) (g : S -> A -> S) l : (forall s a, In a l -> f s a = Ok (g s a)) -> forall s, mfold f l s = Ok (fold_left g l s).
Proof. intros H s. apply (mfold_pure (fun _ => True)); auto. Qed.
Lemma fold_left_flat {S A B} (h : S -> B -> S) (F : A -> list B) l : forall s, fold_left (fun s a => fold_left h (F a) s) l s = fold_left h (flat_map F l) s.
Proof. induction l as [|a l IH]; intros s; [auto|]. cbn [fold_left flat_map]. rewrite fold_left_app. apply IH. Qed.
Lemma nodup_flat {A B} (F : A -> list B) l : NoDup l -> (forall a, In a l -> NoDup (F a)) -> (forall a b x, In a l -> In b l -> In x (F a) -> In x (F b) -> a = b) -> NoDup (flat_map F l).
Proof.
  induction 1 as [|a l N ND IH]; intros H1 H2; [constructor|]. cbn [flat_map].
  assert (G : forall l1 l2 : list B, NoDup l1 -> NoDup l2 -> (forall x, In x l1 -> ~ In x l2) -> NoDup (l1 ++ l2)).
  { clear. induction l1 as [|x l1 IH]; intros l2 A1 A2 A3; auto. inversion A1; subst. cbn. constructor; [rewrite in_app_iff; intros [?|?]; [auto|apply (A3 x); [left|]; auto]|]. apply IH; auto. intros y I. apply A3. right. auto. }
  apply G; [apply H1; left; auto|apply IH; [intros; apply H1; right; auto|intros; eapply H2; eauto; right; auto]|].
  intros x I J. apply in_flat_map in J as (b & Ib & J). apply N. rewrite (H2 a b x); auto; [left|right]; auto.
Qed.
Lemma nodup_map_in {A B} (f : A -> B) l : NoDup l -> (forall x y, In x l -> In y l -> f x = f y -> x = y) -> NoDup (map f l).
Proof.
  induction 1 as [|a l N ND IH]; intros H; cbn; constructor.
  - intros I. apply in_map_iff in I as (b & E & I). apply N. rewrite <- (H b a); auto; [right; auto|left; auto].
  - apply IH. intros; apply H; auto; right; auto.
Qed.

(* ---- the map from neighbors to nodes ---- *)
Definition lk (mp : list (nat * list nat)) (k : nat) : list nat := match find (fun e => fst e =? k) mp with Some e => snd e | None => [] end.
Lemma mpush_keys k v mp x : In x (map fst (mpush k v mp)) <-> x = k \/ In x (map fst mp).
Proof.
  induction mp as [|[k' l] t IH]; cbn [mpush map fst In]; [intuition|]. destruct (k <? k'); [cbn; intuition|]. destruct (Nat.eqb_spec k k') as [->|]; cbn [map fst In]; [intuition|]. rewrite IH. intuition.
Qed.
Lemma mpush_sorted k v mp : StronglySorted lt (map fst mp) -> StronglySorted lt (map fst (mpush k v mp)).
Proof.
  induction mp as [|[k' l] t IH]; intros S0; cbn [mpush map fst] in *; [repeat constructor|]. inversion S0 as [|? ? S1 F]; subst. destruct (Nat.ltb_spec k k').
  - cbn. constructor; auto. constructor; auto. rewrite Forall_forall in *. intros x I. specialize (F x I). lia.
  - destruct (Nat.eqb_spec k k') as [->|]; cbn [map fst]; auto. constructor; auto. rewrite Forall_forall in *. intros x I. apply mpush_keys in I as [->|I]; [lia|auto].
Qed.
Lemma lk_out mp k : ~ In k (map fst mp) -> lk mp k = [].
Proof.
  unfold lk. induction mp as [|[k' l] t IH]; intros N; auto. cbn in *. destruct (Nat.eqb_spec k' k); [exfalso; apply N; auto|]. apply IH. auto.
Qed.
Lemma lk_push k v mp k' : StronglySorted lt (map fst mp) -> lk (mpush k v mp) k' = if k =? k' then lk mp k ++ [v] else lk mp k'.
Proof.
  induction mp as [|[a l] t IH]; intros S0.
  - cbn. unfold lk. cbn. destruct (k =? k'); auto.
  - cbn [map fst] in S0. inversion S0 as [|? ? S1 F]; subst. cbn [mpush]. rewrite Forall_forall in F. destruct (Nat.ltb_spec k a).
    + assert (O : lk ((a, l) :: t) k = []). { apply lk_out. cbn. intros [->|I]; [lia|]. specialize (F k I). lia. } rewrite O. cbn [app]. unfold lk at 1. cbn [find fst]. destruct (k =? k'); auto.
    + destruct (Nat.eqb_spec k a) as [->|].
      * unfold lk. cbn [find fst]. destruct (Nat.eqb_spec a k'); [rewrite Nat.eqb_refl; auto|auto].
      * unfold lk in *. cbn [find fst]. destruct (Nat.eqb_spec a k').
        -- subst. destruct (Nat.eqb_spec k k'); [congruence|]. auto.
        -- rewrite IH by auto. destruct (Nat.eqb_spec a k); [congruence|]. auto.
Qed.
Definition push (me : nat) (mp : list (nat * list nat)) (e : nat * nat) := if fst e =? me then mp else mpush (fst e) (snd e) mp.
Lemma push_all me L : forall mp, StronglySorted lt (map fst mp) -> let mp' := fold_left (push me) L mp in StronglySorted lt (map fst mp') /\
  (forall k, In k (map fst mp') <-> In k (map fst mp) \/ (k <> me /\ exists x, In (k, x) L)) /\
  (forall k, k <> me -> lk mp' k = lk mp k ++ map snd (filter (fun e => fst e =? k) L)).
Proof.
  induction L as [|[o x] L IH]; intros mp S0; cbv zeta; cbn [fold_left].
  - split; auto. split; [intros k; split; auto; intros [?|(_ & y & [])]; auto|]. intros. cbn. rewrite app_nil_r. auto.
  - assert (S1 : StronglySorted lt (map fst (push me mp (o, x)))) by (unfold push; cbn; destruct (o =? me); auto using mpush_sorted). destruct (IH _ S1) as (A & B & C). split; auto. split.
    + intros k. rewrite B. unfold push. cbn [fst snd]. destruct (Nat.eqb_spec o me) as [->|N].
      * split; [intros [?|(? & y & ?)]; auto; right; split; auto; exists y; right; auto|]. intros [?|(Nk & y & [[= -> ->]|I])]; auto; [congruence|]. right. split; auto. eauto.
      * rewrite mpush_keys. split; [intros [[->|?]|(? & y & ?)]; auto; right; split; auto; [exists x; left; auto|exists y; right; auto]|]. intros [?|(Nk & y & [[= -> ->]|I])]; auto. right. split; auto. eauto.
    + intros k Nk. rewrite C by auto. unfold push. cbn [fst snd filter]. destruct (Nat.eqb_spec o me) as [->|N].
      * destruct (Nat.eqb_spec me k); [congruence|auto].
      * rewrite lk_push by auto. destruct (Nat.eqb_spec o k) as [->|]; auto. cbn [map snd]. rewrite <- app_assoc. auto.
Qed.

(* ---- lists by index ---- *)
Definition put (nd : list nat) (sf : list (list nat)) (e : nat * nat) := upd sf (lower_bound nd (fst e)) (nth (lower_bound nd (fst e)) sf [] ++ [snd e]).
Lemma put_all nd L : StronglySorted lt nd -> (forall o f, In (o, f) L -> In o nd) -> forall sf, length sf = length nd ->
  length (fold_left (put nd) L sf) = length nd /\ forall i s, nth_error nd i = Some s -> nth_error (fold_left (put nd) L sf) i = Some (nth i sf [] ++ map snd (filter (fun e => fst e =? s) L)).
Proof.
  intros S0. induction L as [|[o f] L IH]; intros H sf Ls; cbn [fold_left].
  - split; auto. intros i s E. cbn. rewrite app_nil_r. apply nth_error_nth'. rewrite Ls. eapply nth_error_lt; eauto.
  - assert (L1 : length (put nd sf (o, f)) = length nd) by (unfold put; rewrite upd_length; auto). destruct (IH ltac:(intros; eapply H; right; eauto) _ L1) as [A B]. split; auto. intros i s E. rewrite (B i s E). f_equal.
    destruct (In_nth_error nd o) as [j Ej]; [apply (H o f); left; auto|]. unfold put. cbn [fst snd filter]. rewrite (lb_index nd o S0 j Ej). pose proof (nth_error_lt _ _ _ Ej) as Lj.
    destruct (Nat.eqb_spec o s) as [->|N].
    + assert (j = i) by (apply (sorted_inj nd j i s S0); auto). subst j. rewrite (nth_error_nth _ _ [] (upd_same sf i _ ltac:(lia))). cbn [map snd]. rewrite <- app_assoc. auto.
    + assert (j <> i) by (intros ->; congruence). f_equal. destruct (nth_error_ex sf i) as [y Ey]; [rewrite Ls; eapply nth_error_lt; eauto|]. rewrite (nth_error_nth _ _ [] Ey). apply nth_error_nth. rewrite upd_other by auto. auto.
Qed.

Section Lists.
  Context {V : Type} (D : nat) (Dpos : 0 < D) (n : nat) (pts : nat -> list Z) (m : mesh V).
  Hypothesis Whole : forall r, r < n -> exists c, length (pts r) = D * c.
  Hypothesis FR : Fresh D m.
  Hypothesis Cells : length (cells m) = before D pts n.
  Local Notation owns := (Owns D pts).
  Local Notation offs := (offsets D n pts).
  Local Notation WF := (fr_wf D m FR).

  Definition ownF (i : nat) : nat := match ownerRank i offs with Ok r => r | _ => 0 end.
  Lemma cell_owned i : i < length (cells m) -> ownerRank i offs = Ok (ownF i) /\ ownF i < n /\ owns (ownF i) i.
  Proof.
    intros L. rewrite Cells in L. assert (N : 0 < n). { destruct (Nat.eq_dec n 0) as [E|]; [|lia]. rewrite E in L. unfold before, gathered in L. cbn in L. rewrite Nat.div_0_l in L; lia. }
    destruct (owner_ok D Dpos n pts Whole i N L) as (r & Lr & O & E). unfold ownF. rewrite E. auto.
  Qed.
  Lemma owned_cell r i : r < n -> owns r i -> i < length (cells m) /\ ownF i = r.
  Proof.
    intros L O. pose proof (owner_of D Dpos n pts Whole r i L O) as E. split; [|unfold ownF; rewrite E; auto]. rewrite Cells. destruct O as [_ O]. pose proof (before_mono D Dpos n pts Whole (S r) n). lia.
  Qed.

  (* nodes *)
  Variables (nc : list (list nat)).
  Hypothesis NC : computeNodeCells D m = Ok nc /\ length nc = numNodes D m /\ setsOf nc (touches m).
  Variables (me : nat) (Lme : me < n).
  Definition range := seq (before D pts me) (before D pts (S me) - before D pts me).
  Lemma range_in i : In i range <-> owns me i.
  Proof. unfold range. rewrite in_seq. unfold Owns. pose proof (before_mono D Dpos n pts Whole me (S me)). lia. Qed.
  Definition nodePairs := flat_map (fun icell => flat_map (fun z => flat_map (fun x => map (fun oc => (ownF oc, x)) (nth x nc [])) (nth (pid z) (faces m) [])) (nth icell (cells m) [])) range.
  Lemma node_sets i c z ns x : nth_error (cells m) i = Some c -> In z c -> nth_error (faces m) (pid z) = Some ns -> In x ns -> exists cs, nth_error nc x = Some cs /\ forall oc, In oc cs <-> NodeOf m oc x.
  Proof.
    intros Ec Iz En Ix. destruct NC as (_ & Ln & SO). destruct (nth_error_ex nc x) as [cs Ecs]. { rewrite Ln. apply (node_lt D m Dpos WF). eapply (wf_faces _ _ WF); eauto. }
    exists cs. split; auto. intros oc. apply (SO x cs Ecs).
  Qed.
  Lemma shareNodes_ok : shareNodes D m offs me = Ok (fold_left (push me) nodePairs []).
  Proof.
    unfold shareNodes. destruct NC as (-> & Ln & SO). cbn [bind]. rewrite (proj2 (get_ok _ _ _) (offsets_nth D Dpos n pts Whole me ltac:(lia))). cbn [bind]. rewrite (proj2 (get_ok _ _ _) (offsets_nth D Dpos n pts Whole (me + 1) ltac:(lia))). cbn [bind].
    replace (me + 1) with (S me) by lia. fold range. unfold nodePairs. rewrite <- fold_left_flat. apply mfold_pure'. intros mp i Ii. apply range_in in Ii. destruct (owned_cell me i Lme Ii) as [Li _]. destruct (nth_error_ex _ _ Li) as [c Ec].
    rewrite (proj2 (get_ok _ _ _) Ec). cbn [bind]. rewrite (nth_error_nth _ _ [] Ec). rewrite <- fold_left_flat. apply mfold_pure'. intros mp1 z Iz. destruct (nth_error_ex (faces m) (pid z)) as [ns En]; [eapply (wf_cells _ _ WF); eauto|].
    rewrite (proj2 (get_ok _ _ _) En). cbn [bind]. rewrite (nth_error_nth _ _ [] En). rewrite <- fold_left_flat. apply mfold_pure'. intros mp2 x Ix. destruct (node_sets i c z ns x Ec Iz En Ix) as (cs & Ecs & Hcs).
    rewrite (proj2 (get_ok _ _ _) Ecs). cbn [bind]. rewrite (nth_error_nth _ _ [] Ecs). rewrite (mfold_pure' _ (fun mp oc => push me mp (ownF oc, x))).
    - f_equal. clear. revert mp2. induction cs as [|oc cs IH]; intros mp2; [auto|]. cbn [map fold_left]. apply IH.
    - intros mp3 oc Io. destruct (cell_owned oc) as (E & _). { destruct (proj1 (Hcs oc) Io) as (c' & z' & ns' & E' & _). eapply nth_error_lt; eauto. } rewrite E. reflexivity.
  Qed.
  Lemma nodePairs_in s x : In (s, x) nodePairs <-> s < n /\ SharedNode m owns me s x.
  Proof.
    unfold nodePairs. rewrite in_flat_map. split.
    - intros (i & Ii & H). apply range_in in Ii. apply in_flat_map in H as (z & Iz & H). apply in_flat_map in H as (y & Iy & H). apply in_map_iff in H as (oc & [= <- ->] & Io).
      destruct (owned_cell me i Lme Ii) as [Li _]. destruct (nth_error_ex _ _ Li) as [c Ec]. rewrite (nth_error_nth _ _ [] Ec) in Iz. destruct (nth_error_ex (faces m) (pid z)) as [ns En]; [eapply (wf_cells _ _ WF); eauto|]. rewrite (nth_error_nth _ _ [] En) in Iy.
      destruct (node_sets i c z ns x Ec Iz En Iy) as (cs & Ecs & Hcs). rewrite (nth_error_nth _ _ [] Ecs) in Io. pose proof (proj1 (Hcs oc) Io) as No.
      assert (Loc : oc < length (cells m)). { destruct No as (c' & ? & ? & E' & _). eapply nth_error_lt; eauto. } destruct (cell_owned oc Loc) as (_ & Ls & Os). split; auto. split; [exists i; split; auto; exists c, z, ns; auto|exists oc; auto].
    - intros (Ls & (i & Oi & (c & z & ns & Ec & Iz & En & Ix)) & (oc & Oo & No)). exists i. split; [apply range_in; auto|]. rewrite (nth_error_nth _ _ [] Ec). apply in_flat_map. exists z. split; auto. rewrite (nth_error_nth _ _ [] En). apply in_flat_map. exists x. split; auto.
      destruct (node_sets i c z ns x Ec Iz En Ix) as (cs & Ecs & Hcs). rewrite (nth_error_nth _ _ [] Ecs). apply in_map_iff. exists oc. split; [destruct (owned_cell s oc Ls Oo) as [_ ->]; auto|apply Hcs; auto].
  Qed.

  (* faces *)
  Definition other (i : nat) (fc : list Z) : list nat := match fc with [a; b] => [if pid a =? i then pid b else pid a] | _ => [] end.
  Definition facePair (i : nat) (z : Z) : list (nat * nat) := flat_map (fun oc => if ownF oc =? me then [] else [(ownF oc, pid z)]) (other i (nth (pid z) (faceCells m) [])).
  Definition facePairs := flat_map (fun i => flat_map (facePair i) (nth i (cells m) [])) range.
  Lemma facePair_in i c z s f : nth_error (cells m) i = Some c -> In z c -> owns me i ->
    In (s, f) (facePair i z) <-> f = pid z /\ s <> me /\ s < n /\ exists j, owns s j /\ FaceOf m j f.
  Proof.
    intros Ec Iz Oi. pose proof (wf_cells _ _ WF i c z Ec Iz) as Lf. rewrite <- (wf_fcs _ _ WF) in Lf. destruct (nth_error_ex _ _ Lf) as [fc Efc]. unfold facePair. rewrite (nth_error_nth _ _ [] Efc). pose proof (wf_cell_face _ _ WF i c z fc Ec Iz Efc) as Ifc. pose proof (pid_sign_cell z i) as Pi.
    rewrite in_flat_map. split.
    - intros (oc & Io & H). destruct (Nat.eqb_spec (ownF oc) me) as [|Nm]; [destruct H|]. destruct H as [[= <- <-]|[]]. split; auto. split; auto.
      assert (W : exists w, In w fc /\ pid w = oc). { destruct fc as [|a [|b [|]]]; cbn in Io; try contradiction. destruct Io as [<-|[]]. destruct (pid a =? i); [exists b|exists a]; cbn; auto. }
      destruct W as (w & Iw & <-). destruct (wf_face_cell _ _ WF (pid z) fc w Efc Iw) as (c' & Ec' & Is). destruct (cell_owned (pid w)) as (_ & Lo & Oo); [eapply nth_error_lt; eauto|]. split; auto. exists (pid w). split; auto. exists c', (sign_face w (pid z)). split; auto. split; auto. apply pid_sign_face.
    - intros (-> & Ns & Ls & j & Oj & c' & z' & Ec' & Iz' & E'). rewrite <- E' in Efc. pose proof (wf_cell_face _ _ WF j c' z' fc Ec' Iz' Efc) as Jfc. pose proof (pid_sign_cell z' j) as Pj.
      destruct (owned_cell s j Ls Oj) as [_ Fj]. destruct (owned_cell me i Lme Oi) as [_ Fi]. assert (Nij : i <> j) by (intros ->; congruence).
      exists j. rewrite Fj. split; [|destruct (Nat.eqb_spec s me); [congruence|left; auto]].
      destruct (wf_fc _ _ WF _ _ Efc) as [L1|L2].
      + destruct fc as [|a [|]]; try discriminate. destruct Ifc as [->|[]]. destruct Jfc as [E|[]]. congruence.
      + destruct fc as [|a [|b [|]]]; try discriminate. cbn. destruct Ifc as [Ea|[Ea|[]]], Jfc as [Eb|[Eb|[]]]; subst; try (exfalso; congruence).
        * rewrite Pi, Nat.eqb_refl. auto.
        * rewrite Pj. destruct (Nat.eqb_spec j i); [congruence|auto].
  Qed.
  Lemma facePairs_in s f : In (s, f) facePairs <-> s <> me /\ s < n /\ SharedFace m owns me s f.
  Proof.
    unfold facePairs. rewrite in_flat_map. split.
    - intros (i & Ii & H). apply range_in in Ii. destruct (owned_cell me i Lme Ii) as [Li _]. destruct (nth_error_ex _ _ Li) as [c Ec]. rewrite (nth_error_nth _ _ [] Ec) in H. apply in_flat_map in H as (z & Iz & H). apply (facePair_in i c z s f Ec Iz Ii) in H as (-> & Ns & Ls & J). split; auto. split; auto. split; auto. exists i. split; auto. exists c, z. auto.
    - intros (Ns & Ls & (i & Oi & c & z & Ec & Iz & <-) & J). exists i. split; [apply range_in; auto|]. rewrite (nth_error_nth _ _ [] Ec). apply in_flat_map. exists z. split; auto. apply (facePair_in i c z _ _ Ec Iz Oi). auto.
  Qed.
  Lemma facePairs_nodup : NoDup facePairs.
  Proof.
    unfold facePairs. apply nodup_flat; [apply seq_NoDup| |].
    - intros i Ii. apply range_in in Ii. destruct (owned_cell me i Lme Ii) as [Li _]. destruct (nth_error_ex _ _ Li) as [c Ec]. rewrite (nth_error_nth _ _ [] Ec). apply nodup_flat; [apply (fr_cells D m FR i c Ec)| |].
      + intros z Iz. unfold facePair. destruct (nth (pid z) (faceCells m) []) as [|a [|b [|]]]; cbn; try constructor. destruct (ownF _ =? me); cbn; repeat constructor. intros [].
      + intros z z' [s f] Iz Iz' H H'. pose proof H as H0. apply (facePair_in i c z s f Ec Iz Ii) in H as (-> & Ns & Ls & J). apply (facePair_in i c z' s _ Ec Iz' Ii) in H' as (E & _). destruct (Z.eq_dec z z') as [|Nz]; auto. exfalso.
        pose proof (wf_cells _ _ WF i c z Ec Iz) as Lf. rewrite <- (wf_fcs _ _ WF) in Lf. destruct (nth_error_ex _ _ Lf) as [fc Efc]. pose proof (wf_cell_face _ _ WF i c z fc Ec Iz Efc) as I1. pose proof (wf_cell_face _ _ WF i c z' fc Ec Iz' ltac:(rewrite <- E; auto)) as I2.
        assert (Ndiff : sign_cell z i <> sign_cell z' i). { intros Es. apply Nz. apply signed_ext; auto. pose proof (sign_cell_nonneg z i) as A1. pose proof (sign_cell_nonneg z' i) as A2. rewrite Es in A1. tauto. }
        unfold facePair in H0. rewrite (nth_error_nth _ _ [] Efc) in H0. destruct (owned_cell me i Lme Ii) as [_ Fi].
        destruct (wf_fc _ _ WF _ _ Efc) as [L1|L2]; [destruct fc as [|a [|]]; try discriminate; destruct H0|]. destruct fc as [|a [|b [|]]]; try discriminate. cbn in H0.
        assert (Pa : pid a = i /\ pid b = i). { destruct I1 as [I1|[I1|[]]], I2 as [I2|[I2|[]]]; try (exfalso; congruence); rewrite I1, I2, !pid_sign_cell; auto. }
        destruct Pa as [Pa Pb]. rewrite Pa, Pb, Nat.eqb_refl, Fi, Nat.eqb_refl in H0. destruct H0.
    - intros i i' [s f] Ii Ii' H H'. apply range_in in Ii. apply range_in in Ii'. destruct (owned_cell me i Lme Ii) as [Li Fi]. destruct (owned_cell me i' Lme Ii') as [Li' Fi']. destruct (nth_error_ex _ _ Li) as [c Ec]. destruct (nth_error_ex _ _ Li') as [c' Ec']. rewrite (nth_error_nth _ _ [] Ec) in H. rewrite (nth_error_nth _ _ [] Ec') in H'.
      apply in_flat_map in H as (z & Iz & H). apply in_flat_map in H' as (z' & Iz' & H'). pose proof H as H0. apply (facePair_in i c z s f Ec Iz Ii) in H as (-> & Ns & Ls & J). apply (facePair_in i' c' z' s _ Ec' Iz' Ii') in H' as (E & _). destruct (Nat.eq_dec i i') as [|Ni]; auto. exfalso.
      pose proof (wf_cells _ _ WF i c z Ec Iz) as Lf. rewrite <- (wf_fcs _ _ WF) in Lf. destruct (nth_error_ex _ _ Lf) as [fc Efc]. pose proof (wf_cell_face _ _ WF i c z fc Ec Iz Efc) as I1. pose proof (wf_cell_face _ _ WF i' c' z' fc Ec' Iz' ltac:(rewrite <- E; auto)) as I2.
      pose proof (pid_sign_cell z i) as P1. pose proof (pid_sign_cell z' i') as P2. unfold facePair in H0. rewrite (nth_error_nth _ _ [] Efc) in H0.
      destruct (wf_fc _ _ WF _ _ Efc) as [L1|L2]; [destruct fc as [|a [|]]; try discriminate; destruct H0|]. destruct fc as [|a [|b [|]]]; try discriminate. cbn in H0.
      assert (Po : (if pid a =? i then pid b else pid a) = i'). { destruct I1 as [I1|[I1|[]]], I2 as [I2|[I2|[]]]; try (exfalso; congruence); rewrite I1, I2, P1, P2, ?Nat.eqb_refl; auto. destruct (Nat.eqb_spec i' i); [congruence|auto]. }
      rewrite Po, Fi', Nat.eqb_refl in H0. destruct H0.
  Qed.
  Variables (nd : list nat).
  Hypothesis ND : StronglySorted lt nd /\ forall s, In s nd <-> s < n /\ Neighbor m owns me s.
  Lemma shared_face_node s f : s <> me -> SharedFace m owns me s f -> Neighbor m owns me s.
  Proof.
    intros Ns ((i & Oi & c & z & Ec & Iz & <-) & (j & Oj & c' & z' & Ec' & Iz' & E')).
    split; auto.
    pose proof (wf_cells _ _ WF i c z Ec Iz) as Lf.
    destruct (nth_error_ex (faces m) (pid z) Lf) as [ns En].
    pose proof (fr_faces D m FR _ _ En) as Nn. destruct ns as [|x ns]; [congruence|]. exists x.
    split; [exists i; split; auto; exists c, z, (x :: ns)|exists j; split; auto; exists c', z', (x :: ns)]; rewrite ?E'; cbn; auto 10.
  Qed.
  Lemma shareFaces_ok : shareFaces m offs me nd = Ok (fold_left (put nd) facePairs (repeat [] (length nd))).
  Proof.
    unfold shareFaces. rewrite (proj2 (get_ok _ _ _) (offsets_nth D Dpos n pts Whole me ltac:(lia))). cbn [bind]. rewrite (proj2 (get_ok _ _ _) (offsets_nth D Dpos n pts Whole (me + 1) ltac:(lia))). cbn [bind]. replace (me + 1) with (S me) by lia. fold range.
    destruct (fr_lists D m FR) as (_ & _ & ->). rewrite SerializeProofs.resize_nil. unfold facePairs. rewrite <- fold_left_flat. apply (mfold_pure (fun sf => length sf = length nd)); [|apply repeat_length].
    intros sf i Ls Ii. apply range_in in Ii. destruct (owned_cell me i Lme Ii) as [Li _]. destruct (nth_error_ex _ _ Li) as [c Ec]. rewrite (proj2 (get_ok _ _ _) Ec). cbn [bind]. rewrite (nth_error_nth _ _ [] Ec). rewrite <- fold_left_flat.
    apply (mfold_pure (fun sf => length sf = length nd)); auto. clear sf Ls. intros sf z Ls Iz. unfold shareFace.
    pose proof (wf_cells _ _ WF i c z Ec Iz) as Lf. rewrite <- (wf_fcs _ _ WF) in Lf. destruct (nth_error_ex _ _ Lf) as [fc Efc]. rewrite (proj2 (get_ok _ _ _) Efc). cbn [bind]. pose proof (wf_cell_face _ _ WF i c z fc Ec Iz Efc) as I1. pose proof (pid_sign_cell z i) as P1.
    assert (Hp : forall s f, In (s, f) (facePair i z) -> In s nd). { intros s f H. apply (facePair_in i c z s f Ec Iz Ii) in H as (-> & Ns & Lsn & J). apply ND. split; auto. apply (shared_face_node s (pid z)); auto. split; auto. exists i. split; auto. exists c, z. auto. }
    unfold facePair in *. rewrite (nth_error_nth _ _ [] Efc) in *.
    destruct (wf_fc _ _ WF _ _ Efc) as [L1|L2].
    - destruct fc as [|a [|]]; try discriminate. destruct I1 as [->|[]]. cbn. rewrite P1, Nat.eqb_refl. cbn. auto.
    - destruct fc as [|a [|b [|]]]; try discriminate. cbn [length Nat.eqb orb assert bind get nth_error nth]. cbn [other flat_map app] in *.
      assert (As : (pid a =? i) || (true && (pid b =? i)) = true). { apply orb_true_iff. destruct I1 as [->|[->|[]]]; rewrite P1, Nat.eqb_refl; auto. } rewrite As. cbn [assert bind].
      set (oc := if pid a =? i then pid b else pid a) in *.
      assert (Loc : oc < length (cells m)). { assert (W : exists w, In w [a; b] /\ pid w = oc) by (unfold oc; destruct (pid a =? i); [exists b|exists a]; cbn; auto). destruct W as (w & Iw & <-). destruct (wf_face_cell _ _ WF (pid z) _ w Efc Iw) as (c' & Ec' & _). eapply nth_error_lt; eauto. }
      destruct (cell_owned oc Loc) as (E & _). rewrite E. cbn [bind]. destruct (Nat.eqb_spec (ownF oc) me) as [|No]; [cbn; auto|]. cbn [app fold_left].
      destruct (In_nth_error nd (ownF oc)) as [j Ej]; [apply (Hp _ (pid z)); left; auto|]. pose proof (nth_error_lt _ _ _ Ej) as Lj. unfold put. cbn [fst snd]. rewrite (lb_index nd _ (proj1 ND) j Ej). replace (j <? length nd) with true by (symmetry; apply Nat.ltb_lt; auto). cbn [assert bind].
      destruct (nth_error_ex sf j) as [l El]; [lia|]. rewrite (proj2 (get_ok _ _ _) El). cbn [bind]. rewrite (nth_error_nth _ _ [] El). rewrite set_lt by lia. split; auto. rewrite upd_length. auto.
  Qed.
End Lists.
