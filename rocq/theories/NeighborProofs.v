(* Proofs about the neighbor lists. *)
From Verif Require Import Base BaseFacts StdAlg SerializeModel SerializeSpec SerializeProofs MeshModel MeshSpec MeshProofs2 MeshProps ArrayModel ArrayProps
  CollModel SerialDistModel SerialDistSpec SerialDistProofs NeighborModel NeighborSpec.
From Coq Require Import Sorted.

Section Offs.
  Context (D : nat) (Dpos : 0 < D) (n : nat) (pts : nat -> list Z).
  Hypothesis Whole : forall r, r < n -> exists c, length (pts r) = D * c.
  Local Notation offs := (offsets D n pts).

  Lemma bisect_owner i : i < before D pts n -> exists r, r < n /\ Owns D pts r i /\ bisectSearch (map Z.of_nat offs) (Z.of_nat i) = Ok (Z.of_nat r).
  Proof.
    intros Li. assert (Sd : StronglySorted Z.le (map Z.of_nat offs)).
    { pose proof (offsets_sorted D Dpos n pts Whole) as H. induction H as [|a l H IH F]; cbn; constructor; auto. apply Forall_forall. intros z I. apply in_map_iff in I as (x & <- & I). rewrite Forall_forall in F. specialize (F x I). lia. }
    assert (Ln : length (map Z.of_nat offs) = S n) by (rewrite map_length; apply offsets_len).
    destruct (bisectSearch_ascending (map Z.of_nat offs) (Z.of_nat i)) as (j & E & B1 & B2 & B3); [intros Hn; rewrite Hn in Ln; discriminate|auto|].
    rewrite Ln in B1. assert (At : forall k, k <= n -> nth_error (map Z.of_nat offs) k = Some (Z.of_nat (before D pts k))). { intros k L. rewrite nth_error_map, (offsets_nth D Dpos n pts Whole) by auto. reflexivity. }
    assert (J0 : (0 <= j)%Z). { destruct (Z.le_gt_cases 0 j) as [|G]; auto. assert (j = -1)%Z as -> by lia. specialize (B3 _ (At 0 ltac:(lia))). rewrite (before_0 D Dpos n pts Whole) in B3. lia. }
    assert (Jn : (j < Z.of_nat n)%Z). { destruct (Z.lt_ge_cases j (Z.of_nat n)) as [|G]; auto. assert (j = Z.of_nat n)%Z as -> by lia. rewrite Nat2Z.id in B2. specialize (B2 _ J0 (At n ltac:(lia))). lia. }
    exists (Z.to_nat j). split; [lia|]. rewrite Z2Nat.id by auto. split; auto. split.
    - specialize (B2 _ J0 (At (Z.to_nat j) ltac:(lia))). lia.
    - replace (Z.to_nat (j + 1)) with (S (Z.to_nat j)) in B3 by lia. specialize (B3 _ (At (S (Z.to_nat j)) ltac:(lia))). lia.
  Qed.
End Offs.

Lemma mfold_total {A S} (step : S -> A -> res S) (Inv : S -> Prop) l s :
  (forall s a, In a l -> Inv s -> exists s', step s a = Ok s' /\ Inv s') -> Inv s -> exists s', mfold step l s = Ok s' /\ Inv s'.
Proof.
  revert s. induction l as [|a l IH]; intros s H I; [exists s; auto|]. cbn [mfold]. destruct (H s a ltac:(cbn; auto) I) as (s1 & E & I1). rewrite E. cbn [bind]. apply IH; auto. intros s0 a0 Ia. apply H. cbn; auto.
Qed.
Lemma fold_insert cs s : StronglySorted lt s -> StronglySorted lt (fold_left (fun s c => set_insert c s) cs s) /\ forall c, In c (fold_left (fun s c => set_insert c s) cs s) <-> In c s \/ In c cs.
Proof.
  revert s. induction cs as [|c cs IH]; intros s H; cbn [fold_left]; [split; auto; intros; cbn; tauto|]. destruct (IH (set_insert c s) (set_insert_sorted c s H)) as [I1 I2]. split; auto. intros c'. rewrite I2, set_insert_in. cbn. intuition.
Qed.
(* a loop that adds to a set *)
Lemma mfold_adds {A} (step : list nat -> A -> res (list nat)) (P : A -> nat -> Prop) l s :
  (forall s a, In a l -> StronglySorted lt s -> exists s', step s a = Ok s' /\ StronglySorted lt s' /\ forall c, In c s' <-> In c s \/ P a c) ->
  StronglySorted lt s -> exists s', mfold step l s = Ok s' /\ StronglySorted lt s' /\ forall c, In c s' <-> In c s \/ exists a, In a l /\ P a c.
Proof.
  revert s. induction l as [|a l IH]; intros s H I.
  - exists s. split; auto. split; auto. intros c. split; [auto|]. intros [|(a & [] & _)]; auto.
  - cbn [mfold]. destruct (H s a ltac:(cbn; auto) I) as (s1 & E & I1 & X1). rewrite E. cbn [bind]. destruct (IH s1) as (s2 & E2 & I2 & X2); [intros s0 a0 Ia; apply H; cbn; auto|auto|]. exists s2. split; auto. split; auto.
    intros c. rewrite X2, X1. split.
    + intros [[|]|(b & Ib & Pb)]; auto; right; [exists a|exists b]; cbn; auto.
    + intros [|(b & [->|Ib] & Pb)]; auto. right. eauto.
Qed.

Section Lists.
  Context {V : Type} (D : nat) (Dpos : 0 < D) (n : nat) (hull : nat -> rplc Z) (m : mesh V).
  Hypothesis SD : Sendable D n hull.
  Hypothesis WF : WellFormed D m.
  Local Notation pts := (visible hull).
  Hypothesis Cells : length (cells m) = before D pts n.
  Local Notation offs := (offsets D n pts).
  Local Notation owns := (Owns D pts).

  Lemma interest me : me < n -> exists cs, cellsOfInterest D m offs me = Ok cs /\ StronglySorted lt cs /\ forall c, In c cs <-> exists x, RankNode m owns me x /\ NodeOf m c x.
  Proof.
    intros L. unfold cellsOfInterest. destruct (computeNodeCells_exact V D m Dpos WF) as (nc & E1 & L1 & H1). destruct (computeCellToNodes_exact V D m Dpos WF) as (cn & E2 & L2 & H2).
    rewrite E1, E2. cbn [bind]. pose proof (sd_whole _ _ _ SD) as W. rewrite (proj2 (get_ok _ _ _) (offsets_nth D Dpos n pts W me ltac:(lia))). cbn [bind]. replace (me + 1) with (S me) by lia. rewrite (proj2 (get_ok _ _ _) (offsets_nth D Dpos n pts W (S me) ltac:(lia))). cbn [bind].
    match goal with |- context [mfold ?g ?l []] => destruct (mfold_adds g (fun i c => exists x, NodeOf m i x /\ NodeOf m c x) l []) as (cs & E & S1 & X) end.
    - intros s i Ii Hs. apply in_seq in Ii. assert (Li : i < length cn). { rewrite L2, Cells. pose proof (before_mono D Dpos n pts W (S me) n). lia. }
      destruct (nth_error_ex _ _ Li) as [ns En]. rewrite (proj2 (get_ok _ _ _) En). cbn [bind]. destruct (H2 i ns En) as [_ N].
      match goal with |- context [mfold ?g ns s] => destruct (mfold_adds g (fun x c => NodeOf m c x) ns s) as (s' & E & S1 & X) end; auto.
      + intros s0 x Ix Hs0. assert (Lx : x < length nc). { apply N in Ix as (c & z & fs & A & B & C & I). pose proof (wf_faces D m WF (pid z) fs x C I). nia. }
        destruct (nth_error_ex _ _ Lx) as [cs Ec]. rewrite (proj2 (get_ok _ _ _) Ec). cbn [bind]. destruct (fold_insert cs s0 Hs0) as [F1 F2]. eexists. split; [reflexivity|]. split; auto. intros c. rewrite F2. destruct (H1 x cs Ec) as [_ K]. rewrite (K c). reflexivity.
      + exists s'. split; auto. split; auto. intros c. rewrite X. split; intros [|(x & A & B)]; auto; right; exists x; split; auto; apply N; auto.
    - constructor.
    - exists cs. split; auto. split; auto. intros c. rewrite X. split.
      + intros [[]|(i & Ii & x & A & B)]. apply in_seq in Ii. exists x. split; auto. exists i. split; auto. split; lia.
      + intros (x & (i & [O1 O2] & A) & B). right. exists i. split; [apply in_seq; lia|eauto].
  Qed.

  Lemma node_cell c x : NodeOf m c x -> c < length (cells m).
  Proof. intros (k & z & ns & E & _). apply nth_error_lt in E. auto. Qed.
  Lemma mesh_neighbors me cs s : StronglySorted lt s -> (forall c, In c cs -> c < length (cells m)) -> exists s', meshNeighbors offs me cs s = Ok s' /\ StronglySorted lt s' /\
    forall o, In o s' <-> In o s \/ (o < n /\ o <> me /\ exists c, In c cs /\ owns o c).
  Proof.
    intros Hs Lc. unfold meshNeighbors. pose proof (sd_whole _ _ _ SD) as W.
    match goal with |- context [mfold ?g cs s] => destruct (mfold_adds g (fun c o => o < n /\ o <> me /\ owns o c) cs s) as (s' & E & S1 & X) end; auto.
    - intros s0 c Ic Hs0. specialize (Lc c Ic). rewrite Cells in Lc. destruct (bisect_owner D Dpos n pts W c Lc) as (r & Lr & Or & E). rewrite E. cbn [bind]. cbv zeta. rewrite Z.mod_small by (pose proof (sd_ranks _ _ _ SD); lia). rewrite Nat2Z.id.
      destruct (Nat.eqb_spec r me) as [->|Ne]; eexists; (split; [reflexivity|]).
      + split; auto. intros o. split; auto. intros [|(Lo & No & Oo)]; auto. exfalso. apply No. apply (owner_unique D Dpos n pts W o me c); auto.
      + split; [apply set_insert_sorted; auto|]. intros o. rewrite set_insert_in. split; intros [|]; auto; [subst; auto|]. destruct H as (Lo & No & Oo). left. apply (owner_unique D Dpos n pts W o r c); auto.
    - exists s'. split; auto. split; auto. intros o. rewrite X. split; (intros [|]; [auto|]); right; [destruct H as (c & Ic & A & B & O)|destruct H as (A & B & c & Ic & O)]; eauto 6.
  Qed.

  Variables (isect : rplc Z -> rplc Z -> res bool) (meet : nat -> nat -> bool).
  Hypothesis IS : forall r s, r < n -> s < n -> isect (hull r) (hull s) = Ok (meet r s).
  Lemma hull_neighbors me : me < n -> exists s, hullNeighbors isect (map hull (seq 0 n)) me n = Ok s /\ StronglySorted lt s /\ forall o, In o s <-> o < n /\ o <> me /\ meet o me = true.
  Proof.
    intros L. unfold hullNeighbors. assert (G : forall r, r < n -> get (map hull (seq 0 n)) r = Ok (hull r)). { intros r Lr. apply (proj2 (get_ok _ _ _)). rewrite nth_error_map. rewrite nth_error_nth' with (d := 0) by (rewrite seq_length; lia). rewrite seq_nth by lia. reflexivity. }
    match goal with |- context [mfold ?g ?l []] => destruct (mfold_adds g (fun o c => c = o /\ o <> me /\ meet o me = true) l []) as (s' & E & S1 & X) end.
    - intros s o Io Hs. apply in_seq in Io. destruct (Nat.eqb_spec o me) as [->|Ne].
      + exists s. split; auto. split; auto. intros c. split; auto. intros [|(_ & H & _)]; auto. congruence.
      + rewrite !G by lia. cbn [bind]. rewrite IS by lia. cbn [bind]. destruct (meet o me) eqn:M; eexists; (split; [reflexivity|]).
        * split; [apply set_insert_sorted; auto|]. intros c. rewrite set_insert_in. intuition.
        * split; auto. intros c. split; auto. intros [|(_ & _ & H)]; auto. discriminate.
    - constructor.
    - exists s'. split; auto. split; auto. intros o. rewrite X. split.
      + intros [[]|(q & Iq & -> & A & B)]. apply in_seq in Iq. split; [lia|auto].
      + intros (A & B & C). right. exists o. split; [apply in_seq; lia|auto].
  Qed.

  Lemma rank_lists me : me < n -> exists nb, (do s <- hullNeighbors isect (map hull (seq 0 n)) me n; do cs <- cellsOfInterest D m offs me; do s <- meshNeighbors offs me cs s; Ok (StdAlg.sort s)) = Ok nb /\
    NeighborList n (fun r s => meet r s = true) m owns me nb.
  Proof.
    intros L. destruct (hull_neighbors me L) as (s1 & E1 & S1 & X1). destruct (interest me L) as (cs & E2 & S2 & X2). destruct (mesh_neighbors me cs s1 S1) as (s2 & E3 & S3 & X3).
    { intros c Ic. apply X2 in Ic as (x & _ & N). eapply node_cell; eauto. }
    rewrite E1. cbn [bind]. rewrite E2. cbn [bind]. rewrite E3. cbn [bind]. eexists. split; [reflexivity|]. split.
    - apply sorted_nodup_lt; [apply sort_sorted|]. eapply Permutation.Permutation_NoDup; [symmetry; apply sort_perm|]. clear -S3. induction S3 as [|a l H IH F]; constructor; auto. intros I. rewrite Forall_forall in F. specialize (F a I). lia.
    - intros o. rewrite sort_in, X3, X1. split.
      + intros [(A & B & C)|(A & B & c & Ic & O)]; auto 10. split; auto. split; auto. right. apply X2 in Ic as (x & R & N). exists x. split; auto. exists c. auto.
      + intros (A & B & [C|(x & R & (c & O & N))]); auto. right. split; auto. split; auto. exists c. split; auto. apply X2. eauto.
  Qed.
End Lists.

(* ---- the exchange of the hulls ---- *)
Section Share.
  Context {A : Type} (D : nat) (Dpos : 0 < D) (n : nat) (hull : nat -> rplc Z) (k : nat -> list (rplc Z) -> list nat -> cprog A).
  Hypothesis SD : Sendable D n hull.
  Local Notation pts := (visible hull).
  Lemma share_loop a todo p : p + todo = n -> Together n (fun r => k r (map hull (seq 0 n)) (offsets D n pts)) a ->
    Together n (fun r => shareHulls D (serialize (TReducedPLC TDouble) (hull r)) (seq p todo) (map hull (seq 0 p)) (map (before D pts) (seq 0 (S p))) (k r)) a.
  Proof.
    revert p. induction todo as [|todo IH]; intros p E T.
    - cbn [seq shareHulls]. replace p with n by lia. exact T.
    - change (seq p (S todo)) with (p :: seq (S p) todo). cbn [shareHulls]. assert (Lp : p < n) by lia.
      assert (Us : forall r, r < n -> usize (serialize (TReducedPLC TDouble) (hull r)) = Z.of_nat (length (serialize (TReducedPLC TDouble) (hull r)))). { intros r Lr. apply usize_small. apply (sd_small _ _ _ SD r Lr). }
      eapply t_bcast; [exact Lp|intros r Lr; reflexivity|reflexivity|]. cbn beta. rewrite Us by auto. cbn match. rewrite Nat2Z.id.
      eapply t_bcast; [exact Lp|intros r Lr; reflexivity| |].
      + cbn beta. rewrite resize_same. auto.
      + cbn beta. eapply together_ext; [|exact (IH (S p) ltac:(lia) T)]. intros r Lr. cbn beta. symmetry. rewrite resize_same.
        pose proof (roundtrip (TReducedPLC TDouble) true (hull p) [] (sd_fits _ _ _ SD p Lp)) as R. rewrite app_nil_r in R. rewrite R. cbn [clift isnil assert].
        assert (G1 : get (map (before D pts) (seq 0 (S p))) (length (map (before D pts) (seq 0 (S p))) - 1) = Ok (before D pts p)).
        { apply (proj2 (get_ok _ _ _)). rewrite map_length, seq_length. replace (S p - 1) with p by lia. rewrite nth_error_map. rewrite nth_error_nth' with (d := 0) by (rewrite seq_length; lia). rewrite seq_nth by lia. reflexivity. }
        rewrite G1. cbn [clift]. assert (G2 : get (map hull (seq 0 p) ++ [hull p]) p = Ok (hull p)). { apply (proj2 (get_ok _ _ _)). rewrite nth_error_app2 by (rewrite map_length, seq_length; lia). rewrite map_length, seq_length, Nat.sub_diag. reflexivity. }
        match goal with |- clift ?x _ = _ => change x with (get (map hull (seq 0 p) ++ [hull p]) p) end. rewrite G2. cbn [clift].
        f_equal; [rewrite seq_S, map_app; auto|]. rewrite (seq_S (S p) 0), map_app. f_equal. cbn [map Nat.add]. f_equal. destruct (before_S D Dpos n pts (sd_whole _ _ _ SD) p Lp) as (c & Ec & ->). f_equal. unfold visible in Ec. rewrite Ec. rewrite Nat.mul_comm, Nat.div_mul by lia. auto.
  Qed.
End Share.

Section All.
  Context {V : Type} (D : nat) (Dpos : 0 < D) (n : nat) (hull : nat -> rplc Z) (tess : list Z -> res (mesh V)) (m : mesh V).
  Hypothesis SD : Sendable D n hull.
  Hypothesis TS : tess (gathered n (visible hull)) = Ok m.
  Hypothesis WF : WellFormed D m.
  Hypothesis Cells : length (cells m) = length (gathered n (visible hull)) / D.
  Variables (isect : rplc Z -> rplc Z -> res bool) (meet : nat -> nat -> bool).
  Hypothesis IS : forall r s, r < n -> s < n -> isect (hull r) (hull s) = Ok (meet r s).

  Lemma flat_hulls : flat_map (@rpoints Z) (map hull (seq 0 n)) = gathered n (visible hull).
  Proof. unfold gathered, visible. rewrite flat_map_concat_map, map_map, <- flat_map_concat_map. auto. Qed.
  Lemma neighbors_ok : exists nb, Together n (fun r => domainNeighbors D isect n tess r (hull r)) (fun r => Ok (nb r)) /\
    forall r, r < n -> NeighborList n (fun r s => meet r s = true) m (Owns D (visible hull)) r (nb r).
  Proof.
    set (f := fun me => match (do s <- hullNeighbors isect (map hull (seq 0 n)) me n; do cs <- cellsOfInterest D m (offsets D n (visible hull)) me; do s <- meshNeighbors (offsets D n (visible hull)) me cs s; Ok (StdAlg.sort s)) with Ok l => l | _ => [] end).
    assert (H : forall r, r < n -> (do s <- hullNeighbors isect (map hull (seq 0 n)) r n; do cs <- cellsOfInterest D m (offsets D n (visible hull)) r; do s <- meshNeighbors (offsets D n (visible hull)) r cs s; Ok (StdAlg.sort s)) = Ok (f r) /\ NeighborList n (fun r s => meet r s = true) m (Owns D (visible hull)) r (f r)).
    { intros r L. destruct (rank_lists D Dpos n hull m SD WF Cells isect meet IS r L) as (nb & E & N). unfold f. rewrite E. auto. }
    exists f. split; [|intros r L; apply H; auto].
    unfold domainNeighbors.
    match goal with |- Together n (fun r => shareHulls D _ _ _ _ ?k) _ => pose proof (share_loop D Dpos n hull (fun r hulls offs =>
      clift (assert (length hulls =? n)) (fun _ => clift (assert (length offs =? n + 1)) (fun _ => let gens := flat_map (@rpoints Z) hulls in
      clift (get offs (length offs - 1)) (fun o => clift (assert (length gens / D =? o)) (fun _ => clift (tess gens) (fun m =>
      CRet (do s <- hullNeighbors isect hulls r n; do cs <- cellsOfInterest D m offs r; do s <- meshNeighbors offs r cs s; Ok (StdAlg.sort s)))))))) SD (fun r => Ok (f r)) n 0 eq_refl) as G end.
    cbn [seq map] in G. rewrite (before_0 D Dpos n (visible hull) (sd_whole _ _ _ SD)) in G. apply G. clear G.
    eapply together_ext; [|apply (t_ret n (fun r => CRet (Ok (f r)))); reflexivity]. intros r L. cbn beta.
    rewrite map_length, seq_length, Nat.eqb_refl. cbn [assert clift]. rewrite offsets_len. replace (S n =? n + 1) with true by (symmetry; apply Nat.eqb_eq; lia). cbn [assert clift]. cbv zeta. replace (S n - 1) with n by lia. rewrite (proj2 (get_ok _ _ _) (offsets_nth D Dpos n (visible hull) (sd_whole _ _ _ SD) n ltac:(lia))). cbn [clift].
    rewrite flat_hulls. unfold before at 1. rewrite Nat.eqb_refl. cbn [assert clift]. rewrite TS. cbn [clift]. f_equal. symmetry. apply H. auto.
  Qed.
End All.
