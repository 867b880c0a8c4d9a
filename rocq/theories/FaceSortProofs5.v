(* Proofs about computeSortedFaceNodes on an open chain *)
From Verif Require Import Base BaseFacts StdAlg KeyMapModel FaceSortModel FaceSortSpec FaceSortProofs FaceSortProofs2 FaceSortProofs3 FaceSortProofs4.
From Coq Require Import Sorted Permutation.

Lemma filter_perm {A} (f : A -> bool) l l' : Permutation l l' -> Permutation (filter f l) (filter f l').
Proof.
  induction 1; cbn; auto.
  - destruct (f x); auto.
  - destruct (f x), (f y); auto using perm_swap.
  - etransitivity; eauto.
Qed.

Lemma open_split es a ns : 2 <= length es -> route idE a es ns ->
  exists x mid y u1 nm h0, es = x :: mid ++ [y] /\ joins idE x a u1 /\ route idE u1 mid nm /\
    joins idE y (last nm u1) h0 /\ ns = u1 :: nm ++ [h0].
Proof.
  intros L R. destruct es as [|x es]; [cbn in L; lia|].
  destruct (List.exists_last (l := es)) as (mid & y & ->); [destruct es; [cbn in L; lia|discriminate]|].
  destruct ns as [|u1 ns]; [destruct R|]. destruct R as [J R].
  apply route_app in R as (n1 & n2 & -> & R1 & R2).
  destruct n2 as [|h0 [|? ?]]; cbn in R2; try tauto.
  exists x, mid, y, u1, n1, h0. tauto.
Qed.

Section OpenN.
  Context (edges : list (Z * Z)) (E0 E1 : Z * Z) (mid : list (Z * Z)) (a u1 : Z) (nm : list Z) (h0 : Z).
  Context (P : Permutation (E1 :: mid ++ [E0]) edges) (J1 : joins idE E1 a u1) (Rm : route idE u1 mid nm)
    (J0 : joins idE E0 (last nm u1) h0) (N : NoDup (a :: u1 :: nm ++ [h0])).
  Let RF : route idE a (E1 :: mid ++ [E0]) (u1 :: nm ++ [h0]).
  Proof.
    cbn [route]. split; [apply J1|]. apply route_app. exists nm, [h0]. split; auto. split; [apply Rm|].
    cbn. split; auto.
  Qed.
  Let use := use_count edges.
  Lemma na : ~ In a (u1 :: nm) /\ a <> h0.
  Proof.
    inversion N; subst. split.
    - intros I. apply H1. cbn in *. destruct I as [->|I]; auto. right. apply in_or_app; auto.
    - intros ->. apply H1. right. apply in_or_app; right; left; auto.
  Qed.
  Lemma nh : ~ In h0 (u1 :: nm).
  Proof.
    inversion N; subst. change (NoDup ((u1 :: nm) ++ [h0])) in H2.
    apply NoDup_remove_2 in H2. rewrite app_nil_r in H2. exact H2.
  Qed.
  Lemma nnm : NoDup (u1 :: nm).
  Proof.
    inversion N; subst. change (NoDup ((u1 :: nm) ++ [h0])) in H2.
    apply NoDup_remove_1 in H2. rewrite app_nil_r in H2. exact H2.
  Qed.
  Lemma nuse k : use k = if in_dec Z.eq_dec k (u1 :: nm) then 2
                         else if Z.eq_dec k a then 1 else if Z.eq_dec k h0 then 1 else 0.
  Proof.
    unfold use.
    rewrite (use_path idE (E1 :: mid ++ [E0]) edges a (u1 :: nm ++ [h0]) k); auto; [|rewrite map_id; auto|discriminate].
    rewrite last_cons, last_app. cbn [last].
    pose proof na as [A1 A2]. pose proof nh as H0.
    destruct (in_dec Z.eq_dec k (a :: u1 :: nm ++ [h0])) as [I|I], (in_dec Z.eq_dec k (u1 :: nm)) as [I'|I'],
        (Z.eq_dec k a), (Z.eq_dec k h0); subst; try reflexivity; try contradiction; try congruence;
        exfalso; cbn in I, I'; rewrite in_app_iff in I; cbn in I; intuition congruence.
  Qed.
  Lemma nuse_a : use a = 1.
  Proof.
    rewrite nuse. destruct na. destruct (in_dec _ _ _); [contradiction|]. destruct (Z.eq_dec a a); congruence.
  Qed.
  Lemma nuse_h : use h0 = 1.
  Proof.
    rewrite nuse. pose proof nh. destruct (in_dec _ _ _); [contradiction|].
    destruct (Z.eq_dec h0 a); auto. destruct (Z.eq_dec h0 h0); congruence.
  Qed.
  Lemma nuse_in k : In k (u1 :: nm) -> use k = 2.
  Proof. intros I. rewrite nuse. destruct (in_dec _ _ _); [auto|contradiction]. Qed.

  Lemma nhit_es : filter (nhit edges) (E1 :: mid ++ [E0]) = [E1; E0].
  Proof.
    cbn [filter]. rewrite filter_app. cbn [filter].
    assert (nhit edges E1 = true) as ->.
    { unfold nhit. fold use. destruct J1 as [X1|X1]; cbn beta in X1; rewrite X1; cbn [fst snd]; rewrite nuse_a, (nuse_in u1) by (left; auto); reflexivity. }
    assert (nhit edges E0 = true) as ->.
    { unfold nhit. fold use. destruct J0 as [X1|X1]; cbn beta in X1; rewrite X1; cbn [fst snd]; rewrite nuse_h, (nuse_in (last nm u1)) by apply last_in; reflexivity. }
    assert (forall l, (forall e, In e l -> In e mid) -> filter (nhit edges) l = []) as X.
    { induction l as [|e l IH]; intros Hl; cbn; auto.
      assert (U : forall k, inc idE e k -> use k = 2).
      { intros k Hk. apply nuse_in. eapply route_inc; [exact Rm|apply Hl; left; auto|exact Hk]. }
      unfold nhit at 1. fold use. rewrite !U by (unfold inc; auto). cbn. apply IH. intros; apply Hl; right; auto. }
    rewrite X by auto. reflexivity.
  Qed.

  Lemma nopen_ok : filter (nhit edges) edges = [E0; E1] ->
    computeSortedFaceNodes edges = Ok (h0 :: a :: u1 :: nm).
  Proof.
    intros F. assert (Ln : length edges = length mid + 2).
    { rewrite <- P. cbn. rewrite app_length. cbn. lia. }
    assert (Lm : length mid = length nm) by (eapply route_length; eauto).
    unfold computeSortedFaceNodes.
    rewrite (proj2 (Nat.ltb_lt 1 (length edges))) by lia.
    fold (nloop edges). rewrite (nloop_ok edges). rewrite F.
    cbn [app bind length Nat.eqb orb assert negb Nat.sub get nth_error].
    fold use.
    assert (HL : (do _ <- assert ((use (fst E1) =? 2) || (use (snd E1) =? 2));
         Ok (if use (fst E1) =? 2 then fst E1 else snd E1)) = Ok u1).
    { pose proof nuse_a as Ua. pose proof (nuse_in u1 (or_introl eq_refl)) as U1.
      destruct J1 as [X1|X1]; cbn beta in X1; rewrite X1; cbn [fst snd]; rewrite Ua, U1; reflexivity. }
    rewrite HL. cbn [bind].
    assert (ND : NoDup (E1 :: mid ++ [E0])) by (eapply route_nodup; eauto).
    assert (W : walk edge_lt idE (length edges - 2)
       (fold_left (del_edge edge_lt idE) [E0; E1] (fold_left (add_edge edge_lt idE) edges [])) u1 [E0; E1]
       = Ok (E0 :: E1 :: mid)).
    { pose proof (build_inv edge_lt idE edge_tra edge_tot edges) as I0.
      apply (del_inv edge_lt idE edge_irr edge_tot _ _ E0) in I0.
      apply (del_inv edge_lt idE edge_irr edge_tot _ _ E1) in I0.
      replace (length edges - 2) with (length mid) by lia. cbn [fold_left].
      rewrite (walk_nice edge_lt idE edge_irr edge_tra edge_tot mid u1 _ _ [E0; E1] I0).
      - reflexivity.
      - intros x. rewrite <- P. inversion ND; subst.
        apply NoDup_remove in H2 as [N2 N3]. rewrite app_nil_r in *. split.
        + intros [[I X0] X1]. destruct I as [->|I]; [congruence|].
          apply in_app_or in I as [I|[->|[]]]; [auto|congruence].
        + intros I. split; [split|]; [right; apply in_or_app; auto|intros ->; contradiction|].
          intros ->. apply H1, in_or_app; auto.
      - eapply route_nice; [exact Rm|apply nnm].
      - inversion ND; subst. apply NoDup_remove_1 in H2. rewrite app_nil_r in H2; auto. }
    rewrite W. cbn [bind get nth_error].
    assert (HF : [if use (fst E0) =? 1 then fst E0 else snd E0; if use (fst E1) =? 1 then fst E1 else snd E1] = [h0; a]).
    { pose proof nuse_a as Ua. pose proof (nuse_in u1 (or_introl eq_refl)) as U1.
      pose proof nuse_h as Uh. pose proof (nuse_in _ (last_in nm u1)) as Uw.
      destruct J0 as [X0|X0], J1 as [X1|X1]; cbn beta in X0, X1; rewrite X0, X1; cbn [fst snd]; rewrite ?Ua, ?U1, ?Uh, ?Uw; reflexivity. }
    rewrite HF. fold (shared_node (E0 :: E1 :: mid) (length edges)).
    assert (M : mmap (shared_node (E0 :: E1 :: mid) (length edges)) (seq 1 (length edges - 1)) = Ok (u1 :: nm)).
    { apply mmap_nth; [rewrite seq_length; cbn; lia|]. intros i k Hk.
      pose proof (nth_error_lt _ _ _ Hk) as Li. rewrite seq_length in Li.
      rewrite nth_error_seq in Hk by auto. inversion Hk; subst k.
      assert (Lf : length (E1 :: mid ++ [E0]) = length edges) by (cbn; rewrite app_length; cbn; lia).
      destruct (nth_error_ex (E1 :: mid ++ [E0]) i) as [ei Hei]; [lia|].
      destruct (nth_error_ex (E1 :: mid ++ [E0]) (S i)) as [ej Hej]; [lia|].
      destruct (route_nth idE _ _ _ _ _ RF Hei) as (x & y & Hx & Hy & Ji).
      destruct (route_nth idE _ _ _ _ _ RF Hej) as (y' & z & Hy' & Hz & Jj).
      change (nth_error (a :: u1 :: nm ++ [h0]) (S i)) with (nth_error (u1 :: nm ++ [h0]) i) in Hy'.
      rewrite Hy in Hy'. inversion Hy'; subst y'.
      exists y. split.
      { change (u1 :: nm ++ [h0]) with ((u1 :: nm) ++ [h0]) in Hy.
        rewrite nth_error_app1 in Hy by (cbn; lia). exact Hy. }
      eapply (shared_ok _ _ _ ei ej x y z); eauto.
      - change (1 + i) with (S i). cbn [nth_error].
        change (E1 :: mid ++ [E0]) with ((E1 :: mid) ++ [E0]) in Hei.
        rewrite nth_error_app1 in Hei by (cbn; lia). exact Hei.
      - change (1 + i) with (S i). destruct (Nat.eq_dec (S i + 1) (length edges)) as [q|q].
        + rewrite q, Nat.mod_same by lia. change (nth_error (E0 :: E1 :: mid) 0) with (Some E0).
          rewrite <- Hej. change (E1 :: mid ++ [E0]) with ((E1 :: mid) ++ [E0]).
          rewrite nth_error_app2 by (cbn; lia). replace (S i - length (E1 :: mid)) with 0 by (cbn; lia). reflexivity.
        + rewrite Nat.mod_small by lia. replace (S i + 1) with (S (S i)) by lia.
          change (nth_error (E0 :: E1 :: mid) (S (S i))) with (nth_error (E1 :: mid) (S i)).
          change (E1 :: mid ++ [E0]) with ((E1 :: mid) ++ [E0]) in Hej.
          rewrite nth_error_app1 in Hej by (cbn; lia). exact Hej.
      - exact (nodup_nth_neq (a :: u1 :: nm ++ [h0]) i (S i) x y N Hx Hy ltac:(lia)).
      - exact (nodup_nth_neq (a :: u1 :: nm ++ [h0]) i (S (S i)) x z N Hx Hz ltac:(lia)). }
    rewrite M. cbn [bind app length]. rewrite <- Lm.
    replace (S (S (S (length mid)))) with (length edges + 1) by lia. rewrite Nat.eqb_refl.
    reflexivity.
  Qed.

  Lemma nopen_covers : covers edges (h0 :: a :: u1 :: nm).
  Proof.
    split.
    - eapply Permutation_NoDup; [|exact N]. symmetry.
      change (a :: u1 :: nm ++ [h0]) with ((a :: u1 :: nm) ++ [h0]). apply (Permutation_app_comm [h0]).
    - intros k. assert (In k (h0 :: a :: u1 :: nm) <-> In k (a :: u1 :: nm ++ [h0])) as ->.
      { change (a :: u1 :: nm ++ [h0]) with ((a :: u1 :: nm) ++ [h0]).
        rewrite (Permutation_app_comm (a :: u1 :: nm) [h0]). reflexivity. }
      rewrite (route_nodes idE _ a _ k RF) by discriminate.
      split; intros (x & Ix & Hx); exists x; (split; [|exact Hx]); [rewrite <- P|rewrite P]; auto.
  Qed.
  Lemma nopen_adj i x y : i <> 0 -> nth_error (h0 :: a :: u1 :: nm) i = Some x ->
    nth_error (h0 :: a :: u1 :: nm) ((i + 1) mod length (h0 :: a :: u1 :: nm)) = Some y ->
    exists e, In e edges /\ joins idE e x y.
  Proof.
    intros Ni Hi Hj. destruct i as [|i]; [congruence|]. clear Ni.
    pose proof (nth_error_lt _ _ _ Hi) as Li.
    assert (Lm : length mid = length nm) by (eapply route_length; eauto).
    assert (Lf : length (E1 :: mid ++ [E0]) = S (S (length nm))) by (cbn; rewrite app_length; cbn; lia).
    destruct (nth_error_ex (E1 :: mid ++ [E0]) i) as [e He]; [cbn in *; lia|].
    destruct (route_nth idE _ _ _ _ _ RF He) as (x' & y' & Hx & Hy & J).
    exists e. split; [rewrite <- P; eapply nth_error_In; eauto|].
    cbn [nth_error] in Hi. change (a :: u1 :: nm ++ [h0]) with ((a :: u1 :: nm) ++ [h0]) in Hx.
    rewrite nth_error_app1 in Hx by (cbn in *; lia).
    assert (x' = x) by congruence. subst x'.
    assert (y' = y); [|subst; auto].
    destruct (Nat.eq_dec (S i + 1) (length (h0 :: a :: u1 :: nm))) as [q|q].
    - rewrite q, Nat.mod_same in Hj by (cbn; lia). cbn in Hj.
      change (u1 :: nm ++ [h0]) with ((u1 :: nm) ++ [h0]) in Hy.
      rewrite nth_error_app2 in Hy by (cbn in *; lia).
      replace (i - length (u1 :: nm)) with 0 in Hy by (cbn in *; lia). cbn in Hy. congruence.
    - rewrite Nat.mod_small in Hj by (cbn in *; lia). replace (S i + 1) with (S (S i)) in Hj by lia.
      cbn [nth_error] in Hj. change (u1 :: nm ++ [h0]) with ((u1 :: nm) ++ [h0]) in Hy.
      rewrite nth_error_app1 in Hy by (cbn in *; lia). cbn [nth_error] in Hy. congruence.
  Qed.
End OpenN.

Lemma nodes_open edges : (exists es, Permutation es edges /\ path idE es) -> 2 <= length edges ->
  exists r, computeSortedFaceNodes edges = Ok r /\ covers edges r /\
    forall i x y, i <> 0 -> nth_error r i = Some x -> nth_error r ((i + 1) mod length r) = Some y ->
      exists e, In e edges /\ joins idE e x y.
Proof.
  intros (es & P & a & ns & R & N) L.
  assert (Le : length es = length edges) by (rewrite P; auto).
  assert (S : forall es a ns, Permutation es edges -> route idE a es ns -> NoDup (a :: ns) ->
    (exists t, filter (nhit edges) edges = t /\ forall x y, filter (nhit edges) es = [x; y] -> t = [y; x]) ->
    exists r, computeSortedFaceNodes edges = Ok r /\ covers edges r /\
    forall i x y, i <> 0 -> nth_error r i = Some x -> nth_error r ((i + 1) mod length r) = Some y ->
      exists e, In e edges /\ joins idE e x y).
  { clear - L. intros es a ns P R N (t & Ft & Ht).
    destruct (open_split es a ns) as (E1 & mid & E0 & u1 & nm & h0 & -> & J1 & Rm & J0 & ->); auto.
    { rewrite (Permutation_length P); auto. }
    exists (h0 :: a :: u1 :: nm). split; [|split].
    - eapply nopen_ok; eauto. rewrite Ft. apply Ht. eapply nhit_es; eauto.
    - eapply nopen_covers; eauto.
    - intros i x y. eapply nopen_adj; eauto. }
  destruct (open_split es a ns) as (E1 & mid & E0 & u1 & nm & h0 & -> & J1 & Rm & J0 & ->); auto; [lia|].
  assert (F : filter (nhit edges) (E1 :: mid ++ [E0]) = [E1; E0]) by (eapply nhit_es; eauto).
  pose proof (filter_perm (nhit edges) _ _ P) as Fp. rewrite F in Fp.
  apply Permutation_length_2_inv in Fp as [Fe|Fe].
  - (* reverse the path *)
    pose proof (route_rev _ _ _ _ R) as R'.
    eapply (S (rev (E1 :: mid ++ [E0]))); [rewrite <- Permutation_rev; auto|exact R'| |].
    + eapply Permutation_NoDup; [|exact N].
      etransitivity; [apply removelast_perm|].
      etransitivity; [apply Permutation_app_comm|]. constructor. apply Permutation_rev.
    + exists [E1; E0]. split; auto. intros x y H.
      assert (filter (nhit edges) (rev (E1 :: mid ++ [E0])) = rev [E1; E0]) as X.
      { rewrite <- F. generalize (E1 :: mid ++ [E0]). induction l as [|z l IH]; cbn; auto.
        rewrite filter_app. cbn. rewrite IH. destruct (nhit edges z); cbn; auto. rewrite app_nil_r. reflexivity. }
      rewrite X in H. cbn in H. congruence.
  - eapply (S (E1 :: mid ++ [E0])); eauto. exists [E0; E1]. split; auto. intros x y H. congruence.
Qed.
