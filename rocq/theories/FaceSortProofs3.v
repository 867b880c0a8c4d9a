(* Proofs about computeSortedFaceEdges on an open chain *)
From Verif Require Import Base BaseFacts StdAlg KeyMapModel FaceSortModel FaceSortSpec FaceSortProofs FaceSortProofs2.
From Coq Require Import Sorted Permutation.

Lemma route_ext {E} (ends ends' : E -> Z * Z) es : forall a ns,
  (forall e, In e es -> ends e = ends' e) -> route ends a es ns -> route ends' a es ns.
Proof.
  induction es as [|e es IH]; intros a [|b ns] H; cbn; auto.
  intros [J R]. split; [|apply IH; auto; intros; apply H; right; auto].
  unfold joins in *. rewrite <- H by (left; auto). exact J.
Qed.
Lemma Inv_ends {E} elt (ends ends' : E -> Z * Z) m (live : E -> Prop) : Inv elt ends m live ->
  (forall e, live e -> ends e = ends' e) -> Inv elt ends' m live.
Proof.
  intros H X k. destruct (H k) as [S I]. split; auto. intros e. rewrite I.
  unfold inc. split; intros [L C]; split; auto; rewrite X in * by auto; auto.
Qed.
Lemma seq_sorted s n : StronglySorted lt (seq s n).
Proof.
  revert s; induction n as [|n IH]; intros s; cbn; constructor; auto.
  apply Forall_forall. intros x I. apply in_seq in I; lia.
Qed.
Lemma filter_sorted_lt f l : StronglySorted lt l -> StronglySorted lt (filter f l).
Proof.
  induction 1 as [|y s S IH F]; cbn; [constructor|]. destruct (f y); auto.
  constructor; auto. rewrite Forall_forall in *. intros z Hz. apply filter_In in Hz as [Hz _]; auto.
Qed.
Lemma edge_at_app edges e i : i < length edges -> edge_at (edges ++ [e]) i = edge_at edges i.
Proof. intros H. unfold edge_at. apply app_nth1; auto. Qed.
Lemma edge_at_new edges e : edge_at (edges ++ [e]) (length edges) = e.
Proof. unfold edge_at. rewrite app_nth2 by lia. rewrite Nat.sub_diag. reflexivity. Qed.

Definition open_shape (edges : list (Z * Z)) i0 i1 mid a u1 nm h0 : Prop :=
  Permutation (i1 :: mid ++ [i0]) (seq 0 (length edges)) /\ i0 < i1 /\
  joins (edge_at edges) i1 a u1 /\ route (edge_at edges) u1 mid nm /\
  joins (edge_at edges) i0 (last nm u1) h0 /\ NoDup (a :: u1 :: nm ++ [h0]).

Lemma open_shape_ex edges : OpenFace edges -> 2 <= length edges ->
  exists i0 i1 mid a u1 nm h0, open_shape edges i0 i1 mid a u1 nm h0.
Proof.
  intros (es & P & a & ns & R & N) L.
  assert (Le : length es = length edges). { rewrite P. apply seq_length. }
  assert (ND : NoDup es). { rewrite P. apply seq_NoDup. }
  assert (S : forall es a ns, Permutation es (seq 0 (length edges)) -> length es = length edges ->
     route (edge_at edges) a es ns -> NoDup (a :: ns) ->
     exists x mid y u1 nm h0, es = x :: mid ++ [y] /\
       joins (edge_at edges) x a u1 /\ route (edge_at edges) u1 mid nm /\
       joins (edge_at edges) y (last nm u1) h0 /\ ns = u1 :: nm ++ [h0]).
  { clear - L. intros es a ns P Le R N. destruct es as [|x es]; [cbn in Le; lia|].
    destruct (List.exists_last (l := es)) as (mid & y & ->); [destruct es; [cbn in Le; lia|discriminate]|].
    destruct ns as [|u1 ns]; [destruct R|]. destruct R as [J R].
    apply route_app in R as (n1 & n2 & -> & R1 & R2).
    destruct n2 as [|h0 [|? ?]]; cbn in R2; try tauto.
    exists x, mid, y, u1, n1, h0. tauto. }
  destruct (S es a ns P Le R N) as (x & mid & y & u1 & nm & h0 & -> & J1 & R1 & J2 & ->).
  assert (x <> y). { inversion ND; subst. intros ->. apply H1, in_or_app; right; left; auto. }
  destruct (Nat.lt_ge_cases y x) as [Lt|Ge].
  - exists y, x, mid, a, u1, nm, h0. repeat split; auto.
  - assert (R' : route (edge_at edges) a (x :: mid ++ [y]) (u1 :: nm ++ [h0])).
    { exact R. }
    apply (route_rev _ _ _ _) in R'. rewrite last_cons, last_app in R'. cbn [last] in R'.
    assert (N' : NoDup (h0 :: rev (removelast (a :: u1 :: nm ++ [h0])))).
    { eapply Permutation_NoDup; [|exact N].
      etransitivity; [apply (removelast_perm (u1 :: nm ++ [h0]) a)|].
      rewrite last_cons, last_app. cbn [last].
      etransitivity; [apply Permutation_app_comm|]. constructor. apply Permutation_rev. }
    assert (P' : Permutation (rev (x :: mid ++ [y])) (seq 0 (length edges))).
    { rewrite <- Permutation_rev; auto. }
    assert (L' : length (rev (x :: mid ++ [y])) = length edges) by (rewrite rev_length; auto).
    destruct (S _ _ _ P' L' R' N') as (x' & mid' & y' & v1 & nm' & k0 & Eq & K1 & K2 & K3 & En).
    exists y', x', mid', h0, v1, nm', k0.
    assert (x' = y /\ y' = x) as [-> ->].
    { cbn [rev] in Eq. rewrite rev_app_distr in Eq. cbn [rev app] in Eq.
      injection Eq as -> Eq. apply app_inj_tail in Eq as [_ ->]. auto. }
    unfold open_shape. rewrite Eq in P'. rewrite En in N'. repeat split; auto. lia.
Qed.

Section Open.
  Context (edges : list (Z * Z)) (i0 i1 : nat) (mid : list nat) (a u1 : Z) (nm : list Z) (h0 : Z).
  Context (Sh : open_shape edges i0 i1 mid a u1 nm h0).
  Let w := last nm u1.
  Let use := use_count edges.

  Lemma Pm : Permutation (i1 :: mid ++ [i0]) (seq 0 (length edges)). Proof. apply Sh. Qed.
  Lemma Nn : NoDup (a :: u1 :: nm ++ [h0]). Proof. apply Sh. Qed.
  Lemma J1 : joins (edge_at edges) i1 a u1. Proof. apply Sh. Qed.
  Lemma J0 : joins (edge_at edges) i0 w h0. Proof. apply Sh. Qed.
  Lemma Rm : route (edge_at edges) u1 mid nm. Proof. apply Sh. Qed.

  Lemma w_in : In w (u1 :: nm). Proof. apply last_in. Qed.
  Lemma a_new : ~ In a (u1 :: nm) /\ a <> h0.
  Proof.
    pose proof Nn as N. inversion N; subst. split.
    - intros I. apply H1. cbn in *. destruct I as [->|I]; auto. right. apply in_or_app; auto.
    - intros ->. apply H1. right. apply in_or_app; right; left; auto.
  Qed.
  Lemma h0_new : ~ In h0 (u1 :: nm).
  Proof.
    pose proof Nn as N. inversion N; subst. change (NoDup ((u1 :: nm) ++ [h0])) in H2.
    apply NoDup_remove_2 in H2. rewrite app_nil_r in H2. exact H2.
  Qed.
  Lemma nm_nodup : NoDup (u1 :: nm).
  Proof.
    pose proof Nn as N. inversion N; subst. change (NoDup ((u1 :: nm) ++ [h0])) in H2.
    apply NoDup_remove_1 in H2. rewrite app_nil_r in H2. exact H2.
  Qed.

  Lemma use_open k : use k = if in_dec Z.eq_dec k (u1 :: nm) then 2
                             else if Z.eq_dec k a then 1 else if Z.eq_dec k h0 then 1 else 0.
  Proof.
    unfold use.
    rewrite (use_path (edge_at edges) (i1 :: mid ++ [i0]) edges a (u1 :: nm ++ [h0]) k).
    - rewrite last_cons, last_app. cbn [last].
      pose proof a_new as [A1 A2]. pose proof h0_new as H0.
      destruct (in_dec Z.eq_dec k (a :: u1 :: nm ++ [h0])) as [I|I], (in_dec Z.eq_dec k (u1 :: nm)) as [I'|I'],
        (Z.eq_dec k a), (Z.eq_dec k h0); subst; try reflexivity; try contradiction; try congruence;
        exfalso; cbn in I, I'; rewrite in_app_iff in I; cbn in I; intuition congruence.
    - apply perm_ends, Pm.
    - cbn [route]. split; [apply J1|]. apply route_app. exists nm, [h0]. split; auto. split; [apply Rm|].
      cbn. split; auto. apply J0.
    - apply Nn.
    - discriminate.
  Qed.
  Lemma use_a : use a = 1.
  Proof.
    rewrite use_open. destruct a_new. destruct (in_dec _ _ _); [contradiction|].
    destruct (Z.eq_dec a a); congruence.
  Qed.
  Lemma use_h0 : use h0 = 1.
  Proof.
    rewrite use_open. pose proof h0_new. destruct (in_dec _ _ _); [contradiction|].
    destruct (Z.eq_dec h0 a); auto. destruct (Z.eq_dec h0 h0); congruence.
  Qed.
  Lemma use_in k : In k (u1 :: nm) -> use k = 2.
  Proof. intros I. rewrite use_open. destruct (in_dec _ _ _); [auto|contradiction]. Qed.

  Lemma loose_open k : loose edges k <-> k = a \/ k = h0.
  Proof.
    unfold loose. rewrite <- use_count_occ. fold (use k). rewrite use_open. pose proof a_new as [A1 A2]. pose proof h0_new as H0.
    destruct (in_dec Z.eq_dec k (u1 :: nm)), (Z.eq_dec k a), (Z.eq_dec k h0); subst; try tauto;
      split; intros; try lia; intuition congruence.
  Qed.

  Lemma in_range i : In i (i1 :: mid ++ [i0]) <-> i < length edges.
  Proof. rewrite Pm, in_seq. lia. Qed.

  Lemma hit_iff i : i < length edges -> (hit edges i = true <-> i = i0 \/ i = i1).
  Proof.
    intros Li. apply in_range in Li. unfold hit. fold use.
    rewrite orb_true_iff, !Nat.eqb_eq. split.
    - intros H. destruct Li as [<-|Li]; auto. apply in_app_or in Li as [Im|[<-|[]]]; auto.
      exfalso. assert (X : forall k, inc (edge_at edges) i k -> use k = 2).
      { intros k Hk. apply use_in. eapply route_inc; eauto. apply Rm. }
      rewrite !X in H by (unfold inc; auto). lia.
    - intros [->| ->].
      + destruct J0 as [-> | ->]; cbn; [right|left]; apply use_h0.
      + destruct J1 as [-> | ->]; cbn; [left|right]; apply use_a.
  Qed.
  Lemma i_lt : i0 < length edges /\ i1 < length edges /\ i0 < i1.
  Proof.
    split; [|split; [|apply Sh]]; apply in_range; [right; apply in_or_app; right|]; left; auto.
  Qed.
  Lemma hits : filter (hit edges) (seq 0 (length edges)) = [i0; i1].
  Proof.
    destruct i_lt as (L0 & L1 & Lt).
    apply sorted_lt_ext.
    - apply filter_sorted_lt, seq_sorted.
    - repeat constructor; auto.
    - intros x. rewrite filter_In, in_seq. cbn. split.
      + intros [Hx Hh]. apply hit_iff in Hh; [intuition|lia].
      + intros [<-|[<-|[]]]; (split; [lia|apply hit_iff; auto]).
  Qed.
  Lemma hang0 : hang edges i0 = h0.
  Proof.
    unfold hang. fold use. pose proof (use_in w w_in) as Uw. pose proof use_h0 as U.
    destruct J0 as [-> | ->]; cbn; [rewrite Uw|rewrite U]; reflexivity.
  Qed.
  Lemma hang1 : hang edges i1 = a.
  Proof.
    unfold hang. fold use. pose proof (use_in u1 (or_introl eq_refl)) as Uw. pose proof use_a as U.
    destruct J1 as [-> | ->]; cbn; [rewrite U|rewrite Uw]; reflexivity.
  Qed.

  Let newe := if (h0 <? a)%Z then (h0, a) else (a, h0).
  Let edges' := edges ++ [newe].
  Let n := length edges.

  Lemma ends_old i : In i (i1 :: mid ++ [i0]) -> edge_at edges i = edge_at edges' i.
  Proof. intros I. symmetry. apply edge_at_app. apply in_range; auto. Qed.
  Lemma joins_old i x y : In i (i1 :: mid ++ [i0]) -> joins (edge_at edges) i x y -> joins (edge_at edges') i x y.
  Proof. intros I. unfold joins. rewrite ends_old by auto. auto. Qed.
  Lemma mid_in i : In i mid -> In i (i1 :: mid ++ [i0]).
  Proof. intros; right; apply in_or_app; auto. Qed.

  (* the result of the walk *)
  Lemma walk_open :
    walk Nat.ltb (edge_at edges') (length edges' - 3)
      (fold_left (del_edge Nat.ltb (edge_at edges)) [i0; i1]
         (fold_left (add_edge Nat.ltb (edge_at edges)) (seq 0 n) [])) u1 [i0; n; i1]
    = Ok (i0 :: n :: i1 :: mid).
  Proof.
    pose proof (build_inv Nat.ltb (edge_at edges) natlt_tra natlt_tot (seq 0 n)) as I0.
    apply (del_inv Nat.ltb (edge_at edges) natlt_irr natlt_tot _ _ i0) in I0.
    apply (del_inv Nat.ltb (edge_at edges) natlt_irr natlt_tot _ _ i1) in I0.
    assert (ND : NoDup (i1 :: mid ++ [i0])). { rewrite Pm. apply seq_NoDup. }
    assert (Lm : length edges' - 3 = length mid).
    { unfold edges'. rewrite app_length. cbn. pose proof (Permutation_length Pm) as Lp.
      rewrite seq_length in Lp. cbn in Lp. rewrite app_length in Lp. cbn in Lp. lia. }
    rewrite Lm. cbn [fold_left].
    apply (Inv_ends _ _ (edge_at edges')) in I0.
    2:{ intros e [[Ie _] _]. apply ends_old. apply in_range. apply in_seq in Ie. unfold n in Ie. lia. }
    rewrite (walk_nice Nat.ltb (edge_at edges') natlt_irr natlt_tra natlt_tot mid u1 _ _ [i0; n; i1] I0).
    - reflexivity.
    - intros x. unfold n. rewrite <- Pm. inversion ND; subst.
      apply NoDup_remove in H2 as [N2 N3]. rewrite app_nil_r in *. split.
      + intros [[I X0] X1]. destruct I as [->|I]; [congruence|].
        apply in_app_or in I as [I|[->|[]]]; [auto|congruence].
      + intros I. split; [split|]; [apply mid_in; auto|intros ->; contradiction|].
        intros ->. apply H1, in_or_app; auto.
    - eapply route_nice; [|apply nm_nodup]. eapply route_ext; [|apply Rm]. intros; apply ends_old, mid_in; auto.
    - inversion ND; subst. apply NoDup_remove_1 in H2. rewrite app_nil_r in H2; auto.
  Qed.

  (* everything up to line 249 *)
  Lemma open_prefix : computeSortedFaceEdges edges =
    do rest <- orient edges'
       (if (fst (edge_at edges' i0) =? fst newe)%Z then fst (edge_at edges' i0)
        else snd (edge_at edges' i0)) (n :: i1 :: mid);
    let result := Z.of_nat i0 :: rest in
    do _ <- assert (length edges' =? length result);
    do _ <- post edges' result;
    Ok (true, edges', result).
  Proof.
    unfold computeSortedFaceEdges.
    destruct i_lt as (L0 & L1 & Lt).
    rewrite (proj2 (Nat.leb_le 2 (length edges))) by lia. cbn [assert bind].
    set (m0 := fold_left _ _ _).
    fold (hloop edges). rewrite (hloop_ok edges).
    2:{ intros i Hi Hh. apply in_seq in Hi. apply hit_iff in Hh; [|lia].
        fold use. pose proof (use_in w w_in) as Uw. pose proof (use_in u1 (or_introl eq_refl)) as U1.
        pose proof use_a as Ua. pose proof use_h0 as Uh.
        destruct Hh as [->| ->]; [destruct J0 as [-> | ->]|destruct J1 as [-> | ->]]; cbn [fst snd];
          rewrite ?Uw, ?U1, ?Ua, ?Uh; reflexivity. }
    rewrite hits. cbn [app map bind length Nat.eqb orb andb assert]. rewrite hang0, hang1.
    cbn [get nth_error bind]. unfold hashEdge.
    destruct (Z.eqb_spec h0 a) as [X|X]; [destruct a_new; congruence|]. cbn [negb assert bind].
    fold newe.
    assert (Hl : (let '(x, y) := edge_at edges i1 in
       do _ <- assert ((use_count edges x =? 2) || (use_count edges y =? 2));
       Ok (edges ++ [newe], [i0; length edges; i1], if use_count edges x =? 2 then x else y))
      = Ok (edges', [i0; n; i1], u1)).
    { fold use. pose proof (use_in u1 (or_introl eq_refl)) as U1. pose proof use_a as Ua.
      destruct J1 as [-> | ->]; rewrite Ua, U1; reflexivity. }
    rewrite Hl. cbn [bind].
    unfold m0. fold n.
    change (length [i0; n; i1]) with 3. rewrite walk_open. cbn [bind get nth_error tl].
    replace (edge_at edges' n) with newe by (symmetry; apply edge_at_new). reflexivity.
  Qed.

  Lemma new_joins : joins (edge_at edges') n h0 a.
  Proof.
    unfold joins, edges', n. rewrite edge_at_new. unfold newe. destruct (h0 <? a)%Z; auto.
  Qed.
  Lemma route' : route (edge_at edges') h0 (n :: i1 :: mid) (a :: u1 :: nm).
  Proof.
    cbn [route]. split; [apply new_joins|]. split.
    - apply joins_old; [left; auto|apply J1].
    - eapply route_ext; [|apply Rm]. intros; apply ends_old, mid_in; auto.
  Qed.
  Lemma newe_fst : fst newe = h0 \/ fst newe = a.
  Proof. unfold newe. destruct (h0 <? a)%Z; cbn; auto. Qed.

  Lemma open_good : edge_at edges i0 = (w, h0) ->
    exists rs, computeSortedFaceEdges edges = Ok (true, edges', rs) /\
      Permutation (map pid rs) (seq 0 (length edges')) /\ head_to_tail edges' rs.
  Proof.
    intros E0. rewrite open_prefix. rewrite ends_old in E0 by (right; apply in_or_app; right; left; auto).
    rewrite E0. cbn [fst snd].
    assert ((w =? fst newe)%Z = false) as ->.
    { apply Z.eqb_neq. intros X. pose proof w_in as Wi. rewrite X in Wi.
      pose proof a_new as [A1 A2]. pose proof h0_new as H0.
      destruct newe_fst as [Y|Y]; rewrite Y in Wi; contradiction. }
    destruct (orient_route edges' (n :: i1 :: mid) h0 (a :: u1 :: nm) route') as (rs & E & Dr & M).
    rewrite E. cbn [bind].
    assert (Pn : Permutation (i0 :: n :: i1 :: mid) (seq 0 (length edges'))).
    { unfold edges'. rewrite app_length. cbn [length]. rewrite seq_app. cbn [seq Nat.add].
      rewrite <- Pm. fold n. change ((i1 :: mid ++ [i0]) ++ [n]) with (i1 :: (mid ++ [i0]) ++ [n]).
      rewrite <- app_assoc. cbn [app].
      exact (Permutation_app_comm [i0; n] (i1 :: mid)). }
    assert (MP : map pid (Z.of_nat i0 :: rs) = i0 :: n :: i1 :: mid).
    { cbn [map]. rewrite M, pid_of_nat. reflexivity. }
    assert (Lr : length (Z.of_nat i0 :: rs) = length edges').
    { rewrite <- (map_length pid), MP, (Permutation_length Pn), seq_length. reflexivity. }
    assert (DF : droute edges' w (Z.of_nat i0 :: rs) (h0 :: a :: u1 :: nm)).
    { cbn [droute]. unfold start_of at 1, end_of at 1. replace (0 <=? Z.of_nat i0)%Z with true by lia.
      rewrite pid_of_nat, E0. cbn. auto. }
    assert (CF : last (h0 :: a :: u1 :: nm) w = w) by (rewrite !last_cons; reflexivity).
    cbv zeta. rewrite Lr, Nat.eqb_refl. cbn [assert bind].
    rewrite (post_ok edges' w (Z.of_nat i0 :: rs) (h0 :: a :: u1 :: nm)); auto.
    2:{ intros i. rewrite MP, Pn, in_seq. lia. }
    cbn [bind]. exists (Z.of_nat i0 :: rs). split; auto. split; [rewrite MP; auto|].
    intros i z z' Hi Hj. rewrite (proj2 (sedge_ends edges' z)), (proj1 (sedge_ends edges' z')).
    eapply (droute_chain edges' w); eauto.
  Qed.

  Lemma open_bad : edge_at edges i0 = (h0, w) -> computeSortedFaceEdges edges = Abort.
  Proof.
    intros E0. rewrite open_prefix. rewrite ends_old in E0 by (right; apply in_or_app; right; left; auto).
    rewrite E0. cbn [fst snd]. pose proof a_new as [A1 A2]. pose proof h0_new as H0.
    assert (Wh : w <> h0). { intros X. apply H0. rewrite <- X. apply w_in. }
    assert (Wa : w <> a). { intros X. apply A1. rewrite <- X. apply w_in. }
    destruct (Z.eqb_spec h0 (fst newe)) as [X|X].
    - destruct (orient_route edges' (n :: i1 :: mid) h0 (a :: u1 :: nm) route') as (rs & E & Dr & M).
      rewrite E. cbn [bind]. destruct (Nat.eqb_spec (length edges') (length (Z.of_nat i0 :: rs))) as [L|L]; [|reflexivity].
      cbn [assert bind]. destruct rs as [|r rs]; [discriminate M|].
      unfold post. rewrite L. cbn [length seq mfold]. cbn [get nth_error bind].
      replace ((0 + 1) mod S (S (length rs))) with 1 by (rewrite Nat.mod_small; lia).
      cbn [get nth_error bind].
      destruct (pid (Z.of_nat i0) <? S (S (length rs))); [|reflexivity].
      destruct (pid r <? S (S (length rs))); [|reflexivity]. cbn [assert bind].
      destruct Dr as (Sr & _). rewrite Sr.
      unfold end_of. replace (0 <=? Z.of_nat i0)%Z with true by lia. rewrite pid_of_nat, E0. cbn [snd].
      destruct (Z.eqb_spec w h0); [contradiction|]. reflexivity.
    - cbn [orient]. replace (edge_at edges' n) with newe by (symmetry; apply edge_at_new).
      destruct newe_fst as [Y|Y]; [congruence|]. unfold newe in *. destruct (h0 <? a)%Z; cbn [fst snd] in *; [congruence|].
      destruct (Z.eqb_spec a w); [congruence|]. destruct (Z.eqb_spec h0 w); [congruence|]. reflexivity.
  Qed.
End Open.
