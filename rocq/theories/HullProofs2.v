From Verif Require Import Base BaseFacts StdAlg PLCSpec Plane MeshEditorModel HullModel HullProofs.
From Coq Require Import QArith ZArith Sorted Permutation Lia.
Local Open Scope Z_scope.

(* ---- from points with indices to positions ---- *)
Definition hchain (ps st : list hpt) : list hpt := fold_left (fun st p => p :: pops 2 st p) ps st.
Lemma pops_map st p : map fst (pops 2 st p) = zpops (map fst st) (fst p).
Proof.
  induction st as [|a [|b st] IH]; [reflexivity|reflexivity|]. cbn [pops zpops map].
  change (2 <=? length (a :: b :: st))%nat with true. cbn [andb]. destruct (zcross (fst b) (fst a) (fst p) <=? 0); [exact IH|reflexivity].
Qed.
Lemma hchain_map ps st : map fst (hchain ps st) = zchain (map fst ps) (map fst st).
Proof. revert st. induction ps as [|p ps IH]; intros st; [reflexivity|]. cbn [hchain zchain fold_left map]. unfold hchain, zchain in IH. rewrite IH. cbn [map]. rewrite pops_map. auto. Qed.
Lemma pops_base w rest p : w <> [] -> pops (length rest + 2) (w ++ rest) p = pops 2 w p ++ rest.
Proof.
  induction w as [|a [|b w] IH]; intros N; [contradiction| |].
  - cbn [app pops]. destruct rest as [|c r]; [reflexivity|]. 
    replace (length (c :: r) + 2 <=? length (a :: c :: r))%nat with false by (symmetry; apply Nat.leb_gt; cbn [length]; lia). reflexivity.
  - cbn [app pops]. cbn [app] in IH. replace (length rest + 2 <=? length (a :: b :: w ++ rest))%nat with true by (symmetry; apply Nat.leb_le; cbn [length]; rewrite app_length; lia).
    change (2 <=? length (a :: b :: w))%nat with true. cbn [andb]. destruct (zcross _ _ _ <=? 0); [|reflexivity]. apply IH. discriminate.
Qed.
Lemma pops_len t st p : (length (pops t st p) <= length st)%nat.
Proof.
  induction st as [|a [|b st] IH]; [cbn; lia|cbn; lia|]. cbn [pops]. destruct (_ && _)%bool; [|lia]. eapply Nat.le_trans; [apply IH|cbn [length]; lia].
Qed.
Lemma pops_nil st p : st <> [] -> pops 2 st p <> [].
Proof. intros N E. apply (zpops_nil (map fst st) (fst p)); [destruct st; [contradiction|discriminate]|]. rewrite <- pops_map, E. auto. Qed.
Lemma pops_suffix st p : exists l, st = l ++ pops 2 st p.
Proof.
  induction st as [|a [|b st] IH]; [exists []; auto|exists []; auto|]. cbn [pops]. destruct (_ && _)%bool; [|exists []; auto].
  destruct IH as [l E]. exists (a :: l). cbn. f_equal. exact E.
Qed.
Lemma hchain_len ps st : (length (hchain ps st) <= length ps + length st)%nat.
Proof. revert st. induction ps as [|p ps IH]; intros st; [cbn; lia|]. cbn [hchain fold_left]. eapply Nat.le_trans; [apply IH|]. cbn [length]. pose proof (pops_len 2 st p). lia. Qed.
Lemma lower_loop cap ps st : (length ps + length st <= cap)%nat -> mfold (hull_step cap 2) ps st = Ok (hchain ps st).
Proof.
  revert st. induction ps as [|p ps IH]; intros st L; [reflexivity|]. cbn [mfold]. unfold hull_step at 1. cbv zeta. pose proof (pops_len 2 st p). cbn [length] in L.
  rewrite (proj2 (Nat.ltb_lt _ _)) by lia. cbn [bind]. rewrite IH by (cbn [length]; lia). reflexivity.
Qed.
Lemma upper_loop cap ps w rest : w <> [] -> (length ps + length w + length rest <= cap)%nat ->
  mfold (hull_step cap (length rest + 2)) ps (w ++ rest) = Ok (hchain ps w ++ rest).
Proof.
  revert w. induction ps as [|p ps IH]; intros w N L; [reflexivity|]. cbn [mfold]. unfold hull_step at 1. cbv zeta. rewrite pops_base by auto. pose proof (pops_len 2 w p). cbn [length] in L.
  rewrite app_length, (proj2 (Nat.ltb_lt _ _)) by lia. cbn [bind]. change (p :: pops 2 w p ++ rest) with ((p :: pops 2 w p) ++ rest). rewrite IH; [reflexivity|discriminate|cbn [length]; lia].
Qed.
Lemma hchain_top ps p st : exists l, hchain (ps ++ [p]) st = p :: l.
Proof. unfold hchain. rewrite fold_left_app. cbn. eauto. Qed.
Lemma hchain_bottom ps st b : (exists l, st = l ++ [b]) -> exists l, hchain ps st = l ++ [b].
Proof.
  revert st. induction ps as [|p ps IH]; intros st H; [exact H|]. cbn [hchain fold_left]. apply IH. destruct H as [l ->]. destruct (pops_suffix (l ++ [b]) p) as [pre E].
  destruct (@exists_last _ (pops 2 (l ++ [b]) p)) as (l0 & b0 & E0); [apply pops_nil; destruct l; discriminate|]. rewrite E0, app_assoc in E. apply app_inj_tail in E as [_ <-]. exists (p :: l0). rewrite E0. auto.
Qed.
Lemma hchain_incl ps st x : In x (hchain ps st) -> In x ps \/ In x st.
Proof.
  revert st. induction ps as [|p ps IH]; intros st H; [auto|]. cbn [hchain fold_left] in H. apply IH in H as [H|[<-|H]]; [left; right; auto|left; left; auto|].
  right. destruct (pops_suffix st p) as [l E]. rewrite E. apply in_or_app. auto.
Qed.

(* ---- reversing: negated coordinates ---- *)
Definition neg (p : zp) : zp := (- fst p, - snd p).
Lemma zcross_neg a b c : zcross (neg a) (neg b) (neg c) = zcross a b c.
Proof. unfold zcross, neg. cbn. ring. Qed.
Lemma neg_neg p : neg (neg p) = p.
Proof. destruct p as [x y]. unfold neg. cbn. f_equal; lia. Qed.
Lemma lexle_neg a b : lexle (neg a) (neg b) <-> lexle b a.
Proof. unfold lexle, lnn, vs, neg. cbn. lia. Qed.
Lemma lexlt_neg a b : lexlt (neg a) (neg b) <-> lexlt b a.
Proof. unfold lexlt, lpos, vs, neg. cbn. lia. Qed.
Lemma zpops_neg st p : zpops (map neg st) (neg p) = map neg (zpops st p).
Proof. induction st as [|a [|b st] IH]; [reflexivity|reflexivity|]. cbn [zpops map]. rewrite zcross_neg. destruct (zcross b a p <=? 0); [exact IH|reflexivity]. Qed.
Lemma zchain_neg ps st : zchain (map neg ps) (map neg st) = map neg (zchain ps st).
Proof. revert st. induction ps as [|p ps IH]; intros st; [reflexivity|]. cbn [zchain fold_left map]. rewrite zpops_neg. change (neg p :: map neg (zpops st p)) with (map neg (p :: zpops st p)). apply IH. Qed.
Lemma ss_app {A} (R : A -> A -> Prop) l1 l2 : StronglySorted R l1 -> StronglySorted R l2 -> (forall a b, In a l1 -> In b l2 -> R a b) -> StronglySorted R (l1 ++ l2).
Proof.
  induction 1 as [|a l1 S IH F]; intros S2 H; auto. cbn. constructor.
  - apply IH; auto. intros x y X Y. apply H; auto. right. auto.
  - rewrite Forall_forall in *. intros x X. apply in_app_or in X as [X|X]; auto. apply H; auto. left. auto.
Qed.
Lemma ss_rev {A} (R : A -> A -> Prop) l : StronglySorted R l -> StronglySorted (fun a b => R b a) (rev l).
Proof.
  induction 1 as [|a l S IH F]; [constructor|]. cbn [rev]. apply ss_app; auto; [repeat constructor|].
  intros x y X [<-|[]]. rewrite Forall_forall in F. apply F. apply in_rev. auto.
Qed.
Lemma ss_map {A B} (f : A -> B) (R : B -> B -> Prop) l : StronglySorted (fun a b => R (f a) (f b)) l -> StronglySorted R (map f l).
Proof. induction 1 as [|a l S IH F]; [constructor|]. cbn. constructor; auto. rewrite Forall_forall in *. intros x X. apply in_map_iff in X as (y & <- & Y). auto. Qed.
Lemma ss_imp {A} (R R' : A -> A -> Prop) l : (forall a b, R a b -> R' a b) -> StronglySorted R l -> StronglySorted R' l.
Proof. intros H. induction 1 as [|a l S IH F]; constructor; auto. eapply Forall_impl; [|exact F]. auto. Qed.

Lemma tri_get st l1 c l2 b l3 a l4 : tri_ok st -> st = l1 ++ c :: l2 ++ b :: l3 ++ a :: l4 -> 0 < zcross a b c.
Proof.
  intros T ->. apply tri_suffix in T. destruct T as [T _]. clear - T. revert T. induction l2 as [|x l2 IH]; intros T; cbn [app] in T; inversion T as [|? ? F G]; subst; auto.
  rewrite Forall_forall in F. apply F. apply in_or_app. right. left. auto.
Qed.
Lemma tri_neg st : tri_ok (map neg st) -> tri_ok st.
Proof.
  induction st as [|p st IH]; cbn [map tri_ok]; auto. intros [F T]. split; auto. clear - F. revert F. induction st as [|v st IH]; cbn [map]; intros F; inversion F as [|? ? F1 F2]; subst; constructor; auto.
  rewrite Forall_forall in *. intros u U. rewrite <- zcross_neg. apply F1. apply in_map. auto.
Qed.
Lemma adj_neg st u v : adj st u v -> adj (map neg st) (neg u) (neg v).
Proof. intros (l1 & l2 & ->). exists (map neg l1), (map neg l2). rewrite map_app. reflexivity. Qed.

(* a point above the base p0-top is strictly left of every chord of the lower chain *)
Lemma above_chord p0 top u v x : lexlt p0 top -> lexlt u v -> 0 <= zcross u v p0 -> 0 <= zcross u v top -> 0 < zcross p0 top x -> lexle p0 x -> lexle x top -> 0 < zcross u v x.
Proof.
  intros E D F0 F1 A X X'. set (d := vs u v). set (e := vs p0 top).
  assert (Fx : zcross u v x = zcross u v p0 + cr d (vs p0 x)) by (unfold zcross, cr, d, vs; cbn; ring).
  assert (Fx' : zcross u v x = zcross u v top - cr d (vs x top)) by (unfold zcross, cr, d, vs; cbn; ring).
  assert (Ft : zcross u v top = zcross u v p0 + cr d e) by (unfold zcross, cr, d, e, vs; cbn; ring).
  assert (Ax : zcross p0 top x = cr e (vs p0 x)) by (unfold zcross, cr, e, vs; cbn; ring).
  assert (Ax' : zcross p0 top x = - cr e (vs x top)) by (unfold zcross, cr, e, vs; cbn; ring).
  destruct (Z.le_gt_cases 0 (cr d e)) as [C|C].
  - assert (P : 0 < cr d (vs p0 x)).
    { apply (scal_pos e _ (cr d e * fst (vs p0 x) + cr e (vs p0 x) * fst d) (cr d e * snd (vs p0 x) + cr e (vs p0 x) * snd d) E); try (unfold cr; ring). apply comb_lpos; auto; lia. }
    lia.
  - assert (P : 0 < - cr d (vs x top)).
    { apply (scal_pos e _ (- cr d e * fst (vs x top) + - cr e (vs x top) * fst d) (- cr d e * snd (vs x top) + - cr e (vs x top) * snd d) E); try (unfold cr; ring). apply comb_lpos; auto; lia. }
    lia.
Qed.
Lemma fop_app {A} (R : A -> A -> Prop) l1 l2 : ForallOrdPairs R l1 -> ForallOrdPairs R l2 -> (forall a b, In a l1 -> In b l2 -> R a b) -> ForallOrdPairs R (l1 ++ l2).
Proof.
  induction 1 as [|a l1 F S IH]; intros S2 H; auto. cbn. constructor.
  - rewrite Forall_forall in *. intros x X. apply in_app_or in X as [X|X]; auto. apply H; auto. left. auto.
  - apply IH; auto. intros x y X Y. apply H; auto. right. auto.
Qed.
Lemma fop_intro {A} (R : A -> A -> Prop) l : (forall l1 a l2 b l3, l = l1 ++ a :: l2 ++ b :: l3 -> R a b) -> ForallOrdPairs R l.
Proof.
  induction l as [|a l IH]; intros H; constructor.
  - apply Forall_forall. intros b I. apply in_split in I as (l2 & l3 & ->). apply (H [] a l2 b l3). auto.
  - apply IH. intros l1 x l2 y l3 ->. apply (H (a :: l1) x l2 y l3). auto.
Qed.

(* the two chains *)
Definition Flat (ps : list zp) : Prop := forall a b c, In a ps -> In b ps -> In c ps -> zcross a b c = 0.
Section Two.
Context (ps : list zp) (Sps : StronglySorted lexle ps) (NF : ~ Flat ps).
Let low := zchain ps [].
Let up := zchain (rev ps) [].
Lemma not_all_same a : ~ (forall q, In q ps -> q = a).
Proof. intros H. apply NF. intros x y z X Y Z. rewrite (H x X), (H y Y), (H z Z). unfold zcross. lia. Qed.
Lemma ps_cons : exists p t, ps = p :: t.
Proof. destruct ps as [|p t] eqn:E; [|eauto]. exfalso. apply NF. intros a b c []. Qed.
Lemma low_good : Good low (rev ps).
Proof.
  destruct ps_cons as (p & t & E). pose proof Sps as S'. pose proof not_all_same as N. unfold low. rewrite E in S', N |- *. destruct (zchain_good p t S') as [H|(a & _ & H & _)]; auto.
  exfalso. apply (N a). intros q Q. apply H. apply -> in_rev. auto.
Qed.
Lemma nps_sorted : StronglySorted lexle (map neg (rev ps)).
Proof. apply ss_map. eapply ss_imp; [|apply ss_rev; exact Sps]. intros a b H. apply lexle_neg. auto. Qed.
Lemma up_good : Good (map neg up) (rev (map neg (rev ps))).
Proof.
  assert (E : map neg up = zchain (map neg (rev ps)) []) by (symmetry; apply (zchain_neg (rev ps) [])). rewrite E. pose proof nps_sorted as S.
  destruct (map neg (rev ps)) as [|p t] eqn:Em; [exfalso; destruct ps_cons as (p & t & Ep); rewrite Ep in Em; cbn [rev] in Em; rewrite map_app in Em; destruct (map neg (rev t)); discriminate|].
  destruct (zchain_good p t S) as [H|(a & _ & H & _)]; auto. exfalso. apply (not_all_same (neg a)). intros q Q. rewrite <- (H (neg q)); [rewrite neg_neg; auto|]. rewrite <- Em. apply -> in_rev. apply in_map. apply -> in_rev. auto.
Qed.
Lemma low_shape : exists p0 top li, low = top :: li ++ [p0] /\ lexlt p0 top /\ (forall q, In q ps -> lexle p0 q /\ lexle q top).
Proof.
  destruct low_good as (D & T & L & (l & b & E & Ib & Lb & Sb) & (t & l' & E' & Lt) & Sub).
  destruct l as [|x l]; [exfalso; apply (not_all_same b); intros q Q; apply Sb; auto; apply -> in_rev; auto|].
  rewrite E in E'. injection E' as <- <-. exists b, x, l. split; auto. split.
  - rewrite E in D. cbn in D. eapply dec_in; [exact D|]. apply in_or_app. right. left. auto.
  - intros q Q. apply in_rev in Q. auto.
Qed.
Lemma up_shape : exists p0 top ui, up = p0 :: ui ++ [top] /\ (forall q, In q ps -> lexle p0 q /\ lexle q top) /\ In p0 ps /\ In top ps.
Proof.
  destruct up_good as (D & T & L & (l & b & E & Ib & Lb & Sb) & (t & l' & E' & Lt) & Sub).
  assert (Iff : forall q, In q (rev (map neg (rev ps))) <-> In (neg q) ps).
  { intros q. rewrite <- in_rev, in_map_iff. split; [intros (y & <- & Y); rewrite neg_neg; apply in_rev; auto|intros H; exists (neg q); split; [apply neg_neg|apply -> in_rev; auto]]. }
  destruct l as [|x l]; [exfalso; apply (not_all_same (neg b)); intros q Q; rewrite <- (Sb eq_refl (neg q)); [rewrite neg_neg; auto|apply Iff; rewrite neg_neg; auto]|].
  rewrite E in E'. injection E' as <- <-. 
  assert (Eu : up = map neg (map neg up)) by (rewrite map_map, <- (map_id up) at 1; apply map_ext; intros; symmetry; apply neg_neg).
  rewrite E in Eu. cbn [app map] in Eu. rewrite map_app in Eu. exists (neg x), (neg b), (map neg l). split; auto. split; [|split].
  - intros q Q. split.
    + apply lexle_neg. rewrite neg_neg. apply Lt. apply Iff. rewrite neg_neg. auto.
    + apply lexle_neg. rewrite neg_neg. apply Lb. apply Iff. rewrite neg_neg. auto.
  - apply Iff. apply Sub. rewrite E. left. auto.
  - apply Iff. auto.
Qed.
Lemma lex_antisym a b : lexle a b -> lexle b a -> a = b.
Proof. intros A B. destruct (lexle_cases a b A) as [H|]; auto. exfalso. apply (lexlt_irr a). eapply lexlt_le; eauto. Qed.

Lemma two_chains : exists p0 top li ui, low = top :: li ++ [p0] /\ up = p0 :: ui ++ [top] /\ tri_ok (ui ++ low) /\
  (forall u v q, adj low u v \/ adj up u v -> In q ps -> 0 <= zcross u v q) /\ (1 <= length li + length ui)%nat.
Proof.
  destruct low_shape as (p0 & top & li & El & Lt & Ex). destruct up_shape as (p0' & top' & ui & Eu & Ex' & Ip & It).
  pose proof low_good as (D & T & L & _ & _ & Sub). pose proof up_good as (D' & T' & L' & _ & _ & Sub').
  assert (Sl : incl low ps) by (intros x X; apply in_rev; auto).
  assert (Su : incl up ps).
  { intros x X. assert (K : In (neg x) (rev (map neg (rev ps)))) by (apply Sub'; apply in_map; auto). apply in_rev in K. apply in_map_iff in K as (y & E & Y). rewrite <- (neg_neg x), <- E, neg_neg. apply in_rev. auto. }
  assert (I0 : In p0 ps) by (apply Sl; rewrite El; right; apply in_or_app; right; left; auto). assert (I1 : In top ps) by (apply Sl; rewrite El; left; auto).
  assert (p0' = p0) by (apply lex_antisym; [apply Ex'|apply Ex]; auto). assert (top' = top) by (apply lex_antisym; [apply Ex|apply Ex']; auto). subst p0' top'.
  apply tri_neg in T'.
  assert (Left : forall u v q, adj low u v \/ adj up u v -> In q ps -> 0 <= zcross u v q).
  { intros u v q [A|A] Q; [apply L; auto; apply -> in_rev; auto|]. rewrite <- zcross_neg. apply L'; [apply adj_neg; auto|]. apply -> in_rev. apply in_map. apply -> in_rev. auto. }
  exists p0, top, li, ui. split; auto. split; auto. split; [|split; auto].
  - (* strictly convex *)
    assert (Ld : forall l1 v l2 u l3, low = l1 ++ v :: l2 ++ u :: l3 -> lexlt u v).
    { intros l1 v l2 u l3 E. rewrite E in D. apply dec_suffix in D. eapply dec_in; [exact D|]. apply in_or_app. right. left. auto. }
    assert (C0 : forall l1 v l2 u l3, low = l1 ++ v :: l2 ++ u :: l3 -> 0 <= zcross u v p0).
    { intros l1 v l2 u l3 E. destruct l3 as [|w l3] using rev_ind.
      - assert (u = p0). { rewrite El in E. change (top :: li ++ [p0]) with ((top :: li) ++ [p0]) in E. replace (l1 ++ v :: l2 ++ [u]) with ((l1 ++ v :: l2) ++ [u]) in E by (rewrite <- app_assoc; auto). apply app_inj_tail in E as [_ ->]. auto. }
        subst u. unfold zcross. lia.
      - clear IHl3. assert (w = p0). { rewrite El in E. change (top :: li ++ [p0]) with ((top :: li) ++ [p0]) in E. replace (l1 ++ v :: l2 ++ u :: l3 ++ [w]) with ((l1 ++ v :: l2 ++ u :: l3) ++ [w]) in E by (rewrite <- app_assoc; cbn [app]; rewrite <- app_assoc; auto). apply app_inj_tail in E as [_ ->]. auto. }
        subst w. pose proof (tri_get low l1 v l2 u l3 p0 [] T E) as K. unfold zcross in *. lia. }
    assert (C1 : forall l1 v l2 u l3, low = l1 ++ v :: l2 ++ u :: l3 -> 0 <= zcross u v top).
    { intros l1 v l2 u l3 E. destruct l1 as [|w l1].
      - rewrite El in E. injection E as <- _. unfold zcross. lia.
      - assert (w = top) by (rewrite El in E; injection E as <- _; auto). subst w. pose proof (tri_get low [] top l1 v l2 u l3 T E). lia. }
    assert (Ub : forall x, In x ui -> 0 < zcross p0 top x).
    { intros x X. apply in_split in X as (a & b & ->). pose proof (tri_get up [] p0 a x b top [] T') as K. cbn [app] in K. rewrite <- app_assoc in Eu. cbn [app] in Eu. specialize (K Eu). unfold zcross in *. lia. }
    assert (Lb : forall x, In x li -> 0 < zcross top p0 x).
    { intros x X. apply in_split in X as (a & b & ->). pose proof (tri_get low [] top a x b p0 [] T) as K. cbn [app] in K. rewrite <- app_assoc in El. cbn [app] in El. specialize (K El). unfold zcross in *. lia. }
    assert (Ud : forall l1 v l2 u l3, up = l1 ++ v :: l2 ++ u :: l3 -> lexlt v u).
    { intros l1 v l2 u l3 E. apply lexlt_neg. rewrite E, map_app in D'. cbn [map] in D'. rewrite map_app in D'. cbn [map] in D'. apply dec_suffix in D'. eapply dec_in; [exact D'|]. apply in_or_app. right. left. auto. }
    (* a pair x above v in ui, and a point u of low *)
    assert (Mix : forall a x b v c u, ui = a ++ x :: b ++ v :: c -> In u low -> 0 < zcross u v x).
    { intros a x b v c u E Iu.
      assert (Eu' : up = (p0 :: a) ++ x :: b ++ v :: c ++ [top]).
      { rewrite Eu, E. cbn [app]. rewrite <- !app_assoc. cbn [app]. rewrite <- app_assoc. auto. }
      rewrite El in Iu. destruct Iu as [<-|Iu]; [|apply in_app_or in Iu as [Iu|[<-|[]]]].
      - apply (tri_get up (p0 :: a) x b v c top [] T' Eu').
      - replace (zcross u v x) with (zcross v x u) by (unfold zcross; ring). rewrite <- zcross_neg.
        apply (above_chord (neg top) (neg p0)); rewrite ?zcross_neg; try (apply lexlt_neg); try (apply lexle_neg); auto.
        + eapply (Ud (p0 :: a)). exact Eu'.
        + pose proof (tri_get up (p0 :: a) x b v c top [] T' Eu') as K. unfold zcross in *. lia.
        + pose proof (tri_get up [] p0 a x b v (c ++ [top]) T' Eu') as K. lia.
        + apply Ex. apply Sl. rewrite El. right. apply in_or_app. auto.
        + apply Ex. apply Sl. rewrite El. right. apply in_or_app. auto.
      - pose proof (tri_get up [] p0 a x b v (c ++ [top]) T' Eu') as K. unfold zcross in *. lia. }
    assert (G : forall b a, ui = a ++ b -> tri_ok (b ++ low)).
    { induction b as [|x b IH]; intros a E; [exact T|]. cbn [app tri_ok]. split; [|apply (IH (a ++ [x])); rewrite <- app_assoc; auto].
      apply fop_app.
      - apply fop_intro. intros l1 v l2 u l3 Eb. subst b. apply (tri_get up (p0 :: a) x l1 v l2 u (l3 ++ [top]) T'). rewrite Eu, E. cbn [app]. rewrite <- !app_assoc. cbn [app]. rewrite <- !app_assoc. cbn [app]. rewrite <- app_assoc. auto.
      - apply fop_intro. intros l1 v l2 u l3 E'. apply (above_chord p0 top); auto; [eapply Ld; eauto|eapply C0; eauto|eapply C1; eauto| | |].
        + apply Ub. rewrite E. apply in_or_app. right. left. auto.
        + apply Ex. apply Su. rewrite Eu, E. right. apply in_or_app. left. apply in_or_app. right. left. auto.
        + apply Ex. apply Su. rewrite Eu, E. right. apply in_or_app. left. apply in_or_app. right. left. auto.
      - intros v u V U. apply in_split in V as (b1 & c & ->). eapply Mix; [exact E|auto]. }
    apply (G ui []). auto.
  - (* not both empty *)
    destruct li as [|? ?]; [|cbn; lia]. destruct ui as [|? ?]; [|cbn; lia]. exfalso. apply NF.
    assert (On : forall q, In q ps -> zcross p0 top q = 0).
    { intros q Q. assert (0 <= zcross p0 top q) by (apply Left; auto; left; rewrite El; exists [], []; auto). assert (0 <= zcross top p0 q) by (apply Left; auto; right; rewrite Eu; exists [], []; auto). unfold zcross in *. lia. }
    intros a b c A B C. pose proof (On a A) as Ha. pose proof (On b B) as Hb. pose proof (On c C) as Hc.
    assert (K : forall q, fst (vs p0 q) * snd (vs p0 top) = snd (vs p0 q) * fst (vs p0 top) -> True) by auto. clear K.
    rewrite zc. assert (N : vs p0 top <> (0, 0)) by (intros N; unfold lexlt in Lt; rewrite N in Lt; unfold lpos in Lt; cbn in Lt; lia).
    assert (E1 : fst (vs p0 top) * cr (vs a b) (vs b c) = 0 /\ snd (vs p0 top) * cr (vs a b) (vs b c) = 0).
    { clear - Ha Hb Hc. destruct p0 as [px py], top as [tx ty], a as [ax ay], b as [bx by_], c as [cx cy]. unfold zcross, cr, vs in *. cbn in *.
      set (ex := tx - px) in *. set (ey := ty - py) in *. set (a1 := ax - px) in *. set (a2 := ay - py) in *. set (b1 := bx - px) in *. set (b2 := by_ - py) in *. set (c1 := cx - px) in *. set (c2 := cy - py) in *.
      replace (bx - ax) with (b1 - a1) by (unfold a1, b1; ring). replace (cy - by_) with (c2 - b2) by (unfold c2, b2; ring). replace (by_ - ay) with (b2 - a2) by (unfold a2, b2; ring). replace (cx - bx) with (c1 - b1) by (unfold c1, b1; ring).
      split.
      - replace (ex * ((b1 - a1) * (c2 - b2) - (b2 - a2) * (c1 - b1))) with ((b1 - a1) * ((ex * c2 - ey * c1) - (ex * b2 - ey * b1)) - ((ex * b2 - ey * b1) - (ex * a2 - ey * a1)) * (c1 - b1)) by ring. rewrite Ha, Hb, Hc. ring.
      - replace (ey * ((b1 - a1) * (c2 - b2) - (b2 - a2) * (c1 - b1))) with ((b2 - a2) * ((ex * c2 - ey * c1) - (ex * b2 - ey * b1)) - ((ex * b2 - ey * b1) - (ex * a2 - ey * a1)) * (c2 - b2)) by ring. rewrite Ha, Hb, Hc. ring. }
    destruct (vs p0 top) as [ex ey]. cbn in E1. destruct E1 as [E1 E2]. destruct (Z.eq_dec ex 0); [destruct (Z.eq_dec ey 0); [subst; contradiction|nia]|nia].
Qed.
End Two.
