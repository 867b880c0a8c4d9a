From Verif Require Import Base BaseFacts StdAlg PLCSpec Plane MeshEditorModel WithinSpec HullModel HullSpec HullProofs HullProofs2.
From Coq Require Import QArith Qround ZArith Sorted Permutation Lia Lqa.
Local Open Scope Z_scope.

(* ---- sorting ---- *)
Definition hle (a b : hpt) : Prop := lexle (fst a) (fst b).
Lemma hpt_lt_le a b : hpt_lt a b = true -> hle a b.
Proof.
  destruct a as [[ax ay] ai], b as [[bx by_] bi]. unfold hpt_lt, hle, lexle, lnn, vs. cbn. destruct (Z.ltb_spec ax bx); [lia|]. destruct (Z.ltb_spec bx ax); [discriminate|].
  destruct (Z.ltb_spec ay by_); [lia|]. destruct (Z.ltb_spec by_ ay); [discriminate|]. lia.
Qed.
Lemma hpt_nlt_le a b : hpt_lt a b = false -> hle b a.
Proof.
  destruct a as [[ax ay] ai], b as [[bx by_] bi]. unfold hpt_lt, hle, lexle, lnn, vs. cbn. destruct (Z.ltb_spec ax bx); [discriminate|]. destruct (Z.ltb_spec bx ax); [lia|].
  destruct (Z.ltb_spec ay by_); [discriminate|]. destruct (Z.ltb_spec by_ ay); lia.
Qed.
Lemma hpt_ins_perm v l : Permutation (hpt_ins v l) (v :: l).
Proof. induction l as [|h t IH]; [reflexivity|]. cbn. destruct (hpt_lt h v); [|reflexivity]. rewrite IH. constructor. Qed.
Lemma hpt_sort_perm l : Permutation (hpt_sort l) l.
Proof. induction l as [|h t IH]; [reflexivity|]. cbn. rewrite hpt_ins_perm. constructor. auto. Qed.
Lemma hpt_ins_sorted v l : StronglySorted hle l -> StronglySorted hle (hpt_ins v l).
Proof.
  induction 1 as [|h t S IH F]; [repeat constructor|]. cbn. destruct (hpt_lt h v) eqn:E.
  - constructor; auto. rewrite hpt_ins_perm. constructor; auto. apply hpt_lt_le. auto.
  - pose proof (hpt_nlt_le _ _ E) as L. constructor; [constructor; auto|]. constructor; auto. eapply Forall_impl; [|exact F]. intros x. apply lexle_trans. exact L.
Qed.
Lemma hpt_sort_sorted l : StronglySorted hle (hpt_sort l).
Proof. induction l as [|h t IH]; [constructor|]. apply hpt_ins_sorted. auto. Qed.
Lemma hpt_sort_zsorted l : StronglySorted lexle (map fst (hpt_sort l)).
Proof. apply ss_map. apply hpt_sort_sorted. Qed.
Lemma flat_perm l l' : Permutation l l' -> Flat l -> Flat l'.
Proof. intros P F a b c A B C. apply F; eapply Permutation_in; try (symmetry; exact P); auto. Qed.

(* ---- the loops ---- *)
Definition adjg {A} (st : list A) (u v : A) : Prop := exists l1 l2, st = l1 ++ v :: u :: l2.
Lemma adjg_map st (u v : hpt) : adjg st u v -> adj (map fst st) (fst u) (fst v).
Proof. intros (l1 & l2 & ->). exists (map fst l1), (map fst l2). rewrite map_app. auto. Qed.
Lemma adjg_split {A} (l : list A) t r u v : adjg (l ++ t :: r) u v -> adjg (l ++ [t]) u v \/ adjg (t :: r) u v.
Proof.
  revert t r. induction l as [|a l IH]; intros t r (l1 & l2 & E); [right; exists l1, l2; auto|].
  destruct l1 as [|x l1]; cbn [app] in E; injection E as -> E.
  - left. destruct l as [|b l]; cbn [app] in E; injection E as -> E; [exists [], []; auto|exists [], (l ++ [t]); auto].
  - destruct (IH t r) as [(m1 & m2 & E')|H]; [exists l1, l2; auto| |auto]. left. exists (x :: m1), m2. cbn. f_equal. auto.
Qed.
Lemma consec {A} (l : list A) z a b : In (a, b) (combine l (tl l ++ [z])) -> exists l1 l2, l ++ [z] = l1 ++ a :: b :: l2.
Proof.
  induction l as [|x l IH]; [intros []|]. cbn [tl]. destruct l as [|y l].
  - cbn. intros [[= <- <-]|[]]. exists [], []. auto.
  - cbn [app combine]. intros [[= <- <-]|I]; [exists [], (l ++ [z]); auto|]. destruct (IH I) as (l1 & l2 & E). exists (x :: l1), l2. cbn [app] in *. f_equal. auto.
Qed.
Lemma mmap_eq {A B} (f : A -> res B) l bs : Forall2 (fun a b => f a = Ok b) l bs -> mmap f l = Ok bs.
Proof. induction 1 as [|a b l bs E _ IH]; [reflexivity|]. cbn. rewrite E. cbn [bind]. rewrite IH. reflexivity. Qed.
Lemma forall2_of_nth {A B} (R : A -> B -> Prop) l l' : length l = length l' -> (forall i a b, nth_error l i = Some a -> nth_error l' i = Some b -> R a b) -> Forall2 R l l'.
Proof.
  revert l'. induction l as [|a l IH]; intros [|b l'] L H; try discriminate; constructor; [apply (H 0%nat); auto|]. apply IH; [cbn in L; lia|]. intros i. apply (H (S i)).
Qed.
Lemma facets_loop (e0 : hpt) r : let result := (e0 :: r) ++ [e0] in
  mmap (fun i => do a <- get result i; do b <- get result ((i + 1) mod length result)%nat; Ok [Z.of_nat (snd a); Z.of_nat (snd b)]) (seq 0 (length result - 1)) =
  Ok (map (fun e => [Z.of_nat (snd (fst e)); Z.of_nat (snd (snd e))]) (ring (e0 :: r))).
Proof.
  cbv zeta. set (result := (e0 :: r) ++ [e0]). assert (Ln : length result = S (length (e0 :: r))) by (unfold result; rewrite app_length; cbn [length]; lia).
  apply mmap_eq. rewrite Ln. replace (S (length (e0 :: r)) - 1)%nat with (length (e0 :: r)) by lia.
  assert (Lr : length (ring (e0 :: r)) = length (e0 :: r)) by (cbn [ring]; rewrite combine_length, app_length; cbn [length]; lia).
  apply forall2_of_nth; [rewrite seq_length, map_length, Lr; auto|]. intros i a b Ha Hb.
  pose proof (nth_error_lt _ _ _ Ha) as L. rewrite seq_length in L. rewrite (nth_error_nth' _ 0%nat) in Ha by (rewrite seq_length; auto). rewrite seq_nth in Ha by auto. injection Ha as <-. cbn [plus].
  destruct (nth_error (ring (e0 :: r)) i) as [[x y]|] eqn:E; [|apply nth_error_None in E; lia]. rewrite nth_error_map, E in Hb. injection Hb as <-. cbn [fst snd].
  assert (Ex : nth_error (e0 :: r) i = Some x /\ nth_error (r ++ [e0]) i = Some y).
  { clear - E. cbn [ring] in E. revert E. generalize (e0 :: r) as l, (r ++ [e0]) as l'. intros l. revert i. induction l as [|a l IH]; intros [|i] [|b l'] E; try discriminate; cbn in *; [injection E as -> ->; auto|auto]. }
  destruct Ex as [E1 E2].
  assert (G1 : nth_error result i = Some x) by (unfold result; rewrite nth_error_app1 by auto; auto).
  assert (G2 : nth_error result (i + 1) = Some y) by (unfold result; rewrite Nat.add_1_r; exact E2).
  unfold get. rewrite G1. cbn [bind]. rewrite Nat.mod_small by lia. rewrite G2. reflexivity.
Qed.
Lemma hull_shape (s : list hpt) : s <> [] -> exists e0 t low_rest U', hchain s [] = t :: low_rest /\ hchain (rev s) [] = U' ++ [t] /\
  (exists l, hchain s [] = l ++ [e0]) /\ (exists l, hchain (rev s) [] = e0 :: l) /\ In e0 s /\ In t s /\
  mfold (hull_step (2 * length s) 2) s [] = Ok (t :: low_rest) /\
  mfold (hull_step (2 * length s) (length (t :: low_rest) + 1)) (skipn 1 (rev s)) (t :: low_rest) = Ok (U' ++ t :: low_rest).
Proof.
  intros N. destruct s as [|e0 s0]; [contradiction|]. destruct (@exists_last _ (e0 :: s0)) as (s1 & t & Es); [discriminate|].
  exists e0, t. destruct (hchain_top s1 t []) as [lr El]. rewrite <- Es in El. exists lr.
  assert (Er : rev (e0 :: s0) = t :: rev s1) by (rewrite Es, rev_app_distr; auto).
  destruct (hchain_bottom (rev s1) [t] t) as [U' Eu]; [exists []; auto|].
  assert (Eu' : hchain (rev (e0 :: s0)) [] = U' ++ [t]) by (rewrite Er; exact Eu). exists U'. split; auto. split; auto. split; [|split; [|split; [|split; [|split]]]].
  - apply (hchain_bottom s0 [e0] e0). exists []. auto.
  - cbn [rev]. apply hchain_top.
  - left. auto.
  - rewrite Es. apply in_or_app. right. left. auto.
  - rewrite lower_loop by (cbn [length]; lia). f_equal. exact El.
  - rewrite Er. cbn [skipn]. change (t :: lr) with ([t] ++ lr). replace (length ([t] ++ lr) + 1)%nat with (length lr + 2)%nat by (cbn [app length]; lia).
    pose proof (hchain_len (e0 :: s0) []) as Ll. rewrite El in Ll. cbn [length] in Ll.
    assert (Ls : length s1 = length s0). { assert (K : length (e0 :: s0) = length (s1 ++ [t])) by (rewrite Es; auto). rewrite app_length in K. cbn [length] in K. lia. }
    rewrite upper_loop; [rewrite Eu, <- app_assoc; auto|discriminate|rewrite rev_length; cbn [length]; lia].
Qed.
Lemma loops_hull (s : list hpt) : StronglySorted lexle (map fst s) -> ~ Flat (map fst s) ->
  exists cyc, hull_loops s = Ok (map (fun e => [Z.of_nat (snd (fst e)); Z.of_nat (snd (snd e))]) (ring cyc)) /\ incl cyc s /\ (3 <= length cyc)%nat /\ tri_ok (rev (map fst cyc)) /\
    forall a b q, In (a, b) (ring cyc) -> In q s -> 0 <= zcross (fst a) (fst b) (fst q).
Proof.
  intros Ss NF. assert (N : s <> []) by (intros ->; apply NF; intros a b c []).
  destruct (hull_shape s N) as (e0 & t & lr & U' & El & Eu & (lb & Elb) & (ub & Eub) & I0 & It & M1 & M2).
  destruct (two_chains (map fst s) Ss NF) as (p0 & top & li & ui & Zl & Zu & T & L & Len).
  pose proof (hchain_map s []) as HM. pose proof (hchain_map (rev s) []) as HR. rewrite map_rev in HR. cbn [map] in HM, HR. rewrite <- HM in Zl. rewrite <- HR in Zu.
  assert (Tl : tri_ok (ui ++ map fst (hchain s []))) by (rewrite HM; exact T). clear T.
  (* decompose the stacks *)
  destruct lb as [|x lb]; [rewrite Elb in Zl; cbn in Zl; destruct li; discriminate|]. assert (x = t) by (rewrite El in Elb; injection Elb as <- _; auto). subst x.
  assert (Elr : lr = lb ++ [e0]) by (rewrite El in Elb; injection Elb as ->; auto).
  destruct U' as [|x Ui]; [rewrite Eu in Zu; cbn in Zu; destruct ui; discriminate|]. assert (x = e0) by (rewrite Eu in Eub; injection Eub as -> _; auto). subst x.
  set (cyc := e0 :: rev lb ++ t :: rev Ui).
  assert (Est : (e0 :: Ui) ++ t :: lr = rev (cyc ++ [e0])).
  { rewrite Elr. unfold cyc. rewrite rev_app_distr. cbn [rev app]. rewrite rev_app_distr. cbn [rev]. rewrite !rev_involutive. rewrite <- !app_assoc. cbn [app]. auto. }
  assert (Mu : map fst Ui = ui). { rewrite Eu in Zu. cbn [app map] in Zu. rewrite map_app in Zu. cbn [map] in Zu. injection Zu as _ Zu. apply app_inj_tail in Zu. apply Zu. }
  assert (Ml : map fst lb = li). { rewrite Elb in Zl. cbn [app map] in Zl. rewrite map_app in Zl. cbn [map] in Zl. injection Zl as _ Zl. apply app_inj_tail in Zl. apply Zl. }
  exists cyc. split; [|split; [|split; [|split]]].
  - unfold hull_loops. cbv zeta. rewrite M1. cbn [bind]. rewrite M2. cbn [bind]. rewrite Est, rev_length, rev_involutive.
    assert (Lc : (4 <= length (cyc ++ [e0]))%nat).
    { unfold cyc. rewrite app_length. cbn [length]. rewrite app_length, rev_length. cbn [length]. rewrite rev_length. rewrite <- Mu, <- Ml, !map_length in Len. lia. }
    rewrite (proj2 (Nat.leb_le _ _) Lc). cbn [assert bind]. apply (facets_loop e0 (rev lb ++ t :: rev Ui)).
  - intros x [<-|X]; auto. apply in_app_or in X as [X|[<-|X]]; auto; apply in_rev in X.
    + assert (K : In x (hchain s [])) by (rewrite Elb; right; apply in_or_app; auto). apply hchain_incl in K as [K|[]]. auto.
    + assert (K : In x (hchain (rev s) [])) by (rewrite Eu; right; apply in_or_app; auto). apply hchain_incl in K as [K|[]]. apply in_rev. auto.
  - unfold cyc. cbn [length]. rewrite app_length, rev_length. cbn [length]. rewrite rev_length. rewrite <- Mu, <- Ml, !map_length in Len. lia.
  - rewrite <- map_rev. assert (Ec : rev cyc = Ui ++ hchain s []).
    { rewrite Elb. unfold cyc. cbn [rev]. rewrite rev_app_distr. cbn [rev]. rewrite !rev_involutive, <- !app_assoc. auto. }
    rewrite Ec, map_app, Mu. auto.
  - intros a b q I Q. unfold cyc in I. cbn [ring] in I. apply (consec cyc e0) in I as (l1 & l2 & E).
    assert (Ad : adjg ((e0 :: Ui) ++ t :: lr) a b). { rewrite Est, E. exists (rev l2), (rev l1). rewrite rev_app_distr. cbn [rev]. rewrite <- !app_assoc. auto. }
    apply (L (fst a) (fst b)); [|apply in_map; auto]. apply adjg_split in Ad as [Ad|Ad]; apply adjg_map in Ad.
    + right. rewrite <- HR, Eu. auto.
    + left. rewrite <- HM, El. auto.
Qed.
Lemma flat_chain_short ps st : StronglySorted lexle ps -> Flat ps -> st = zchain ps [] -> (length st <= 2)%nat.
Proof.
  intros S F ->. destruct ps as [|p t]; [cbn; lia|]. destruct (zchain_good p t S) as [(D & T & _ & _ & _ & Sub)|(a & E & _)]; [|rewrite E; cbn; lia].
  destruct (zchain (p :: t) []) as [|c [|b [|a l]]] eqn:E; try (cbn; lia). exfalso.
  pose proof (tri_get _ [] c [] b [] a l T eq_refl) as K. rewrite F in K; [lia|apply in_rev; apply Sub; cbn; auto ..].
Qed.
Lemma loops_flat (s : list hpt) : StronglySorted lexle (map fst s) -> Flat (map fst s) -> hull_loops s = Abort.
Proof.
  intros Ss F. destruct s as [|e s0]; [reflexivity|]. set (s := e :: s0) in *.
  destruct (hull_shape s) as (e0 & t & lr & U' & El & Eu & _ & _ & _ & _ & M1 & M2); [discriminate|].
  unfold hull_loops. cbv zeta. rewrite M1. cbn [bind]. rewrite M2. cbn [bind].
  assert (L1 : (length (hchain s []) <= 2)%nat) by (rewrite <- (map_length fst); eapply flat_chain_short; [exact Ss|exact F|apply (hchain_map s [])]).
  assert (L2 : (length (hchain (rev s) []) <= 2)%nat).
  { assert (E : map neg (map fst (hchain (rev s) [])) = zchain (map neg (rev (map fst s))) []) by (rewrite (hchain_map (rev s) []), map_rev; symmetry; apply (zchain_neg _ [])).
    rewrite <- (map_length fst), <- (map_length neg). eapply flat_chain_short; [| |exact E].
    - apply ss_map. eapply ss_imp; [|apply ss_rev; exact Ss]. intros a b H. apply lexle_neg. auto.
    - intros a b c A B C. apply in_map_iff in A as (a' & <- & A). apply in_map_iff in B as (b' & <- & B). apply in_map_iff in C as (c' & <- & C). rewrite zcross_neg. apply F; apply in_rev; auto. }
  rewrite El in L1. rewrite Eu, app_length in L2. cbn [length] in L1, L2. rewrite app_length. cbn [length]. replace (4 <=? length U' + S (length lr))%nat with false by (symmetry; apply Nat.leb_gt; lia). reflexivity.
Qed.

(* ---- the set ---- *)
Definition same_place (e e' : hpt) : Prop := (Z.abs (fst (fst e) - fst (fst e')) <= 1 /\ Z.abs (snd (fst e) - snd (fst e')) <= 1).
Lemma fuzzy_same p q : fuzzy_lt p q = false -> fuzzy_lt q p = false -> Z.abs (fst p - fst q) <= 1 /\ Z.abs (snd p - snd q) <= 1.
Proof.
  unfold fuzzy_lt. destruct (Z.ltb_spec (fst p + 1) (fst q)); [discriminate|]. destruct (Z.ltb_spec (fst q + 1) (fst p)); [discriminate|].
  destruct (Z.ltb_spec (snd p + 1) (snd q)); [discriminate|]. destruct (Z.ltb_spec (snd q + 1) (snd p)); [discriminate|]. lia.
Qed.
Lemma insert_keeps v l l' : set_insert v l l' -> incl l l' /\ (exists e, In e l' /\ same_place v e) /\ (forall e, In e l' -> In e l \/ e = v).
Proof.
  intros [l0 j J A B|l1 l2 A B].
  - split; [intros x; auto|]. split; [exists j; split; auto; apply fuzzy_same; auto|auto].
  - split; [intros x X; apply in_app_or in X as [X|X]; apply in_or_app; [left|right; right]; auto|]. split.
    + exists v. split; [apply in_or_app; right; left; auto|]. unfold same_place. lia.
    + intros e E. apply in_app_or in E as [E|[E|E]]; [left; apply in_or_app; auto|right; auto|left; apply in_or_app; auto].
Qed.
Lemma fill_keeps hs s s' : set_fill hs s s' -> incl s s' /\ (forall v, In v hs -> exists e, In e s' /\ same_place v e) /\ (forall e, In e s' -> In e s \/ In e hs).
Proof.
  induction 1 as [s|v hs s s1 s2 I _ (IH1 & IH2 & IH3)]; [split; [intros x; auto|split; [intros v []|auto]]|].
  destruct (insert_keeps _ _ _ I) as (K1 & (e & E & P) & K3). split; [intros x X; auto|]. split.
  - intros w [<-|W]; [exists e; split; auto|apply IH2; auto].
  - intros w W. destruct (IH3 w W) as [H|H]; [|right; right; auto]. destruct (K3 w H) as [?| ->]; [auto|right; left; auto].
Qed.
(* a tree in the form of a list *)
Fixpoint lin_at (v : hpt) (l1 l2 : list hpt) : list hpt * list hpt :=
  match l2 with [] => (l1, []) | j :: t => if fuzzy_lt (fst v) (fst j) then (l1, l2) else lin_at v (l1 ++ [j]) t end.
Definition lin_insert (v : hpt) (l : list hpt) : list hpt :=
  let '(l1, l2) := lin_at v [] l in
  match rev l1 with [] => v :: l2 | j :: _ => if fuzzy_lt (fst j) (fst v) then l1 ++ v :: l2 else l end.
Definition lin_fill (hs s : list hpt) : list hpt := fold_left (fun s v => lin_insert v s) hs s.
Lemma lin_at_spec v l1 l2 m1 m2 : lin_at v l1 l2 = (m1, m2) -> l1 ++ l2 = m1 ++ m2 /\ (forall j t, m2 = j :: t -> fuzzy_lt (fst v) (fst j) = true) /\ (m1 = l1 \/ exists m j, m1 = m ++ [j] /\ fuzzy_lt (fst v) (fst j) = false).
Proof.
  revert l1. induction l2 as [|j t IH]; intros l1 E; cbn in E.
  - injection E as <- <-. split; auto. split; [discriminate|auto].
  - destruct (fuzzy_lt (fst v) (fst j)) eqn:F.
    + injection E as <- <-. split; auto. split; [intros ? ? [= <- <-]; auto|auto].
    + destruct (IH _ E) as (A & B & C). rewrite <- app_assoc in A. split; auto. split; auto. right. destruct C as [->|C]; [eauto|auto].
Qed.
Lemma lin_insert_ok v l : set_insert v l (lin_insert v l).
Proof.
  unfold lin_insert. destruct (lin_at v [] l) as [m1 m2] eqn:E. destruct (lin_at_spec _ _ _ _ _ E) as (A & B & C). cbn in A. subst l.
  destruct (rev m1) as [|j r] eqn:R.
  - assert (m1 = []) by (rewrite <- (rev_involutive m1), R; auto). subst m1. apply (si_inserted v [] m2); [intros l j K; destruct l; discriminate|auto].
  - assert (E1 : m1 = rev r ++ [j]) by (rewrite <- (rev_involutive m1), R; auto).
    destruct (fuzzy_lt (fst j) (fst v)) eqn:F.
    + apply si_inserted; auto. intros l j' K. rewrite E1 in K. apply app_inj_tail in K as [_ <-]. auto.
    + apply (si_refused v _ j); auto.
      * apply in_or_app. left. rewrite E1. apply in_or_app. right. left. auto.
      * destruct C as [->|(m & j' & K & G)]; [destruct (rev r); discriminate|]. rewrite E1 in K. apply app_inj_tail in K as [_ ->]. auto.
Qed.
Lemma lin_fill_ok hs s : set_fill hs s (lin_fill hs s).
Proof. revert s. induction hs as [|v hs IH]; intros s; [constructor|]. cbn. econstructor; [apply lin_insert_ok|apply IH]. Qed.
