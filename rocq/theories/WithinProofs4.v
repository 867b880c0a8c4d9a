From Verif Require Import Base BaseFacts SerializeModel PLCSpec Plane PlaneFacts AreaModel AreaProofs MeshEditorModel WithinModel WithinSpec WithinProofs WithinProofs2 WithinProofs3.
From Coq Require Import QArith Qabs Lqa Permutation.
Local Open Scope Q_scope.

(* ---- affine functions, convex combinations, Helly's theorem in the plane ---- *)
Notation half := (Q * Q * Q)%type.
Definition val (h : half) (x : p2) : Q := let '(a, b, c) := h in a * fst x + b * snd x + c.
Definition edge_half (a b : p2) : half := (-(snd b - snd a), fst b - fst a, (snd b - snd a) * fst a - (fst b - fst a) * snd a).
Lemma val_edge a b x : val (edge_half a b) x == orient a b x.
Proof. unfold val, edge_half, orient. ring. Qed.

Lemma comb_val h ws ps : length ws = length ps -> sumf (fun w => w) ws == 1 ->
  val h (sumf (fun e => fst e * fst (snd e)) (combine ws ps), sumf (fun e => fst e * snd (snd e)) (combine ws ps)) == sumf (fun e => fst e * val h (snd e)) (combine ws ps).
Proof.
  intros L S. destruct h as [[a b] c]. unfold val at 1. cbn [fst snd].
  assert (G : forall k, a * sumf (fun e : Q * p2 => fst e * fst (snd e)) (combine ws ps) + b * sumf (fun e => fst e * snd (snd e)) (combine ws ps) + c * k * sumf (fun w => w) ws == sumf (fun e => fst e * (a * fst (snd e) + b * snd (snd e) + c * k)) (combine ws ps)).
  { clear S. intros k. revert ps L. induction ws as [|w ws IH]; intros [|p ps] L; try discriminate.
    - cbn [combine]. rewrite !sumf_nil. ring.
    - cbn [combine]. rewrite !sumf_cons. cbn [fst snd]. injection L as L. specialize (IH ps L). rewrite <- IH. ring. }
  specialize (G 1). rewrite S in G. unfold val. rewrite Qmult_1_r in G. setoid_replace c with (c * 1) at 1 by ring. rewrite G. apply sumf_ext. intros e _. ring.
Qed.
Lemma val_proper h x y : fst x == fst y -> snd x == snd y -> val h x == val h y.
Proof. destruct h as [[a b] c]. unfold val. intros -> ->. reflexivity. Qed.
Lemma combination_val h ps x : Combination ps x -> exists ws, length ws = length ps /\ (forall w, In w ws -> 0 <= w) /\ sumf (fun w => w) ws == 1 /\ val h x == sumf (fun e => fst e * val h (snd e)) (combine ws ps).
Proof.
  intros (ws & L & P & S & X & Y). exists ws. split; auto. split; auto. split; auto. rewrite <- (comb_val h ws ps L S). apply val_proper; auto.
Qed.
Lemma combination_ge h ps x : Combination ps x -> (forall p, In p ps -> 0 <= val h p) -> 0 <= val h x.
Proof.
  intros C H. destruct (combination_val h ps x C) as (ws & L & P & S & E). rewrite E. apply sumf_nonneg. intros [w p] I. cbn [fst snd].
  apply Qmult_le_0_compat; [apply P; eapply in_combine_l; eauto|apply H; eapply in_combine_r; eauto].
Qed.
Lemma combination_gt h ps x : Combination ps x -> (forall p, In p ps -> 0 < val h p) -> 0 < val h x.
Proof.
  intros C H. destruct (combination_val h ps x C) as (ws & L & P & S & E). rewrite E.
  assert (N : exists w, In w ws /\ 0 < w).
  { assert (G : 0 < sumf (fun w => w) ws) by (rewrite S; reflexivity). clear - G P. induction ws as [|w ws IH]; [cbn in G; lra|]. rewrite sumf_cons in G.
    destruct (Qlt_le_dec 0 w); [exists w; split; [left; auto|auto]|]. destruct IH as (w' & I & W); [intros; apply P; right; auto|lra|]. exists w'. split; [right; auto|auto]. }
  destruct N as (w & I & W). apply In_nth_error in I as [k I].
  destruct (nth_error_ex ps k) as [p Hp]; [rewrite <- L; eapply nth_error_lt; eauto|].
  assert (Ic : In (w, p) (combine ws ps)).
  { clear - I Hp. revert ps k I Hp. induction ws as [|a ws IH]; intros [|q ps] [|k] I Hp; try discriminate; cbn in *; [left; congruence|right; eauto]. }
  apply (sumf_pos _ _ (w, p)).
  - intros [w' p'] I'. cbn [fst snd]. apply Qmult_le_0_compat; [apply P; eapply in_combine_l; eauto|apply Qlt_le_weak, H; eapply in_combine_r; eauto].
  - exact Ic.
  - cbn [fst snd]. apply sign_pp; auto. apply H. eapply nth_error_In; eauto.
Qed.
Lemma comb_insert o b ps x : Combination (o :: ps) x -> Combination (o :: b :: ps) x.
Proof.
  intros (ws & L & P & S & X & Y). destruct ws as [|w ws]; [discriminate|]. exists (w :: 0 :: ws). cbn [length combine] in *. split; [lia|]. split.
  - intros v [<-|[<-|I]]; [apply P; left; auto|lra|apply P; right; auto].
  - rewrite !sumf_cons in *. cbn [fst snd] in *. split; [lra|]. split; [rewrite X|rewrite Y]; ring.
Qed.
Lemma comb_pad ps ps' x : Combination ps x -> Combination (ps ++ ps') x.
Proof.
  intros (ws & L & P & S & X & Y). exists (ws ++ repeat 0 (length ps')). rewrite !app_length, repeat_length. split; [lia|]. split; [|split].
  - intros w I. apply in_app_or in I as [I|I]; [auto|]. apply repeat_spec in I. subst. lra.
  - rewrite sumf_app, S. assert (Z : sumf (fun w => w) (repeat 0 (length ps')) == 0) by (induction (length ps'); cbn [repeat]; [reflexivity|rewrite sumf_cons, IHn; ring]). rewrite Z. ring.
  - assert (C : combine (ws ++ repeat 0 (length ps')) (ps ++ ps') = combine ws ps ++ combine (repeat 0 (length ps')) ps').
    { clear - L. revert ps L. induction ws as [|w ws IH]; intros [|p ps] L; try discriminate; auto. cbn. f_equal. apply IH. cbn in L. lia. }
    assert (Z : forall f : p2 -> Q, sumf (fun e => fst e * f (snd e)) (combine (repeat 0 (length ps')) ps') == 0).
    { intros f. clear. induction ps' as [|p ps' IH]; [reflexivity|]. cbn [length repeat combine]. rewrite sumf_cons, IH. cbn [fst]. ring. }
    rewrite C, !sumf_app, (Z fst), (Z snd), X, Y. split; ring.
Qed.
Lemma tri_comb a b c x : 0 < orient a b c -> 0 <= orient a b x -> 0 <= orient b c x -> 0 <= orient c a x -> Combination [a; b; c] x.
Proof.
  intros O A B C. set (D := orient a b c) in *.
  exists [orient b c x / D; orient c a x / D; orient a b x / D]. split; [reflexivity|]. split.
  - intros w I. assert (K : forall y, 0 <= y -> 0 <= y / D) by (intros; apply Qle_shift_div_l; lra).
    destruct I as [<-|[<-|[<-|[]]]]; apply K; auto.
  - cbn [combine]. rewrite !sumf_cons, !sumf_nil. cbn [fst snd].
    assert (N : ~ D == 0) by lra. unfold Qdiv. 
    assert (E : forall u v w, u * / D + (v * / D + (w * / D + 0)) == (u + v + w) * / D) by (intros; ring).
    split; [rewrite E; setoid_replace (orient b c x + orient c a x + orient a b x) with D by (unfold D, orient; ring); apply Qmult_inv_r; auto|].
    split.
    + setoid_replace (orient b c x * / D * fst a + (orient c a x * / D * fst b + (orient a b x * / D * fst c + 0))) with ((orient b c x * fst a + orient c a x * fst b + orient a b x * fst c) * / D) by ring.
      setoid_replace (orient b c x * fst a + orient c a x * fst b + orient a b x * fst c) with (fst x * D) by (unfold D, orient; ring). rewrite <- Qmult_assoc, Qmult_inv_r by auto. ring.
    + setoid_replace (orient b c x * / D * snd a + (orient c a x * / D * snd b + (orient a b x * / D * snd c + 0))) with ((orient b c x * snd a + orient c a x * snd b + orient a b x * snd c) * / D) by ring.
      setoid_replace (orient b c x * snd a + orient c a x * snd b + orient a b x * snd c) with (snd x * D) by (unfold D, orient; ring). rewrite <- Qmult_assoc, Qmult_inv_r by auto. ring.
Qed.
Lemma polygon_comb ps x : StrictlyConvex ps -> (3 <= length ps)%nat -> InPolygon x ps -> Combination ps x.
Proof.
  destruct ps as [|o [|b [|c t]]]; try (cbn; lia). intros V _. revert b c V. induction t as [|d t IH]; intros b c V I.
  - apply tri_comb; [apply (V 0 1 2)%nat; auto; lia|apply I; cbn; auto ..].
  - destruct (ring_step o b c (d :: t)) as (r & R1 & R2). unfold InPolygon in I. rewrite R2 in I.
    destruct (Qlt_le_dec (orient o c x) 0) as [L|L].
    + change (o :: b :: c :: d :: t) with ([o; b; c] ++ d :: t). apply comb_pad. apply tri_comb.
      * apply (V 0 1 2)%nat; auto; lia.
      * apply I. left. auto.
      * apply I. right. left. auto.
      * rewrite orient_swap. lra.
    + apply comb_insert. apply IH; [exact (convex_tail _ _ _ _ V)|]. unfold InPolygon. rewrite R1. intros u v [[= <- <-]|J]; auto. apply I. right. right. auto.
Qed.
Lemma comb_polygon ps x : StrictlyConvex ps -> Combination ps x -> InPolygon x ps.
Proof.
  intros V C a b I. rewrite <- val_edge. apply (combination_ge _ ps); auto. intros p P. rewrite val_edge. apply (convex_edge_le ps); auto.
Qed.

(* Radon: four points of the plane have a nontrivial dependence *)
Lemma radon_dep (p1 p2 p3 p4 : Q * Q) : exists l1 l2 l3 l4, (0 < l1 \/ 0 < l2 \/ 0 < l3 \/ 0 < l4) /\ l1 + l2 + l3 + l4 == 0 /\
  l1 * fst p1 + l2 * fst p2 + l3 * fst p3 + l4 * fst p4 == 0 /\ l1 * snd p1 + l2 * snd p2 + l3 * snd p3 + l4 * snd p4 == 0.
Proof.
  (* it is enough to find a dependence that is not zero *)
  assert (W : forall l1 l2 l3 l4, ~ (l1 == 0 /\ l2 == 0 /\ l3 == 0 /\ l4 == 0) -> l1 + l2 + l3 + l4 == 0 -> 0 < l1 \/ 0 < l2 \/ 0 < l3 \/ 0 < l4).
  { intros l1 l2 l3 l4 N S. destruct (Qlt_le_dec 0 l1); auto. destruct (Qlt_le_dec 0 l2); auto. destruct (Qlt_le_dec 0 l3); auto. destruct (Qlt_le_dec 0 l4); auto. exfalso. apply N. repeat split; lra. }
  set (D := fun l1 l2 l3 l4 => l1 + l2 + l3 + l4 == 0 /\ l1 * fst p1 + l2 * fst p2 + l3 * fst p3 + l4 * fst p4 == 0 /\ l1 * snd p1 + l2 * snd p2 + l3 * snd p3 + l4 * snd p4 == 0).
  assert (G : exists l1 l2 l3 l4, ~ (l1 == 0 /\ l2 == 0 /\ l3 == 0 /\ l4 == 0) /\ D l1 l2 l3 l4).
  { destruct (Qeq_dec (orient p1 p2 p3) 0) as [Z|Z].
    - destruct (Qeq_dec (fst p1) (fst p2)) as [X|X]; [destruct (Qeq_dec (snd p1) (snd p2)) as [Y|Y]|].
      + exists 1, (-(1)), 0, 0. split; [intros (A & _); discriminate|]. unfold D. rewrite X, Y. repeat split; ring.
      + set (t := (snd p3 - snd p1) / (snd p2 - snd p1)). assert (E : t * (snd p2 - snd p1) == snd p3 - snd p1) by (unfold t; rewrite Qmult_comm, Qmult_div_r; lra).
        exists (1 - t), t, (-(1)), 0. split; [intros (_ & _ & A & _); discriminate|]. unfold D.
        assert (F : fst p3 == fst p1). { assert (H : (snd p2 - snd p1) * (fst p3 - fst p1) == 0) by (unfold orient in Z; rewrite <- X in Z; lra). apply Qmult_integral in H as [H|H]; lra. }
        split; [ring|]. split; [rewrite F, <- X; ring|lra].
      + set (t := (fst p3 - fst p1) / (fst p2 - fst p1)). assert (E : t * (fst p2 - fst p1) == fst p3 - fst p1) by (unfold t; rewrite Qmult_comm, Qmult_div_r; lra).
        exists (1 - t), t, (-(1)), 0. split; [intros (_ & _ & A & _); discriminate|]. unfold D. split; [ring|]. split; [lra|].
        assert (F : (fst p2 - fst p1) * (snd p1 + t * (snd p2 - snd p1) - snd p3) == 0).
        { unfold orient in Z. setoid_replace ((fst p2 - fst p1) * (snd p1 + t * (snd p2 - snd p1) - snd p3)) with ((t * (fst p2 - fst p1)) * (snd p2 - snd p1) - (fst p2 - fst p1) * (snd p3 - snd p1)) by ring. rewrite E. lra. }
        apply Qmult_integral in F as [F|F]; lra.
    - exists (orient p2 p3 p4), (- orient p1 p3 p4), (orient p1 p2 p4), (- orient p1 p2 p3). split; [intros (_ & _ & _ & A); apply Z; lra|]. unfold D, orient. repeat split; ring. }
  destruct G as (l1 & l2 & l3 & l4 & N & S & X & Y). exists l1, l2, l3, l4. auto.
Qed.
Definition pos (x : Q) : Q := if Qlt_le_dec 0 x then x else 0.
Lemma pos_nonneg x : 0 <= pos x.
Proof. unfold pos. destruct (Qlt_le_dec 0 x); lra. Qed.
Lemma pos_split x : x == pos x - pos (- x).
Proof. unfold pos. destruct (Qlt_le_dec 0 x), (Qlt_le_dec 0 (- x)); lra. Qed.
Lemma pos_zero x : x <= 0 -> pos x == 0.
Proof. unfold pos. destruct (Qlt_le_dec 0 x); lra. Qed.
(* a point that lies in the hull of either side of the partition *)
Lemma radon (q1 q2 q3 q4 : Q * Q) : exists x, forall h (k : nat), (k = 1%nat \/ 0 <= val h q1) -> (k = 2%nat \/ 0 <= val h q2) -> (k = 3%nat \/ 0 <= val h q3) -> (k = 4%nat \/ 0 <= val h q4) -> 0 <= val h x.
Proof.
  destruct (radon_dep q1 q2 q3 q4) as (l1 & l2 & l3 & l4 & N & S & X & Y).
  set (s := pos l1 + pos l2 + pos l3 + pos l4).
  pose proof (pos_nonneg l1) as A1. pose proof (pos_nonneg l2) as A2. pose proof (pos_nonneg l3) as A3. pose proof (pos_nonneg l4) as A4.
  assert (Sp : 0 < s).
  { unfold s. assert (K : forall x, 0 < x -> pos x == x) by (intros x Hx; unfold pos; destruct (Qlt_le_dec 0 x); lra).
    destruct N as [H|[H|[H|H]]]; pose proof (K _ H); lra. }
  set (x := ((pos l1 * fst q1 + pos l2 * fst q2 + pos l3 * fst q3 + pos l4 * fst q4) / s, (pos l1 * snd q1 + pos l2 * snd q2 + pos l3 * snd q3 + pos l4 * snd q4) / s)).
  exists x. intros h k H1 H2 H3 H4. destruct h as [[a b] c].
  assert (F1 : s * val (a, b, c) x == pos l1 * val (a, b, c) q1 + pos l2 * val (a, b, c) q2 + pos l3 * val (a, b, c) q3 + pos l4 * val (a, b, c) q4).
  { unfold val. unfold x. cbn [fst snd].
    set (u := (pos l1 * fst q1 + pos l2 * fst q2 + pos l3 * fst q3 + pos l4 * fst q4) / s). set (w := (pos l1 * snd q1 + pos l2 * snd q2 + pos l3 * snd q3 + pos l4 * snd q4) / s).
    assert (U : s * u == pos l1 * fst q1 + pos l2 * fst q2 + pos l3 * fst q3 + pos l4 * fst q4) by (unfold u; apply Qmult_div_r; lra).
    assert (V : s * w == pos l1 * snd q1 + pos l2 * snd q2 + pos l3 * snd q3 + pos l4 * snd q4) by (unfold w; apply Qmult_div_r; lra).
    setoid_replace (s * (a * u + b * w + c)) with (a * (s * u) + b * (s * w) + s * c) by ring. rewrite U, V. unfold s. ring. }
  assert (F2 : s * val (a, b, c) x == pos (- l1) * val (a, b, c) q1 + pos (- l2) * val (a, b, c) q2 + pos (- l3) * val (a, b, c) q3 + pos (- l4) * val (a, b, c) q4).
  { rewrite F1. pose proof (pos_split l1) as E1. pose proof (pos_split l2) as E2. pose proof (pos_split l3) as E3. pose proof (pos_split l4) as E4.
    assert (Z : l1 * val (a, b, c) q1 + l2 * val (a, b, c) q2 + l3 * val (a, b, c) q3 + l4 * val (a, b, c) q4 == 0).
    { unfold val. setoid_replace (l1 * (a * fst q1 + b * snd q1 + c) + l2 * (a * fst q2 + b * snd q2 + c) + l3 * (a * fst q3 + b * snd q3 + c) + l4 * (a * fst q4 + b * snd q4 + c))
        with (a * (l1 * fst q1 + l2 * fst q2 + l3 * fst q3 + l4 * fst q4) + b * (l1 * snd q1 + l2 * snd q2 + l3 * snd q3 + l4 * snd q4) + c * (l1 + l2 + l3 + l4)) by ring. rewrite X, Y, S. ring. }
    set (v1 := val (a, b, c) q1) in *. set (v2 := val (a, b, c) q2) in *. set (v3 := val (a, b, c) q3) in *. set (v4 := val (a, b, c) q4) in *.
    assert (Z' : (pos l1 - pos (- l1)) * v1 + (pos l2 - pos (- l2)) * v2 + (pos l3 - pos (- l3)) * v3 + (pos l4 - pos (- l4)) * v4 == 0) by (rewrite <- E1, <- E2, <- E3, <- E4; auto). lra. }
  pose proof (pos_nonneg (- l1)) as B1. pose proof (pos_nonneg (- l2)) as B2. pose proof (pos_nonneg (- l3)) as B3. pose proof (pos_nonneg (- l4)) as B4.
  set (v1 := val (a, b, c) q1) in *. set (v2 := val (a, b, c) q2) in *. set (v3 := val (a, b, c) q3) in *. set (v4 := val (a, b, c) q4) in *.
  assert (Fin : 0 <= s * val (a, b, c) x -> 0 <= val (a, b, c) x).
  { intros H. apply (Qmult_le_l _ _ s Sp). lra. }
  apply Fin. clear Fin.
  (* the point k left out has weight zero on one of the two sides *)
  assert (T : forall l v w : Q, 0 <= w -> (w == 0 \/ 0 <= v) -> 0 <= w * v) by (intros l v w Hw [Hz|Hv]; [rewrite Hz; lra|apply Qmult_le_0_compat; auto]).
  set (lk := match k with 1%nat => l1 | 2%nat => l2 | 3%nat => l3 | 4%nat => l4 | _ => 0 end).
  destruct (Qlt_le_dec 0 lk) as [P|P].
  - rewrite F2. assert (0 <= pos (- l1) * v1) by (apply (T l1); auto; destruct H1 as [->|]; auto; left; apply pos_zero; unfold lk in P; lra).
    assert (0 <= pos (- l2) * v2) by (apply (T l2); auto; destruct H2 as [->|]; auto; left; apply pos_zero; unfold lk in P; lra).
    assert (0 <= pos (- l3) * v3) by (apply (T l3); auto; destruct H3 as [->|]; auto; left; apply pos_zero; unfold lk in P; lra).
    assert (0 <= pos (- l4) * v4) by (apply (T l4); auto; destruct H4 as [->|]; auto; left; apply pos_zero; unfold lk in P; lra). lra.
  - rewrite F1. assert (0 <= pos l1 * v1) by (apply (T l1); auto; destruct H1 as [->|]; auto; left; apply pos_zero; unfold lk in P; lra).
    assert (0 <= pos l2 * v2) by (apply (T l2); auto; destruct H2 as [->|]; auto; left; apply pos_zero; unfold lk in P; lra).
    assert (0 <= pos l3 * v3) by (apply (T l3); auto; destruct H3 as [->|]; auto; left; apply pos_zero; unfold lk in P; lra).
    assert (0 <= pos l4 * v4) by (apply (T l4); auto; destruct H4 as [->|]; auto; left; apply pos_zero; unfold lk in P; lra). lra.
Qed.
Lemma helly (hs : list half) : (forall f g h, In f hs -> In g hs -> In h hs -> exists x, 0 <= val f x /\ 0 <= val g x /\ 0 <= val h x) ->
  exists x, forall h, In h hs -> 0 <= val h x.
Proof.
  remember (length hs) as n eqn:En. revert hs En. induction n as [n IHn] using lt_wf_ind. intros hs En H.
  destruct hs as [|h1 [|h2 [|h3 [|h4 r]]]].
  - exists (0, 0). intros h [].
  - destruct (H h1 h1 h1) as (x & A & _); cbn; auto. exists x. intros h [<-|[]]; auto.
  - destruct (H h1 h2 h2) as (x & A & B & _); cbn; auto. exists x. intros h [<-|[<-|[]]]; auto.
  - destruct (H h1 h2 h3) as (x & A & B & C); cbn; auto. exists x. intros h [<-|[<-|[<-|[]]]]; auto.
  - cbn [length] in En.
    assert (G : forall l, (length l < n)%nat -> (forall h, In h l -> In h (h1 :: h2 :: h3 :: h4 :: r)) -> exists x, forall h, In h l -> 0 <= val h x).
    { intros l L Sub. apply (IHn (length l) L l eq_refl). intros f g h F G' K. apply H; auto. }
    destruct (G (h2 :: h3 :: h4 :: r)) as [x1 X1]; [cbn [length]; lia|cbn; tauto|].
    destruct (G (h1 :: h3 :: h4 :: r)) as [x2 X2]; [cbn [length]; lia|cbn; tauto|].
    destruct (G (h1 :: h2 :: h4 :: r)) as [x3 X3]; [cbn [length]; lia|cbn; tauto|].
    destruct (G (h1 :: h2 :: h3 :: r)) as [x4 X4]; [cbn [length]; lia|cbn; tauto|].
    destruct (radon x1 x2 x3 x4) as [x X]. exists x. intros h [<-|[<-|[<-|[<-|I]]]]; [pose proof (X h1) as K1|pose proof (X h2) as K2|pose proof (X h3) as K3|pose proof (X h4) as K4|pose proof (X h) as K].
    + apply (K1 1%nat); [left; auto|right; apply X2|right; apply X3|right; apply X4]; cbn; auto.
    + apply (K2 2%nat); [right; apply X1|left; auto|right; apply X3|right; apply X4]; cbn; auto.
    + apply (K3 3%nat); [right; apply X1|right; apply X2|left; auto|right; apply X4]; cbn; auto.
    + apply (K4 4%nat); [right; apply X1|right; apply X2|right; apply X3|left; auto]; cbn; auto.
    + apply (K 0%nat); right; [apply X1|apply X2|apply X3|apply X4]; cbn; auto.
Qed.

(* ---- the routines ---- *)
Lemma sgnZ_cases x : (x < 0 /\ sgnZ x = (-1)%Z) \/ (0 < x /\ sgnZ x = 1%Z) \/ (x == 0 /\ sgnZ x = 0%Z).
Proof. unfold sgnZ. destruct (qltb_spec x 0); auto. destruct (qltb_spec 0 x); auto. right. right. split; auto. lra. Qed.
Lemma above_left a b p : aboveBelow a b p = (-1)%Z <-> 0 < orient a b p.
Proof. unfold aboveBelow. change ((fst b - fst a) * (snd p - snd a) - (snd b - snd a) * (fst p - fst a)) with (orient a b p). destruct (sgnZ_cases (orient a b p)) as [[H ->]|[[H ->]|[H ->]]]; split; intros; try lra; try lia; discriminate. Qed.
Lemma above_right a b p : aboveBelow a b p = 1%Z <-> orient a b p < 0.
Proof. unfold aboveBelow. change ((fst b - fst a) * (snd p - snd a) - (snd b - snd a) * (fst p - fst a)) with (orient a b p). destruct (sgnZ_cases (orient a b p)) as [[H ->]|[[H ->]|[H ->]]]; split; intros; try lra; try lia; discriminate. Qed.
Lemma cloud_ok {A} (f : A -> Z) l : l <> [] -> exists s, cloud f l = Ok s /\ forall v, v <> 0%Z -> (s = v <-> forall q, In q l -> f q = v).
Proof.
  intros N. destruct l as [|p t]; [contradiction|]. cbn [cloud]. eexists. split; [reflexivity|]. intros v V. destruct (forallb _ t) eqn:E.
  - rewrite forallb_forall in E. split; [|intros H; apply H; left; auto]. intros H q [<-|I]; auto. specialize (E q I). apply Z.eqb_eq in E. congruence.
  - split; [intros; congruence|]. intros H. exfalso. assert (E' : forallb (fun q => (f p =? f q)%Z) t = true); [|congruence].
    apply forallb_forall. intros q I. apply Z.eqb_eq. rewrite (H p (or_introl eq_refl)), (H q (or_intror I)). auto.
Qed.
Definition flat2 (qs : list p2) : list Q := flat_map (fun q => [fst q; snd q]) qs.
Lemma pairs_flat qs : pairs (flat2 qs) = qs.
Proof. induction qs as [|[x y] qs IH]; cbn; auto. f_equal. exact IH. Qed.
Lemma flat2_length qs : length (flat2 qs) = (2 * length qs)%nat.
Proof. induction qs as [|q qs IH]; auto. unfold flat2 in *. cbn [flat_map app length]. rewrite IH. lia. Qed.
Lemma flat2_even qs : (length (flat2 qs) mod 2 =? 0)%nat = true.
Proof. rewrite flat2_length, Nat.mul_comm, Nat.mod_mul by lia. auto. Qed.
Lemma ab_cloud a b qs : qs <> [] -> exists s, aboveBelow_cloud a b (flat2 qs) = Ok s /\ forall v, v <> 0%Z -> (s = v <-> forall q, In q qs -> aboveBelow a b q = v).
Proof.
  intros N. unfold aboveBelow_cloud. rewrite flat2_even. cbn [assert bind]. rewrite flat2_length.
  assert (E : (1 <? 2 * length qs)%nat = true) by (apply Nat.ltb_lt; destruct qs; [contradiction|cbn [length]; lia]). rewrite E. cbn [assert bind]. rewrite pairs_flat. apply cloud_ok. auto.
Qed.
Lemma corner2_ok pts z p f k : pt_at pts z p -> nth_error f k = Some z -> corner2 pts (length pts / 2) f k = Ok p.
Proof.
  intros (P & X & Y) K. unfold corner2, get. rewrite K. cbn [bind]. pose proof (nth_error_lt _ _ _ Y) as L.
  rewrite (proj2 (Z.leb_le _ _) P). assert (Lt : (Z.to_nat z <? length pts / 2)%nat = true) by (apply Nat.ltb_lt; apply Nat.div_le_lower_bound; lia).
  rewrite Lt. cbn [andb assert bind]. rewrite X. cbn [bind]. rewrite Y. cbn [bind]. destruct p; auto.
Qed.
Definition facet_of (pts : list Q) (f : list Z) (e : p2 * p2) : Prop := exists i j, f = [i; j] /\ pt_at pts i (fst e) /\ pt_at pts j (snd e).
Lemma excludes_ok a es b qs : Forall2 (facet_of (rpoints a)) (rfacets a) es -> rpoints b = flat2 qs -> qs <> [] ->
  exists o, excludes a b = Ok o /\ (o = true <-> exists e, In e es /\ forall q, In q qs -> orient (fst e) (snd e) q < 0).
Proof.
  intros F B N. unfold excludes. match goal with |- context [mfold ?g _ _] => set (step := g) end.
  assert (G : forall fs es, Forall2 (facet_of (rpoints a)) fs es -> forall o0, exists o, mfold step fs o0 = Ok o /\ (o = true <-> o0 = true \/ exists e, In e es /\ forall q, In q qs -> orient (fst e) (snd e) q < 0)).
  { clear F es. intros fs es F. induction F as [|f e fs es (i & j & -> & I & J) F IH]; intros o0.
    - exists o0. split; auto. split; auto. intros [H|(e & [] & _)]; auto.
    - cbn [mfold]. destruct o0.
      + unfold step at 1. cbn [bind]. destruct (IH true) as (o & E & H). exists o. split; auto. split; auto. intros _. apply H. auto.
      + unfold step at 1. rewrite (corner2_ok _ i _ [i; j] 0%nat I eq_refl), (corner2_ok _ j _ [i; j] 1%nat J eq_refl). cbn [bind]. rewrite B.
        destruct (ab_cloud (fst e) (snd e) qs N) as (s & Es & Hs). rewrite Es. cbn [bind]. destruct (IH (s =? 1)%Z) as (o & E & H). exists o. split; auto. rewrite H, Z.eqb_eq, (Hs 1%Z) by discriminate.
        split.
        * intros [K|(e' & I' & K)]; right; [exists e; split; [left; auto|intros q Q'; apply above_right; auto]|exists e'; split; [right; auto|auto]].
        * intros [K|(e' & [<-|I'] & K)]; [discriminate|left; intros q Q'; apply above_right; auto|right; exists e'; auto]. }
  destruct (G _ _ F false) as (o & E & H). exists o. split; auto. rewrite H. split; [intros [K|K]; [discriminate|auto]|auto].
Qed.
Lemma within_ok a b es qs : Forall2 (facet_of (rpoints b)) (rfacets b) es -> rpoints a = flat2 qs -> qs <> [] ->
  exists o, convexWithin a b = Ok o /\ (o = true <-> forall e q, In e es -> In q qs -> 0 < orient (fst e) (snd e) q).
Proof.
  intros F A N. unfold convexWithin. match goal with |- context [mfold ?g _ _] => set (step := g) end.
  assert (G : forall fs es, Forall2 (facet_of (rpoints b)) fs es -> forall o0, exists o, mfold step fs o0 = Ok o /\ (o = true <-> o0 = true /\ forall e q, In e es -> In q qs -> 0 < orient (fst e) (snd e) q)).
  { clear F es. intros fs es F. induction F as [|f e fs es (i & j & -> & I & J) F IH]; intros o0.
    - exists o0. split; auto. split; [intros H; split; auto; intros e q []|tauto].
    - cbn [mfold]. destruct o0.
      + unfold step at 1. rewrite (corner2_ok _ i _ [i; j] 0%nat I eq_refl), (corner2_ok _ j _ [i; j] 1%nat J eq_refl). cbn [bind]. rewrite A.
        destruct (ab_cloud (fst e) (snd e) qs N) as (s & Es & Hs). rewrite Es. cbn [bind]. destruct (IH (s =? -1)%Z) as (o & E & H). exists o. split; auto. rewrite H, Z.eqb_eq, (Hs (-1)%Z) by discriminate.
        split.
        * intros [K L]. split; auto. intros e' q [<-|I'] Q'; [apply above_left; auto|auto].
        * intros [_ K]. split; [intros q Q'; apply above_left; apply K; [left; auto|auto]|intros e' q I' Q'; apply K; [right; auto|auto]].
      + unfold step at 1. cbn [bind]. destruct (IH false) as (o & E & H). exists o. split; auto. rewrite H. split; intros [K _]; discriminate. }
  destruct (G _ _ F true) as (o & E & H). exists o. split; auto. rewrite H. split; [tauto|auto].
Qed.
Lemma comb_perm_in ps qs : Permutation qs ps -> forall h x, Combination qs x -> (forall p, In p ps -> 0 < val h p) -> 0 < val h x.
Proof. intros P h x C H. apply (combination_gt h qs x C). intros p I. apply H. eapply Permutation_in; eauto. Qed.
Lemma comb_corner ps p : In p ps -> Combination ps p.
Proof.
  intros I. apply in_split in I as (l1 & l2 & ->). exists (repeat 0 (length l1) ++ 1 :: repeat 0 (length l2)). rewrite !app_length. cbn [length]. rewrite !repeat_length. split; [auto|]. split; [|split].
  - intros w W. apply in_app_or in W as [W|[<-|W]]; [apply repeat_spec in W; subst; lra|lra|apply repeat_spec in W; subst; lra].
  - assert (Z : forall n, sumf (fun w => w) (repeat 0 n) == 0) by (induction n; cbn [repeat]; [reflexivity|rewrite sumf_cons, IHn; ring]). rewrite sumf_app, sumf_cons, !Z. ring.
  - assert (C : forall (l l' : list Q) (k k' : list p2), length l = length k -> combine (l ++ l') (k ++ k') = combine l k ++ combine l' k').
    { clear. induction l as [|w ws IH]; intros l' [|p ps] k' L; try discriminate; auto. cbn. f_equal. apply IH. cbn in L. lia. }
    assert (Z : forall (f : p2 -> Q) l, sumf (fun e => fst e * f (snd e)) (combine (repeat 0 (length l)) l) == 0).
    { clear. intros f l. induction l as [|p l IH]; [reflexivity|]. cbn [length repeat combine]. rewrite sumf_cons, IH. cbn [fst]. ring. }
    rewrite C by (rewrite repeat_length; auto). cbn [combine]. rewrite !sumf_app, !sumf_cons, !(Z fst), !(Z snd). cbn [fst snd]. split; ring.
Qed.

Lemma intersect_ok a b ps qs : HoldsPolygon a ps -> HoldsPolygon b qs -> StrictlyConvex ps -> StrictlyConvex qs -> (3 <= length ps)%nat -> (3 <= length qs)%nat ->
  exists o, convexIntersect a b = Ok o /\ (o = true <-> exists x, InPolygon x ps /\ InPolygon x qs).
Proof.
  intros ((pa & Pa & Ra) & ea & Ea & Fa) ((pb & Pb & Rb) & eb & Eb & Fb) Va Vb La Lb.
  assert (Na : pa <> []). { intros ->. apply Permutation_nil in Pa. subst. cbn in La. lia. }
  assert (Nb : pb <> []). { intros ->. apply Permutation_nil in Pb. subst. cbn in Lb. lia. }
  destruct (excludes_ok a ea b pb Fa Rb Nb) as (o1 & E1 & H1). destruct (excludes_ok b eb a pa Fb Ra Na) as (o2 & E2 & H2).
  assert (Sep : forall (ps qs pb : list p2) ea, StrictlyConvex qs -> (3 <= length qs)%nat -> Permutation pb qs -> Permutation ea (ring ps) ->
     (exists e, In e ea /\ forall q, In q pb -> orient (fst e) (snd e) q < 0) -> forall x, InPolygon x ps -> InPolygon x qs -> False).
  { clear. intros ps qs pb ea V L Pb Ea (e & I & H) x X Y. pose proof (polygon_comb qs x V L Y) as C.
    assert (P : 0 < val (edge_half (snd e) (fst e)) x).
    { apply (combination_gt _ qs x C). intros q Q'. rewrite val_edge, orient_swap. assert (orient (fst e) (snd e) q < 0); [apply H; eapply Permutation_in; [symmetry; exact Pb|auto]|lra]. }
    rewrite val_edge, orient_swap in P. destruct e as [u v]. cbn [fst snd] in *. pose proof (X u v (Permutation_in _ Ea I)). lra. }
  unfold convexIntersect. rewrite E1. cbn [bind]. destruct o1.
  - exists false. split; auto. split; [discriminate|]. intros (x & X & Y). exfalso. apply (Sep ps qs pb ea Vb Lb Pb Ea (proj1 H1 eq_refl) x); auto.
  - rewrite E2. cbn [bind]. exists (negb o2). split; auto. destruct o2; cbn [negb].
    + split; [discriminate|]. intros (x & X & Y). exfalso. apply (Sep qs ps pa eb Va La Pa Eb (proj1 H2 eq_refl) x); auto.
    + split; auto. intros _.
      assert (K1 : forall u v, In (u, v) (ring ps) -> exists q, In q qs /\ 0 <= orient u v q).
      { intros u v I. destruct (existsb (fun q => Qle_bool 0 (orient u v q)) qs) eqn:Ex.
        - apply existsb_exists in Ex as (q & Q' & L). exists q. split; auto. apply Qle_bool_iff. auto.
        - exfalso. assert (false = true); [|discriminate]. apply H1. exists (u, v). split; [eapply Permutation_in; [symmetry; exact Ea|auto]|]. intros q Q'. cbn [fst snd].
          apply Qnot_le_lt. intros L. assert (existsb (fun q => Qle_bool 0 (orient u v q)) qs = true); [|congruence]. apply existsb_exists. exists q. split; [eapply Permutation_in; eauto|apply Qle_bool_iff; auto]. }
      assert (K2 : forall u v, In (u, v) (ring qs) -> exists q, In q ps /\ 0 <= orient u v q).
      { intros u v I. destruct (existsb (fun q => Qle_bool 0 (orient u v q)) ps) eqn:Ex.
        - apply existsb_exists in Ex as (q & Q' & L). exists q. split; auto. apply Qle_bool_iff. auto.
        - exfalso. assert (false = true); [|discriminate]. apply H2. exists (u, v). split; [eapply Permutation_in; [symmetry; exact Eb|auto]|]. intros q Q'. cbn [fst snd].
          apply Qnot_le_lt. intros L. assert (existsb (fun q => Qle_bool 0 (orient u v q)) ps = true); [|congruence]. apply existsb_exists. exists q. split; [eapply Permutation_in; eauto|apply Qle_bool_iff; auto]. }
      destruct (helly (map (fun e => edge_half (fst e) (snd e)) (ring ps) ++ map (fun e => edge_half (fst e) (snd e)) (ring qs))) as [x X].
      * assert (C1 : forall h, In h (map (fun e => edge_half (fst e) (snd e)) (ring ps)) -> (forall p, In p ps -> 0 <= val h p) /\ exists q, In q qs /\ 0 <= val h q).
        { intros h I. apply in_map_iff in I as ([u v] & <- & I). cbn [fst snd]. split; [intros p P; rewrite val_edge; apply (convex_edge_le ps); auto|].
          destruct (K1 u v I) as (q & Q' & L). exists q. split; auto. rewrite val_edge. auto. }
        assert (C2 : forall h, In h (map (fun e => edge_half (fst e) (snd e)) (ring qs)) -> (forall p, In p qs -> 0 <= val h p) /\ exists q, In q ps /\ 0 <= val h q).
        { intros h I. apply in_map_iff in I as ([u v] & <- & I). cbn [fst snd]. split; [intros p P; rewrite val_edge; apply (convex_edge_le qs); auto|].
          destruct (K2 u v I) as (q & Q' & L). exists q. split; auto. rewrite val_edge. auto. }
        assert (Ip : exists p, In p ps) by (destruct ps; [cbn in La; lia|eexists; left; reflexivity]). destruct Ip as [p0 Ip].
        assert (Iq : exists p, In p qs) by (destruct qs; [cbn in Lb; lia|eexists; left; reflexivity]). destruct Iq as [q0 Iq].
        intros f g h F G H. apply in_app_or in F. apply in_app_or in G. apply in_app_or in H.
        destruct F as [F|F], G as [G|G], H as [H|H];
          [apply C1 in F as [F F'], G as [G G'], H as [H H']; exists p0; auto
          |apply C1 in F as [F F'], G as [G G']; apply C2 in H as [H (p & P & H')]; exists p; auto
          |apply C1 in F as [F F'], H as [H H']; apply C2 in G as [G (p & P & G')]; exists p; auto
          |apply C2 in G as [G G'], H as [H H']; apply C1 in F as [F (p & P & F')]; exists p; auto
          |apply C1 in G as [G G'], H as [H H']; apply C2 in F as [F (p & P & F')]; exists p; auto
          |apply C2 in F as [F F'], H as [H H']; apply C1 in G as [G (p & P & G')]; exists p; auto
          |apply C2 in F as [F F'], G as [G G']; apply C1 in H as [H (p & P & H')]; exists p; auto
          |apply C2 in F as [F F'], G as [G G'], H as [H H']; exists q0; auto].
      * exists x. split; intros u v I; rewrite <- val_edge; apply X; apply in_or_app; [left|right]; apply in_map_iff; exists (u, v); auto.
Qed.
