(* Theorems about the comparators (C98) and about points on the integer grid (C99). *)
From Coq Require Import QArith Qabs Lqa.
From Verif Require Import Base BaseFacts Plane MeshEditorModel HullModel VoroModel PointModel PointSpec.
Local Open Scope Z_scope.

Ltac cmp := repeat match goal with
  | H : context [if ?b then _ else _] |- _ => destruct b eqn:?
  | |- context [if ?b then _ else _] => destruct b eqn:?
  end; rewrite ?andb_true_iff, ?andb_false_iff, ?orb_true_iff, ?orb_false_iff in *.

(* ------------------------------------------------------------ C98 *)
Lemma lex2 x y x' y' : (if x <? x' then true else if (x =? x') && (y <? y') then true else false) = true <-> x < x' \/ (x = x' /\ y < y').
Proof. destruct (x <? x') eqn:A, (x =? x') eqn:B, (y <? y') eqn:C; cbn; split; intros; try lia; try discriminate; auto. Qed.
Lemma false_iff b P : (b = true <-> P) -> (b = false <-> ~ P).
Proof. destruct b; intros H; split; intros K; try discriminate; [destruct K; apply H; auto|intros p; apply H in p; discriminate|reflexivity]. Qed.

Section Lift.
  Context {A : Type} (lt : A -> A -> bool) (L : A -> A -> Prop) (eq : A -> A -> Prop).
  Context (H : forall a b, lt a b = true <-> L a b).
  Lemma order_of : (forall a, ~ L a a) -> (forall a b c, L a b -> L b c -> L a c) ->
    (forall a b c, ~ L a b -> ~ L b a -> ~ L b c -> ~ L c b -> ~ L a c /\ ~ L c a) -> (forall a b, ~ L a b /\ ~ L b a <-> eq a b) -> OrderOf eq lt.
  Proof using H.
    intros I T E Q. assert (F : forall a b, lt a b = false <-> ~ L a b) by (intros; apply false_iff; auto).
    split; [constructor|].
    - intros a. apply F, I.
    - intros a b c X Y. apply H in X, Y. apply H. eauto.
    - intros a b c X1 X2 X3 X4. apply F in X1, X2, X3, X4. rewrite !F. eauto.
    - intros a b. rewrite !F. apply Q.
  Qed.
End Lift.

(* The comparisons of points, segments, edges and pairs are strict weak orderings; values are
   equivalent exactly if they are equal (for points: operator==, which ignores the index). *)
Theorem points_ordered :
  OrderOf (fun a b => p2_eq a b = true) p2_lt /\ OrderOf (fun a b => p3_eq a b = true) p3_lt /\ OrderOf (fun s t => seg_eq s t = true) seg_lt.
Proof.
  assert (P2 : forall a b, p2_lt a b = true <-> px a < px b \/ (px a = px b /\ py a < py b)) by (intros; apply lex2).
  assert (E2 : forall a b, p2_eq a b = true <-> px a = px b /\ py a = py b) by (intros; unfold p2_eq; rewrite andb_true_iff; lia).
  split; [|split].
  - apply (order_of _ _ _ P2); intros; rewrite ?E2; lia.
  - assert (P3 : forall a b, p3_lt a b = true <-> qx a < qx b \/ (qx a = qx b /\ qy a < qy b) \/ (qx a = qx b /\ qy a = qy b /\ qz a < qz b)).
    { intros a b. unfold p3_lt. destruct (qx a <? qx b) eqn:A, (qx a =? qx b) eqn:B, (qy a <? qy b) eqn:C, (qy a =? qy b) eqn:D, (qz a <? qz b) eqn:E; cbn; split; intros; try lia; try discriminate; auto. }
    assert (E3 : forall a b, p3_eq a b = true <-> qx a = qx b /\ qy a = qy b /\ qz a = qz b) by (intros; unfold p3_eq; rewrite !andb_true_iff; lia).
    apply (order_of _ _ _ P3); intros; rewrite ?E3; lia.
  - assert (PS : forall s t, seg_lt s t = true <-> p2_lt (seg_a s) (seg_a t) = true \/ (p2_eq (seg_a s) (seg_a t) = true /\ p2_lt (seg_b s) (seg_b t) = true)).
    { intros s t. unfold seg_lt. destruct (p2_lt (seg_a s) (seg_a t)), (p2_eq (seg_a s) (seg_a t)), (p2_lt (seg_b s) (seg_b t)); cbn; split; intros; auto; try discriminate; destruct H as [H|[H H']]; discriminate. }
    apply (order_of _ _ _ PS); intros; unfold seg_eq; rewrite ?andb_true_iff; rewrite ?P2, ?E2 in *; lia.
Qed.
Print Assumptions points_ordered.

Theorem pairs_ordered : OrderOf Logic.eq edge_compare /\ OrderOf Logic.eq pair_compare /\
  (forall B, StrictWeak (@by_first B)) /\ (forall A, StrictWeak (@by_second A)) /\ (forall coords origin, StrictWeak (nearer_origin coords origin)).
Proof.
  split; [|split; [|split; [|split]]].
  - assert (P : forall a b, edge_compare a b = true <-> fst a < fst b \/ (fst a = fst b /\ snd a < snd b)) by (intros; apply lex2).
    apply (order_of _ _ _ P); try (intros; lia). intros [a b] [c d]. cbn. split; [intros; f_equal; lia|intros E; injection E as -> ->; lia].
  - assert (P : forall a b, pair_compare a b = true <-> fst a < fst b \/ (fst a = fst b /\ snd a < snd b)) by (intros; unfold pair_compare; rewrite orb_true_iff, andb_true_iff; lia).
    apply (order_of _ _ _ P); try (intros; lia). intros [a b] [c d]. cbn. split; [intros; f_equal; lia|intros E; injection E as -> ->; lia].
  - intros B. unfold by_first. constructor; intros; lia.
  - intros A. unfold by_second. constructor; intros; lia.
  - intros c o. unfold nearer_origin. assert (Q : forall x y, Qlt_bool x y = true <-> (x < y)%Q).
    { intros x y. unfold Qlt_bool. rewrite negb_true_iff. split; intros H; [apply Qnot_le_lt; intros K; apply Qle_bool_iff in K; congruence|]. apply not_true_iff_false. intros K. apply Qle_bool_iff in K. lra. }
    assert (F : forall x y, Qlt_bool x y = false <-> ~ (x < y)%Q) by (intros; apply false_iff; auto).
    constructor; intros *.
    + apply F. lra.
    + rewrite !Q. lra.
    + rewrite !F. lra.
Qed.
Print Assumptions pairs_ordered.

(* What they compare: pairs by their first element, then by their second, and points of space by their
   distance from the origin of the edge. *)
Theorem pairs_values :
  (forall e f, edge_compare e f = true <-> fst e < fst f \/ (fst e = fst f /\ snd e < snd f)) /\
  (forall p q, pair_compare p q = true <-> fst p < fst q \/ (fst p = fst q /\ snd p < snd q)) /\
  (forall c o a b x0 y0 z0 x1 y1 z1 x2 y2 z2, c o = (x0, y0, z0) -> c a = (x1, y1, z1) -> c b = (x2, y2, z2) ->
    (nearer_origin c o a b = true <-> ((x1 - x0) ^ 2 + (y1 - y0) ^ 2 + (z1 - z0) ^ 2 < (x2 - x0) ^ 2 + (y2 - y0) ^ 2 + (z2 - z0) ^ 2)%Q)).
Proof.
  split; [|split].
  - intros e f. unfold edge_compare. destruct (fst e <? fst f) eqn:A, (fst e =? fst f) eqn:B, (snd e <? snd f) eqn:C; cbn; split; intros; try lia; try discriminate; auto.
  - intros e f. unfold pair_compare. lia.
  - intros c o a b x0 y0 z0 x1 y1 z1 x2 y2 z2 E0 E1 E2. unfold nearer_origin. rewrite E0, E1, E2. unfold dist3, X3, Y3, Z3, Qlt_bool. cbn [fst snd]. rewrite negb_true_iff. split.
    + intros H. apply Qnot_le_lt. intros K. apply not_true_iff_false in H. apply H, Qle_bool_iff. lra.
    + intros H. apply not_true_iff_false. intros K. apply Qle_bool_iff in K. lra.
Qed.
Print Assumptions pairs_values.

(* What the comparators with a tolerance compare: the first coordinate, the difference of which is not
   within the tolerance, decides. *)
Theorem comparator_values : forall fuzz,
  (forall l r, comparator2 fuzz l r = true <-> px l + fuzz < px r \/ (Z.abs (px r - px l) <= fuzz /\ py l + fuzz < py r)) /\
  (forall l r, comparator3 fuzz l r = true <-> qx l + fuzz < qx r \/ (Z.abs (qx r - qx l) <= fuzz /\ qy l + fuzz < qy r) \/
     (Z.abs (qx r - qx l) <= fuzz /\ Z.abs (qy r - qy l) <= fuzz /\ qz l + fuzz < qz r)).
Proof.
  intros fuzz. split; intros l r.
  - unfold comparator2. destruct (Z.ltb_spec fuzz (px r - px l)), (Z.leb_spec (Z.abs (px r - px l)) fuzz), (Z.ltb_spec fuzz (py r - py l)); cbn; split; intros; try discriminate; try reflexivity; lia.
  - unfold comparator3. destruct (Z.ltb_spec fuzz (qx r - qx l)), (Z.leb_spec (Z.abs (qx r - qx l)) fuzz), (Z.ltb_spec fuzz (qy r - qy l)), (Z.leb_spec (Z.abs (qy r - qy l)) fuzz), (Z.ltb_spec fuzz (qz r - qz l)); cbn; split; intros; try discriminate; try reflexivity; lia.
Qed.
Print Assumptions comparator_values.

(* The comparisons with a tolerance are strict weak orderings exactly if the tolerance is 0. *)
Theorem fuzzy_order_partial : forall fuzz,
  (StrictWeak (comparator2 fuzz) <-> fuzz = 0) /\ (StrictWeak (comparator3 fuzz) <-> fuzz = 0) /\ (0 <= fuzz -> (StrictWeak (fuzzy_less fuzz) <-> fuzz = 0)).
Proof.
  intros fuzz. split; [|split].
  - split.
    + intros [I T E]. destruct (Z.lt_trichotomy fuzz 0) as [L|[L|L]]; auto; exfalso.
      * specialize (I (mkP2 0 0 0)). unfold comparator2 in I. cbn in I. destruct (fuzz <? 0) eqn:?; [discriminate|lia].
      * destruct (E (mkP2 0 0 0) (mkP2 fuzz 0 0) (mkP2 (2 * fuzz) 0 0)) as [X _]; unfold comparator2 in *; cbn [px py] in *; cmp; try discriminate; try lia.
    + intros ->. constructor; intros; unfold comparator2 in *; cmp; try discriminate; try lia; try (split; cmp; auto; lia).
  - split.
    + intros [I T E]. destruct (Z.lt_trichotomy fuzz 0) as [L|[L|L]]; auto; exfalso.
      * specialize (I (mkP3 0 0 0 0)). unfold comparator3 in I. cbn in I. destruct (fuzz <? 0) eqn:?; [discriminate|lia].
      * destruct (E (mkP3 0 0 0 0) (mkP3 fuzz 0 0 0) (mkP3 (2 * fuzz) 0 0 0)) as [X _]; unfold comparator3 in *; cbn [qx qy qz] in *; cmp; try discriminate; try lia.
    + intros ->. assert (P3 : forall a b, comparator3 0 a b = true <-> qx a < qx b \/ (qx a = qx b /\ qy a < qy b) \/ (qx a = qx b /\ qy a = qy b /\ qz a < qz b)).
      { intros a b. unfold comparator3. destruct (0 <? qx b - qx a) eqn:A, (Z.abs (qx b - qx a) <=? 0) eqn:B, (0 <? qy b - qy a) eqn:C, (Z.abs (qy b - qy a) <=? 0) eqn:D, (0 <? qz b - qz a) eqn:E; cbn; split; intros; try lia; try discriminate; auto. }
      apply (order_of _ _ (fun a b => qx a = qx b /\ qy a = qy b /\ qz a = qz b) P3); intros; lia.
  - intros P. split.
    + intros [I T E]. destruct (Z.eq_dec fuzz 0); auto. exfalso.
      destruct (E (mkP2 0 0 0) (mkP2 fuzz 0 0) (mkP2 (2 * fuzz) 0 0)) as [X _]; unfold fuzzy_less in *; cbn [px py] in *; cmp; try discriminate; try lia.
    + intros ->. assert (P2 : forall a b, fuzzy_less 0 a b = true <-> px a < px b \/ (px a = px b /\ py a < py b)).
      { intros a b. unfold fuzzy_less. destruct (px a + 0 <? px b) eqn:A, (px b + 0 <? px a) eqn:B, (py a + 0 <? py b) eqn:C, (py b + 0 <? py a) eqn:D; cbn; split; intros; try lia; try discriminate; auto. }
      apply (order_of _ _ (fun a b => px a = px b /\ py a = py b) P2); intros; lia.
Qed.
Print Assumptions fuzzy_order_partial.

(* The set of convexHull_2d compares with tolerance 1, and there points can even go round in a
   circle, each less than the next. *)
Theorem fuzzy_cycle_refuted : ~ StrictWeak (fuzzy_less 1) /\
  exists a b c, fuzzy_less 1 a b = true /\ fuzzy_less 1 b c = true /\ fuzzy_less 1 c a = true.
Proof.
  split.
  - intros S. apply (proj2 (proj2 (fuzzy_order_partial 1)) ltac:(lia)) in S. discriminate.
  - exists (mkP2 0 4 0), (mkP2 2 0 0), (mkP2 1 2 0). repeat split.
Qed.
Print Assumptions fuzzy_cycle_refuted.
(* It is the comparison of HullModel.v. *)
Theorem fuzzy_less_is : forall a b, fuzzy_less 1 a b = fuzzy_lt (px a, py a) (px b, py b).
Proof. intros a b. unfold fuzzy_less, fuzzy_lt. cbn [fst snd]. destruct (px a + 1 <? px b), (px b + 1 <? px a); auto. destruct (py a + 1 <? py b), (py b + 1 <? py a); auto. Qed.
Print Assumptions fuzzy_less_is.

(* ------------------------------------------------------------ C99 *)
Lemma as_int_ok q z : as_int q = Ok z -> z = trunc q /\ - 2 ^ 31 <= z < 2 ^ 31.
Proof. unfold as_int. destruct ((- 2 ^ 31 <=? trunc q) && (trunc q <? 2 ^ 31)) eqn:E; [|discriminate]. intros H. assert (trunc q = z) by congruence. subst z. rewrite andb_true_iff in E. lia. Qed.
Lemma as_int_in q : - 2 ^ 31 <= trunc q < 2 ^ 31 -> as_int q = Ok (trunc q).
Proof. intros H. unfold as_int. replace ((- 2 ^ 31 <=? trunc q) && (trunc q <? 2 ^ 31)) with true; auto. symmetry. rewrite andb_true_iff. lia. Qed.
Lemma trunc_near q : (0 <= q)%Q -> (inject_Z (trunc q) <= q < inject_Z (trunc q) + 1)%Q.
Proof.
  intros H. unfold trunc. rewrite (proj2 (Qle_bool_iff 0 q) H). split; [apply Qround.Qfloor_le|]. pose proof (Qround.Qlt_floor q) as L. rewrite inject_Z_plus in L. exact L.
Qed.
Lemma back x lo dx : (0 < dx)%Q -> (lo <= x)%Q -> (Qabs (real_of (trunc ((x - lo) / dx + (1 # 2))) lo dx - x) <= dx / 2)%Q.
Proof.
  intros D L. set (q := ((x - lo) / dx + (1 # 2))%Q). assert (P : (0 <= (x - lo) / dx)%Q) by (apply Qle_shift_div_l; auto; lra).
  assert (P0 : (0 <= q)%Q) by (unfold q; lra). destruct (trunc_near q P0) as [A B]. unfold real_of. set (t := inject_Z (trunc q)) in *.
  assert (E : (x == (q - (1 # 2)) * dx + lo)%Q) by (unfold q; field; lra). assert (M1 : (t * dx <= q * dx)%Q) by (apply Qmult_le_compat_r; lra).
  assert (M2 : (q * dx < (t + 1) * dx)%Q) by (apply Qmult_lt_r; auto). assert (H2 : (dx / 2 == (1 # 2) * dx)%Q) by field.
  rewrite H2. apply Qabs_Qle_condition. split; lra.
Qed.
(* A position not below the corner of the grid, if it is in range, is moved by at most half a step. *)
Theorem grid_position_partial : forall x y xlow ylow dx i p, (0 < dx)%Q -> (xlow <= x)%Q -> (ylow <= y)%Q -> grid2 x y xlow ylow dx i = Ok p ->
  (Qabs (real_of (px p) xlow dx - x) <= dx / 2)%Q /\ (Qabs (real_of (py p) ylow dx - y) <= dx / 2)%Q /\ pindex p = i.
Proof.
  intros x y xl yl dx i p D X Y E. unfold grid2 in E. destruct (Qeq_bool dx 0) eqn:Z; [apply Qeq_bool_eq in Z; lra|].
  apply bind_ok in E as (u & U & E). apply bind_ok in E as (v & V & E). assert (p = mkP2 u v i) by congruence. subst p. cbn [px py pindex].
  apply as_int_ok in U as [-> _]. apply as_int_ok in V as [-> _]. split; [apply back; auto|split; [apply back; auto|auto]].
Qed.
Print Assumptions grid_position_partial.
Theorem grid_position3_partial : forall x y z xlow ylow zlow dx i p, (0 < dx)%Q -> (xlow <= x)%Q -> (ylow <= y)%Q -> (zlow <= z)%Q -> grid3 x y z xlow ylow zlow dx i = Ok p ->
  (Qabs (real_of (qx p) xlow dx - x) <= dx / 2)%Q /\ (Qabs (real_of (qy p) ylow dx - y) <= dx / 2)%Q /\ (Qabs (real_of (qz p) zlow dx - z) <= dx / 2)%Q /\ qindex p = i.
Proof.
  intros x y z xl yl zl dx i p D X Y W E. unfold grid3 in E. destruct (Qeq_bool dx 0) eqn:Z; [apply Qeq_bool_eq in Z; lra|].
  apply bind_ok in E as (u & U & E). apply bind_ok in E as (v & V & E). apply bind_ok in E as (w & Wi & E). assert (p = mkP3 u v w i) by congruence. subst p. cbn [qx qy qz qindex].
  apply as_int_ok in U as [-> _]. apply as_int_ok in V as [-> _]. apply as_int_ok in Wi as [-> _]. repeat (split; [apply back; auto|]). auto.
Qed.
Print Assumptions grid_position3_partial.

(* A point of the grid is put where it was. *)
Lemma trunc_back z lo dx : (0 < dx)%Q -> 0 <= z -> trunc ((real_of z lo dx - lo) / dx + (1 # 2)) = z.
Proof.
  intros D P. assert (E : ((real_of z lo dx - lo) / dx + (1 # 2) == inject_Z z + (1 # 2))%Q) by (unfold real_of; field; lra).
  assert (Q : (0 <= inject_Z z)%Q) by (change 0%Q with (inject_Z 0); rewrite <- Zle_Qle; auto).
  destruct (trunc_near ((real_of z lo dx - lo) / dx + (1 # 2))) as [A B]; [rewrite E; lra|]. set (t := trunc _) in *. rewrite E in A, B.
  assert (T1 : t <= z). { apply Z.lt_succ_r. rewrite Zlt_Qlt. unfold Z.succ. rewrite inject_Z_plus. change (inject_Z 1) with 1%Q. lra. }
  assert (T2 : z <= t). { apply Z.lt_succ_r. rewrite Zlt_Qlt. unfold Z.succ. rewrite inject_Z_plus. change (inject_Z 1) with 1%Q. lra. }
  lia.
Qed.
Theorem grid_fixed : forall a b xlow ylow dx i, (0 < dx)%Q -> 0 <= a < 2 ^ 31 -> 0 <= b < 2 ^ 31 ->
  grid2 (real_of a xlow dx) (real_of b ylow dx) xlow ylow dx i = Ok (mkP2 a b i).
Proof.
  intros a b xl yl dx i D A B. unfold grid2. destruct (Qeq_bool dx 0) eqn:Z; [apply Qeq_bool_eq in Z; lra|].
  pose proof (trunc_back a xl dx D ltac:(lia)) as TA. pose proof (trunc_back b yl dx D ltac:(lia)) as TB.
  rewrite as_int_in by (rewrite TA; lia). rewrite as_int_in by (rewrite TB; lia). cbn [bind]. rewrite TA, TB. reflexivity.
Qed.
Print Assumptions grid_fixed.

(* A position below the corner is cut off towards it and can end up a full step away. *)
Theorem grid_below_refuted : exists x y p, grid2 x y 0 0 1 0 = Ok p /\ (Qabs (real_of (px p) 0 1 - x) == 9 # 10)%Q /\ ~ (Qabs (real_of (px p) 0 1 - x) <= 1 / 2)%Q.
Proof. exists (- (19 # 10))%Q, 0%Q, (mkP2 (-1) 0 0). split; [reflexivity|]. split; [reflexivity|]. intros H. vm_compute in H. apply H. reflexivity. Qed.
Print Assumptions grid_below_refuted.

(* Sums and differences: they undo each other, and keep the index of the first point. *)
Theorem point_arithmetic : forall a b c, - 2 ^ 31 <= px a < 2 ^ 31 -> - 2 ^ 31 <= py a < 2 ^ 31 -> p2_add a b = Ok c ->
  px c = px a + px b /\ py c = py a + py b /\ pindex c = pindex a /\ p2_sub c b = Ok a.
Proof.
  intros [ax ay ai] [bx b' bi] c X Y H. unfold p2_add, p2_op, fits_int in H. cbn [px py pindex] in *.
  destruct ((- 2 ^ 31 <=? ax + bx) && (ax + bx <? 2 ^ 31)) eqn:A; [|discriminate]. cbn [bind] in H.
  destruct ((- 2 ^ 31 <=? ay + b') && (ay + b' <? 2 ^ 31)) eqn:B; [|discriminate]. cbn [bind] in H. assert (c = mkP2 (ax + bx) (ay + b') ai) by congruence. subst c. cbn [px py pindex].
  repeat split. unfold p2_sub, p2_op, fits_int. cbn [px py pindex]. replace (ax + bx - bx) with ax by ring. replace (ay + b' - b') with ay by ring.
  replace ((- 2 ^ 31 <=? ax) && (ax <? 2 ^ 31)) with true by lia. replace ((- 2 ^ 31 <=? ay) && (ay <? 2 ^ 31)) with true by lia. reflexivity.
Qed.
Print Assumptions point_arithmetic.
(* Negating twice gives an equal point, but with index 0. *)
Theorem point_negated : forall a b c, p2_neg a = Ok b -> p2_neg b = Ok c -> p2_eq a c = true /\ pindex c = 0%nat.
Proof.
  intros [ax ay ai] b c H K. unfold p2_neg, fits_int in H, K. cbn [px py] in *.
  destruct ((- 2 ^ 31 <=? - ax) && (- ax <? 2 ^ 31)); [|discriminate]. cbn [bind] in H. destruct ((- 2 ^ 31 <=? - ay) && (- ay <? 2 ^ 31)); [|discriminate]. cbn [bind] in H.
  assert (b = mkP2 (- ax) (- ay) 0) by congruence. subst b. cbn [px py] in K. rewrite !Z.opp_involutive in K.
  destruct ((- 2 ^ 31 <=? ax) && (ax <? 2 ^ 31)); [|discriminate]. cbn [bind] in K. destruct ((- 2 ^ 31 <=? ay) && (ay <? 2 ^ 31)); [|discriminate]. cbn [bind] in K.
  assert (c = mkP2 ax ay 0) by congruence. subst c. unfold p2_eq. cbn. rewrite !Z.eqb_refl. auto.
Qed.
Print Assumptions point_negated.

Example grid_case : exists p, grid2 (37 # 10) (52 # 10) 1 2 (1 # 4) 7 = Ok p /\ px p = 11 /\ py p = 13 /\ (real_of (px p) 1 (1 # 4) == 375 # 100)%Q.
Proof. eexists. split; [reflexivity|]. repeat split. Qed.
Example arithmetic_case : p2_add (mkP2 3 4 1) (mkP2 5 (-6) 2) = Ok (mkP2 8 (-2) 1) /\ p2_neg (mkP2 3 4 1) = Ok (mkP2 (-3) (-4) 0).
Proof. split; reflexivity. Qed.
