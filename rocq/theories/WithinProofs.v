From Verif Require Import Base BaseFacts SerializeModel PLCSpec Plane PlaneFacts AreaModel AreaProofs MeshEditorModel WithinModel WithinSpec.
From Coq Require Import QArith Qabs Lqa Permutation.
Local Open Scope Q_scope.

(* ---- properties of small numbers ---- *)
Lemma qmin_pos (a b : Q) : 0 < a -> 0 < b -> exists d, 0 < d /\ d <= a /\ d <= b.
Proof. intros A B. destruct (Qlt_le_dec a b); [exists a|exists b]; repeat split; lra. Qed.
Lemma small_and P R : ForSmall P -> ForSmall R -> ForSmall (fun e => P e /\ R e).
Proof.
  intros (d & D & HP) (d' & D' & HR). destruct (qmin_pos d d' D D') as (m & M & M1 & M2). exists m. split; auto.
  intros e E. split; [apply HP|apply HR]; lra.
Qed.
Lemma small_imp (P R : Q -> Prop) : (forall e, 0 < e -> P e -> R e) -> ForSmall P -> ForSmall R.
Proof. intros H (d & D & HP). exists d. split; auto. intros e E. apply H; [lra|auto]. Qed.
Lemma small_true (P : Prop) : P -> ForSmall (fun _ => P).
Proof. intros H. exists 1. split; [reflexivity|auto]. Qed.
Lemma small_all {A} (P : A -> Q -> Prop) l : (forall a, In a l -> ForSmall (P a)) -> ForSmall (fun e => forall a, In a l -> P a e).
Proof.
  induction l as [|a l IH]; intros H; [exists 1; split; [reflexivity|intros e _ x []]|].
  apply (small_imp (fun e => P a e /\ forall x, In x l -> P x e)).
  - intros e _ [H1 H2] x [<-|I]; auto.
  - apply small_and; [apply H; left; auto|apply IH; intros; apply H; right; auto].
Qed.
Lemma small_ex P : ForSmall P -> exists e, 0 < e /\ P e.
Proof. intros (d & D & H). exists d. split; auto. apply H. lra. Qed.
(* a polynomial in eps, positive in its leading order *)
Lemma small_poly c0 c1 c2 : 0 < c0 \/ (c0 == 0 /\ (0 < c1 \/ (c1 == 0 /\ 0 < c2))) -> ForSmall (fun e => 0 < c0 + c1 * e + c2 * (e * e)).
Proof.
  intros [H|[Z [H|[Z' H]]]].
  - set (k := Qabs c1 + Qabs c2 + 1). assert (K1 : 0 <= Qabs c1) by apply Qabs_nonneg. assert (K2 : 0 <= Qabs c2) by apply Qabs_nonneg.
    assert (Kp : 0 < k) by (unfold k; lra).
    assert (P : 0 < c0 / k) by (apply Qlt_shift_div_l; lra).
    destruct (qmin_pos 1 (c0 / k)) as (d & D & D1 & D2); [reflexivity|auto|]. exists d. split; auto. intros e [E1 E2].
    assert (Ek : e * k <= c0). { rewrite <- (Qmult_div_r c0 k) by lra. rewrite (Qmult_comm k). apply Qmult_le_compat_r; lra. }
    pose proof (Qle_Qabs (- c1)) as A1. rewrite Qabs_opp in A1. pose proof (Qle_Qabs (- c2)) as A2. rewrite Qabs_opp in A2.
    assert (B1 : - (c1 * e) <= Qabs c1 * e) by (setoid_replace (- (c1 * e)) with (- c1 * e) by ring; apply Qmult_le_compat_r; lra).
    assert (B2 : - (c2 * (e * e)) <= Qabs c2 * e).
    { apply Qle_trans with (Qabs c2 * (e * e)); [setoid_replace (- (c2 * (e * e))) with (- c2 * (e * e)) by ring; apply Qmult_le_compat_r; nra|].
      setoid_replace (Qabs c2 * (e * e)) with (Qabs c2 * e * e) by ring. setoid_replace (Qabs c2 * e) with (Qabs c2 * e * 1) at 2 by ring.
      rewrite (Qmult_comm _ e), (Qmult_comm _ 1). apply Qmult_le_compat_r; [lra|]. apply Qmult_le_0_compat; lra. }
    unfold k in Ek. lra.
  - set (k := Qabs c2 + 1). assert (K2 : 0 <= Qabs c2) by apply Qabs_nonneg. assert (Kp : 0 < k) by (unfold k; lra).
    assert (P : 0 < c1 / k) by (apply Qlt_shift_div_l; lra).
    exists (c1 / k). split; auto. intros e [E1 E2].
    assert (Ek : e * k <= c1). { rewrite <- (Qmult_div_r c1 k) by lra. rewrite (Qmult_comm k). apply Qmult_le_compat_r; lra. }
    pose proof (Qle_Qabs (- c2)) as A2. rewrite Qabs_opp in A2.
    assert (B2 : - (c2 * e) <= Qabs c2 * e) by (setoid_replace (- (c2 * e)) with (- c2 * e) by ring; apply Qmult_le_compat_r; lra).
    assert (0 < c1 + c2 * e) by (unfold k in Ek; lra).
    setoid_replace (c0 + c1 * e + c2 * (e * e)) with (e * (c1 + c2 * e)) by (rewrite Z; ring). nra.
  - exists 1. split; [reflexivity|]. intros e [E1 E2]. rewrite Z, Z'. assert (0 < e * e) by nra. assert (0 < c2 * (e * e)) by nra. lra.
Qed.
Lemma small_nonzero c0 c1 c2 : ~ c0 == 0 \/ ~ c1 == 0 \/ ~ c2 == 0 -> ForSmall (fun e => ~ c0 + c1 * e + c2 * (e * e) == 0).
Proof.
  intros H.
  assert (C : (0 < c0 \/ (c0 == 0 /\ (0 < c1 \/ (c1 == 0 /\ 0 < c2)))) \/ (0 < - c0 \/ (- c0 == 0 /\ (0 < - c1 \/ (- c1 == 0 /\ 0 < - c2))))).
  { destruct (Q_dec c0 0) as [[L|L]|E0]; [right; left; lra|left; left; lra|].
    destruct (Q_dec c1 0) as [[L|L]|E1]; [right; right; split; [lra|left; lra]|left; right; split; [lra|left; lra]|].
    destruct (Q_dec c2 0) as [[L|L]|E2]; [right; right; split; [lra|right; split; lra]|left; right; split; [lra|right; split; lra]|].
    exfalso. tauto. }
  destruct C as [C|C]; apply small_poly in C; revert C; apply small_imp; intros e _ P Z; lra.
Qed.

(* ---- crossings ---- *)
Definition up (p a : p2) : bool := Qlt_bool (snd p) (snd a).
Definition lf (p a b : p2) : bool := Qlt_bool 0 (orient a b p).
Lemma qlt_false a b : Qlt_bool a b = false <-> b <= a.
Proof.
  split; intros H.
  - apply Qnot_lt_le. intros L. apply qlt_bool_iff in L. congruence.
  - destruct (Qlt_bool a b) eqn:E; auto. apply qlt_bool_iff in E. lra.
Qed.
Lemma qltb_spec a b : reflect (a < b) (Qlt_bool a b).
Proof. destruct (Qlt_bool a b) eqn:E; constructor; [apply qlt_bool_iff|apply qlt_false in E; apply Qle_not_lt]; auto. Qed.
Lemma qltb_ext a b c d : (a < b <-> c < d) -> Qlt_bool a b = Qlt_bool c d.
Proof. intros H. destruct (qltb_spec a b), (qltb_spec c d); auto; tauto. Qed.

Lemma div_cmp x u v w : (0 < w -> (x < u + v / w <-> 0 < w * (u - x) + v)) /\ (w < 0 -> (x < u + v / w <-> w * (u - x) + v < 0)).
Proof.
  split; intros W.
  - assert (E : w * (u + v / w) == w * u + v) by (rewrite Qmult_plus_distr_r, Qmult_div_r by lra; ring).
    split; intros H.
    + assert (w * x < w * (u + v / w)) by (apply Qmult_lt_l; auto). lra.
    + apply (Qmult_lt_l _ _ w W). lra.
  - assert (E : w * (u + v / w) == w * u + v) by (rewrite Qmult_plus_distr_r, Qmult_div_r by lra; ring).
    assert (W' : 0 < - w) by lra. split; intros H.
    + assert (- w * x < - w * (u + v / w)) by (apply Qmult_lt_l; auto). lra.
    + apply (Qmult_lt_l _ _ (- w) W'). lra.
Qed.
(* crossing tests the side of the edge *)
Lemma crossing_up p a b : snd a <= snd p -> snd p < snd b -> crossing p a b = Qlt_bool 0 (orient a b p).
Proof.
  intros A B. unfold crossing. rewrite (proj2 (qlt_false _ _) A), (proj2 (qlt_bool_iff _ _) B). cbn [xorb andb]. apply qltb_ext.
  rewrite (proj1 (div_cmp _ _ _ _)) by lra. unfold orient. split; intros; lra.
Qed.
Lemma crossing_down p a b : snd p < snd a -> snd b <= snd p -> crossing p a b = Qlt_bool (orient a b p) 0.
Proof.
  intros A B. unfold crossing. rewrite (proj2 (qlt_false _ _) B), (proj2 (qlt_bool_iff _ _) A). cbn [xorb andb]. apply qltb_ext.
  rewrite (proj2 (div_cmp _ _ _ _)) by lra. unfold orient. split; intros; lra.
Qed.
Lemma crossing_no p a b : up p a = up p b -> crossing p a b = false.
Proof. unfold up, crossing. intros ->. rewrite xorb_nilpotent. auto. Qed.
Lemma crossing_sym p a b : crossing p a b = crossing p b a.
Proof.
  destruct (Bool.bool_dec (up p a) (up p b)) as [E|E]; [rewrite !crossing_no; auto|].
  unfold up in E. destruct (qltb_spec (snd p) (snd a)), (qltb_spec (snd p) (snd b)); try congruence.
  - rewrite crossing_down, crossing_up by lra. apply qltb_ext. rewrite (orient_swap b a). split; lra.
  - rewrite crossing_up, crossing_down by lra. apply qltb_ext. rewrite (orient_swap b a). split; lra.
Qed.
(* off all lines, the crossing is read from three signs *)
Lemma crossing_signs p a b : ~ orient a b p == 0 \/ up p a = up p b -> crossing p a b = xorb (up p a) (up p b) && xorb (up p a) (lf p a b).
Proof.
  intros N. destruct (Bool.bool_dec (up p a) (up p b)) as [E|E]; [rewrite crossing_no, E, xorb_nilpotent; auto|].
  destruct N as [N|]; [|contradiction]. unfold up, lf in *. destruct (qltb_spec (snd p) (snd a)), (qltb_spec (snd p) (snd b)); try congruence; cbn [xorb andb].
  - rewrite crossing_down by lra. destruct (qltb_spec (orient a b p) 0), (qltb_spec 0 (orient a b p)); auto; exfalso; [lra|apply N; lra].
  - rewrite crossing_up by lra. destruct (Qlt_bool 0 (orient a b p)); reflexivity.
Qed.
Lemma crossing_spec p a b : crossing p a b = true <-> RayCrosses p (a, b).
Proof.
  unfold RayCrosses. cbn [fst snd].
  assert (U : forall a b, snd a <= snd p -> snd p < snd b -> (0 < orient a b p <-> exists t, 0 <= t <= 1 /\ snd (along a b t) == snd p /\ fst p < fst (along a b t))).
  { clear. intros a b A B. unfold along. cbn [fst snd]. assert (D : 0 < snd b - snd a) by lra. split.
    - intros H. exists ((snd p - snd a) / (snd b - snd a)).
      assert (E : (snd p - snd a) / (snd b - snd a) * (snd b - snd a) == snd p - snd a) by (rewrite Qmult_comm, Qmult_div_r; lra).
      set (t := (snd p - snd a) / (snd b - snd a)) in *. split; [|split].
      + split; [apply Qle_shift_div_l|apply Qle_shift_div_r]; lra.
      + lra.
      + unfold orient in H. apply (Qmult_lt_l _ _ _ D).
        setoid_replace ((snd b - snd a) * (fst a + t * (fst b - fst a))) with ((snd b - snd a) * fst a + (t * (snd b - snd a)) * (fst b - fst a)) by ring. rewrite E. lra.
    - intros (t & T & E & F). unfold orient. assert (K : (snd b - snd a) * fst p < (snd b - snd a) * (fst a + t * (fst b - fst a))) by (apply Qmult_lt_l; auto).
      assert (E' : (snd b - snd a) * t == snd p - snd a) by lra. 
      setoid_replace ((snd b - snd a) * (fst a + t * (fst b - fst a))) with ((snd b - snd a) * fst a + ((snd b - snd a) * t) * (fst b - fst a)) in K by ring. rewrite E' in K. lra. }
  destruct (Bool.bool_dec (up p a) (up p b)) as [E|E].
  - rewrite crossing_no by auto. split; [discriminate|]. intros [[H|H] _]; exfalso; unfold up in E; destruct (qltb_spec (snd p) (snd a)), (qltb_spec (snd p) (snd b)); try congruence; lra.
  - unfold up in E. destruct (qltb_spec (snd p) (snd a)), (qltb_spec (snd p) (snd b)); try congruence.
    + rewrite crossing_sym, crossing_up by lra. rewrite qlt_bool_iff, (U b a) by lra. split.
      * intros (t & T & E1 & E2). split; [right; lra|]. exists (1 - t). unfold along in *. cbn [fst snd] in *. split; [lra|]. split; lra.
      * intros (_ & t & T & E1 & E2). exists (1 - t). unfold along in *. cbn [fst snd] in *. split; [lra|]. split; lra.
    + rewrite crossing_up by lra. rewrite qlt_bool_iff, (U a b) by lra. split; [intros H; split; auto; left; lra|tauto].
Qed.

(* ---- nudging the point keeps the crossings ---- *)
Lemma up_nudge p a : ForSmall (fun e => up (nudge p e) a = up p a /\ ~ snd a == snd (nudge p e)).
Proof.
  unfold up, nudge. cbn [snd]. destruct (qltb_spec (snd p) (snd a)) as [H|H].
  - assert (H' : 0 < snd a - snd p) by lra. generalize (small_poly (snd a - snd p) 0 (-(1)) (or_introl H')). apply small_imp. intros e E G. split; [apply qlt_bool_iff; lra|intros Z; lra].
  - exists 1. split; [reflexivity|]. intros e [E _]. assert (0 < e * e) by nra. split; [apply qlt_false; lra|intros Z; lra].
Qed.
Lemma crossing_nudge p a b : ForSmall (fun e => crossing (nudge p e) a b = crossing p a b).
Proof.
  assert (W : forall a b, snd a <= snd p -> snd p < snd b -> ForSmall (fun e => crossing (nudge p e) a b = crossing p a b)).
  { clear a b. intros a b A B.
    assert (O : forall e, orient a b (nudge p e) == orient a b p + -(snd b - snd a) * e + (fst b - fst a) * (e * e)) by (intros e; unfold orient, nudge; cbn [fst snd]; ring).
    assert (G : ForSmall (fun e => Qlt_bool 0 (orient a b (nudge p e)) = Qlt_bool 0 (orient a b p))).
    { destruct (qltb_spec 0 (orient a b p)) as [H|H].
      - generalize (small_poly (orient a b p) (-(snd b - snd a)) (fst b - fst a) (or_introl H)). apply small_imp. intros e E G. apply qlt_bool_iff. rewrite O. auto.
      - assert (L : 0 < - orient a b p \/ (- orient a b p == 0 /\ (0 < snd b - snd a \/ (snd b - snd a == 0 /\ 0 < -(fst b - fst a))))).
        { destruct (Qlt_le_dec (orient a b p) 0); [left; lra|right; split; [lra|left; lra]]. }
        generalize (small_poly _ _ _ L). apply small_imp. intros e E G. apply qlt_false. rewrite O. lra. }
    generalize (small_and _ _ G (small_and _ _ (up_nudge p a) (up_nudge p b))). apply small_imp. intros e E (G1 & (U1 & N1) & (U2 & N2)).
    rewrite (crossing_up p a b), <- G1 by auto. apply crossing_up.
    - apply qlt_false. change (up (nudge p e) a = false). rewrite U1. apply qlt_false. auto.
    - apply qlt_bool_iff. change (up (nudge p e) b = true). rewrite U2. apply qlt_bool_iff. auto. }
  destruct (Bool.bool_dec (up p a) (up p b)) as [E|E].
  - generalize (small_and _ _ (up_nudge p a) (up_nudge p b)). apply small_imp. intros e _ ((U1 & _) & (U2 & _)). rewrite !crossing_no; congruence.
  - unfold up in E. destruct (qltb_spec (snd p) (snd a)), (qltb_spec (snd p) (snd b)); try congruence.
    + assert (G : ForSmall (fun e => crossing (nudge p e) b a = crossing p b a)) by (apply W; lra).
      revert G. apply small_imp. intros e _ G. rewrite crossing_sym, G. apply crossing_sym.
    + apply W; lra.
Qed.
Definition distinct (a b : p2) : Prop := ~ (fst a == fst b /\ snd a == snd b).
Lemma orient_nudge_nz p a b : distinct a b -> ForSmall (fun e => ~ orient a b (nudge p e) == 0).
Proof.
  intros D. assert (C : ~ orient a b p == 0 \/ ~ -(snd b - snd a) == 0 \/ ~ fst b - fst a == 0).
  { destruct (Qeq_dec (snd b - snd a) 0) as [E|E]; [|right; left; lra]. right. right. intros F. apply D. split; lra. }
  generalize (small_nonzero _ _ _ C). apply small_imp. intros e _ N Z. apply N. rewrite <- Z. unfold orient, nudge. cbn [fst snd]. ring.
Qed.
Lemma orient_nudge_sign p a b : 0 < orient a b p -> ForSmall (fun e => 0 < orient a b (nudge p e)).
Proof. intros H. generalize (small_poly (orient a b p) (-(snd b - snd a)) (fst b - fst a) (or_introl H)). apply small_imp. intros e _ G. setoid_replace (orient a b (nudge p e)) with (orient a b p + -(snd b - snd a) * e + (fst b - fst a) * (e * e)); auto. unfold orient, nudge. cbn [fst snd]. ring. Qed.
Lemma orient_nudge_neg p a b : orient a b p < 0 -> ForSmall (fun e => orient a b (nudge p e) < 0).
Proof.
  intros H. assert (H' : 0 < orient b a p) by (rewrite orient_swap; lra). generalize (orient_nudge_sign p b a H'). apply small_imp. intros e _ G. rewrite orient_swap in G. lra.
Qed.
(* general position with respect to a list of corners *)
Definition General (p : p2) (ps : list p2) : Prop := forall a b, In a ps -> In b ps -> distinct a b -> ~ orient a b p == 0.
Lemma distinct_dec a b : {distinct a b} + {fst a == fst b /\ snd a == snd b}.
Proof. unfold distinct. destruct (Qeq_dec (fst a) (fst b)), (Qeq_dec (snd a) (snd b)); [right; auto|left; tauto|left; tauto|left; tauto]. Qed.
Lemma general_nudge p ps : ForSmall (fun e => General (nudge p e) ps).
Proof.
  generalize (small_all (fun ab e => distinct (fst ab) (snd ab) -> ~ orient (fst ab) (snd ab) (nudge p e) == 0) (list_prod ps ps)).
  intros G. assert (H : ForSmall (fun e => forall a, In a (list_prod ps ps) -> distinct (fst a) (snd a) -> ~ orient (fst a) (snd a) (nudge p e) == 0)).
  { apply G. intros [a b] I. cbn [fst snd]. destruct (distinct_dec a b) as [D|E]; [generalize (orient_nudge_nz p a b D); apply small_imp; auto|].
    exists 1. split; [reflexivity|]. intros e _ D. contradiction. }
  revert H. apply small_imp. intros e _ H a b A B. apply (H (a, b)). apply in_prod; auto.
Qed.

(* ---- triangles ---- *)
Lemma sign_pp (x y : Q) : 0 < x -> 0 < y -> 0 < x * y.
Proof. nra. Qed.
Lemma sign_pn (x y : Q) : 0 < x -> y < 0 -> x * y < 0.
Proof. nra. Qed.
Lemma sign_np (x y : Q) : x < 0 -> 0 < y -> x * y < 0.
Proof. nra. Qed.
Lemma sign_nn (x y : Q) : x < 0 -> y < 0 -> 0 < x * y.
Proof. nra. Qed.
Ltac prod_sign x y :=
  match goal with
  | H : 0 < x, K : 0 < y |- _ => pose proof (sign_pp x y H K)
  | H : 0 < x, K : y < 0 |- _ => pose proof (sign_pn x y H K)
  | H : x < 0, K : 0 < y |- _ => pose proof (sign_np x y H K)
  | H : x < 0, K : y < 0 |- _ => pose proof (sign_nn x y H K)
  end.
Lemma not_pos_neg x : ~ 0 < x -> ~ x == 0 -> x < 0.
Proof. intros H N. destruct (Q_dec x 0) as [[? | ?] | ?]; [auto|contradiction|contradiction]. Qed.
Definition in_tri (p : p2) (t : p2 * p2 * p2) : bool := let '(a, b, c) := t in lf p a b && lf p b c && lf p c a.
Lemma xand (x y z A B C : bool) : xorb (xorb (xorb A B && xorb A x) (xorb B C && xorb B y)) (xorb C A && xorb C z) =
  match A, B, C with
  | false, true, true => xorb x (negb z) | true, false, true => xorb (negb x) y | true, true, false => xorb (negb y) z
  | true, false, false => xorb (negb x) z | false, true, false => xorb x (negb y) | false, false, true => xorb y (negb z)
  | _, _, _ => false end.
Proof. destruct A, B, C, x, y, z; reflexivity. Qed.
Lemma triangle_parity p a b c : 0 < orient a b c -> ~ orient a b p == 0 -> ~ orient b c p == 0 -> ~ orient c a p == 0 ->
  ~ snd a == snd p -> ~ snd b == snd p -> ~ snd c == snd p ->
  xorb (xorb (crossing p a b) (crossing p b c)) (crossing p c a) = in_tri p (a, b, c).
Proof.
  intros O N1 N2 N3 Na Nb Nc. rewrite !crossing_signs by auto. unfold in_tri. rewrite xand.
  assert (S1 : orient a b p + orient b c p + orient c a p == orient a b c) by (unfold orient; ring).
  assert (S2 : orient b c p * (snd a - snd p) + orient c a p * (snd b - snd p) + orient a b p * (snd c - snd p) == 0) by (unfold orient; ring).
  unfold up, lf.
  set (f1 := orient a b p) in *. set (f2 := orient b c p) in *. set (f3 := orient c a p) in *.
  set (ya := snd a - snd p) in *. set (yb := snd b - snd p) in *. set (yc := snd c - snd p) in *.
  assert (Ya : ~ ya == 0) by (unfold ya; lra). assert (Yb : ~ yb == 0) by (unfold yb; lra). assert (Yc : ~ yc == 0) by (unfold yc; lra).
  rewrite (qltb_ext (snd p) (snd a) 0 ya), (qltb_ext (snd p) (snd b) 0 yb), (qltb_ext (snd p) (snd c) 0 yc) by (unfold ya, yb, yc; split; lra).
  clearbody f1 f2 f3 ya yb yc.
  destruct (qltb_spec 0 ya) as [A|A], (qltb_spec 0 yb) as [B|B], (qltb_spec 0 yc) as [C|C];
  destruct (qltb_spec 0 f1) as [F1|F1], (qltb_spec 0 f2) as [F2|F2], (qltb_spec 0 f3) as [F3|F3]; cbn [xorb negb andb]; try reflexivity; exfalso;
  repeat match goal with H : ~ 0 < ?x, N : ~ ?x == 0 |- _ => apply (fun h => not_pos_neg x h N) in H end;
  prod_sign f2 ya; prod_sign f3 yb; prod_sign f1 yc; lra.
Qed.
