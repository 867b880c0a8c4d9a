From Verif Require Import Base BaseFacts SerializeModel PLCSpec Plane PlaneFacts AreaModel AreaProofs MeshEditorModel WithinModel WithinSpec WithinProofs WithinProofs2.
From Coq Require Import QArith Qabs Lqa Permutation.
Local Open Scope Q_scope.

Lemma even_odd_iff p es b : EvenOdd p es b <-> b = xp p es.
Proof.
  assert (G : Forall2 (fun e c => c = true <-> RayCrosses p e) es (map (fun e => crossing p (fst e) (snd e)) es)).
  { induction es as [|[a c] es IH]; constructor; auto. apply crossing_spec. }
  split.
  - intros (cs & F & ->). rewrite <- par_odd. unfold xp. f_equal. revert cs F. induction es as [|e es IH]; intros cs F; inversion F; subst; auto. inversion G; subst.
    cbn. f_equal; [|apply IH; auto]. destruct y, (crossing p (fst e) (snd e)); auto; [symmetry|]; tauto.
  - intros ->. eexists. split; [exact G|]. apply par_odd.
Qed.
Lemma in_tri_nudge p t e : InTriangle (nudge p e) t -> ~ OffTriangle (nudge p e) t.
Proof.
  destruct t as [[a b] c]. cbn [InTriangle OffTriangle]. set (q := nudge p e).
  assert (S1 : orient a b q + orient b c q + orient c a q == orient a b c) by (unfold orient; ring). intros [(A & B & C)|(A & B & C)] H.
  - assert (O : 0 < orient a b c) by lra. pose proof (sign_pp _ _ O A). pose proof (sign_pp _ _ O B). pose proof (sign_pp _ _ O C). lra.
  - assert (O : orient a b c < 0) by lra. pose proof (sign_nn _ _ O A). pose proof (sign_nn _ _ O B). pose proof (sign_nn _ _ O C). lra.
Qed.
Lemma scaled_nudge s p a b : s * orient a b p < 0 -> ForSmall (fun e => s * orient a b (nudge p e) < 0).
Proof.
  intros H. destruct (Q_dec s 0) as [[L|L]|L].
  - assert (O : 0 < orient a b p). { destruct (Q_dec (orient a b p) 0) as [[K|K]|K]; auto; exfalso; [pose proof (sign_nn _ _ L K); lra|rewrite K in H; lra]. }
    generalize (orient_nudge_sign p a b O). apply small_imp. intros e _ G. apply sign_np; auto.
  - assert (O : orient a b p < 0). { destruct (Q_dec (orient a b p) 0) as [[K|K]|K]; auto; exfalso; [pose proof (sign_pp _ _ L K); lra|rewrite K in H; lra]. }
    generalize (orient_nudge_neg p a b O). apply small_imp. intros e _ G. apply sign_pn; auto.
  - exfalso. rewrite L in H. lra.
Qed.
Lemma off_nudge p t : OffTriangle p t -> ForSmall (fun e => OffTriangle (nudge p e) t).
Proof.
  destruct t as [[a b] c]. cbn [OffTriangle]. intros [H|[H|H]]; apply scaled_nudge in H; revert H; apply small_imp; tauto.
Qed.
Lemma in_nudge p t : InTriangle p t -> ForSmall (fun e => InTriangle (nudge p e) t).
Proof.
  destruct t as [[a b] c]. cbn [InTriangle]. intros [(A & B & C)|(A & B & C)].
  - generalize (small_and _ _ (orient_nudge_sign p a b A) (small_and _ _ (orient_nudge_sign p b c B) (orient_nudge_sign p c a C))). apply small_imp. tauto.
  - generalize (small_and _ _ (orient_nudge_neg p a b A) (small_and _ _ (orient_nudge_neg p b c B) (orient_nudge_neg p c a C))). apply small_imp. tauto.
Qed.
(* for all small nudges: general position and the same crossings *)
Lemma good_nudge p ps es : (forall a b, In (a, b) es -> In a ps /\ In b ps) -> ForSmall (fun e => General (nudge p e) ps /\ offheight (nudge p e) ps /\ xp (nudge p e) es = xp p es).
Proof.
  intros H. generalize (small_and _ _ (general_nudge p ps) (small_and _ _
     (small_all (fun a e => up (nudge p e) a = up p a /\ ~ snd a == snd (nudge p e)) ps (fun a _ => up_nudge p a))
     (small_all (fun ab e => crossing (nudge p e) (fst ab) (snd ab) = crossing p (fst ab) (snd ab)) es (fun ab _ => crossing_nudge p (fst ab) (snd ab))))).
  apply small_imp. intros e _ (G & U & C). split; auto. split.
  - intros a A. apply (U a A).
  - unfold xp. f_equal. apply map_ext_in. auto.
Qed.
Lemma ring_in {A} (l : list A) a b : In (a, b) (ring l) -> In a l /\ In b l.
Proof. intros I. apply In_nth_error in I as [k I]. apply ring_nth in I as (X & Y & _). cbn [fst snd] in *. split; eapply nth_error_In; eauto. Qed.

Lemma tri_exact p es ts : SameEdges (flat_map tri_edges ts) es -> (forall t, In t ts -> ~ tor t == 0) ->
  ForSmall (fun e => exists cs, Forall2 (fun t c => c = true <-> InTriangle (nudge p e) t) ts cs /\ xp p es = Nat.odd (length (filter (fun c => c) cs))).
Proof.
  intros Se N. generalize (good_nudge p (flat_map corners ts) (flat_map tri_edges ts)). intros G.
  assert (G' : ForSmall (fun e => General (nudge p e) (flat_map corners ts) /\ offheight (nudge p e) (flat_map corners ts) /\ xp (nudge p e) (flat_map tri_edges ts) = xp p (flat_map tri_edges ts))).
  { apply G. intros a b I. apply in_flat_map in I as (t & T & I). split; apply in_flat_map; exists t; (split; [auto|]); destruct t as [[x y] z]; cbn in I; cbn; intuition congruence. }
  revert G'. apply small_imp. intros e _ (Ge & Ho & E).
  assert (W : forall t, In t ts -> General (nudge p e) (corners t) /\ offheight (nudge p e) (corners t)).
  { intros t T. split; [intros a b A B; apply Ge|intros a A; apply Ho]; apply in_flat_map; exists t; auto. }
  exists (map (in_tri2 (nudge p e)) ts). split.
  - clear - N W. induction ts as [|t ts IH]; constructor; [|apply IH; intros t' T'; [apply N|apply W]; right; auto].
    exact (in_tri2_spec _ _ (N t (or_introl eq_refl)) (proj1 (W t (or_introl eq_refl)))).
  - rewrite <- (xp_same p _ _ Se), <- E, tris_xp, par_odd; [reflexivity|]. intros t T. split; [apply N; auto|apply W; auto].
Qed.
Lemma convex_exact p ps : StrictlyConvex ps -> (3 <= length ps)%nat -> ForSmall (fun e => xp p (ring ps) = true <-> StrictlyInside (nudge p e) ps).
Proof.
  intros V L. generalize (good_nudge p ps (ring ps) (ring_in ps)). apply small_imp. intros e _ (G & H & E).
  destruct ps as [|o l]; [cbn in L; lia|]. rewrite <- E.
  assert (Se : SameEdges (flat_map tri_edges (fan o l)) (ring (o :: l))) by (apply ring_fan; cbn in L; lia).
  rewrite <- (xp_same _ _ _ Se), tris_xp.
  - assert (Em : map (in_tri2 (nudge p e)) (fan o l) = map (in_tri (nudge p e)) (fan o l)).
    { apply map_ext_in. intros t T. pose proof (fan_pos o l t V T) as P. destruct t as [[a b] c]. cbn [tor] in P. unfold in_tri2. rewrite (proj2 (qlt_bool_iff _ _) P). auto. }
    rewrite Em, fan_inside; auto; [|destruct l; [cbn in L; lia|discriminate]]. unfold inside. rewrite forallb_forall. unfold StrictlyInside. split.
    + intros F a b I. apply lf_true. apply (F (a, b) I).
    + intros F [a b] I. apply lf_true. apply F. auto.
  - intros t T. pose proof (fan_pos o l t V T) as P. split; [intros Z; lra|].
    destruct (fan_in _ _ _ T) as (i & a & b & -> & A & B). apply nth_error_In in A. apply nth_error_In in B.
    assert (I : forall x, In x (corners (o, a, b)) -> In x (o :: l)) by (cbn; intuition (subst; auto)).
    split; [intros x y X Y; apply G; auto|intros x X; apply H; auto].
Qed.
Lemma convex_inside p ps : StrictlyConvex ps -> (3 <= length ps)%nat -> StrictlyInside p ps -> xp p (ring ps) = true.
Proof.
  intros V L I.
  assert (S1 : ForSmall (fun e => forall ab, In ab (ring ps) -> 0 < orient (fst ab) (snd ab) (nudge p e))).
  { apply (small_all (fun ab e => 0 < orient (fst ab) (snd ab) (nudge p e))). intros [a b] A. apply orient_nudge_sign. apply I. auto. }
  destruct (small_ex _ (small_and _ _ S1 (convex_exact p ps V L))) as (e & _ & H & E). apply E. intros a b A. apply (H (a, b) A).
Qed.
Lemma convex_outside p ps : StrictlyConvex ps -> (3 <= length ps)%nat -> StrictlyOutside p ps -> xp p (ring ps) = false.
Proof.
  intros V L (a & b & A & O). destruct (small_ex _ (small_and _ _ (orient_nudge_neg p a b O) (convex_exact p ps V L))) as (e & _ & H & E).
  destruct (xp p (ring ps)); auto. pose proof (proj1 E eq_refl a b A). lra.
Qed.
Lemma filter_none cs : (forall c, In c cs -> c = false) -> filter (fun c : bool => c) cs = [].
Proof. induction cs as [|c cs IH]; intros H; auto. cbn. rewrite (H c) by (left; auto). apply IH. intros; apply H; right; auto. Qed.
Lemma tri_none p es ts : SameEdges (flat_map tri_edges ts) es -> (forall t, In t ts -> ~ tor t == 0) -> (forall t, In t ts -> OffTriangle p t) -> xp p es = false.
Proof.
  intros Se N O. destruct (small_ex _ (small_and _ _ (tri_exact p es ts Se N) (small_all (fun t e => OffTriangle (nudge p e) t) ts (fun t T => off_nudge p t (O t T))))) as (e & _ & (cs & F & E) & K).
  rewrite E, filter_none; auto. intros c C. destruct (Forall2_in_r _ _ _ _ F C) as (t & T & H). destruct c; auto. exfalso. apply (in_tri_nudge p t e); [tauto|auto].
Qed.
Lemma tri_one p es l1 t l2 : SameEdges (flat_map tri_edges (l1 ++ t :: l2)) es -> (forall s, In s (l1 ++ t :: l2) -> ~ tor s == 0) ->
  InTriangle p t -> (forall s, In s (l1 ++ l2) -> OffTriangle p s) -> xp p es = true.
Proof.
  intros Se N I O. destruct (small_ex _ (small_and _ _ (tri_exact p es _ Se N) (small_and _ _ (in_nudge p t I) (small_all (fun t e => OffTriangle (nudge p e) t) (l1 ++ l2) (fun t T => off_nudge p t (O t T)))))) as (e & _ & (cs & F & E) & It & K).
  apply Forall2_app_inv_l in F as (c1 & c2 & F1 & F2 & ->). inversion F2 as [|? c ? c3 Ht F3]; subst. rewrite E, filter_app. cbn [filter].
  assert (C : c = true) by tauto. subst c.
  assert (Z : forall l cs', (forall s, In s l -> In s (l1 ++ l2)) -> Forall2 (fun t c => c = true <-> InTriangle (nudge p e) t) l cs' -> filter (fun c : bool => c) cs' = []).
  { intros l cs' Sub F'. apply filter_none. intros c C. destruct (Forall2_in_r _ _ _ _ F' C) as (s & S' & H). destruct c; auto. exfalso. apply (in_tri_nudge p s e); [tauto|auto]. }
  rewrite (Z l1 c1), (Z l2 c3); auto; intros s S'; apply in_or_app; auto.
Qed.

(* ---- the border test ---- *)
Lemma pop_loop vs base ps p : StoredAt vs base ps -> forall m k r, (k + m = length ps)%nat ->
  mfold (pop_step p (length ps) vs base) (seq k m) r = Ok (r || existsb (fun e => on_edge p (fst e) (snd e)) (skipn k (ring ps))).
Proof.
  intros St. assert (Lr : length (ring ps) = length ps). { destruct ps as [|a t]; auto. cbn [ring]. rewrite combine_length, app_length. cbn [length]. lia. }
  induction m as [|m IH]; intros k r E.
  - cbn [seq mfold]. rewrite skipn_all2 by lia. cbn. rewrite orb_false_r. auto.
  - cbn [seq mfold]. destruct (nth_error_ex (ring ps) k) as [[a b] K]; [lia|].
    assert (D : skipn k (ring ps) = (a, b) :: skipn (S k) (ring ps)).
    { clear - K. revert k K. generalize (ring ps). induction l as [|x l IH]; intros [|k] K; try discriminate; cbn in *; [congruence|auto]. }
    rewrite D. cbn [existsb fst snd]. unfold pop_step at 1. destruct r; cbn [bind orb].
    + rewrite IH by lia. auto.
    + apply ring_nth in K as (A & B & L). cbn [fst snd] in *. replace (k + 1)%nat with (S k) by lia.
      rewrite (proj2 (Nat.ltb_lt k (length ps))) by lia. rewrite (proj2 (Nat.ltb_lt (S k mod length ps) (length ps))) by (apply Nat.mod_upper_bound; lia).
      cbn [andb assert bind]. rewrite (vat_ok _ _ _ _ _ St A), (vat_ok _ _ _ _ _ St B). cbn [bind]. rewrite IH by lia. auto.
Qed.
Lemma pop_ok vs base ps p : StoredAt vs base ps -> pointOnPolygon p (length ps) vs base = Ok (existsb (fun e => on_edge p (fst e) (snd e)) (ring ps)).
Proof. intros St. unfold pointOnPolygon. rewrite (pop_loop vs base ps p St _ 0 false); auto. Qed.
Lemma col2_self (u v uv tol : Q) : 0 <= u -> 0 <= v -> uv * uv == u * v -> 0 < tol -> tol < 1 -> (Qlt_bool u tol || Qlt_bool v tol) = true \/ (1 - tol) * (1 - tol) * (u * v) < uv * uv.
Proof.
  intros U V E T T1. destruct (qltb_spec u tol); auto. destruct (qltb_spec v tol); auto. right. rewrite E.
  assert (P : 0 < u * v) by (apply sign_pp; lra). assert (K : (1 - tol) * (1 - tol) < 1) by nra. setoid_replace (u * v) with (1 * (u * v)) at 2 by ring. apply Qmult_lt_compat_r; auto.
Qed.
Lemma sqr (x : Q) : 0 <= x * x.
Proof. nra. Qed.
Lemma on_edge_exact p a b t : 0 <= t <= 1 -> fst p == fst (along a b t) -> snd p == snd (along a b t) -> on_edge p a b = true.
Proof.
  intros [T0 T1] X Y. unfold along in *. cbn [fst snd] in *.
  assert (Bx : forall x u v, x == u + t * (v - u) -> ((Qle_bool u x || Qle_bool v x) && (Qle_bool x u || Qle_bool x v)) = true).
  { intros x u v E. rewrite andb_true_iff, !orb_true_iff, !Qle_bool_iff. destruct (Qlt_le_dec u v).
    - assert (0 <= t * (v - u)) by nra. assert (0 <= (1 - t) * (v - u)) by nra. split; [left|right]; lra.
    - assert (0 <= t * (u - v)) by nra. assert (0 <= (1 - t) * (u - v)) by nra. split; [right|left]; lra. }
  unfold on_edge. pose proof (Bx _ _ _ X) as B1. pose proof (Bx _ _ _ Y) as B2. rewrite andb_true_iff in B1, B2. destruct B1 as [-> ->], B2 as [-> ->]. cbn [andb].
  unfold col2. cbn [fst snd].
  set (u := (fst b - fst a) * (fst b - fst a) + (snd b - snd a) * (snd b - snd a)). set (v := (fst p - fst a) * (fst p - fst a) + (snd p - snd a) * (snd p - snd a)).
  set (uv := (fst b - fst a) * (fst p - fst a) + (snd b - snd a) * (snd p - snd a)). set (tol := 1 # 10000000000).
  assert (Ev : v == t * t * u) by (unfold u, v; rewrite X, Y; ring). assert (Euv : uv == t * u) by (unfold u, uv; rewrite X, Y; ring).
  destruct (col2_self u v uv tol) as [H|H].
  - unfold u. pose proof (sqr (fst b - fst a)). pose proof (sqr (snd b - snd a)). lra.
  - unfold v. pose proof (sqr (fst p - fst a)). pose proof (sqr (snd p - snd a)). lra.
  - rewrite Ev, Euv. ring.
  - reflexivity.
  - reflexivity.
  - rewrite H. auto.
  - destruct (Qlt_bool u tol || Qlt_bool v tol); auto. apply qlt_bool_iff. auto.
Qed.
Lemma on_edge_near p a b : on_edge p a b = true ->
    (fst a <= fst p <= fst b \/ fst b <= fst p <= fst a) /\ (snd a <= snd p <= snd b \/ snd b <= snd p <= snd a) /\
    let d2 u v := (fst u - fst v) * (fst u - fst v) + (snd u - snd v) * (snd u - snd v) in
    (d2 p a < 1 # 10000000000 \/ orient a b p * orient a b p <= (2 # 10000000000) * (d2 a b * d2 a p)).
Proof.
  intros H. unfold on_edge in H. rewrite !andb_true_iff, !orb_true_iff, !Qle_bool_iff in H. destruct H as ((((A1 & A2) & A3) & A4) & C).
  assert (Bx : fst a <= fst p <= fst b \/ fst b <= fst p <= fst a) by (destruct (Qlt_le_dec (fst a) (fst b)); [left|right]; lra).
  assert (By : snd a <= snd p <= snd b \/ snd b <= snd p <= snd a) by (destruct (Qlt_le_dec (snd a) (snd b)); [left|right]; lra).
  split; auto. split; auto. cbn zeta. unfold col2 in C. cbn [fst snd] in C.
  assert (Sq : forall x u v, (u <= x <= v \/ v <= x <= u) -> (x - u) * (x - u) <= (v - u) * (v - u)) by (intros x u v [?|?]; nra).
  pose proof (Sq _ _ _ Bx) as S1. pose proof (Sq _ _ _ By) as S2.
  match type of C with (if ?x then _ else _) = _ => destruct x eqn:E end.
  - left. apply orb_true_iff in E as [E|E]; apply qlt_bool_iff in E; lra.
  - right. apply qlt_bool_iff in C. set (tol := 1 # 10000000000) in *.
    set (ux := fst b - fst a) in *. set (uy := snd b - snd a) in *. set (vx := fst p - fst a) in *. set (vy := snd p - snd a) in *.
    setoid_replace ((fst a - fst b) * (fst a - fst b) + (snd a - snd b) * (snd a - snd b)) with (ux * ux + uy * uy) by (unfold ux, uy; ring).
    setoid_replace ((fst a - fst p) * (fst a - fst p) + (snd a - snd p) * (snd a - snd p)) with (vx * vx + vy * vy) by (unfold vx, vy; ring).
    unfold orient. fold ux uy vx vy.
    set (P := (ux * ux + uy * uy) * (vx * vx + vy * vy)) in *. assert (Pp : 0 <= P) by (unfold P; pose proof (sqr ux); pose proof (sqr uy); pose proof (sqr vx); pose proof (sqr vy); apply Qmult_le_0_compat; lra).
    assert (Id : (ux * vy - uy * vx) * (ux * vy - uy * vx) == P - (ux * vx + uy * vy) * (ux * vx + uy * vy)) by (unfold P; ring).
    rewrite Id. assert ((1 - (1 - tol) * (1 - tol)) * P <= (2 # 10000000000) * P) by (apply Qmult_le_compat_r; [discriminate|auto]). lra.
Qed.

Lemma wb_ok vs fs ps p : Consecutive vs fs ps -> ps <> [] ->
  withinBoundary p vs fs = Ok (if existsb (fun e => on_edge p (fst e) (snd e)) (ring ps) then 2 else if xp p (ring ps) then 1 else 0)%nat.
Proof.
  intros (s & St & L & H) N. unfold withinBoundary. destruct fs as [|f fs]; [destruct ps; [contradiction|discriminate]|].
  pose proof (H 0%nat f eq_refl) as ->. cbn [get nth_error bind]. rewrite (proj2 (Z.ltb_ge _ _)) by lia. rewrite L, Nat2Z.id, Nat.add_0_r.
  rewrite (pop_ok _ _ _ _ St), (pip_ok _ _ _ _ St). cbn [bind]. destruct (existsb _ _), (xp p (ring ps)); reflexivity.
Qed.
