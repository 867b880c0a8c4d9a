(* C47: distances to the edges of a polygon and projections on them; C64: where a point lies with
   respect to a polygon; C65: the first edge a segment meets. *)
From Verif Require Import Base BaseFacts SerializeModel PLCSpec Plane PlaneFacts AreaModel AreaProofs MeshEditorModel WithinModel WithinSpec WithinProofs WithinProofs2 WithinProofs3 PolygonModel PolygonSpec PolygonProofs PolygonProofs2.
From Coq Require Import QArith Lqa Permutation.
Local Open Scope Q_scope.

(* the constructor accepts exactly the coordinates of three points or more *)
Theorem polygon_accepts : forall vs q, polygon vs = Ok q <-> q = vs /\ exists ps, vs = coords ps /\ (3 <= length ps)%nat.
Proof.
  intros vs q. split.
  - intros H. apply polygon_inv in H as (ps & -> & -> & L). split; [auto|]. exists ps. auto.
  - intros (-> & ps & -> & L). apply polygon_ok. auto.
Qed.
Print Assumptions polygon_accepts.

(* ---- C64 ---- *)
Theorem query_point : forall ps p, (3 <= length ps)%nat ->
  exists l, queryPoint (coords ps) p = Ok l /\
    (l = POINT_ON_VERTEX <-> exists v, In v ps /\ SamePoint p v) /\
    (l = POINT_ON_EDGE <-> (forall v, In v ps -> ~ SamePoint p v) /\ OnOddly p (ring ps)) /\
    (l = POINT_INSIDE <-> (forall v, In v ps -> ~ SamePoint p v) /\ ~ OnOddly p (ring ps) /\ EvenOdd p (ring ps) true) /\
    (l = POINT_OUTSIDE <-> (forall v, In v ps -> ~ SamePoint p v) /\ ~ OnOddly p (ring ps) /\ EvenOdd p (ring ps) false).
Proof.
  intros ps p L. rewrite query_ok by (intros ->; cbn in L; lia). eexists. split; [reflexivity|].
  destruct (existsb (isat p) ps) eqn:V.
  - apply existsb_exists in V as (v & I & V). apply isat_ok in V.
    assert (N : ~ forall v, In v ps -> ~ SamePoint p v) by (intros N; apply (N v); auto).
    split; [split; [exists v; auto|auto]|]. split; [split; [discriminate|tauto]|]. split; split; try discriminate; tauto.
  - assert (N : forall v, In v ps -> ~ SamePoint p v).
    { intros v I S. apply isat_ok in S. assert (existsb (isat p) ps = true) by (apply existsb_exists; exists v; auto). congruence. }
    assert (NV : ~ exists v, In v ps /\ SamePoint p v) by (intros (v & I & S); apply (N v); auto).
    pose proof (on_oddly ps p N) as O. rewrite <- both_par in O.
    pose proof (even_odd_iff p (ring ps)) as EO.
    unfold verdict. destruct (xp p (ring ps)) eqn:X, (lp p (ring ps)) eqn:Y; cbn [xorb] in *.
    + assert (Of : ~ OnOddly p (ring ps)) by (intros Z; apply O in Z; discriminate).
      split; [split; [discriminate|tauto]|]. split; [split; [discriminate|tauto]|]. split; [split; [intros _|auto]|split; [discriminate|]].
      * split; [auto|]. split; [auto|]. apply EO. auto.
      * intros (_ & _ & E). apply EO in E. discriminate.
    + assert (Ot : OnOddly p (ring ps)) by (apply O; auto). split; [split; [discriminate|tauto]|]. split; [tauto|]. split; split; try discriminate; tauto.
    + assert (Ot : OnOddly p (ring ps)) by (apply O; auto). split; [split; [discriminate|tauto]|]. split; [tauto|]. split; split; try discriminate; tauto.
    + assert (Of : ~ OnOddly p (ring ps)) by (intros Z; apply O in Z; discriminate).
      split; [split; [discriminate|tauto]|]. split; [split; [discriminate|tauto]|]. split; [split; [discriminate|]|split; [intros _|auto]].
      * intros (_ & _ & E). apply EO in E. discriminate.
      * split; [auto|]. split; [auto|]. apply EO. auto.
Qed.
Print Assumptions query_point.
(* when no point but a corner is on two edges, the answer is where the point is *)
Definition Simple (ps : list p2) : Prop :=
  forall p l1 e l2 e' l3, ring ps = l1 ++ e :: l2 ++ e' :: l3 -> OnEdge p e -> OnEdge p e' -> exists v, In v ps /\ SamePoint p v.
Lemma odd_once {A} (R : A -> Prop) l cs : Forall2 (fun e c => c = true <-> R e) l cs ->
  (forall l1 e l2 e' l3, l = l1 ++ e :: l2 ++ e' :: l3 -> R e -> R e' -> False) ->
  (Nat.odd (length (filter (fun c => c) cs)) = true <-> exists e, In e l /\ R e).
Proof.
  induction 1 as [|e c l cs H F IH]; intros U; [split; [discriminate|intros (e & [] & _)]|]. cbn [filter]. destruct c.
  - assert (Re : R e) by (apply H; auto).
    assert (Z : length (filter (fun c => c) cs) = 0%nat).
    { clear IH H. destruct (filter (fun c => c) cs) as [|c' t] eqn:Fc; [auto|exfalso].
      assert (I : In true cs) by (assert (I : In c' (filter (fun c => c) cs)) by (rewrite Fc; left; auto); apply filter_In in I as [I ->]; auto).
      clear Fc. assert (G : exists l2 e' l3, l = l2 ++ e' :: l3 /\ R e').
      { clear U Re. induction F as [|x y l cs H F IH]; [destruct I|]. destruct I as [->|I]; [exists [], x, l; split; [auto|apply H; auto]|].
        destruct (IH I) as (l2 & e' & l3 & -> & Re'). exists (x :: l2), e', l3. auto. }
      destruct G as (l2 & e' & l3 & -> & Re'). apply (U [] e l2 e' l3); auto. }
    cbn [length]. rewrite Z. split; [intros _; exists e; split; [left|]; auto|reflexivity].
  - assert (Re : ~ R e) by (intros Z; apply H in Z; discriminate). rewrite IH.
    + split; intros (x & I & X); exists x; (split; [|auto]); [right; auto|destruct I as [->|I]; [contradiction|auto]].
    + intros l1 x l2 x' l3 ->. apply (U (e :: l1) x l2 x' l3). reflexivity.
Qed.
Lemma border_on ps p : OnBorder p ps <-> exists e, In e (ring ps) /\ OnEdge p e.
Proof.
  split.
  - intros (a & b & t & I & T & X & Y). exists (a, b). split; [auto|]. exists t. split; [auto|split; auto].
  - intros ([a b] & I & t & T & X & Y). exists a, b, t. auto.
Qed.
Theorem query_point_simple : forall ps p, (3 <= length ps)%nat -> Simple ps ->
  exists l, queryPoint (coords ps) p = Ok l /\
    (l = POINT_ON_VERTEX <-> exists v, In v ps /\ SamePoint p v) /\
    (l = POINT_ON_EDGE <-> OnBorder p ps /\ forall v, In v ps -> ~ SamePoint p v) /\
    (l = POINT_INSIDE <-> ~ OnBorder p ps /\ EvenOdd p (ring ps) true) /\
    (l = POINT_OUTSIDE <-> ~ OnBorder p ps /\ EvenOdd p (ring ps) false).
Proof.
  intros ps p L U. destruct (query_point ps p L) as (l & E & V & O & I & T). exists l. split; [auto|]. split; [auto|].
  assert (B : (forall v, In v ps -> ~ SamePoint p v) -> (OnOddly p (ring ps) <-> OnBorder p ps)).
  { intros N. rewrite border_on. pose proof (forall2_map (fun e c => c = true <-> OnEdge p e) (fun e => onb p (fst e) (snd e)) (ring ps)) as F.
    assert (F' : forall e, In e (ring ps) -> onb p (fst e) (snd e) = true <-> OnEdge p e) by (intros [a b] J; apply ring_ends in J as [J K]; apply onb_ok; auto). specialize (F F'). clear F'.
    rewrite (on_oddly ps p N), par_odd. apply odd_once; [exact F|]. intros l1 e l2 e' l3 R X X'. destruct (U p _ _ _ _ _ R X X') as (v & J & S). apply (N v); auto. }
  assert (C : ~ OnBorder p ps -> forall v, In v ps -> ~ SamePoint p v).
  { intros N v J [S1 S2]. apply N. apply In_nth_error in J as [i J]. pose proof (nth_error_lt _ _ _ J) as Li.
    destruct (nth_error_ex ps ((i + 1) mod length ps)) as [b Jb]; [apply Nat.mod_upper_bound; lia|].
    exists v, b, 0. split; [eapply nth_error_In; apply ring_nth; eauto|]. split; [lra|]. unfold along. cbn [fst snd]. split; lra. }
  split; [|split].
  - rewrite O. split; [intros [N X]|intros [X N]]; pose proof (B N); tauto.
  - rewrite I. split; [intros (N & X & Y)|intros (X & Y)].
    + split; [|auto]. intros Z. apply X, B; auto.
    + assert (N := C X). split; [auto|]. split; [|auto]. intros Z. apply X. apply B; auto.
  - rewrite T. split; [intros (N & X & Y)|intros (X & Y)].
    + split; [|auto]. intros Z. apply X, B; auto.
    + assert (N := C X). split; [auto|]. split; [|auto]. intros Z. apply X. apply B; auto.
Qed.
Print Assumptions query_point_simple.

(* ---- C65 ---- *)
Theorem closest_intersection : forall ps s1 s2,
  exists r, closestIntersection (coords ps) s1 s2 = Ok r /\
    match r with
    | None => forall i a b t, Edge ps i a b -> ~ Meets s1 s2 a b t
    | Some (j, q) => exists a b t, Edge ps j a b /\ Meets s1 s2 a b t /\ q = along s1 s2 t /\
        forall i a' b' t', Edge ps i a' b' -> Meets s1 s2 a' b' t' -> t <= t' /\ ((i < j)%nat -> t < t')
    end.
Proof.
  intros ps s1 s2. destruct (closest_ok ps s1 s2) as (st & E & B). eexists. split; [exact E|].
  assert (L : forall i a b, Edge ps i a b -> (i < length ps)%nat) by (intros i a b H; apply ring_nth in H as (H & _); auto).
  destruct st as [[[j t] q]|].
  - destruct B as (J & (a & b & Ed & M) & Q & F). exists a, b, t. split; [auto|]. split; [auto|]. split; [auto|]. intros. eapply F; eauto.
  - intros i a b t Ed. apply (B i a b t); eauto.
Qed.
Print Assumptions closest_intersection.

(* ---- C47 ---- *)
Definition middle (a b : p2) : p2 := ((fst a + fst b) / 2, (snd a + snd b) / 2).
Definition dot (u v : p2) : Q := fst u * fst v + snd u * snd v.
Definition minus (u v : p2) : p2 := (fst u - fst v, snd u - snd v).
Lemma edge_next ps i a b : Edge ps i a b -> (S i < length ps)%nat -> nth_error ps i = Some a /\ nth_error ps (i + 1) = Some b.
Proof. intros H L. apply ring_nth in H as (_ & A & B). rewrite Nat.mod_small in B by lia. auto. Qed.
Lemma sq0 x : 0 <= x * x.
Proof. destruct (signs x) as [S|[S|S]]; [apply Qlt_le_weak, sign_pp|apply Qlt_le_weak, sign_nn|rewrite S]; auto; lra. Qed.
Lemma small_step k l : 0 < k -> 0 <= l -> exists h, 0 < h <= 1 # 2 /\ h * l < k.
Proof.
  intros K L. assert (P : 0 < 2 * k + l + 1) by lra. exists (k / (2 * k + l + 1)). assert (0 < k / (2 * k + l + 1)) by (apply div_pos; auto).
  assert (E : (2 * k + l + 1) * (k / (2 * k + l + 1)) == k) by (field; lra). set (h := k / (2 * k + l + 1)) in *. clearbody h.
  assert (0 <= l * h) by (apply Qmult_le_0_compat; lra). assert (0 < k * h) by (apply sign_pp; auto). split; [split; [auto|]|lra].
  apply (Qmult_le_l _ _ (2 * k)); lra.
Qed.
(* on every edge but the last, the distance is that to the middle of the edge; it is the distance
   to the edge exactly for the points straight off the middle *)
Theorem distance_partial : forall ps p i a b, Edge ps i a b -> (S i < length ps)%nat ->
  exists d, distanceToEdge (coords ps) p (Z.of_nat i) = Ok d /\ d == apart2 p (middle a b) /\
    ((forall t, 0 <= t <= 1 -> d <= apart2 p (along a b t)) <-> dot (minus p (middle a b)) (minus b a) == 0).
Proof.
  intros ps p i a b E L. destruct (edge_next _ _ _ _ E L) as [A B]. unfold distanceToEdge. rewrite (halfway_in ps i a b L A B). cbn [bind]. eexists. split; [reflexivity|].
  assert (D : sdist2 p ((1 # 2) * (fst a + fst b), (1 # 2) * (snd a + snd b)) == apart2 p (middle a b)) by (unfold sdist2, apart2, middle; cbn [fst snd]; field).
  split; [exact D|]. destruct p as [px py], a as [ax ay], b as [bx by_]. unfold apart2, middle, along, dot, minus in *. cbn [fst snd] in *.
  set (d := sdist2 _ _) in *. clearbody d. set (mx := (ax + bx) / 2) in *. set (my := (ay + by_) / 2) in *.
  assert (Mx : 2 * mx == ax + bx) by (unfold mx; field). assert (My : 2 * my == ay + by_) by (unfold my; field). clearbody mx my.
  (* along t = middle + (t - 1/2)(b - a) *)
  assert (G : forall t, (px - (ax + t * (bx - ax))) * (px - (ax + t * (bx - ax))) + (py - (ay + t * (by_ - ay))) * (py - (ay + t * (by_ - ay))) ==
    d - 2 * (t - (1 # 2)) * ((px - mx) * (bx - ax) + (py - my) * (by_ - ay)) + (t - (1 # 2)) * (t - (1 # 2)) * ((bx - ax) * (bx - ax) + (by_ - ay) * (by_ - ay))).
  { intros t. rewrite D. assert (Ax : ax == 2 * mx - bx) by lra. assert (Ay : ay == 2 * my - by_) by lra. rewrite Ax, Ay. ring. }
  set (k := (px - mx) * (bx - ax) + (py - my) * (by_ - ay)) in *. set (l := (bx - ax) * (bx - ax) + (by_ - ay) * (by_ - ay)) in *.
  assert (Ln : 0 <= l) by (unfold l; pose proof (sq0 (bx - ax)); pose proof (sq0 (by_ - ay)); lra). split.
  - intros H. destruct (signs k) as [S|[S|S]]; [exfalso|exfalso|auto].
    + (* a small step towards b *)
      destruct (small_step k l S Ln) as (h & [H0 H1] & H2). specialize (H ((1 # 2) + h) ltac:(lra)). rewrite G in H. assert (X : 0 < h * (2 * k - h * l)) by (apply sign_pp; lra). lra.
    + destruct (small_step (- k) l ltac:(lra) Ln) as (h & [H0 H1] & H2). specialize (H ((1 # 2) - h) ltac:(lra)). rewrite G in H. assert (X : 0 < h * (2 * - k - h * l)) by (apply sign_pp; lra). lra.
  - intros K t T. rewrite G, K. assert (0 <= (t - (1 # 2)) * (t - (1 # 2)) * l) by (apply Qmult_le_0_compat; [apply sq0|auto]). lra.
Qed.
Print Assumptions distance_partial.
(* the last edge has no successor in the array: the searches over all edges read outside it *)
Theorem last_edge_refuted : forall ps p fltmax, (3 <= length ps)%nat ->
  let last := (length ps - 1)%nat in
  (exists a b, Edge ps last a b) /\
  distanceToEdge (coords ps) p (Z.of_nat last) = UB /\ project (coords ps) p (Z.of_nat last) = UB /\
  nearestEdge fltmax (coords ps) p = UB /\ nearestEdgePosition fltmax (coords ps) p = UB /\ projectNearest fltmax (coords ps) p = UB.
Proof.
  intros ps p fltmax L last. split.
  { destruct (nth_error_ex ps last) as [a A]; [unfold last; lia|]. destruct (nth_error_ex ps ((last + 1) mod length ps)) as [b B]; [apply Nat.mod_upper_bound; lia|].
    exists a, b. apply ring_nth. split; [unfold last; lia|auto]. }
  split; [unfold distanceToEdge; rewrite halfway_last by (unfold last; lia); reflexivity|]. split; [apply project_last; unfold last; lia|].
  split; [apply nearest_ub; auto|]. split; [unfold nearestEdgePosition; rewrite nearest_ub by auto; reflexivity|apply projectNearest_ub; auto].
Qed.
Print Assumptions last_edge_refuted.
(* where the projection ends up on the other edges, and when it is the nearest point *)
Theorem project_partial : forall ps p i a b, Edge ps i a b -> (S i < length ps)%nat ->
  exists r, project (coords ps) p (Z.of_nat i) = Ok r /\
    (forall q, r = Some q -> OnEdge q (a, b)) /\
    (r = None <-> fst a == fst b /\ (snd b - snd a) * (snd p - snd a) == 0) /\
    (~ fst a == fst b -> exists q, r = Some q /\
       (NearestOn p a b q <-> snd a == snd b \/ dot (minus p a) (minus b a) <= 0 \/ dot (minus p b) (minus b a) >= 0)) /\
    (fst a == fst b -> forall q, r = Some q -> SamePoint q a \/ SamePoint q b).
Proof.
  intros ps p i a b E L. destruct (edge_next _ _ _ _ E L) as [A B]. rewrite (project_in ps i a b p L A B). eexists. split; [reflexivity|]. cbv zeta.
  destruct p as [px py], a as [ax ay], b as [bx by_]. unfold dot, minus. cbn [fst snd].
  set (n := (px - ax) * (bx - ax) + (py - ay) * (by_ - ay)). set (l2 := (bx - ax) * (bx - ax) + (by_ - by_) * (by_ - by_)).
  assert (L2 : l2 == (bx - ax) * (bx - ax)) by (unfold l2; ring). clearbody l2.
  assert (Cl : forall t r, clamp t = Some r -> 0 <= r <= 1).
  { intros [q| | |] r H; cbn [clamp] in H; try discriminate; injection H as <-; [|lra|lra]. destruct (qltb_spec q 0); [lra|]. destruct (qltb_spec 1 q); lra. }
  split; [|split; [|split]].
  - intros q H. destruct (clamp (fdiv n l2)) as [t|] eqn:T; [|discriminate]. injection H as <-. exists t. split; [eapply Cl; eauto|]. split; reflexivity.
  - unfold fdiv. destruct (Qeq_bool l2 0) eqn:Z.
    + apply Qeq_bool_iff in Z. assert (D : ax == bx) by (rewrite L2 in Z; apply Qmult_integral in Z as [Z|Z]; lra).
      assert (N : n == (by_ - ay) * (py - ay)) by (unfold n; rewrite D; ring).
      destruct (qltb_spec 0 n); cbn [clamp]; [split; [discriminate|intros [_ K]; exfalso; lra]|]. destruct (qltb_spec n 0); cbn [clamp]; [split; [discriminate|intros [_ K]; exfalso; lra]|]. split; [intros _|auto]. split; [auto|lra].
    + apply Qeq_bool_neq in Z. cbn [clamp]. split; [discriminate|]. intros [D _]. exfalso. apply Z. rewrite L2, D. ring.
  - intros D. assert (Z : ~ l2 == 0) by (rewrite L2; intros Z; apply Qmult_integral in Z as [Z|Z]; apply D; lra).
    unfold fdiv. destruct (Qeq_bool l2 0) eqn:Zb; [apply Qeq_bool_iff in Zb; contradiction|]. cbn [clamp].
    assert (P : 0 < l2) by (rewrite L2; assert (bx - ax < 0 \/ 0 < bx - ax) as [K|K] by (destruct (signs (bx - ax)) as [K|[K|K]]; auto; exfalso; apply D; lra); nra).
    set (q := n / l2). assert (Q : l2 * q == n) by (apply Qmult_div_r; auto). clearbody q.
    set (t := if Qlt_bool q 0 then 0 else if Qlt_bool 1 q then 1 else q). eexists. split; [reflexivity|].
    set (l := (bx - ax) * (bx - ax) + (by_ - ay) * (by_ - ay)). assert (Ll : l == l2 + (by_ - ay) * (by_ - ay)) by (unfold l; rewrite L2; ring).
    assert (Eb : (px - bx) * (bx - ax) + (py - by_) * (by_ - ay) == n - l) by (unfold n, l; ring). rewrite Eb.
    assert (G : forall s, apart2 (px, py) (along (ax, ay) (bx, by_) s) == apart2 (px, py) (ax, ay) - 2 * s * n + s * s * l) by (intros s; unfold apart2, along, n, l; cbn [fst snd]; ring).
    assert (Sq := sq0 (by_ - ay)).
    clearbody n l. unfold NearestOn. setoid_rewrite G.
    assert (T : 0 <= t <= 1) by (unfold t; destruct (qltb_spec q 0); [lra|]; destruct (qltb_spec 1 q); lra).
    split.
    + intros [_ H]. destruct (Qeq_dec ay by_) as [Y|Y]; [auto|]. right. destruct (Qlt_le_dec 0 n) as [N|N]; [|auto]. destruct (Qlt_le_dec n l) as [M|M]; [exfalso|right; lra].
      (* the true foot is n / l *)
      assert (Sp : 0 < (by_ - ay) * (by_ - ay)) by (assert (by_ - ay < 0 \/ 0 < by_ - ay) as [K|K] by (destruct (signs (by_ - ay)) as [K|[K|K]]; auto; exfalso; apply Y; lra); nra).
      assert (Lp : 0 < l) by lra. set (f := n / l). assert (F : l * f == n) by (apply Qmult_div_r; lra). clearbody f.
      assert (F0 : 0 < f) by nra. assert (F1 : f < 1) by nra. specialize (H f ltac:(lra)).
      assert (Tf : t == f).
      { assert (K : l * ((t - f) * (t - f)) <= 0) by (rewrite <- F in H; lra). assert (K2 : (t - f) * (t - f) == 0) by (pose proof (sq0 (t - f)); destruct (Qlt_le_dec 0 ((t - f) * (t - f))) as [W|W]; [pose proof (sign_pp _ _ Lp W); lra|lra]). apply Qmult_integral in K2 as [K2|K2]; lra. }
      unfold t in Tf. destruct (qltb_spec q 0); [lra|]. destruct (qltb_spec 1 q); [lra|]. assert (K : l2 * f == l * f) by (rewrite <- Tf at 1; lra). nra.
    + intros H. split; [exists t; split; [auto|split; reflexivity]|]. intros s S.
      unfold t. destruct H as [Y|[H|H]].
      * assert (Yl : l == l2) by (rewrite Ll, Y; ring). rewrite Yl, <- Q. destruct (qltb_spec q 0); [|destruct (qltb_spec 1 q)].
        -- assert (0 <= l2 * (s * (s - 2 * q))) by (apply Qmult_le_0_compat; [lra|apply Qmult_le_0_compat; lra]). lra.
        -- assert (0 <= l2 * ((1 - s) * (2 * q - 1 - s))) by (apply Qmult_le_0_compat; [lra|apply Qmult_le_0_compat; lra]). lra.
        -- assert (0 <= l2 * ((q - s) * (q - s))) by (apply Qmult_le_0_compat; [lra|apply sq0]). lra.
      * assert (Q0 : q <= 0) by (apply (Qmult_le_l _ _ l2 P); lra). assert (0 <= s * (- n)) by (apply Qmult_le_0_compat; lra).
        assert (0 <= s * s * l) by (apply Qmult_le_0_compat; [apply sq0|lra]). destruct (qltb_spec q 0); [lra|]. destruct (qltb_spec 1 q); [lra|]. assert (Qz : q == 0) by lra. rewrite Qz. lra.
      * assert (Q1 : 1 <= q) by (apply (Qmult_le_l _ _ l2 P); lra). destruct (qltb_spec q 0); [lra|].
        assert (K : 0 <= (1 - s) * (2 * (n - l) + (1 - s) * l)) by (apply Qmult_le_0_compat; [lra|]; assert (0 <= (1 - s) * l) by (apply Qmult_le_0_compat; lra); lra).
        destruct (qltb_spec 1 q); [lra|]. assert (Qo : q == 1) by lra. rewrite Qo. lra.
  - intros D q. unfold fdiv. destruct (Qeq_bool l2 0) eqn:Zb; [|apply Qeq_bool_neq in Zb; exfalso; apply Zb; rewrite L2, D; ring].
    destruct (qltb_spec 0 n); cbn [clamp]; [intros [= <-]; right; unfold SamePoint, along; cbn [fst snd]; split; ring|].
    destruct (qltb_spec n 0); cbn [clamp]; [intros [= <-]; left; unfold SamePoint, along; cbn [fst snd]; split; ring|]. discriminate.
Qed.
Print Assumptions project_partial.

(* ---- cases ---- *)
Definition tri : list p2 := [(0, 0); (4, 0); (0, 4)].
Example tri_ring : ring tri = [((0, 0), (4, 0)); ((4, 0), (0, 4)); ((0, 4), (0, 0))].
Proof. reflexivity. Qed.
Example tri_simple : (3 <= length tri)%nat /\ Simple tri.
Proof.
  split; [cbn; lia|]. intros [px py] l1 e l2 e' l3 R (t & T & X) (t' & T' & X').
  assert (L := f_equal (@length _) R). rewrite tri_ring in *. cbn [length] in L. repeat (rewrite app_length in L; cbn [length] in L).
  destruct l1 as [|x [|y l1]]; [| |exfalso; cbn in L; lia].
  - destruct l2 as [|y [|z l2]]; [| |exfalso; cbn in L; lia]; injection R as <- <- R; subst; destruct X as [X Y], X' as [X' Y']; unfold along in *; cbn [fst snd] in *.
    + exists (4, 0). split; [right; left; auto|]. split; cbn [fst snd]; nra.
    + exists (0, 0). split; [left; auto|]. split; cbn [fst snd]; nra.
  - destruct l2 as [|z l2]; [|exfalso; cbn in L; lia]. injection R as <- <- <- R. destruct X as [X Y], X' as [X' Y']; unfold along in *; cbn [fst snd] in *.
    exists (0, 4). split; [right; right; left; auto|]. split; cbn [fst snd]; nra.
Qed.
Example tri_query : queryPoint (coords tri) (1, 1) = Ok POINT_INSIDE /\ queryPoint (coords tri) (2, 2) = Ok POINT_ON_EDGE /\
  queryPoint (coords tri) (4, 0) = Ok POINT_ON_VERTEX /\ queryPoint (coords tri) (5, 0) = Ok POINT_OUTSIDE /\ queryPoint (coords tri) (2, 0) = Ok POINT_ON_EDGE.
Proof. vm_compute. auto. Qed.
(* a point on two edges at once counts as off the border *)
Example doubled_edge : let ps := [(0, 0); (2, 0); (1, 5); (2, 0); (0, 0); (1, -(5))] in
  OnBorder (1, 0) ps /\ queryPoint (coords ps) (1, 0) = Ok POINT_OUTSIDE.
Proof. cbv zeta. split; [exists (0, 0), (2, 0), (1 # 2); split; [left; auto|]; split; [lra|split; reflexivity]|vm_compute; auto]. Qed.
Example tri_closest : closestIntersection (coords tri) (1, 1) (5, 5) = Ok (Some (1%nat, along (1, 1) (5, 5) (-(8) / -(32)))) /\ closestIntersection (coords tri) (1, 1) (2, 1) = Ok None.
Proof. vm_compute. auto. Qed.
(* the diagonal of the triangle: the point nearest to the origin is (2, 2), not (0, 4) ... *)
Example tri_project : Edge tri 1 (4, 0) (0, 4) /\ exists q, project (coords tri) (0, 0) 1 = Ok (Some q) /\ SamePoint q (0, 4) /\ ~ NearestOn (0, 0) (4, 0) (0, 4) q.
Proof.
  split; [reflexivity|]. eexists. split; [vm_compute; reflexivity|]. split; [split; reflexivity|]. intros [_ H]. specialize (H (1 # 2) ltac:(lra)). vm_compute in H. apply H. reflexivity.
Qed.
(* ... and an upright edge gives its ends or nothing *)
Example upright_project : project (coords [(0, 0); (0, 4); (4, 0)]) (1, 1) 0 = Ok (Some (0, 4)) /\ project (coords [(0, 0); (0, 4); (4, 0)]) (1, 0) 0 = Ok None.
Proof. vm_compute. auto. Qed.
Example flat_project : Edge tri 0 (0, 0) (4, 0) /\ exists q, project (coords tri) (1, 3) 0 = Ok (Some q) /\ SamePoint q (1, 0).
Proof. split; [reflexivity|]. eexists. split; [vm_compute; reflexivity|split; reflexivity]. Qed.
