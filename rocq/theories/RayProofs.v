From Verif Require Import Base BaseFacts SerializeModel Plane PlaneFacts MeshEditorModel AreaProofs WithinSpec HullSpec RayModel RaySpec.
From Coq Require Import QArith Qabs ZArith Lia Lqa.
Local Open Scope Q_scope.

(* ---- segments ---- *)
Section Seg.
Variables (a b c d : p2) (tol : Q).
Let r1 := sub2 b a. Let r2 := sub2 d c. Let ca := sub2 c a.
Let den := cross2 r1 r2.
Lemma den_parallel : den == 0 <-> Parallel a b c d.
Proof. unfold den, r1, r2, cross2, sub2, Parallel. cbn [fst snd]. split; intros H; lra. Qed.
Lemma meet_iff s u : ~ den == 0 -> Meet a b c d s u <-> s == cross2 ca r2 / den /\ u == cross2 ca r1 / den.
Proof.
  intros N. unfold Meet, eq2, along. cbn [fst snd]. split.
  - intros [X Y]. 
    assert (X' : s * fst r1 - u * fst r2 == fst ca) by (unfold r1, r2, ca, sub2; cbn [fst snd]; lra).
    assert (Y' : s * snd r1 - u * snd r2 == snd ca) by (unfold r1, r2, ca, sub2; cbn [fst snd]; lra).
    assert (S : s * den == cross2 ca r2) by (unfold den, cross2; rewrite <- X', <- Y'; ring).
    assert (U : u * den == cross2 ca r1) by (unfold den, cross2; rewrite <- X', <- Y'; ring).
    split; [rewrite <- S|rewrite <- U]; field; auto.
  - intros [S U]. unfold den in *. unfold cross2, sub2, r1, r2, ca in *. cbn [fst snd] in *.
    split; rewrite S, U; unfold cross2, sub2; cbn [fst snd]; field; auto.
Qed.
Lemma qle_b x y : Qle_bool x y = true <-> x <= y.
Proof. apply Qle_bool_iff. Qed.
Lemma seg_iff : (exists r, segmentIntersection2D a b c d tol = Some r) <-> ~ Parallel a b c d /\ exists s u, Meet a b c d s u /\ Within (- tol) s (1 + tol) /\ Within (- tol) u (1 + tol).
Proof.
  unfold segmentIntersection2D. fold r1 r2 ca. fold den. rewrite <- den_parallel. destruct (Qeq_bool den 0) eqn:E.
  - apply Qeq_bool_iff in E. split; [intros [r H]; discriminate|intros [N _]; contradiction].
  - assert (N : ~ den == 0) by (intros C; apply Qeq_bool_iff in C; congruence). cbv zeta.
    destruct (Qle_bool (- tol) (cross2 ca r2 / den) && Qle_bool (cross2 ca r2 / den) (1 + tol) && Qle_bool (- tol) (cross2 ca r1 / den) && Qle_bool (cross2 ca r1 / den) (1 + tol)) eqn:T.
    + apply andb_true_iff in T as [T T4]. apply andb_true_iff in T as [T T3]. apply andb_true_iff in T as [T1 T2]. apply qle_b in T1, T2, T3, T4. split; [|eauto]. intros _. split; auto.
      exists (cross2 ca r2 / den), (cross2 ca r1 / den). split; [apply meet_iff; auto; split; reflexivity|]. split; split; auto.
    + split; [intros [r H]; discriminate|]. intros (_ & s & u & M & [A B] & [C D]). apply meet_iff in M as [S U]; auto. rewrite S in A, B. rewrite U in C, D. apply not_true_iff_false in T. exfalso. apply T.
      repeat (apply andb_true_intro; split); apply qle_b; auto.
Qed.
Lemma seg_point r : segmentIntersection2D a b c d tol = Some r -> exists s u, Meet a b c d s u /\ Within (- tol) s (1 + tol) /\ Within (- tol) u (1 + tol) /\
  ((Within (- tol) s tol /\ r = a) \/ (Within (1 - tol) s (1 + tol) /\ r = b) \/ (Within (- tol) u tol /\ r = c) \/ (Within (1 - tol) u (1 + tol) /\ r = d) \/ eq2 r (along c d u)) /\
  (tol <= s -> s <= 1 - tol -> tol <= u -> u <= 1 - tol -> eq2 r (along a b s) /\ eq2 r (along c d u)).
Proof.
  unfold segmentIntersection2D. fold r1 r2 ca. fold den. destruct (Qeq_bool den 0) eqn:E; [discriminate|].
  assert (N : ~ den == 0) by (intros C; apply Qeq_bool_iff in C; congruence). cbv zeta.
  destruct (Qle_bool (- tol) (cross2 ca r2 / den) && Qle_bool (cross2 ca r2 / den) (1 + tol) && Qle_bool (- tol) (cross2 ca r1 / den) && Qle_bool (cross2 ca r1 / den) (1 + tol)) eqn:T; [|discriminate].
  apply andb_true_iff in T as [T T4]. apply andb_true_iff in T as [T T3]. apply andb_true_iff in T as [T1 T2]. apply qle_b in T1, T2, T3, T4. intros H.
  assert (M : Meet a b c d (cross2 ca r2 / den) (cross2 ca r1 / den)) by (apply meet_iff; auto; split; reflexivity).
  exists (cross2 ca r2 / den), (cross2 ca r1 / den). set (s := cross2 ca r2 / den) in *. set (u := cross2 ca r1 / den) in *. clearbody s u. split; auto. split; [split; auto|]. split; [split; auto|].
  assert (Lf : forall x y, Qlt_bool x y = false -> y <= x). { intros x y F. apply Qnot_lt_le. intros C. apply qlt_bool_iff in C. congruence. }
  unfold Within. destruct (Qlt_bool s tol) eqn:C1; [apply qlt_bool_iff in C1; injection H as <-; split; [left; split; auto; lra|intros; lra]|apply Lf in C1].
  destruct (Qlt_bool (1 - tol) s) eqn:C2; [apply qlt_bool_iff in C2; injection H as <-; split; [right; left; split; auto; lra|intros; lra]|apply Lf in C2].
  destruct (Qlt_bool u tol) eqn:C3; [apply qlt_bool_iff in C3; injection H as <-; split; [right; right; left; split; auto; lra|intros; lra]|apply Lf in C3].
  destruct (Qlt_bool (1 - tol) u) eqn:C4; [apply qlt_bool_iff in C4; injection H as <-; split; [right; right; right; left; split; auto; lra|intros; lra]|apply Lf in C4].
  injection H as <-. assert (Eu : eq2 (fst c + u * fst r2, snd c + u * snd r2) (along c d u)) by (split; reflexivity). split; [auto|]. intros _ _ _ _. split; auto. unfold Meet, eq2 in *. destruct M as [-> ->]. auto.
Qed.
End Seg.
Lemma proper_hit a b c d : ProperCrossing a b c d -> ~ Parallel a b c d /\ exists s u, Meet a b c d s u /\ Within 0 s 1 /\ Within 0 u 1 /\ ~ s == 0 /\ ~ s == 1 /\ ~ u == 0 /\ ~ u == 1.
Proof.
  intros [A B]. set (den := cross2 (sub2 b a) (sub2 d c)).
  assert (Ed : orient a b d - orient a b c == den) by (unfold orient, den, cross2, sub2; cbn [fst snd]; ring).
  assert (Ed' : orient c d a - orient c d b == den) by (unfold orient, den, cross2, sub2; cbn [fst snd]; ring).
  assert (N : ~ den == 0). { intros Z. rewrite Z in Ed. assert (orient a b d == orient a b c) by lra. rewrite H in A. nra. }
  split; [rewrite <- den_parallel; auto|].
  set (s := cross2 (sub2 c a) (sub2 d c) / den). set (u := cross2 (sub2 c a) (sub2 b a) / den).
  assert (S : s * den == orient c d a) by (unfold s; setoid_replace (cross2 (sub2 c a) (sub2 d c)) with (orient c d a) by (unfold orient, cross2, sub2; cbn [fst snd]; ring); field; auto).
  assert (U : u * den == - orient a b c) by (unfold u; setoid_replace (cross2 (sub2 c a) (sub2 b a)) with (- orient a b c) by (unfold orient, cross2, sub2; cbn [fst snd]; ring); field; auto).
  exists s, u. split; [apply meet_iff; auto; split; reflexivity|].
  set (p := orient c d a) in *. set (q := orient c d b) in *. set (v := orient a b c) in *. set (w := orient a b d) in *.
  assert (Hs : 0 < s /\ s < 1).
  { assert (p == s * den) by lra. assert (q == (s - 1) * den) by lra. rewrite H, H0 in B. assert (0 < den * den) by nra. assert (s * (s - 1) < 0) by nra. split; nra. }
  assert (Hu : 0 < u /\ u < 1).
  { assert (v == - (u * den)) by lra. assert (w == (1 - u) * den) by lra. rewrite H, H0 in A. assert (0 < den * den) by nra. assert (u * (u - 1) < 0) by nra. split; nra. }
  unfold Within. repeat split; try lra; intros Z; lra.
Qed.

(* ---- planes ---- *)
Lemma plane_hit p n q m tol : 0 < tol -> tol <= Qabs (inner n m) -> forall r, rayPlaneIntersection p n q m tol = Some r -> OnRay p n r /\ OnPlane q m r.
Proof.
  intros T L r. unfold rayPlaneIntersection. change (dot3 n m) with (inner n m). destruct (Qlt_bool (Qabs (inner n m)) tol) eqn:E; [apply qlt_bool_iff in E; lra|]. cbv zeta.
  destruct (Qle_bool 0 (dot3 (sub3 q p) m / inner n m)) eqn:D; [|discriminate]. intros [= <-]. apply qle_b in D.
  assert (N : ~ inner n m == 0). { intros Z. rewrite Z in L. cbn in L. lra. }
  split; [exists (dot3 (sub3 q p) m / inner n m); split; auto; split; [|split]; reflexivity|].
  unfold OnPlane. set (t := dot3 (sub3 q p) m / inner n m) in *. assert (K : t * inner n m == inner (sub3 q p) m) by (unfold t; change dot3 with inner; field; auto).
  destruct p as [[px py] pz], n as [[nx ny] nz], q as [[qx qy] qz], m as [[mx my] mz]. unfold inner, ahead3, sub3, X3, Y3, Z3 in *. lra.
Qed.
Lemma plane_complete p n q m tol r : 0 < tol -> tol <= Qabs (inner n m) -> OnRay p n r -> OnPlane q m r -> exists r', rayPlaneIntersection p n q m tol = Some r' /\ eq3 r' r.
Proof.
  intros T L (t & Ht & E) P. unfold rayPlaneIntersection. change (dot3 n m) with (inner n m). destruct (Qlt_bool (Qabs (inner n m)) tol) eqn:C; [apply qlt_bool_iff in C; lra|]. cbv zeta.
  assert (N : ~ inner n m == 0). { intros Z. rewrite Z in L. cbn in L. lra. }
  assert (K : dot3 (sub3 q p) m / inner n m == t).
  { assert (K : inner (sub3 q p) m == t * inner n m); [|change dot3 with inner; rewrite K; field; auto].
    unfold OnPlane in P. destruct p as [[px py] pz], n as [[nx ny] nz], q as [[qx qy] qz], m as [[mx my] mz], r as [[rx ry] rz]. unfold inner, ray_at, eq3, sub3, X3, Y3, Z3 in *. destruct E as (E1 & E2 & E3). rewrite E1, E2, E3 in P. lra. }
  rewrite (proj2 (qle_b _ _)); [|rewrite K; auto]. eexists. split; [reflexivity|]. destruct E as (E1 & E2 & E3). unfold eq3, ahead3, ray_at, X3, Y3, Z3 in *. destruct p as [[px py] pz], n as [[nx ny] nz], r as [[rx ry] rz]. rewrite K. split; [|split]; lra.
Qed.
Lemma plane_miss p n q m tol : 0 < tol -> tol <= Qabs (inner n m) -> rayPlaneIntersection p n q m tol = None -> forall r, OnRay p n r -> ~ OnPlane q m r.
Proof. intros T L E r R P. destruct (plane_complete p n q m tol r T L R P) as (r' & E' & _). congruence. Qed.

(* ---- boxes ---- *)
Definition hit p n tol (pl : Z * p3 * p3) : option p3 := let '(_, corner, normal) := pl in rayPlaneIntersection p n corner normal tol.
Definition BestOf (p n : p3) (tol : Q) (l : list (Z * p3 * p3)) (st : option (Z * Q * p3)) : Prop :=
  match st with
  | None => forall pl, In pl l -> hit p n tol pl = None
  | Some (id, d, r) => d == sdist3 p r /\ (exists c m, In (id, c, m) l /\ hit p n tol (id, c, m) = Some r) /\ forall pl r', In pl l -> hit p n tol pl = Some r' -> d <= sdist3 p r'
  end.
Lemma best_fold p n tol l2 : forall l1 st, BestOf p n tol l1 st -> BestOf p n tol (l1 ++ l2) (fold_left (box_plane p n tol) l2 st).
Proof.
  induction l2 as [|[[id c] m] l2 IH]; intros l1 st H; cbn [fold_left]; [rewrite app_nil_r; auto|].
  replace (l1 ++ (id, c, m) :: l2) with ((l1 ++ [(id, c, m)]) ++ l2) by (rewrite <- app_assoc; auto). apply IH. unfold box_plane.
  destruct (rayPlaneIntersection p n c m tol) as [cand|] eqn:E.
  - destruct st as [[[i0 d0] r0]|]; cbn in H.
    + destruct H as (Hd & (c0 & m0 & I0 & H0) & Hm). destruct (Qlt_bool (sdist3 p cand) d0) eqn:Lt.
      * apply qlt_bool_iff in Lt. cbn. split; [reflexivity|]. split; [exists c, m; split; auto; apply in_or_app; right; left; auto|].
        intros pl r' I R. apply in_app_or in I as [I|[<-|[]]]; [pose proof (Hm pl r' I R); lra|]. cbn in R. rewrite E in R. injection R as <-. lra.
      * assert (d0 <= sdist3 p cand) by (apply Qnot_lt_le; intros C; apply qlt_bool_iff in C; congruence). cbn. split; auto. split; [exists c0, m0; split; auto; apply in_or_app; auto|].
        intros pl r' I R. apply in_app_or in I as [I|[<-|[]]]; [apply (Hm pl r' I R)|]. cbn in R. rewrite E in R. injection R as <-. auto.
    + cbn. split; [reflexivity|]. split; [exists c, m; split; auto; apply in_or_app; right; left; auto|]. intros pl r' I R. apply in_app_or in I as [I|[<-|[]]]; [rewrite H in R; auto; discriminate|]. cbn in R. rewrite E in R. injection R as <-. lra.
  - destruct st as [[[i0 d0] r0]|]; cbn in *.
    + destruct H as (Hd & (c0 & m0 & I0 & H0) & Hm). split; auto. split; [exists c0, m0; split; auto; apply in_or_app; auto|]. intros pl r' I R. apply in_app_or in I as [I|[<-|[]]]; [apply (Hm pl r' I R)|]. cbn in R. congruence.
    + intros pl I. apply in_app_or in I as [I|[<-|[]]]; auto.
Qed.
Lemma box_best p n lo hi tol : BestOf p n tol (box_planes lo hi) (fold_left (box_plane p n tol) (box_planes lo hi) None).
Proof. apply (best_fold p n tol (box_planes lo hi) [] None). intros pl []. Qed.

(* one direction *)
Definition coord (c : p3 -> Q) (e : p3) : Prop := (forall v, inner v e == c v) /\ (forall p n t, c (ahead3 p n t) == c p + t * c n) /\ (forall a b, c (sub3 a b) == c a - c b).
Lemma coordX : coord X3 (1, 0, 0).
Proof. split; [|split]; [intros [[x y] z]; unfold inner, X3, Y3, Z3; ring|reflexivity|]. intros [[? ?] ?] [[? ?] ?]. reflexivity. Qed.
Lemma coordY : coord Y3 (0, 1, 0).
Proof. split; [|split]; [intros [[x y] z]; unfold inner, X3, Y3, Z3; ring|reflexivity|]. intros [[? ?] ?] [[? ?] ?]. reflexivity. Qed.
Lemma coordZ : coord Z3 (0, 0, 1).
Proof. split; [|split]; [intros [[x y] z]; unfold inner, X3, Y3, Z3; ring|reflexivity|]. intros [[? ?] ?] [[? ?] ?]. reflexivity. Qed.
Lemma plane_axis c e p n q tol : coord c e -> 0 < tol -> tol <= Qabs (c n) ->
  match rayPlaneIntersection p n q e tol with
  | Some r => exists t, 0 <= t /\ r = ahead3 p n t /\ c p + t * c n == c q
  | None => forall t, 0 <= t -> ~ c p + t * c n == c q
  end.
Proof.
  intros (C1 & C2 & C3) T L. unfold rayPlaneIntersection. change dot3 with inner. assert (N : ~ inner n e == 0). { rewrite C1. intros Z. rewrite Z in L. cbn in L. lra. }
  destruct (Qlt_bool (Qabs (inner n e)) tol) eqn:E; [apply qlt_bool_iff in E; rewrite C1 in E; lra|]. cbv zeta.
  set (d := inner (sub3 q p) e / inner n e). assert (K : d * c n == c q - c p). { unfold d. rewrite <- (C1 n). setoid_replace (c q - c p) with (inner (sub3 q p) e) by (rewrite C1; symmetry; apply C3). field. auto. }
  rewrite C1 in N. destruct (Qle_bool 0 d) eqn:D.
  - apply qle_b in D. exists d. split; auto. split; auto. lra.
  - intros t Ht Z. assert (M : (t - d) * c n == 0) by lra. apply Qmult_integral in M as [M|M]; [|auto]. assert (0 <= d) by lra. apply qle_b in H. congruence.
Qed.
Lemma plane_idle c e p n q tol : coord c e -> 0 < tol -> c n == 0 -> tol <= Qabs (inner p (sub3 q p)) -> rayPlaneIntersection p n q e tol = None.
Proof.
  intros (C1 & C2 & C3) T Z L. unfold rayPlaneIntersection. change dot3 with inner. destruct (Qlt_bool (Qabs (inner n e)) tol) eqn:E.
  - destruct (Qlt_bool (Qabs (inner p (sub3 q p))) tol) eqn:F; auto. apply qlt_bool_iff in F. lra.
  - exfalso. assert (tol <= Qabs (inner n e)) by (apply Qnot_lt_le; intros C; apply qlt_bool_iff in C; congruence). rewrite C1, Z in H. cbn in H. lra.
Qed.
Lemma sdist_ahead p n t : sdist3 p (ahead3 p n t) == t * t * inner n n.
Proof. destruct p as [[px py] pz], n as [[nx ny] nz]. unfold sdist3, ahead3, sub3, dot3, inner, X3, Y3, Z3. ring. Qed.
Lemma abs_pos x tol : 0 < tol -> tol <= Qabs x -> 0 < x \/ x < 0.
Proof. intros T L. destruct (Qlt_le_dec 0 x); auto. right. destruct (Qlt_le_dec x 0); auto. assert (x == 0) by lra. rewrite H in L. cbn in L. lra. Qed.

Section Box.
Variables (p n lo hi : p3) (tol : Q).
Hypothesis (T : 0 < tol) (I : InBox lo hi p).
Let N := inner n n.
Lemma hit_form c e q r : coord c e -> Clear p n lo hi tol c -> q = lo \/ q = hi -> rayPlaneIntersection p n q e tol = Some r -> tol <= Qabs (c n) /\ exists t, 0 <= t /\ r = ahead3 p n t /\ c p + t * c n == c q.
Proof.
  intros C [Cl|(Z & L1 & L2)] Q H.
  - split; auto. pose proof (plane_axis c e p n q tol C T Cl) as K. rewrite H in K. auto.
  - exfalso. assert (K : rayPlaneIntersection p n q e tol = None) by (destruct Q as [-> | ->]; eapply plane_idle; eauto). congruence.
Qed.
(* the side through which the ray leaves in this direction *)
Lemma exit_hit c e : coord c e -> Within (c lo) (c p) (c hi) -> tol <= Qabs (c n) -> exists q t, (q = lo \/ q = hi) /\ 0 <= t /\ rayPlaneIntersection p n q e tol = Some (ahead3 p n t) /\
  forall t', 0 <= t' -> t' <= t -> Within (c lo) (c p + t' * c n) (c hi).
Proof.
  intros C [W1 W2] L. destruct (abs_pos _ _ T L) as [P|P].
  - pose proof (plane_axis c e p n hi tol C T L) as K. destruct (rayPlaneIntersection p n hi e tol) as [r|] eqn:E.
    + destruct K as (t & Ht & -> & Q). exists hi, t. split; auto. split; auto. split; auto. intros t' A B. split; nra.
    + exfalso. apply (K ((c hi - c p) / c n)); [apply Qle_shift_div_l; lra|field; lra].
  - pose proof (plane_axis c e p n lo tol C T L) as K. destruct (rayPlaneIntersection p n lo e tol) as [r|] eqn:E.
    + destruct K as (t & Ht & -> & Q). exists lo, t. split; auto. split; auto. split; auto. intros t' A B. split; nra.
    + exfalso. assert (Q : 0 <= (c p - c lo) / - c n) by (apply Qle_shift_div_l; lra). apply (K ((c p - c lo) / - c n) Q). field. lra.
Qed.
Lemma sq_le t u : 0 <= t -> 0 <= u -> 0 < N -> t * t * N <= u * u * N -> t <= u.
Proof. intros A B P H. destruct (Qlt_le_dec u t); auto. exfalso. assert (L : u * u < t * t) by nra. assert (0 < (t * t - u * u) * N) by (apply Qmult_lt_0_compat; lra). lra. Qed.
Lemma box_ok : Clear p n lo hi tol X3 -> Clear p n lo hi tol Y3 -> Clear p n lo hi tol Z3 -> tol <= Qabs (X3 n) \/ tol <= Qabs (Y3 n) \/ tol <= Qabs (Z3 n) ->
  exists id r, rayBoxIntersection p n lo hi tol = Some (id, r) /\ OnRay p n r /\ OnSide lo hi id r.
Proof.
  intros CX CY CZ Some_. pose proof (box_best p n lo hi tol) as B. unfold rayBoxIntersection.
  destruct I as (IX & IY & IZ).
  assert (Np : 0 < N).
  { assert (K : forall u v w : Q, u * u + v * v + w * w == N -> tol <= Qabs u -> 0 < N). { intros u v w E L. assert (Sq : forall x : Q, 0 <= x * x) by (intros x; nra). pose proof (Sq v). pose proof (Sq w). assert (0 < u * u) by (destruct (abs_pos _ _ T L); nra). lra. }
    destruct Some_ as [L|[L|L]]; [apply (K (X3 n) (Y3 n) (Z3 n))|apply (K (Y3 n) (X3 n) (Z3 n))|apply (K (Z3 n) (Y3 n) (X3 n))]; auto; unfold N, inner; ring. }
  destruct (fold_left (box_plane p n tol) (box_planes lo hi) None) as [[[id d] r]|] eqn:F; cbn [BestOf] in B.
  - destruct B as (Ed & (c & m & Im & Hm) & Min). exists id, r. split; auto.
    assert (Form : exists t, 0 <= t /\ r = ahead3 p n t /\ match id with 0 => X3 r == X3 lo | 1 => X3 r == X3 hi | 2 => Y3 r == Y3 lo | 3 => Y3 r == Y3 hi | 4 => Z3 r == Z3 lo | 5 => Z3 r == Z3 hi | _ => False end%Z).
    { cbn [hit] in Hm. unfold box_planes in Im. destruct Im as [Im|[Im|[Im|[Im|[Im|[Im|[]]]]]]]; injection Im as <- <- <-;
        [destruct (hit_form X3 _ lo r coordX CX (or_introl eq_refl) Hm) as (_ & t & Ht & -> & E)|destruct (hit_form X3 _ hi r coordX CX (or_intror eq_refl) Hm) as (_ & t & Ht & -> & E)
        |destruct (hit_form Y3 _ lo r coordY CY (or_introl eq_refl) Hm) as (_ & t & Ht & -> & E)|destruct (hit_form Y3 _ hi r coordY CY (or_intror eq_refl) Hm) as (_ & t & Ht & -> & E)
        |destruct (hit_form Z3 _ lo r coordZ CZ (or_introl eq_refl) Hm) as (_ & t & Ht & -> & E)|destruct (hit_form Z3 _ hi r coordZ CZ (or_intror eq_refl) Hm) as (_ & t & Ht & -> & E)]; exists t; (split; [auto|split; [auto|exact E]]). }
    destruct Form as (t & Ht & -> & On). split; [exists t; split; auto; split; [|split]; reflexivity|]. split; auto.
    assert (Ins : forall c e, coord c e -> Clear p n lo hi tol c -> Within (c lo) (c p) (c hi) -> In (0%Z, lo, e) (map (fun x => (0%Z, snd (fst x), snd x)) (box_planes lo hi)) -> In (0%Z, hi, e) (map (fun x => (0%Z, snd (fst x), snd x)) (box_planes lo hi)) -> Within (c lo) (c (ahead3 p n t)) (c hi)).
    { intros c0 e C Cl W I1 I2. destruct C as (C1 & C2 & C3). unfold Within. rewrite C2. destruct Cl as [L|(Z & _)].
      - destruct (exit_hit c0 e (conj C1 (conj C2 C3)) W L) as (q & t' & Q & Ht' & H' & K). apply K; auto.
        assert (Iq : exists id', In (id', q, e) (box_planes lo hi)). { destruct Q as [-> | ->]; [apply in_map_iff in I1 as ([[i' q'] e'] & E & J)|apply in_map_iff in I2 as ([[i' q'] e'] & E & J)]; cbn in E; injection E as -> ->; eauto. }
        destruct Iq as (id' & Iq). apply sq_le; auto. pose proof (sdist_ahead p n t) as S1. pose proof (sdist_ahead p n t') as S2. pose proof (Min _ _ Iq H') as S3. unfold N in *. lra.
      - rewrite Z. destruct W. split; lra. }
    split; [|split]; [apply (Ins X3 (1, 0, 0) coordX)|apply (Ins Y3 (0, 1, 0) coordY)|apply (Ins Z3 (0, 0, 1) coordZ)]; auto; cbn; auto 10.
  - exfalso. destruct Some_ as [L|[L|L]].
    + destruct (exit_hit X3 _ coordX IX L) as (q & t & Q & _ & H & _). destruct Q as [-> | ->]; [specialize (B (0%Z, lo, (1, 0, 0)))|specialize (B (1%Z, hi, (1, 0, 0)))]; cbn [hit] in B; rewrite B in H; try discriminate; cbn; auto 10.
    + destruct (exit_hit Y3 _ coordY IY L) as (q & t & Q & _ & H & _). destruct Q as [-> | ->]; [specialize (B (2%Z, lo, (0, 1, 0)))|specialize (B (3%Z, hi, (0, 1, 0)))]; cbn [hit] in B; rewrite B in H; try discriminate; cbn; auto 10.
    + destruct (exit_hit Z3 _ coordZ IZ L) as (q & t & Q & _ & H & _). destruct Q as [-> | ->]; [specialize (B (4%Z, lo, (0, 0, 1)))|specialize (B (5%Z, hi, (0, 0, 1)))]; cbn [hit] in B; rewrite B in H; try discriminate; cbn; auto 10.
Qed.
End Box.
