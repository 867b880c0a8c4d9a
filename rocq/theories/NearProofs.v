From Verif Require Import Base BaseFacts SerializeModel MeshModel StdAlg NearModel NearSpec.
From Coq Require Import Reals Lra.
Local Open Scope R_scope.

Lemma rlt_true a b : rlt a b = true <-> a < b.
Proof. unfold rlt. destruct (Rlt_dec a b); split; auto; try discriminate; contradiction. Qed.
Lemma rlt_false a b : rlt a b = false <-> b <= a.
Proof. unfold rlt. destruct (Rlt_dec a b); split; auto; try discriminate; lra. Qed.

Lemma distance2_dist a b : distance2 a b = euclid a b.
Proof. unfold distance2, euclid. f_equal. ring. Qed.
Lemma dist_nonneg a b : 0 <= euclid a b.
Proof. apply sqrt_pos. Qed.
Lemma sq_nonneg (x y : R) : 0 <= x ^ 2 + y ^ 2.
Proof. nra. Qed.
Lemma dist_sq a b : euclid a b * euclid a b = (fst a - fst b) ^ 2 + (snd a - snd b) ^ 2.
Proof. unfold euclid. apply sqrt_sqrt. apply sq_nonneg. Qed.
Lemma dist_le a b c d : (fst a - fst b) ^ 2 + (snd a - snd b) ^ 2 <= (fst c - fst d) ^ 2 + (snd c - snd d) ^ 2 -> euclid a b <= euclid c d.
Proof. intros H. apply sqrt_le_1; auto using sq_nonneg. Qed.
Lemma dist_sym a b : euclid a b = euclid b a.
Proof. unfold euclid. f_equal. ring. Qed.
Lemma dist_zero a b : euclid a b = 0 -> a = b.
Proof.
  intros H. pose proof (dist_sq a b) as E. rewrite H in E. destruct a as [x y], b as [x' y']; cbn [fst snd] in *.
  assert (G : forall r s : R, 0 * 0 = r ^ 2 + s ^ 2 -> r = 0).
  { intros r t K. destruct (Req_dec r 0) as [Z|Z]; auto. exfalso. assert (0 < r ^ 2) by (rewrite <- Rsqr_pow2; apply Rsqr_pos_lt; auto). pose proof (pow2_ge_0 t). lra. }
  pose proof (G _ _ E) as Gx. rewrite Rplus_comm in E. pose proof (G _ _ E) as Gy. f_equal; lra.
Qed.
Lemma dist_refl a : euclid a a = 0.
Proof. unfold euclid. replace ((fst a - fst a) ^ 2 + (snd a - snd a) ^ 2) with 0 by ring. apply sqrt_0. Qed.
Lemma dist_triangle a b c : euclid a c <= euclid a b + euclid b c.
Proof.
  pose proof (dist_nonneg a b). pose proof (dist_nonneg b c). pose proof (dist_nonneg a c).
  pose proof (dist_sq a b) as E1. pose proof (dist_sq b c) as E2. pose proof (dist_sq a c) as E3.
  set (u := euclid a b) in *. set (v := euclid b c) in *. set (w := euclid a c) in *.
  set (x := fst a - fst b) in *. set (y := snd a - snd b) in *. set (x' := fst b - fst c) in *. set (y' := snd b - snd c) in *.
  assert (W : w * w = (x + x') ^ 2 + (y + y') ^ 2). { rewrite E3. unfold x, x', y, y'. ring. }
  assert (CS : (x * x' + y * y') ^ 2 <= (u * v) ^ 2).
  { replace ((u * v) ^ 2) with ((u * u) * (v * v)) by ring. rewrite E1, E2. pose proof (pow2_ge_0 (x * y' - y * x')). nra. }
  assert (UV : 0 <= u * v) by nra.
  assert (CS' : x * x' + y * y' <= u * v). { destruct (Rle_lt_dec (x * x' + y * y') (u * v)); auto. exfalso. nra. }
  assert (S2 : w * w <= (u + v) * (u + v)) by nra.
  apply Rsqr_incr_0_var; [exact S2|lra].
Qed.

(* ---- the nearest point of one segment ---- *)
Lemma closest_short p a b : euclid a b < / 10 ^ 10 -> OnSegment a b (closest p a b) /\
  forall q, OnSegment a b q -> euclid p (closest p a b) <= euclid p q + / 2 * euclid a b.
Proof.
  intros H. unfold closest. cbv zeta.
  replace (sqrt ((fst b - fst a) * (fst b - fst a) + (snd b - snd a) * (snd b - snd a))) with (euclid a b)
    by (rewrite dist_sym; unfold euclid; f_equal; ring).
  apply rlt_true in H. rewrite H. split.
  - exists (/ 2). cbn [fst snd]. repeat split; lra.
  - intros q (t & Ht & Ex & Ey). eapply Rle_trans; [apply (dist_triangle p q)|]. apply Rplus_le_compat_l.
    pose proof (dist_nonneg a b) as N. apply Rsqr_incr_0_var; [|lra]. unfold Rsqr. rewrite dist_sq. cbn [fst snd].
    replace (/ 2 * euclid a b * (/ 2 * euclid a b)) with (/ 4 * (euclid a b * euclid a b)) by lra. rewrite dist_sq. rewrite Ex, Ey.
    set (x := fst b - fst a). set (y := snd b - snd a).
    replace ((fst a + t * x - / 2 * (fst a + fst b)) ^ 2) with ((t - / 2) ^ 2 * x ^ 2) by (unfold x; field).
    replace ((snd a + t * y - / 2 * (snd a + snd b)) ^ 2) with ((t - / 2) ^ 2 * y ^ 2) by (unfold y; field).
    replace ((fst a - fst b) ^ 2) with (x ^ 2) by (unfold x; ring). replace ((snd a - snd b) ^ 2) with (y ^ 2) by (unfold y; ring).
    assert ((t - / 2) ^ 2 <= / 4) by nra. pose proof (pow2_ge_0 x). pose proof (pow2_ge_0 y). nra.
Qed.
Lemma closest_long p a b : / 10 ^ 10 <= euclid a b -> OnSegment a b (closest p a b) /\
  forall q, OnSegment a b q -> euclid p (closest p a b) <= euclid p q.
Proof.
  intros H. assert (L0 : 0 < euclid a b). { eapply Rlt_le_trans; [|exact H]. apply Rinv_0_lt_compat, pow_lt. lra. }
  unfold closest. cbv zeta.
  replace (sqrt ((fst b - fst a) * (fst b - fst a) + (snd b - snd a) * (snd b - snd a))) with (euclid a b)
    by (rewrite dist_sym; unfold euclid; f_equal; ring).
  apply rlt_false in H. rewrite H. clear H.
  pose proof (dist_sq a b) as L2. set (len := euclid a b) in *. set (x := fst b - fst a) in *. set (y := snd b - snd a) in *.
  replace ((fst a - fst b) ^ 2 + (snd a - snd b) ^ 2) with (x * x + y * y) in L2 by (unfold x, y; ring).
  set (u := fst p - fst a). set (w := snd p - snd a).
  assert (E : u * (x / len) + w * (y / len) = (u * x + w * y) / len) by (field; lra). rewrite E.
  set (s := (u * x + w * y) / len). assert (Es : s * len = u * x + w * y) by (unfold s; field; lra).
  set (t := Rmax 0 (Rmin len s)).
  assert (T0 : 0 <= t) by apply Rmax_l.
  assert (T1 : t <= len) by (apply Rmax_lub; [lra|apply Rmin_l]).
  set (tau := t / len). assert (Et : tau * len = t) by (unfold tau; field; lra).
  assert (Ta : 0 <= tau <= 1) by (split; nra).
  replace (t * (x / len)) with (tau * x) by (unfold tau; field; lra). replace (t * (y / len)) with (tau * y) by (unfold tau; field; lra).
  split; [exists tau; cbn [fst snd]; auto|].
  intros q (r & Hr & Ex & Ey). apply dist_le. cbn [fst snd]. rewrite Ex, Ey. fold x y.
  replace (fst p - (fst a + tau * x)) with (u - tau * x) by (unfold u; ring). replace (snd p - (snd a + tau * y)) with (w - tau * y) by (unfold w; ring).
  replace (fst p - (fst a + r * x)) with (u - r * x) by (unfold u; ring). replace (snd p - (snd a + r * y)) with (w - r * y) by (unfold w; ring).
  (* |p - a - r s|^2 - |p - a - tau s|^2 = (r - tau) ((r + tau) L^2 - 2 s.p) *)
  assert (K : (u - r * x) ^ 2 + (w - r * y) ^ 2 - ((u - tau * x) ^ 2 + (w - tau * y) ^ 2) = (r - tau) * ((r + tau) * (len * len) - 2 * (s * len))).
  { rewrite Es, L2. ring. }
  assert (K' : 0 <= (r - tau) * ((r + tau) * (len * len) - 2 * (s * len))).
  { replace ((r - tau) * ((r + tau) * (len * len) - 2 * (s * len))) with (len * ((r - tau) * ((r + tau) * len - 2 * s))) by ring.
    apply Rmult_le_pos; [lra|].
    unfold t in *. destruct (Rle_lt_dec s 0) as [S0|S0].
    - assert (E0 : tau = 0). { assert (M : Rmax 0 (Rmin len s) = 0) by (apply Rmax_left; eapply Rle_trans; [apply Rmin_r|]; lra). rewrite M in Et. nra. }
      rewrite E0. assert (0 <= r * len) by nra. apply Rmult_le_pos; lra.
    - destruct (Rle_lt_dec len s) as [S1|S1].
      + assert (E1 : tau = 1). { assert (M : Rmax 0 (Rmin len s) = len) by (rewrite Rmin_left by lra; apply Rmax_right; lra). rewrite M in Et. nra. }
        rewrite E1. replace ((r - 1) * ((r + 1) * len - 2 * s)) with ((1 - r) * (2 * s - (r + 1) * len)) by ring.
        assert ((r + 1) * len <= 2 * len) by nra. apply Rmult_le_pos; lra.
      + assert (M : Rmax 0 (Rmin len s) = s) by (rewrite Rmin_right by lra; apply Rmax_right; lra). rewrite M in Et. rewrite <- Et.
        replace ((r - tau) * ((r + tau) * len - 2 * (tau * len))) with (len * (r - tau) ^ 2) by ring.
        apply Rmult_le_pos; [lra|apply pow2_ge_0]. }
  lra.
Qed.

(* nearest up to a slack that only tiny segments need *)
Lemma closest_ok p a b : OnSegment a b (closest p a b) /\
  forall q, OnSegment a b q -> euclid p (closest p a b) <= euclid p q + slack /\ (~ Tiny a b -> euclid p (closest p a b) <= euclid p q).
Proof.
  assert (SL : 0 < slack). { unfold slack. assert (0 < / 10 ^ 10) by (apply Rinv_0_lt_compat, pow_lt; lra). lra. }
  destruct (Rle_lt_dec (/ 10 ^ 10) (euclid a b)) as [L|L].
  - destruct (closest_long p a b L) as [A B]. split; auto. intros q Q. specialize (B q Q). split; auto. lra.
  - destruct (closest_short p a b L) as [A B]. split; auto. intros q Q. specialize (B q Q). split.
    + unfold slack. pose proof (dist_nonneg a b). lra.
    + intros NT. pose proof (dist_nonneg a b) as N. assert (Z : euclid a b = 0).
      { destruct N as [N|N]; [|lra]. destruct NT. split; auto. }
      rewrite Z in B. lra.
Qed.

(* ---- arrays ---- *)
Lemma read2_ok v i q : read2 v i = Ok q <-> point_at v i q.
Proof.
  unfold read2, point_at, get. destruct (nth_error v (2 * i)) as [x|]; cbn [bind]; [|split; [discriminate|intros [? ?]; discriminate]].
  destruct (nth_error v (2 * i + 1)) as [y|]; cbn [bind]; [|split; [discriminate|intros [? ?]; discriminate]].
  destruct q as [a b]; cbn [fst snd]. split; [intros [= <- <-]; auto|intros [[= <-] [= <-]]; auto].
Qed.
Lemma point_ex v i : (2 * i + 1 < length v)%nat -> exists q, point_at v i q.
Proof.
  intros H. destruct (nth_error_ex v (2 * i)) as [x Hx]; [lia|]. destruct (nth_error_ex v (2 * i + 1)) as [y Hy]; [lia|].
  exists (x, y). split; auto.
Qed.
Lemma point_fun v i q q' : point_at v i q -> point_at v i q' -> q = q'.
Proof. intros [A B] [A' B']. destruct q, q'; cbn [fst snd] in *. congruence. Qed.

(* ---- all facets ---- *)
Section Facets.
  Context (big : R) (p : pt2) (v : list R) (nv : nat) (Hv : (2 * nv <= length v)%nat).
  Definition segs (fs : list (list Z)) : Prop :=
    forall f, In f fs -> exists i j, f = [Z.of_nat i; Z.of_nat j] /\ (i < nv)%nat /\ (j < nv)%nat.
  Definition no_tiny (fs : list (list Z)) : Prop :=
    forall i j a b, In [Z.of_nat i; Z.of_nat j] fs -> point_at v i a -> point_at v j b -> ~ Tiny a b.
  (* (d, r) is best among the facets fs *)
  Record best (fs : list (list Z)) (d : R) (r : option pt2) : Prop := {
    be_none : r = None -> d = big;
    be_some : forall q, r = Some q -> d = euclid p q /\ d < big /\ exists f, In f fs /\ OnFacet v f q;
    be_min : forall f q, In f fs -> OnFacet v f q -> d <= euclid p q + slack;
    be_min' : no_tiny fs -> forall f q, In f fs -> OnFacet v f q -> d <= euclid p q }.

  Lemma best_nil : best [] big None.
  Proof. constructor; auto; try (intros; contradiction). discriminate. Qed.
  Lemma best_app fs gs d r d' r' : best fs d r -> best gs d' r' ->
    let '(e, c) := if rlt d' d then (d', r') else (d, r) in best (fs ++ gs) e c.
  Proof.
    intros [A B C E] [A' B' C' E']. destruct (rlt d' d) eqn:L; [apply rlt_true in L|apply rlt_false in L]; constructor; auto.
    - intros q H. destruct (B' q H) as (X & Y & f & I & O). repeat split; auto. exists f. split; auto. apply in_or_app; auto.
    - intros f q I O. apply in_app_or in I as [I|I]; [|eauto]. specialize (C f q I O). lra.
    - intros N f q I O. apply in_app_or in I as [I|I].
      + assert (X : d <= euclid p q) by (apply (E (fun i j a b J => N i j a b (in_or_app _ _ _ (or_introl J))) f q I O)). lra.
      + apply (E' (fun i j a b J => N i j a b (in_or_app _ _ _ (or_intror J))) f q I O).
    - intros q H. destruct (B q H) as (X & Y & f & I & O). repeat split; auto. exists f. split; auto. apply in_or_app; auto.
    - intros f q I O. apply in_app_or in I as [I|I]; [eauto|]. specialize (C' f q I O). lra.
    - intros N f q I O. apply in_app_or in I as [I|I].
      + apply (E (fun i j a b J => N i j a b (in_or_app _ _ _ (or_introl J))) f q I O).
      + assert (X : d' <= euclid p q) by (apply (E' (fun i j a b J => N i j a b (in_or_app _ _ _ (or_intror J))) f q I O)). lra.
  Qed.
  (* one facet; a candidate no nearer than big leaves the initial values *)
  Lemma best_one i j a b : point_at v i a -> point_at v j b ->
    let c := closest p a b in let d := euclid p c in
    let '(e, r) := if rlt d big then (d, Some c) else (big, None) in best [[Z.of_nat i; Z.of_nat j]] e r.
  Proof.
    intros Ha Hb. destruct (closest_ok p a b) as [O M]. cbv zeta.
    assert (U : forall f q, In f [[Z.of_nat i; Z.of_nat j]] -> OnFacet v f q -> OnSegment a b q).
    { intros f q [<-|[]] (i' & j' & a' & b' & E & Ha' & Hb' & S). injection E as Ei Ej. apply Nat2Z.inj in Ei, Ej. subst i' j'.
      rewrite (point_fun _ _ _ _ Ha Ha'), (point_fun _ _ _ _ Hb Hb'). auto. }
    destruct (rlt (euclid p (closest p a b)) big) eqn:L; [apply rlt_true in L|apply rlt_false in L]; constructor; try discriminate; auto.
    - intros q [= <-]. repeat split; auto. exists [Z.of_nat i; Z.of_nat j]. split; [left; auto|]. exists i, j, a, b. auto.
    - intros f q I Of. apply M. eauto.
    - intros N f q I Of. apply M; eauto. apply (N i j a b); auto. left; auto.
    - intros f q I Of. destruct (M q (U f q I Of)). lra.
    - intros N f q I Of. destruct (M q (U f q I Of)) as [_ X]. specialize (X (N i j a b (or_introl eq_refl) Ha Hb)). lra.
  Qed.

  Lemma in_range_ok i : (i < nv)%nat -> in_range (Z.of_nat i) nv = true.
  Proof. intros H. unfold in_range. apply andb_true_intro. split; [apply Z.leb_le|apply Z.ltb_lt]; lia. Qed.

  Lemma facets_ok fs : segs fs -> exists d r, closest_on_facets big p nv v fs = Ok (d, r) /\ best fs d r.
  Proof.
    intros S. unfold closest_on_facets.
    match goal with |- context [mfold ?f _ _] => destruct (mfold_inv f (fun l st => best l (fst st) (snd st)) fs (big, None)) as ([d r] & E & B) end.
    - apply best_nil.
    - intros l1 f l2 [d r] -> B. cbn [fst snd] in B.
      destruct (S f) as (i & j & -> & Hi & Hj); [apply in_or_app; right; left; auto|].
      rewrite !in_range_ok by auto. cbn [assert bind]. rewrite !Nat2Z.id.
      destruct (point_ex v i) as [a Ha]; [lia|]. destruct (point_ex v j) as [b Hb]; [lia|].
      rewrite (proj2 (read2_ok v i a) Ha). cbn [bind]. rewrite (proj2 (read2_ok v j b) Hb). cbn [bind].
      eexists. split; [reflexivity|]. rewrite distance2_dist.
      pose proof (best_one i j a b Ha Hb) as B1. cbv zeta in B1.
      destruct (rlt (euclid p (closest p a b)) big) eqn:L.
      + pose proof (best_app _ _ _ _ _ _ B B1) as X. destruct (rlt (euclid p (closest p a b)) d); exact X.
      + (* the candidate is beyond big, and d is at most big *)
        pose proof (best_app _ _ _ _ _ _ B B1) as X. apply rlt_false in L.
        assert (Db : d <= big). { destruct r as [q|]; [destruct (be_some _ _ _ B q eq_refl) as (_ & Y & _); lra|rewrite (be_none _ _ _ B); auto; lra]. }
        replace (rlt big d) with false in X by (symmetry; apply rlt_false; lra).
        replace (rlt (euclid p (closest p a b)) d) with false by (symmetry; apply rlt_false; lra). exact X.
    - exists d, r. auto.
  Qed.

  Lemma nearest_ok (g : plc) : segs (facets g) -> (forall h, In h (holes g) -> segs h) ->
    exists d r, nearestPoint big p nv v g = Ok (d, r) /\ best (facets g ++ concat (holes g)) d r.
  Proof.
    intros S H. destruct (facets_ok _ S) as (d & r & E & B). unfold nearestPoint. rewrite E. cbn [bind].
    match goal with |- context [mfold ?f _ _] => destruct (mfold_inv f (fun l st => best (facets g ++ concat l) (fst st) (snd st)) (holes g) (d, r)) as ([d' r'] & E' & B') end.
    - cbn. rewrite app_nil_r. auto.
    - intros l1 h l2 [d1 r1] Eh B1. cbn [fst snd] in B1.
      destruct (facets_ok h) as (dh & rh & -> & Bh); [apply H; rewrite Eh; apply in_or_app; right; left; auto|]. cbn [bind].
      eexists. split; [reflexivity|]. rewrite concat_app. cbn [concat]. rewrite app_nil_r, app_assoc.
      pose proof (best_app _ _ _ _ _ _ B1 Bh) as X. destruct (rlt dh d1); exact X.
    - exists d', r'. auto.
  Qed.
End Facets.
