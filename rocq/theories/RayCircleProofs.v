From Coq Require Import Reals Lra Psatz.
From Verif Require Import Base BaseFacts NearModel RayCircleModel.
Local Open Scope R_scope.

Lemma rle_t a b : a <= b -> rle a b = true.
Proof. intros H. unfold rle. destruct (Rle_dec a b); auto; contradiction. Qed.
Lemma rlt_t a b : a < b -> rlt a b = true.
Proof. intros H. unfold rlt. destruct (Rlt_dec a b); auto; contradiction. Qed.
Lemma rlt_f a b : b <= a -> rlt a b = false.
Proof. intros H. unfold rlt. destruct (Rlt_dec a b); auto; lra. Qed.
Lemma tiny : 0 < / 10 ^ 10.
Proof. apply Rinv_0_lt_compat. apply pow_lt. lra. Qed.
Lemma sqr_nn (x : R) : 0 <= x * x.
Proof. nra. Qed.
(* the larger root of t^2 + 2 b t + s - r^2 = 0 when s <= r^2 *)
Lemma big_root b s r : s <= r * r -> let d := sqrt (b * b - s + r * r) in let t := Rmax (- b - d) (- b + d) in t = - b + d /\ 0 <= t /\ t * t + 2 * b * t + s = r * r.
Proof.
  intros L d t. assert (D : 0 <= b * b - s + r * r) by (pose proof (sqr_nn b); lra). assert (Dn : 0 <= d) by apply sqrt_pos. assert (Dd : d * d = b * b - s + r * r) by (apply sqrt_sqrt; auto).
  assert (Et : t = - b + d) by (unfold t; apply Rmax_right; lra). split; auto. rewrite Et. split; [|nra]. destruct (Rle_dec 0 (- b)); [lra|]. assert (b <= d); [|lra]. apply Rnot_lt_le. intros C. nra.
Qed.
Lemma sqrt_small s r : 0 <= r -> 0 <= s -> sqrt s <= r -> s <= r * r.
Proof. intros R0 S0 L. rewrite <- (sqrt_sqrt s) by auto. pose proof (sqrt_pos s). nra. Qed.

Lemma sphere_ok p n c r tol : 0 < tol -> 0 <= r -> rdot3 n n = 1 -> rdistance3 p c <= r ->
  exists q t, raySphereIntersection p n c r tol = Ok q /\ 0 <= t /\ q = rahead3 p n t /\ (rdistance3 q c = r \/ (q = p /\ r * r - tol / 4 < rdot3 (rsub3 p c) (rsub3 p c) <= r * r)).
Proof.
  intros T R0 N L. unfold raySphereIntersection. rewrite (rle_t _ _ L). cbn [assert bind]. rewrite N. replace (1 - 1) with 0 by ring. rewrite Rabs_R0, (rlt_t _ _ tiny). cbn [assert bind]. cbv zeta.
  set (s := rdot3 (rsub3 p c) (rsub3 p c)). set (h := rdot3 n (rsub3 p c)).
  assert (Sn : 0 <= s) by (unfold s; destruct (rsub3 p c) as [[x y] z]; cbn; pose proof (sqr_nn x); pose proof (sqr_nn y); pose proof (sqr_nn z); lra).
  assert (Sr : s <= r * r) by (apply sqrt_small; auto). pose proof (sqr_nn h) as Hh.
  replace (2 * h * (2 * h) - 4 * (s - r * r)) with (4 * (h * h - s + r * r)) by ring. set (d := h * h - s + r * r). assert (Dn : 0 <= d) by (unfold d; lra).
  rewrite rle_t by lra. cbn [assert bind]. destruct (Rlt_dec (4 * d) tol) as [Sm|Bg].
  - rewrite (rlt_t _ _ Sm). exists p, 0. split; auto. split; [lra|]. split; [destruct p as [[px py] pz], n as [[nx ny] nz]; cbn; f_equal; [f_equal|]; ring|]. right. split; auto. unfold d in Sm. lra.
  - rewrite rlt_f by lra. replace (sqrt (4 * d)) with (2 * sqrt d) by (rewrite sqrt_mult by lra; replace 4 with (2 * 2) by ring; rewrite sqrt_square by lra; ring).
    destruct (big_root h s r Sr) as (Et & Tn & Q). fold d in Et, Tn, Q.
    assert (Eh : / 2 * Rmax (- (2 * h) - 2 * sqrt d) (- (2 * h) + 2 * sqrt d) = - h + sqrt d). { pose proof (sqrt_pos d). rewrite Rmax_right by lra. field. }
    rewrite Eh. rewrite Et in Tn, Q. set (t := - h + sqrt d) in *. rewrite (rle_t _ _ Tn). cbn [assert bind].
    assert (Dist : rdistance3 (rahead3 p n t) c = r).
    { unfold rdistance3. assert (E : rdot3 (rsub3 (rahead3 p n t) c) (rsub3 (rahead3 p n t) c) = t * t * rdot3 n n + 2 * h * t + s). { unfold h, s. destruct p as [[px py] pz], n as [[nx ny] nz], c as [[cx cy] cz]. cbn. ring. }
      rewrite E, N. replace (t * t * 1 + 2 * h * t + s) with (r * r) by (rewrite <- Q; ring). apply sqrt_square. auto. }
    rewrite Dist. replace (r - r) with 0 by ring. rewrite Rabs_R0, (rlt_t _ _ T). cbn [assert bind]. exists (rahead3 p n t), t. split; auto.
Qed.
Lemma circle_ok p n c r tol : 0 < tol -> 0 <= r -> rdot2 n n = 1 -> distance2 p c <= r ->
  exists q t, rayCircleIntersection p n c r tol = Ok q /\ 0 <= t /\ q = rahead2 p n t /\ (distance2 q c = r \/ (q = p /\ r * r - tol < rdot2 (rsub2 p c) (rsub2 p c) <= r * r)).
Proof.
  intros T R0 N L. unfold rayCircleIntersection. rewrite (rlt_f _ _ L), N. replace (1 - 1) with 0 by ring. rewrite Rabs_R0, (rlt_t _ _ tiny). cbn [assert bind]. cbv zeta.
  set (s := rdot2 (rsub2 p c) (rsub2 p c)). set (h := rdot2 n (rsub2 p c)).
  assert (Sn : 0 <= s) by (unfold s, rdot2; pose proof (sqr_nn (fst (rsub2 p c))); pose proof (sqr_nn (snd (rsub2 p c))); lra).
  assert (Sr : s <= r * r) by (apply sqrt_small; auto). pose proof (sqr_nn h) as Hh. set (d := h * h - s + r * r). assert (Dn : 0 <= d) by (unfold d; lra).
  rewrite rle_t by lra. cbn [assert bind]. destruct (Rlt_dec d tol) as [Sm|Bg].
  - rewrite (rlt_t _ _ Sm). exists p, 0. split; auto. split; [lra|]. split; [destruct p, n; unfold rahead2; cbn; f_equal; ring|]. right. split; auto. unfold d in Sm. lra.
  - rewrite rlt_f by lra. destruct (big_root h s r Sr) as (Et & Tn & Q). fold d in Et, Tn, Q. set (t := Rmax (- h - sqrt d) (- h + sqrt d)) in *. rewrite (rle_t _ _ Tn). cbn [assert bind]. exists (rahead2 p n t), t. split; auto. split; auto. split; auto. left.
    unfold distance2. assert (E : (fst (rahead2 p n t) - fst c) * (fst (rahead2 p n t) - fst c) + (snd (rahead2 p n t) - snd c) * (snd (rahead2 p n t) - snd c) = t * t * rdot2 n n + 2 * h * t + s). { unfold h, s, rdot2, rsub2, rahead2. cbn. ring. }
    rewrite E, N. replace (t * t * 1 + 2 * h * t + s) with (r * r) by (rewrite <- Q; ring). apply sqrt_square. auto.
Qed.
