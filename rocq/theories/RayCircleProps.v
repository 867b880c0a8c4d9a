(* C38: rays that leave a sphere or a circle. *)
From Coq Require Import Reals Lra.
From Verif Require Import Base NearModel RayCircleModel RayCircleSpec RayCircleProofs.
Local Open Scope R_scope.

(* From inside the ball no assertion fails, and the answer is on the ray and on the sphere; if
   it is the origin of the ray instead, that is on the sphere up to the tolerance. *)
Theorem ray_sphere : forall p n c r tol, 0 < tol -> 0 <= r -> unit3 n -> len2_3 p c <= r * r ->
  exists q, raySphereIntersection p n c r tol = Ok q /\ OnRay3 p n q /\ (len2_3 q c = r * r \/ (q = p /\ r * r - tol / 4 < len2_3 p c)).
Proof.
  intros p n c r tol T R0 N L.
  assert (E : forall a b, rdot3 (rsub3 a b) (rsub3 a b) = len2_3 a b) by (intros [[? ?] ?] [[? ?] ?]; unfold len2_3, sq; cbn; ring).
  destruct (sphere_ok p n c r tol T R0) as (q & t & H & Ht & Q & D).
  - rewrite <- N. destruct n as [[nx ny] nz]. unfold len2_3, sq. cbn. ring.
  - unfold rdistance3. rewrite E, <- (sqrt_square r R0). apply sqrt_le_1_alt. auto.
  - exists q. split; auto. split; [exists t; split; auto; destruct p as [[? ?] ?], n as [[? ?] ?]; auto|]. destruct D as [D|[-> [D _]]].
    + left. rewrite <- D. unfold rdistance3. rewrite E. symmetry. apply sqrt_sqrt. destruct q as [[? ?] ?], c as [[? ?] ?]. unfold len2_3, sq. match goal with |- 0 <= ?x * ?x + ?y * ?y + ?z * ?z => pose proof (sqr_nn x); pose proof (sqr_nn y); pose proof (sqr_nn z); lra end.
    + right. rewrite E in D. auto.
Qed.
Print Assumptions ray_sphere.
Theorem ray_circle : forall p n c r tol, 0 < tol -> 0 <= r -> unit2 n -> len2_2 p c <= r * r ->
  exists q, rayCircleIntersection p n c r tol = Ok q /\ OnRay2 p n q /\ (len2_2 q c = r * r \/ (q = p /\ r * r - tol < len2_2 p c)).
Proof.
  intros p n c r tol T R0 N L. destruct (circle_ok p n c r tol T R0) as (q & t & H & Ht & Q & D).
  - rewrite <- N. unfold rdot2, len2_2, sq. cbn. ring.
  - unfold distance2. change (sqrt (len2_2 p c) <= r). rewrite <- (sqrt_square r R0). apply sqrt_le_1_alt. auto.
  - exists q. split; auto. split; [exists t; split; auto|]. destruct D as [D|[-> [D _]]].
    + left. rewrite <- D. unfold distance2. symmetry. change (sqrt (len2_2 q c) * sqrt (len2_2 q c) = len2_2 q c). apply sqrt_sqrt. unfold len2_2, sq. pose proof (sqr_nn (fst q - fst c)). pose proof (sqr_nn (snd q - snd c)). lra.
    + right. auto.
Qed.
Print Assumptions ray_circle.
(* From outside the circle the answer is the origin, which is not on the circle, even when the ray
   does meet it. *)
Theorem ray_circle_outside_refuted : exists p n c r tol q, 0 < tol /\ 0 <= r /\ unit2 n /\ (exists m, OnRay2 p n m /\ len2_2 m c = r * r) /\
  rayCircleIntersection p n c r tol = Ok q /\ len2_2 q c <> r * r.
Proof.
  exists (2, 0), (-1, 0), (0, 0), 1, (/ 100), (2, 0). split; [lra|]. split; [lra|]. split; [unfold unit2, len2_2, sq; cbn; ring|]. split.
  - exists (1, 0). split; [exists 1; split; [lra|]; cbn; f_equal; ring|unfold len2_2, sq; cbn; ring].
  - split; [|unfold len2_2, sq; cbn; lra]. unfold rayCircleIntersection. rewrite rlt_t; auto. unfold distance2. cbn [fst snd]. replace ((2 - 0) * (2 - 0) + (0 - 0) * (0 - 0)) with (2 * 2) by ring. rewrite sqrt_square; lra.
Qed.
Print Assumptions ray_circle_outside_refuted.
Example ray_sphere_case : 0 < / 100 /\ 0 <= 5 /\ unit3 (1, 0, 0) /\ len2_3 (0, 4, 0) (0, 0, 0) <= 5 * 5 /\ raySphereIntersection (0, 4, 0) (1, 0, 0) (0, 0, 0) 5 (/ 100) = Ok (3, 4, 0).
Proof.
  split; [lra|]. split; [lra|]. split; [unfold unit3, len2_3, sq; ring|]. split; [unfold len2_3, sq; lra|].
  destruct (sphere_ok (0, 4, 0) (1, 0, 0) (0, 0, 0) 5 (/ 100)) as (q & t & H & Ht & Q & D); [lra|lra|cbn; ring|unfold rdistance3; cbn [rsub3 rdot3]; rewrite <- (sqrt_square 5) by lra; apply sqrt_le_1_alt; lra|].
  rewrite H. f_equal. cbn in Q. destruct D as [D|[_ [D _]]]; [|cbn in D; lra]. subst q. unfold rdistance3 in D. cbn [rsub3 rdot3] in D.
  assert (E : (0 + t * 1 - 0) * (0 + t * 1 - 0) + (4 + t * 0 - 0) * (4 + t * 0 - 0) + (0 + t * 0 - 0) * (0 + t * 0 - 0) = 5 * 5). { match type of D with sqrt ?x = _ => assert (X0 : 0 <= x) by (pose proof (sqr_nn t); lra); rewrite <- (sqrt_sqrt x X0), D; auto end. }
  assert (t = 3) by nra. subst t. f_equal; [f_equal|]; ring.
Qed.
