(* Vector algebra for the hull in space. *)
From Verif Require Import Base Plane RayModel WithinProofs PolygonProps Hull3Model Hull3Spec.
From Coq Require Import QArith Lqa.
Local Open Scope Q_scope.

Ltac v3 := repeat match goal with p : p3 |- _ => destruct p as [[? ?] ?] end;
  unfold area2, len2, ip, vol6, det3, dot3, cross3, opp3, add3, div3, sub3, X3, Y3, Z3 in *.

Lemma vol6_dot a b c d : vol6 a b c d == dot3 (sub3 d a) (cross3 (sub3 b a) (sub3 c a)).
Proof. v3. ring. Qed.
Lemma area2_dot a b c : dot3 (cross3 (sub3 b a) (sub3 c a)) (cross3 (sub3 b a) (sub3 c a)) == area2 a b c.
Proof. v3. ring. Qed.
Lemma area2_swap a b c : area2 b a c == area2 a b c.
Proof. v3. ring. Qed.
Lemma area2_turn a b c : area2 b c a == area2 a b c.
Proof. v3. ring. Qed.
Lemma vol6_swap a b c d : vol6 b a c d == - vol6 a b c d.
Proof. v3. ring. Qed.
Lemma vol6_turn a b c d : vol6 b c a d == vol6 a b c d.
Proof. v3. ring. Qed.
Lemma vol6_last a b c d : vol6 a b d c == - vol6 a b c d.
Proof. v3. ring. Qed.
Lemma vol6_shift a b c d : vol6 d a b c == - vol6 a b c d.
Proof. v3. ring. Qed.
Lemma vol6_mid a b c d : vol6 a c b d == - vol6 a b c d.
Proof. v3. ring. Qed.
Lemma vol6_ends a b c d : vol6 d b c a == - vol6 a b c d.
Proof. v3. ring. Qed.
Lemma vol6_24 a b c d : vol6 a d c b == - vol6 a b c d.
Proof. v3. ring. Qed.
Lemma vol6_a a b c : vol6 a b c a == 0.
Proof. v3. ring. Qed.
Lemma vol6_b a b c : vol6 a b c b == 0.
Proof. v3. ring. Qed.
Lemma vol6_c a b c : vol6 a b c c == 0.
Proof. v3. ring. Qed.
Lemma vol6_aa a b c : vol6 a a b c == 0.
Proof. v3. ring. Qed.
Lemma vol6_bb a b c : vol6 a b b c == 0.
Proof. v3. ring. Qed.
Lemma vol6_ac a b c : vol6 a b a c == 0.
Proof. v3. ring. Qed.
(* volumes seen from q over the three edges of a triangle *)
Lemma vol6_edges a b c p q : vol6 q a b p + vol6 q b c p + vol6 q c a p == vol6 a b c p - vol6 a b c q.
Proof. v3. ring. Qed.

Lemma det_plucker u x y p q : det3 u x y * det3 u p q == det3 u x p * det3 u y q - det3 u x q * det3 u y p.
Proof. v3. ring. Qed.
(* the planes through the edge ab *)
Lemma plucker a b x y p q : vol6 a b x y * vol6 a b p q == vol6 a b x p * vol6 a b y q - vol6 a b x q * vol6 a b y p.
Proof. unfold vol6. apply det_plucker. Qed.
Lemma det_cross u v w : det3 u v w == dot3 w (cross3 u v).
Proof. v3. ring. Qed.
Lemma det_plane n x y w : dot3 n n * det3 x y w ==
  dot3 x n * dot3 (cross3 y w) n + dot3 y n * dot3 (cross3 w x) n + dot3 w n * dot3 (cross3 x y) n.
Proof. v3. ring. Qed.
(* four points in a plane that is not degenerate *)
Lemma coplanar a b c x y z w : 0 < area2 a b c -> vol6 a b c x == 0 -> vol6 a b c y == 0 -> vol6 a b c z == 0 -> vol6 a b c w == 0 ->
  vol6 x y z w == 0.
Proof.
  intros A Hx Hy Hz Hw. rewrite vol6_dot in Hx, Hy, Hz, Hw. rewrite <- area2_dot in A. set (n := cross3 (sub3 b a) (sub3 c a)) in *. clearbody n.
  assert (E : forall y, dot3 (sub3 y a) n == 0 -> dot3 (sub3 y x) n == 0).
  { intros y' Hy'. assert (E : dot3 (sub3 y' x) n == dot3 (sub3 y' a) n - dot3 (sub3 x a) n) by (clear; v3; ring). rewrite E, Hy', Hx. ring. }
  pose proof (E _ Hy) as Ey. pose proof (E _ Hz) as Ez. pose proof (E _ Hw) as Ew. clear E.
  pose proof (det_plane n (sub3 y x) (sub3 z x) (sub3 w x)) as G. rewrite Ey, Ez, Ew in G. unfold vol6.
  assert (G0 : dot3 n n * det3 (sub3 y x) (sub3 z x) (sub3 w x) == 0) by (rewrite G; ring).
  apply Qmult_integral in G0. destruct G0; [lra|auto].
Qed.

Lemma cone_split u u' w x : let N := cross3 u u' in
  dot3 N N * dot3 x w == dot3 N (cross3 w u') * dot3 x u + dot3 N (cross3 u w) * dot3 x u' + det3 u u' w * dot3 x N.
Proof. cbv zeta. v3. ring. Qed.
Lemma cone_u u u' w q : let N := cross3 u u' in
  dot3 N N * det3 u w q == dot3 N (cross3 u w) * dot3 q N + det3 u u' w * dot3 q (cross3 u N).
Proof. cbv zeta. v3. ring. Qed.
Lemma cone_u' u u' w q : let N := cross3 u u' in
  dot3 N N * det3 u' w q == - dot3 N (cross3 w u') * dot3 q N + det3 u u' w * dot3 q (cross3 u' N).
Proof. cbv zeta. v3. ring. Qed.
(* Two rays u, u' of a face and a third w in their plane, each of u, u' on the border of a half
   space that contains w but not the other: then w points between the opposites of u and u', and
   the planes turned out of u, w and u', w face opposite ways. *)
Lemma two_cone u u' w m1 m2 q : 0 < dot3 (cross3 u u') (cross3 u u') -> det3 u u' w == 0 ->
  dot3 m1 u == 0 -> 0 < dot3 m1 w -> dot3 m1 u' <= 0 ->
  dot3 m2 u' == 0 -> 0 < dot3 m2 w -> dot3 m2 u <= 0 ->
  0 <= det3 u w q * det3 u' w q -> det3 u w q == 0.
Proof.
  intros M H H1 P1 Q1 H2 P2 Q2 K.
  pose proof (cone_split u u' w m1) as E1. pose proof (cone_split u u' w m2) as E2.
  pose proof (cone_u u u' w q) as E3. pose proof (cone_u' u u' w q) as E4. cbv zeta in *.
  set (S0 := dot3 (cross3 u u') (cross3 w u')) in *. set (T0 := dot3 (cross3 u u') (cross3 u w)) in *.
  set (m := dot3 (cross3 u u') (cross3 u u')) in *. set (nq := dot3 q (cross3 u u')) in *.
  set (k1 := det3 u w q) in *. set (k2 := det3 u' w q) in *.
  set (x1 := dot3 q (cross3 u (cross3 u u'))) in *. set (x2 := dot3 q (cross3 u' (cross3 u u'))) in *.
  clearbody S0 T0 m nq k1 k2 x1 x2.
  rewrite H, H1 in E1. rewrite H, H2 in E2. rewrite H in E3, E4.
  assert (E1' : m * dot3 m1 w == T0 * dot3 m1 u') by (rewrite E1; ring).
  assert (E2' : m * dot3 m2 w == S0 * dot3 m2 u) by (rewrite E2; ring).
  assert (E3' : m * k1 == T0 * nq) by (rewrite E3; ring).
  assert (E4' : m * k2 == - (S0 * nq)) by (rewrite E4; ring). clear E1 E2 E3 E4.
  assert (T : T0 < 0).
  { pose proof (sign_pp _ _ M P1). destruct (Qlt_le_dec T0 0); auto. pose proof (sign_pp T0 (- dot3 m1 u')). 
    assert (0 <= T0 * - dot3 m1 u') by (apply Qmult_le_0_compat; lra). lra. }
  assert (S : S0 < 0).
  { pose proof (sign_pp _ _ M P2). destruct (Qlt_le_dec S0 0); auto.
    assert (0 <= S0 * - dot3 m2 u) by (apply Qmult_le_0_compat; lra). lra. }
  assert (E : (m * k1) * (m * k2) == - ((- S0) * (- T0) * (nq * nq))) by (rewrite E3', E4'; ring).
  assert (E' : (m * k1) * (m * k2) == (m * m) * (k1 * k2)) by ring. rewrite E' in E. clear E'.
  pose proof (sign_pp _ _ M M) as MM. assert (K' : 0 <= (m * m) * (k1 * k2)) by (apply Qmult_le_0_compat; lra).
  assert (ST : 0 < (- S0) * (- T0)) by (apply sign_pp; lra).
  pose proof (sq0 nq) as Nq.
  assert (Z : nq * nq == 0).
  { destruct (Qlt_le_dec 0 (nq * nq)) as [L|L]; [|lra]. pose proof (sign_pp _ _ ST L). lra. }
  assert (Z' : nq == 0) by (apply Qmult_integral in Z; destruct Z; auto).
  rewrite Z' in E3'. assert (m * k1 == 0) by (rewrite E3'; ring). apply Qmult_integral in H0. destruct H0; [lra|auto].
Qed.

Definition eq3 (a b : p3) : Prop := X3 a == X3 b /\ Y3 a == Y3 b /\ Z3 a == Z3 b.
Lemma dot3_eq3 x a b : eq3 a b -> dot3 x a == dot3 x b.
Proof. intros (A & B & C). unfold dot3. rewrite A, B, C. reflexivity. Qed.
Lemma dot3_eq3_2 a b : eq3 a b -> dot3 a a == dot3 b b.
Proof. intros (A & B & C). unfold dot3. rewrite A, B, C. reflexivity. Qed.
Lemma flip_normal a b c n : eq3 n (cross3 (sub3 b a) (sub3 c a)) -> eq3 (opp3 n) (cross3 (sub3 a b) (sub3 c b)).
Proof. intros (A & B & C). unfold eq3, opp3, X3, Y3, Z3 in *. destruct n as [[? ?] ?]. rewrite A, B, C. clear. v3. repeat split; ring. Qed.
Lemma len2_pos a b : 0 <= len2 a b.
Proof. unfold len2, ip. pose proof (sq0 (X3 (sub3 b a))). pose proof (sq0 (Y3 (sub3 b a))). pose proof (sq0 (Z3 (sub3 b a))). lra. Qed.
Lemma line_dist a b c : 0 < len2 a b -> dot3 (sub3 c a) (sub3 c a) - dot3 (sub3 c a) (sub3 b a) * dot3 (sub3 c a) (sub3 b a) / len2 a b == area2 a b c / len2 a b.
Proof.
  intros L. unfold area2. assert (E1 : dot3 (sub3 c a) (sub3 c a) == len2 a c) by reflexivity.
  assert (E2 : dot3 (sub3 c a) (sub3 b a) == ip (sub3 b a) (sub3 c a)) by (unfold dot3, ip; ring). rewrite E1, E2. field. lra.
Qed.
