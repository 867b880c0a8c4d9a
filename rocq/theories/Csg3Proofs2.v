(* Cutting a convex polygon by a plane. *)
From Verif Require Import Base BaseFacts PLCSpec Plane WithinSpec MeshEditorModel RayModel Hull3Model Csg3Spec Csg3Model Csg3Proofs WithinProofs.
From Coq Require Import QArith Lqa Lia Permutation Sorted.
Local Open Scope Q_scope.

Lemma C_lerp a b s i : C i (lerp3 a b s) == (1 - s) * C i a + s * C i b.
Proof. unfold lerp3. destruct i as [|[|i]]; coords; ring. Qed.
Lemma turn_lerp n a b s x y : turn n (lerp3 a b s) x y == (1 - s) * turn n a x y + s * turn n b x y.
Proof. unfold lerp3. coords. ring. Qed.
Lemma hull_lerp (S : p3 -> Prop) a b s : S a -> S b -> 0 <= s <= 1 -> Hull S (lerp3 a b s).
Proof.
  intros A B H. apply (mix_add S (1 - s) (fun i => (1 - s) * C i a) s (fun i => s * C i b)).
  - apply (mix_one S (1 - s) a); auto; [lra|reflexivity|intros; reflexivity].
  - apply (mix_one S s b); auto; [lra|reflexivity|intros; reflexivity].
  - ring.
  - intros i. apply C_lerp.
Qed.

(* ---- rotations ---- *)
Lemma turning_rotate1 n a l : Turning n (a :: l) -> Turning n (l ++ [a]).
Proof.
  intros T i j k x y z L Hi Hj Hk.
  assert (Lk : (k < length (l ++ [a]))%nat) by (apply nth_error_Some; congruence). rewrite app_length in Lk. cbn in Lk.
  rewrite nth_error_app1 in Hi, Hj by lia. destruct (Nat.eq_dec k (length l)) as [->|NE].
  - rewrite nth_error_app2, Nat.sub_diag in Hk by lia. injection Hk as <-. rewrite <- turn_cycle. apply (T 0%nat (S i) (S j)); auto. lia.
  - rewrite nth_error_app1 in Hk by lia. apply (T (S i) (S j) (S k)); auto. lia.
Qed.
Lemma turning_rotate n A B : Turning n (A ++ B) -> Turning n (B ++ A).
Proof.
  revert B. induction A as [|a A IH]; intros B T; [rewrite app_nil_r; auto|].
  replace (B ++ a :: A) with ((B ++ [a]) ++ A) by (rewrite <- app_assoc; auto). apply IH. rewrite app_assoc. apply turning_rotate1. auto.
Qed.
Lemma ring_shift {A} (a : A) t : exists e r, ring (a :: t) = e :: r /\ ring (t ++ [a]) = r ++ [e].
Proof.
  destruct t as [|b t]; [exists (a, a), []; auto|]. exists (a, b), (combine (b :: t) (t ++ [a])). split; [reflexivity|].
  cbn [app ring]. replace (b :: t ++ [a]) with ((b :: t) ++ [a]) by auto. assert (L : length (b :: t) = length (t ++ [a])) by (rewrite app_length; cbn; lia).
  revert L. generalize (b :: t) (t ++ [a]). intros u. induction u as [|x u IH]; intros [|y w] L; cbn in L; try discriminate; [reflexivity|].
  cbn. f_equal. apply IH. lia.
Qed.
Lemma ring_turned {A B} (g : A * A -> list B) (Q0 : list B -> Prop) : (forall x y, Q0 (x ++ y) -> Q0 (y ++ x)) ->
  forall l1 l2, Q0 (flat_map g (ring (l2 ++ l1))) -> Q0 (flat_map g (ring (l1 ++ l2))).
Proof.
  intros R. assert (K : forall l1 l2, Q0 (flat_map g (ring (l1 ++ l2))) -> Q0 (flat_map g (ring (l2 ++ l1)))); [|intros; apply K; auto].
  intros l1. induction l1 as [|a l1 IH]; intros l2 H; [rewrite app_nil_r; auto|].
  replace (l2 ++ a :: l1) with ((l2 ++ [a]) ++ l1) by (rewrite <- app_assoc; auto). apply IH. rewrite app_assoc.
  cbn [app] in H. destruct (ring_shift a (l1 ++ l2)) as (e & r & E1 & E2). rewrite E2. rewrite E1 in H. rewrite flat_map_app. cbn [flat_map] in *. rewrite app_nil_r. apply R. auto.
Qed.

(* ---- corners and points on sides, by their place along the polygon ---- *)
Section Places.
  Context (n : p3) (V : list p3) (N : nat).
  Hypothesis (HN : length V = N) (N3 : (3 <= N)%nat) (T : Turning n V).
  Definition pl (i : nat) : p3 := nth (if i =? N then 0 else i) V (0, 0, 0).
  Definition el : Type := nat * nat * Q.
  Definition lo_ (e : el) : nat := fst (fst e).
  Definition hi_ (e : el) : nat := snd (fst e).
  Definition pt (e : el) : p3 := if lo_ e =? hi_ e then pl (lo_ e) else lerp3 (pl (lo_ e)) (pl (hi_ e)) (snd e).
  Definition okel (e : el) : Prop := (lo_ e <= hi_ e <= N)%nat /\ 0 < snd e < 1.
  Lemma pl_nth i : (i < N)%nat -> nth_error V i = Some (pl i).
  Proof using HN N3 T. intros H. unfold pl. rewrite (proj2 (Nat.eqb_neq i N)) by lia. apply nth_error_nth'. lia. Qed.
  Lemma pl_wrap : pl N = pl 0. Proof using HN N3 T. unfold pl. rewrite Nat.eqb_refl, (proj2 (Nat.eqb_neq 0 N)) by lia. reflexivity. Qed.
  Lemma pl_pos i j k : (i < j < k)%nat -> (k <= N)%nat -> (k < i + N)%nat -> 0 < turn n (pl i) (pl j) (pl k).
  Proof using HN N3 T.
    intros H1 H2 H3. destruct (Nat.eq_dec k N) as [->|NE].
    - rewrite pl_wrap, <- turn_cycle. apply (T 0%nat i j); try apply pl_nth; lia.
    - apply (T i j k); try apply pl_nth; lia.
  Qed.
  Lemma pl_weak i j k : (i <= j <= k)%nat -> (k <= N)%nat -> 0 <= turn n (pl i) (pl j) (pl k).
  Proof using HN N3 T.
    intros H1 H2. destruct (Nat.eq_dec i j) as [->|A]; [rewrite turn_same; lra|]. destruct (Nat.eq_dec j k) as [->|B]; [rewrite turn_same2; lra|].
    destruct (Nat.eq_dec k (i + N)) as [E|E]; [|apply Qlt_le_weak, pl_pos; lia].
    replace k with N by lia. replace i with 0%nat by lia. rewrite pl_wrap, turn_same3. lra.
  Qed.
  Lemma pt_turn e x y : turn n (pt e) x y == (1 - snd e) * turn n (pl (lo_ e)) x y + snd e * turn n (pl (hi_ e)) x y.
  Proof using HN N3 T. unfold pt. destruct (lo_ e =? hi_ e)%nat eqn:E; [apply Nat.eqb_eq in E; rewrite <- E; ring|apply turn_lerp]. Qed.
  Lemma mid_pos s x y : 0 < s < 1 -> 0 <= x -> 0 <= y -> 0 < x \/ 0 < y -> 0 < (1 - s) * x + s * y.
  Proof using HN N3 T.
    intros Hs Hx Hy [H|H].
    - assert (0 < (1 - s) * x) by (apply Qmult_lt_0_compat; lra). assert (0 <= s * y) by (apply Qmult_le_0_compat; lra). lra.
    - assert (0 <= (1 - s) * x) by (apply Qmult_le_0_compat; lra). assert (0 < s * y) by (apply Qmult_lt_0_compat; lra). lra.
  Qed.
  Lemma mid_weak s x y : 0 < s < 1 -> 0 <= x -> 0 <= y -> 0 <= (1 - s) * x + s * y.
  Proof using HN N3 T.
    intros Hs Hx Hy. assert (0 <= (1 - s) * x) by (apply Qmult_le_0_compat; lra). assert (0 <= s * y) by (apply Qmult_le_0_compat; lra). lra.
  Qed.
  Lemma el_weak e1 e2 e3 : okel e1 -> okel e2 -> okel e3 -> (hi_ e1 <= lo_ e2)%nat -> (hi_ e2 <= lo_ e3)%nat -> 0 <= turn n (pt e1) (pt e2) (pt e3).
  Proof using HN N3 T.
    intros (A1 & S1) (A2 & S2) (A3 & S3) H12 H23.
    rewrite pt_turn. apply mid_weak; auto; rewrite turn_cycle, pt_turn; (apply mid_weak; auto); rewrite turn_cycle, pt_turn; (apply mid_weak; auto); rewrite turn_cycle; apply pl_weak; lia.
  Qed.
  Definition pick (e : el) (i : nat) : Prop := i = lo_ e \/ i = hi_ e.
  Lemma el_pos e1 e2 e3 i1 i2 i3 : okel e1 -> okel e2 -> okel e3 -> (hi_ e1 <= lo_ e2)%nat -> (hi_ e2 <= lo_ e3)%nat ->
    pick e1 i1 -> pick e2 i2 -> pick e3 i3 -> (i1 < i2 < i3)%nat -> (i3 < i1 + N)%nat -> 0 < turn n (pt e1) (pt e2) (pt e3).
  Proof using HN N3 T.
    intros (A1 & S1) (A2 & S2) (A3 & S3) H12 H23 P1 P2 P3 L L'.
    assert (K3 : forall i j, (i <= j)%nat -> (j <= lo_ e3)%nat -> 0 <= turn n (pl i) (pl j) (pt e3)).
    { intros i j H H'. rewrite <- turn_cycle, pt_turn. apply mid_weak; auto; rewrite turn_cycle; apply pl_weak; lia. }
    assert (K2 : forall i, (i <= lo_ e2)%nat -> 0 <= turn n (pl i) (pt e2) (pt e3)).
    { intros i H. rewrite turn_cycle, pt_turn. apply mid_weak; auto; rewrite <- turn_cycle; apply K3; lia. }
    assert (Q3 : 0 < turn n (pl i1) (pl i2) (pt e3)).
    { rewrite <- turn_cycle, pt_turn. apply mid_pos; auto; try (rewrite turn_cycle; apply pl_weak; unfold pick in *; lia).
      assert (X : 0 < turn n (pl i1) (pl i2) (pl i3)) by (apply pl_pos; unfold pick in *; lia).
      destruct P3 as [-> | ->]; [left|right]; rewrite turn_cycle; auto. }
    assert (Q2 : 0 < turn n (pl i1) (pt e2) (pt e3)).
    { rewrite turn_cycle, pt_turn. apply mid_pos; auto; try (rewrite <- turn_cycle; apply K3; unfold pick in *; lia).
      destruct P2 as [-> | ->]; [left|right]; rewrite <- turn_cycle; auto. }
    rewrite pt_turn. apply mid_pos; auto; try (apply K2; lia). destruct P1 as [-> | ->]; auto.
  Qed.
End Places.
