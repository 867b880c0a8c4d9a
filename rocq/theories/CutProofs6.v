(* Lemmas for CutProps.v: what a cut leaves of a convex polygon. *)
From Verif Require Import Base BaseFacts Plane PLCSpec MeshEditorModel CutModel CutSpec CutProofs2 CutProofs5.
From Coq Require Import QArith Lqa Psatz.
Local Open Scope nat_scope.

Lemma span {A} (f : A -> bool) l : exists a b, l = a ++ b /\ Forall (fun v => f v = true) a /\ (b = [] \/ exists v b', b = v :: b' /\ f v = false).
Proof.
  induction l as [|x l (a & b & E & F & G)]; [exists [], []; auto|]. destruct (f x) eqn:C; [exists (x :: a), b; subst; auto|]. exists [], (x :: l). split; auto. split; auto. right. eauto.
Qed.
Definition Alternate {A} (f : A -> bool) l := exists i j k m p q r s, i < j < k /\ k < m /\ nth_error l i = Some p /\ nth_error l j = Some q /\ nth_error l k = Some r /\ nth_error l m = Some s /\
  f q = negb (f p) /\ f r = f p /\ f s = negb (f p).
Lemma nth_mid {A} (a : list A) x b : nth_error (a ++ x :: b) (length a) = Some x.
Proof. rewrite nth_error_app2, Nat.sub_diag by auto. auto. Qed.
Lemma arcs {A} (f : A -> bool) l : (exists o k, Turn l (o ++ k) /\ Forall (fun v => f v = true) o /\ Forall (fun v => f v = false) k) \/ Alternate f l.
Proof.
  destruct l as [|x l]; [left; exists [], []; split; [exists [], []; auto|auto]|].
  set (g := fun v => Bool.eqb (f v) (f x)). assert (Gt : forall v, g v = true -> f v = f x) by (intros v H; apply eqb_prop; auto). assert (Gf : forall v, g v = false -> f v = negb (f x)) by (intros v H; unfold g in H; destruct (f v), (f x); try discriminate; auto).
  assert (Gx : g x = true) by apply eqb_reflx.
  assert (All : forall o k, Turn (x :: l) (o ++ k) -> Turn (x :: l) (k ++ o) -> Forall (fun v => g v = true) o -> Forall (fun v => g v = false) k -> exists o k, Turn (x :: l) (o ++ k) /\ Forall (fun v => f v = true) o /\ Forall (fun v => f v = false) k).
  { intros o k T T' Fo Fk. destruct (f x) eqn:Fx; [exists o, k|exists k, o]; split; auto; split.
    - revert Fo. apply Forall_impl. intros v H. apply Gt in H. congruence.
    - revert Fk. apply Forall_impl. intros v H. apply Gf in H. rewrite H. auto.
    - revert Fk. apply Forall_impl. intros v H. apply Gf in H. rewrite H. auto.
    - revert Fo. apply Forall_impl. intros v H. apply Gt in H. congruence. }
  destruct (span g (x :: l)) as (a & b & E & Fa & Hb). destruct Hb as [->|(y & b' & -> & Gy)].
  - left. apply (All a []); auto; rewrite ?app_nil_r in *; rewrite E; exists [], a; rewrite ?app_nil_r; auto.
  - destruct a as [|x' a]; [cbn in E; injection E as <- _; congruence|]. assert (x' = x) by (cbn in E; congruence). subst x'.
    destruct (span (fun v => negb (g v)) (y :: b')) as (F & R & E2 & FF & HR). assert (FF' : Forall (fun v => g v = false) F) by (revert FF; apply Forall_impl; intros v H; apply negb_true_iff; auto).
    destruct HR as [->|(z & R' & -> & Gz)].
    + left. rewrite app_nil_r in E2. subst F. apply (All (x :: a) (y :: b')); auto; rewrite E; [exists [], ((x :: a) ++ y :: b'); rewrite app_nil_r; auto|exists (x :: a), (y :: b'); auto].
    + apply negb_false_iff in Gz. destruct F as [|y' F]; [cbn in E2; injection E2 as <- _; congruence|]. assert (y' = y) by (cbn in E2; congruence). subst y'.
      destruct (span g (z :: R')) as (R1 & R2 & E3 & FR & HR). destruct HR as [->|(w & R2' & -> & Gw)].
      * left. rewrite app_nil_r in E3. subst R1. rewrite E2 in E. apply (All ((z :: R') ++ (x :: a)) (y :: F)); auto; [| |apply Forall_app; auto].
        -- rewrite E. exists ((x :: a) ++ (y :: F)), (z :: R'). rewrite <- !app_assoc. auto.
        -- rewrite E. exists (x :: a), ((y :: F) ++ z :: R'). rewrite <- !app_assoc. auto.
      * right. destruct R1 as [|z' R1]; [cbn in E3; injection E3 as <- _; congruence|]. assert (z' = z) by (cbn in E3; congruence). subst z'.
        rewrite E3 in E2. rewrite E2 in E. exists 0, (length (x :: a)), (length ((x :: a) ++ (y :: F))), (length ((x :: a) ++ (y :: F) ++ (z :: R1))), x, y, z, w.
        split; [rewrite app_length; cbn [length]; lia|]. split; [rewrite !app_length; cbn [length]; lia|]. split; auto. rewrite E.
        split; [change ((y :: F) ++ (z :: R1) ++ w :: R2') with (y :: (F ++ (z :: R1) ++ w :: R2')); apply nth_mid|].
        split; [rewrite app_assoc; change ((z :: R1) ++ w :: R2') with (z :: (R1 ++ w :: R2')); apply nth_mid|].
        split; [rewrite (app_assoc (y :: F)), (app_assoc (x :: a)); apply nth_mid|]. auto.
Qed.

Lemma bilin (a b c d e f g h : Q) : (0 < a -> 0 < b -> 0 < c -> 0 < d -> 0 <= e -> 0 <= f -> 0 <= g -> 0 <= h -> 0 < f \/ 0 < g \/ 0 < h -> 0 < a * (c * e + d * f) + b * (c * g + d * h))%Q.
Proof.
  intros A B C D E F G H T. pose proof (Qmult_le_0_compat c e ltac:(lra) E). pose proof (Qmult_le_0_compat d f ltac:(lra) F). pose proof (Qmult_le_0_compat c g ltac:(lra) G). pose proof (Qmult_le_0_compat d h ltac:(lra) H).
  pose proof (Qmult_le_0_compat a (c * e + d * f) ltac:(lra) ltac:(lra)). pose proof (Qmult_le_0_compat b (c * g + d * h) ltac:(lra) ltac:(lra)).
  destruct T as [T|[T|T]].
  - pose proof (Qmult_lt_0_compat d f D T). pose proof (Qmult_lt_0_compat a (c * e + d * f) A ltac:(lra)). lra.
  - pose proof (Qmult_lt_0_compat c g C T). pose proof (Qmult_lt_0_compat b (c * g + d * h) B ltac:(lra)). lra.
  - pose proof (Qmult_lt_0_compat d h D T). pose proof (Qmult_lt_0_compat b (c * g + d * h) B ltac:(lra)). lra.
Qed.
Section S.
  Variable (x y rsq : Q).
  Definition uu (q : p2) : Q := (x * fst q + y * snd q - rsq)%Q.
  Lemma four a b c d : (orient b c d * uu a + orient a b d * uu c == orient a c d * uu b + orient a b c * uu d)%Q /\ (orient b c d + orient a b d == orient a c d + orient a b c)%Q.
  Proof. unfold orient, uu. split; ring. Qed.
  Lemma no_alternate ps t : StrictlyConvex ps -> ~ Alternate (fun p => Qlt_bool t (uu p)) ps.
  Proof.
    intros SC (i & j & k & m & a & b & c & d & O & O' & A & B & C & D & Fb & Fc & Fd).
    assert (H1 : (0 < orient b c d)%Q) by (apply (SC j k m); auto; lia). assert (H2 : (0 < orient a b d)%Q) by (apply (SC i j m); auto; lia). assert (H3 : (0 < orient a c d)%Q) by (apply (SC i k m); auto; lia). assert (H4 : (0 < orient a b c)%Q) by (apply (SC i j k); auto; lia).
    destruct (four a b c d) as [I1 I2]. destruct (Qlt_bool t (uu a)) eqn:Ea; cbn [negb] in *.
    - apply qlt_t in Ea, Fc. apply qlt_f in Fb, Fd. nra.
    - apply qlt_f in Ea, Fc. apply qlt_t in Fb, Fd. nra.
  Qed.

  Lemma cross_mix a b : (uu a < 0)%Q -> (0 < uu b)%Q -> exists s, (0 < s)%Q /\ (s < 1)%Q /\ let p := cross_at a b (uu a) (uu b) in
    (fst p == (1 - s) * fst a + s * fst b)%Q /\ (snd p == (1 - s) * snd a + s * snd b)%Q /\ (uu p == 0)%Q.
  Proof.
    intros A B. exists (uu a / (uu a - uu b))%Q. assert (D : (0 < uu b - uu a)%Q) by lra.
    assert (E : (uu a / (uu a - uu b) == (- uu a) / (uu b - uu a))%Q) by (field; split; lra).
    split; [rewrite E; apply Qlt_shift_div_l; auto; lra|]. split; [rewrite E; apply Qlt_shift_div_r; auto; lra|].
    unfold cross_at. cbn [fst snd]. split; [field; lra|]. split; [field; lra|]. unfold uu at 1. cbn [fst snd]. 
    assert (Z : (x * ((fst b * uu a - fst a * uu b) * (1 / (uu a - uu b))) + y * ((snd b * uu a - snd a * uu b) * (1 / (uu a - uu b))) - rsq == (uu a * uu b - uu b * uu a) * (1 / (uu a - uu b)))%Q).
    { assert (R : (rsq == (rsq * (uu a - uu b)) * (1 / (uu a - uu b)))%Q) by (field; lra). rewrite R at 1. unfold uu at 1 2 5 7 8. unfold uu. ring. }
    rewrite Z. ring.
  Qed.
  Lemma mix3 p q a b s X : (fst X == (1 - s) * fst a + s * fst b)%Q -> (snd X == (1 - s) * snd a + s * snd b)%Q -> (orient p q X == (1 - s) * orient p q a + s * orient p q b)%Q.
  Proof. intros A B. unfold orient. rewrite A, B. ring. Qed.
  Lemma mix_uu a b s X : (fst X == (1 - s) * fst a + s * fst b)%Q -> (snd X == (1 - s) * snd a + s * snd b)%Q -> (uu X == (1 - s) * uu a + s * uu b)%Q.
  Proof. intros A B. unfold uu. rewrite A, B. ring. Qed.
  (* two points on the line *)
  Lemma on_line p q r w : (uu p == 0)%Q -> (uu q == 0)%Q -> (orient p q r * uu w == orient p q w * uu r)%Q.
  Proof.
    intros P Q0. assert (Ew : (uu w == x * (fst w - fst p) + y * (snd w - snd p) + uu p)%Q) by (unfold uu; ring). assert (Er : (uu r == x * (fst r - fst p) + y * (snd r - snd p) + uu p)%Q) by (unfold uu; ring).
    assert (Z : (x * (fst q - fst p) + y * (snd q - snd p) == 0)%Q) by (assert (uu q - uu p == x * (fst q - fst p) + y * (snd q - snd p))%Q by (unfold uu; ring); lra).
    rewrite Ew, Er, P. unfold orient.
    assert (I : (((fst q - fst p) * (snd r - snd p) - (snd q - snd p) * (fst r - fst p)) * (x * (fst w - fst p) + y * (snd w - snd p) + 0) - ((fst q - fst p) * (snd w - snd p) - (snd q - snd p) * (fst w - fst p)) * (x * (fst r - fst p) + y * (snd r - snd p) + 0) ==
      (x * (fst q - fst p) + y * (snd q - snd p)) * ((fst w - fst p) * (snd r - snd p) - (fst r - fst p) * (snd w - snd p)))%Q) by ring.
    rewrite Z in I. lra.
  Qed.

  Variable (os ks : list p2) (o1 om k1 kn : p2).
  Let n := length ks. Let al := ks ++ os. Let N := length al.
  Hypothesis SC0 : StrictlyConvex (os ++ ks).
  Hypothesis L3 : 3 <= length (os ++ ks).
  Hypothesis Ho1 : nth_error os 0 = Some o1.
  Hypothesis Hom : nth_error os (length os - 1) = Some om.
  Hypothesis Hk1 : nth_error ks 0 = Some k1.
  Hypothesis Hkn : nth_error ks (n - 1) = Some kn.
  Hypothesis Oo : Forall (fun p => 0 < uu p)%Q os.
  Hypothesis Ok : Forall (fun p => uu p < 0)%Q ks.
  Definition P2 := cross_at kn o1 (uu kn) (uu o1).
  Definition P1 := cross_at k1 om (uu k1) (uu om).
  Definition cutp := ks ++ [P2; P1].

  Lemma SC : StrictlyConvex al.
  Proof. apply sc_turn. exact SC0. Qed.
  Lemma lens : 0 < n < N /\ N = n + length os /\ 3 <= N.
  Proof. pose proof (nth_error_lt _ _ _ Ho1). pose proof (nth_error_lt _ _ _ Hk1). unfold N, al, n. rewrite app_length in *. lia. Qed.
  Lemma at_k i p : nth_error ks i = Some p -> nth_error al i = Some p.
  Proof. intros H. unfold al. rewrite nth_error_app1; auto. apply nth_error_lt in H. auto. Qed.
  Lemma at_o1 : nth_error al n = Some o1.
  Proof. unfold al, n. rewrite nth_error_app2, Nat.sub_diag; auto. Qed.
  Lemma at_om : nth_error al (N - 1) = Some om.
  Proof. destruct lens as (A & B & C). unfold al. rewrite nth_error_app2 by (fold n; lia). fold n. rewrite <- Hom. f_equal. lia. Qed.
  Lemma mixes : exists s t, (0 < s < 1)%Q /\ (0 < t < 1)%Q /\ (fst P2 == (1 - s) * fst kn + s * fst o1)%Q /\ (snd P2 == (1 - s) * snd kn + s * snd o1)%Q /\
    (fst P1 == (1 - t) * fst k1 + t * fst om)%Q /\ (snd P1 == (1 - t) * snd k1 + t * snd om)%Q /\ (uu P2 == 0)%Q /\ (uu P1 == 0)%Q.
  Proof.
    rewrite Forall_forall in Oo, Ok. destruct (cross_mix kn o1) as (s & S1 & S2 & A & B & C); [apply Ok, (nth_error_In _ _ Hkn)|apply Oo, (nth_error_In _ _ Ho1)|].
    destruct (cross_mix k1 om) as (t & T1 & T2 & A' & B' & C'); [apply Ok, (nth_error_In _ _ Hk1)|apply Oo, (nth_error_In _ _ Hom)|]. exists s, t. repeat split; auto.
  Qed.
  Lemma at_cut i p : nth_error cutp i = Some p -> (i < n /\ nth_error al i = Some p) \/ (i = n /\ p = P2) \/ (i = S n /\ p = P1).
  Proof.
    unfold cutp. intros H. destruct (Nat.lt_ge_cases i n) as [C|C]; [left; split; auto; unfold n in C; rewrite nth_error_app1 in H by auto; apply at_k; auto|]. right. rewrite nth_error_app2 in H by auto. fold n in H.
    destruct (i - n) as [|[|d]] eqn:E; cbn in H; [left|right|destruct d; discriminate]; (split; [lia|congruence]).
  Qed.
  Lemma cut_convex : StrictlyConvex cutp.
  Proof.
    destruct lens as (Ln & LN & L). destruct mixes as (s & t & Hs & Ht & X2 & Y2 & X1 & Y1 & _ & _). pose proof SC as S0. pose proof at_o1 as Ao1. pose proof at_om as Aom. pose proof (at_k _ _ Hk1) as Ak1. pose proof (at_k _ _ Hkn) as Akn.
    intros i j k a b c O A B C. apply at_cut in A, B, C.
    destruct C as [[Ck C]|[[Ck Cc]|[Ck Cc]]].
    - destruct A as [[Ci A]|[[Ci _]|[Ci _]]]; [|lia|lia]. destruct B as [[Cj B]|[[Cj _]|[Cj _]]]; [|lia|lia]. apply (S0 i j k); auto.
    - subst c k. destruct A as [[Ci A]|[[Ci _]|[Ci _]]]; [|lia|lia]. destruct B as [[Cj B]|[[Cj _]|[Cj _]]]; [|lia|lia].
      rewrite (mix3 a b kn o1 s P2 X2 Y2). assert (G1 : (0 < orient a b o1)%Q) by (apply (S0 i j n); auto; lia). assert (G2 : (0 <= orient a b kn)%Q) by (apply (sc_weak al i j (n - 1)); auto; lia). nra.
    - subst c k. destruct A as [[Ci A]|[[Ci _]|[Ci _]]]; [|lia|lia]. destruct B as [[Cj B]|[[Cj Bc]|[Cj _]]]; [| |lia].
      + rewrite (mix3 a b k1 om t P1 X1 Y1). assert (G1 : (0 < orient a b om)%Q) by (apply (S0 i j (N - 1)); auto; lia). assert (G2 : (0 <= orient a b k1)%Q) by (rewrite orient_cyc, orient_cyc; apply (sc_weak al 0 i j); auto; lia). nra.
      + subst b j. rewrite (mix3 a P2 k1 om t P1 X1 Y1).
        assert (E1 : (orient a P2 k1 == (1 - s) * orient k1 a kn + s * orient k1 a o1)%Q) by (rewrite orient_cyc, orient_cyc; apply mix3; auto).
        assert (E2 : (orient a P2 om == (1 - s) * orient om a kn + s * orient om a o1)%Q) by (rewrite orient_cyc, orient_cyc; apply mix3; auto). rewrite E1, E2.
        assert (G1 : (0 <= orient k1 a kn)%Q) by (apply (sc_weak al 0 i (n - 1)); auto; lia). assert (G2 : (0 <= orient k1 a o1)%Q) by (apply (sc_weak al 0 i n); auto; lia).
        assert (G3 : (0 <= orient om a kn)%Q) by (rewrite orient_cyc; apply (sc_weak al i (n - 1) (N - 1)); auto; lia). assert (G4 : (0 <= orient om a o1)%Q) by (rewrite orient_cyc; apply (sc_weak al i n (N - 1)); auto; lia).
        assert (ST : (0 < orient k1 a o1)%Q \/ (0 < orient om a kn)%Q \/ (0 < orient om a o1)%Q).
        { destruct (Nat.eq_dec i 0) as [->|I0]; [|left; apply (S0 0 i n); auto; lia]. destruct (Nat.eq_dec n 1) as [N1|N1].
          - right. right. rewrite orient_cyc. apply (S0 0 n (N - 1)); auto. lia.
          - right. left. rewrite orient_cyc. apply (S0 0 (n - 1) (N - 1)); auto. lia. }
        assert (s1 : (0 < 1 - s)%Q) by lra. assert (t1 : (0 < 1 - t)%Q) by lra. destruct Hs as [Hs _]. destruct Ht as [Ht _]. clear - G1 G2 G3 G4 ST s1 t1 Hs Ht.
        apply (bilin (1 - t) t (1 - s) s); auto.
  Qed.
  Lemma cut_corner p : In p cutp -> Within al p /\ (uu p <= 0)%Q.
  Proof.
    destruct mixes as (s & t & Hs & Ht & X2 & Y2 & X1 & Y1 & U2 & U1). assert (Wi : forall q, In q al -> Within al q) by (intros q H; apply sc_within; auto using SC).
    assert (Ik : forall i q, nth_error al i = Some q -> In q al) by (intros i q H; apply (nth_error_In _ _ H)).
    intros H. unfold cutp in H. apply in_app_or in H. destruct H as [H|[H|[H|[]]]].
    - split; [apply Wi; unfold al; apply in_or_app; auto|]. rewrite Forall_forall in Ok. apply Qlt_le_weak, Ok, H.
    - subst p. split; [|lra]. intros a b R. rewrite (mix3 a b _ _ _ _ X2 Y2). pose proof (Wi kn (Ik _ _ (at_k _ _ Hkn)) a b R). pose proof (Wi o1 (Ik _ _ at_o1) a b R). nra.
    - subst p. split; [|lra]. intros a b R. rewrite (mix3 a b _ _ _ _ X1 Y1). pose proof (Wi k1 (Ik _ _ (at_k _ _ Hk1)) a b R). pose proof (Wi om (Ik _ _ at_om) a b R). nra.
  Qed.
  Lemma cut_len : length cutp = n + 2.
  Proof. unfold cutp. rewrite app_length. reflexivity. Qed.
  Lemma cut_region q : Within cutp q <-> Within (os ++ ks) q /\ (uu q <= 0)%Q.
  Proof.
    destruct lens as (Ln & LN & L). split.
    - intros W. destruct (in_triangle cutp q cut_convex) as (a & b & c & Ia & Ib & Ic & P & A & B & C); auto; [rewrite cut_len; lia|].
      apply cut_corner in Ia, Ib, Ic. destruct Ia as [Wa Ua], Ib as [Wb Ub], Ic as [Wc Uc]. split.
      + apply within_turn. intros d e R. specialize (Wa d e R). specialize (Wb d e R). specialize (Wc d e R).
        set (X := (snd e - snd d)%Q). set (Y := (fst d - fst e)%Q). set (Z := ((fst e - fst d) * snd d - (snd e - snd d) * fst d)%Q).
        assert (G : forall r, (orient d e r == - (X * fst r + Y * snd r + Z))%Q) by (intros r; unfold orient, X, Y, Z; ring).
        rewrite G in *. pose proof (triangle_half X Y Z a b c q P A B C). lra.
      + pose proof (triangle_half x y (- rsq) a b c q P A B C) as T. unfold uu in *. lra.
    - intros [W U]. apply within_turn in W. fold al in W. destruct mixes as (s & t & Hs & Ht & X2 & Y2 & X1 & Y1 & U2 & U1).
      intros a b R. apply in_ring in R. rewrite cut_len in R. destruct R as (i & A & B). apply at_cut in A. unfold succ_in in B. destruct A as [[Ci A]|[[Ci Ac]|[Ci Ac]]].
      + rewrite (proj2 (Nat.eqb_neq _ _)) in B by lia. apply at_cut in B. destruct B as [[Cj B]|[[Cj Bc]|[Cj _]]]; [| |lia].
        * apply W. apply in_ring. exists i. split; auto. unfold succ_in. fold N. rewrite (proj2 (Nat.eqb_neq _ _)) by lia. auto.
        * assert (a = kn) by (pose proof (at_k _ _ Hkn) as K; replace (n - 1) with i in K by lia; congruence). subst a b.
          assert (E : (orient kn P2 q == s * orient kn o1 q)%Q). { rewrite orient_cyc, orient_cyc. rewrite (mix3 q kn _ _ _ _ X2 Y2). unfold orient. ring. }
          rewrite E. assert (0 <= orient kn o1 q)%Q. { apply W. apply in_ring. exists (n - 1). split; [apply at_k, Hkn|]. unfold succ_in. fold N. rewrite (proj2 (Nat.eqb_neq _ _)) by lia. replace (S (n - 1)) with n by lia. apply at_o1. } nra.
      + subst a i. rewrite (proj2 (Nat.eqb_neq _ _)) in B by lia. apply at_cut in B. destruct B as [[Cj _]|[[Cj _]|[_ Bc]]]; [lia|lia|]. subst b.
        pose proof (on_line P2 P1 k1 q U2 U1) as I. assert (Uk : (uu k1 < 0)%Q) by (rewrite Forall_forall in Ok; apply Ok, (nth_error_In _ _ Hk1)).
        assert (G : (0 < orient P2 P1 k1)%Q). { rewrite orient_cyc, orient_cyc. apply (cut_convex 0 n (S n)); [lia| | |]; unfold cutp; [rewrite nth_error_app1 by (fold n; lia); auto|rewrite nth_error_app2 by (fold n; lia); fold n; rewrite Nat.sub_diag; auto|rewrite nth_error_app2 by (fold n; lia); fold n; replace (S n - n) with 1 by lia; auto]. }
        apply Qnot_lt_le. intros K. nra.
      + subst a i. rewrite (proj2 (Nat.eqb_eq _ _)) in B by lia. apply at_cut in B. destruct B as [[_ B]|[[Cj _]|[Cj _]]]; [|lia|lia]. assert (b = k1) by (pose proof (at_k _ _ Hk1); congruence). subst b.
        assert (E : (orient P1 k1 q == t * orient om k1 q)%Q). { rewrite orient_cyc. rewrite (mix3 k1 q _ _ _ _ X1 Y1). unfold orient. ring. }
        rewrite E. assert (0 <= orient om k1 q)%Q. { apply W. apply in_ring. exists (N - 1). split; [apply at_om|]. unfold succ_in. fold N. rewrite (proj2 (Nat.eqb_eq _ _)) by lia. apply at_k, Hk1. } nra.
  Qed.
End S.
