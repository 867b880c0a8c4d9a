(* Convex hulls in space, and how a chord divides them. *)
From Verif Require Import Base BaseFacts PLCSpec Plane WithinSpec Csg3Spec.
From Coq Require Import QArith Lqa Lia Permutation.
Local Open Scope Q_scope.

Definition C (i : nat) (p : p3) : Q := match i with O => X3 p | 1%nat => Y3 p | _ => Z3 p end.
Definition tot (l : list (Q * p3)) : Q := sumf fst l.
Definition mom (i : nat) (l : list (Q * p3)) : Q := sumf (fun e => fst e * C i (snd e)) l.
Definition Good (S : p3 -> Prop) (l : list (Q * p3)) : Prop := forall w p, In (w, p) l -> 0 <= w /\ S p.
Definition Mix (S : p3 -> Prop) (W : Q) (X : nat -> Q) : Prop :=
  exists l, Good S l /\ tot l == W /\ forall i, mom i l == X i.
Definition Hull (S : p3 -> Prop) (x : p3) : Prop := Mix S 1 (fun i => C i x).

Lemma sumf_app {A} (f : A -> Q) l l' : sumf f (l ++ l') == sumf f l + sumf f l'.
Proof. unfold sumf. induction l as [|a l IH]; cbn [app fold_right]; [ring|]. rewrite IH. ring. Qed.
Lemma tot_app l l' : tot (l ++ l') == tot l + tot l'. Proof. apply sumf_app. Qed.
Lemma mom_app i l l' : mom i (l ++ l') == mom i l + mom i l'. Proof. apply sumf_app. Qed.
Lemma mix_nil S W X : W == 0 -> (forall i, X i == 0) -> Mix S W X.
Proof. intros H H'. exists []. split; [intros ? ? []|]. split; [cbn; lra|]. intros i. cbn. rewrite H'. lra. Qed.
Lemma mix_one (S : p3 -> Prop) w p W X : 0 <= w -> S p -> W == w -> (forall i, X i == w * C i p) -> Mix S W X.
Proof.
  intros P H HW HX. exists [(w, p)]. split.
  - intros w' p' [E|[]]. injection E as <- <-. auto.
  - split; [cbn; rewrite HW; ring|]. intros i. cbn. rewrite HX. ring.
Qed.
Lemma mix_add S W X W' X' W'' X'' : Mix S W X -> Mix S W' X' -> W'' == W + W' -> (forall i, X'' i == X i + X' i) -> Mix S W'' X''.
Proof.
  intros (l & G & HW & HX) (l' & G' & HW' & HX') E E'. exists (l ++ l'). split.
  - intros w p H. apply in_app_or in H as [H|H]; [apply G|apply G']; auto.
  - split; [rewrite tot_app, HW, HW', E; ring|]. intros i. rewrite mom_app, HX, HX', E'. ring.
Qed.
Lemma mix_scale S W X k W' X' : Mix S W X -> 0 <= k -> W' == k * W -> (forall i, X' i == k * X i) -> Mix S W' X'.
Proof.
  intros (l & G & HW & HX) K E E'. exists (map (fun e => (k * fst e, snd e)) l). split.
  - intros w p H. apply in_map_iff in H as ((w' & p') & E1 & H). injection E1 as <- <-. destruct (G _ _ H). split; auto. cbn. apply Qmult_le_0_compat; auto.
  - assert (A : forall l, tot (map (fun e => (k * fst e, snd e)) l) == k * tot l).
    { induction l0 as [|e l0 IH]; cbn; [ring|]. fold (sumf (@fst Q p3) (map (fun e : Q * p3 => (k * fst e, snd e)) l0)) (sumf (@fst Q p3) l0). unfold tot in IH. rewrite IH. ring. }
    assert (B : forall i l, mom i (map (fun e => (k * fst e, snd e)) l) == k * mom i l).
    { intros i. induction l0 as [|e l0 IH]; cbn; [ring|]. unfold mom, sumf in IH. rewrite IH. ring. }
    split; [rewrite A, HW, E; reflexivity|]. intros i. rewrite B, HX, E'. reflexivity.
Qed.
Lemma mix_mono (S S' : p3 -> Prop) W X : (forall p, S p -> S' p) -> Mix S W X -> Mix S' W X.
Proof. intros H (l & G & R). exists l. split; auto. intros w p I. destruct (G _ _ I). auto. Qed.
Lemma mix_ext S W X W' X' : Mix S W X -> W == W' -> (forall i, X i == X' i) -> Mix S W' X'.
Proof. intros (l & G & HW & HX) E E'. exists l. split; auto. split; [rewrite HW; auto|]. intros i. rewrite HX. auto. Qed.
Lemma mix_flat S S' W X : Mix S W X -> (forall p, S p -> Hull S' p) -> Mix S' W X.
Proof.
  intros (l & G & HW & HX) H. apply mix_ext with (W := tot l) (X := fun i => mom i l); auto. clear HW HX.
  induction l as [|(w, p) l IH]; [apply mix_nil; [reflexivity|intros; reflexivity]|].
  destruct (G w p (or_introl eq_refl)) as (P & Hp).
  assert (IH' : Mix S' (tot l) (fun i => mom i l)) by (apply IH; intros w' p' I; apply G; right; auto).
  assert (M : Mix S' w (fun i => w * C i p)). { eapply mix_scale; [apply (H p Hp)|exact P|ring|]. intros i. reflexivity. }
  apply (mix_add _ _ _ _ _ _ _ M IH'); [reflexivity|]. intros i. reflexivity.
Qed.
Lemma hull_in (S : p3 -> Prop) p : S p -> Hull S p.
Proof. intros H. apply mix_one with (w := 1) (p := p); auto; [lra|reflexivity|]. intros i. ring. Qed.
Lemma hull_mono (S S' : p3 -> Prop) x : (forall p, S p -> S' p) -> Hull S x -> Hull S' x.
Proof. apply mix_mono. Qed.
Lemma hull_flat S S' x : Hull S x -> (forall p, S p -> Hull S' p) -> Hull S' x.
Proof. apply mix_flat. Qed.

(* an affine function bounded on the points is so on the hull *)
Definition affine (a b c d : Q) (x : p3) : Q := a * X3 x + b * Y3 x + c * Z3 x + d.
Lemma hull_bound S x a b c d m : Hull S x -> (forall p, S p -> affine a b c d p <= m) -> affine a b c d x <= m.
Proof.
  intros (l & G & HW & HX) H.
  assert (K : a * mom 0 l + b * mom 1 l + c * mom 2 l + d * tot l <= m * tot l).
  { clear HW HX. induction l as [|(w, p) l IH]; [cbn; lra|].
    destruct (G w p (or_introl eq_refl)) as (P & Hp). specialize (IH (fun w' p' I => G w' p' (or_intror I))).
    specialize (H p Hp). unfold affine in H. unfold mom, tot, sumf in *. cbn [fold_right fst snd C] in *.
    assert (0 <= w * (m - (a * X3 p + b * Y3 p + c * Z3 p + d))) by (apply Qmult_le_0_compat; lra). lra. }
  unfold affine. pose proof (HX 0%nat) as H0. pose proof (HX 1%nat) as H1. pose proof (HX 2%nat) as H2. cbn [C] in *. rewrite HW, H0, H1, H2 in K. lra.
Qed.
Lemma hull_eq S x a b c d m : Hull S x -> (forall p, S p -> affine a b c d p == m) -> affine a b c d x == m.
Proof.
  intros H E. apply Qle_antisym.
  - apply hull_bound with (S := S); auto. intros p Hp. rewrite E; auto. lra.
  - assert (K : affine (- a) (- b) (- c) (- d) x <= - m) by (apply hull_bound with (S := S); auto; intros p Hp; specialize (E p Hp); unfold affine in *; lra).
    unfold affine in *. lra.
Qed.

(* ---- against the specification ---- *)
Lemma combine_in_good ws (vs : list p3) : (forall w, In w ws -> 0 <= w) -> Good (fun p => In p vs) (combine ws vs).
Proof. intros H w p I. split; [apply H; eapply in_combine_l; eauto|eapply in_combine_r; eauto]. Qed.
Lemma tot_combine ws (vs : list p3) : length ws = length vs -> tot (combine ws vs) == sumf (fun w => w) ws.
Proof.
  revert vs. induction ws as [|w ws IH]; intros [|v vs] L; cbn in *; try discriminate; [reflexivity|].
  unfold tot, sumf in IH. rewrite IH by lia. reflexivity.
Qed.
Lemma comb_hull vs x : Combination3 vs x -> Hull (fun p => In p vs) x.
Proof.
  intros (ws & L & P & S1 & HX & HY & HZ). exists (combine ws vs). split; [apply combine_in_good; auto|]. split; [rewrite tot_combine; auto|].
  intros [|[|i]]; cbn [C]; symmetry; auto.
Qed.
Lemma bump (vs : list p3) p w : In p vs -> 0 <= w ->
  exists ws, length ws = length vs /\ (forall u, In u ws -> 0 <= u) /\ sumf (fun u => u) ws == w /\ forall i, mom i (combine ws vs) == w * C i p.
Proof.
  intros I P. assert (Z : forall vs : list p3, exists ws, length ws = length vs /\ (forall u, In u ws -> 0 <= u) /\ sumf (fun u => u) ws == 0 /\ forall i, mom i (combine ws vs) == 0).
  { induction vs0 as [|v vs0 (ws & L & Q0 & S0 & M)]; [exists []; repeat split; auto; cbn; try reflexivity; intros ? []|].
    exists (0 :: ws). split; [cbn; auto|]. split; [intros u [<-|H]; [lra|auto]|]. split; [unfold sumf in *; cbn; rewrite S0; ring|].
    intros i. specialize (M i). unfold mom, sumf in *. cbn. rewrite M. ring. }
  induction vs as [|v vs IH]; [contradiction|]. destruct I as [->|I].
  - destruct (Z vs) as (ws & L & Q0 & S0 & M). exists (w :: ws). split; [cbn; auto|]. split; [intros u [<-|H]; auto|].
    split; [unfold sumf in *; cbn; rewrite S0; ring|]. intros i. specialize (M i). unfold mom, sumf in *. cbn. rewrite M. ring.
  - destruct (IH I) as (ws & L & Q0 & S0 & M). exists (0 :: ws). split; [cbn; auto|]. split; [intros u [<-|H]; [lra|auto]|].
    split; [unfold sumf in *; cbn; rewrite S0; ring|]. intros i. specialize (M i). unfold mom, sumf in *. cbn. rewrite M. ring.
Qed.
Definition addw (a b : list Q) : list Q := map (fun e => fst e + snd e) (combine a b).
Lemma addw_spec (vs : list p3) a b : length a = length vs -> length b = length vs ->
  length (addw a b) = length vs /\ sumf (fun u => u) (addw a b) == sumf (fun u => u) a + sumf (fun u => u) b /\
  forall i, mom i (combine (addw a b) vs) == mom i (combine a vs) + mom i (combine b vs).
Proof.
  revert a b. induction vs as [|v vs IH]; intros [|x a] [|y b] La Lb; cbn in La, Lb; try discriminate.
  - split; [auto|]. split; [cbn; ring|]. intros i. cbn. ring.
  - destruct (IH a b) as (L & S1 & M); [lia|lia|]. unfold addw in *. cbn [combine map]. split; [cbn; auto|]. split.
    + unfold sumf in *. cbn. rewrite S1. ring.
    + intros i. specialize (M i). unfold mom, sumf in *. cbn. rewrite M. ring.
Qed.
Lemma hull_comb vs x : Hull (fun p => In p vs) x -> Combination3 vs x.
Proof.
  intros (l & G & HW & HX).
  assert (K : exists ws, length ws = length vs /\ (forall u, In u ws -> 0 <= u) /\ sumf (fun u => u) ws == tot l /\ forall i, mom i (combine ws vs) == mom i l).
  { clear HW HX. induction l as [|(w, p) l IH].
    - exists (repeat 0 (length vs)). rewrite repeat_length. split; auto. split; [intros u I; apply repeat_spec in I; subst; lra|].
      induction vs as [|v vs IHv]; [split; [reflexivity|intros; reflexivity]|]. destruct IHv as (A & B); [intros ? ? []|].
      cbn [length repeat combine]. split; [unfold sumf, tot in *; cbn in *; rewrite A; ring|]. intros i. specialize (B i). unfold mom, sumf in *. cbn in *. rewrite B. ring.
    - destruct (G w p (or_introl eq_refl)) as (P & Hp). destruct IH as (ws & L & Pw & S1 & M); [intros w' p' I; apply G; right; auto|].
      destruct (bump vs p w Hp P) as (us & Lu & Pu & Su & Mu). destruct (addw_spec vs us ws Lu L) as (La & Sa & Ma).
      exists (addw us ws). split; auto. split.
      + intros u I. unfold addw in I. apply in_map_iff in I as ((a, b) & <- & I). cbn. pose proof (Pu _ (in_combine_l _ _ _ _ I)). pose proof (Pw _ (in_combine_r _ _ _ _ I)). lra.
      + split; [rewrite Sa, Su, S1; reflexivity|]. intros i. rewrite Ma, Mu, M. reflexivity. }
  destruct K as (ws & L & P & S1 & M). exists ws. split; auto. split; auto. split; [rewrite S1; auto|].
  pose proof (M 0%nat) as M0. pose proof (M 1%nat) as M1. pose proof (M 2%nat) as M2. rewrite HX in M0, M1, M2. cbn [C] in *. symmetry in M0, M1, M2. auto.
Qed.
Lemma hull_iff vs x : Combination3 vs x <-> Hull (fun p => In p vs) x.
Proof. split; [apply comb_hull|apply hull_comb]. Qed.

(* ---- a chord P between F and B ---- *)
Section Chord.
  Context (F B P : p3 -> Prop).
  Hypothesis meet : forall f b, F f -> B b -> exists l, 0 < l < 1 /\ Mix P 1 (fun i => (1 - l) * C i f + l * C i b).
  Lemma chord_lists : forall n FM BM W0 X0, (length FM + length BM <= n)%nat -> Good F FM -> Good B BM -> Mix P W0 X0 ->
    Mix (fun p => F p \/ P p) (W0 + tot FM + tot BM) (fun i => X0 i + mom i FM + mom i BM) \/
    Mix (fun p => B p \/ P p) (W0 + tot FM + tot BM) (fun i => X0 i + mom i FM + mom i BM).
  Proof using meet.
    induction n as [|n IH]; intros FM BM W0 X0 L GF GB M.
    - destruct FM; [|cbn in L; lia]. destruct BM; [|cbn in L; lia]. left. apply mix_ext with (W := W0) (X := X0).
      + apply mix_mono with (S := P); auto.
      + cbn. ring.
      + intros i. cbn. ring.
    - destruct FM as [|(a, f) FM].
      { right. eapply mix_add with (W := W0) (X := X0) (W' := tot BM) (X' := fun i => mom i BM); [apply mix_mono with (S := P); auto| |cbn; ring|intros i; cbn; ring].
        exists BM. split; [intros w p I; destruct (GB w p I); auto|]. split; [reflexivity|intros; reflexivity]. }
      destruct BM as [|(b, g) BM].
      { left. eapply mix_add with (W := W0) (X := X0) (W' := tot ((a, f) :: FM)) (X' := fun i => mom i ((a, f) :: FM)); [apply mix_mono with (S := P); auto| |cbn; ring|intros i; cbn; ring].
        exists ((a, f) :: FM). split; [intros w p I; destruct (GF w p I); auto|]. split; [reflexivity|intros; reflexivity]. }
      destruct (GF a f (or_introl eq_refl)) as (Pa & Ff). destruct (GB b g (or_introl eq_refl)) as (Pb & Bg).
      destruct (meet f g Ff Bg) as (l & (Hl & Hl1) & Mg).
      assert (N1 : ~ 1 - l == 0) by lra. assert (N2 : ~ l == 0) by lra.
      destruct (Qlt_le_dec (b * (1 - l)) (a * l)) as [D|D].
      + (* the part in B goes *)
        assert (K : 0 <= b / l) by (apply Qle_shift_div_l; lra).
        assert (R : 0 <= a - b * (1 - l) / l). { assert (b * (1 - l) / l <= a); [apply Qle_shift_div_r; lra|lra]. }
        specialize (IH ((a - b * (1 - l) / l, f) :: FM) BM (W0 + b / l) (fun i => X0 i + b / l * ((1 - l) * C i f + l * C i g))).
        destruct IH as [IH|IH].
        * cbn in *; lia.
        * intros w p [E|I]; [injection E as <- <-; auto|apply GF; right; auto].
        * intros w p I. apply GB. right; auto.
        * apply (mix_add P W0 X0 (b / l) (fun i => b / l * ((1 - l) * C i f + l * C i g))); [exact M|eapply mix_scale; [exact Mg|exact K|ring|intros i; reflexivity]|ring|intros i; reflexivity].
        * left. eapply mix_ext; [exact IH| |]; unfold tot, mom, sumf; cbn [fold_right fst snd]; [field; auto|intros i; cbn [fold_right fst snd]; field; auto].
        * right. eapply mix_ext; [exact IH| |]; unfold tot, mom, sumf; cbn [fold_right fst snd]; [field; auto|intros i; cbn [fold_right fst snd]; field; auto].
      + (* the part in F goes *)
        assert (K : 0 <= a / (1 - l)) by (apply Qle_shift_div_l; lra).
        assert (R : 0 <= b - a * l / (1 - l)). { assert (a * l / (1 - l) <= b); [apply Qle_shift_div_r; lra|lra]. }
        specialize (IH FM ((b - a * l / (1 - l), g) :: BM) (W0 + a / (1 - l)) (fun i => X0 i + a / (1 - l) * ((1 - l) * C i f + l * C i g))).
        destruct IH as [IH|IH].
        * cbn in *; lia.
        * intros w p I. apply GF. right; auto.
        * intros w p [E|I]; [injection E as <- <-; auto|apply GB; right; auto].
        * apply (mix_add P W0 X0 (a / (1 - l)) (fun i => a / (1 - l) * ((1 - l) * C i f + l * C i g))); [exact M|eapply mix_scale; [exact Mg|exact K|ring|intros i; reflexivity]|ring|intros i; reflexivity].
        * left. eapply mix_ext; [exact IH| |]; unfold tot, mom, sumf; cbn [fold_right fst snd]; [field; auto|intros i; cbn [fold_right fst snd]; field; auto].
        * right. eapply mix_ext; [exact IH| |]; unfold tot, mom, sumf; cbn [fold_right fst snd]; [field; auto|intros i; cbn [fold_right fst snd]; field; auto].
  Qed.
  Lemma chord x : Hull (fun p => F p \/ B p \/ P p) x -> Hull (fun p => F p \/ P p) x \/ Hull (fun p => B p \/ P p) x.
  Proof using meet.
    intros (l & G & HW & HX).
    assert (K : exists FM BM W0 X0, Good F FM /\ Good B BM /\ Mix P W0 X0 /\ tot l == W0 + tot FM + tot BM /\ forall i, mom i l == X0 i + mom i FM + mom i BM).
    { clear HW HX. induction l as [|(w, p) l IH].
      - exists [], [], 0, (fun _ => 0). split; [intros ? ? []|]. split; [intros ? ? []|]. split; [apply mix_nil; [reflexivity|intros; reflexivity]|]. split; [cbn; ring|intros; cbn; ring].
      - destruct (G w p (or_introl eq_refl)) as (Pw & Hp). destruct IH as (FM & BM & W0 & X0 & GF & GB & M & T & Mo); [intros w' p' I; apply G; right; auto|].
        destruct Hp as [Hp|[Hp|Hp]].
        + exists ((w, p) :: FM), BM, W0, X0. split; [intros w' p' [E|I]; [injection E as <- <-; auto|auto]|]. split; auto. split; auto.
          unfold tot, mom, sumf in *. cbn [fold_right fst snd]. split; [rewrite T; ring|]. intros i. rewrite Mo. ring.
        + exists FM, ((w, p) :: BM), W0, X0. split; auto. split; [intros w' p' [E|I]; [injection E as <- <-; auto|auto]|]. split; auto.
          unfold tot, mom, sumf in *. cbn [fold_right fst snd]. split; [rewrite T; ring|]. intros i. rewrite Mo. ring.
        + exists FM, BM, (W0 + w), (fun i => X0 i + w * C i p). split; auto. split; auto. split.
          * eapply mix_add; [exact M|apply (mix_one P w p w (fun i => w * C i p) Pw Hp); [reflexivity|intros; reflexivity]|ring|intros i; reflexivity].
          * unfold tot, mom, sumf in *. cbn [fold_right fst snd]. split; [rewrite T; ring|]. intros i. rewrite Mo. ring. }
    destruct K as (FM & BM & W0 & X0 & GF & GB & M & T & Mo).
    destruct (chord_lists _ FM BM W0 X0 (le_n _) GF GB M) as [R|R]; [left|right]; (eapply mix_ext; [exact R| |]; [rewrite <- T; exact HW|intros i; rewrite <- Mo; apply HX]).
  Qed.
End Chord.

(* ---- turns ---- *)
Ltac coords := intros; repeat match goal with p : p3 |- _ => let x := fresh "x" in let y := fresh "y" in let z := fresh "z" in destruct p as ((x & y) & z) end;
  unfold turn, det3, sub3, affine in *; cbn [C X3 Y3 Z3 fst snd] in *.
Lemma turn_cycle n a b c : turn n a b c == turn n b c a. Proof. coords. ring. Qed.
Lemma turn_swap n a b c : turn n a b c == - turn n b a c. Proof. coords. ring. Qed.
Lemma turn_same n a c : turn n a a c == 0. Proof. coords. ring. Qed.
Lemma turn_same2 n a c : turn n a c c == 0. Proof. coords. ring. Qed.
Lemma turn_same3 n a c : turn n a c a == 0. Proof. coords. ring. Qed.
Lemma turn_four n a b c d : turn n a b c + turn n a c d == turn n a b d + turn n b c d. Proof. coords. ring. Qed.

Definition dotn (n x : p3) : Q := X3 n * X3 x + Y3 n * Y3 x + Z3 n * Z3 x.
(* in a plane across n: the four point identity as vectors *)
Lemma flat_det n a b c d : 0 < dotn n n -> dotn n b == dotn n a -> dotn n c == dotn n a -> dotn n d == dotn n a ->
  det3 (sub3 b a) (sub3 c a) (sub3 d a) == 0.
Proof.
  intros N Hb Hc Hd. assert (K : dotn n n * det3 (sub3 b a) (sub3 c a) (sub3 d a) == 0).
  { assert (E : dotn n n * det3 (sub3 b a) (sub3 c a) (sub3 d a) ==
      (dotn n b - dotn n a) * turn n a c d - (dotn n c - dotn n a) * turn n a b d + (dotn n d - dotn n a) * turn n a b c) by (unfold dotn; coords; ring).
    rewrite E, Hb, Hc, Hd. ring. }
  destruct (Qmult_integral _ _ K); [lra|auto].
Qed.
Lemma flat_four n f p b q i : 0 < dotn n n -> dotn n p == dotn n f -> dotn n b == dotn n f -> dotn n q == dotn n f ->
  turn n p b q * C i f + turn n f p q * C i b == turn n f b q * C i p + turn n f p b * C i q.
Proof.
  intros N Hp Hb Hq. pose proof (flat_det n f p b q N Hp Hb Hq) as D.
  assert (E : turn n f p b * (C i q - C i f) - turn n f p q * (C i b - C i f) + turn n f b q * (C i p - C i f) == C i n * det3 (sub3 p f) (sub3 b f) (sub3 q f)).
  { clear. destruct i as [|[|i]]; coords; ring. }
  rewrite D in E. pose proof (turn_four n f p b q) as T.
  assert (T' : turn n p b q == turn n f p b + turn n f b q - turn n f p q) by lra. rewrite T'. lra.
Qed.
