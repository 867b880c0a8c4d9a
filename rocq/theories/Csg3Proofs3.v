(* Cutting a convex polygon by a plane: the two parts. *)
From Verif Require Import Base BaseFacts PLCSpec Plane WithinSpec MeshEditorModel RayModel Hull3Model Csg3Spec Csg3Model Csg3Proofs Csg3Proofs2 WithinProofs WithinProps.
From Coq Require Import QArith Lqa Lia Permutation Sorted.
Local Open Scope Q_scope.

Lemma class_cases eps l p : 0 <= eps ->
  (classify eps l p = BACK /\ side l p < - eps) \/ (classify eps l p = FRONT /\ eps < side l p) \/ (classify eps l p = COPL /\ - eps <= side l p <= eps).
Proof.
  intros E. unfold classify. destruct (qltb_spec (side l p) (- eps)) as [A|A]; [left; auto|].
  destruct (qltb_spec eps (side l p)) as [B|B]; [right; left; auto|]. right; right. split; auto. lra.
Qed.

(* ---- the parts, one side after another ---- *)
Fixpoint walk {A B} (g : A * A -> list B) (a : A) (l : list A) : list B :=
  match l with [] => [] | b :: l => g (a, b) ++ walk g b l end.
Lemma ring_walk {A B} (g : A * A -> list B) a t : flat_map g (ring (a :: t)) = walk g a (t ++ [a]).
Proof.
  cbn [ring]. generalize a at 2 4. intros z. revert a. induction t as [|b t IH]; intros a; [reflexivity|]. cbn [app combine flat_map walk]. f_equal. apply IH.
Qed.
Lemma last_cons {A} (b : A) u a : last (b :: u) a = last u b.
Proof. revert a b. induction u as [|c u IH]; intros a b; [reflexivity|]. change (last (b :: c :: u) a) with (last (c :: u) a). rewrite IH. symmetry. apply IH. Qed.
Lemma last_in {A} (u : list A) a : In (last u a) (a :: u).
Proof. revert a. induction u as [|b u IH]; intros a; [left; auto|]. rewrite last_cons. right. apply IH. Qed.
Section Walk.
  Context (eps : Q) (l : plane).
  Definition All (k : class) (u : list p3) : Prop := forall x, In x u -> classify eps l x = k.
  Ltac walks := intros H; match goal with u : list p3 |- _ => revert H; induction u as [|b u IH] end.
  Lemma cross_front a b : classify eps l a = FRONT -> classify eps l b <> BACK -> crossing eps l (a, b) = [].
  Proof using. intros A B. unfold crossing. cbn [fst snd]. rewrite A. destruct (classify eps l b); congruence. Qed.
  Lemma cross_back a b : classify eps l a = BACK -> classify eps l b <> FRONT -> crossing eps l (a, b) = [].
  Proof using. intros A B. unfold crossing. cbn [fst snd]. rewrite A. destruct (classify eps l b); congruence. Qed.
  Lemma cross_copl a b : classify eps l a = COPL -> crossing eps l (a, b) = [].
  Proof using. intros A. unfold crossing. cbn [fst snd]. rewrite A. destruct (classify eps l b); congruence. Qed.
  Lemma walk_front a u x r : All FRONT (a :: u) ->
    walk (f_part eps l) a (u ++ x :: r) = (a :: u) ++ crossing eps l (last u a, x) ++ walk (f_part eps l) x r /\
    walk (b_part eps l) a (u ++ x :: r) = crossing eps l (last u a, x) ++ walk (b_part eps l) x r.
  Proof using.
    revert a. induction u as [|b u IH]; intros a H; pose proof (H a (or_introl eq_refl)) as Ha.
    - cbn [app walk last]. unfold f_part, b_part. cbn [fst snd]. rewrite Ha. cbn [is_back is_front app]. auto.
    - destruct (IH b) as (E1 & E2); [intros y Hy; apply H; right; auto|].
      rewrite last_cons. cbn [app walk]. rewrite E1, E2. unfold f_part at 1, b_part at 1. cbn [fst snd]. rewrite Ha, (cross_front a b Ha) by (rewrite (H b); [congruence|right; left; auto]).
      cbn [is_back is_front app]. auto.
  Qed.
  Lemma walk_back a u x r : All BACK (a :: u) ->
    walk (f_part eps l) a (u ++ x :: r) = crossing eps l (last u a, x) ++ walk (f_part eps l) x r /\
    walk (b_part eps l) a (u ++ x :: r) = (a :: u) ++ crossing eps l (last u a, x) ++ walk (b_part eps l) x r.
  Proof using.
    revert a. induction u as [|b u IH]; intros a H; pose proof (H a (or_introl eq_refl)) as Ha.
    - cbn [app walk last]. unfold f_part, b_part. cbn [fst snd]. rewrite Ha. cbn [is_back is_front app]. auto.
    - destruct (IH b) as (E1 & E2); [intros y Hy; apply H; right; auto|].
      rewrite last_cons. cbn [app walk]. rewrite E1, E2. unfold f_part at 1, b_part at 1. cbn [fst snd]. rewrite Ha, (cross_back a b Ha) by (rewrite (H b); [congruence|right; left; auto]).
      cbn [is_back is_front app]. auto.
  Qed.
  Lemma walk_copl a u x r : All COPL (a :: u) ->
    walk (f_part eps l) a (u ++ x :: r) = (a :: u) ++ walk (f_part eps l) x r /\
    walk (b_part eps l) a (u ++ x :: r) = (a :: u) ++ walk (b_part eps l) x r.
  Proof using.
    revert a. induction u as [|b u IH]; intros a H; pose proof (H a (or_introl eq_refl)) as Ha.
    - cbn [app walk last]. unfold f_part, b_part. cbn [fst snd]. rewrite Ha, cross_copl; auto.
    - destruct (IH b) as (E1 & E2); [intros y Hy; apply H; right; auto|].
      cbn [app walk]. rewrite E1, E2. unfold f_part at 1, b_part at 1. cbn [fst snd]. rewrite Ha, cross_copl; auto.
  Qed.

  Definition P1 (C1 : list p3) (a b : p3) : list p3 := match C1 with [] => [cut_edge l a b] | _ => C1 end.
  Lemma cut_form f0 Fr C1 b0 Bk C2 : All FRONT (f0 :: Fr) -> All COPL C1 -> All BACK (b0 :: Bk) -> All COPL C2 ->
    let V := (f0 :: Fr) ++ C1 ++ (b0 :: Bk) ++ C2 in
    flat_map (f_part eps l) (ring V) = (f0 :: Fr) ++ P1 C1 (last Fr f0) b0 ++ P1 C2 (last Bk b0) f0 /\
    flat_map (b_part eps l) (ring V) = P1 C1 (last Fr f0) b0 ++ (b0 :: Bk) ++ P1 C2 (last Bk b0) f0.
  Proof using.
    intros HF H1 HB H2 V. unfold V. clear V. change ((f0 :: Fr) ++ C1 ++ (b0 :: Bk) ++ C2) with (f0 :: Fr ++ C1 ++ (b0 :: Bk) ++ C2). rewrite !ring_walk.
    assert (LF : classify eps l (last Fr f0) = FRONT). { apply HF, last_in. }
    assert (LB : classify eps l (last Bk b0) = BACK). { apply HB, last_in. }
    assert (F0 : classify eps l f0 = FRONT) by (apply HF; left; auto). assert (B0 : classify eps l b0 = BACK) by (apply HB; left; auto).
    assert (XF : crossing eps l (last Fr f0, b0) = [cut_edge l (last Fr f0) b0]) by (unfold crossing; cbn [fst snd]; rewrite LF, B0; auto).
    assert (XB : crossing eps l (last Bk b0, f0) = [cut_edge l (last Bk b0) f0]) by (unfold crossing; cbn [fst snd]; rewrite LB, F0; auto).
    assert (TB : walk (f_part eps l) b0 ((Bk ++ C2) ++ [f0]) = P1 C2 (last Bk b0) f0 /\ walk (b_part eps l) b0 ((Bk ++ C2) ++ [f0]) = (b0 :: Bk) ++ P1 C2 (last Bk b0) f0).
    { destruct C2 as [|c C2].
      - rewrite app_nil_r. destruct (walk_back b0 Bk f0 [] HB) as (E1 & E2). rewrite E1, E2, XB. cbn [walk P1]. rewrite !app_nil_r. auto.
      - rewrite <- app_assoc. cbn [app]. destruct (walk_back b0 Bk c (C2 ++ [f0]) HB) as (E1 & E2). rewrite E1, E2.
        rewrite (cross_back _ c LB) by (rewrite (H2 c (or_introl eq_refl)); congruence).
        destruct (walk_copl c C2 f0 [] H2) as (E3 & E4). rewrite E3, E4. cbn [walk P1]. rewrite !app_nil_r. auto. }
    destruct TB as (TB1 & TB2). destruct C1 as [|c C1].
    - cbn [app]. replace ((Fr ++ b0 :: Bk ++ C2) ++ [f0]) with (Fr ++ b0 :: ((Bk ++ C2) ++ [f0])) by (rewrite <- !app_assoc; cbn [app]; rewrite <- ?app_assoc; reflexivity).
      destruct (walk_front f0 Fr b0 ((Bk ++ C2) ++ [f0]) HF) as (E1 & E2). rewrite E1, E2, XF, TB1, TB2. cbn [P1]. auto.
    - cbn [app]. replace ((Fr ++ c :: C1 ++ b0 :: Bk ++ C2) ++ [f0]) with (Fr ++ c :: (C1 ++ b0 :: ((Bk ++ C2) ++ [f0]))) by (rewrite <- !app_assoc; cbn [app]; rewrite <- !app_assoc; cbn [app]; rewrite <- ?app_assoc; reflexivity).
      destruct (walk_front f0 Fr c (C1 ++ b0 :: ((Bk ++ C2) ++ [f0])) HF) as (E1 & E2). rewrite E1, E2.
      rewrite (cross_front _ c LF) by (rewrite (H1 c (or_introl eq_refl)); congruence).
      destruct (walk_copl c C1 b0 ((Bk ++ C2) ++ [f0]) H1) as (E3 & E4). rewrite E3, E4, TB1, TB2. cbn [P1 app]. auto.
  Qed.
End Walk.

(* ---- where the polygon is in front and where it is behind ---- *)
Lemma span {A} (p : A -> bool) l : exists u v, l = u ++ v /\ (forall x, In x u -> p x = true) /\ (v = [] \/ exists y v', v = y :: v' /\ p y = false).
Proof.
  induction l as [|a l (u & v & -> & Hu & Hv)]; [exists [], []; split; [reflexivity|]; split; [intros ? []|left; reflexivity]|].
  destruct (p a) eqn:E; [exists (a :: u), v; split; [reflexivity|]; split; [intros x [<-|H]; auto|exact Hv]|].
  exists [], (a :: u ++ v). split; auto. split; [intros ? []|]. right. eauto.
Qed.
Lemma turning3 n l1 a l2 b l3 c l4 : Turning n (l1 ++ a :: l2 ++ b :: l3 ++ c :: l4) -> 0 < turn n a b c.
Proof.
  intros T. apply (T (length l1) (length l1 + S (length l2))%nat (length l1 + S (length l2 + S (length l3)))%nat); [lia| | |].
  - rewrite nth_error_app2, Nat.sub_diag by lia. auto.
  - rewrite nth_error_app2 by lia. replace (length l1 + S (length l2) - length l1)%nat with (S (length l2)) by lia. cbn. rewrite nth_error_app2, Nat.sub_diag by lia. auto.
  - rewrite nth_error_app2 by lia. replace (length l1 + S (length l2 + S (length l3)) - length l1)%nat with (S (length l2 + S (length l3))) by lia. cbn.
    rewrite nth_error_app2 by lia. replace (length l2 + S (length l3) - length l2)%nat with (S (length l3)) by lia. cbn. rewrite nth_error_app2, Nat.sub_diag by lia. auto.
Qed.
Definition Flat (n : p3) (c : Q) (V : list p3) : Prop := forall v, In v V -> dotn n v == c.
Lemma side_affine l x : side l x == affine (X3 (pnorm l)) (Y3 (pnorm l)) (Z3 (pnorm l)) (- pw l) x.
Proof. unfold side, dot3, affine. ring. Qed.
Lemma four_sides n c l l1 a l2 b l3 d l4 e l5 V : 0 < dotn n n -> Flat n c V -> Turning n V -> V = l1 ++ a :: l2 ++ b :: l3 ++ d :: l4 ++ e :: l5 ->
  exists ka kb kd ke, 0 < ka /\ 0 < kb /\ 0 < kd /\ 0 < ke /\ ka + kd == kb + ke /\ ka * side l a + kd * side l d == kb * side l b + ke * side l e.
Proof.
  intros N F T E. exists (turn n b d e), (turn n a d e), (turn n a b e), (turn n a b d).
  assert (Fa : dotn n a == c) by (apply F; rewrite E; apply in_or_app; right; left; auto).
  assert (Fb : dotn n b == c) by (apply F; rewrite E; apply in_or_app; right; right; apply in_or_app; right; left; auto).
  assert (Fd : dotn n d == c) by (apply F; rewrite E; apply in_or_app; right; right; apply in_or_app; right; right; apply in_or_app; right; left; auto).
  assert (Fe : dotn n e == c) by (apply F; rewrite E; apply in_or_app; right; right; apply in_or_app; right; right; apply in_or_app; right; right; apply in_or_app; right; left; auto).
  rewrite E in T.
  split; [apply (turning3 n (l1 ++ a :: l2) b l3 d l4 e l5); rewrite <- app_assoc; cbn; auto|].
  split; [apply (turning3 n l1 a (l2 ++ b :: l3) d l4 e l5); rewrite <- app_assoc; cbn; auto|].
  split; [apply (turning3 n l1 a l2 b (l3 ++ d :: l4) e l5); rewrite <- app_assoc; cbn; auto|].
  split; [apply (turning3 n l1 a l2 b l3 d (l4 ++ e :: l5)); auto|].
  split; [pose proof (turn_four n a b d e); lra|].
  pose proof (flat_four n a b d e 0 N) as E0. pose proof (flat_four n a b d e 1 N) as E1. pose proof (flat_four n a b d e 2 N) as E2.
  rewrite Fa, Fb, Fd, Fe in E0, E1, E2. specialize (E0 (Qeq_refl _) (Qeq_refl _) (Qeq_refl _)). specialize (E1 (Qeq_refl _) (Qeq_refl _) (Qeq_refl _)). specialize (E2 (Qeq_refl _) (Qeq_refl _) (Qeq_refl _)).
  pose proof (turn_four n a b d e) as T4. cbn [C] in *. rewrite !side_affine. unfold affine.
  set (u := turn n b d e) in *. set (v := turn n a b e) in *. set (w := turn n a d e) in *. set (z := turn n a b d) in *.
  set (nx := X3 (pnorm l)). set (ny := Y3 (pnorm l)). set (nz := Z3 (pnorm l)). set (k := pw l).
  assert (K : u * (nx * X3 a + ny * Y3 a + nz * Z3 a + - k) + v * (nx * X3 d + ny * Y3 d + nz * Z3 d + - k)
     == nx * (u * X3 a + v * X3 d) + ny * (u * Y3 a + v * Y3 d) + nz * (u * Z3 a + v * Z3 d) - k * (u + v)) by ring.
  assert (UV : u + v == w + z) by lra. rewrite K, E0, E1, E2, UV. ring.
Qed.
Section Shape.
  Context (eps : Q) (l : plane) (n : p3) (c : Q).
  Hypothesis (E0 : 0 <= eps) (Nn : 0 < dotn n n).
  Lemma no_alternate V l1 a l2 b l3 d l4 e l5 : Flat n c V -> Turning n V -> V = l1 ++ a :: l2 ++ b :: l3 ++ d :: l4 ++ e :: l5 ->
    ~ (eps < side l a /\ eps < side l d /\ side l b <= eps /\ side l e <= eps) /\
    ~ (side l b < - eps /\ side l e < - eps /\ - eps <= side l a /\ - eps <= side l d).
  Proof using E0 Nn.
    intros F T E. destruct (four_sides n c l l1 a l2 b l3 d l4 e l5 V Nn F T E) as (ka & kb & kd & ke & Pa & Pb & Pd & Pe & S1 & S2).
    split; intros (A & B & D & G).
    - assert (0 < ka * (side l a - eps)) by (apply Qmult_lt_0_compat; lra). assert (0 < kd * (side l d - eps)) by (apply Qmult_lt_0_compat; lra).
      assert (0 <= kb * (eps - side l b)) by (apply Qmult_le_0_compat; lra). assert (0 <= ke * (eps - side l e)) by (apply Qmult_le_0_compat; lra).
      assert (K : (ka + kd) * eps == (kb + ke) * eps) by (rewrite S1; reflexivity). lra.
    - assert (0 < kb * (- eps - side l b)) by (apply Qmult_lt_0_compat; lra). assert (0 < ke * (- eps - side l e)) by (apply Qmult_lt_0_compat; lra).
      assert (0 <= ka * (side l a + eps)) by (apply Qmult_le_0_compat; lra). assert (0 <= kd * (side l d + eps)) by (apply Qmult_le_0_compat; lra).
      assert (K : (ka + kd) * eps == (kb + ke) * eps) by (rewrite S1; reflexivity). lra.
  Qed.
  Lemma shape V : Flat n c V -> Turning n V -> (exists x, In x V /\ classify eps l x = FRONT) -> (exists x, In x V /\ classify eps l x = BACK) ->
    exists A B f0 Fr C1 b0 Bk C2, V = A ++ B /\ B ++ A = (f0 :: Fr) ++ C1 ++ (b0 :: Bk) ++ C2 /\
      All eps l FRONT (f0 :: Fr) /\ All eps l COPL C1 /\ All eps l BACK (b0 :: Bk) /\ All eps l COPL C2.
  Proof using E0 Nn.
    intros F T (x & Ix & Hx) (y & Iy & Hy).
    (* a turned list that starts in front and does not end there *)
    assert (K : exists A B f0 M z, V = A ++ B /\ B ++ A = f0 :: M ++ [z] /\ classify eps l f0 = FRONT /\ classify eps l z <> FRONT).
    { apply in_split in Ix as (u & v & ->).
      assert (Iy' : In y (v ++ u)). { apply in_app_or in Iy as [H|[H|H]]; [apply in_or_app; auto|subst; congruence|apply in_or_app; auto]. }
      destruct (span (fun q => is_front (classify eps l q)) (rev (v ++ u))) as (s & t & Es & Hs & Ht).
      destruct Ht as [-> |(z & t' & -> & Hz)].
      { rewrite app_nil_r in Es. exfalso. assert (I : In y (rev (v ++ u))) by (apply -> in_rev; auto). rewrite Es in I. apply Hs in I. rewrite Hy in I. discriminate. }
      assert (Ev : v ++ u = rev t' ++ z :: rev s). { rewrite <- (rev_involutive (v ++ u)), Es, rev_app_distr. cbn [rev]. rewrite <- app_assoc. auto. }
      assert (Hz' : classify eps l z <> FRONT) by (intros X; rewrite X in Hz; discriminate).
      assert (Hrs : forall q, In q (rev s) -> classify eps l q = FRONT). { intros q Iq. apply in_rev in Iq. apply Hs in Iq. destruct (classify eps l q); auto; discriminate. }
      (* x :: v ++ u = (x :: rev t') ++ z :: rev s, turned to rev s ++ x :: rev t' ++ [z] *)
      assert (EV : exists A B, u ++ x :: v = A ++ B /\ B ++ A = rev s ++ x :: rev t' ++ [z]).
      { (* the place of z is in v or in u *)
        assert (CC : (exists v2, v = rev t' ++ z :: v2 /\ rev s = v2 ++ u) \/ (exists u1, rev t' = v ++ u1 /\ u = u1 ++ z :: rev s)).
        { clear -Ev. revert v Ev. induction (rev t') as [|q t IH]; intros v Ev.
          - destruct v as [|w v]; cbn in Ev; [right; exists []; auto|]. injection Ev as <- Ev. left. exists v. auto.
          - destruct v as [|w v]; cbn in Ev; [right; exists (q :: t); auto|]. injection Ev as <- Ev. destruct (IH v Ev) as [(v2 & -> & H)|(u1 & -> & H)]; [left; exists v2; auto|right; exists u1; auto]. }
        destruct CC as [(v2 & -> & Hs2)|(u1 & Ht2 & ->)].
        - exists (u ++ x :: rev t' ++ [z]), v2. rewrite Hs2, <- ?app_assoc. cbn [app]. rewrite <- ?app_assoc. auto.
        - exists (u1 ++ [z]), (rev s ++ x :: v). rewrite Ht2, <- ?app_assoc. cbn [app]. rewrite <- ?app_assoc. auto. }
      destruct EV as (A & B & EV1 & EV2). destruct (rev s) as [|f0 rs] eqn:Ers.
      - exists A, B, x, (rev t'), z. rewrite EV2. auto.
      - exists A, B, f0, (rs ++ x :: rev t'), z. split; [exact EV1|]. split; [rewrite EV2, <- app_assoc; reflexivity|]. split; [apply Hrs; left; auto|auto]. }
    destruct K as (A & B & f0 & M & z & EV & EB & Hf & Hz).
    assert (F' : Flat n c (B ++ A)). { intros q Iq. apply F. rewrite EV. apply in_app_or in Iq as [H|H]; apply in_or_app; auto. }
    assert (T' : Turning n (B ++ A)) by (apply turning_rotate; rewrite <- EV; auto).
    assert (Iy' : In y (B ++ A)). { rewrite EV in Iy. apply in_app_or in Iy as [H|H]; apply in_or_app; auto. }
    rewrite EB in F', T', Iy'. 
    destruct (span (fun q => is_front (classify eps l q)) (M ++ [z])) as (Fr & R & ER & HFr & HR).
    destruct HR as [-> |(y0 & R' & -> & Hy0)].
    { exfalso. rewrite app_nil_r in ER. assert (In z Fr) by (rewrite <- ER; apply in_or_app; right; left; auto). apply HFr in H. destruct (classify eps l z); try discriminate; congruence. }
    assert (HF : All eps l FRONT (f0 :: Fr)). { intros q [<-|Iq]; auto. apply HFr in Iq. destruct (classify eps l q); auto; discriminate. }
    rewrite ER in *.
    (* nothing in front after it *)
    assert (NR : forall q, In q (y0 :: R') -> classify eps l q <> FRONT).
    { intros q [<-|Iq] Hq; [rewrite Hq in Hy0; discriminate|]. apply in_split in Iq as (r1 & r2 & ER').
      assert (exists r3, r2 = r3 ++ [z]) as (r3 & ->).
      { rewrite ER' in ER. destruct (rev r2) as [|z' r3] eqn:Er2.
        - apply (f_equal (@rev p3)) in Er2. rewrite rev_involutive in Er2. cbn [rev] in Er2. subst r2. exfalso.
          replace (Fr ++ y0 :: r1 ++ [q]) with ((Fr ++ y0 :: r1) ++ [q]) in ER by (rewrite <- app_assoc; auto). apply app_inj_tail in ER as (_ & ->). congruence.
        - apply (f_equal (@rev p3)) in Er2. rewrite rev_involutive in Er2. cbn in Er2. subst r2. exists (rev r3).
          replace (Fr ++ y0 :: r1 ++ q :: rev r3 ++ [z']) with ((Fr ++ y0 :: r1 ++ q :: rev r3) ++ [z']) in ER by (rewrite <- !app_assoc; cbn; rewrite <- !app_assoc; auto).
          apply app_inj_tail in ER as (_ & ->). auto. }
      subst R'. destruct (no_alternate _ [] f0 Fr y0 r1 q r3 z [] F' T') as (X & _); [reflexivity|]. apply X.
      destruct (class_cases eps l f0 E0) as [(?&?)|[(?&?)|(?&?)]]; try congruence. destruct (class_cases eps l q E0) as [(?&?)|[(?&?)|(?&?)]]; try congruence.
      split; [auto|]. split; [auto|]. split.
      - destruct (class_cases eps l y0 E0) as [(?&?)|[(W&?)|(?&?)]]; [lra|rewrite W in Hy0; discriminate|lra].
      - destruct (class_cases eps l z E0) as [(?&?)|[(W&?)|(?&?)]]; [lra|congruence|lra]. }
    assert (IyR : In y (y0 :: R')). { destruct Iy' as [<-|I]; [congruence|]. apply in_app_or in I as [I|I]; auto. exfalso. rewrite (HF y) in Hy; [discriminate|right; auto]. }
    destruct (span (fun q => negb (is_back (classify eps l q))) (y0 :: R')) as (C1 & R2 & ER2 & HC1 & HR2).
    destruct HR2 as [-> |(b0 & R3 & -> & Hb0)].
    { exfalso. rewrite app_nil_r in ER2. rewrite ER2 in IyR. apply HC1 in IyR. rewrite Hy in IyR. discriminate. }
    rewrite ER2 in *.
    assert (HC1' : All eps l COPL C1). { intros q Iq. pose proof (HC1 q Iq) as X. assert (Y : classify eps l q <> FRONT) by (apply NR; apply in_or_app; auto). destruct (classify eps l q); auto; [congruence|discriminate]. }
    destruct (span (fun q => is_back (classify eps l q)) R3) as (Bk & C2 & ER3 & HBk & HC2).
    assert (HB : All eps l BACK (b0 :: Bk)). { intros q [<-|Iq]; [destruct (classify eps l b0); auto; discriminate|]. apply HBk in Iq. destruct (classify eps l q); auto; discriminate. }
    rewrite ER3 in *.
    exists A, B, f0, Fr, C1, b0, Bk, C2. split; [exact EV|]. split; [rewrite EB; reflexivity|]. split; [exact HF|]. split; [exact HC1'|]. split; [exact HB|].
    destruct HC2 as [-> |(y1 & C2' & -> & Hy1)]; [intros ? []|].
    intros q Iq. assert (Y : classify eps l q <> FRONT) by (apply NR; apply in_or_app; right; right; apply in_or_app; auto).
    destruct (classify eps l q) eqn:Eq; auto; [congruence|]. exfalso. destruct Iq as [<-|Iq]; [rewrite Eq in Hy1; discriminate|].
    apply in_split in Iq as (r1 & r2 & ->).
    destruct (no_alternate _ [] f0 (Fr ++ C1) b0 Bk y1 r1 q r2 F' T') as (_ & X); [cbn [app]; rewrite <- app_assoc; reflexivity|]. apply X.
    destruct (class_cases eps l f0 E0) as [(?&?)|[(?&?)|(?&?)]]; try congruence. destruct (class_cases eps l q E0) as [(?&?)|[(?&?)|(?&?)]]; try congruence.
    destruct (class_cases eps l b0 E0) as [(?&?)|[(W&?)|(W&?)]]; try (rewrite W in Hb0; discriminate).
    split; [auto|]. split; [auto|]. split; [lra|]. destruct (class_cases eps l y1 E0) as [(W&?)|[(W&?)|(W&?)]]; [rewrite W in Hy1; discriminate|lra|lra].
  Qed.
End Shape.
