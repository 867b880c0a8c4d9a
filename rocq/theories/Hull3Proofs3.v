(* One step of the growth of a hull: the geometry. *)
From Verif Require Import Base BaseFacts Plane PlaneFacts MeshEditorModel AreaProofs RayModel WithinProofs PolygonProps Hull3Model Hull3Spec Hull3Proofs Hull3Proofs2.
From Coq Require Import QArith Lqa Permutation.
Local Open Scope Q_scope.

Lemma nodup_app {A} (l l' : list A) : NoDup l -> NoDup l' -> (forall x, In x l -> ~ In x l') -> NoDup (l ++ l').
Proof.
  induction l as [|a l IH]; intros N N' H; [auto|]. inversion N; subst. cbn. constructor.
  - rewrite in_app_iff. intros [I|I]; [auto|]. apply (H a); [left; auto|auto].
  - apply IH; auto. intros x I. apply H. right; auto.
Qed.
Lemma nodup_app_inv {A} (l l' : list A) : NoDup (l ++ l') -> NoDup l /\ NoDup l' /\ (forall x, In x l -> ~ In x l').
Proof.
  induction l as [|a l IH]; intros N; [repeat split; auto; constructor|]. cbn in N. inversion N as [|? ? H1 H2]; subst.
  destruct (IH H2) as (A1 & A2 & A3). rewrite in_app_iff in H1. repeat split; auto.
  - constructor; tauto.
  - intros x [<-|I]; [tauto|auto].
Qed.
Lemma nodup_map_inj {A B} (f : A -> B) l : NoDup l -> (forall x y, In x l -> In y l -> f x = f y -> x = y) -> NoDup (map f l).
Proof.
  induction l as [|a l IH]; intros N H; cbn; constructor; inversion N; subst.
  - intros I. apply in_map_iff in I. destruct I as (x & E & I). apply H in E; [subst; auto|right; auto|left; auto].
  - apply IH; auto. intros; apply H; auto; right; auto.
Qed.

Section Step.
  Context (ps : list p3) (Sep : Separated ps).
  Local Notation n := (length ps).
  Local Notation P := (at3 ps).
  Definition Dt (t : tri3) (l : nat) : Q := let '(a, b, c) := t in Vol ps a b c l.

  Record Inv (R : list nat) (ts : list tri3) : Prop := {
    iv_some : ts <> [];
    iv_wf : forall a b c, In (a, b, c) ts -> (a < n /\ b < n /\ c < n)%nat /\ different [a; b; c] /\ ~ In a R /\ ~ In b R /\ ~ In c R;
    iv_under : forall t q, In t ts -> (q < n)%nat -> ~ In q R -> Dt t q <= 0;
    iv_solid : forall t, In t ts -> exists q, (q < n)%nat /\ ~ In q R /\ Dt t q < 0;
    iv_once : NoDup (flat_map tri_edges ts);
    iv_closed : forall a b, In (a, b) (flat_map tri_edges ts) -> In (b, a) (flat_map tri_edges ts);
    iv_ext : forall r, In r R -> (r < n)%nat /\ exists t, In t ts /\ 0 < Dt t r }.
  Lemma inv_done ts : Inv [] ts -> HullSurface ps ts.
  Proof.
    intros [A B C D E F _]. constructor; auto.
    - intros a b c I. destruct (B a b c I) as ((X & Y & Z) & W & _). auto.
    - intros a b c q I L. apply (C (a, b, c) q); auto.
    - intros a b c I. destruct (D _ I) as (q & L & _ & X). exists q. auto.
  Qed.

  Lemma diff2 (a b : nat) : different [a; b] <-> a <> b.
  Proof. unfold different. split; [intros N; inversion N as [|? ? H _]; subst; cbn in H; intuition|]. intros H. repeat constructor; cbn; intuition. Qed.
  Lemma diff3 (a b c : nat) : different [a; b; c] <-> a <> b /\ a <> c /\ b <> c.
  Proof.
    unfold different. split.
    - intros N. inversion N as [|? ? H N']; subst. inversion N' as [|? ? H' _]; subst. cbn in H, H'. intuition.
    - intros (A & B & C). repeat constructor; cbn; intuition.
  Qed.
  Lemma diff4 (a b c d : nat) : different [a; b; c; d] <-> a <> b /\ a <> c /\ b <> c /\ a <> d /\ b <> d /\ c <> d.
  Proof.
    unfold different. split.
    - intros N. inversion N as [|? ? H N']; subst. inversion N' as [|? ? H' N'']; subst. inversion N'' as [|? ? H'' _]; subst. cbn in *. intuition.
    - intros (A & B & C & D & E & F). repeat constructor; cbn; intuition.
  Qed.
  Lemma area_pos a b c : (a < n)%nat -> (b < n)%nat -> (c < n)%nat -> different [a; b; c] -> 0 < area2 (P a) (P b) (P c).
  Proof. intros. pose proof (sp_line ps Sep a b c ltac:(auto) ltac:(auto) ltac:(auto) ltac:(auto)) as H3. refine (Qlt_le_trans _ _ _ _ H3). reflexivity. Qed.
  Lemma vol_zero a b c l : (l = a \/ l = b \/ l = c) -> Vol ps a b c l == 0.
  Proof. unfold Vol. intros [->|[->| ->]]; [apply vol6_a|apply vol6_b|apply vol6_c]. Qed.

  Context (R : list nat) (ts : list tri3) (I : Inv R ts) (p : nat) (Hp : In p R).
  Definition vis (t : tri3) : bool := Qlt_bool 0 (Dt t p).
  Local Notation V := (filter vis ts).
  Local Notation K := (filter (fun t => negb (vis t)) ts).
  Local Notation EV := (flat_map tri_edges V).
  Local Notation EK := (flat_map tri_edges K).
  Local Notation B := (border EV).
  Definition known (q : nat) : Prop := (q < n)%nat /\ ~ In q R.

  Lemma vis_in t : In t V <-> In t ts /\ 0 < Dt t p.
  Proof. rewrite filter_In. unfold vis. rewrite qlt_bool_iff. reflexivity. Qed.
  Lemma hid_in t : In t K <-> In t ts /\ Dt t p <= 0.
  Proof. rewrite filter_In, Bool.negb_true_iff. unfold vis. split; intros [A X]; split; auto; [apply qlt_false in X; auto|apply qlt_false; auto]. Qed.
  Lemma perm_parts : Permutation (flat_map tri_edges ts) (EV ++ EK).
  Proof.
    rewrite <- flat_map_app. apply Permutation_flat_map. generalize vis. intros f. clear.
    induction ts as [|t l IH]; [constructor|]. cbn [filter]. destruct (f t); cbn [negb app].
    - constructor. auto.
    - rewrite IH at 1. apply Permutation_middle.
  Qed.
  Lemma parts_nodup : NoDup EV /\ NoDup EK /\ (forall x, In x EV -> ~ In x EK).
  Proof. apply nodup_app_inv. apply (Permutation_NoDup perm_parts). apply (iv_once _ _ I). Qed.
  Lemma edges_in e : In e (flat_map tri_edges ts) <-> In e EV \/ In e EK.
  Proof. rewrite <- in_app_iff. split; apply Permutation_in; [|symmetry]; apply perm_parts. Qed.

  (* the triangle on an edge *)
  Lemma tri_on (l : list tri3) (Hl : forall t, In t l -> In t ts) a b : In (a, b) (flat_map tri_edges l) -> exists c t, In t l /\ (forall x, Vol ps a b c x == Dt t x) /\
    known a /\ known b /\ known c /\ different [a; b; c].
  Proof.
    intros J. apply edge_of_tri in J. cbn [fst snd] in J. destruct J as (c & t & It & J).
    exists c, t. split; auto. unfold known. destruct J as [->|[->| ->]].
    - destruct (iv_wf _ _ I _ _ _ (Hl _ It)) as ((A1 & A2 & A3) & W & B1 & B2 & B3). split; [intros x; reflexivity|]. auto 10.
    - destruct (iv_wf _ _ I _ _ _ (Hl _ It)) as ((A1 & A2 & A3) & W & B1 & B2 & B3). split; [intros x; unfold Dt, Vol; apply vol6_turn|].
      repeat (split; [auto|]). apply diff3 in W. apply diff3. intuition.
    - destruct (iv_wf _ _ I _ _ _ (Hl _ It)) as ((A1 & A2 & A3) & W & B1 & B2 & B3).
      split; [intros x; unfold Dt, Vol; symmetry; apply vol6_turn|]. repeat (split; [auto|]). apply diff3 in W. apply diff3. intuition.
  Qed.
  Lemma no_loop x y : In (x, y) (flat_map tri_edges ts) -> x <> y.
  Proof. intros J. destruct (tri_on ts (fun _ H => H) _ _ J) as (c & t & _ & _ & _ & _ & _ & W). apply diff3 in W. tauto. Qed.
  Lemma no_loop_v x y : In (x, y) EV -> x <> y.
  Proof. intros J. apply no_loop. apply edges_in. auto. Qed.
  Lemma p_new q : known q -> q <> p.
  Proof. intros [_ H] ->. auto. Qed.
  Lemma p_lt : (p < n)%nat.
  Proof. apply (iv_ext _ _ I _ Hp). Qed.

  (* both sides of an edge of the horizon *)
  Lemma sides a b : In (a, b) B -> exists c1 c2, known a /\ known b /\ known c1 /\ known c2 /\ a <> b /\
    (forall q, known q -> Vol ps a b c1 q <= 0) /\ 0 < Vol ps a b c1 p /\
    (forall q, known q -> Vol ps b a c2 q <= 0) /\ Vol ps b a c2 p <= 0 /\ (exists q, known q /\ Vol ps b a c2 q < 0).
  Proof.
    intros J. apply border_in in J. destruct J as [J N]. cbn in N.
    destruct (tri_on V (fun t H => proj1 (proj1 (vis_in t) H)) _ _ J) as (c1 & t1 & I1 & E1 & A & A' & A'' & W). apply vis_in in I1.
    assert (J2 : In (b, a) EK).
    { assert (X : In (b, a) (flat_map tri_edges ts)) by (apply (iv_closed _ _ I); apply edges_in; auto). apply edges_in in X. tauto. }
    destruct (tri_on K (fun t H => proj1 (proj1 (hid_in t) H)) _ _ J2) as (c2 & t2 & I2 & E2 & _ & _ & A3 & _). apply hid_in in I2.
    exists c1, c2. apply diff3 in W. repeat (split; [tauto|]). split; [|split; [|split; [|split]]].
    - intros q [Q1 Q2]. rewrite E1. apply (iv_under _ _ I); tauto.
    - rewrite E1. tauto.
    - intros q [Q1 Q2]. rewrite E2. apply (iv_under _ _ I); tauto.
    - rewrite E2. tauto.
    - destruct (iv_solid _ _ I t2) as (q & Q1 & Q2 & Q3); [tauto|]. exists q. rewrite E2. unfold known. auto.
  Qed.
  (* the new triangle has the known points under it *)
  Lemma fan_under a b q : In (a, b) B -> known q -> Vol ps a b p q <= 0.
  Proof.
    intros J Q. destruct (sides a b J) as (c1 & c2 & Ka & Kb & K1 & K2 & Ne & U1 & V1 & U2 & V2 & (o & Ko & So)).
    assert (Sw : forall x, Vol ps a b c2 x == - Vol ps b a c2 x) by (intros; unfold Vol; apply vol6_swap).
    assert (PL : forall x, Vol ps a b c1 c2 * Vol ps a b p x == Vol ps a b c1 p * Vol ps a b c2 x - Vol ps a b c1 x * Vol ps a b c2 p) by (intros; unfold Vol; apply plucker).
    pose proof (U1 c2 K2) as C12.
    assert (Pos : forall x, known x -> 0 <= Vol ps a b c1 p * Vol ps a b c2 x - Vol ps a b c1 x * Vol ps a b c2 p).
    { intros x Kx. pose proof (U1 x Kx). pose proof (U2 x Kx). rewrite (Sw x), (Sw p).
      assert (0 <= Vol ps a b c1 p * - Vol ps b a c2 x) by (apply Qmult_le_0_compat; lra).
      assert (0 <= (- Vol ps a b c1 x) * - Vol ps b a c2 p) by (apply Qmult_le_0_compat; lra). lra. }
    assert (S12 : Vol ps a b c1 c2 < 0).
    { destruct (Qlt_le_dec (Vol ps a b c1 c2) 0) as [L|L]; auto. exfalso.
      assert (Z : Vol ps a b c1 c2 == 0) by lra. pose proof (PL o) as E. rewrite Z in E.
      pose proof (U1 o Ko). rewrite (Sw o), (Sw p) in E.
      assert (0 < Vol ps a b c1 p * - Vol ps b a c2 o) by (apply sign_pp; lra).
      assert (0 <= (- Vol ps a b c1 o) * - Vol ps b a c2 p) by (apply Qmult_le_0_compat; lra). lra. }
    pose proof (PL q) as E. pose proof (Pos q Q) as E'. destruct (Qlt_le_dec 0 (Vol ps a b p q)) as [L|L]; auto.
    assert (0 < (- Vol ps a b c1 c2) * Vol ps a b p q) by (apply sign_pp; lra). lra.
  Qed.

  (* the volume swept from a known point over the horizon *)
  Lemma swept q : known q -> 0 < sumf (fun e => Vol ps q (fst e) (snd e) p) B.
  Proof.
    intros Q. rewrite <- border_sum.
    - rewrite sumf_flat. rewrite (sumf_ext _ (fun t => Dt t p - Dt t q)).
      + destruct (proj2 (iv_ext _ _ I _ Hp)) as (t & It & X). assert (Iv : In t V) by (apply vis_in; auto).
        assert (G : forall t, In t V -> 0 < Dt t p - Dt t q).
        { intros t' J. apply vis_in in J. destruct J as [J Y]. pose proof (iv_under _ _ I t' q J (proj1 Q) (proj2 Q)). lra. }
        apply (sumf_pos _ _ t); auto. intros t' J. apply Qlt_le_weak. auto.
      + intros [[a b] c] _. unfold tri_edges. rewrite !sumf_cons, sumf_nil. cbn [fst snd]. unfold Dt, Vol. rewrite <- vol6_edges. ring.
    - apply parts_nodup.
    - intros [a b]. cbn [flipe fst snd]. unfold Vol. apply vol6_mid.
  Qed.
  Lemma horizon_some : exists e, In e B.
  Proof.
    destruct (proj2 (iv_ext _ _ I _ Hp)) as ([[a b] c] & It & _). destruct (iv_wf _ _ I _ _ _ It) as ((A & _) & _ & NA & _).
    pose proof (swept a (conj A NA)) as X. destruct B as [|e l] eqn:E; [cbn in X; lra|]. exists e. left; auto.
  Qed.
  Lemma horizon_known a b : In (a, b) B -> known a /\ known b /\ a <> b.
  Proof. intros J. destruct (sides a b J) as (c1 & c2 & Ka & Kb & K1 & K2 & Ne & _). auto. Qed.
  (* some point of the horizon is strictly under the new triangle *)
  Lemma fan_solid a b : In (a, b) B -> exists v e, In e B /\ (v = fst e \/ v = snd e) /\ Vol ps a b p v < 0.
  Proof.
    intros J. destruct (horizon_known a b J) as (Ka & Kb & Ne). pose proof (swept a Ka) as X.
    destruct (existsb (fun e => Qlt_bool (Vol ps a b p (fst e)) 0 || Qlt_bool (Vol ps a b p (snd e)) 0) B) eqn:Y.
    { apply existsb_exists in Y. destruct Y as (e & Je & Y). apply Bool.orb_true_iff in Y. rewrite !qlt_bool_iff in Y. destruct Y as [Y|Y]; [exists (fst e), e|exists (snd e), e]; auto. }
    exfalso. assert (Z : sumf (fun e => Vol ps a (fst e) (snd e) p) B == 0).
    { rewrite (sumf_ext _ (fun _ => 0 * 0)); [rewrite sumf_scale; ring|]. intros [x y] Je. cbn [fst snd].
      assert (N : (Qlt_bool (Vol ps a b p x) 0 || Qlt_bool (Vol ps a b p y) 0) = false).
      { destruct (Qlt_bool (Vol ps a b p x) 0 || Qlt_bool (Vol ps a b p y) 0) eqn:W; auto.
        assert (existsb (fun e => Qlt_bool (Vol ps a b p (fst e)) 0 || Qlt_bool (Vol ps a b p (snd e)) 0) B = true) by (apply existsb_exists; exists (x, y); auto). congruence. }
      apply Bool.orb_false_iff in N. destruct N as [N1 N2]. apply qlt_false in N1, N2. destruct (horizon_known x y Je) as (Kx & Ky & _).
      pose proof (fan_under a b x J Kx). pose proof (fan_under a b y J Ky).
      assert (Ar : 0 < area2 (P a) (P b) (P p)).
      { apply area_pos; [apply Ka|apply Kb|apply p_lt|]. apply diff3. pose proof (p_new a Ka). pose proof (p_new b Kb). auto. }
      assert (G : Vol ps a x y p == 0).
      { unfold Vol in *. apply (coplanar (P a) (P b) (P p)); auto; try lra; [apply vol6_a|apply vol6_c]. }
      rewrite G. ring. }
    lra.
  Qed.
  Lemma det_at o x y z : det3 (sub3 (P x) (P o)) (sub3 (P y) (P o)) (sub3 (P z) (P o)) = Vol ps o x y z.
  Proof. reflexivity. Qed.
  Lemma dot_at o x y z : dot3 (cross3 (sub3 (P x) (P o)) (sub3 (P y) (P o))) (sub3 (P z) (P o)) == Vol ps o x y z.
  Proof. unfold Vol. rewrite vol6_dot. unfold dot3. ring. Qed.
  (* the horizon does not branch *)
  Lemma horizon_out a b b' : In (a, b) B -> In (a, b') B -> b = b'.
  Proof.
    intros J J'. destruct (Nat.eq_dec b b') as [|Ne]; auto. exfalso.
    destruct (sides a b J) as (c1 & _ & Ka & Kb & K1 & _ & Nab & U1 & V1 & _).
    destruct (sides a b' J') as (c1' & _ & _ & Kb' & K1' & _ & Nab' & U1' & V1' & _).
    destruct (fan_solid a b J) as (v & e & Je & Hv & Lv). destruct e as [x y]. destruct (horizon_known x y Je) as (Kx & Ky & _).
    assert (Kv : known v) by (destruct Hv as [->| ->]; auto).
    pose proof (fan_under a b b' J Kb') as X1. pose proof (fan_under a b' b J' Kb) as X2.
    assert (X3 : Vol ps a b' p b == - Vol ps a b p b') by (unfold Vol; apply vol6_24).
    pose proof (fan_under a b' v J' Kv) as X4.
    assert (Z : Vol ps a b p v == 0).
    { rewrite <- det_at. apply (two_cone (sub3 (P b) (P a)) (sub3 (P b') (P a)) (sub3 (P p) (P a))
        (cross3 (sub3 (P b) (P a)) (sub3 (P c1) (P a))) (cross3 (sub3 (P b') (P a)) (sub3 (P c1') (P a)))).
      - rewrite area2_dot. apply area_pos; [apply Ka|apply Kb|apply Kb'|]. apply diff3. auto.
      - rewrite det_at. assert (E : Vol ps a b b' p == - Vol ps a b p b') by (unfold Vol; apply vol6_last). rewrite E. lra.
      - rewrite dot_at. apply vol_zero. auto.
      - rewrite dot_at. auto.
      - rewrite dot_at. auto.
      - rewrite dot_at. apply vol_zero. auto.
      - rewrite dot_at. auto.
      - rewrite dot_at. auto.
      - rewrite !det_at. assert (0 <= (- Vol ps a b p v) * (- Vol ps a b' p v)) by (apply Qmult_le_0_compat; lra). lra. }
    lra.
  Qed.
  Lemma horizon_into a a' b : In (a, b) B -> In (a', b) B -> a = a'.
  Proof.
    intros J J'. destruct (Nat.eq_dec a a') as [|Ne]; auto. exfalso.
    destruct (sides a b J) as (c1 & _ & Ka & Kb & K1 & _ & Nab & U1 & V1 & _).
    destruct (sides a' b J') as (c1' & _ & Ka' & _ & K1' & _ & Nab' & U1' & V1' & _).
    destruct (fan_solid a b J) as (v & e & Je & Hv & Lv). destruct e as [x y]. destruct (horizon_known x y Je) as (Kx & Ky & _).
    assert (Kv : known v) by (destruct Hv as [->| ->]; auto).
    pose proof (fan_under a b a' J Ka') as X1. pose proof (fan_under a' b a J' Ka) as X2.
    assert (X3 : Vol ps a' b p a == - Vol ps a b p a') by (unfold Vol; apply vol6_ends).
    pose proof (fan_under a' b v J' Kv) as X4.
    assert (T : forall a c x, Vol ps b c a x == Vol ps a b c x) by (intros; unfold Vol; apply vol6_turn).
    assert (Sw : forall a x, Vol ps b a p x == - Vol ps a b p x) by (intros; unfold Vol; apply vol6_swap).
    assert (Z : Vol ps b a p v == 0).
    { rewrite <- det_at. apply (two_cone (sub3 (P a) (P b)) (sub3 (P a') (P b)) (sub3 (P p) (P b))
        (cross3 (sub3 (P c1) (P b)) (sub3 (P a) (P b))) (cross3 (sub3 (P c1') (P b)) (sub3 (P a') (P b)))).
      - rewrite area2_dot. apply area_pos; [apply Kb|apply Ka|apply Ka'|]. apply diff3. auto.
      - rewrite det_at. assert (E : Vol ps b a a' p == - Vol ps b a p a') by (unfold Vol; apply vol6_last). rewrite E, Sw. lra.
      - rewrite dot_at. apply vol_zero. auto.
      - rewrite dot_at, T. auto.
      - rewrite dot_at, T. auto.
      - rewrite dot_at. apply vol_zero. auto.
      - rewrite dot_at, T. auto.
      - rewrite dot_at, T. auto.
      - rewrite !det_at, !Sw. assert (0 <= (- Vol ps a b p v) * (- Vol ps a' b p v)) by (apply Qmult_le_0_compat; lra). lra. }
    rewrite Sw in Z. lra.
  Qed.
  Lemma horizon_three : (3 <= length B)%nat.
  Proof. destruct horizon_some as [[a b] J]. apply (border_three _ a b); auto; [apply parts_nodup|apply no_loop_v]. Qed.
  Lemma horizon_short : (length B <= n)%nat.
  Proof.
    rewrite <- (map_length fst), <- (seq_length n 0). apply NoDup_incl_length.
    - apply nodup_map_inj; [apply border_nodup, parts_nodup|]. intros [a b] [a' b'] J J' E. cbn in E. subst a'. rewrite (horizon_out a b b'); auto.
    - intros x J. apply in_map_iff in J. destruct J as ([a b] & <- & J). apply in_seq. cbn. destruct (horizon_known a b J) as ((L & _) & _). lia.
  Qed.

  Definition fan (e : nat * nat) : tri3 := (fst e, snd e, p).
  Context (new : list tri3) (Hnew : Permutation new (map fan B)).
  Lemma new_in t : In t new <-> exists e, In e B /\ t = fan e.
  Proof.
    split; intros J.
    - apply (Permutation_in _ Hnew) in J. apply in_map_iff in J. destruct J as (e & <- & J). eauto.
    - destruct J as (e & J & ->). apply (Permutation_in _ (Permutation_sym Hnew)). apply in_map. auto.
  Qed.
  Lemma fan_edges e : In e (flat_map tri_edges new) <-> In e B \/ (exists a b, In (a, b) B /\ (e = (b, p) \/ e = (p, a))).
  Proof.
    rewrite in_flat_map. split.
    - intros (t & J & X). apply new_in in J. destruct J as ([a b] & J & ->). cbn in X. destruct X as [<-|[<-|[<-|[]]]]; eauto 10.
    - intros [J|(a & b & J & X)].
      + exists (fan e). split; [apply new_in; eauto|]. destruct e. cbn. auto.
      + exists (fan (a, b)). split; [apply new_in; eauto|]. cbn. destruct X as [->| ->]; auto.
  Qed.
  Lemma fan_nodup : NoDup (flat_map tri_edges new).
  Proof.
    assert (Q : Permutation (flat_map tri_edges new) (B ++ (map (fun e => (snd e, p)) B ++ map (fun e => (p, fst e)) B))).
    { rewrite (Permutation_flat_map _ Hnew). generalize B. clear. induction l as [|[a b] l IH]; [constructor|]. cbn [map flat_map tri_edges fan fst snd app].
      apply perm_skip. rewrite IH. rewrite <- Permutation_middle. apply perm_skip. rewrite !app_assoc. rewrite <- Permutation_middle. reflexivity. }
    apply (Permutation_NoDup (Permutation_sym Q)). pose proof (border_nodup _ (proj1 parts_nodup)) as NB.
    apply nodup_app; [auto|apply nodup_app|].
    - apply nodup_map_inj; auto. intros [a b] [a' b'] J J' E. injection E as E. subst b'. rewrite (horizon_into a a' b); auto.
    - apply nodup_map_inj; auto. intros [a b] [a' b'] J J' E. injection E as E. subst a'. rewrite (horizon_out a b b'); auto.
    - intros x J J'. apply in_map_iff in J, J'. destruct J as ([a b] & <- & J), J' as ([a' b'] & E & J'). injection E as E1 E2. subst.
      destruct (horizon_known _ _ J) as (Ka & Kb & _). cbn in *. apply (p_new p); auto; congruence.
    - intros [a b] J. rewrite in_app_iff, !in_map_iff. destruct (horizon_known _ _ J) as (Ka & Kb & _). pose proof (p_new _ Ka). pose proof (p_new _ Kb).
      intros [([x y] & E & _)|([x y] & E & _)]; injection E as E1 E2; congruence.
  Qed.

  Context (R' : list nat) (HR' : forall r, In r R' <-> In r R /\ exists t, In t (K ++ new) /\ 0 < Dt t r).
  Lemma p_gone : ~ In p R'.
  Proof.
    intros J. apply HR' in J. destruct J as (_ & t & J & X). apply in_app_iff in J. destruct J as [J|J].
    - apply hid_in in J. lra.
    - apply new_in in J. destruct J as ([a b] & J & ->). cbn in X. rewrite vol_zero in X by auto. lra.
  Qed.
  Lemma known_stays q : known q -> ~ In q R'.
  Proof. intros [_ Q] J. apply HR' in J. tauto. Qed.
  Lemma ek_known a b : In (a, b) EK -> known a /\ known b.
  Proof. intros J. destruct (tri_on K (fun t H => proj1 (proj1 (hid_in t) H)) _ _ J) as (c & t & _ & _ & A & A' & _). auto. Qed.
  Lemma step_inv : Inv R' (K ++ new).
  Proof.
    destruct parts_nodup as (NV & NK & NX). constructor.
    - destruct horizon_some as [e J]. assert (X : In (fan e) (K ++ new)) by (apply in_app_iff; right; apply new_in; eauto). intros E. rewrite E in X. destruct X.
    - intros a b c J. apply in_app_iff in J. destruct J as [J|J].
      + apply hid_in in J. destruct (iv_wf _ _ I _ _ _ (proj1 J)) as ((A1 & A2 & A3) & W & B1 & B2 & B3). split; [auto|]. split; [auto|]. split; [|split]; apply known_stays; split; auto.
      + apply new_in in J. destruct J as ([x y] & J & E). injection E as -> -> ->. cbn [fst snd]. destruct (horizon_known _ _ J) as (Kx & Ky & Ne).
        split; [repeat split; [apply Kx|apply Ky|apply p_lt]|]. split; [apply diff3; pose proof (p_new _ Kx); pose proof (p_new _ Ky); auto|].
        repeat split; [apply known_stays; auto|apply known_stays; auto|apply p_gone].
    - intros t q J L Q. destruct (in_dec Nat.eq_dec q R) as [IR|IR].
      + destruct (Qlt_le_dec 0 (Dt t q)) as [X|X]; auto. destruct Q. apply HR'. split; auto. exists t. auto.
      + apply in_app_iff in J. destruct J as [J|J].
        * apply hid_in in J. apply (iv_under _ _ I); tauto.
        * apply new_in in J. destruct J as ([x y] & J & ->). cbn. apply fan_under; auto. split; auto.
    - intros t J. apply in_app_iff in J. destruct J as [J|J].
      + apply hid_in in J. destruct (iv_solid _ _ I t (proj1 J)) as (q & L & Q & X). exists q. split; auto. split; auto. apply known_stays. split; auto.
      + apply new_in in J. destruct J as ([x y] & J & ->). destruct (fan_solid x y J) as (v & [z w] & Je & Hv & Lv). destruct (horizon_known _ _ Je) as (Kz & Kw & _).
        assert (Kv : known v) by (destruct Hv as [->| ->]; auto). exists v. cbn. split; [apply Kv|]. split; [apply known_stays; auto|auto].
    - rewrite flat_map_app. apply nodup_app; [auto|apply fan_nodup|]. intros [a b] J X. destruct (ek_known _ _ J) as (Ka & Kb). pose proof (p_new _ Ka). pose proof (p_new _ Kb).
      apply fan_edges in X. destruct X as [X|(x & y & _ & [E|E])]; [|injection E; congruence|injection E; congruence]. apply border_in in X. apply (NX (a, b)); tauto.
    - intros a b. rewrite !flat_map_app, !in_app_iff, !fan_edges. intros [J|[J|(x & y & J & E)]].
      + assert (X : In (b, a) (flat_map tri_edges ts)) by (apply (iv_closed _ _ I); apply edges_in; auto). apply edges_in in X. destruct X as [X|X]; [|auto].
        right. left. apply border_in. split; auto. cbn. intros Y. apply (NX _ Y); auto.
      + apply border_in in J. destruct J as [J N]. cbn in N.
        assert (X : In (b, a) (flat_map tri_edges ts)) by (apply (iv_closed _ _ I); apply edges_in; auto). apply edges_in in X. tauto.
      + destruct E as [E|E]; injection E as -> ->.
        * destruct (border_next _ _ _ NV no_loop_v J) as [z Z]. right. right. exists y, z. auto.
        * destruct (border_prev _ _ _ NV no_loop_v J) as [z Z]. right. right. exists z, x. auto.
    - intros r J. apply HR' in J. destruct J as [J X]. split; [apply (iv_ext _ _ I _ J)|auto].
  Qed.
End Step.
