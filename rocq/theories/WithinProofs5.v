From Verif Require Import Base BaseFacts SerializeModel PLCSpec Plane PlaneFacts AreaModel AreaProofs MeshEditorModel WithinModel WithinSpec WithinProofs WithinProofs2 WithinProofs3 WithinProofs4.
From Coq Require Import QArith Qabs Lqa Permutation.
Local Open Scope Q_scope.

Definition flat3 (vs : list p3) : list Q := flat_map (fun v => [X3 v; Y3 v; Z3 v]) vs.
Lemma flat3_length vs : length (flat3 vs) = (3 * length vs)%nat.
Proof. induction vs as [|q vs IH]; auto. unfold flat3 in *. cbn [flat_map app length]. rewrite IH. lia. Qed.
Lemma triples_flat vs : triples (flat3 vs) = vs.
Proof. induction vs as [|[[x y] z] vs IH]; cbn; auto. f_equal. exact IH. Qed.
Lemma ab3_cloud o n vs : vs <> [] -> exists s, aboveBelow3_cloud o n (flat3 vs) = Ok s /\ forall v, v <> 0%Z -> (s = v <-> forall q, In q vs -> aboveBelow3 o n q = v).
Proof.
  intros N. unfold aboveBelow3_cloud. rewrite flat3_length. rewrite Nat.mul_comm, Nat.mod_mul by lia. cbn [Nat.eqb assert bind].
  assert (E : (1 <? length vs * 3)%nat = true) by (apply Nat.ltb_lt; destruct vs; [contradiction|cbn [length]; lia]). rewrite E. cbn [assert bind]. rewrite triples_flat. apply cloud_ok. auto.
Qed.
Lemma corner3_ok pts nv z p f k : pt_at3 pts z p -> nth_error f k = Some z -> (length pts / 3 <= nv)%nat -> corner3 pts nv f k = Ok p.
Proof.
  intros (P & X & Y & W) K NV. unfold corner3, get. rewrite K. cbn [bind]. pose proof (nth_error_lt _ _ _ W) as L.
  rewrite (proj2 (Z.leb_le _ _) P). assert (Lt : (Z.to_nat z < length pts / 3)%nat) by (apply Nat.div_le_lower_bound; lia).
  rewrite (proj2 (Nat.ltb_lt _ _) (Nat.lt_le_trans _ _ _ Lt NV)). cbn [andb assert bind]. rewrite X. cbn [bind]. rewrite Y. cbn [bind]. rewrite W. cbn [bind]. destruct p as [[? ?] ?]; auto.
Qed.
Lemma half_third n : (n / 3 <= n / 2)%nat.
Proof. apply Nat.div_le_compat_l. lia. Qed.
(* what aboveBelow3 with the code's normal computes *)
Lemma normal_side p q r v : 
  let n := computeNormal p q r in
  X3 n * (X3 v - X3 p) + Y3 n * (Y3 v - Y3 p) + Z3 n * (Z3 v - Z3 p) ==
  vol6 p q r v + (Z3 q - Z3 p) * ((Y3 r - Y3 p) - (Z3 r - Z3 p)) * (X3 v - X3 p).
Proof. destruct p as [[px py] pz], q as [[qx qy] qz], r as [[rx ry] rz], v as [[vx vy] vz]. unfold vol6, det3, sub3, computeNormal, X3, Y3, Z3. cbn. ring. Qed.
Lemma side_harmless t v : HarmlessNormal t -> aboveBelow3 (fst (fst t)) (computeNormal (fst (fst t)) (snd (fst t)) (snd t)) v = sgnZ (beyond t v).
Proof.
  destruct t as [[p q] r]. cbn [fst snd HarmlessNormal]. intros H. unfold aboveBelow3, beyond. cbn [fst snd]. pose proof (normal_side p q r v) as E. cbv zeta in E. rewrite H in E.
  set (u := X3 _ * _ + _ + _) in *. assert (E' : u == vol6 p q r v) by lra. destruct (sgnZ_cases u) as [[K ->]|[[K ->]|[K ->]]], (sgnZ_cases (vol6 p q r v)) as [[L ->]|[[L ->]|[L ->]]]; auto; lra.
Qed.
Lemma sgn_neg x : sgnZ x = (-1)%Z <-> x < 0.
Proof. destruct (sgnZ_cases x) as [[H ->]|[[H ->]|[H ->]]]; split; intros; try lra; try lia; discriminate. Qed.
Lemma sgn_pos x : sgnZ x = 1%Z <-> 0 < x.
Proof. destruct (sgnZ_cases x) as [[H ->]|[[H ->]|[H ->]]]; split; intros; try lra; try lia; discriminate. Qed.

Notation solid_facet pts := (fun f (t : p3 * p3 * p3) => exists i j k rest, f = i :: j :: k :: rest /\ pt_at3 pts i (fst (fst t)) /\ pt_at3 pts j (snd (fst t)) /\ pt_at3 pts k (snd t)).
Lemma within3_ok a b vs us ts : rpoints a = flat3 vs -> vs <> [] -> HoldsSolid b us ts -> (forall t, In t ts -> HarmlessNormal t) ->
  exists o, convexWithin3 a b = Ok o /\ (o = true <-> forall t v, In t ts -> In v vs -> beyond t v < 0).
Proof.
  intros A N (_ & F) H. unfold convexWithin3. match goal with |- context [mfold ?g _ _] => set (step := g) end.
  assert (G : forall fs ts, Forall2 (solid_facet (rpoints b)) fs ts -> (forall t, In t ts -> HarmlessNormal t) -> forall o0, exists o, mfold step fs o0 = Ok o /\ (o = true <-> o0 = true /\ forall t v, In t ts -> In v vs -> beyond t v < 0)).
  { clear F H ts. intros fs ts F. induction F as [|f t fs ts (i & j & k & rest & -> & I & J & K) F IH]; intros H o0.
    - exists o0. split; auto. split; [intros Z; split; auto; intros t q []|tauto].
    - cbn [mfold]. assert (H' : forall t, In t ts -> HarmlessNormal t) by (intros; apply H; right; auto). destruct o0.
      + unfold step at 1. rewrite (corner3_ok _ _ i _ (i :: j :: k :: rest) 0%nat I eq_refl (half_third _)), (corner3_ok _ _ j _ (i :: j :: k :: rest) 1%nat J eq_refl (half_third _)), (corner3_ok _ _ k _ (i :: j :: k :: rest) 2%nat K eq_refl (half_third _)). cbn [bind]. rewrite A.
        destruct (ab3_cloud (fst (fst t)) (computeNormal (fst (fst t)) (snd (fst t)) (snd t)) vs N) as (s & Es & Hs). rewrite Es. cbn [bind].
        destruct (IH H' (s =? -1)%Z) as (o & E & Ho). exists o. split; auto. rewrite Ho, Z.eqb_eq, (Hs (-1)%Z) by discriminate.
        assert (Si : forall q, aboveBelow3 (fst (fst t)) (computeNormal (fst (fst t)) (snd (fst t)) (snd t)) q = (-1)%Z <-> beyond t q < 0).
        { intros q. rewrite side_harmless by (apply H; left; auto). apply sgn_neg. }
        split.
        * intros [X Y]. split; auto. intros t' v [<-|T] V; [apply Si; auto|auto].
        * intros [_ X]. split; [intros v V; apply Si; apply X; [left; auto|auto]|intros t' v T V; apply X; [right; auto|auto]].
      + unfold step at 1. cbn [bind]. destruct (IH H' false) as (o & E & Ho). exists o. split; auto. rewrite Ho. split; intros [X _]; discriminate. }
  destruct (G _ _ F H true) as (o & E & Ho). exists o. split; auto. rewrite Ho. split; [tauto|auto].
Qed.
Lemma excludes3_ok a b vs us ts : HoldsSolid a us ts -> rpoints b = flat3 vs -> vs <> [] -> (forall t, In t ts -> HarmlessNormal t) ->
  exists o, excludes3 a b = Ok o /\ (o = true <-> exists t, In t ts /\ forall v, In v vs -> 0 < beyond t v).
Proof.
  intros (_ & F) B N H. unfold excludes3. match goal with |- context [mfold ?g _ _] => set (step := g) end.
  assert (G : forall fs ts, Forall2 (solid_facet (rpoints a)) fs ts -> (forall t, In t ts -> HarmlessNormal t) -> forall o0, exists o, mfold step fs o0 = Ok o /\ (o = true <-> o0 = true \/ exists t, In t ts /\ forall v, In v vs -> 0 < beyond t v)).
  { clear F H ts. intros fs ts F. induction F as [|f t fs ts (i & j & k & rest & -> & I & J & K) F IH]; intros H o0.
    - exists o0. split; auto. split; auto. intros [Z|(e & [] & _)]; auto.
    - cbn [mfold]. assert (H' : forall t, In t ts -> HarmlessNormal t) by (intros; apply H; right; auto). destruct o0.
      + unfold step at 1. cbn [bind]. destruct (IH H' true) as (o & E & Ho). exists o. split; auto. split; auto. intros _. apply Ho. auto.
      + unfold step at 1. rewrite (corner3_ok _ _ i _ (i :: j :: k :: rest) 0%nat I eq_refl (le_n _)), (corner3_ok _ _ j _ (i :: j :: k :: rest) 1%nat J eq_refl (le_n _)), (corner3_ok _ _ k _ (i :: j :: k :: rest) 2%nat K eq_refl (le_n _)). cbn [bind]. rewrite B.
        destruct (ab3_cloud (fst (fst t)) (computeNormal (fst (fst t)) (snd (fst t)) (snd t)) vs N) as (s & Es & Hs). rewrite Es. cbn [bind].
        destruct (IH H' (s =? 1)%Z) as (o & E & Ho). exists o. split; auto. rewrite Ho, Z.eqb_eq, (Hs 1%Z) by discriminate.
        assert (Si : forall q, aboveBelow3 (fst (fst t)) (computeNormal (fst (fst t)) (snd (fst t)) (snd t)) q = 1%Z <-> 0 < beyond t q).
        { intros q. rewrite side_harmless by (apply H; left; auto). apply sgn_pos. }
        split.
        * intros [X|(t' & T & X)]; right; [exists t; split; [left; auto|intros v V; apply Si; auto]|exists t'; split; [right; auto|auto]].
        * intros [X|(t' & [<-|T] & X)]; [discriminate|left; intros v V; apply Si; auto|right; exists t'; auto]. }
  destruct (G _ _ F H false) as (o & E & Ho). exists o. split; auto. rewrite Ho. split; [intros [X|X]; [discriminate|auto]|auto].
Qed.

(* the test of a pair of edges never separates: the corner the plane goes through is itself one
   of a's points *)
Lemma triples_in l x y z n : nth_error l (3 * n) = Some x -> nth_error l (3 * n + 1) = Some y -> nth_error l (3 * n + 2) = Some z -> In (x, y, z) (triples l).
Proof.
  revert l. induction n as [|n IH]; intros l X Y Z.
  - destruct l as [|a [|b [|c l]]]; try discriminate. cbn in *. left. congruence.
  - replace (3 * S n)%nat with (S (S (S (3 * n)))) in * by lia. destruct l as [|a [|b [|c l]]]; try discriminate. cbn [triples]. right. apply IH; [exact X|exact Y|exact Z].
Qed.
Lemma edge_pair_dead a b i j s : edge_pair a b i j = Ok s -> s = false.
Proof.
  unfold edge_pair. intros H. apply bind_ok in H as (pa & Pa & H). apply bind_ok in H as (pb & Pb & H). cbv zeta in H. apply bind_ok in H as (sa & Sa & H).
  assert (Z : sa = 0%Z).
  { unfold aboveBelow3_cloud in Sa. apply bind_ok in Sa as (u1 & _ & Sa). apply bind_ok in Sa as (u2 & _ & Sa).
    assert (I : In pa (triples (rpoints a))).
    { unfold at3 in Pa. destruct (i <? 0)%Z; [discriminate|]. apply bind_ok in Pa as (x & X & Pa). apply bind_ok in Pa as (y & Y & Pa). apply bind_ok in Pa as (z & Z & Pa). injection Pa as <-.
      eapply triples_in; apply get_ok; eauto. }
    assert (S0 : forall n, aboveBelow3 pa n pa = 0%Z).
    { intros n. unfold aboveBelow3. destruct (sgnZ_cases (X3 n * (X3 pa - X3 pa) + Y3 n * (Y3 pa - Y3 pa) + Z3 n * (Z3 pa - Z3 pa))) as [[K _]|[[K _]|[_ K]]]; auto; exfalso; revert K; setoid_replace (X3 n * (X3 pa - X3 pa) + Y3 n * (Y3 pa - Y3 pa) + Z3 n * (Z3 pa - Z3 pa)) with 0 by ring; intros K; lra. }
    unfold cloud in Sa. destruct (triples (rpoints a)) as [|p t]; [discriminate|]. injection Sa as <-. destruct (forallb _ t) eqn:E; auto. destruct I as [->|I]; [apply S0|].
    rewrite forallb_forall in E. specialize (E pa I). apply Z.eqb_eq in E. rewrite E. apply S0. }
  subst sa. cbn in H. congruence.
Qed.
Lemma edges_dead a b r : convexIntersect3 a b = Ok r -> r = false -> excludes3 a b = Ok true \/ excludes3 b a = Ok true.
Proof.
  unfold convexIntersect3. intros H R. apply bind_ok in H as (o & O & H). destruct o; auto. apply bind_ok in H as (o' & O' & H). destruct o'; auto.
  apply bind_ok in H as (ea & _ & H). apply bind_ok in H as (eb & _ & H). apply bind_ok in H as (sep & S & H). injection H as <-. exfalso. destruct sep; [|discriminate].
  assert (G : forall l, mfold (fun (out : bool) (p : (Z * Z) * (Z * Z)) => if out then Ok out else edge_pair a b (fst (fst p)) (fst (snd p))) l false = Ok true -> False).
  { induction l as [|p l IH]; [discriminate|]. cbn [mfold]. intros K. apply bind_ok in K as (s & Es & K). apply edge_pair_dead in Es. subst s. auto. }
  exact (G _ S).
Qed.

(* ---- combinations in space ---- *)
Notation plane := (Q * Q * Q * Q)%type.
Definition val3 (h : plane) (x : p3) : Q := let '(a, b, c, d) := h in a * X3 x + b * Y3 x + c * Z3 x + d.
Definition plane_of (t : p3 * p3 * p3) : plane :=
  let '(p, q, r) := t in
  let a := (Y3 q - Y3 p) * (Z3 r - Z3 p) - (Z3 q - Z3 p) * (Y3 r - Y3 p) in
  let b := (Z3 q - Z3 p) * (X3 r - X3 p) - (X3 q - X3 p) * (Z3 r - Z3 p) in
  let c := (X3 q - X3 p) * (Y3 r - Y3 p) - (Y3 q - Y3 p) * (X3 r - X3 p) in
  (a, b, c, - (a * X3 p + b * Y3 p + c * Z3 p)).
Lemma val_plane t x : val3 (plane_of t) x == beyond t x.
Proof. destruct t as [[[[px py] pz] [[qx qy] qz]] [[rx ry] rz]], x as [[x y] z]. unfold val3, plane_of, beyond, vol6, det3, sub3, X3, Y3, Z3. cbn. ring. Qed.
Lemma comb3_val h vs x : Combination3 vs x -> exists ws, length ws = length vs /\ (forall w, In w ws -> 0 <= w) /\ sumf (fun w => w) ws == 1 /\ val3 h x == sumf (fun e => fst e * val3 h (snd e)) (combine ws vs).
Proof.
  intros (ws & L & P & S & X & Y & Z). exists ws. split; auto. split; auto. split; auto. destruct h as [[[a b] c] d]. unfold val3. rewrite X, Y, Z.
  assert (G : forall k, a * sumf (fun e : Q * p3 => fst e * X3 (snd e)) (combine ws vs) + b * sumf (fun e => fst e * Y3 (snd e)) (combine ws vs) + c * sumf (fun e => fst e * Z3 (snd e)) (combine ws vs) + d * k * sumf (fun w => w) ws == sumf (fun e => fst e * (a * X3 (snd e) + b * Y3 (snd e) + c * Z3 (snd e) + d * k)) (combine ws vs)).
  { clear - L. intros k. revert vs L. induction ws as [|w ws IH]; intros [|p vs] L; try discriminate.
    - cbn [combine]. rewrite !sumf_nil. ring.
    - cbn [combine]. rewrite !sumf_cons. cbn [fst snd]. injection L as L. specialize (IH vs L). rewrite <- IH. ring. }
  specialize (G 1). rewrite S in G. setoid_replace d with (d * 1 * 1) at 1 by ring. rewrite G. apply sumf_ext. intros e _. ring.
Qed.
Lemma comb3_le h vs x : Combination3 vs x -> (forall v, In v vs -> val3 h v <= 0) -> val3 h x <= 0.
Proof.
  intros C H. destruct (comb3_val h vs x C) as (ws & L & P & S & E). rewrite E.
  assert (G : 0 <= sumf (fun e : Q * p3 => fst e * - val3 h (snd e)) (combine ws vs)).
  { apply sumf_nonneg. intros [w v] I. cbn [fst snd]. apply Qmult_le_0_compat; [apply P; eapply in_combine_l; eauto|]. assert (val3 h v <= 0); [apply H; eapply in_combine_r; eauto|lra]. }
  assert (N : sumf (fun e : Q * p3 => fst e * - val3 h (snd e)) (combine ws vs) == - sumf (fun e => fst e * val3 h (snd e)) (combine ws vs)).
  { clear. induction (combine ws vs) as [|e l IH]; [reflexivity|]. rewrite !sumf_cons, IH. ring. }
  lra.
Qed.
Lemma comb3_gt h vs x : Combination3 vs x -> (forall v, In v vs -> 0 < val3 h v) -> 0 < val3 h x.
Proof.
  intros C H. destruct (comb3_val h vs x C) as (ws & L & P & S & E). rewrite E.
  assert (N : exists w, In w ws /\ 0 < w).
  { assert (G : 0 < sumf (fun w => w) ws) by (rewrite S; reflexivity). clear - G P. induction ws as [|w ws IH]; [cbn in G; lra|]. rewrite sumf_cons in G.
    destruct (Qlt_le_dec 0 w); [exists w; split; [left; auto|auto]|]. destruct IH as (w' & I & W); [intros; apply P; right; auto|lra|]. exists w'. split; [right; auto|auto]. }
  destruct N as (w & I & W). apply In_nth_error in I as [k I].
  destruct (nth_error_ex vs k) as [p Hp]; [rewrite <- L; eapply nth_error_lt; eauto|].
  assert (Ic : In (w, p) (combine ws vs)).
  { clear - I Hp. revert vs k I Hp. induction ws as [|a ws IH]; intros [|q vs] [|k] I Hp; try discriminate; cbn in *; [left; congruence|right; eauto]. }
  apply (sumf_pos _ _ (w, p)).
  - intros [w' p'] I'. cbn [fst snd]. apply Qmult_le_0_compat; [apply P; eapply in_combine_l; eauto|apply Qlt_le_weak, H; eapply in_combine_r; eauto].
  - exact Ic.
  - cbn [fst snd]. apply sign_pp; auto. apply H. eapply nth_error_In; eauto.
Qed.
