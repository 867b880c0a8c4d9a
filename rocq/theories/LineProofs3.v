From Coq Require Import Reals Lra Permutation.
From Verif Require Import Base BaseFacts NearModel RayCircleModel RayCircleSpec RayCircleProofs LineModel LineSpec LineProofs LineProofs2.
Local Open Scope R_scope.

Definition lin (e p : pt2) : R := fst p * fst e + snd p * snd e.
Lemma lin_pos a e s t : unit_dir e -> lin e (pos a e s t) - lin e a = s.
Proof. intros U. unfold unit_dir in U. unfold lin, pos. cbn. transitivity (s * (fst e * fst e + snd e * snd e)); [ring|rewrite U; ring]. Qed.
Lemma mean_le e hi : forall ps w q, Mean w ps q -> (forall p, In p ps -> lin e p <= hi) -> lin e q <= w * hi.
Proof.
  induction ps; intros w q H B; cbn [Mean] in H.
  - destruct H as [-> ->]. unfold lin. cbn. lra.
  - destruct H as (u & q' & U0 & M & ->). pose proof (IHps _ _ M (fun p Hp => B p (or_intror Hp))) as K. pose proof (B a (or_introl eq_refl)) as Ka. unfold lin in *. cbn [fst snd]. nra.
Qed.
Lemma mean_ge e lo : forall ps w q, Mean w ps q -> (forall p, In p ps -> lo <= lin e p) -> w * lo <= lin e q.
Proof.
  induction ps; intros w q H B; cbn [Mean] in H.
  - destruct H as [-> ->]. unfold lin. cbn. lra.
  - destruct H as (u & q' & U0 & M & ->). pose proof (IHps _ _ M (fun p Hp => B p (or_intror Hp))) as K. pose proof (B a (or_introl eq_refl)) as Ka. unfold lin in *. cbn [fst snd]. nra.
Qed.
Lemma near_along a e q s t : unit_dir e -> 0 <= (t - s) * (t + s - 2 * (lin e q - lin e a)) -> len2_2 q (pos a e s 0) <= len2_2 q (pos a e t 0).
Proof.
  intros U H. unfold unit_dir in U. assert (E : forall x, len2_2 q (pos a e x 0) = (fst q - fst a) * (fst q - fst a) + (snd q - snd a) * (snd q - snd a) - 2 * x * (lin e q - lin e a) + x * x).
  { intros x. unfold len2_2, sq, pos, lin. cbn. transitivity ((fst q - fst a) * (fst q - fst a) + (snd q - snd a) * (snd q - snd a) - 2 * x * (fst q * fst e + snd q * snd e - (fst a * fst e + snd a * snd e)) + x * x * (fst e * fst e + snd e * snd e)); [ring|rewrite U; ring]. }
  rewrite !E. nra.
Qed.
Lemma split_across u v : 0 <= u -> 0 <= v -> exists x y, 0 <= x /\ 0 <= y /\ x + y = 1 /\ x * u = y * v.
Proof.
  intros U V. destruct (Req_dec (u + v) 0) as [E|E].
  - exists 1, 0. assert (u = 0) by lra. subst. lra.
  - assert (0 < u + v) by lra. assert (0 < / (u + v)) by (apply Rinv_0_lt_compat; auto). exists (v * / (u + v)), (u * / (u + v)). split; [nra|]. split; [nra|]. split; field; lra.
Qed.
Lemma spans3 a e s1 t1 s2 t2 s3 t3 w1 w2 w3 : 0 <= w1 -> 0 <= w2 -> 0 <= w3 -> w1 + w2 + w3 = 1 ->
  Spans [pos a e s1 t1; pos a e s2 t2; pos a e s3 t3] (pos a e (w1 * s1 + w2 * s2 + w3 * s3) (w1 * t1 + w2 * t2 + w3 * t3)).
Proof.
  intros A B C E. unfold Spans. cbn [Mean]. exists w1, (w2 * fst (pos a e s2 t2) + w3 * fst (pos a e s3 t3), w2 * snd (pos a e s2 t2) + w3 * snd (pos a e s3 t3)). split; auto. split.
  - exists w2, (w3 * fst (pos a e s3 t3), w3 * snd (pos a e s3 t3)). split; auto. split; auto. exists w3, (0, 0). split; auto. split; [split; auto; lra|cbn [fst snd]; f_equal; ring].
  - replace w1 with (1 - w2 - w3) by lra. unfold pos. cbn [fst snd]. f_equal; ring.
Qed.
Lemma spans4 a e s1 t1 s2 t2 s3 t3 s4 t4 w1 w2 w3 w4 : 0 <= w1 -> 0 <= w2 -> 0 <= w3 -> 0 <= w4 -> w1 + w2 + w3 + w4 = 1 ->
  Spans [pos a e s1 t1; pos a e s2 t2; pos a e s3 t3; pos a e s4 t4] (pos a e (w1 * s1 + w2 * s2 + w3 * s3 + w4 * s4) (w1 * t1 + w2 * t2 + w3 * t3 + w4 * t4)).
Proof.
  intros A B C D E. unfold Spans. cbn [Mean]. exists w1, (w2 * fst (pos a e s2 t2) + w3 * fst (pos a e s3 t3) + w4 * fst (pos a e s4 t4), w2 * snd (pos a e s2 t2) + w3 * snd (pos a e s3 t3) + w4 * snd (pos a e s4 t4)). split; auto. split.
  - exists w2, (w3 * fst (pos a e s3 t3) + w4 * fst (pos a e s4 t4), w3 * snd (pos a e s3 t3) + w4 * snd (pos a e s4 t4)). split; auto. split.
    + exists w3, (w4 * fst (pos a e s4 t4), w4 * snd (pos a e s4 t4)). split; auto. split; auto. exists w4, (0, 0). split; auto. split; [split; auto; lra|cbn [fst snd]; f_equal; ring].
    + cbn [fst snd]. f_equal; ring.
  - replace w1 with (1 - w2 - w3 - w4) by lra. unfold pos. cbn [fst snd]. f_equal; ring.
Qed.

Section Cells.
  Variables (points : list pt2) (c : pt2) (r : R) (cells : list (list nat)) (nodes : list pt2) (a e : pt2) (s u v : nat -> R) (x0 x1 : R) (ix : nat -> nat).
  Hypothesis (N2 : (2 <= length points)%nat) (BU : Built points c r cells nodes a e s u v x0 x1 ix).
  Let n := length points.
  Let m k := (s k + s (k + 1)%nat) * / 2.
  Lemma cell_geom k : (k < n)%nat -> exists vs, Forall2 (fun i p => nth_error nodes i = Some p) (shape n k) vs /\
    ((0 < k)%nat -> forall p, In p vs -> m (k - 1)%nat <= lin e p - lin e a) /\ ((k + 1 < n)%nat -> forall p, In p vs -> lin e p - lin e a <= m k) /\
    Spans vs (pos a e (s k) 0) /\ (forall d, In d (around vs) -> 0 <= turn (fst d) (snd d) (pos a e (s k) 0)).
  Proof using N2 BU.
    intros Hk. destruct BU as (U & INC & UV & X0 & X1 & PT & ON & LC & LN & Z0 & Z1 & Zn & Zc & NC). fold n in N2, INC, UV, X1, PT, ON, LC, LN, Z1, Zn, Zc. unfold shape.
    destruct (Nat.eq_dec k 0) as [K0|K0]; [|destruct (Nat.eq_dec k (n - 1)) as [K1|K1]].
    - subst k. destruct (0 =? n - 1)%nat eqn:E1; [apply Nat.eqb_eq in E1; lia|]. cbn [Nat.eqb app]. destruct (Zn 0%nat ltac:(lia)) as [ZA ZB]. destruct (UV 0%nat ltac:(lia)) as [Up Vp]. pose proof (INC 0%nat 1%nat ltac:(lia) ltac:(lia)) as S01. cbn [Nat.mul Nat.add] in *. fold (m 0%nat) in ZA, ZB.
      assert (M0 : s 0%nat < m 0%nat) by (unfold m; cbn [Nat.add]; lra).
      exists [pos a e x0 0; pos a e (m 0%nat) (u 0%nat); pos a e (m 0%nat) (- v 0%nat)]. split; [repeat constructor; auto|]. split; [lia|]. split.
      { intros _ p [<-|[<-|[<-|[]]]]; rewrite lin_pos by auto; lra. } split.
      + destruct (split_across _ _ Up Vp) as (x & y & Hx & Hy & XY & B). set (l := (m 0%nat - s 0%nat) * / (m 0%nat - x0)).
        assert (I0 : 0 < / (m 0%nat - x0)) by (apply Rinv_0_lt_compat; lra). assert (EL : l * (m 0%nat - x0) = m 0%nat - s 0%nat) by (unfold l; field; lra). assert (L0 : 0 <= l) by (unfold l; nra). assert (L1 : l <= 1) by (apply Rnot_lt_le; intros C; nra).
        replace (pos a e (s 0%nat) 0) with (pos a e (l * x0 + (1 - l) * x * m 0%nat + (1 - l) * y * m 0%nat) (l * 0 + (1 - l) * x * u 0%nat + (1 - l) * y * - v 0%nat)).
        * apply spans3; auto; try nra. 
        * f_equal; [|nra]. transitivity (l * x0 + (1 - l) * (x + y) * m 0%nat); [ring|]. rewrite XY. lra.
      + intros d [<-|[<-|[<-|[]]]]; cbn [fst snd]; rewrite turn_pos by auto; nra.
    - destruct (k =? 0)%nat eqn:E0; [apply Nat.eqb_eq in E0; lia|]. destruct (k =? n - 1)%nat eqn:E1; [|apply Nat.eqb_neq in E1; lia]. cbn [app].
      destruct (Zn (k - 1)%nat ltac:(lia)) as [ZA ZB]. destruct (UV (k - 1)%nat ltac:(lia)) as [Up Vp]. pose proof (INC (k - 1)%nat k ltac:(lia) ltac:(lia)) as S01.
      fold (m (k - 1)%nat) in ZA, ZB. assert (M0 : m (k - 1)%nat < s k) by (unfold m; replace (k - 1 + 1)%nat with k by lia; lra). rewrite <- K1 in X1.
      replace (2 * (k - 1) + 1)%nat with (2 * k - 1)%nat in ZA by lia. replace (2 * (k - 1) + 2)%nat with (2 * k)%nat in ZB by lia.
      exists [pos a e (m (k - 1)%nat) (- v (k - 1)%nat); pos a e (m (k - 1)%nat) (u (k - 1)%nat); pos a e x1 0]. split; [repeat constructor; auto|]. split.
      { intros _ p [<-|[<-|[<-|[]]]]; rewrite lin_pos by auto; lra. } split; [lia|]. set (mm := m (k - 1)%nat) in *. set (uu := u (k - 1)%nat) in *. set (vv := v (k - 1)%nat) in *. split.
      + destruct (split_across _ _ Up Vp) as (x & y & Hx & Hy & XY & B). set (l := (s k - mm) * / (x1 - mm)).
        assert (I0 : 0 < / (x1 - mm)) by (apply Rinv_0_lt_compat; lra). assert (EL : l * (x1 - mm) = s k - mm) by (unfold l; field; lra). assert (L0 : 0 <= l) by (unfold l; nra). assert (L1 : l <= 1) by (apply Rnot_lt_le; intros C; nra).
        replace (pos a e (s k) 0) with (pos a e ((1 - l) * y * mm + (1 - l) * x * mm + l * x1) ((1 - l) * y * - vv + (1 - l) * x * uu + l * 0)).
        * apply spans3; auto; try nra.
        * f_equal; [|nra]. transitivity ((1 - l) * (x + y) * mm + l * x1); [ring|]. rewrite XY. lra.
      + intros d [<-|[<-|[<-|[]]]]; cbn [fst snd]; rewrite turn_pos by auto; nra.
    - destruct (k =? 0)%nat eqn:E0; [apply Nat.eqb_eq in E0; lia|]. destruct (k =? n - 1)%nat eqn:E1; [apply Nat.eqb_eq in E1; lia|]. cbn [app].
      destruct (Zn (k - 1)%nat ltac:(lia)) as [ZA ZB]. destruct (UV (k - 1)%nat ltac:(lia)) as [Up Vp]. pose proof (INC (k - 1)%nat k ltac:(lia) ltac:(lia)) as S01.
      destruct (Zn k ltac:(lia)) as [ZA' ZB']. destruct (UV k ltac:(lia)) as [Up' Vp']. pose proof (INC k (k + 1)%nat ltac:(lia) ltac:(lia)) as S12.
      fold (m (k - 1)%nat) in ZA, ZB. fold (m k) in ZA', ZB'. assert (M0 : m (k - 1)%nat < s k) by (unfold m; replace (k - 1 + 1)%nat with k by lia; lra). assert (M1 : s k < m k) by (unfold m; lra).
      replace (2 * (k - 1) + 1)%nat with (2 * k - 1)%nat in ZA by lia. replace (2 * (k - 1) + 2)%nat with (2 * k)%nat in ZB by lia.
      exists [pos a e (m (k - 1)%nat) (- v (k - 1)%nat); pos a e (m (k - 1)%nat) (u (k - 1)%nat); pos a e (m k) (u k); pos a e (m k) (- v k)]. split; [repeat constructor; auto|]. split.
      { intros _ p [<-|[<-|[<-|[<-|[]]]]]; rewrite lin_pos by auto; lra. } split. { intros _ p [<-|[<-|[<-|[<-|[]]]]]; rewrite lin_pos by auto; lra. }
      set (mm := m (k - 1)%nat) in *. set (uu := u (k - 1)%nat) in *. set (vv := v (k - 1)%nat) in *. set (mk := m k) in *. set (uk := u k) in *. set (vk := v k) in *. split.
      + destruct (split_across _ _ Up Vp) as (x & y & Hx & Hy & XY & B). destruct (split_across _ _ Up' Vp') as (x' & y' & Hx' & Hy' & XY' & B'). set (l := (s k - mm) * / (mk - mm)).
        assert (I0 : 0 < / (mk - mm)) by (apply Rinv_0_lt_compat; lra). assert (EL : l * (mk - mm) = s k - mm) by (unfold l; field; lra). assert (L0 : 0 <= l) by (unfold l; nra). assert (L1 : l <= 1) by (apply Rnot_lt_le; intros C; nra).
        replace (pos a e (s k) 0) with (pos a e ((1 - l) * y * mm + (1 - l) * x * mm + l * x' * mk + l * y' * mk) ((1 - l) * y * - vv + (1 - l) * x * uu + l * x' * uk + l * y' * - vk)).
        * apply spans4; auto; try nra.
        * f_equal; [|nra]. transitivity ((1 - l) * (x + y) * mm + l * (x' + y') * mk); [ring|]. rewrite XY, XY'. lra.
      + intros d [<-|[<-|[<-|[<-|[]]]]]; cbn [fst snd]; rewrite turn_pos by auto; nra.
  Qed.
  Lemma mono k l : (k <= l)%nat -> (l < n)%nat -> s k <= s l.
  Proof using N2 BU. intros H K. destruct BU as (U & INC & _). destruct (Nat.eq_dec k l) as [->|]; [lra|]. left. apply INC; [lia|exact K]. Qed.
  Lemma cell_nearest k q : (k < n)%nat -> ((0 < k)%nat -> m (k - 1)%nat <= lin e q - lin e a) -> ((k + 1 < n)%nat -> lin e q - lin e a <= m k) -> Nearest points (pos a e (s k) 0) q.
  Proof using N2 BU.
    intros Hk LO HI h Hh. pose proof BU as (U & INC & UV & X0 & X1 & PT & ON & _). fold n in N2, INC, UV, X1, PT, ON. apply In_nth_error in Hh. destruct Hh as (i & Hi). assert (Li : (i < n)%nat) by (apply nth_error_lt in Hi; auto).
    destruct (ON i Li) as (l & Hl & E). pose proof (PT l Hl) as Q. rewrite E, Hi in Q. injection Q as ->. apply near_along; auto. destruct (Nat.lt_total k l) as [L|[->|L]].
    - pose proof (INC k l L Hl). pose proof (mono (k + 1) l ltac:(lia) Hl). specialize (HI ltac:(lia)). unfold m in HI. nra.
    - rewrite Rminus_diag_eq by auto. lra.
    - pose proof (INC l k L Hk). pose proof (mono l (k - 1) ltac:(lia) ltac:(lia)). specialize (LO ltac:(lia)). unfold m in LO. replace (k - 1 + 1)%nat with k in LO by lia. nra.
  Qed.
End Cells.
