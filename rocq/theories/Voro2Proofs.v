(* The hull of a planar cell, in integers. *)
From Verif Require Import Base BaseFacts PLCSpec MeshModel MeshSpec Plane MeshEditorModel AreaProofs WithinSpec WithinProofs HullModel HullSpec HullProofs HullProofs4 VoroModel VoroSpec Voro2Model Voro2Spec.
From Verif Require SimplifyProofs4 CsgProofs3.
From Coq Require Import Lia QArith Qround Lqa.
Local Open Scope nat_scope.

Lemma clamp_snap dx v : clamp dx v = snap1 dx v.
Proof.
  unfold clamp, snap1. set (q := (v / dx + (1 # 2))%Q). set (M := (2 ^ 31 - 2)%Z).
  assert (M0 : (0 <= M)%Z) by (unfold M; lia).
  pose proof (Qfloor_le q) as A. pose proof (Qlt_floor q) as B. rewrite inject_Z_plus in B. change (inject_Z 1) with 1%Q in B.
  assert (M1 : (0 <= inject_Z M)%Q) by (rewrite Zle_Qle in M0; exact M0).
  assert (FM : Qfloor (inject_Z M) = M) by apply Qfloor_Z.
  unfold qmax2, qmin2, trunc. destruct (qltb_spec q (inject_Z M)) as [L|L].
  - assert (FL : (Qfloor q < M)%Z) by (rewrite Zlt_Qlt; lra).
    destruct (qltb_spec 0 q) as [P|P].
    + rewrite (proj2 (Qle_bool_iff 0 q)) by lra. pose proof (Qfloor_resp_le 0 q ltac:(lra)) as X. change (Qfloor 0) with 0%Z in X. lia.
    + change (Qle_bool 0 0) with true. cbv iota. change (Qfloor 0) with 0%Z.
      pose proof (Qfloor_resp_le q 0 ltac:(lra)) as X. change (Qfloor 0) with 0%Z in X. lia.
  - assert (GM : (M <= Qfloor q)%Z) by (rewrite <- FM; apply Qfloor_resp_le; lra).
    destruct (qltb_spec 0 (inject_Z M)) as [P|P].
    + rewrite (proj2 (Qle_bool_iff 0 (inject_Z M))) by lra. rewrite FM. lia.
    + assert (M = 0)%Z by (apply Z.le_antisymm; [rewrite Zle_Qle; change (inject_Z 0) with 0%Q; lra | exact M0]). exfalso. unfold M in *. lia.
Qed.
Lemma Qfloor_same a b : (a == b)%Q -> Qfloor a = Qfloor b.
Proof. intros ->. reflexivity. Qed.
Lemma snap1_eq dx a b : (a == b)%Q -> snap1 dx a = snap1 dx b.
Proof. intros E. unfold snap1. do 2 f_equal. apply Qfloor_same. rewrite E. reflexivity. Qed.
Lemma snap1_range dx v : (0 <= snap1 dx v < 2 ^ 31 - 1)%Z.
Proof. unfold snap1. lia. Qed.

Lemma orient_turn a b c : (orient (in_q a) (in_q b) (in_q c) == inject_Z (turn a b c))%Q.
Proof. unfold orient, turn, in_q, Z.sub. cbn [fst snd]. repeat rewrite ?inject_Z_plus, ?inject_Z_mult, ?inject_Z_opp. ring. Qed.
Lemma dist2_dot a b : (dist2 (in_q a) (in_q b) == inject_Z (dotz a b b))%Q.
Proof. unfold dist2, dotz, in_q, Z.sub. cbn [fst snd]. repeat rewrite ?inject_Z_plus, ?inject_Z_mult, ?inject_Z_opp. ring. Qed.
Lemma dotz_zero a b : (dotz a b b < 1)%Z <-> b = a.
Proof.
  unfold dotz. destruct a as [x y], b as [u v]. cbn [fst snd]. split.
  - intro H. pose proof (Z.square_nonneg (u - x)) as A. pose proof (Z.square_nonneg (v - y)) as B.
    assert (A0 : ((u - x) * (u - x) = 0)%Z) by lia. assert (B0 : ((v - y) * (v - y) = 0)%Z) by lia.
    apply Z.mul_eq_0 in A0. apply Z.mul_eq_0 in B0. f_equal; lia.
  - intros E. injection E as -> ->. rewrite !Z.sub_diag. reflexivity.
Qed.
Lemma nearer_same z0 z : nearer (in_q z0) (in_q z) 1 = true <-> z = z0.
Proof.
  rewrite nearer_iff by lra. rewrite dist2_dot. setoid_replace (1 * 1)%Q with (inject_Z 1) by reflexivity. rewrite <- Zlt_Qlt. apply dotz_zero.
Qed.
Lemma too_far_dot z0 z : too_far z0 z = (2 ^ 31 <=? dotz z0 z z)%Z.
Proof. unfold too_far, dotz. f_equal. ring. Qed.

Lemma distances_ok z0 t : (forall j zj, nth_error t j = Some zj -> zj <> z0 -> (forall k z, k < j -> nth_error t k = Some z -> z = z0) -> (dotz z0 zj zj < 2 ^ 31)%Z) ->
  distances z0 t = Ok tt.
Proof.
  induction t as [|z t IH]; intro H; [reflexivity|]. cbn [distances]. rewrite too_far_dot.
  destruct (nearer (in_q z0) (in_q z) 1) eqn:N.
  - apply nearer_same in N. subst z. assert (D0 : dotz z0 z0 z0 = 0%Z) by (unfold dotz; ring). rewrite D0. cbn.
    apply IH. intros j zj J D A. apply (H (S j) zj J D). intros [|k] z K E; [cbn in E; congruence|]. apply (A k z); [lia | exact E].
  - assert (D : z <> z0) by (intros E; apply nearer_same in E; congruence).
    specialize (H 0 z eq_refl D). rewrite (proj2 (Z.leb_gt _ _)) by (apply H; intros; lia). reflexivity.
Qed.
(* a far first pair *)
Lemma distances_far z0 z t : (2 ^ 31 <= dotz z0 z z)%Z -> distances z0 (z :: t) = UB.
Proof. intro H. cbn [distances]. rewrite too_far_dot, (proj2 (Z.leb_le _ _) H). reflexivity. Qed.

Lemma on_grid zs : Forall (fun z => (0 <= fst z < 2 ^ 31 - 1 /\ 0 <= snd z < 2 ^ 31 - 1)%Z) zs -> OnGrid (map in_q zs) (0, 0)%Q 1 zs.
Proof. induction 1 as [|z t [A B] _ IH]; constructor; [|exact IH]. unfold grid, in_q. cbn [fst snd]. repeat split; try lia; ring. Qed.

Lemma chosen_map zs vs ps : Chosen (map in_q zs) vs ps -> exists qs, ps = map in_q qs /\ Chosen zs vs qs.
Proof.
  intros C. induction C as [|i p vs ps H C (qs & E & IH)]; [exists []; split; [reflexivity | constructor]|].
  rewrite nth_error_map in H. destruct (nth_error zs i) as [z|] eqn:Z; [|discriminate]. cbn in H. exists (z :: qs). split; [cbn; congruence | constructor; assumption].
Qed.

Lemma right_bent zs : RightAngle zs -> SeenBent (map in_q zs) 1.
Proof.
  intros (z0 & j & zj & i & zi & E0 & Ej & Ei & D & A & L & I2 & Di & Dot).
  exists j, i, (in_q z0), (in_q zj), (in_q zi). rewrite map_length, !nth_error_map, E0, Ej, Ei. split.
  - exists (in_q z0), (in_q zj). rewrite !nth_error_map, E0, Ej. repeat split.
    + rewrite dist2_dot. setoid_replace (1 * 1)%Q with (inject_Z 1) by reflexivity. rewrite <- Zle_Qle.
      destruct (Z.lt_ge_cases (dotz z0 zj zj) 1) as [Q|Q]; [apply dotz_zero in Q; congruence | exact Q].
    + intros k p K Ek. rewrite nth_error_map in Ek. destruct (nth_error zs k) as [z|] eqn:Z; [|discriminate]. cbn in Ek. injection Ek as <-.
      rewrite (A k z K Z). rewrite dist2_dot. setoid_replace (1 * 1)%Q with (inject_Z 1) by reflexivity. rewrite <- Zlt_Qlt. apply dotz_zero. reflexivity.
  - repeat split; auto.
    + lra.
    + rewrite dist2_dot. change 1%Q with (inject_Z 1). rewrite <- Zle_Qle. destruct (Z.lt_ge_cases (dotz z0 zj zj) 1) as [Q|Q]; [apply dotz_zero in Q; congruence | exact Q].
    + rewrite dist2_dot. change 1%Q with (inject_Z 1). rewrite <- Zle_Qle. destruct (Z.lt_ge_cases (dotz z0 zi zi) 1) as [Q|Q]; [apply dotz_zero in Q; congruence | exact Q].
    + cbv zeta. setoid_replace ((fst (in_q zj) - fst (in_q z0)) * (fst (in_q zi) - fst (in_q z0)) + (snd (in_q zj) - snd (in_q z0)) * (snd (in_q zi) - snd (in_q z0)))%Q with (inject_Z (dotz z0 zj zi)).
      * rewrite Dot. change (inject_Z 0) with 0%Q. setoid_replace ((1 - 1) * (1 - 1) * (dist2 (in_q z0) (in_q zj) * dist2 (in_q z0) (in_q zi)))%Q with (0 * 0)%Q by ring. apply Qle_refl.
      * unfold dotz, in_q, Z.sub. cbn [fst snd]. repeat rewrite ?inject_Z_plus, ?inject_Z_mult, ?inject_Z_opp. ring.
Qed.

Lemma int_hull_ok fill zs : (forall hs, set_fill hs [] (fill hs)) ->
  Forall (fun z => (0 <= fst z < 2 ^ 31 - 1 /\ 0 <= snd z < 2 ^ 31 - 1)%Z) zs -> Apart zs -> RightAngle zs -> FirstNear zs ->
  exists vs ps, int_hull fill zs = Ok (polygon_facets vs) /\ Chosen zs vs ps /\ HullOf zs ps.
Proof.
  intros FILL RG AP RA FN. unfold int_hull.
  assert (DI : match zs with z0 :: t => distances z0 t | [] => Ok tt end = Ok tt).
  { destruct zs as [|z0 t]; [reflexivity|]. apply distances_ok. intros j zj J D A. apply (FN (S j) z0 zj eq_refl J D).
    intros [|k] z K E; [cbn in E; congruence | apply (A k z); [lia | exact E]]. }
  replace (if length zs <=? 2 then Ok tt else match zs with z0 :: t => distances z0 t | [] => Ok tt end) with (Ok tt) by (rewrite DI; destruct (length zs <=? 2); reflexivity).
  cbn [bind]. pose proof (on_grid zs RG) as OG. destruct (hpoints_exact (map in_q zs) (0, 0)%Q 1 zs ltac:(lra) OG) as (hs & H & _). rewrite H. cbn [bind].
  destruct (hull_grid (map in_q zs) (0, 0)%Q 1 zs hs (fill hs) ltac:(lra) OG AP (right_bent zs RA) H (FILL hs)) as (fs & E & (vs & ps & EF & C & L & SC & IN)).
  destruct (chosen_map _ _ _ C) as (qs & -> & C'). exists vs, qs. split; [rewrite E, EF; reflexivity|]. split; [exact C'|].
  rewrite map_length in L. split; [exact L|]. split.
  { intros z Z. destruct (Forall2_in_r _ _ _ _ C' Z) as (i & _ & I). apply nth_error_In with i. exact I. }
  split.
  - intros i j k a b c O A B D. assert (P : (0 < orient (in_q a) (in_q b) (in_q c))%Q).
    { apply (SC i j k); auto; rewrite nth_error_map; [rewrite A | rewrite B | rewrite D]; reflexivity. }
    rewrite orient_turn in P. change 0%Q with (inject_Z 0) in P. rewrite <- Zlt_Qlt in P. exact P.
  - intros a b z R Z. assert (P : (0 <= orient (in_q a) (in_q b) (in_q z))%Q).
    { apply (IN (in_q z)); [apply in_map; exact Z|]. rewrite SimplifyProofs4.ring_map. apply in_map_iff. exists (a, b). split; [reflexivity | exact R]. }
    rewrite orient_turn in P. change 0%Q with (inject_Z 0) in P. rewrite <- Zle_Qle in P. exact P.
Qed.

(* without a right angle there is one facet only *)
Definition NoRight (zs : list (Z * Z)) : Prop := forall z0 a b, nth_error zs 0 = Some z0 -> In a zs -> In b zs -> a <> z0 -> b <> z0 -> dotz z0 a b <> 0%Z.
Lemma flat_hull fill zs fs : 3 <= length zs -> NoRight zs -> int_hull fill zs = Ok fs -> exists a b, fs = [[a; b]].
Proof.
  intros L NR E. unfold int_hull in E. apply bind_ok in E as (? & _ & E). apply bind_ok in E as (hs & H & E).
  destruct zs as [|z0 t]; [cbn in L; lia|]. unfold convexHull_2d in E. rewrite map_length in E. cbn [map] in E.
  destruct (length (z0 :: t) =? 1) eqn:E1; [apply Nat.eqb_eq in E1; lia|]. destruct (length (z0 :: t) =? 2) eqn:E2; [apply Nat.eqb_eq in E2; lia|].
  cbv zeta in E. set (j := first_far (in_q z0) 1 (map in_q t) 1) in *.
  destruct (j =? length (z0 :: t) - 1); [injection E as <-; eauto|]. destruct (j =? length (z0 :: t)); [injection E as <-; eauto|].
  apply bind_ok in E as (pj & Ej & E).
  assert (CO : forallb (fun p => hcollinear (in_q z0) pj p 1) (skipn 2 (in_q z0 :: map in_q t)) = true).
  { apply forallb_forall. intros p P. apply get_ok in Ej. change (in_q z0 :: map in_q t) with (map in_q (z0 :: t)) in *.
    rewrite nth_error_map in Ej. destruct (nth_error (z0 :: t) j) as [zj|] eqn:Zj; [|discriminate]. cbn in Ej. injection Ej as <-.
    assert (P' : In p (map in_q (z0 :: t))) by (rewrite <- (firstn_skipn 2); apply in_or_app; right; exact P).
    apply in_map_iff in P' as (z & <- & Iz). pose proof (nth_error_In _ _ Zj) as Ij.
    assert (DD : forall w, (let ab := (fst (in_q w) - fst (in_q z0), snd (in_q w) - snd (in_q z0)) in fst ab * fst ab + snd ab * snd ab == inject_Z (dotz z0 w w))%Q).
    { intros w. unfold dotz, in_q, Z.sub. cbn [fst snd]. repeat rewrite ?inject_Z_plus, ?inject_Z_mult, ?inject_Z_opp. ring. }
    unfold hcollinear. cbv zeta. cbn [fst snd].
    destruct (Qlt_bool _ 1) eqn:Q1; [reflexivity|]. destruct (Qlt_bool ((fst (in_q z) - fst (in_q z0)) * (fst (in_q z) - fst (in_q z0)) + (snd (in_q z) - snd (in_q z0)) * (snd (in_q z) - snd (in_q z0))) 1) eqn:Q2; [reflexivity|].
    cbn [orb]. destruct (qltb_spec ((fst (in_q zj) - fst (in_q z0)) * (fst (in_q zj) - fst (in_q z0)) + (snd (in_q zj) - snd (in_q z0)) * (snd (in_q zj) - snd (in_q z0))) 1) as [|A1]; [discriminate|].
    destruct (qltb_spec ((fst (in_q z) - fst (in_q z0)) * (fst (in_q z) - fst (in_q z0)) + (snd (in_q z) - snd (in_q z0)) * (snd (in_q z) - snd (in_q z0))) 1) as [|A2]; [discriminate|].
    pose proof (DD zj) as D1. pose proof (DD z) as D2. cbv zeta in D1, D2. cbn [fst snd] in D1, D2. rewrite D1 in A1. rewrite D2 in A2.
    assert (Nj : zj <> z0) by (intros Q; apply dotz_zero in Q; apply A1; change 1%Q with (inject_Z 1); rewrite <- Zlt_Qlt; exact Q).
    assert (Nz : z <> z0) by (intros Q; apply dotz_zero in Q; apply A2; change 1%Q with (inject_Z 1); rewrite <- Zlt_Qlt; exact Q).
    pose proof (NR z0 zj z eq_refl Ij Iz Nj Nz) as DN.
    destruct (qltb_spec 1 1) as [X|_]; [lra|]. destruct (qltb_spec 0 1) as [_|X]; [|lra]. cbn [orb andb].
    match goal with |- Qlt_bool ?u ?v = true => destruct (qltb_spec u v) as [|X]; [reflexivity|] end. exfalso. apply X.
    match goal with |- (?u < _)%Q => setoid_replace u with 0%Q by ring end.
    setoid_replace ((fst (in_q zj) - fst (in_q z0)) * (fst (in_q z) - fst (in_q z0)) + (snd (in_q zj) - snd (in_q z0)) * (snd (in_q z) - snd (in_q z0)))%Q with (inject_Z (dotz z0 zj z)).
    - rewrite <- inject_Z_mult. change 0%Q with (inject_Z 0). rewrite <- Zlt_Qlt. nia.
    - unfold dotz, in_q, Z.sub. cbn [fst snd]. repeat rewrite ?inject_Z_plus, ?inject_Z_mult, ?inject_Z_opp. ring. }
  rewrite CO in E. apply bind_ok in E as (? & _ & E). apply bind_ok in E as (a & _ & E). apply bind_ok in E as (b & _ & E). injection E as <-. eauto.
Qed.
