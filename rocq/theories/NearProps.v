(* C32 and C55: nearest boundary points and snapping a mesh to its boundary. *)
From Coq Require Import Reals Lra.
From Verif Require Import Base BaseFacts SerializeModel MeshModel NearModel NearSpec NearProofs NearProofs2.
Local Open Scope R_scope.

(* The returned point lies on the segment.  No point of the segment is nearer by more than
   half of 1e-10, and none is nearer at all unless the segment is shorter than 1e-10. *)
Theorem closest_point_on_segment : forall p a b,
  OnSegment a b (closest p a b) /\
  (forall q, OnSegment a b q -> euclid p (closest p a b) <= euclid p q + slack) /\
  (~ Tiny a b -> forall q, OnSegment a b q -> euclid p (closest p a b) <= euclid p q).
Proof.
  intros p a b. destruct (closest_ok p a b) as [A B]. split; auto. split.
  - intros q Q. apply (B q Q).
  - intros N q Q. apply (B q Q). auto.
Qed.
Print Assumptions closest_point_on_segment.

(* Below 1e-10 the middle of the segment is returned even for a query at its end. *)
Theorem closest_point_tiny_refuted : exists p a b q, OnSegment a b q /\ euclid p q < euclid p (closest p a b).
Proof.
  exists (0, 0), (0, 0), (/ 10 ^ 11, 0), (0, 0). split.
  - exists 0. cbn. repeat split; lra.
  - rewrite dist_refl. assert (D : euclid (0, 0) (/ 10 ^ 11, 0) = / 10 ^ 11).
    { unfold euclid. cbn [fst snd]. replace ((0 - / 10 ^ 11) ^ 2 + (0 - 0) ^ 2) with ((/ 10 ^ 11) ^ 2) by lra. apply sqrt_pow2. lra. }
    unfold closest. cbv zeta.
    replace (sqrt ((fst (/ 10 ^ 11, 0) - fst (0, 0)) * (fst (/ 10 ^ 11, 0) - fst (0, 0)) + (snd (/ 10 ^ 11, 0) - snd (0, 0)) * (snd (/ 10 ^ 11, 0) - snd (0, 0)))) with (euclid (0, 0) (/ 10 ^ 11, 0))
      by (rewrite dist_sym; unfold euclid; f_equal; ring). rewrite D.
    replace (rlt (/ 10 ^ 11) (/ 10 ^ 10)) with true by (symmetry; apply rlt_true; lra).
    destruct (Rtotal_order (euclid (0, 0) (/ 2 * (fst (0, 0) + fst (/ 10 ^ 11, 0)), / 2 * (snd (0, 0) + snd (/ 10 ^ 11, 0)))) 0) as [L|[E|G]]; auto.
    + pose proof (dist_nonneg (0, 0) (/ 2 * (fst (0, 0) + fst (/ 10 ^ 11, 0)), / 2 * (snd (0, 0) + snd (/ 10 ^ 11, 0)))). lra.
    + apply dist_zero in E. apply (f_equal fst) in E. cbn [fst snd] in E. lra.
Qed.
Print Assumptions closest_point_tiny_refuted.

(* nearestPoint over a complex of segments: when some boundary point is nearer than the largest
   number, the routine returns a boundary point, its distance, and no boundary point is nearer. *)
Theorem nearest_point_correct : forall big p v g c, (length v mod 2 = 0)%nat -> segments v g ->
  OnBoundary v g c -> euclid p c + slack < big ->
  exists q, nearestPoint big p (length v / 2) v g = Ok (euclid p q, Some q) /\ NearestOn v g p q.
Proof.
  intros big p v g c M Hs (f & F & O) D. pose proof (Nat.div_mod (length v) 2 ltac:(lia)) as DM.
  destruct (nearest_ok big p v (length v / 2) ltac:(lia) g) as (d & r & E & B).
  { intros f' F'. destruct (Hs f' (or_introl F')) as (i & j & -> & Hi & Hj). exists i, j. repeat split; auto; lia. }
  { intros h H f' F'. destruct (Hs f' (or_intror (ex_intro _ h (conj H F')))) as (i & j & -> & Hi & Hj). exists i, j. repeat split; auto; lia. }
  pose proof (be_min _ _ _ _ _ _ B f c (proj2 (some_facet_in _ _) F) O) as Mn.
  destruct r as [q|]; [|pose proof (be_none _ _ _ _ _ _ B eq_refl); lra].
  destruct (be_some _ _ _ _ _ _ B q eq_refl) as (-> & _ & _). exists q. split; auto. eapply best_nearest; eauto.
Qed.
Print Assumptions nearest_point_correct.

(* Without any facet the result point is never written. *)
Theorem nearest_point_no_facet : forall big p v g, facets g = [] -> holes g = [] ->
  nearestPoint big p (length v / 2) v g = Ok (big, None).
Proof. intros big p v g Ef Eh. unfold nearestPoint, closest_on_facets. rewrite Ef, Eh. reflexivity. Qed.
Print Assumptions nearest_point_no_facet.

(* It returns only for complexes whose facets are segments between existing points. *)
Theorem nearest_point_checks : forall big p v g r, (length v mod 2 = 0)%nat -> nearestPoint big p (length v / 2) v g = Ok r -> segments v g.
Proof.
  intros big p v g r M E. pose proof (Nat.div_mod (length v) 2 ltac:(lia)) as DM. destruct (nearest_segs _ _ _ _ _ _ E) as [A B].
  intros f [F|(h & H & F)]; [destruct (A f F) as (i & j & -> & Hi & Hj)|destruct (B h H f F) as (i & j & -> & Hi & Hj)]; exists i, j; repeat split; auto; lia.
Qed.
Print Assumptions nearest_point_checks.

(* ---- snapToBoundary ---- *)
Definition within_numbers (big : R) (v : list R) : Prop := v <> [] /\ (length v mod 2 = 0)%nat /\ forall x, In x v -> - big <= x <= big.
(* Whenever the call returns, the mesh is snapped; w is the larger side of the bounding box. *)
Theorem snap_correct : forall big m v g deg m' w, within_numbers big v -> LargestSide v w ->
  snapToBoundary big m v g deg = Ok m' -> Snapped v g (4 * deg * w) m m'.
Proof.
  intros big m v g deg m' w (Ne & M & B) W E. destruct (snap_tol_ok big v deg M Ne B) as (w' & W' & Et).
  rewrite (side_unique _ _ _ W W'), <- Et. apply snap_ok. auto.
Qed.
Print Assumptions snap_correct.

(* The call returns when each boundary point has its own nearby node. *)
Theorem snap_returns : forall big m v g deg w corner, within_numbers big v -> LargestSide v w ->
  segments v g -> 4 * deg * w < big -> Snappable v g (4 * deg * w) m corner -> exists m', snapToBoundary big m v g deg = Ok m'.
Proof.
  intros big m v g deg w corner (Ne & M & B) W Hs Hb HS. destruct (snap_tol_ok big v deg M Ne B) as (w' & W' & Et).
  rewrite (side_unique _ _ _ W W'), <- Et in *. eapply snap_runs; eauto.
Qed.
Print Assumptions snap_returns.

(* A mesh that is already exact is not moved. *)
Theorem snap_exact : forall big m v g deg w corner, within_numbers big v -> LargestSide v w ->
  segments v g -> no_tiny_facet v g -> 4 * deg * w < big -> (length (nodes m) mod 2 = 0)%nat ->
  Snappable v g (4 * deg * w) m corner ->
  (forall k c, point_at v k c -> point_at (nodes m) (corner k) c) ->
  (forall n q, In n (boundaryNodes m) -> point_at (nodes m) n q -> OnBoundary v g q) ->
  snapToBoundary big m v g deg = Ok m.
Proof.
  intros big m v g deg w corner N W Hs Nt Hb Me HS Hc Ho.
  destruct (snap_returns big m v g deg w corner N W Hs Hb HS) as [m' E]. rewrite E.
  destruct (snap_correct big m v g deg m' w N W E) as [S1 S2 S3 [S4 S5] (S6 & S7 & S8 & S9) S10 S11 S12 S13].
  assert (P : forall n q, point_at (nodes m) n q -> point_at (nodes m') n q).
  { intros n q P. destruct (in_dec Nat.eq_dec n (boundaryNodes m)) as [I|I]; [|auto].
    destruct (S13 n I) as (q0 & q' & P0 & P' & D & C). rewrite (point_fun _ _ _ _ P P0).
    assert (q0 = q') as ->; auto. destruct C as [(k & Pk)|(On & _ & Mn)].
    - destruct (Nat.eq_dec n (corner k)) as [->|Ne]; [eapply point_fun; eauto|].
      pose proof (sb_apart _ _ _ _ _ HS k q' n q0 Pk I P0 Ne). lra.
    - pose proof (Mn Nt q0 (Ho n q0 I P0)) as X. rewrite dist_refl in X. apply dist_zero. pose proof (dist_nonneg q0 q'). lra. }
  assert (En : nodes m' = nodes m).
  { apply nth_error_ext. intros i. pose proof (Nat.div_mod (length (nodes m)) 2 ltac:(lia)) as DM.
    destruct (le_lt_dec (length (nodes m)) i) as [L|L].
    - rewrite !(proj2 (nth_error_None _ _)); auto. rewrite S10. auto.
    - pose proof (Nat.div_mod i 2 ltac:(lia)) as DI. pose proof (Nat.mod_upper_bound i 2 ltac:(lia)).
      destruct (point_ex (nodes m) (i / 2)) as [q Pq]; [lia|]. destruct (P _ _ Pq) as [A1 A2]. destruct Pq as [B1 B2].
      destruct (i mod 2)%nat as [|[|?]] eqn:Em; [| |lia].
      + replace i with (2 * (i / 2))%nat by lia. congruence.
      + replace i with (2 * (i / 2) + 1)%nat by lia. congruence. }
  f_equal. destruct m, m'. cbn in *. congruence.
Qed.
Print Assumptions snap_exact.

(* ---- a unit square with a node inside and one on its lower side ---- *)
Definition sq : list R := [0; 0; 1; 0; 1; 1; 0; 1].
Definition sq_plc : plc := mkPLC [[0; 1]; [1; 2]; [2; 3]; [3; 0]]%Z [].
Definition sq_mesh (e : R) : mesh R :=
  mkMesh [/ 2; / 2; 1 - e; 0; 0; e; 1; 1; 0; 1; / 2; e] [] [] [5; 1; 2; 3; 4]%nat [] [] sq_plc [] [] [].
Definition sq_corner (k : nat) : nat := match k with 0 => 2 | 1 => 1 | 2 => 3 | _ => 4 end%nat.

Lemma sq_side : LargestSide sq 1.
Proof.
  constructor.
  - intros i j a b [A1 A2] [B1 B2].
    assert (forall i x, nth_error sq i = Some x -> x = 0 \/ x = 1) as G.
    { intros n x H. apply nth_error_In in H. cbn in H. intuition. }
    apply G in A1, A2, B1, B2. split; apply Rabs_le; lra.
  - exists 1%nat, 0%nat, (1, 0), (0, 0). repeat split. left. cbn. lra.
Qed.
Lemma sq_within : within_numbers 100 sq.
Proof. split; [discriminate|]. split; [reflexivity|]. intros x H. cbn in H. decompose [or] H; try contradiction; subst; lra. Qed.
Lemma sq_segments : segments sq sq_plc.
Proof.
  intros f [H|(h & [] & _)]. cbn in H. decompose [or] H; try contradiction; subst f.
  - exists 0%nat, 1%nat. cbn. repeat split; lia.
  - exists 1%nat, 2%nat. cbn. repeat split; lia.
  - exists 2%nat, 3%nat. cbn. repeat split; lia.
  - exists 3%nat, 0%nat. cbn. repeat split; lia.
Qed.
Lemma dist_small a b e : 0 < e -> (fst a - fst b) ^ 2 + (snd a - snd b) ^ 2 < e * e -> euclid a b < e.
Proof. intros H D. unfold euclid. rewrite <- (sqrt_square e) by lra. apply sqrt_lt_1_alt. split; auto. apply sq_nonneg. Qed.
Lemma dist_large a b e : 0 < e -> e * e < (fst a - fst b) ^ 2 + (snd a - snd b) ^ 2 -> e < euclid a b.
Proof. intros H D. unfold euclid. rewrite <- (sqrt_square e) at 1 by lra. apply sqrt_lt_1_alt. split; auto. nra. Qed.
(* nodes off by up to 1/100, tolerance 4/100 *)
Lemma sq_snappable e : 0 <= e <= / 100 -> Snappable sq sq_plc (4 * / 100 * 1) (sq_mesh e) sq_corner.
Proof.
  intros He.
  assert (Pk : forall k c, point_at sq k c -> (k = 0%nat /\ c = (0, 0)) \/ (k = 1%nat /\ c = (1, 0)) \/ (k = 2%nat /\ c = (1, 1)) \/ (k = 3%nat /\ c = (0, 1))).
  { intros k [x y] P. pose proof (read2_lt _ _ _ P) as L. destruct P as [A B]. cbn [fst snd] in *. cbn in L.
    destruct k as [|[|[|[|k]]]]; [| | | |exfalso; lia]; cbn in A, B; injection A as <-; injection B as <-; auto 6. }
  assert (Pn : forall n q, In n [5; 1; 2; 3; 4]%nat -> point_at (nodes (sq_mesh e)) n q ->
     (n = 5%nat /\ q = (/ 2, e)) \/ (n = 1%nat /\ q = (1 - e, 0)) \/ (n = 2%nat /\ q = (0, e)) \/ (n = 3%nat /\ q = (1, 1)) \/ (n = 4%nat /\ q = (0, 1))).
  { intros n [x y] I [A B]. cbn [fst snd] in *. cbn in I. decompose [or] I; try contradiction; subst n; cbn in A, B; injection A as <-; injection B as <-; auto 6. }
  constructor.
  - intros k c P. destruct (Pk k c P) as [[-> ->]|[[-> ->]|[[-> ->]|[-> ->]]]]; cbn [sq_corner]; (split; [cbn; auto 6|]).
    + exists (0, e). split; [split; reflexivity|]. apply dist_small; cbn [fst snd]; [lra|nra].
    + exists (1 - e, 0). split; [split; reflexivity|]. apply dist_small; cbn [fst snd]; [lra|nra].
    + exists (1, 1). split; [split; reflexivity|]. rewrite dist_refl. lra.
    + exists (0, 1). split; [split; reflexivity|]. rewrite dist_refl. lra.
  - intros k c n q P I Q Ne. apply dist_large; [lra|].
    destruct (Pk k c P) as [[-> ->]|[[-> ->]|[[-> ->]|[-> ->]]]]; destruct (Pn n q I Q) as [[-> ->]|[[-> ->]|[[-> ->]|[[-> ->]|[-> ->]]]]];
      cbn [sq_corner] in Ne; try congruence; cbn [fst snd]; nra.
  - intros k k' c c' P P'. destruct (Pk k c P) as [[-> _]|[[-> _]|[[-> _]|[-> _]]]]; destruct (Pk k' c' P') as [[-> _]|[[-> _]|[[-> _]|[-> _]]]]; cbn; congruence.
  - assert (Sl : slack < / 100) by (unfold slack; lra).
    assert (OB : forall i j a b t, In [Z.of_nat i; Z.of_nat j] (facets sq_plc) -> point_at sq i a -> point_at sq j b -> 0 <= t <= 1 ->
       OnBoundary sq sq_plc (fst a + t * (fst b - fst a), snd a + t * (snd b - snd a))).
    { intros i j a b t F Pa Pb Ht. exists [Z.of_nat i; Z.of_nat j]. split; [left; auto|]. exists i, j, a, b. repeat split; auto; try apply Pa; try apply Pb. exists t. auto. }
    intros n I. cbn in I. decompose [or] I; try contradiction; subst n.
    + exists (/ 2, e). eexists. split; [split; reflexivity|]. split; [apply (OB 0%nat 1%nat (0, 0) (1, 0) (/ 2)); cbn; auto; try (split; reflexivity); lra|].
      cbn [fst snd]. apply Rlt_le_trans with (/ 50 + / 100); [|lra]. apply Rplus_lt_compat; auto. apply dist_small; cbn [fst snd]; [lra|nra].
    + exists (1 - e, 0). eexists. split; [split; reflexivity|]. split; [apply (OB 0%nat 1%nat (0, 0) (1, 0) (1 - e)); cbn; auto; try (split; reflexivity); lra|].
      cbn [fst snd]. apply Rlt_le_trans with (/ 50 + / 100); [|lra]. apply Rplus_lt_compat; auto. apply dist_small; cbn [fst snd]; [lra|nra].
    + exists (0, e). eexists. split; [split; reflexivity|]. split; [apply (OB 3%nat 0%nat (0, 1) (0, 0) (1 - e)); cbn; auto; try (split; reflexivity); lra|].
      cbn [fst snd]. apply Rlt_le_trans with (/ 50 + / 100); [|lra]. apply Rplus_lt_compat; auto. apply dist_small; cbn [fst snd]; [lra|nra].
    + exists (1, 1). eexists. split; [split; reflexivity|]. split; [apply (OB 1%nat 2%nat (1, 0) (1, 1) 1); cbn; auto; try (split; reflexivity); lra|].
      cbn [fst snd]. apply Rlt_le_trans with (/ 50 + / 100); [|lra]. apply Rplus_lt_compat; auto. apply dist_small; cbn [fst snd]; [lra|nra].
    + exists (0, 1). eexists. split; [split; reflexivity|]. split; [apply (OB 2%nat 3%nat (1, 1) (0, 1) 1); cbn; auto 6; try (split; reflexivity); lra|].
      cbn [fst snd]. apply Rlt_le_trans with (/ 50 + / 100); [|lra]. apply Rplus_lt_compat; auto. apply dist_small; cbn [fst snd]; [lra|nra].
Qed.

Example snap_square : exists m', snapToBoundary 100 (sq_mesh (/ 100)) sq sq_plc (/ 100) = Ok m' /\ Snapped sq sq_plc (4 * / 100 * 1) (sq_mesh (/ 100)) m'.
Proof.
  destruct (snap_returns 100 (sq_mesh (/ 100)) sq sq_plc (/ 100) 1 sq_corner sq_within sq_side sq_segments ltac:(lra) (sq_snappable (/ 100) ltac:(lra))) as [m' E].
  exists m'. split; auto. apply (snap_correct 100 _ _ _ _ _ _ sq_within sq_side E).
Qed.
Example nearest_square : exists q, nearestPoint 100 (/ 2, / 4) 4 sq sq_plc = Ok (euclid (/ 2, / 4) q, Some q) /\ NearestOn sq sq_plc (/ 2, / 4) q.
Proof.
  apply (nearest_point_correct 100 (/ 2, / 4) sq sq_plc (0, 0)); [reflexivity|apply sq_segments| |].
  - exists [0; 1]%Z. split; [left; cbn; auto|]. exists 0%nat, 1%nat, (0, 0), (1, 0). repeat split. exists 0. cbn. repeat split; lra.
  - assert (euclid (/ 2, / 4) (0, 0) < 1) by (apply dist_small; cbn [fst snd]; [lra|nra]). unfold slack. lra.
Qed.
