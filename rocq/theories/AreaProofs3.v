From Verif Require Import Base BaseFacts SerializeModel MeshModel StdAlg PLCSpec MeshEditorModel Plane PlaneFacts AreaModel AreaSpec AreaProofs AreaProofs2.
From Coq Require Import QArith Lqa Qabs Permutation.
Local Open Scope Q_scope.

(* ---- the mean of the nodes of a cell ---- *)
Lemma vadd_nth a b j x y : nth_error a j = Some x -> nth_error b j = Some y -> nth_error (vadd a b) j = Some (x + y).
Proof. revert b j. induction a as [|h a IH]; intros [|k b] [|j] A B; try discriminate; cbn in *; [congruence|eauto]. Qed.
Lemma vadd_length a b : length a = length b -> length (vadd a b) = length a.
Proof. revert b. induction a as [|h a IH]; intros [|k b] L; try discriminate; cbn in *; auto. Qed.
Lemma add_node_ok D m acc n acc' : length acc = D -> add_node D m acc n = Ok acc' -> length acc' = D /\
  forall j x, nth_error acc j = Some x -> exists c, nth_error (nodes m) (D * n + j) = Some c /\ nth_error acc' j = Some (x + c).
Proof.
  intros L H. unfold add_node in H. destruct (n <? length (nodes m) / D)%nat; [|discriminate]. cbn [assert bind] in H.
  destruct (mmap _ (seq 0 D)) as [p| | |] eqn:E; try discriminate. cbn [bind] in H. injection H as <-.
  apply mmap_inv in E. pose proof (Forall2_len _ _ _ E) as Lp. rewrite seq_length in Lp. split; [rewrite vadd_length; lia|].
  intros j x X. pose proof (nth_error_lt _ _ _ X) as Lj.
  assert (Sj : nth_error (seq 0 D) j = Some j). { rewrite (nth_error_nth' _ 0%nat) by (rewrite seq_length; lia). rewrite seq_nth by lia. auto. }
  destruct (nth_error_ex p j) as [c C]; [lia|]. exists c. pose proof (Forall2_nth _ _ _ _ _ E Sj) as (c' & C' & G). cbv beta in G. apply get_ok in G. split; [congruence|].
  apply vadd_nth; auto.
Qed.
Lemma add_nodes_ok D m u acc acc' : length acc = D -> mfold (add_node D m) u acc = Ok acc' -> length acc' = D /\
  forall j x, nth_error acc j = Some x -> exists y, nth_error acc' j = Some y /\
    (forall n, In n u -> exists c, nth_error (nodes m) (D * n + j) = Some c) /\
    y == x + sumf (fun n => nth (D * n + j) (nodes m) 0) u.
Proof.
  revert acc. induction u as [|n u IH]; intros acc L H; cbn [mfold] in H.
  - injection H as <-. split; auto. intros j x X. exists x. split; auto. split; [intros n []|]. rewrite sumf_nil. ring.
  - destruct (add_node D m acc n) as [a1| | |] eqn:E; try discriminate. cbn [bind] in H.
    destruct (add_node_ok _ _ _ _ _ L E) as [L1 A1]. destruct (IH _ L1 H) as [L2 A2]. split; auto. intros j x X.
    destruct (A1 j x X) as (c & C & X1). destruct (A2 j _ X1) as (y & Y & I & Ey). exists y. split; auto. split.
    + intros n' [<-|I']; eauto.
    + rewrite Ey, sumf_cons, (nth_error_nth _ _ 0 C). ring.
Qed.
Lemma cell_centroid_ok D m ci g : cell_centroid D m ci = Ok g -> exists c u, nth_error (cells m) ci = Some c /\ NodeMean D m c u g.
Proof.
  unfold cell_centroid. intros H. destruct (ci <? length (cells m))%nat; [|discriminate]. cbn [assert bind] in H.
  destruct (get (cells m) ci) as [c| | |] eqn:C; try discriminate. cbn [bind] in H. apply get_ok in C.
  destruct (cell_face_nodes m c) as [ns| | |] eqn:N; try discriminate. cbn [bind] in H.
  set (u := unique (StdAlg.sort ns)) in *. destruct (mfold (add_node D m) u (repeat 0 D)) as [s| | |] eqn:E; try discriminate. cbn [bind] in H.
  destruct (0 <? length u)%nat eqn:U; [|discriminate]. cbn [assert bind] in H. injection H as <-. apply Nat.ltb_lt in U.
  destruct (add_nodes_ok D m u _ _ (repeat_length _ _) E) as [Ls A]. exists c, u. split; auto. constructor.
  - apply sorted_lt_nodup, unique_sorted, sort_sorted.
  - intros n. unfold u. rewrite unique_in, sort_in. unfold cell_face_nodes in N.
    destruct (mmap _ c) as [fs| | |] eqn:M; try discriminate. cbn [bind] in N. injection N as <-. apply mmap_inv in M.
    rewrite in_concat. split.
    + intros (f & F & I). destruct (Forall2_in_r _ _ _ _ M F) as (z & Z & G). apply get_ok in G. exists z, f. auto.
    + intros (z & f & Z & F & I). destruct (Forall2_in_l _ _ _ _ M Z) as (f' & F' & G). apply get_ok in G. exists f'. split; auto. congruence.
  - intros ->. cbn in U. lia.
  - rewrite map_length. auto.
  - intros j Hj. assert (R : nth_error (repeat 0 D) j = Some 0) by (apply nth_error_repeat; auto).
    destruct (A j 0 R) as (y & Y & I & Ey). split.
    + intros n In_. destruct (I n In_) as [x X]. apply (nth_error_lt _ _ _ X).
    + rewrite (nth_error_nth _ _ 0 (map_nth_error _ _ _ Y)). rewrite Qmult_div_r, Ey; [ring|].
      change 0 with (inject_Z 0). rewrite inject_Z_injective. lia.
Qed.
(* a mean lies between any bounds on its terms *)
Lemma mean_bounds D m c u g j lo hi : NodeMean D m c u g -> (j < D)%nat ->
  (forall n, In n u -> lo <= nth (D * n + j) (nodes m) 0 <= hi) -> lo <= nth j g 0 <= hi.
Proof.
  intros M Hj B. destruct (nm_mean _ _ _ _ _ M j Hj) as [_ E]. pose proof (nm_some _ _ _ _ _ M) as N.
  assert (G : inject_Z (Z.of_nat (length u)) * lo <= sumf (fun n => nth (D * n + j) (nodes m) 0) u <= inject_Z (Z.of_nat (length u)) * hi).
  { clear - B. induction u as [|n u IH]; [rewrite sumf_nil; cbn [length]; change (inject_Z (Z.of_nat 0)) with 0; lra|]. rewrite sumf_cons. pose proof (B n (or_introl eq_refl)). destruct IH as [I1 I2]; [intros; apply B; right; auto|].
    cbn [length]. rewrite Nat2Z.inj_succ. unfold Z.succ. rewrite inject_Z_plus. change (inject_Z 1) with 1. lra. }
  assert (P : 0 < inject_Z (Z.of_nat (length u))). { change 0 with (inject_Z 0). rewrite <- Zlt_Qlt. destruct u; [congruence|cbn [length]; lia]. }
  rewrite <- E in G. destruct G as [G1 G2]. split; [exact (proj1 (Qmult_le_l _ _ _ P) G1)|exact (proj1 (Qmult_le_l _ _ _ P) G2)].
Qed.

(* ---- circumcenters ---- *)
Lemma zero_by (k e : Q) : ~ k == 0 -> k * e == 0 -> e == 0.
Proof. intros N H. apply Qmult_integral in H as [H|H]; auto. contradiction. Qed.
Lemma sub_zero (a b : Q) : a - b == 0 -> a == b.
Proof. lra. Qed.

Lemma circ2_ok A B C : ~ orient A B C == 0 -> d2 (circumcenter2d A B C) A == d2 (circumcenter2d A B C) B /\ d2 (circumcenter2d A B C) A == d2 (circumcenter2d A B C) C.
Proof.
  destruct A as [ax ay], B as [bx by_], C as [cx cy]. unfold orient, d2, circumcenter2d. cbn [fst snd]. intros N.
  set (D := 2 * (ax * (by_ - cy) + bx * (cy - ay) + cx * (ay - by_))).
  assert (ND : ~ D == 0) by (intros Z; apply N; unfold D in Z; lra).
  match goal with |- context [fst (?u / D, ?w / D)] => set (x := u / D); set (y := w / D);
     assert (Ex : D * x == u) by (unfold x; rewrite Qmult_div_r; auto; reflexivity); assert (Ey : D * y == w) by (unfold y; rewrite Qmult_div_r; auto; reflexivity) end
  || match goal with |- context [(?u / D - ax)] => set (x := u / D); assert (Ex : D * x == u) by (unfold x; rewrite Qmult_div_r; auto; reflexivity);
       match goal with |- context [(?w / D - ay)] => set (y := w / D); assert (Ey : D * y == w) by (unfold y; rewrite Qmult_div_r; auto; reflexivity) end end.
  clearbody x y.
  split; apply sub_zero, (zero_by D); auto.
  - setoid_replace (D * ((x - ax) * (x - ax) + (y - ay) * (y - ay) - ((x - bx) * (x - bx) + (y - by_) * (y - by_))))
      with (2 * (bx - ax) * (D * x) + 2 * (by_ - ay) * (D * y) + D * (ax * ax + ay * ay - bx * bx - by_ * by_)) by ring.
    rewrite Ex, Ey. unfold D. ring.
  - setoid_replace (D * ((x - ax) * (x - ax) + (y - ay) * (y - ay) - ((x - cx) * (x - cx) + (y - cy) * (y - cy))))
      with (2 * (cx - ax) * (D * x) + 2 * (cy - ay) * (D * y) + D * (ax * ax + ay * ay - cx * cx - cy * cy)) by ring.
    rewrite Ex, Ey. unfold D. ring.
Qed.
(* the two planar routines agree *)
Lemma circ2_agree A B C : fst (circumcenter A B C) == fst (circumcenter2d A B C) /\ snd (circumcenter A B C) == snd (circumcenter2d A B C).
Proof.
  destruct A as [ax ay], B as [bx by_], C as [cx cy]. unfold circumcenter, circumcenter2d, orient, Qdiv. cbn [fst snd].
  assert (E : 2 * ((bx - ax) * (cy - ay) - (by_ - ay) * (cx - ax)) == 2 * (ax * (by_ - cy) + bx * (cy - ay) + cx * (ay - by_))) by ring.
  rewrite E. split; apply Qmult_comp; try reflexivity; ring.
Qed.
Lemma circ2_unique A B C P P' : ~ orient A B C == 0 -> d2 P A == d2 P B -> d2 P A == d2 P C -> d2 P' A == d2 P' B -> d2 P' A == d2 P' C ->
  fst P == fst P' /\ snd P == snd P'.
Proof.
  destruct A as [ax ay], B as [bx by_], C as [cx cy], P as [x y], P' as [x' y']. unfold orient, d2. cbn [fst snd]. intros N H1 H2 H3 H4.
  assert (E1 : (bx - ax) * (x - x') + (by_ - ay) * (y - y') == 0) by nra. assert (E2 : (cx - ax) * (x - x') + (cy - ay) * (y - y') == 0) by nra.
  split; apply sub_zero, (zero_by _ _ N).
  - setoid_replace (((bx - ax) * (cy - ay) - (by_ - ay) * (cx - ax)) * (x - x')) with
      ((cy - ay) * ((bx - ax) * (x - x') + (by_ - ay) * (y - y')) - (by_ - ay) * ((cx - ax) * (x - x') + (cy - ay) * (y - y'))) by ring. rewrite E1, E2. ring.
  - setoid_replace (((bx - ax) * (cy - ay) - (by_ - ay) * (cx - ax)) * (y - y')) with
      ((bx - ax) * ((cx - ax) * (x - x') + (cy - ay) * (y - y')) - (cx - ax) * ((bx - ax) * (x - x') + (by_ - ay) * (y - y'))) by ring. rewrite E1, E2. ring.
Qed.

Lemma circ3_ok A B C D : ~ vol6 A B C D == 0 -> exists X, circumcenter3d A B C D = Ok X /\ d3 X A == d3 X B /\ d3 X A == d3 X C /\ d3 X A == d3 X D.
Proof.
  destruct A as [[ax ay] az], B as [[bx by_] bz], C as [[cx cy] cz], D as [[dx dy] dz].
  unfold vol6, det3, circumcenter3d, d3, sub3, dot3, cross3. cbn [X3 Y3 Z3]. intros N.
  match goal with |- context [Qeq_bool ?e 0] => set (den := e) end.
  assert (ND : ~ den == 0). { intros Z. apply N. unfold den in Z. apply (zero_by 2); [discriminate|]. rewrite <- Z. ring. }
  destruct (Qeq_bool den 0) eqn:Q; [apply Qeq_bool_eq in Q; contradiction|]. cbn [negb assert bind].
  eexists. split; [reflexivity|]. cbn [X3 Y3 Z3].
  match goal with |- context [ax + ?u / den] => set (x := u / den); assert (Ex : den * x == u) by (unfold x; rewrite Qmult_div_r; auto; reflexivity) end.
  match goal with |- context [ay + ?u / den] => set (y := u / den); assert (Ey : den * y == u) by (unfold y; rewrite Qmult_div_r; auto; reflexivity) end.
  match goal with |- context [az + ?u / den] => set (z := u / den); assert (Ez : den * z == u) by (unfold z; rewrite Qmult_div_r; auto; reflexivity) end.
  clearbody x y z.
  assert (G : forall px py pz, 2 * ((px - ax) * (den * x) + (py - ay) * (den * y) + (pz - az) * (den * z)) == den * ((px - ax) * (px - ax) + (py - ay) * (py - ay) + (pz - az) * (pz - az)) ->
     (ax + x - ax) * (ax + x - ax) + (ay + y - ay) * (ay + y - ay) + (az + z - az) * (az + z - az) ==
     (ax + x - px) * (ax + x - px) + (ay + y - py) * (ay + y - py) + (az + z - pz) * (az + z - pz)).
  { intros px py pz H. apply sub_zero, (zero_by den); auto.
    setoid_replace (den * ((ax + x - ax) * (ax + x - ax) + (ay + y - ay) * (ay + y - ay) + (az + z - az) * (az + z - az) - ((ax + x - px) * (ax + x - px) + (ay + y - py) * (ay + y - py) + (az + z - pz) * (az + z - pz))))
      with (2 * ((px - ax) * (den * x) + (py - ay) * (den * y) + (pz - az) * (den * z)) - den * ((px - ax) * (px - ax) + (py - ay) * (py - ay) + (pz - az) * (pz - az))) by ring.
    rewrite H. ring. }
  split; [|split]; apply G; rewrite Ex, Ey, Ez; unfold den; ring.
Qed.

Lemma nonneg_sq (x : Q) : 0 <= x * x.
Proof. nra. Qed.
Lemma col3_nz a b c : col3 a b c = false -> 0 < dot3 (cross3 (sub3 a c) (sub3 b c)) (cross3 (sub3 a c) (sub3 b c)).
Proof.
  destruct a as [[ax ay] az], b as [[bx by_] bz], c as [[cx cy] cz]. unfold col3, sub3, dot3, cross3. cbn [X3 Y3 Z3].
  set (ux := bx - ax). set (uy := by_ - ay). set (uz := bz - az). set (vx := cx - ax). set (vy := cy - ay). set (vz := cz - az).
  set (tol := 1 # 10000000000).
  destruct (Qlt_bool (ux * ux + uy * uy + uz * uz) tol) eqn:U; [discriminate|]. cbn [orb].
  destruct (Qlt_bool (vx * vx + vy * vy + vz * vz) tol) eqn:V; [discriminate|]. intros H.
  assert (U' : tol <= ux * ux + uy * uy + uz * uz) by (apply Qnot_lt_le; intros L; apply qlt_bool_iff in L; congruence).
  assert (V' : tol <= vx * vx + vy * vy + vz * vz) by (apply Qnot_lt_le; intros L; apply qlt_bool_iff in L; congruence).
  assert (H' : (ux * vx + uy * vy + uz * vz) * (ux * vx + uy * vy + uz * vz) <= (1 - tol) * (1 - tol) * ((ux * ux + uy * uy + uz * uz) * (vx * vx + vy * vy + vz * vz)))
    by (apply Qnot_lt_le; intros L; apply qlt_bool_iff in L; congruence).
  set (uu := ux * ux + uy * uy + uz * uz) in *. set (vv := vx * vx + vy * vy + vz * vz) in *. set (uv := ux * vx + uy * vy + uz * vz) in *.
  match goal with |- 0 < ?e => setoid_replace e with (uu * vv - uv * uv) by (unfold uu, vv, uv, ux, uy, uz, vx, vy, vz; ring) end.
  assert (T : 0 < tol * tol) by reflexivity. assert (P : tol * tol <= uu * vv).
  { apply Qle_trans with (tol * vv); [apply Qmult_le_l; auto; reflexivity|]. apply Qmult_le_compat_r; auto. assert (0 < tol) by reflexivity. lra. }
  set (P2 := uu * vv) in *. assert (K : (1 - tol) * (1 - tol) * P2 < P2); [|lra].
  assert ((1 - tol) * (1 - tol) < 1) by reflexivity. assert (0 < P2) by lra. 
  setoid_replace P2 with (1 * P2) at 2 by ring. apply Qmult_lt_compat_r; auto.
Qed.
Lemma circt_ok A B C : col3 A B C = false -> exists X, triangle_circumcenter3d A B C = Ok (Some X) /\ d3 X A == d3 X B /\ d3 X A == d3 X C /\ vol6 X A B C == 0.
Proof.
  intros H. pose proof (col3_nz _ _ _ H) as P. unfold triangle_circumcenter3d. rewrite H.
  rewrite (proj2 (qlt_bool_iff _ _) P). cbn [assert bind]. eexists. split; [reflexivity|]. clear H.
  destruct A as [[ax ay] az], B as [[bx by_] bz], C as [[cx cy] cz]. unfold vol6, det3, d3, sub3, dot3, cross3 in *. cbn [X3 Y3 Z3] in *.
  match type of P with 0 < ?e => set (den := e) in * end. assert (ND : ~ den == 0) by (intros Z; rewrite Z in P; lra). clear P.
  match goal with |- context [?u / den + cx] => set (x := u / den); assert (Ex : den * x == u) by (unfold x; rewrite Qmult_div_r; auto; reflexivity) end.
  match goal with |- context [?u / den + cy] => set (y := u / den); assert (Ey : den * y == u) by (unfold y; rewrite Qmult_div_r; auto; reflexivity) end.
  match goal with |- context [?u / den + cz] => set (z := u / den); assert (Ez : den * z == u) by (unfold z; rewrite Qmult_div_r; auto; reflexivity) end.
  clearbody x y z.
  assert (G : forall px py pz, 2 * ((px - cx) * (den * x) + (py - cy) * (den * y) + (pz - cz) * (den * z)) == den * ((px - cx) * (px - cx) + (py - cy) * (py - cy) + (pz - cz) * (pz - cz)) ->
     (x + cx - px) * (x + cx - px) + (y + cy - py) * (y + cy - py) + (z + cz - pz) * (z + cz - pz) == x * x + y * y + z * z).
  { intros px py pz K. apply sub_zero, (zero_by den); auto.
    setoid_replace (den * ((x + cx - px) * (x + cx - px) + (y + cy - py) * (y + cy - py) + (z + cz - pz) * (z + cz - pz) - (x * x + y * y + z * z)))
      with (den * ((px - cx) * (px - cx) + (py - cy) * (py - cy) + (pz - cz) * (pz - cz)) - 2 * ((px - cx) * (den * x) + (py - cy) * (den * y) + (pz - cz) * (den * z))) by ring.
    rewrite K. ring. }
  assert (GA := G ax ay az). assert (GB := G bx by_ bz). assert (GC := G cx cy cz). clear G.
  rewrite GA by (rewrite Ex, Ey, Ez; unfold den; ring). rewrite GB by (rewrite Ex, Ey, Ez; unfold den; ring). rewrite GC by ring.
  split; [reflexivity|]. split; [reflexivity|]. apply (zero_by den); auto.
  match goal with |- den * ?e == 0 => setoid_replace (den * e) with
    (- ((den * x) * ((ay - cy) * (bz - cz) - (az - cz) * (by_ - cy)) + (den * y) * ((az - cz) * (bx - cx) - (ax - cx) * (bz - cz)) + (den * z) * ((ax - cx) * (by_ - cy) - (ay - cy) * (bx - cx)))) by ring end.
  rewrite Ex, Ey, Ez. ring.
Qed.
