(* C33: areas, volumes and centroids of cells; C56: circumcenters. *)
From Verif Require Import Base BaseFacts SerializeModel MeshModel StdAlg PLCSpec MeshEditorModel Plane PlaneFacts AreaModel AreaSpec AreaProofs AreaProofs2 AreaProofs3.
From Coq Require Import QArith Lqa Qabs Permutation.
Local Open Scope Q_scope.

(* However the cell is cut into triangles (inner edges cancelling), its area is the sum of
   their signed areas and its centroid their area-weighted mean. *)
Definition tri_area (t : p2 * p2 * p2) : Q := let '(a, b, c) := t in orient a b c / 2.
Definition tri_centroid (t : p2 * p2 * p2) : p2 := let '(a, b, c) := t in ((fst a + fst b + fst c) / 3, (snd a + snd b + snd c) / 3).
Theorem area_is_sum_of_triangles : forall m ci tol es g a ts, CellEdges m ci es -> 0 <= tol -> cell_area m ci tol = Ok (g, a) ->
  SameEdges (flat_map tri_edges ts) es ->
  a == sumf tri_area ts /\
  a * fst g == sumf (fun t => tri_area t * fst (tri_centroid t)) ts /\
  a * snd g == sumf (fun t => tri_area t * snd (tri_centroid t)) ts.
Proof.
  intros m ci tol es g a ts C T E S. destruct (cell_area_sums _ _ _ _ _ _ C T E) as (_ & _ & A & B1 & B2).
  destruct (tri_sums ts) as (S0 & S1 & S2).
  rewrite <- (same_edges_sum cr cr_anti _ _ S), S0 in A. rewrite <- (same_edges_sum mx mx_anti _ _ S), S1 in B1. rewrite <- (same_edges_sum my my_anti _ _ S), S2 in B2.
  assert (H0 : sumf tri_area ts == (1 # 2) * sumf tor ts).
  { rewrite <- sumf_scale. apply sumf_ext. intros [[x y] z] _. unfold tri_area, tor, Qdiv. change (/ 2) with (1 # 2). ring. }
  assert (H1 : sumf (fun t => tri_area t * fst (tri_centroid t)) ts == (1 # 6) * sumf (fun t => tor t * tx t) ts).
  { rewrite <- sumf_scale. apply sumf_ext. intros [[x y] z] _. unfold tri_area, tri_centroid, tor, tx, Qdiv. cbn [fst snd]. change (/ 2) with (1 # 2). change (/ 3) with (1 # 3). ring. }
  assert (H2 : sumf (fun t => tri_area t * snd (tri_centroid t)) ts == (1 # 6) * sumf (fun t => tor t * ty t) ts).
  { rewrite <- sumf_scale. apply sumf_ext. intros [[x y] z] _. unfold tri_area, tri_centroid, tor, ty, Qdiv. cbn [fst snd]. change (/ 2) with (1 # 2). change (/ 3) with (1 # 3). ring. }
  rewrite H0, H1, H2. repeat split; lra.
Qed.
Print Assumptions area_is_sum_of_triangles.

(* A closed polygon always has such a cutting: the fan around any of its corners. *)
Theorem fan_cuts_polygon : forall (o : p2) ps, (2 <= length ps)%nat -> SameEdges (flat_map tri_edges (fan o ps)) (ring (o :: ps)).
Proof. intros. apply ring_fan. auto. Qed.
Print Assumptions fan_cuts_polygon.

(* The routine returns, for every cell with two-node faces, unless the area is within tol. *)
Theorem area_returns : forall m ci tol es ts, CellEdges m ci es -> SameEdges (flat_map tri_edges ts) es ->
  tol < Qabs (2 * sumf tri_area ts) -> exists r, cell_area m ci tol = Ok r.
Proof.
  intros m ci tol es ts C S T. destruct (cell_area_ok m ci tol es C) as (g & a & E); [|eauto].
  rewrite <- (same_edges_sum cr cr_anti _ _ S), (proj1 (tri_sums ts)).
  assert (H0 : sumf tor ts == 2 * sumf tri_area ts).
  { rewrite <- sumf_scale. apply sumf_ext. intros [[x y] z] _. unfold tri_area, tor, Qdiv. change (/ 2) with (1 # 2). ring. }
  rewrite H0. auto.
Qed.
Print Assumptions area_returns.
Theorem area_only_edges : forall m ci tol r, cell_area m ci tol = Ok r -> exists es, CellEdges m ci es.
Proof. exact cell_area_edges. Qed.
Print Assumptions area_only_edges.

(* Merging cells: when the edges of a cell are those of two cells after cancelling the common
   ones, areas and first moments add up.  With one cell this is independence of the starting
   edge. *)
Theorem area_additive : forall m ci tol es g a m1 c1 tol1 es1 g1 a1 m2 c2 tol2 es2 g2 a2,
  CellEdges m ci es -> 0 <= tol -> cell_area m ci tol = Ok (g, a) ->
  CellEdges m1 c1 es1 -> 0 <= tol1 -> cell_area m1 c1 tol1 = Ok (g1, a1) ->
  CellEdges m2 c2 es2 -> 0 <= tol2 -> cell_area m2 c2 tol2 = Ok (g2, a2) ->
  SameEdges (es1 ++ es2) es ->
  a == a1 + a2 /\ a * fst g == a1 * fst g1 + a2 * fst g2 /\ a * snd g == a1 * snd g1 + a2 * snd g2.
Proof.
  intros m ci tol es g a m1 c1 tol1 es1 g1 a1 m2 c2 tol2 es2 g2 a2 C T E C1 T1 E1 C2 T2 E2 S.
  destruct (cell_area_sums _ _ _ _ _ _ C T E) as (_ & _ & A & X & Y).
  destruct (cell_area_sums _ _ _ _ _ _ C1 T1 E1) as (_ & _ & A1 & X1 & Y1).
  destruct (cell_area_sums _ _ _ _ _ _ C2 T2 E2) as (_ & _ & A2 & X2 & Y2).
  rewrite <- (same_edges_sum cr cr_anti _ _ S), sumf_app in A. rewrite <- (same_edges_sum mx mx_anti _ _ S), sumf_app in X. rewrite <- (same_edges_sum my my_anti _ _ S), sumf_app in Y.
  repeat split; lra.
Qed.
Print Assumptions area_additive.
(* Order of the faces does not matter; walking the other way round flips the sign of the area
   and keeps the centroid. *)
Theorem area_start_free : forall m ci tol es g a m' ci' tol' es' g' a',
  CellEdges m ci es -> 0 <= tol -> cell_area m ci tol = Ok (g, a) ->
  CellEdges m' ci' es' -> 0 <= tol' -> cell_area m' ci' tol' = Ok (g', a') ->
  SameEdges es es' -> a' == a /\ fst g' == fst g /\ snd g' == snd g.
Proof.
  intros m ci tol es g a m' ci' tol' es' g' a' C T E C' T' E' S.
  destruct (cell_area_sums _ _ _ _ _ _ C T E) as (_ & N & A & X & Y).
  destruct (cell_area_sums _ _ _ _ _ _ C' T' E') as (_ & N' & A' & X' & Y').
  rewrite <- (same_edges_sum cr cr_anti _ _ S) in A'. rewrite <- (same_edges_sum mx mx_anti _ _ S) in X'. rewrite <- (same_edges_sum my my_anti _ _ S) in Y'.
  assert (Ea : a' == a) by lra. rewrite Ea in X', Y'. split; auto.
  assert (N6 : ~ 6 * a == 0) by (intros Z; apply N; lra).
  split; apply (Qmult_inj_l _ _ (6 * a)); auto; lra.
Qed.
Print Assumptions area_start_free.
Theorem area_reversed : forall m ci tol es g a m' ci' tol' es' g' a',
  CellEdges m ci es -> 0 <= tol -> cell_area m ci tol = Ok (g, a) ->
  CellEdges m' ci' es' -> 0 <= tol' -> cell_area m' ci' tol' = Ok (g', a') ->
  SameEdges (map flip es) es' -> a' == - a /\ fst g' == fst g /\ snd g' == snd g.
Proof.
  intros m ci tol es g a m' ci' tol' es' g' a' C T E C' T' E' S.
  destruct (cell_area_sums _ _ _ _ _ _ C T E) as (_ & N & A & X & Y).
  destruct (cell_area_sums _ _ _ _ _ _ C' T' E') as (_ & N' & A' & X' & Y').
  rewrite <- (same_edges_sum cr cr_anti _ _ S), sumf_map in A'. rewrite <- (same_edges_sum mx mx_anti _ _ S), sumf_map in X'. rewrite <- (same_edges_sum my my_anti _ _ S), sumf_map in Y'.
  assert (R : forall f : p2 * p2 -> Q, (forall x y, f (y, x) == - f (x, y)) -> sumf (fun e => f (flip e)) es == - sumf f es).
  { intros f Hf. rewrite <- (Qmult_1_l (sumf f es)). setoid_replace (- (1 * sumf f es)) with (-(1) * sumf f es) by ring. rewrite <- sumf_scale.
    apply sumf_ext. intros [x y] _. unfold flip. cbn [fst snd]. rewrite Hf. ring. }
  rewrite (R cr cr_anti) in A'. rewrite (R mx mx_anti) in X'. rewrite (R my my_anti) in Y'.
  assert (Ea : a' == - a) by lra. rewrite Ea in X', Y'. split; auto.
  assert (N6 : ~ 6 * a == 0) by (intros Z; apply N; lra).
  split; apply (Qmult_inj_l _ _ (6 * a)); auto; lra.
Qed.
Print Assumptions area_reversed.

(* Moving, rotating, scaling or shearing the plane multiplies the area by the determinant of
   the map, and maps the centroid with it. *)
Theorem area_affine : forall F m ci tol ps g a m' ci' tol' g' a', ~ aff_det F == 0 ->
  CellEdges m ci (ring ps) -> 0 <= tol -> cell_area m ci tol = Ok (g, a) ->
  CellEdges m' ci' (ring (map (aff F) ps)) -> 0 <= tol' -> cell_area m' ci' tol' = Ok (g', a') ->
  a' == aff_det F * a /\ fst g' == fst (aff F g) /\ snd g' == snd (aff F g).
Proof.
  intros F m ci tol ps g a m' ci' tol' g' a' ND C T E C' T' E'.
  destruct (cell_area_sums _ _ _ _ _ _ C T E) as (_ & N & A & X & Y).
  destruct (cell_area_sums _ _ _ _ _ _ C' T' E') as (_ & N' & A' & X' & Y').
  assert (M : ring (map (aff F) ps) = map (fun e => (aff F (fst e), aff F (snd e))) (ring ps)).
  { destruct ps as [|p t]; [reflexivity|]. cbn [map ring]. 
    change [aff F p] with (map (aff F) [p]). rewrite <- map_app. change (aff F p :: map (aff F) t) with (map (aff F) (p :: t)).
    generalize (p :: t) (t ++ [p]). intros l. induction l as [|x l IH]; intros [|y l']; cbn; auto. rewrite IH. auto. }
  rewrite M, sumf_map in A', X', Y'.
  pose proof (fun f => ring_heads f ps) as R.
  destruct F as [xx xy yx yy x0 y0]. unfold aff_det, aff in *. cbn [axx axy ayx ayy atx aty fst snd] in *.
  set (D := xx * yy - xy * yx) in *.
  (* each edge term of the image is the mapped term plus a difference of point functions *)
  assert (HA : sumf (fun e => cr (xx * fst (fst e) + xy * snd (fst e) + x0, yx * fst (fst e) + yy * snd (fst e) + y0, (xx * fst (snd e) + xy * snd (snd e) + x0, yx * fst (snd e) + yy * snd (snd e) + y0))) (ring ps)
     == D * sumf cr (ring ps)).
  { rewrite <- sumf_scale. pose (k := fun p : p2 => x0 * (yx * fst p + yy * snd p) - y0 * (xx * fst p + xy * snd p)).
    transitivity (sumf (fun e => D * cr e + (k (snd e) + -(1) * k (fst e))) (ring ps)).
    - apply sumf_ext. intros [[ax ay] [bx by_]] _. unfold cr, k, D. cbn [fst snd]. ring.
    - rewrite !sumf_plus, (sumf_scale (fun e => k (fst e))), (R k). ring. }
  assert (HX : sumf (fun e => mx (xx * fst (fst e) + xy * snd (fst e) + x0, yx * fst (fst e) + yy * snd (fst e) + y0, (xx * fst (snd e) + xy * snd (snd e) + x0, yx * fst (snd e) + yy * snd (snd e) + y0))) (ring ps)
     == D * (xx * sumf mx (ring ps) + xy * sumf my (ring ps) + 3 * x0 * sumf cr (ring ps))).
  { pose (k := fun p : p2 => let u := xx * fst p + xy * snd p in let w := yx * fst p + yy * snd p in x0 * u * w - y0 * u * u + 2 * x0 * (x0 * w - y0 * u)).
    setoid_replace (D * (xx * sumf mx (ring ps) + xy * sumf my (ring ps) + 3 * x0 * sumf cr (ring ps)))
      with (D * xx * sumf mx (ring ps) + D * xy * sumf my (ring ps) + D * 3 * x0 * sumf cr (ring ps)) by ring.
    rewrite <- !sumf_scale, <- !sumf_plus.
    transitivity (sumf (fun e => (D * xx * mx e + D * xy * my e + D * 3 * x0 * cr e) + (k (snd e) + -(1) * k (fst e))) (ring ps)).
    - apply sumf_ext. intros [[ax ay] [bx by_]] _. unfold mx, my, cr, k, D. cbn [fst snd]. ring.
    - rewrite (sumf_plus (fun e => D * xx * mx e + D * xy * my e + D * 3 * x0 * cr e)), (sumf_plus (fun e => k (snd e))), (sumf_scale (fun e => k (fst e))), (R k). ring. }
  assert (HY : sumf (fun e => my (xx * fst (fst e) + xy * snd (fst e) + x0, yx * fst (fst e) + yy * snd (fst e) + y0, (xx * fst (snd e) + xy * snd (snd e) + x0, yx * fst (snd e) + yy * snd (snd e) + y0))) (ring ps)
     == D * (yx * sumf mx (ring ps) + yy * sumf my (ring ps) + 3 * y0 * sumf cr (ring ps))).
  { pose (k := fun p : p2 => let u := xx * fst p + xy * snd p in let w := yx * fst p + yy * snd p in x0 * w * w - y0 * u * w + 2 * y0 * (x0 * w - y0 * u)).
    setoid_replace (D * (yx * sumf mx (ring ps) + yy * sumf my (ring ps) + 3 * y0 * sumf cr (ring ps)))
      with (D * yx * sumf mx (ring ps) + D * yy * sumf my (ring ps) + D * 3 * y0 * sumf cr (ring ps)) by ring.
    rewrite <- !sumf_scale, <- !sumf_plus.
    transitivity (sumf (fun e => (D * yx * mx e + D * yy * my e + D * 3 * y0 * cr e) + (k (snd e) + -(1) * k (fst e))) (ring ps)).
    - apply sumf_ext. intros [[ax ay] [bx by_]] _. unfold mx, my, cr, k, D. cbn [fst snd]. ring.
    - rewrite (sumf_plus (fun e => D * yx * mx e + D * yy * my e + D * 3 * y0 * cr e)), (sumf_plus (fun e => k (snd e))), (sumf_scale (fun e => k (fst e))), (R k). ring. }
  rewrite HA, <- A in A'. rewrite HX, <- A, <- X, <- Y in X'. rewrite HY, <- A, <- X, <- Y in Y'.
  assert (Ea : a' == D * a) by lra. rewrite Ea in X', Y'. split; auto.
  assert (N6 : ~ 6 * (D * a) == 0).
  { intros Z. apply Qmult_integral in Z as [Z|Z]; [discriminate|]. apply Qmult_integral in Z as [Z|Z]; auto. }
  split; apply (Qmult_inj_l _ _ (6 * (D * a))); auto; [rewrite X'|rewrite Y']; ring.
Qed.
Print Assumptions area_affine.

(* A strictly convex cell listed counter-clockwise has positive area, and its centroid lies
   strictly on the inner side of every edge. *)
Theorem area_convex : forall m ci tol es ps g a, CellEdges m ci es -> SameEdges es (ring ps) -> StrictlyConvex ps -> (3 <= length ps)%nat ->
  0 <= tol -> cell_area m ci tol = Ok (g, a) ->
  0 < a /\ forall p q, In (p, q) (ring ps) -> 0 < orient p q g.
Proof.
  intros m ci tol es ps g a C Se V L T E. destruct (cell_area_sums _ _ _ _ _ _ C T E) as (_ & _ & A & X & Y).
  destruct ps as [|o ps]; [cbn in L; lia|].
  assert (S' : SameEdges (flat_map tri_edges (fan o ps)) es) by (eapply se_trans; [apply ring_fan; cbn in L; lia|apply se_sym; exact Se]).
  destruct (tri_sums (fan o ps)) as (S0 & S1 & S2).
  rewrite <- (same_edges_sum cr cr_anti _ _ S'), S0 in A. rewrite <- (same_edges_sum mx mx_anti _ _ S'), S1 in X. rewrite <- (same_edges_sum my my_anti _ _ S'), S2 in Y.
  assert (P : forall t, In t (fan o ps) -> 0 < tor t) by (intros t; apply fan_pos; auto).
  assert (In1 : exists t, In t (fan o ps)). { destruct ps as [|p [|q ps]]; try (cbn in L; lia). cbn [fan]. eexists. left. reflexivity. }
  destruct In1 as [t1 It1].
  assert (Pa : 0 < a). { assert (0 < sumf tor (fan o ps)); [|lra]. apply (sumf_pos _ _ t1); auto. intros t It. pose proof (P t It). lra. }
  split; auto. intros p q R.
  (* the centroid is a weighted mean of corners *)
  pose (w := fun t : p2 * p2 * p2 => let '(x, y, z) := t in orient p q x + orient p q y + orient p q z).
  assert (G : 6 * a * orient p q g == sumf (fun t => tor t * w t) (fan o ps)).
  { assert (K : 6 * a * orient p q g == (fst q - fst p) * (6 * a * snd g) + -(snd q - snd p) * (6 * a * fst g) + ((snd q - snd p) * fst p - (fst q - fst p) * snd p) * 3 * (2 * a)) by (unfold orient; ring).
    rewrite K, X, Y, A, <- !sumf_scale, <- !sumf_plus. apply sumf_ext. intros [[x y] z] _. unfold w, tx, ty, tor, orient. ring. }
  assert (W : forall t, In t (fan o ps) -> 0 < tor t * w t).
  { intros t It. assert (Wt : 0 < w t); [|pose proof (P t It); nra].
    destruct (fan_in _ _ _ It) as (i & x & y & -> & Hx & Hy). unfold w.
    assert (Io : nth_error (o :: ps) 0 = Some o) by auto. assert (Ix : nth_error (o :: ps) (S i) = Some x) by auto. assert (Iy : nth_error (o :: ps) (S (S i)) = Some y) by auto.
    pose proof (convex_edge_le _ _ _ _ V R (nth_error_In _ _ Io)). pose proof (convex_edge_le _ _ _ _ V R (nth_error_In _ _ Ix)). pose proof (convex_edge_le _ _ _ _ V R (nth_error_In _ _ Iy)).
    apply In_nth_error in R as [k R].
    (* one of the three corners is not an end of the edge *)
    assert (Q3 : exists j v, (j = 0 \/ j = S i \/ j = S (S i))%nat /\ nth_error (o :: ps) j = Some v /\ j <> k /\ j <> (S k mod length (o :: ps))%nat).
    { set (k' := (S k mod length (o :: ps))%nat). destruct (Nat.eq_dec 0 k), (Nat.eq_dec 0 k'), (Nat.eq_dec (S i) k), (Nat.eq_dec (S i) k'), (Nat.eq_dec (S (S i)) k), (Nat.eq_dec (S (S i)) k'); try (exfalso; lia);
        first [ exists 0%nat, o; repeat split; auto; fail | exists (S i), x; repeat split; auto; fail | exists (S (S i)), y; repeat split; auto; fail ]. }
    destruct Q3 as (j & v & J & Hv & N1 & N2). pose proof (convex_edge_nth _ _ _ _ _ _ V R Hv N1 N2) as Pv.
    destruct J as [-> | [-> | ->]]; [assert (v = o) by congruence|assert (v = x) by congruence|assert (v = y) by congruence]; subst v; lra. }
  assert (0 < sumf (fun t => tor t * w t) (fan o ps)) by (apply (sumf_pos _ _ t1); auto; intros t It; pose proof (W t It); lra).
  rewrite <- G in H. nra.
Qed.
Print Assumptions area_convex.

(* ---- volumes ---- *)
Definition tet_volume (t : p3 * p3 * p3 * p3) : Q := let '(a, b, c, d) := t in vol6 a b c d / 6.
Definition tet_center (u : p3 -> Q) (t : p3 * p3 * p3 * p3) : Q := let '(a, b, c, d) := t in (u a + u b + u c + u d) / 4.
(* However the cell is cut into tetrahedra (inner faces cancelling) ... *)
Theorem volume_is_sum_of_tetrahedra : forall m ci sides g v ts, CellSides m ci sides -> cell_volume m ci = Ok (g, v) ->
  SameTriangles (flat_map tet_faces ts) (surface sides) ->
  v == sumf tet_volume ts /\
  v * X3 g == sumf (fun t => tet_volume t * tet_center X3 t) ts /\
  v * Y3 g == sumf (fun t => tet_volume t * tet_center Y3 t) ts /\
  v * Z3 g == sumf (fun t => tet_volume t * tet_center Z3 t) ts.
Proof.
  intros m ci sides g v ts S E T. destruct (volume_tets _ _ _ _ _ _ S E T) as [A B].
  assert (H0 : sumf tet_volume ts == (1 # 6) * sumf tvol ts).
  { rewrite <- sumf_scale. apply sumf_ext. intros [[[a b] c] d] _. unfold tet_volume, tvol, Qdiv. change (/ 6) with (1 # 6). ring. }
  assert (H1 : forall u, sumf (fun t => tet_volume t * tet_center u t) ts == (1 # 24) * sumf (fun t => tvol t * tsum u t) ts).
  { intros u. rewrite <- sumf_scale. apply sumf_ext. intros [[[a b] c] d] _. unfold tet_volume, tet_center, tvol, tsum, Qdiv. change (/ 6) with (1 # 6). change (/ 4) with (1 # 4). ring. }
  rewrite H0, !H1. pose proof (B X3 (or_introl eq_refl)). pose proof (B Y3 (or_intror (or_introl eq_refl))). pose proof (B Z3 (or_intror (or_intror eq_refl))).
  repeat split; lra.
Qed.
Print Assumptions volume_is_sum_of_tetrahedra.
(* ... and for a closed cell they are the cones over its surface from any point whatever. *)
Theorem volume_from_any_point : forall m ci sides g v o, CellSides m ci sides -> SameEdges (flat_map (fun s => ring (fst s)) sides) [] ->
  cell_volume m ci = Ok (g, v) ->
  let ts := map (fun t => let '(a, b, c) := t in (o, a, b, c)) (surface sides) in
  v == sumf tet_volume ts /\
  v * X3 g == sumf (fun t => tet_volume t * tet_center X3 t) ts /\
  v * Y3 g == sumf (fun t => tet_volume t * tet_center Y3 t) ts /\
  v * Z3 g == sumf (fun t => tet_volume t * tet_center Z3 t) ts.
Proof.
  intros m ci sides g v o S C E ts. destruct (volume_apex _ _ _ _ _ o S C E) as [A B]. unfold ts. rewrite !sumf_map.
  assert (H0 : sumf (fun t => tet_volume (let '(a, b, c) := t in (o, a, b, c))) (surface sides) == (1 # 6) * sumf (phi o) (surface sides)).
  { rewrite <- sumf_scale. apply sumf_ext. intros [[a b] c] _. unfold tet_volume, phi, Qdiv. change (/ 6) with (1 # 6). ring. }
  assert (H1 : forall u, sumf (fun t => tet_volume (let '(a, b, c) := t in (o, a, b, c)) * tet_center u (let '(a, b, c) := t in (o, a, b, c))) (surface sides) == (1 # 24) * sumf (mom u o) (surface sides)).
  { intros u. rewrite <- sumf_scale. apply sumf_ext. intros [[a b] c] _. unfold tet_volume, tet_center, mom, Qdiv. change (/ 6) with (1 # 6). change (/ 4) with (1 # 4). ring. }
  rewrite H0, !H1. pose proof (B X3 (or_introl eq_refl)). pose proof (B Y3 (or_intror (or_introl eq_refl))). pose proof (B Z3 (or_intror (or_intror eq_refl))).
  repeat split; lra.
Qed.
Print Assumptions volume_from_any_point.
(* A cell seen from a point on the inner side of its whole surface has positive volume. *)
Theorem volume_positive : forall m ci sides g v o, CellSides m ci sides -> SameEdges (flat_map (fun s => ring (fst s)) sides) [] ->
  cell_volume m ci = Ok (g, v) -> (forall a b c, In (a, b, c) (surface sides) -> 0 < vol6 o a b c) -> 0 < v.
Proof.
  intros m ci sides g v o S C E P. destruct (volume_from_any_point m ci sides g v o S C E) as (V & X & _). cbn zeta in V. rewrite sumf_map in V.
  assert (Pt : forall t, In t (surface sides) -> 0 < tet_volume (let '(a, b, c) := t in (o, a, b, c))).
  { intros [[a b] c] I. unfold tet_volume, Qdiv. change (/ 6) with (1 # 6). pose proof (P _ _ _ I). lra. }
  destruct (surface sides) as [|t ts] eqn:Es.
  - exfalso. unfold cell_volume in E. destruct (ci <? length (cells m))%nat; [|discriminate]. cbn [assert bind] in E.
    destruct (get (cells m) ci) as [c| | |]; try discriminate. cbn [bind] in E. destruct (cell_centroid 3 m ci) as [cm| | |]; try discriminate. cbn [bind] in E.
    destruct (mfold _ c (0, 0, 0, 0)) as [[s w]| | |]; try discriminate. cbn [bind] in E. destruct (Qeq_bool w 0) eqn:W; try discriminate. cbn [negb assert bind] in E.
    injection E as _ Ev. apply Qeq_bool_neq in W. apply W. rewrite sumf_nil in V. rewrite <- Ev in V. unfold Qdiv in V. change (/ 6) with (1 # 6) in V. lra.
  - rewrite V. apply (sumf_pos _ _ t); [|left; auto|apply Pt; left; auto]. intros x I. pose proof (Pt x I). lra.
Qed.
Print Assumptions volume_positive.

(* ---- the plain centroid of a cell is the mean of its distinct nodes ---- *)
Theorem cell_centroid_is_mean : forall D m ci g, cell_centroid D m ci = Ok g ->
  exists c u, nth_error (cells m) ci = Some c /\ NodeMean D m c u g /\
    forall j lo hi, (j < D)%nat -> (forall n, In n u -> lo <= nth (D * n + j) (nodes m) 0 <= hi) -> lo <= nth j g 0 <= hi.
Proof. intros D m ci g E. destruct (cell_centroid_ok _ _ _ _ E) as (c & u & C & M). exists c, u. split; auto. split; auto. intros j lo hi. apply (mean_bounds _ _ _ _ _ _ _ _ M). Qed.
Print Assumptions cell_centroid_is_mean.

(* ---- C56: circumcenters ---- *)
(* Both planar routines return the one point equally far from three corners. *)
Theorem circumcenter_equidistant : forall A B C X, ~ orient A B C == 0 -> X = circumcenter A B C \/ X = circumcenter2d A B C ->
  d2 X A == d2 X B /\ d2 X A == d2 X C.
Proof.
  intros A B C X N [-> | ->]; [|apply circ2_ok; auto].
  destruct (circ2_agree A B C) as [E1 E2]. destruct (circ2_ok A B C N) as [H1 H2]. unfold d2 in *. rewrite E1, E2. auto.
Qed.
Print Assumptions circumcenter_equidistant.
Theorem circumcenter_unique : forall A B C X P, ~ orient A B C == 0 -> X = circumcenter A B C \/ X = circumcenter2d A B C ->
  d2 P A == d2 P B -> d2 P A == d2 P C -> fst P == fst X /\ snd P == snd X.
Proof. intros A B C X P N E H1 H2. destruct (circumcenter_equidistant A B C X N E). apply (circ2_unique A B C); auto. Qed.
Print Assumptions circumcenter_unique.
(* In space: defined for every tetrahedron that is not flat, and equally far from its corners. *)
Theorem circumcenter3d_equidistant : forall A B C D, ~ vol6 A B C D == 0 ->
  exists X, circumcenter3d A B C D = Ok X /\ d3 X A == d3 X B /\ d3 X A == d3 X C /\ d3 X A == d3 X D.
Proof. exact circ3_ok. Qed.
Print Assumptions circumcenter3d_equidistant.
Theorem circumcenter3d_flat : forall A B C D X, circumcenter3d A B C D = Ok X -> ~ vol6 A B C D == 0.
Proof.
  intros [[ax ay] az] [[bx by_] bz] [[cx cy] cz] [[dx dy] dz] X. unfold circumcenter3d, vol6, det3, sub3, dot3, cross3. cbn [X3 Y3 Z3].
  match goal with |- context [Qeq_bool ?e 0] => destruct (Qeq_bool e 0) eqn:Q end; [discriminate|]. intros _ Z. apply Qeq_bool_neq in Q. apply Q. 
  match type of Z with ?v == 0 => transitivity (2 * v) end; [ring|rewrite Z; ring].
Qed.
Print Assumptions circumcenter3d_flat.
(* A triangle in space: refused only when its corners are nearly on a line; otherwise the
   point is equally far from the corners and in their plane, and the check before the
   division never fails. *)
Theorem triangle_circumcenter_equidistant : forall A B C,
  (col3 A B C = true /\ triangle_circumcenter3d A B C = Ok None) \/
  (col3 A B C = false /\ exists X, triangle_circumcenter3d A B C = Ok (Some X) /\ d3 X A == d3 X B /\ d3 X A == d3 X C /\ vol6 X A B C == 0).
Proof. intros A B C. destruct (col3 A B C) eqn:E; [left|right]; split; auto; [unfold triangle_circumcenter3d; rewrite E; auto|apply circt_ok; auto]. Qed.
Print Assumptions triangle_circumcenter_equidistant.

(* ---- concrete cells ---- *)
(* an L-shaped cell whose last edge is walked backwards *)
Definition ell : mesh Q := mkMesh [0; 0; 2; 0; 2; 1; 1; 1; 1; 3; 0; 3] [[0; 1; 2; 3; 4; -6]%Z] [[0; 1]; [1; 2]; [2; 3]; [3; 4]; [4; 5]; [0; 5]]%nat
  [] [] [[0]; [0]; [0]; [0]; [0]; [0]]%Z (mkPLC [] []) [] [] [].
Definition ell_corners : list p2 := [(0, 0); (2, 0); (2, 1); (1, 1); (1, 3); (0, 3)].
Example ell_edges : CellEdges ell 0 (ring ell_corners).
Proof. eexists. split; [reflexivity|]. cbn. repeat (constructor; [do 2 eexists; repeat split; reflexivity || discriminate|]). constructor. Qed.
Example ell_cut : SameEdges (flat_map tri_edges (fan (0, 0) [(2, 0); (2, 1); (1, 1); (1, 3); (0, 3)])) (ring ell_corners).
Proof. apply fan_cuts_polygon. cbn. lia. Qed.
Example ell_area : exists g a, cell_area ell 0 (1 # 100) = Ok (g, a) /\ a == 4 /\ fst g == 3 # 4 /\ snd g == 5 # 4.
Proof. eexists _, _. split; [vm_compute; reflexivity|]. repeat split; reflexivity. Qed.
Definition pentagon : list p2 := [(0, 0); (2, 0); (3, 2); (1, 3); (-(1), 2)].
Definition penta : mesh Q := mkMesh [0; 0; 2; 0; 3; 2; 1; 3; -(1); 2] [[0; 1; 2; 3; 4]%Z] [[0; 1]; [1; 2]; [2; 3]; [3; 4]; [4; 0]]%nat
  [] [] [[0]; [0]; [0]; [0]; [0]]%Z (mkPLC [] []) [] [] [].
Example penta_convex : CellEdges penta 0 (ring pentagon) /\ StrictlyConvex pentagon /\ exists g a, cell_area penta 0 (1 # 100) = Ok (g, a) /\ a == 8.
Proof.
  split; [|split].
  - eexists. split; [reflexivity|]. cbn. repeat (constructor; [do 2 eexists; repeat split; reflexivity || discriminate|]). constructor.
  - intros i j k a b c H A B C. assert (k < 5)%nat by (apply nth_error_lt in C; exact C).
    do 5 (destruct i as [|i]; [do 5 (destruct j as [|j]; [do 5 (destruct k as [|k]; [try (exfalso; lia); injection A as <-; injection B as <-; injection C as <-; reflexivity|]); exfalso; lia|]); exfalso; lia|]). exfalso. lia.
  - eexists _, _. split; [vm_compute; reflexivity|reflexivity].
Qed.
(* the unit cube; faces 0, 2 and 4 are listed inward *)
Definition cube : mesh Q := mkMesh
  [0; 0; 0; 1; 0; 0; 1; 1; 0; 0; 1; 0; 0; 0; 1; 1; 0; 1; 1; 1; 1; 0; 1; 1] [[-1; 1; -3; 3; -5; 5]%Z]
  [[0; 1; 2; 3]; [4; 5; 6; 7]; [0; 4; 5; 1]; [2; 3; 7; 6]; [0; 3; 7; 4]; [1; 2; 6; 5]]%nat
  [] [] [[-1]; [0]; [-1]; [0]; [-1]; [0]]%Z (mkPLC [] []) [] [] [].
Definition cp (n : nat) : p3 := (nth (3 * n) (nodes cube) 0, nth (3 * n + 1) (nodes cube) 0, nth (3 * n + 2) (nodes cube) 0).
Definition cube_sides : list (list p3 * p3) :=
  [(map cp [3; 2; 1; 0]%nat, (1 # 2, 1 # 2, 0)); (map cp [4; 5; 6; 7]%nat, (1 # 2, 1 # 2, 1)); (map cp [1; 5; 4; 0]%nat, (1 # 2, 0, 1 # 2));
   (map cp [2; 3; 7; 6]%nat, (1 # 2, 1, 1 # 2)); (map cp [4; 7; 3; 0]%nat, (0, 1 # 2, 1 # 2)); (map cp [1; 2; 6; 5]%nat, (1, 1 # 2, 1 # 2))].
Example cube_volume : CellSides cube 0 cube_sides /\ exists g v, cell_volume cube 0 = Ok (g, v) /\ v == 1 /\ X3 g == 1 # 2 /\ Y3 g == 1 # 2 /\ Z3 g == 1 # 2.
Proof.
  split.
  - eexists. split; [reflexivity|]. unfold cube_sides.
    repeat (constructor; [eexists; split; [reflexivity|split; [cbn; repeat (constructor; [split; [reflexivity|split; reflexivity]|]); constructor|split; [discriminate|repeat split; reflexivity]]]|]). constructor.
  - eexists _, _. split; [vm_compute; reflexivity|]. repeat split; reflexivity.
Qed.
Lemma se_pair {A} (a b : A) l1 l2 : SameEdges (l1 ++ l2) [] -> SameEdges ((a, b) :: l1 ++ (b, a) :: l2) [].
Proof. intros H. eapply se_trans; [apply se_perm; constructor; symmetry; apply Permutation_middle|]. eapply se_trans; [apply se_cancel|exact H]. Qed.
Example cube_closed : SameEdges (flat_map (fun s => ring (fst s)) cube_sides) [].
Proof.
  Ltac pair_at k := match goal with |- SameEdges ((?a, ?b) :: ?r) [] =>
    refine (se_pair a b (firstn k r) (skipn (S k) r) _); cbn [firstn skipn app] end.
  cbn.
  do 12 (first [pair_at 0%nat | pair_at 1%nat | pair_at 2%nat | pair_at 3%nat | pair_at 4%nat | pair_at 5%nat | pair_at 6%nat | pair_at 7%nat | pair_at 8%nat | pair_at 9%nat
    | pair_at 10%nat | pair_at 11%nat | pair_at 12%nat | pair_at 13%nat | pair_at 14%nat | pair_at 15%nat | pair_at 16%nat | pair_at 17%nat | pair_at 18%nat | pair_at 19%nat | pair_at 20%nat | pair_at 21%nat | pair_at 22%nat]).
  constructor. constructor.
Qed.
Example circumcenter_example : ~ orient (0, 0) (4, 0) (0, 2) == 0 /\ circumcenter (0, 0) (4, 0) (0, 2) = (32 # 16, 16 # 16).
Proof. split; [discriminate|reflexivity]. Qed.
Example circumcenter3d_example : ~ vol6 (0, 0, 0) (2, 0, 0) (0, 2, 0) (0, 0, 2) == 0 /\ exists X, circumcenter3d (0, 0, 0) (2, 0, 0) (0, 2, 0) (0, 0, 2) = Ok X /\ X3 X == 1.
Proof. split; [discriminate|]. eexists. split; reflexivity. Qed.
Example triangle_example : col3 (0, 0, 0) (2, 0, 0) (0, 0, 2) = false /\ col3 (0, 0, 0) (1, 1, 1) (2, 2, 2) = true.
Proof. split; reflexivity. Qed.
