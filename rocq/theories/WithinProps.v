(* C34: point in polygon; C35: convex polygons that share a point; C36: one convex polygon
   strictly inside another; C57: the same two tests in space; C58: points in complexes. *)
From Verif Require Import Base BaseFacts SerializeModel PLCSpec Plane PlaneFacts AreaModel AreaProofs MeshEditorModel WithinModel WithinSpec WithinProofs WithinProofs2 WithinProofs3 WithinProofs4 WithinProofs5.
From Coq Require Import QArith Qabs Lqa Permutation.
Local Open Scope Q_scope.

(* ---- C34 ---- *)
Theorem pip_counts_crossings : forall vs base ps p, StoredAt vs base ps ->
  exists b, pointInPolygon p (length ps) vs base = Ok b /\ EvenOdd p (ring ps) b.
Proof. intros vs base ps p S. exists (xp p (ring ps)). split; [apply pip_ok; auto|apply even_odd_iff; auto]. Qed.
Print Assumptions pip_counts_crossings.
(* the count is a function of the point and the edges *)
Theorem even_odd_unique : forall p es b b', EvenOdd p es b -> EvenOdd p es b' -> b = b'.
Proof. intros p es b b' H H'. apply even_odd_iff in H, H'. congruence. Qed.
Print Assumptions even_odd_unique.

Lemma ring_is_chain {A} (a : A) t : ring (a :: t) = chain a (t ++ [a]).
Proof. cbn [ring]. apply combine_chain. Qed.
Lemma ring_rotate1 {A} (a : A) t : Permutation (ring (a :: t)) (ring (t ++ [a])).
Proof.
  destruct t as [|b t]; [apply Permutation_refl|]. cbn [app]. rewrite !ring_is_chain. cbn [app chain]. rewrite (chain_last b (t ++ [a]) b).
  replace (last (b :: t ++ [a]) b) with a by (change (b :: t ++ [a]) with ((b :: t) ++ [a]); rewrite last_last; auto). apply Permutation_cons_append.
Qed.
Lemma ring_rotate {A} (l1 l2 : list A) : Permutation (ring (l1 ++ l2)) (ring (l2 ++ l1)).
Proof.
  revert l2. induction l1 as [|a l1 IH]; intros l2; [rewrite app_nil_r; apply Permutation_refl|].
  cbn [app]. eapply perm_trans; [apply ring_rotate1|]. rewrite <- app_assoc. eapply perm_trans; [apply IH|]. rewrite <- app_assoc. apply Permutation_refl.
Qed.
Lemma chain_flip {A} (l : list A) a b : Permutation (map flip (chain a (l ++ [b]))) (chain b (rev l ++ [a])).
Proof.
  revert a. induction l as [|c l IH]; intros a; [apply Permutation_refl|]. cbn [app chain map rev]. rewrite (chain_last b (rev l ++ [c]) a).
  replace (last (b :: rev l ++ [c]) b) with c by (change (b :: rev l ++ [c]) with ((b :: rev l) ++ [c]); rewrite last_last; auto).
  eapply perm_trans; [|apply Permutation_cons_append]. apply perm_skip. apply IH.
Qed.
Lemma ring_reverse {A} (l : list A) : Permutation (map flip (ring l)) (ring (rev l)).
Proof.
  destruct l as [|a t]; [apply Permutation_refl|]. cbn [rev]. eapply perm_trans; [|apply ring_rotate1]. rewrite !ring_is_chain. apply chain_flip.
Qed.
(* the starting vertex and the direction do not matter *)
Theorem pip_start_and_direction : forall vs vs' base base' ps ps' p l1 l2, StoredAt vs base ps -> StoredAt vs' base' ps' ->
  ps = l1 ++ l2 -> (ps' = l2 ++ l1 \/ ps' = rev (l2 ++ l1)) ->
  pointInPolygon p (length ps) vs base = pointInPolygon p (length ps') vs' base'.
Proof.
  intros vs vs' base base' ps ps' p l1 l2 S S' E E'. rewrite (pip_ok _ _ _ _ S), (pip_ok _ _ _ _ S'). f_equal.
  assert (R : xp p (ring ps) = xp p (ring (l2 ++ l1))) by (subst ps; apply xp_perm, ring_rotate).
  destruct E' as [->| ->]; [exact R|]. rewrite R, <- (xp_flip p (ring (l2 ++ l1))). apply xp_perm, ring_reverse.
Qed.
Print Assumptions pip_start_and_direction.
(* convex counter-clockwise polygons: inside is on the left of all edges.  A point on the border
   is judged as if moved a little to the right and, less, up *)
Theorem pip_convex : forall vs base ps p, StoredAt vs base ps -> StrictlyConvex ps -> (3 <= length ps)%nat ->
  exists b, pointInPolygon p (length ps) vs base = Ok b /\
    (StrictlyInside p ps -> b = true) /\ (StrictlyOutside p ps -> b = false) /\
    ForSmall (fun eps => b = true <-> StrictlyInside (nudge p eps) ps).
Proof.
  intros vs base ps p S V L. exists (xp p (ring ps)). split; [apply pip_ok; auto|]. split; [apply convex_inside; auto|]. split; [apply convex_outside; auto|apply convex_exact; auto].
Qed.
Print Assumptions pip_convex.
(* any polygon at all, cut into triangles in any way: the answer is whether the point is in an
   odd number of them *)
Theorem pip_triangles : forall vs base ps p ts, StoredAt vs base ps -> SameEdges (flat_map tri_edges ts) (ring ps) ->
  (forall a b c, In (a, b, c) ts -> ~ orient a b c == 0) ->
  exists b, pointInPolygon p (length ps) vs base = Ok b /\
    ForSmall (fun eps => exists cs, Forall2 (fun t c => c = true <-> InTriangle (nudge p eps) t) ts cs /\ b = Nat.odd (length (filter (fun c => c) cs))) /\
    ((forall t, In t ts -> OffTriangle p t) -> b = false) /\
    (forall l1 t l2, ts = l1 ++ t :: l2 -> InTriangle p t -> (forall s, In s (l1 ++ l2) -> OffTriangle p s) -> b = true).
Proof.
  intros vs base ps p ts S Se N. exists (xp p (ring ps)). split; [apply pip_ok; auto|].
  assert (N' : forall t, In t ts -> ~ tor t == 0) by (intros [[a b] c] I; exact (N a b c I)).
  split; [apply tri_exact; auto|]. split; [apply tri_none; auto|]. intros l1 t l2 ->. apply tri_one; auto.
Qed.
Print Assumptions pip_triangles.
(* pointOnPolygon says yes on the border, and only near it *)
Theorem pop_border : forall vs base ps p, StoredAt vs base ps ->
  exists b, pointOnPolygon p (length ps) vs base = Ok b /\ (OnBorder p ps -> b = true) /\ (b = true -> NearBorder p ps).
Proof.
  intros vs base ps p S. eexists. split; [apply pop_ok; eauto|]. split.
  - intros (a & b & t & I & T & X & Y). apply existsb_exists. exists (a, b). split; auto. eapply on_edge_exact; eauto.
  - intros E. apply existsb_exists in E as ([a b] & I & E). exists a, b. split; auto. apply on_edge_near. auto.
Qed.
Print Assumptions pop_border.

(* an L-shaped hexagon, cut into four triangles *)
Definition ell : list p2 := [(0, 0); (2, 0); (2, 1); (1, 1); (1, 2); (0, 2)].
Definition ell_ts : list (p2 * p2 * p2) := fan (0, 0) (tl ell).
Example ell_stored : StoredAt [9; 9; 0; 0; 2; 0; 2; 1; 1; 1; 1; 2; 0; 2] 1 ell /\ SameEdges (flat_map tri_edges ell_ts) (ring ell) /\
  pointInPolygon (1 # 2, 3 # 2) 6 [9; 9; 0; 0; 2; 0; 2; 1; 1; 1; 1; 2; 0; 2] 1 = Ok true /\
  pointInPolygon (3 # 2, 3 # 2) 6 [9; 9; 0; 0; 2; 0; 2; 1; 1; 1; 1; 2; 0; 2] 1 = Ok false.
Proof.
  split; [|split; [apply ring_fan; cbn; lia|split; vm_compute; reflexivity]].
  intros i p H. do 6 (destruct i as [|i]; [injection H as <-; split; reflexivity|]). destruct i; discriminate.
Qed.
Example ell_not_flat : forall a b c, In (a, b, c) ell_ts -> ~ orient a b c == 0.
Proof. intros a b c [[= <- <- <-]|[[= <- <- <-]|[[= <- <- <-]|[[= <- <- <-]|[]]]]]; intros E; vm_compute in E; discriminate. Qed.
(* a kite whose fan triangles are all proper *)
Definition kite : list p2 := [(0, 0); (2, -(1)); (4, 0); (2, 3)].
Example kite_convex : StrictlyConvex kite /\ StoredAt [0; 0; 2; -(1); 4; 0; 2; 3] 0 kite /\ StrictlyInside (2, 1) kite /\ StrictlyOutside (0, 3) kite /\ OnBorder (1, 3 # 2) kite /\
  (forall a b c, In (a, b, c) (fan (0, 0) (tl kite)) -> ~ orient a b c == 0).
Proof.
  split; [|split; [|split; [|split; [|split]]]].
  - intros i j k a b c H A B C. assert (k < 4)%nat by (apply nth_error_lt in C; exact C).
    do 4 (destruct i as [|i]; [do 4 (destruct j as [|j]; [do 4 (destruct k as [|k]; [try (exfalso; lia); injection A as <-; injection B as <-; injection C as <-; reflexivity|]); exfalso; lia|]); exfalso; lia|]). exfalso. lia.
  - intros i p H. do 4 (destruct i as [|i]; [injection H as <-; split; reflexivity|]). destruct i; discriminate.
  - intros a b [[= <- <-]|[[= <- <-]|[[= <- <-]|[[= <- <-]|[]]]]]; reflexivity.
  - exists (2, 3), (0, 0). split; [cbn; auto|reflexivity].
  - exists (2, 3), (0, 0), (1 # 2). split; [cbn; auto 10|]. split; [split; vm_compute; discriminate|]. split; reflexivity.
  - intros a b c [[= <- <- <-]|[[= <- <- <-]|[]]]; intros E; vm_compute in E; discriminate.
Qed.

(* ---- C58: within(point, vertices, PLC) ---- *)
Theorem within_complex_partial : forall p vs g ps hs, Consecutive vs (facets g) ps -> ps <> [] ->
  Forall2 (fun h q => Consecutive vs h q /\ q <> []) (holes g) hs ->
  exists b, within p vs g = Ok b /\
    ((OnBorder p ps \/ EvenOdd p (ring ps) true) -> (forall q, In q hs -> OnBorder p q \/ EvenOdd p (ring q) false) -> b = true) /\
    (~ NearBorder p ps -> EvenOdd p (ring ps) false -> b = false) /\
    (forall q, In q hs -> ~ NearBorder p q -> EvenOdd p (ring q) true -> b = false).
Proof.
  intros p vs g ps hs C N H. unfold within. rewrite (wb_ok _ _ _ _ C N). cbn [bind].
  set (on := fun q => existsb (fun e => on_edge p (fst e) (snd e)) (ring q)).
  assert (On : forall q, OnBorder p q -> on q = true).
  { intros q (a & b & t & I & T & X & Y). apply existsb_exists. exists (a, b). split; auto. eapply on_edge_exact; eauto. }
  assert (Off : forall q, ~ NearBorder p q -> on q = false).
  { intros q Nb. destruct (on q) eqn:E; auto. exfalso. apply Nb. apply existsb_exists in E as ([a b] & I & E). exists a, b. split; auto. apply on_edge_near. auto. }
  assert (G : forall h0, mfold (hole_step p vs) (holes g) h0 = Ok (h0 || existsb (fun q => negb (on q) && xp p (ring q)) hs)).
  { clear C N. induction H as [|h q hl hs [Ch Nh] H IH]; intros h0; [cbn; rewrite orb_false_r; auto|]. cbn [mfold]. unfold hole_step at 1. destruct h0; cbn [bind].
    - rewrite IH. reflexivity.
    - rewrite (wb_ok _ _ _ _ Ch Nh). cbn [bind]. rewrite IH. fold (on q). cbn [existsb orb]. destruct (on q), (xp p (ring q)); reflexivity. }
  rewrite G. cbn [bind orb]. fold (on ps). eexists. split; [reflexivity|]. split; [|split].
  - intros O Hh. apply andb_true_iff. split.
    + destruct O as [O|O]; [rewrite (On _ O); reflexivity|]. apply even_odd_iff in O. rewrite <- O. destruct (on ps); reflexivity.
    + apply negb_true_iff. destruct (existsb _ hs) eqn:E; auto. exfalso. apply existsb_exists in E as (q & I & E). apply andb_true_iff in E as [E1 E2]. apply negb_true_iff in E1.
      destruct (Hh q I) as [K|K]; [rewrite (On _ K) in E1; discriminate|]. apply even_odd_iff in K. congruence.
  - intros Nb Eo. apply even_odd_iff in Eo. rewrite (Off _ Nb), <- Eo. reflexivity.
  - intros q I Nb Eo. apply even_odd_iff in Eo. apply andb_false_iff. right. apply negb_false_iff. apply existsb_exists. exists q. split; auto. rewrite (Off _ Nb), <- Eo. reflexivity.
Qed.
Print Assumptions within_complex_partial.
(* a square with a square hole, and points inside, in the hole, outside *)
Example within_square_hole :
  let vs := [0; 0; 4; 0; 4; 4; 0; 4; 1; 1; 1; 3; 3; 3; 3; 1] in
  let g := mkPLC [[0; 1]; [1; 2]; [2; 3]; [3; 0]]%Z [[[4; 5]; [5; 6]; [6; 7]; [7; 4]]]%Z in
  Consecutive vs (facets g) [(0, 0); (4, 0); (4, 4); (0, 4)] /\ Forall2 (Consecutive vs) (holes g) [[(1, 1); (1, 3); (3, 3); (3, 1)]] /\
  within (1 # 2, 1 # 2) vs g = Ok true /\ within (2, 2) vs g = Ok false /\ within (5, 2) vs g = Ok false /\ within (1, 2) vs g = Ok true.
Proof.
  cbv zeta. split; [|split; [constructor; [|constructor]|vm_compute; auto]].
  - exists 0%nat. split; [|split; [reflexivity|]].
    + intros i p H. do 4 (destruct i as [|i]; [injection H as <-; split; reflexivity|]). destruct i; discriminate.
    + intros k f H. do 4 (destruct k as [|k]; [injection H as <-; reflexivity|]). destruct k; discriminate.
  - exists 4%nat. split; [|split; [reflexivity|]].
    + intros i p H. do 4 (destruct i as [|i]; [injection H as <-; split; reflexivity|]). destruct i; discriminate.
    + intros k f H. do 4 (destruct k as [|k]; [injection H as <-; reflexivity|]). destruct k; discriminate.
Qed.
(* The facet indices are not used: a square whose corners are stored in another order than the
   facets visit them is taken for the bow tie of the stored order. *)
Theorem within_indices_refuted :
  let vs := [0; 0; 4; 4; 4; 0; 0; 4] in
  let g := mkPLC [[0; 2]; [2; 1]; [1; 3]; [3; 0]]%Z [] in
  let ps := [(0, 0); (4, 0); (4, 4); (0, 4)] in
  Forall2 (fun f e => exists i j, f = [i; j] /\ pt_at vs i (fst e) /\ pt_at vs j (snd e)) (facets g) (ring ps) /\
  StrictlyInside (2, 1) ps /\ EvenOdd (2, 1) (ring ps) true /\ within (2, 1) vs g = Ok false.
Proof.
  cbv zeta. split; [|split; [|split]].
  - repeat constructor; eexists _, _; (split; [reflexivity|]); split; (split; [lia|split; reflexivity]).
  - intros a b [[= <- <-]|[[= <- <-]|[[= <- <-]|[[= <- <-]|[]]]]]; reflexivity.
  - apply even_odd_iff. vm_compute. reflexivity.
  - vm_compute. reflexivity.
Qed.
Print Assumptions within_indices_refuted.

(* ---- C36 ---- *)
Theorem convex_within : forall a b qs ps, rpoints a = flat_map (fun q => [fst q; snd q]) qs -> qs <> [] -> HoldsPolygon b ps ->
  exists r, convexWithin a b = Ok r /\
    (r = true <-> forall q, In q qs -> StrictlyInside q ps) /\
    (r = true <-> forall x, Combination qs x -> StrictlyInside x ps).
Proof.
  intros a b qs ps A N (_ & es & Pe & F). destruct (within_ok a b es qs F A N) as (r & E & H). exists r. split; auto.
  assert (H1 : r = true <-> forall q, In q qs -> StrictlyInside q ps).
  { rewrite H. split; intros K.
    - intros q Q' u v I. apply (K (u, v) q); auto. eapply Permutation_in; [symmetry; exact Pe|auto].
    - intros [u v] q I Q'. apply (K q Q'). eapply Permutation_in; eauto. }
  split; auto. rewrite H1. split; intros K.
  - intros x C u v I. rewrite <- val_edge. apply (combination_gt _ qs x C). intros q Q'. rewrite val_edge. apply K; auto.
  - intros q Q'. apply K. apply comb_corner. auto.
Qed.
Print Assumptions convex_within.
Definition sq_rplc (x0 y0 d : Q) : rplc Q := mkRPLC [[2; 1]; [0; 2]; [1; 3]; [3; 0]]%Z [] [x0; y0; x0 + d; y0 + d; x0 + d; y0; x0; y0 + d].
Definition sq_pts (x0 y0 d : Q) : list p2 := [(x0, y0); (x0 + d, y0); (x0 + d, y0 + d); (x0, y0 + d)].
Lemma sq_holds x0 y0 d : HoldsPolygon (sq_rplc x0 y0 d) (sq_pts x0 y0 d).
Proof.
  split.
  - exists [(x0, y0); (x0 + d, y0 + d); (x0 + d, y0); (x0, y0 + d)]. split; [|reflexivity]. apply perm_skip. apply perm_swap.
  - exists [((x0 + d, y0), (x0 + d, y0 + d)); ((x0, y0), (x0 + d, y0)); ((x0 + d, y0 + d), (x0, y0 + d)); ((x0, y0 + d), (x0, y0))]. split; [apply perm_swap|].
    repeat constructor; eexists _, _; (split; [reflexivity|]); split; (split; [lia|split; reflexivity]).
Qed.
Lemma sq_convex x0 y0 d : 0 < d -> StrictlyConvex (sq_pts x0 y0 d).
Proof.
  intros D. intros i j k a b c H A B C. assert (k < 4)%nat by (apply nth_error_lt in C; exact C).
    do 4 (destruct i as [|i]; [do 4 (destruct j as [|j]; [do 4 (destruct k as [|k]; [try (exfalso; lia); injection A as <-; injection B as <-; injection C as <-; unfold orient; cbn [fst snd]; nra|]); exfalso; lia|]); exfalso; lia|]). exfalso. lia.
Qed.
Example convex_within_squares : convexWithin (sq_rplc 1 1 1) (sq_rplc 0 0 3) = Ok true /\ convexWithin (sq_rplc 1 1 2) (sq_rplc 0 0 3) = Ok false /\ convexWithin (sq_rplc 0 0 3) (sq_rplc 1 1 1) = Ok false.
Proof. vm_compute. auto. Qed.

(* ---- C35 ---- *)
Theorem convex_intersect : forall a b ps qs, HoldsPolygon a ps -> HoldsPolygon b qs ->
  StrictlyConvex ps -> StrictlyConvex qs -> (3 <= length ps)%nat -> (3 <= length qs)%nat ->
  exists r, convexIntersect a b = Ok r /\ (r = true <-> exists x, InPolygon x ps /\ InPolygon x qs).
Proof. intros. apply intersect_ok; auto. Qed.
Print Assumptions convex_intersect.
Theorem convex_intersect_symmetric : forall a b ps qs, HoldsPolygon a ps -> HoldsPolygon b qs ->
  StrictlyConvex ps -> StrictlyConvex qs -> (3 <= length ps)%nat -> (3 <= length qs)%nat ->
  convexIntersect a b = convexIntersect b a.
Proof.
  intros a b ps qs A B Va Vb La Lb. destruct (intersect_ok a b ps qs) as (r & E & H); auto. destruct (intersect_ok b a qs ps) as (r' & E' & H'); auto.
  rewrite E, E'. f_equal. destruct r, r'; auto; exfalso.
  - destruct (proj1 H eq_refl) as (x & X & Y). assert (false = true) by (apply H'; exists x; auto). discriminate.
  - destruct (proj1 H' eq_refl) as (x & X & Y). assert (false = true) by (apply H; exists x; auto). discriminate.
Qed.
Print Assumptions convex_intersect_symmetric.
(* the closed polygon is the set of the convex combinations of its corners *)
Theorem polygon_is_hull : forall ps x, StrictlyConvex ps -> (3 <= length ps)%nat -> (InPolygon x ps <-> Combination ps x).
Proof. intros ps x V L. split; [apply polygon_comb; auto|apply comb_polygon; auto]. Qed.
Print Assumptions polygon_is_hull.
(* overlapping without a corner inside the other; touching at a corner; apart *)
Example convex_intersect_cases :
  convexIntersect (sq_rplc 0 0 3) (sq_rplc 1 1 1) = Ok true /\ convexIntersect (sq_rplc 0 0 3) (sq_rplc 3 3 1) = Ok true /\ convexIntersect (sq_rplc 0 0 3) (sq_rplc 3 (301 # 100) 1) = Ok false /\
  HoldsPolygon (sq_rplc 0 0 3) (sq_pts 0 0 3) /\ StrictlyConvex (sq_pts 0 0 3) /\ (3 <= length (sq_pts 0 0 3))%nat.
Proof. split; [vm_compute; auto|]. split; [vm_compute; auto|]. split; [vm_compute; auto|]. split; [apply sq_holds|]. split; [apply sq_convex; reflexivity|cbn; lia]. Qed.

(* ---- C57: in space ---- *)
Theorem convex_within3_partial : forall a b vs us ts, rpoints a = flat_map (fun v => [X3 v; Y3 v; Z3 v]) vs -> vs <> [] -> HoldsSolid b us ts ->
  (forall t, In t ts -> HarmlessNormal t) ->
  exists r, convexWithin3 a b = Ok r /\ (r = true <-> forall x t, Combination3 vs x -> In t ts -> beyond t x < 0).
Proof.
  intros a b vs us ts A N B H. destruct (within3_ok a b vs us ts A N B H) as (r & E & K). exists r. split; auto. rewrite K. split.
  - intros G x t C T. assert (P : forall u v w z, vol6 v u w z == - vol6 u v w z) by (intros [[? ?] ?] [[? ?] ?] [[? ?] ?] [[? ?] ?]; unfold vol6, det3, sub3; ring).
    assert (0 < val3 (plane_of (snd (fst t), fst (fst t), snd t)) x).
    { apply (comb3_gt _ vs x C). intros v V. rewrite val_plane. unfold beyond. cbn [fst snd]. rewrite P. pose proof (G t v T V). unfold beyond in *. lra. }
    rewrite val_plane in H0. unfold beyond in *. cbn [fst snd] in H0. rewrite P in H0. lra.
  - intros G t v T V. apply G; auto. apply in_split in V as (l1 & l2 & ->).
    exists (repeat 0 (length l1) ++ 1 :: repeat 0 (length l2)). rewrite !app_length. cbn [length]. rewrite !repeat_length. split; [auto|]. split; [|split].
    + intros w W. apply in_app_or in W as [W|[<-|W]]; [apply repeat_spec in W; subst; lra|lra|apply repeat_spec in W; subst; lra].
    + assert (Z : forall n, sumf (fun w => w) (repeat 0 n) == 0) by (induction n; cbn [repeat]; [reflexivity|rewrite sumf_cons, IHn; ring]). rewrite sumf_app, sumf_cons, !Z. ring.
    + assert (C : forall (l l' : list Q) (k k' : list p3), length l = length k -> combine (l ++ l') (k ++ k') = combine l k ++ combine l' k').
      { clear. induction l as [|w ws IH]; intros l' [|p ps] k' L; try discriminate; auto. cbn. f_equal. apply IH. cbn in L. lia. }
      assert (Z : forall (f : p3 -> Q) l, sumf (fun e => fst e * f (snd e)) (combine (repeat 0 (length l)) l) == 0).
      { clear. intros f l. induction l as [|p l IH]; [reflexivity|]. cbn [length repeat combine]. rewrite sumf_cons, IH. cbn [fst]. ring. }
      rewrite C by (rewrite repeat_length; auto). cbn [combine]. rewrite !sumf_app, !sumf_cons, !(Z X3), !(Z Y3), !(Z Z3). cbn [fst snd]. split; [|split]; ring.
Qed.
Print Assumptions convex_within3_partial.
Theorem convex_intersect3_partial : forall a b vs us ts ss, HoldsSolid a vs ts -> HoldsSolid b us ss -> vs <> [] -> us <> [] ->
  Supporting vs ts -> Supporting us ss -> (forall t, In t ts \/ In t ss -> HarmlessNormal t) ->
  convexIntersect3 a b = Ok false -> forall x, Combination3 vs x -> Combination3 us x -> False.
Proof.
  intros a b vs us ts ss A B Nv Nu Sa Sb H E x Cv Cu.
  destruct (excludes3_ok a b us vs ts A (proj1 B) Nu) as (o & O & Ho); [auto|]. destruct (excludes3_ok b a vs us ss B (proj1 A) Nv) as (o' & O' & Ho'); [auto|].
  assert (Sep : forall vs us ts, Supporting vs ts -> (exists t, In t ts /\ forall v, In v us -> 0 < beyond t v) -> Combination3 vs x -> Combination3 us x -> False).
  { clear. intros vs us ts S (t & T & K) Cv Cu.
    assert (0 < val3 (plane_of t) x) by (apply (comb3_gt _ us x Cu); intros v V; rewrite val_plane; auto).
    assert (val3 (plane_of t) x <= 0) by (apply (comb3_le _ vs x Cv); intros v V; rewrite val_plane; auto). lra. }
  destruct (edges_dead a b false E eq_refl) as [K|K].
  - rewrite O in K. injection K as ->. apply (Sep vs us ts); auto. apply Ho. auto.
  - rewrite O' in K. injection K as ->. apply (Sep us vs ss); auto. apply Ho'. auto.
Qed.
Print Assumptions convex_intersect3_partial.
(* the loop over pairs of edges never changes the answer *)
Theorem edge_tests_idle : forall a b r, convexIntersect3 a b = Ok r -> excludes3 a b = Ok false -> excludes3 b a = Ok false -> r = true.
Proof. intros a b r E A B. destruct r; auto. destruct (edges_dead a b false E eq_refl); congruence. Qed.
Print Assumptions edge_tests_idle.

Definition tet_facets : list (list Z) := [[0; 1; 2]; [0; 3; 1]; [1; 3; 2]; [0; 2; 3]]%Z.
Definition tetra (vs : list p3) : rplc Q := mkRPLC tet_facets [] (flat_map (fun v => [X3 v; Y3 v; Z3 v]) vs).
Definition tet_tris (vs : list p3) : list (p3 * p3 * p3) :=
  match vs with [a; b; c; d] => [(a, b, c); (a, d, b); (b, d, c); (a, c, d)] | _ => [] end.
Lemma tetra_holds a b c d : HoldsSolid (tetra [a; b; c; d]) [a; b; c; d] (tet_tris [a; b; c; d]).
Proof.
  split; [reflexivity|]. destruct a as [[? ?] ?], b as [[? ?] ?], c as [[? ?] ?], d as [[? ?] ?].
  repeat constructor; eexists _, _, _, _; (split; [reflexivity|]); (split; [|split]); (split; [lia|]); repeat split; reflexivity.
Qed.
Definition supp_b (vs : list p3) (ts : list (p3 * p3 * p3)) : bool := forallb (fun t => forallb (fun v => Qle_bool (beyond t v) 0) vs) ts.
Lemma supp_ok vs ts : supp_b vs ts = true -> Supporting vs ts.
Proof. intros H t v T V. unfold supp_b in H. rewrite forallb_forall in H. specialize (H t T). rewrite forallb_forall in H. apply Qle_bool_iff. apply H. auto. Qed.
(* tetrahedra with harmless normals, one inside another, two apart *)
Definition tetA : list p3 := [(0, 4, 0); (0, 8, 4); (4, 4, 0); (4, 0, 4)].
Definition tetB : list p3 := [(10, 4, 0); (10, 8, 4); (14, 4, 0); (14, 0, 4)].
Example harmless_tetra : (forall t, In t (tet_tris tetA) \/ In t (tet_tris tetB) -> HarmlessNormal t) /\ Supporting tetA (tet_tris tetA) /\ Supporting tetB (tet_tris tetB) /\
  HoldsSolid (tetra tetA) tetA (tet_tris tetA) /\
  convexWithin3 (tetra [(2, 4, 2); (2, 4, 2); (2, 4, 2); (2, 4, 2)]) (tetra tetA) = Ok true /\ convexWithin3 (tetra tetB) (tetra tetA) = Ok false /\
  convexIntersect3 (tetra tetA) (tetra tetB) = Ok false /\ convexIntersect3 (tetra tetA) (tetra tetA) = Ok true.
Proof.
  split.
  - assert (D : forallb (fun t => let '(p, q, r) := t in Qeq_bool ((Z3 q - Z3 p) * ((Y3 r - Y3 p) - (Z3 r - Z3 p))) 0) (tet_tris tetA ++ tet_tris tetB) = true) by (vm_compute; reflexivity).
    rewrite forallb_forall in D. intros [[p q] r] I. specialize (D (p, q, r) (in_or_app _ _ _ I)). apply Qeq_bool_iff in D. exact D.
  - split; [apply supp_ok; vm_compute; reflexivity|]. split; [apply supp_ok; vm_compute; reflexivity|]. split; [apply tetra_holds|]. vm_compute. auto.
Qed.
(* In general the computed normal is wrong (nx uses dz_ac for dy_ac), and both tests then err
   both ways; and because the edge loop is idle, solids that only a plane along an
   edge of each separates are reported to intersect. *)
Theorem convex_within3_refuted :
  (let B := [(-(2), -(1), -(2)); (2, 1, 2); (1, -(2), 2); (-(1), 1, 1)] in
   Supporting B (tet_tris B) /\ (exists t, In t (tet_tris B) /\ 0 < beyond t (1, 0, -(2))) /\
   convexWithin3 (mkRPLC [] [] [1; 0; -(2)]) (tetra B) = Ok true) /\
  (let B := [(-(2), 0, 0); (2, -(1), -(1)); (1, 0, 2); (0, 2, -(2))] in
   Supporting B (tet_tris B) /\ (forall t, In t (tet_tris B) -> beyond t (1, 0, 0) < 0) /\
   convexWithin3 (mkRPLC [] [] [1; 0; 0]) (tetra B) = Ok false).
Proof.
  cbv zeta. split.
  - split; [apply supp_ok; vm_compute; reflexivity|]. split; [|vm_compute; reflexivity].
    set (B := [_; _; _; _]). assert (D : existsb (fun t => Qlt_bool 0 (beyond t (1, 0, -(2)))) (tet_tris B) = true) by (vm_compute; reflexivity).
    apply existsb_exists in D as (t & T & D). exists t. split; auto. destruct (qltb_spec 0 (beyond t (1, 0, -(2)))); auto. discriminate.
  - split; [apply supp_ok; vm_compute; reflexivity|]. split; [|vm_compute; reflexivity].
    set (B := [_; _; _; _]). assert (D : forallb (fun t => Qlt_bool (beyond t (1, 0, 0)) 0) (tet_tris B) = true) by (vm_compute; reflexivity).
    rewrite forallb_forall in D. intros t T. specialize (D t T). destruct (qltb_spec (beyond t (1, 0, 0)) 0); auto. discriminate.
Qed.
Print Assumptions convex_within3_refuted.
Theorem convex_intersect3_refuted :
  (let A := [(0, 1, -(2)); (2, -(2), -(1)); (-(2), 2, 1); (2, 0, -(1))] in
   let B := [(0, -(2), 1); (-(1), 2, 2); (-(1), 0, 0); (2, 1, 2)] in
   Supporting A (tet_tris A) /\ Supporting B (tet_tris B) /\
   (forall x, Combination3 A x -> Combination3 B x -> False) /\ convexIntersect3 (tetra A) (tetra B) = Ok true) /\
  (let A := [(2, 0, -(2)); (-(2), 1, 2); (1, -(2), 1); (-(2), -(1), 1)] in
   let B := [(0, 1, 1); (1, -(2), 2); (1, 2, -(2)); (-(2), -(2), -(2))] in
   Supporting A (tet_tris A) /\ Supporting B (tet_tris B) /\
   (forall t, In t (tet_tris A) \/ In t (tet_tris B) -> beyond t (0, 0, 0) < 0) /\ convexIntersect3 (tetra A) (tetra B) = Ok false).
Proof.
  cbv zeta. split.
  - split; [apply supp_ok; vm_compute; reflexivity|]. split; [apply supp_ok; vm_compute; reflexivity|]. split; [|vm_compute; reflexivity].
    intros x CA CB. set (h := (-(2), -(6), 8, -(1))).
    assert (U : val3 h x <= 0).
    { eapply comb3_le; [exact CA|]. intros v [<-|[<-|[<-|[<-|[]]]]]; vm_compute; discriminate. }
    assert (V : 0 < val3 h x).
    { eapply comb3_gt; [exact CB|]. intros v [<-|[<-|[<-|[<-|[]]]]]; vm_compute; reflexivity. }
    lra.
  - split; [apply supp_ok; vm_compute; reflexivity|]. split; [apply supp_ok; vm_compute; reflexivity|]. split; [|vm_compute; reflexivity].
    match goal with |- forall t, In t ?l1 \/ In t ?l2 -> _ => assert (D : forallb (fun t => Qlt_bool (beyond t (0, 0, 0)) 0) (l1 ++ l2) = true) by (vm_compute; reflexivity) end.
    rewrite forallb_forall in D. intros t T. specialize (D t (in_or_app _ _ _ T)). destruct (qltb_spec (beyond t (0, 0, 0)) 0); auto. discriminate.
Qed.
Print Assumptions convex_intersect3_refuted.
