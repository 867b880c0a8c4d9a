(* The tessellation made from a Voronoi diagram in a boundary, with the mesh snapped to the boundary
   (C88). *)
From Coq Require Import Reals QArith Qreals Lra.
From Verif Require Import Base BaseFacts SerializeModel MeshModel MeshSpec QuantMeshModel QuantMeshSpec QuantMeshProofs PLCSpec BoxModel BoxProofs BoxProps Plane TriModel TriSpec TriProofs6 TriProofs11 TriProps NearModel NearSpec NearProps ClipModel ClipSpec BoundedModel BoundedModel2 BoundedSpec BoundedSpec2 BoundedProofs BoundedProofs2 BoundedCheck BoundedProps BoundedProps2 BoostModel BoostModel2 BoostSpec BoostProps.
Local Open Scope nat_scope.

(* ------------------------------------------------------------ C88 *)
(* As boost_in_boundary (C86), with polygons that fit the boundary: the call returns the mesh of the
   polygons with its boundary nodes moved by less than the tolerance 4 deg w onto the boundary; w is
   the larger side of the box of the boundary. *)
Theorem boost_snapped : forall big vor_lib lib deg points PLCpoints geometry xl yl xh yh f gens guards outer inner w,
  0 < length points -> length points mod 2 = 0 -> BoundaryBox big PLCpoints xl yl xh yh ->
  (forall i x y, vertex 2 points i = [x; y] -> (xl <= x <= xh)%Q /\ (yl <= y <= yh)%Q) ->
  boundary_frame big PLCpoints = Ok f -> construct f points = Ok (gens, guards) ->
  let sites := map fst (gens ++ guards) in
  NoDup (map fst gens) -> Diagram sites (length gens) (vor_lib sites) -> CornersApart (length gens) (vor_lib sites) ->
  Outline f PLCpoints (facets geometry) outer -> Forall2 (Outline f PLCpoints) (holes geometry) inner ->
  let v := map Q2R PLCpoints in let tol := (4 * Q2R deg * w)%R in
  LargestSide v w -> segments v geometry -> (tol < Q2R big)%R ->
  exists whole ns es cs, boost_tessellate vor_lib gens guards = Ok (ns, es, cs) /\ MeshOf whole ns es cs /\
    (forall p poly, nth_error whole p = Some poly -> RegionPolygon f (map (deq f) sites) p poly) /\
    forall polys corner, CutTo lib (b_outline lib outer inner) (map fst gens) ns es cs polys -> WellApart polys -> SideBySide polys -> (exists s, OuterSide polys s) ->
    Fitting f v geometry tol polys corner ->
    exists m m', PolygonMesh f polys m /\ 2 * length (cells m) = length points /\
      boost_bounded big vor_lib lib deg points PLCpoints geometry mesh_new = Ok m' /\ Snapped v geometry tol (real_mesh m) m' /\ WellFormed 2 m'.
Proof.
  intros big vor_lib lib deg points PLC g xl yl xh yh f gq uq outer inner w N0 Ev Bb Ins Ff Co sites Nd D A Ou In_ v tol Ls Sg Bt.
  destruct (boost_in_boundary big vor_lib lib points PLC g xl yl xh yh f gq uq outer inner N0 Ev Bb Ins Ff Co Nd D A Ou In_) as (whole & ns & es & cs & E & Mo & V & H).
  exists whole, ns, es, cs. split; auto. split; auto. split; auto. intros polys corner Cut Ap Sd Out Ft.
  destruct (H polys Cut Ap Sd Out) as (m & Em & Pm & Lm).
  assert (Pr : proper f).
  { destruct (box_of _ _ _ _ _ _ Bb) as (xl' & yl' & xh' & yh' & Box & Q1 & Q2 & Q3 & Q4). apply full_proper.
    apply (f_full big PLC points xl' yl' xh' yh' f gq uq Box); auto. destruct Bb as (_ & _ & _ & _ & [S|S]); [left|right]; Lqa.lra. }
  destruct (fitting_snappable f polys m Pr Pm v g tol corner Ft) as [c Sb].
  destruct Bb as (B0 & B1 & B2 & _). pose proof (numbers big PLC B0 B1 B2) as Nb.
  destruct (snap_returns (Q2R big) (real_mesh m) v g (Q2R deg) w c Nb Ls Sg Bt Sb) as [m' Es].
  pose proof (snap_correct (Q2R big) (real_mesh m) v g (Q2R deg) m' w Nb Ls Es) as Sn.
  exists m, m'. split; auto. split; auto. split; [unfold boost_bounded; rewrite Em; exact Es|]. split; auto. apply (bounded_wf f polys m v g _ m' Pm Sn).
Qed.
Print Assumptions boost_snapped.

(* Whenever the call returns, and whatever the two libraries computed, every boundary point is a
   boundary node and every boundary node is on the boundary. *)
Theorem boost_exact : forall big vor_lib lib deg points PLCpoints geometry w m',
  0 < length PLCpoints -> length PLCpoints mod 2 = 0 -> (forall x, In x PLCpoints -> (- big <= x <= big)%Q) -> LargestSide (map Q2R PLCpoints) w ->
  (forall k, 2 * k + 1 < length PLCpoints -> exists fc i j, some_facet geometry fc /\ fc = [Z.of_nat i; Z.of_nat j] /\ (k = i \/ k = j)) -> segments (map Q2R PLCpoints) geometry ->
  boost_bounded big vor_lib lib deg points PLCpoints geometry mesh_new = Ok m' ->
  (forall k c, point_at (map Q2R PLCpoints) k c -> exists n, In n (boundaryNodes m') /\ point_at (nodes m') n c) /\
  (forall n, In n (boundaryNodes m') -> exists q, point_at (nodes m') n q /\ OnBoundary (map Q2R PLCpoints) geometry q).
Proof.
  intros big vor_lib lib deg points PLC g w m' N0 Ev Rg Ls Us Sg E. unfold boost_bounded in E. ClipProofs.step E m Em.
  destruct (snap_correct (Q2R big) (real_mesh m) (map Q2R PLC) g (Q2R deg) m' w (numbers big PLC N0 Ev Rg) Ls E) as [_ _ _ (Sb & _) _ _ _ Sc So].
  rewrite Sb. split; auto. intros n I. destruct (So n I) as (q & q' & _ & P' & _ & [(k & Pk)|(On & _)]); exists q'; (split; [exact P'|]); auto.
  assert (Lk : 2 * k + 1 < length PLC) by (destruct Pk as [_ B]; apply nth_error_lt in B; rewrite map_length in B; auto).
  destruct (Us k Lk) as (fc & i & j & Sf & -> & Kij). exists [Z.of_nat i; Z.of_nat j]. split; auto.
  destruct (Sg _ Sf) as (i' & j' & Eij & Li & Lj). injection Eij as Ei Ej. apply Nat2Z.inj in Ei, Ej. subst i' j'.
  assert (Pt : forall i, 2 * i + 1 < length (map Q2R PLC) -> exists a, point_at (map Q2R PLC) i a).
  { clear. intros i L. destruct (nth_error_ex (map Q2R PLC) (2 * i) ltac:(lia)) as [x Hx]. destruct (nth_error_ex (map Q2R PLC) (2 * i + 1) L) as [y Hy]. exists (x, y). split; auto. }
  destruct (Pt i Li) as [a Pa]. destruct (Pt j Lj) as [b Pb]. exists i, j, a, b. split; auto. split; auto. split; auto.
  assert (Same : forall i x y, point_at (map Q2R PLC) i x -> point_at (map Q2R PLC) i y -> x = y). { clear. intros i [x1 x2] [y1 y2] [A B] [C D]. cbn [fst snd] in *. congruence. }
  destruct Kij as [-> | ->]; [rewrite (Same _ _ _ Pk Pa); exists 0%R|rewrite (Same _ _ _ Pk Pb); exists 1%R]; repeat split; try lra.
Qed.
Print Assumptions boost_exact.

(* The two points in the square, tolerance 4/100. *)
Definition fitb (outer : list pt) (near : list (Z * Z * nat * Q)) : bool :=
  forallb (fun k => forallb (fun q => pt_eqb q (five_corner k) || farb (fst (deq sq_frame q)) (snd (deq sq_frame q)) (fst (sqv k)) (snd (sqv k)) tolq) outer) (seq 0 4) &&
  forallb (fun qn => let '(q, (i, j, n, t)) := qn in existsb (fun fc => match fc with [a; b] => (a =? i)%Z && (b =? j)%Z | _ => false end) (facets square_plc) && (Z.of_nat n =? i)%Z && (Z.of_nat (Z.to_nat j) =? j)%Z && (n <? 4) && (Z.to_nat j <? 4) && Qle_bool 0 t && Qle_bool t 1 &&
    nearb (fst (deq sq_frame q)) (snd (deq sq_frame q)) (fst (sqv n) + t * (fst (sqv (Z.to_nat j)) - fst (sqv n))) (snd (sqv n) + t * (snd (sqv (Z.to_nat j)) - snd (sqv n))) (1 # 100)) (combine outer near) &&
  (length outer =? length near).
Lemma square_fitting polys idx outer near : forallb (fun k => starts polys (nth k idx 0) (five_corner k)) (seq 0 4) = true -> endsb polys outer = true -> fitb outer near = true -> Fitting sq_frame (map Q2R square) square_plc (4 * Q2R (1 # 1000) * 10)%R polys five_corner.
Proof.
  intros St En Fb. unfold fitb in Fb. rewrite !andb_true_iff in Fb. destruct Fb as ((Xfar & Xn) & Xl). apply Nat.eqb_eq in Xl.
  assert (T : (4 * Q2R (1 # 1000) * 10)%R = Q2R tolq). { unfold tolq, Q2R. cbn. lra. }
  rewrite T. assert (T0 : (0 < tolq)%Q) by reflexivity.
  assert (Nl : forall x y, Qle_bool x y = false -> (y < x)%Q). { intros x y H. apply Qnot_le_lt. intros C. apply Qle_bool_iff in C. congruence. }
  assert (C : forall k, k < 4 -> OuterCorner polys (five_corner k)).
  { intros k L. rewrite forallb_forall in St. apply (starts_ok _ _ _ (St k ltac:(apply in_seq; lia))). }
  constructor.
  - intros k c P. destruct (square_at k c P) as [L ->]. split.
    + exact (C k L).
    + unfold place. apply near_q; [exact T0|]. apply Nl. assert (X : forallb (fun k => nearb (fst (deq sq_frame (five_corner k))) (snd (deq sq_frame (five_corner k))) (fst (sqv k)) (snd (sqv k)) tolq) (seq 0 4) = true) by (vm_compute; reflexivity).
      rewrite forallb_forall in X. specialize (X k ltac:(apply in_seq; lia)). apply negb_true_iff in X. exact X.
  - intros k c q P O N. destruct (square_at k c P) as [L ->]. apply (endsb_ok _ outer _ En) in O. unfold place. apply far_q; [exact T0|]. apply Nl.
    pose proof Xfar as X.
    rewrite forallb_forall in X. specialize (X k ltac:(apply in_seq; lia)). rewrite forallb_forall in X. specialize (X q O). apply orb_true_iff in X as [X|X]; [apply pt_eqb_iff in X; contradiction|].
    apply negb_true_iff in X. exact X.
  - intros k k' c c' P P' E. destruct (square_at k c P) as [L _]. destruct (square_at k' c' P') as [L' _].
    assert (X : forallb (fun k => forallb (fun k' => (k =? k') || negb (pt_eqb (five_corner k) (five_corner k'))) (seq 0 4)) (seq 0 4) = true) by (vm_compute; reflexivity).
    rewrite forallb_forall in X. specialize (X k ltac:(apply in_seq; lia)). rewrite forallb_forall in X. specialize (X k' ltac:(apply in_seq; lia)). apply orb_true_iff in X as [X|X]; [apply Nat.eqb_eq; auto|].
    apply negb_true_iff in X. apply pt_eqb_iff in E. congruence.
  - intros q O. apply (endsb_ok _ outer _ En) in O.
    pose proof Xn as X.
    rewrite forallb_forall in X.
    assert (Y : exists e, In (q, e) (combine outer near)).
    { apply In_nth_error in O as [i Hi]. destruct (nth_error_ex near i) as [e He]; [apply nth_error_lt in Hi; rewrite <- Xl; exact Hi|]. exists e. apply nth_error_In with i.
      clear - Hi He. revert i Hi He. generalize near. induction outer as [|a l IH]; intros [|b l'] [|i] Hi He; try discriminate; cbn in *; [congruence|]. apply IH; auto. }
    destruct Y as ([[[i j] n] t] & Ie). specialize (X _ Ie). cbv beta iota in X. rewrite !andb_true_iff in X. destruct X as (((((((X1 & X2) & X3) & X4) & X5) & X6) & X7) & X8).
    apply existsb_exists in X1 as (fc & If & Xf). destruct fc as [|a [|b [|? ?]]]; try discriminate. apply andb_true_iff in Xf as [Xa Xb]. apply Z.eqb_eq in Xa, Xb, X2, X3. subst a b i.
    apply Nat.ltb_lt in X4, X5. apply Qle_bool_iff in X6, X7. apply negb_true_iff, Nl in X8.
    exists (Q2R (fst (sqv n) + t * (fst (sqv (Z.to_nat j)) - fst (sqv n))), Q2R (snd (sqv n) + t * (snd (sqv (Z.to_nat j)) - snd (sqv n)))). split.
    + exists [Z.of_nat n; Z.of_nat (Z.to_nat j)]. split; [left; rewrite X3; exact If|]. exists n, (Z.to_nat j), (Q2R (fst (sqv n)), Q2R (snd (sqv n))), (Q2R (fst (sqv (Z.to_nat j))), Q2R (snd (sqv (Z.to_nat j)))).
      assert (Pt : forall k, k < 4 -> point_at (map Q2R square) k (Q2R (fst (sqv k)), Q2R (snd (sqv k)))). { intros k L. destruct k as [|[|[|[|k]]]]; [| | | |lia]; split; reflexivity. }
      split; auto. split; [apply Pt; auto|]. split; [apply Pt; auto|]. exists (Q2R t). apply Qle_Rle in X6, X7. rewrite RMicromega.Q2R_0 in X6. rewrite RMicromega.Q2R_1 in X7.
      cbn [fst snd]. rewrite !Q2R_plus, !Q2R_mult, !Q2R_minus. auto.
    + unfold place. pose proof (near_q _ _ _ _ (1 # 100) ltac:(reflexivity) X8) as L. assert (slack < / 100)%R by (unfold slack; lra). assert (T1 : Q2R (1 # 100) = (/ 100)%R) by (unfold Q2R; cbn; lra). assert (T2 : Q2R tolq = (4 / 100)%R) by (unfold tolq, Q2R; cbn; lra).
      rewrite T1 in L. rewrite T2. lra.
Qed.
Definition pair_outer : list pt :=
  [(-137438955, 214748364); (-214748366, 214748364); (-214748366, -214748366); (34359737, -214748366); (214748364, 214748364); (214748364, -214748366)]%Z.
Definition pair_near : list (Z * Z * nat * Q) :=
  [(2%Z, 3%Z, 2, 82 # 100); (3%Z, 0%Z, 3, 0 # 1); (0%Z, 1%Z, 0, 0 # 1); (0%Z, 1%Z, 0, 58 # 100); (2%Z, 3%Z, 2, 0 # 1); (1%Z, 2%Z, 1, 0 # 1)].
Lemma pair_fitting : Fitting sq_frame (map Q2R square) square_plc (4 * Q2R (1 # 1000) * 10)%R pair_polys five_corner.
Proof. apply (square_fitting _ [2; 7; 4; 1] pair_outer pair_near); vm_compute; reflexivity. Qed.
Example pair_snapped : exists m', boost_bounded 1000 pair_lib box_lib (1 # 1000) pair_points square square_plc mesh_new = Ok m' /\ WellFormed 2 m' /\
  length (cells m') = 2 /\ (forall k c, point_at (map Q2R square) k c -> exists n, In n (boundaryNodes m') /\ point_at (nodes m') n c) /\
  (forall n, In n (boundaryNodes m') -> exists q, point_at (nodes m') n q /\ OnBoundary (map Q2R square) square_plc q).
Proof.
  destruct pair_conditions as (gq & uq & N0 & Ev & Bb & Ins & Ff & C & (Nd & D & A) & Ou & E & Cut & Ap & Sd & Os).
  destruct (boost_snapped 1000 pair_lib box_lib (1 # 1000) pair_points square square_plc 0 0 10 10 sq_frame gq uq square_outline [] 10 N0 Ev Bb Ins Ff C Nd D A Ou) as (whole & ns' & es' & cs' & E' & _ & _ & H).
  - constructor.
  - exact square_side.
  - exact square_segments.
  - unfold Q2R. cbn. lra.
  - rewrite E in E'. injection E' as <- <- <-.
    destruct (H pair_polys five_corner Cut Ap Sd Os pair_fitting) as (m & m' & Pm & Lm & Em & Sn & Wf). exists m'. split; [exact Em|]. split; [exact Wf|]. split.
    + rewrite (sn_cells _ _ _ _ _ Sn). cbn [cells real_mesh]. clear - Lm. cbn [pair_points map length] in Lm. lia.
    + refine (boost_exact 1000 pair_lib box_lib (1 # 1000) pair_points square square_plc 10 m' square_some eq_refl square_range square_side square_used square_segments Em).
Qed.
