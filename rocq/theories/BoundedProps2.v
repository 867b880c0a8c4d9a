(* The tessellation of points in a boundary, with the mesh snapped to the boundary (C83). *)
From Coq Require Import Reals QArith Qreals Lra.
From Verif Require Import Base BaseFacts SerializeModel MeshModel MeshSpec QuantMeshModel QuantMeshSpec QuantMeshProofs PLCSpec BoxModel BoxProofs BoxProps Plane TriModel TriSpec TriProofs6 TriProofs11 TriProps NearModel NearSpec NearProps ClipModel ClipSpec BoundedModel BoundedModel2 BoundedSpec BoundedSpec2 BoundedProofs BoundedProofs2 BoundedCheck BoundedProps.
Local Open Scope nat_scope.

Lemma bounded_wf f polys m v g tol m' : PolygonMesh f polys m -> Snapped v g tol (real_mesh m) m' -> WellFormed 2 m'.
Proof.
  intros Pm Sn. destruct (pm_mesh _ _ _ Pm). destruct Sn as [Sc Sf Sfc _ (_ & _ & Ss & Ssf) Sz _ _ _].
  assert (Ln : length (nodes m') = length (nodes m)) by (rewrite Sz; cbn; apply map_length). cbn [cells faces faceCells sharedNodes sharedFaces real_mesh] in *.
  constructor; rewrite ?Sc, ?Sf, ?Sfc, ?Ss, ?Ssf, ?Ln; auto.
Qed.
Lemma in_frame_range big v : (forall x, In x v -> (- big <= x <= big)%Q) -> forall x, In x (map Q2R v) -> (- Q2R big <= x <= Q2R big)%R.
Proof. intros H x I. apply in_map_iff in I as (q & <- & I). destruct (H q I) as [A B]. apply Qle_Rle in A. apply Qle_Rle in B. rewrite Q2R_opp in A. auto. Qed.
Lemma numbers big v : 0 < length v -> length v mod 2 = 0 -> (forall x, In x v -> (- big <= x <= big)%Q) -> within_numbers (Q2R big) (map Q2R v).
Proof.
  intros N0 Ev Rg. split; [destruct v; [cbn in N0; lia|discriminate]|]. split; [rewrite map_length; auto|]. apply in_frame_range. auto.
Qed.

(* ------------------------------------------------------------ C83 *)
(* As bounded_tessellation (C81), with polygons that fit the boundary: the call returns the mesh of
   the polygons with its boundary nodes moved by less than the tolerance 4 deg w onto the boundary;
   w is the larger side of the box of the boundary. *)
Theorem bounded_snapped : forall big tri_lib lib deg points PLCpoints geometry xl yl xh yh f gens guards outer inner w,
  0 < length points -> length points mod 2 = 0 -> BoundaryBox big PLCpoints xl yl xh yh ->
  (forall i x y, vertex 2 points i = [x; y] -> (xl <= x <= xh)%Q /\ (yl <= y <= yh)%Q) ->
  boundary_frame big PLCpoints = Ok f -> construct f points = Ok (gens, guards) ->
  let pts := map (deq f) (map fst gens ++ map fst guards) in
  Delaunay pts (length gens) (tri_lib pts) ->
  Outline f PLCpoints (facets geometry) outer -> Forall2 (Outline f PLCpoints) (holes geometry) inner ->
  let v := map Q2R PLCpoints in let tol := (4 * Q2R deg * w)%R in
  LargestSide v w -> segments v geometry -> (tol < Q2R big)%R ->
  exists ns es cs, tess_grid tri_lib f (map fst guards) (map fst gens) = Ok (ns, es, cs) /\
    (forall i c, nth_error cs i = Some c -> VoronoiCell f pts (length gens) (tri_lib pts) ns es i c) /\
    forall polys corner, CutTo lib (b_outline lib outer inner) (map fst gens) ns es cs polys -> WellApart polys -> SideBySide polys -> (exists s, OuterSide polys s) ->
    Fitting f v geometry tol polys corner ->
    exists m m', PolygonMesh f polys m /\ 2 * length (cells m) = length points /\
      tessellate_bounded big tri_lib lib deg points PLCpoints geometry mesh_new = Ok m' /\ Snapped v geometry tol (real_mesh m) m' /\ WellFormed 2 m'.
Proof.
  intros big tri_lib lib deg points PLC g xl yl xh yh f gq uq outer inner w N0 Ev Bb Ins Ff Co pts D Ou In_ v tol Ls Sg Bt.
  destruct (bounded_tessellation big tri_lib lib points PLC g xl yl xh yh f gq uq outer inner N0 Ev Bb Ins Ff Co D Ou In_) as (ns & es & cs & E & V & H).
  exists ns, es, cs. split; auto. split; auto. intros polys corner Cut Ap Sd Out Ft.
  destruct (H polys Cut Ap Sd Out) as (m & Em & Pm & Lm).
  assert (Pr : proper f).
  { destruct (box_of _ _ _ _ _ _ Bb) as (xl' & yl' & xh' & yh' & Box & Q1 & Q2 & Q3 & Q4). apply full_proper.
    apply (f_full big PLC points xl' yl' xh' yh' f gq uq Box); auto. destruct Bb as (_ & _ & _ & _ & [S|S]); [left|right]; Lqa.lra. }
  destruct (fitting_snappable f polys m Pr Pm v g tol corner Ft) as [c Sb].
  destruct Bb as (B0 & B1 & B2 & _). pose proof (numbers big PLC B0 B1 B2) as Nb.
  destruct (snap_returns (Q2R big) (real_mesh m) v g (Q2R deg) w c Nb Ls Sg Bt Sb) as [m' Es].
  pose proof (snap_correct (Q2R big) (real_mesh m) v g (Q2R deg) m' w Nb Ls Es) as Sn.
  exists m, m'. split; auto. split; auto. split; [unfold tessellate_bounded; rewrite Em; exact Es|]. split; auto. apply (bounded_wf f polys m v g _ m' Pm Sn).
Qed.
Print Assumptions bounded_snapped.

(* Whenever the call returns, and whatever the two libraries computed, every boundary point is a
   boundary node and every boundary node is on the boundary. *)
Theorem bounded_exact : forall big tri_lib lib deg points PLCpoints geometry w m',
  0 < length PLCpoints -> length PLCpoints mod 2 = 0 -> (forall x, In x PLCpoints -> (- big <= x <= big)%Q) -> LargestSide (map Q2R PLCpoints) w ->
  (forall k, 2 * k + 1 < length PLCpoints -> exists fc i j, some_facet geometry fc /\ fc = [Z.of_nat i; Z.of_nat j] /\ (k = i \/ k = j)) -> segments (map Q2R PLCpoints) geometry ->
  tessellate_bounded big tri_lib lib deg points PLCpoints geometry mesh_new = Ok m' ->
  (forall k c, point_at (map Q2R PLCpoints) k c -> exists n, In n (boundaryNodes m') /\ point_at (nodes m') n c) /\
  (forall n, In n (boundaryNodes m') -> exists q, point_at (nodes m') n q /\ OnBoundary (map Q2R PLCpoints) geometry q).
Proof.
  intros big tri_lib lib deg points PLC g w m' N0 Ev Rg Ls Us Sg E. unfold tessellate_bounded in E. ClipProofs.step E m Em.
  destruct (snap_correct (Q2R big) (real_mesh m) (map Q2R PLC) g (Q2R deg) m' w (numbers big PLC N0 Ev Rg) Ls E) as [_ _ _ (Sb & _) _ _ _ Sc So].
  rewrite Sb. split; auto. intros n I. destruct (So n I) as (q & q' & _ & P' & _ & [(k & Pk)|(On & _)]); exists q'; (split; [exact P'|]); auto.
  assert (Lk : 2 * k + 1 < length PLC) by (destruct Pk as [_ B]; apply nth_error_lt in B; rewrite map_length in B; auto).
  destruct (Us k Lk) as (fc & i & j & Sf & -> & Kij). exists [Z.of_nat i; Z.of_nat j]. split; auto.
  destruct (Sg _ Sf) as (i' & j' & Eij & Li & Lj). injection Eij as Ei Ej. apply Nat2Z.inj in Ei, Ej. subst i' j'.
  assert (Pt : forall i, 2 * i + 1 < length (map Q2R PLC) -> exists a, point_at (map Q2R PLC) i a).
  { clear. intros i L. destruct (nth_error_ex (map Q2R PLC) (2 * i) ltac:(lia)) as [x Hx]. destruct (nth_error_ex (map Q2R PLC) (2 * i + 1) L) as [y Hy]. exists (x, y). split; auto. }
  destruct (Pt i Li) as [a Pa]. destruct (Pt j Lj) as [b Pb]. exists i, j, a, b. split; auto. split; auto. split; auto.
  assert (Same : forall i x y, point_at (map Q2R PLC) i x -> point_at (map Q2R PLC) i y -> x = y). { clear. intros i [x1 x2] [y1 y2] [A B] [C D]. cbn [fst snd] in *. congruence. }
  destruct Kij as [-> | ->]; [rewrite (Same _ _ _ Pk Pa); exists 0%R|rewrite (Same _ _ _ Pk Pb); exists 1%R]; repeat split; try lra.
Qed.
Print Assumptions bounded_exact.

(* Five points in the square, tolerance 4/100. *)
Lemma euclid_q (a b c d : Q) : euclid (Q2R a, Q2R b) (Q2R c, Q2R d) = sqrt (Q2R ((a - c) * (a - c) + (b - d) * (b - d))).
Proof. unfold euclid. cbn [fst snd]. rewrite Q2R_plus, !Q2R_mult, !Q2R_minus. f_equal. ring. Qed.
Lemma near_q a b c d t : (0 < t)%Q -> ((a - c) * (a - c) + (b - d) * (b - d) < t * t)%Q -> (euclid (Q2R a, Q2R b) (Q2R c, Q2R d) < Q2R t)%R.
Proof.
  intros T L. rewrite euclid_q. apply Qlt_Rlt in T, L. rewrite Q2R_mult in L. rewrite RMicromega.Q2R_0 in T.
  rewrite <- (sqrt_square (Q2R t)) by lra. apply sqrt_lt_1_alt. split; auto. rewrite Q2R_plus, !Q2R_mult. pose proof (Rle_0_sqr (Q2R (a - c))). pose proof (Rle_0_sqr (Q2R (b - d))). unfold Rsqr in *. lra.
Qed.
Lemma far_q a b c d t : (0 < t)%Q -> (t * t < (a - c) * (a - c) + (b - d) * (b - d))%Q -> (Q2R t < euclid (Q2R a, Q2R b) (Q2R c, Q2R d))%R.
Proof.
  intros T L. rewrite euclid_q. apply Qlt_Rlt in T, L. rewrite Q2R_mult in L. rewrite RMicromega.Q2R_0 in T.
  rewrite <- (sqrt_square (Q2R t)) at 1 by lra. apply sqrt_lt_1_alt. split; auto. apply Rmult_le_pos; lra.
Qed.
Definition five_outer : list pt :=
  [(-214748366, 26843543); (-214748366, -214748366); (-42949675, -214748366); (214748364, -214748366); (214748364, -17895699); (214748364, 214748364); (-2, 214748364); (-214748366, 214748364)]%Z.
Definition five_corner (k : nat) : pt := nth k square_outline (0, 0)%Z.
(* for each outer corner the nearest boundary point, with its facet and its place on it *)
Definition five_near : list (Z * Z * nat * Q) :=
  [(3%Z, 0%Z, 3, 7 # 16); (0%Z, 1%Z, 0, 0 # 1); (0%Z, 1%Z, 0, 4 # 10); (1%Z, 2%Z, 1, 0 # 1); (1%Z, 2%Z, 1, 11 # 24); (2%Z, 3%Z, 2, 0 # 1); (2%Z, 3%Z, 2, 1 # 2); (3%Z, 0%Z, 3, 0 # 1)].
Definition sqv (i : nat) : Q * Q := (nth (2 * i) square 0, nth (2 * i + 1) square 0)%Q.
Definition endsb (polys : list polygon) (l : list pt) : bool :=
  forallb (fun s => negb (outerb polys s) || (existsb (pt_eqb (fst s)) l && existsb (pt_eqb (snd s)) l)) (all_sides polys).
Lemma endsb_ok polys l q : endsb polys l = true -> OuterCorner polys q -> In q l.
Proof.
  unfold endsb. intros X (s & O & E). rewrite forallb_forall in X. specialize (X s (proj1 O)).
  assert (B : outerb polys s = true).
  { unfold outerb. rewrite andb_true_iff, negb_true_iff. destruct O as [I N]. split; [apply existsb_exists; exists s; split; auto; apply seg_eqb_iff; auto|].
    destruct (existsb (seg_eqb (snd s, fst s)) (all_sides polys)) eqn:Y; auto. apply existsb_exists in Y as (t & It & Et). apply seg_eqb_iff in Et. subst t. contradiction. }
  rewrite B in X. cbn [negb orb] in X. apply andb_true_iff in X as [A C].
  destruct E as [-> | ->]; [apply existsb_exists in A as (t & It & Et)|apply existsb_exists in C as (t & It & Et)]; apply pt_eqb_iff in Et; subst t; auto.
Qed.
Lemma five_outer_ok q : OuterCorner five_polys q -> In q five_outer.
Proof. apply endsb_ok. vm_compute. reflexivity. Qed.
Definition starts (polys : list polygon) (i : nat) (q : pt) : bool :=
  let s := nth i (all_sides polys) ((0, 0), (0, 0))%Z in outerb polys s && pt_eqb (fst s) q.
Lemma starts_ok polys i q : starts polys i q = true -> OuterCorner polys q.
Proof. unfold starts. cbv zeta. rewrite andb_true_iff, pt_eqb_iff. intros [A <-]. eexists. split; [apply outerb_ok; exact A|left; reflexivity]. Qed.
Lemma square_at k c : point_at (map Q2R square) k c -> k < 4 /\ c = (Q2R (fst (sqv k)), Q2R (snd (sqv k))).
Proof.
  intros [A B]. assert (L : k < 4) by (apply nth_error_lt in B; cbn in B; lia). split; auto. destruct c as [x y]. cbn [fst snd] in *.
  destruct k as [|[|[|[|k]]]]; [| | | |lia]; cbn in A, B; injection A as <-; injection B as <-; reflexivity.
Qed.
Definition nearb (a b c d t : Q) : bool := negb (Qle_bool (t * t) ((a - c) * (a - c) + (b - d) * (b - d))).
Definition farb (a b c d t : Q) : bool := negb (Qle_bool ((a - c) * (a - c) + (b - d) * (b - d)) (t * t)).
Definition tolq : Q := 4 * (1 # 1000) * 10.
Lemma five_fitting : Fitting sq_frame (map Q2R square) square_plc (4 * Q2R (1 # 1000) * 10)%R five_polys five_corner.
Proof.
  assert (T : (4 * Q2R (1 # 1000) * 10)%R = Q2R tolq). { unfold tolq, Q2R. cbn. lra. }
  rewrite T. assert (T0 : (0 < tolq)%Q) by reflexivity.
  assert (Nl : forall x y, Qle_bool x y = false -> (y < x)%Q). { intros x y H. apply Qnot_le_lt. intros C. apply Qle_bool_iff in C. congruence. }
  assert (C : forall k, k < 4 -> OuterCorner five_polys (five_corner k)).
  { intros k L. apply (starts_ok _ (nth k [3; 5; 14; 16] 0)). destruct k as [|[|[|[|k]]]]; [| | | |lia]; vm_compute; reflexivity. }
  constructor.
  - intros k c P. destruct (square_at k c P) as [L ->]. split.
    + exact (C k L).
    + unfold place. apply near_q; [exact T0|]. apply Nl. assert (X : forallb (fun k => nearb (fst (deq sq_frame (five_corner k))) (snd (deq sq_frame (five_corner k))) (fst (sqv k)) (snd (sqv k)) tolq) (seq 0 4) = true) by (vm_compute; reflexivity).
      rewrite forallb_forall in X. specialize (X k ltac:(apply in_seq; lia)). apply negb_true_iff in X. exact X.
  - intros k c q P O N. destruct (square_at k c P) as [L ->]. apply five_outer_ok in O. unfold place. apply far_q; [exact T0|]. apply Nl.
    assert (X : forallb (fun k => forallb (fun q => pt_eqb q (five_corner k) || farb (fst (deq sq_frame q)) (snd (deq sq_frame q)) (fst (sqv k)) (snd (sqv k)) tolq) five_outer) (seq 0 4) = true) by (vm_compute; reflexivity).
    rewrite forallb_forall in X. specialize (X k ltac:(apply in_seq; lia)). rewrite forallb_forall in X. specialize (X q O). apply orb_true_iff in X as [X|X]; [apply pt_eqb_iff in X; contradiction|].
    apply negb_true_iff in X. exact X.
  - intros k k' c c' P P' E. destruct (square_at k c P) as [L _]. destruct (square_at k' c' P') as [L' _].
    assert (X : forallb (fun k => forallb (fun k' => (k =? k') || negb (pt_eqb (five_corner k) (five_corner k'))) (seq 0 4)) (seq 0 4) = true) by (vm_compute; reflexivity).
    rewrite forallb_forall in X. specialize (X k ltac:(apply in_seq; lia)). rewrite forallb_forall in X. specialize (X k' ltac:(apply in_seq; lia)). apply orb_true_iff in X as [X|X]; [apply Nat.eqb_eq; auto|].
    apply negb_true_iff in X. apply pt_eqb_iff in E. congruence.
  - intros q O. apply five_outer_ok in O.
    assert (X : forallb (fun qn => let '(q, (i, j, n, t)) := qn in existsb (fun fc => match fc with [a; b] => (a =? i)%Z && (b =? j)%Z | _ => false end) (facets square_plc) && (Z.of_nat n =? i)%Z && (Z.of_nat (Z.to_nat j) =? j)%Z && (n <? 4) && (Z.to_nat j <? 4) && Qle_bool 0 t && Qle_bool t 1 &&
        nearb (fst (deq sq_frame q)) (snd (deq sq_frame q)) (fst (sqv n) + t * (fst (sqv (Z.to_nat j)) - fst (sqv n))) (snd (sqv n) + t * (snd (sqv (Z.to_nat j)) - snd (sqv n))) (1 # 100)) (combine five_outer five_near) = true) by (vm_compute; reflexivity).
    rewrite forallb_forall in X.
    assert (Y : exists e, In (q, e) (combine five_outer five_near)).
    { apply In_nth_error in O as [i Hi]. destruct (nth_error_ex five_near i) as [e He]; [apply nth_error_lt in Hi; exact Hi|]. exists e. apply nth_error_In with i.
      clear - Hi He. revert i Hi He. generalize five_outer five_near. induction l as [|a l IH]; intros [|b l'] [|i] Hi He; try discriminate; cbn in *; [congruence|]. apply IH; auto. }
    destruct Y as ([[[i j] n] t] & Ie). specialize (X _ Ie). cbv beta iota in X. rewrite !andb_true_iff in X. destruct X as (((((((X1 & X2) & X3) & X4) & X5) & X6) & X7) & X8).
    apply existsb_exists in X1 as (fc & If & Xf). destruct fc as [|a [|b [|? ?]]]; try discriminate. apply andb_true_iff in Xf as [Xa Xb]. apply Z.eqb_eq in Xa, Xb, X2, X3. subst a b i.
    apply Nat.ltb_lt in X4, X5. apply Qle_bool_iff in X6, X7. apply negb_true_iff, Nl in X8.
    exists (Q2R (fst (sqv n) + t * (fst (sqv (Z.to_nat j)) - fst (sqv n))), Q2R (snd (sqv n) + t * (snd (sqv (Z.to_nat j)) - snd (sqv n)))). split.
    + exists [Z.of_nat n; Z.of_nat (Z.to_nat j)]. split; [left; rewrite X3; exact If|]. exists n, (Z.to_nat j), (Q2R (fst (sqv n)), Q2R (snd (sqv n))), (Q2R (fst (sqv (Z.to_nat j))), Q2R (snd (sqv (Z.to_nat j)))).
      assert (Pt : forall k, k < 4 -> point_at (map Q2R square) k (Q2R (fst (sqv k)), Q2R (snd (sqv k)))). { intros k L. destruct k as [|[|[|[|k]]]]; [| | | |lia]; split; reflexivity. }
      split; auto. split; [apply Pt; auto|]. split; [apply Pt; auto|]. exists (Q2R t). apply Qle_Rle in X6, X7. rewrite RMicromega.Q2R_0 in X6. rewrite RMicromega.Q2R_1 in X7.
      cbn [fst snd]. rewrite !Q2R_plus, !Q2R_mult, !Q2R_minus. auto.
    + unfold place. pose proof (near_q _ _ _ _ (1 # 100) ltac:(reflexivity) X8) as L. assert (slack < / 100)%R by (unfold slack; lra). assert (T1 : Q2R (1 # 100) = (/ 100)%R) by (unfold Q2R; cbn; lra). assert (T2 : Q2R tolq = (4 / 100)%R) by (unfold tolq, Q2R; cbn; lra).
      rewrite T1 in L. rewrite T2. lra.
Qed.
Lemma square_side : LargestSide (map Q2R square) 10.
Proof.
  constructor.
  - intros i j a b P P'. destruct (square_at i a P) as [L ->]. destruct (square_at j b P') as [L' ->].
    destruct i as [|[|[|[|i]]]]; [| | | |lia]; destruct j as [|[|[|[|j]]]]; try lia; cbn [sqv fst snd nth square map Nat.mul Nat.add]; unfold Q2R, inject_Z; cbn [Qnum Qden]; split; unfold Rabs; destruct (Rcase_abs _); lra.
  - exists 1, 0, (Q2R (inject_Z 10), Q2R (inject_Z 0)), (Q2R (inject_Z 0), Q2R (inject_Z 0)). split; [split; reflexivity|]. split; [split; reflexivity|]. left. unfold Q2R, inject_Z. cbn. lra.
Qed.
Lemma square_segments : segments (map Q2R square) square_plc.
Proof.
  intros fc [I|(h & [] & _)]. destruct I as [<-|[<-|[<-|[<-|[]]]]]; [exists 0, 1|exists 1, 2|exists 2, 3|exists 3, 0]; cbn; repeat split; lia.
Qed.
Lemma square_some : 0 < length square.
Proof. cbn. lia. Qed.
Lemma square_range : forall x, In x square -> (- 1000 <= x <= 1000)%Q.
Proof. apply Forall_forall; repeat constructor; vm_compute; discriminate. Qed.
Lemma square_used : forall k, 2 * k + 1 < length square -> exists fc i j, some_facet square_plc fc /\ fc = [Z.of_nat i; Z.of_nat j] /\ (k = i \/ k = j).
Proof.
  intros k L. cbn in L. assert (k < 4) by lia. destruct k as [|[|[|[|k]]]]; [| | | |lia]; [exists [0; 1]%Z, 0, 1|exists [1; 2]%Z, 1, 2|exists [2; 3]%Z, 2, 3|exists [3; 0]%Z, 3, 0]; (split; [left; cbn; auto 6|]); split; auto.
Qed.
Example five_snapped : exists m', tessellate_bounded 1000 (fun _ => five_tris) box_lib (1 # 1000) five square square_plc mesh_new = Ok m' /\ WellFormed 2 m' /\
  length (cells m') = 5 /\ (forall k c, point_at (map Q2R square) k c -> exists n, In n (boundaryNodes m') /\ point_at (nodes m') n c) /\
  (forall n, In n (boundaryNodes m') -> exists q, point_at (nodes m') n q /\ OnBoundary (map Q2R square) square_plc q).
Proof.
  destruct five_conditions as (gq & uq & N0 & Ev & Bb & Ins & Ff & C & D & Ou & ns & es & cs & E & Cut & Ap & Sd & Os).
  destruct (bounded_snapped 1000 (fun _ => five_tris) box_lib (1 # 1000) five square square_plc 0 0 10 10 sq_frame gq uq square_outline [] 10 N0 Ev Bb Ins Ff C D Ou) as (ns' & es' & cs' & E' & _ & H).
  - constructor.
  - exact square_side.
  - exact square_segments.
  - unfold Q2R. cbn. lra.
  - rewrite E in E'. injection E' as <- <- <-.
    destruct (H five_polys five_corner Cut Ap Sd Os five_fitting) as (m & m' & Pm & Lm & Em & Sn & Wf). exists m'. split; [exact Em|]. split; [exact Wf|]. split.
    + rewrite (sn_cells _ _ _ _ _ Sn). cbn [cells real_mesh]. clear - Lm. cbn in Lm. lia.
    + refine (bounded_exact 1000 (fun _ => five_tris) box_lib (1 # 1000) five square square_plc 10 m' square_some eq_refl square_range square_side square_used square_segments Em).
Qed.

(* ------------------------------------------------------------ C84 *)
(* The same in a box, given by two opposite corners. *)
Theorem box_tessellation : forall big tri_lib lib deg points xl yl xh yh f gens guards,
  0 < length points -> length points mod 2 = 0 -> (- big <= xl /\ xl < xh /\ xh <= big)%Q -> (- big <= yl /\ yl < yh /\ yh <= big)%Q ->
  (forall i x y, vertex 2 points i = [x; y] -> (xl <= x <= xh)%Q /\ (yl <= y <= yh)%Q) ->
  boundary_frame big [xl; yl; xh; yl; xh; yh; xl; yh] = Ok f -> construct f points = Ok (gens, guards) ->
  let pts := map (deq f) (map fst gens ++ map fst guards) in
  Delaunay pts (length gens) (tri_lib pts) ->
  let v := map Q2R [xl; yl; xh; yl; xh; yh; xl; yh] in let tol := (4 * Q2R deg * Q2R (qmax (xh - xl) (yh - yl)))%R in
  (tol < Q2R big)%R ->
  exists ns es cs, tess_grid tri_lib f (map fst guards) (map fst gens) = Ok (ns, es, cs) /\
    (forall i c, nth_error cs i = Some c -> VoronoiCell f pts (length gens) (tri_lib pts) ns es i c) /\
    forall polys corner, CutTo lib (b_outline lib (map (quantize f) [(xl, yl); (xh, yl); (xh, yh); (xl, yh)]) []) (map fst gens) ns es cs polys ->
    WellApart polys -> SideBySide polys -> (exists s, OuterSide polys s) -> Fitting f v square_plc tol polys corner ->
    exists m m', PolygonMesh f polys m /\ 2 * length (cells m) = length points /\
      tessellate_box big tri_lib lib deg points xl yl xh yh mesh_new = Ok m' /\ Snapped v square_plc tol (real_mesh m) m' /\ WellFormed 2 m'.
Proof.
  intros big tri_lib lib deg points xl yl xh yh f gq uq N0 Ev (X1 & X2 & X3) (Y1 & Y2 & Y3) Ins Ff Co pts D v tol Bt.
  set (PLC := [xl; yl; xh; yl; xh; yh; xl; yh]) in *.
  assert (Rg : forall x, In x PLC -> (- big <= x <= big)%Q). { intros x I. cbn in I. decompose [or] I; try contradiction; subst x; split; Lqa.lra. }
  destruct (bounding_box_tight 2 big PLC ltac:(cbn; lia) eq_refl Rg) as ([lo hi] & Box & Tb).
  assert (Pt : points_of 2 PLC = [[xl; yl]; [xh; yl]; [xh; yh]; [xl; yh]]) by reflexivity.
  assert (Bb : BoundaryBox big PLC xl yl xh yh).
  { split; [cbn; lia|]. split; [reflexivity|]. split; auto. split; [|left; auto]. rewrite Pt.
    assert (J : forall (a b : Q) j x, nth_error [a; b] j = Some x -> (j = 0 /\ x = a) \/ (j = 1 /\ x = b)) by (intros a b [|[|[|j]]] x H; cbn in H; try discriminate; injection H as <-; auto).
    constructor; cbn [fst snd]; auto.
    - intros c j x l h I Hx Hl Hh. destruct (J _ _ _ _ Hl) as [[-> ->]|[-> ->]]; destruct (J _ _ _ _ Hh) as [[E ->]|[E ->]]; try discriminate E; cbn in I; decompose [or] I; try contradiction; subst c; cbn in Hx; injection Hx as <-; Lqa.lra.
    - intros j l H. exists [xl; yl], l. split; [cbn; auto|]. split; auto. reflexivity.
    - intros j l H. exists [xh; yh], l. split; [cbn; auto|]. split; auto. reflexivity. }
  set (w := Q2R (qmax (xh - xl) (yh - yl))) in *.
  assert (W : (Q2R xh - Q2R xl <= w /\ Q2R yh - Q2R yl <= w /\ (w = Q2R xh - Q2R xl \/ w = Q2R yh - Q2R yl))%R).
  { unfold w. destruct (qmax_le (xh - xl) (yh - yl)) as (A & B & C). apply Qle_Rle in A, B. rewrite !Q2R_minus in A, B. split; auto. split; auto.
    destruct C as [C|C]; rewrite C, Q2R_minus; auto. }
  destruct W as (W1 & W2 & W3). apply Qlt_Rlt in X2, Y2.
  assert (At : forall k c, point_at v k c -> (k = 0 /\ c = (Q2R xl, Q2R yl)) \/ (k = 1 /\ c = (Q2R xh, Q2R yl)) \/ (k = 2 /\ c = (Q2R xh, Q2R yh)) \/ (k = 3 /\ c = (Q2R xl, Q2R yh))).
  { intros k [x y] [A B]. cbn [fst snd] in *. assert (L : k < 4) by (apply nth_error_lt in B; cbn in B; lia). destruct k as [|[|[|[|k]]]]; [| | | |lia]; cbn in A, B; injection A as <-; injection B as <-; auto 6. }
  assert (Ls : LargestSide v w).
  { constructor.
    - intros i j a b P P'. destruct (At i a P) as [[-> ->]|[[-> ->]|[[-> ->]|[-> ->]]]]; destruct (At j b P') as [[-> ->]|[[-> ->]|[[-> ->]|[-> ->]]]]; cbn [fst snd]; split; unfold Rabs; destruct (Rcase_abs _); lra.
    - exists 2, 0, (Q2R xh, Q2R yh), (Q2R xl, Q2R yl). split; [split; reflexivity|]. split; [split; reflexivity|]. cbn [fst snd]. destruct W3 as [-> | ->]; auto. }
  assert (Sg : segments v square_plc).
  { intros fc [I|(h & [] & _)]. destruct I as [<-|[<-|[<-|[<-|[]]]]]; [exists 0, 1|exists 1, 2|exists 2, 3|exists 3, 0]; cbn; repeat split; lia. }
  assert (Ou : Outline f PLC (facets square_plc) (map (quantize f) [(xl, yl); (xh, yl); (xh, yh); (xl, yh)])).
  { repeat constructor; [exists 0, 1%Z, xl, yl|exists 1, 2%Z, xh, yl|exists 2, 3%Z, xh, yh|exists 3, 0%Z, xl, yh]; auto. }
  exact (bounded_snapped big tri_lib lib deg points PLC square_plc xl yl xh yh f gq uq _ [] w N0 Ev Bb Ins Ff Co D Ou (Forall2_nil _) Ls Sg Bt).
Qed.
Print Assumptions box_tessellation.

(* However the mesh came about: if the call returns, every boundary node is on the outline of the box, and its
   four corners are among them. *)
Definition OnBox (xl yl xh yh : R) (q : R * R) : Prop :=
  (xl <= fst q <= xh /\ yl <= snd q <= yh /\ (fst q = xl \/ fst q = xh \/ snd q = yl \/ snd q = yh))%R.
Theorem box_exact : forall big tri_lib lib deg points xl yl xh yh m',
  (- big <= xl /\ xl < xh /\ xh <= big)%Q -> (- big <= yl /\ yl < yh /\ yh <= big)%Q ->
  tessellate_box big tri_lib lib deg points xl yl xh yh mesh_new = Ok m' ->
  (forall n, In n (boundaryNodes m') -> exists q, point_at (nodes m') n q /\ OnBox (Q2R xl) (Q2R yl) (Q2R xh) (Q2R yh) q) /\
  (forall x y, x = xl \/ x = xh -> y = yl \/ y = yh -> exists n, In n (boundaryNodes m') /\ point_at (nodes m') n (Q2R x, Q2R y)).
Proof.
  intros big tri_lib lib deg points xl yl xh yh m' (X1 & X2 & X3) (Y1 & Y2 & Y3) E.
  set (PLC := [xl; yl; xh; yl; xh; yh; xl; yh]).
  assert (Rg : forall x, In x PLC -> (- big <= x <= big)%Q). { intros x I. cbn in I. decompose [or] I; try contradiction; subst x; split; Lqa.lra. }
  set (v := map Q2R PLC). set (w := Q2R (qmax (xh - xl) (yh - yl))).
  assert (W : (Q2R xh - Q2R xl <= w /\ Q2R yh - Q2R yl <= w /\ (w = Q2R xh - Q2R xl \/ w = Q2R yh - Q2R yl))%R).
  { unfold w. destruct (qmax_le (xh - xl) (yh - yl)) as (A & B & C). apply Qle_Rle in A, B. rewrite !Q2R_minus in A, B. split; auto. split; auto.
    destruct C as [C|C]; rewrite C, Q2R_minus; auto. }
  destruct W as (W1 & W2 & W3). apply Qlt_Rlt in X2, Y2.
  assert (At : forall k c, point_at v k c -> (k = 0 /\ c = (Q2R xl, Q2R yl)) \/ (k = 1 /\ c = (Q2R xh, Q2R yl)) \/ (k = 2 /\ c = (Q2R xh, Q2R yh)) \/ (k = 3 /\ c = (Q2R xl, Q2R yh))).
  { intros k [x y] [A B]. cbn [fst snd] in *. assert (L : k < 4) by (apply nth_error_lt in B; cbn in B; lia). destruct k as [|[|[|[|k]]]]; [| | | |lia]; cbn in A, B; injection A as <-; injection B as <-; auto 6. }
  assert (Ls : LargestSide v w).
  { constructor.
    - intros i j a b P P'. destruct (At i a P) as [[-> ->]|[[-> ->]|[[-> ->]|[-> ->]]]]; destruct (At j b P') as [[-> ->]|[[-> ->]|[[-> ->]|[-> ->]]]]; cbn [fst snd]; split; unfold Rabs; destruct (Rcase_abs _); lra.
    - exists 2, 0, (Q2R xh, Q2R yh), (Q2R xl, Q2R yl). split; [split; reflexivity|]. split; [split; reflexivity|]. cbn [fst snd]. destruct W3 as [-> | ->]; auto. }
  assert (Sg : segments v square_plc).
  { intros fc [I|(h & [] & _)]. destruct I as [<-|[<-|[<-|[<-|[]]]]]; [exists 0, 1|exists 1, 2|exists 2, 3|exists 3, 0]; cbn; repeat split; lia. }
  destruct (bounded_exact big tri_lib lib deg points PLC square_plc w m' ltac:(cbn; lia) eq_refl Rg Ls square_used Sg E) as [Co On]. fold v in Co, On. split.
  - intros n I. destruct (On n I) as (q & P & fc & Sf & i & j & a & b & -> & Pa & Pb & t & [T0 T1] & Qx & Qy). exists q. split; auto. unfold OnBox. rewrite Qx, Qy.
    destruct Sf as [F|(h & HF & _)]; [|destruct HF]. assert (Ij : (i = 0 /\ j = 1) \/ (i = 1 /\ j = 2) \/ (i = 2 /\ j = 3) \/ (i = 3 /\ j = 0)).
    { destruct F as [F|[F|[F|[F|[]]]]]; injection F as Fi Fj; lia. }
    destruct (At i a Pa) as [[-> ->]|[[-> ->]|[[-> ->]|[-> ->]]]]; destruct (At j b Pb) as [[-> ->]|[[-> ->]|[[-> ->]|[-> ->]]]]; try lia; cbn [fst snd]; repeat split; nra.
  - intros x y [-> | ->] [-> | ->]; [apply (Co 0)|apply (Co 3)|apply (Co 1)|apply (Co 2)]; split; reflexivity.
Qed.
Print Assumptions box_exact.
Example five_box : exists m', tessellate_box 1000 (fun _ => five_tris) box_lib (1 # 1000) five 0 0 10 10 mesh_new = Ok m' /\ WellFormed 2 m' /\ length (cells m') = 5.
Proof. destruct five_snapped as (m' & E & W & L & _). exists m'. split; [exact E|]. split; [exact W|exact L]. Qed.
