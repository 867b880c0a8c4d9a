(* The tessellation of points in a boundary (C81, C82).  The vocabulary is in ClipSpec.v,
   BoundedSpec.v and TriSpec.v. *)
From Coq Require Import QArith Lqa Sorted.
From Verif Require Import Base BaseFacts SerializeModel MeshModel MeshSpec MeshProps QuantMeshModel QuantMeshSpec QuantMeshProps PLCSpec BoxModel BoxProofs BoxProps Plane WithinSpec TriModel TriSpec TriProofs6 TriProofs11 TriProps TriCheck TessSpec TessProofs ClipModel ClipSpec ClipProofs ClipProofs2 BoundedModel BoundedSpec BoundedProofs BoundedCheck.
Local Open Scope nat_scope.

(* The boundary points are within the range of the number type, with the box [xl,xh] x [yl,yh]. *)
Definition BoundaryBox (big : Q) (v : list Q) (xl yl xh yh : Q) : Prop :=
  0 < length v /\ length v mod 2 = 0 /\ (forall x, In x v -> (- big <= x <= big)%Q) /\
  TightBox 2 (points_of 2 v) ([xl; yl], [xh; yh]) /\ (xl < xh \/ yl < yh)%Q.
(* The cells are each cut to one polygon. *)
Definition CutTo (lib : polylib) (bs : list polygon) (gens ns : list pt) (es : list (nat * nat)) (cs : list (list Z)) (polys : list polygon) : Prop :=
  length polys = length cs /\
  forall i c, nth_error cs i = Some c -> exists gen corners poly, nth_error gens i = Some gen /\ nth_error polys i = Some poly /\
     Corners ns es c corners /\ OnePiece lib bs gen corners poly.

Lemma box_of big v xl yl xh yh : BoundaryBox big v xl yl xh yh -> exists xl' yl' xh' yh', local_box 2 big v = Ok ([xl'; yl'], [xh'; yh']) /\
  (xl' == xl /\ yl' == yl /\ xh' == xh /\ yh' == yh)%Q.
Proof.
  intros (N0 & Ev & Rg & Tb & Sz). destruct (bounding_box_tight 2 big v N0 Ev Rg) as ([lo hi] & Box & Tb').
  pose proof (tb_lo _ _ _ Tb') as Ll. pose proof (tb_hi _ _ _ Tb') as Lh. cbn [fst snd] in Ll, Lh.
  destruct lo as [|xl' [|yl' [|? ?]]]; try discriminate. destruct hi as [|xh' [|yh' [|? ?]]]; try discriminate.
  exists xl', yl', xh', yh'. split; auto.
  assert (Same : forall lo hi lo' hi', TightBox 2 (points_of 2 v) (lo, hi) -> TightBox 2 (points_of 2 v) (lo', hi') ->
    forall j l h l' h', nth_error lo j = Some l -> nth_error hi j = Some h -> nth_error lo' j = Some l' -> nth_error hi' j = Some h' -> (l <= l')%Q /\ (h' <= h)%Q).
  { intros lo hi lo' hi' T T' j l h l' h' H1 H2 H3 H4. destruct (tb_lo_met _ _ _ T' j l' H3) as (p1 & x1 & I1 & N1 & Q1). destruct (tb_hi_met _ _ _ T' j h' H4) as (p2 & x2 & I2 & N2 & Q2).
    pose proof (tb_in _ _ _ T p1 j x1 l h I1 N1 H1 H2). pose proof (tb_in _ _ _ T p2 j x2 l h I2 N2 H1 H2). lra. }
  pose proof (Same _ _ _ _ Tb Tb' 0 xl xh xl' xh' eq_refl eq_refl eq_refl eq_refl). pose proof (Same _ _ _ _ Tb Tb' 1 yl yh yl' yh' eq_refl eq_refl eq_refl eq_refl).
  pose proof (Same _ _ _ _ Tb' Tb 0 xl' xh' xl xh eq_refl eq_refl eq_refl eq_refl). pose proof (Same _ _ _ _ Tb' Tb 1 yl' yh' yl yh eq_refl eq_refl eq_refl eq_refl).
  repeat split; lra.
Qed.

(* ------------------------------------------------------------ C81 *)
(* The points lie in the box of the boundary; f is the frame that the tessellator puts around the
   boundary, and the Triangle library gives a Delaunay triangulation of the points on the grid of
   the frame and the guards.  Then the cells ns, es, cs before clipping are the Voronoi cells.  If
   the polygon library cuts each of them at the boundary to one polygon, with corners apart and
   sides matching, then the tessellation has, for each point, the cell with this polygon. *)
Theorem bounded_tessellation : forall big tri_lib lib points PLCpoints geometry xl yl xh yh f gens guards outer inner,
  0 < length points -> length points mod 2 = 0 -> BoundaryBox big PLCpoints xl yl xh yh ->
  (forall i x y, vertex 2 points i = [x; y] -> (xl <= x <= xh)%Q /\ (yl <= y <= yh)%Q) ->
  boundary_frame big PLCpoints = Ok f -> construct f points = Ok (gens, guards) ->
  let pts := map (deq f) (map fst gens ++ map fst guards) in
  Delaunay pts (length gens) (tri_lib pts) ->
  Outline f PLCpoints (facets geometry) outer -> Forall2 (Outline f PLCpoints) (holes geometry) inner ->
  exists ns es cs, tess_grid tri_lib f (map fst guards) (map fst gens) = Ok (ns, es, cs) /\
    (forall i c, nth_error cs i = Some c -> VoronoiCell f pts (length gens) (tri_lib pts) ns es i c) /\
    forall polys, CutTo lib (b_outline lib outer inner) (map fst gens) ns es cs polys -> WellApart polys -> SideBySide polys -> (exists s, OuterSide polys s) ->
    exists m, tessellate_clipped big tri_lib lib points PLCpoints geometry mesh_new = Ok m /\ PolygonMesh f polys m /\ 2 * length (cells m) = length points.
Proof.
  intros big tri_lib lib points v g xl0 yl0 xh0 yh0 f gq uq outer inner N0 Ev Bb Ins0 Ff Co pts D Ou In_.
  destruct (box_of _ _ _ _ _ _ Bb) as (xl & yl & xh & yh & Box & Q1 & Q2 & Q3 & Q4).
  assert (Ins : forall i x y, vertex 2 points i = [x; y] -> (xl <= x <= xh)%Q /\ (yl <= y <= yh)%Q).
  { intros i x y V. specialize (Ins0 i x y V). lra. }
  assert (Size : (xl < xh \/ yl < yh)%Q) by (destruct Bb as (_ & _ & _ & _ & [S|S]); [left|right]; lra).
  pose proof (map_length fst gq) as Lg. pose proof D as D'. rewrite <- Lg in D'.
  destruct (standard_frame big v points xl yl xh yh f gq uq (tri_lib pts) Box Size Ff Co ltac:(destruct points; [cbn in N0; lia|discriminate]) Ins D') as (ns & es & cs & E & Du & V & _).
  fold pts in V. rewrite Lg in *. pose proof (du_cells _ _ _ _ _ Du) as Lc.
  exists ns, es, cs. split; [exact E|]. split; [exact V|]. intros polys (Lp & Cut) Ap Sd Out.
  pose proof (f_full big v points xl yl xh yh f gq uq Box Size Ff Co) as Fu.
  assert (Fr : forall a x y, vertex 2 v a = [x; y] -> in_frame f (x, y)).
  { intros a x y Va. assert (Bx : (xl <= x <= xh)%Q /\ (yl <= y <= yh)%Q).
    { destruct Bb as (B0 & B1 & B2 & Tb & _). assert (I : In [x; y] (points_of 2 v)).
      { unfold points_of. rewrite <- Va. apply in_map. apply in_seq. assert (L : length (vertex 2 v a) = 2) by (rewrite Va; auto).
        unfold vertex in L. rewrite firstn_length, skipn_length in L. assert (2 * a + 2 <= length v) by lia.
        assert (S a <= length v / 2); [|lia]. apply Nat.div_le_lower_bound; lia. }
      pose proof (tb_in _ _ _ Tb [x; y] 0 x _ _ I eq_refl eq_refl eq_refl). pose proof (tb_in _ _ _ Tb [x; y] 1 y _ _ I eq_refl eq_refl eq_refl). lra. }
    rewrite (f_is big v points xl yl xh yh f gq uq Box Ff Co). unfold in_frame. cbn [fx fy flen TriProofs10.around_box fst snd].
    destruct (qmax_le (xh - xl) (yh - yl)) as (A1 & A2 & _). lra. }
  pose proof (boundary_ok lib f v Fu Fr g outer inner Ou In_) as Bs.
  destruct (clip_pieces lib (tess_grid tri_lib f (map fst uq)) f (map fst gq) ns es cs v g _ polys Bs Lp Ap Cut) as (ns' & es' & cs' & Ec & Mo).
  destruct (polygon_mesh f polys ns' es' cs' Mo Sd) as (m & bf & bn & Em & Eb & Pm); auto.
  { intros p I. apply In_nth_error in I as [i Hp]. destruct (nth_error_ex cs i) as [c Hc]; [rewrite <- Lp; eapply nth_error_lt; eauto|].
    destruct (Cut i c Hc) as (gen & k & p' & _ & Hp' & _ & _ & _ & x & xs & Ep & _). assert (p' = p) by congruence. subst p' p. cbn. rewrite app_length. cbn. lia. }
  eexists. split; [|split; [exact Pm|]].
  - unfold tessellate_clipped. cbn [mesh_empty mesh_new isnil nodes]. cbn [assert bind andb]. change (plc_empty (convexHull mesh_new)) with true. cbn [assert bind andb].
    rewrite (proj2 (Nat.ltb_lt _ _) N0), (proj2 (Nat.eqb_eq _ _) Ev). cbn [assert bind]. rewrite Ff. cbn [bind]. rewrite Co. cbn [bind].
    change (tri_tessellate f (map fst gq) (map fst uq) (tri_lib pts)) with (tess_grid tri_lib f (map fst uq) (map fst gq)) in E. rewrite E. cbn [bind]. rewrite Ec. cbn [bind].
    assert (L' : length gq = length cs') by (rewrite (mo_cells _ _ _ _ Mo), Lp; auto). rewrite L', Em. cbn [bind]. rewrite Eb. reflexivity.
  - rewrite (pm_cells _ _ _ Pm), Lp, Lc. destruct (construct_correct f points gq uq Co) as (Len & _). lia.
Qed.
Print Assumptions bounded_tessellation.

(* Five points in the square; the library for boxes and convex cells is in BoundedCheck.v. *)
Definition square_plc : plc := mkPLC [[0; 1]; [1; 2]; [2; 3]; [3; 0]]%Z [].
Definition square_outline : polygon := [(-214748366, -214748366); (214748364, -214748366); (214748364, 214748364); (-214748366, 214748364)]%Z.
Definition five_polys : list polygon :=
  [[(-21474838, -107374184); (-90194315, -4294969); (-214748366, 26843543); (-214748366, -214748366); (-42949675, -214748366);
   (-21474838, -107374184)]; [(214748364, -214748366); (214748364, -17895699); (133143985, -4294969); (-21474838, -107374184);
   (-42949675, -214748366); (214748364, -214748366)]; [(-2, 214748364); (21474835, 107374181); (133143985, -4294969); (214748364,
   -17895699); (214748364, 214748364); (-2, 214748364)]; [(-2, 214748364); (-214748366, 214748364); (-214748366, 26843543);
   (-90194315, -4294969); (21474835, 107374181); (-2, 214748364)]; [(-21474838, -107374184); (133143985, -4294969); (21474835,
   107374181); (-90194315, -4294969); (-21474838, -107374184)]]%Z.
(* every hypothesis of the theorem holds *)
Lemma five_conditions : exists gens guards, 0 < length five /\ length five mod 2 = 0 /\ BoundaryBox 1000 square 0 0 10 10 /\
  (forall i x y, vertex 2 five i = [x; y] -> (0 <= x <= 10)%Q /\ (0 <= y <= 10)%Q) /\
  boundary_frame 1000 square = Ok sq_frame /\ construct sq_frame five = Ok (gens, guards) /\
  Delaunay (map (deq sq_frame) (map fst gens ++ map fst guards)) (length gens) five_tris /\ Outline sq_frame square (facets square_plc) square_outline /\
  exists ns es cs, tess_grid (fun _ => five_tris) sq_frame (map fst guards) (map fst gens) = Ok (ns, es, cs) /\
    CutTo box_lib (b_outline box_lib square_outline []) (map fst gens) ns es cs five_polys /\ WellApart five_polys /\ SideBySide five_polys /\ (exists s, OuterSide five_polys s).
Proof.
  destruct five_made as (gq & uq & C & Eg & Eu). exists gq, uq. split; [cbn; lia|]. split; [reflexivity|]. split.
  { split; [cbn; lia|]. split; [reflexivity|]. split; [apply Forall_forall; repeat constructor; vm_compute; discriminate|]. split; [|left; reflexivity].
    destruct (bounding_box_tight 2 1000 square) as (b & Eb & Tb); [cbn; lia|reflexivity|apply Forall_forall; repeat constructor; vm_compute; discriminate|].
    rewrite square_box in Eb. injection Eb as <-. exact Tb. }
  split; [apply in_square; vm_compute; reflexivity|]. split; [exact square_frame|]. split; [exact C|]. split.
  { rewrite Eg, Eu. assert (L : length gq = 5) by (rewrite <- (map_length fst), Eg; reflexivity). rewrite L. exact five_delaunay. }
  split.
  { assert (Q : forall a b x y, vertex 2 square a = [x; y] -> exists a' b' x' y', [Z.of_nat a; b] = [Z.of_nat a'; b'] /\ vertex 2 square a' = [x'; y'] /\ quantize sq_frame (x, y) = quantize sq_frame (x', y')) by (intros; do 4 eexists; eauto).
    replace square_outline with (map (quantize sq_frame) [(0, 0); (10, 0); (10, 10); (0, 10)]%Q) by (vm_compute; reflexivity).
    repeat constructor; cbn [map square_plc facets]; apply (Q 0 1%Z) || apply (Q 1 2%Z) || apply (Q 2 3%Z) || apply (Q 3 0%Z); reflexivity. }
  exists five_nodes, five_edges, five_cells. unfold tess_grid. rewrite Eg, Eu. split; [exact five_mesh|]. split; [|split; [|split]].
  - split; [reflexivity|]. apply pieceb_ok. vm_compute. reflexivity.
  - apply apartb_ok. vm_compute. reflexivity.
  - apply sideb_ok. vm_compute. reflexivity.
  - exists (nth 2 (all_sides five_polys) ((0, 0), (0, 0))%Z). apply outerb_ok. vm_compute. reflexivity.
Qed.
Example five_bounded : exists m, tessellate_clipped 1000 (fun _ => five_tris) box_lib five square square_plc mesh_new = Ok m /\
  PolygonMesh sq_frame five_polys m /\ length (cells m) = 5.
Proof.
  destruct five_conditions as (gq & uq & N0 & Ev & Bb & Ins & Ff & C & D & Ou & ns & es & cs & E & Cut & Ap & Sd & Os).
  destruct (bounded_tessellation 1000 (fun _ => five_tris) box_lib five square square_plc 0 0 10 10 sq_frame gq uq square_outline [] N0 Ev Bb Ins Ff C D Ou) as (ns' & es' & cs' & E' & _ & H); [constructor|].
  rewrite E in E'. injection E' as <- <- <-. destruct (H five_polys Cut Ap Sd Os) as (m & Em & Pm & Lm).
  exists m. split; [exact Em|]. split; [exact Pm|]. clear - Lm. cbn in Lm. lia.
Qed.

(* ------------------------------------------------------------ C82 *)
(* Adding a piece to a set of polygons does not give the empty set. *)
Definition KeepsPieces (lib : polylib) : Prop := forall cells s p os, In p (b_and lib cells s) -> b_or lib os [p] <> [].
(* A cell is cut to closed polygons, one of which contains the generator. *)
Definition Pieces (lib : polylib) (bs : list polygon) (gen : pt) (corners : polygon) : Prop :=
  (exists p, In p (b_and lib (b_or lib [] [corners]) bs) /\ b_contains lib p gen = true) /\
  forall p, In p (b_and lib (b_or lib [] [corners]) bs) -> exists v vs, p = v :: vs ++ [v] /\ 2 <= length vs.

(* The intended property: pieces without the generator are given to other cells, and the call
   returns. *)
Definition pieces_adopted : Prop := forall big tri_lib lib points PLCpoints geometry xl yl xh yh f gens guards outer inner ns es cs,
  0 < length points -> length points mod 2 = 0 -> BoundaryBox big PLCpoints xl yl xh yh ->
  (forall i x y, vertex 2 points i = [x; y] -> (xl <= x <= xh)%Q /\ (yl <= y <= yh)%Q) ->
  boundary_frame big PLCpoints = Ok f -> construct f points = Ok (gens, guards) ->
  let pts := map (deq f) (map fst gens ++ map fst guards) in
  Delaunay pts (length gens) (tri_lib pts) ->
  Outline f PLCpoints (facets geometry) outer -> Forall2 (Outline f PLCpoints) (holes geometry) inner ->
  tess_grid tri_lib f (map fst guards) (map fst gens) = Ok (ns, es, cs) -> KeepsPieces lib ->
  (forall i c, nth_error cs i = Some c -> exists gen corners, nth_error (map fst gens) i = Some gen /\ Corners ns es c corners /\
     Pieces lib (b_outline lib outer inner) gen corners) ->
  exists m, tessellate_clipped big tri_lib lib points PLCpoints geometry mesh_new = Ok m.

(* It never holds when there is a piece to be given away: the points are read out of range
   (removeCollinearPoints, the point before the first one). *)
Theorem pieces_never_adopted : forall big tri_lib lib points PLCpoints geometry f gens guards bs ns es cs c corners m,
  boundary_frame big PLCpoints = Ok f -> construct f points = Ok (gens, guards) -> boundary_set lib f PLCpoints geometry = Ok bs ->
  tess_grid tri_lib f (map fst guards) (map fst gens) = Ok (ns, es, cs) -> KeepsPieces lib ->
  In c cs -> Corners ns es c corners -> 1 < length (b_and lib (b_or lib [] [corners]) bs) ->
  tessellate_clipped big tri_lib lib points PLCpoints geometry mesh_new <> Ok m.
Proof.
  intros big tri_lib lib points v g f gq uq bs ns es cs c k m Ff Co Bs E Kp I Ck Lk R. unfold tessellate_clipped in R.
  step R u0 E0. step R u1 E1. step R u2 E2. rewrite Ff in R. cbn [bind] in R. rewrite Co in R. cbn [bind] in R. rewrite E in R. cbn [bind] in R.
  step R r Er. apply (pieces_fail lib Kp _ f (map fst gq) ns es cs v g bs c k r Bs I Ck Lk Er).
Qed.
Print Assumptions pieces_never_adopted.

(* Two points in a U. *)
Definition u_points : list Q := map inject_Z [0; 0; 10; 0; 10; 10; 7; 10; 7; 3; 3; 3; 3; 10; 0; 10]%Z.
Definition u_plc : plc := mkPLC [[0; 1]; [1; 2]; [2; 3]; [3; 4]; [4; 5]; [5; 6]; [6; 7]; [7; 0]]%Z [].
Definition two_tris : list tri :=
  [(12, 8, 1); (0, 8, 2); (0, 1, 8); (0, 2, 6); (7, 3, 12); (7, 12, 1); (1, 0, 9); (7, 1, 9); (0, 6, 10); (13, 11, 7); (13, 7, 9); (9, 0, 10); (9, 10, 5)].
Definition two_stars : list (list nat * list nat) := [([8; 2; 6; 10; 9; 1], [1; 3; 8; 11; 6; 2]); ([12; 8; 0; 9; 7], [0; 2; 6; 7; 5])].
Definition two : list Q := map inject_Z [5; 1; 2; 8]%Z.
Definition crosses (q : pt) (s : pt * pt) : bool :=
  let (a, b) := s in xorb (snd q <? snd a)%Z (snd q <? snd b)%Z && (if (snd a <? snd b)%Z then (0 <? zcross a b q)%Z else (zcross a b q <? 0)%Z).
Definition in_poly (p : polygon) (q : pt) : bool := Nat.odd (length (filter (crosses q) (sides p))).
(* the cell of the lower point is cut to one piece, that of the upper one to a piece in each arm *)
Definition lower_piece : polygon :=
  [(-214748366, -214748366); (214748364, -214748366); (214748364, 98170680); (85899345, 42949672); (85899345, -85899347);
   (-85899347, -85899347); (-85899347, -30678339); (-214748366, -85899347); (-214748366, -214748366)]%Z.
Definition left_arm : polygon :=
  [(-214748366, -214748366); (-85899347, -214748366); (-85899347, 214748364); (-214748366, 214748364)]%Z.
Definition right_arm : polygon :=
  [(85899345, -214748366); (214748364, -214748366); (214748364, 214748364); (85899345, 214748364)]%Z.
Definition u_lib : polylib := mkLib (fun o _ => [o])
  (fun cells _ => flat_map (fun c => if in_poly (c ++ firstn 1 c) (quantize sq_frame (5, 1)%Q) then [lower_piece] else [box_cut left_arm c; box_cut right_arm c]) cells)
  (fun a b => a ++ b) in_poly (fun _ _ _ => false).
Definition two_nodes : list pt :=
  [(-665719932, 536870910); (-609026364, -536870913); (-560585456, -234115243); (-536870913, -622770259); (-536870913, 665719929);
   (488638657, 215552234); (521409028, 521409028); (536870910, -622770259); (609026361, -536870913)]%Z.
Definition two_edges : list (nat * nat) := [(2, 5); (5, 8); (7, 8); (3, 7); (1, 3); (1, 2); (5, 6); (4, 6); (0, 4); (0, 2)].
Definition two_cells : list (list Z) := [[0; 1; -3; -4; -5; 5]; [0; 6; -8; -9; 9]]%Z.
Definition u_outline : polygon :=
  [(-214748366, -214748366); (214748364, -214748366); (214748364, 214748364); (85899345, 214748364); (85899345, -85899347);
   (-85899347, -85899347); (-85899347, 214748364); (-214748366, 214748364)]%Z.
Definition piecesb (lib : polylib) (bs : list polygon) (gens ns : list pt) (es : list (nat * nat)) (cs : list (list Z)) : bool :=
  forallb (fun ic => match nth_error gens (fst ic), cornersb ns es (snd ic) with
    | Some g, Some k => let ps := b_and lib (b_or lib [] [k]) bs in existsb (fun p => b_contains lib p g) ps && forallb closedb ps
    | _, _ => false end) (combine (seq 0 (length cs)) cs).
Lemma piecesb_ok lib bs gens ns es cs : piecesb lib bs gens ns es cs = true -> forall i c, nth_error cs i = Some c ->
  exists gen corners, nth_error gens i = Some gen /\ Corners ns es c corners /\ Pieces lib bs gen corners.
Proof.
  unfold piecesb. rewrite forallb_forall. intros H i c Hc.
  assert (K : forall (l : list (list Z)) s i c, nth_error l i = Some c -> In (s + i, c) (combine (seq s (length l)) l)).
  { induction l as [|a l IH]; intros s [|j] d Hd; try discriminate; cbn in *; [injection Hd as ->; left; f_equal; lia|]. right. replace (s + S j) with (S s + j) by lia. apply IH. auto. }
  specialize (H _ (K cs 0 i c Hc)). cbn [fst snd Nat.add] in H. destruct (nth_error gens i) as [g|]; [|discriminate]. destruct (cornersb ns es c) as [k|] eqn:Ek; [|discriminate].
  cbv zeta in H. rewrite andb_true_iff, existsb_exists, forallb_forall in H. destruct H as [A B]. exists g, k. split; auto. split; [apply cornersb_ok; auto|]. split; auto.
  intros p I. apply closedb_ok. auto.
Qed.

Theorem pieces_adopted_refuted : ~ pieces_adopted.
Proof.
  intros H. assert (M : exists gq uq, construct sq_frame two = Ok (gq, uq) /\ map fst gq = fst (made two) /\ map fst uq = snd (made two)) by (do 2 eexists; split; [reflexivity|split; reflexivity]).
  destruct M as (gq & uq & C & Eg & Eu).
  assert (Bb : BoundaryBox 1000 u_points 0 0 10 10).
  { split; [cbn; lia|]. split; [reflexivity|]. split; [apply Forall_forall; repeat constructor; vm_compute; discriminate|]. split; [|left; reflexivity].
    destruct (bounding_box_tight 2 1000 u_points) as (b & Eb & Tb); [cbn; lia|reflexivity|apply Forall_forall; repeat constructor; vm_compute; discriminate|].
    assert (X : local_box 2 1000 u_points = Ok ([0; 0], [10; 10])%Q) by (vm_compute; reflexivity). rewrite X in Eb. injection Eb as <-. exact Tb. }
  assert (Ff : boundary_frame 1000 u_points = Ok sq_frame) by (vm_compute; reflexivity).
  assert (D : Delaunay (map (deq sq_frame) (map fst gq ++ map fst uq)) (length gq) two_tris).
  { rewrite Eg, Eu. assert (L : length gq = 2) by (rewrite <- (map_length fst), Eg; reflexivity). rewrite L. apply (delaunayb_ok sq_frame _ _ two_stars sq_proper). vm_compute. reflexivity. }
  assert (Ou : Outline sq_frame u_points (facets u_plc) u_outline).
  { assert (Q : forall a b x y, vertex 2 u_points a = [x; y] -> exists a' b' x' y', [Z.of_nat a; b] = [Z.of_nat a'; b'] /\ vertex 2 u_points a' = [x'; y'] /\ quantize sq_frame (x, y) = quantize sq_frame (x', y')) by (intros; do 4 eexists; eauto).
    replace u_outline with (map (quantize sq_frame) [(0, 0); (10, 0); (10, 10); (7, 10); (7, 3); (3, 3); (3, 10); (0, 10)]%Q) by (vm_compute; reflexivity).
    repeat constructor; cbn [map u_plc facets]; apply (Q 0 1%Z) || apply (Q 1 2%Z) || apply (Q 2 3%Z) || apply (Q 3 4%Z) || apply (Q 4 5%Z) || apply (Q 5 6%Z) || apply (Q 6 7%Z) || apply (Q 7 0%Z); reflexivity. }
  assert (Ins : forall i x y, vertex 2 two i = [x; y] -> (0 <= x <= 10)%Q /\ (0 <= y <= 10)%Q) by (apply in_square; vm_compute; reflexivity).
  assert (Kp : KeepsPieces u_lib). { intros cells s p [|o os] _; discriminate. }
  assert (E : tess_grid (fun _ => two_tris) sq_frame (map fst uq) (map fst gq) = Ok (two_nodes, two_edges, two_cells)).
  { unfold tess_grid. rewrite Eg, Eu. vm_compute. reflexivity. }
  destruct (H 1000%Q (fun _ => two_tris) u_lib two u_points u_plc 0%Q 0%Q 10%Q 10%Q sq_frame gq uq u_outline [] two_nodes two_edges two_cells) as [m Em]; [cbn; lia|reflexivity|exact Bb|exact Ins|exact Ff|exact C|exact D|exact Ou|constructor|exact E|exact Kp| |].
  - apply piecesb_ok. rewrite Eg. vm_compute. reflexivity.
  - assert (Bs : boundary_set u_lib sq_frame u_points u_plc = Ok [u_outline]) by (vm_compute; reflexivity).
    assert (X : match nth_error two_cells 1 with Some c => match cornersb two_nodes two_edges c with
      | Some k => 1 <? length (b_and u_lib (b_or u_lib [] [k]) [u_outline]) | None => false end | None => false end = true) by (vm_compute; reflexivity).
    destruct (nth_error two_cells 1) as [c|] eqn:Hc; [|discriminate]. destruct (cornersb two_nodes two_edges c) as [k|] eqn:Hk; [|discriminate].
    apply Nat.ltb_lt in X. apply cornersb_ok in Hk.
    apply (pieces_never_adopted 1000 (fun _ => two_tris) u_lib two u_points u_plc sq_frame gq uq [u_outline] two_nodes two_edges two_cells c k m Ff C Bs E Kp (nth_error_In _ _ Hc) Hk X Em).
Qed.
Print Assumptions pieces_adopted_refuted.
