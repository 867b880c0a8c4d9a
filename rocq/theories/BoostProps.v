(* The tessellation made from a Voronoi diagram, without and with a boundary (C85, C86).  The
   vocabulary is in BoostSpec.v, BoundedSpec.v and ClipSpec.v. *)
From Coq Require Import QArith Qabs Lqa Sorted.
From Verif Require Import Base BaseFacts SerializeModel MeshModel MeshSpec MeshProps QuantMeshModel QuantMeshSpec QuantMeshProps PLCSpec PLCProofs BoxModel BoxProofs BoxProps Plane WithinSpec TriModel TriSpec TriProofs6 TriProofs11 ClipModel ClipSpec ClipProofs ClipProofs2 BoundedModel BoundedSpec BoundedProofs TriProps BoundedCheck BoundedProps BoostModel BoostSpec BoostProofs BoostProofs4 BoostCheck.
Local Open Scope nat_scope.

(* ------------------------------------------------------------ C85 *)
(* Points are given, not all at one place, within the range of the number type; f is the frame that
   the tessellator puts around them.  On the grid of the frame no two points are at one place, and
   the library gives the Voronoi diagram of the points and the guards, with corners apart.  Then
   tessellate returns a well formed mesh with one cell per point, the Voronoi cell of the point. *)
Theorem boost_tessellation : forall big vor_lib points f gens guards,
  0 < length points -> length points mod 2 = 0 -> (forall x, In x points -> (- big <= x <= big)%Q) ->
  (exists p q j x y, In p (points_of 2 points) /\ In q (points_of 2 points) /\ nth_error p j = Some x /\ nth_error q j = Some y /\ (x < y)%Q) ->
  boundary_frame big points = Ok f -> construct f points = Ok (gens, guards) ->
  let sites := map fst (gens ++ guards) in
  NoDup (map fst gens) -> Diagram sites (length gens) (vor_lib sites) -> CornersApart (length gens) (vor_lib sites) ->
  exists m, boost_points big vor_lib points mesh_new = Ok m /\ BoostMesh f (map (deq f) sites) points m.
Proof.
  intros big vor_lib points f gq uq N0 Ev Rg Two Ff Co sites Nd D Ap.
  destruct (bounding_box_tight 2 big points N0 Ev Rg) as ([lo hi] & Box & Tb).
  pose proof (tb_lo _ _ _ Tb) as Ll. pose proof (tb_hi _ _ _ Tb) as Lh. cbn [fst snd] in Ll, Lh.
  destruct lo as [|xl [|yl [|? ?]]]; try discriminate. destruct hi as [|xh [|yh [|? ?]]]; try discriminate.
  assert (Two' : forall x y, vertex 2 points x = y -> length y = 2 -> In y (points_of 2 points)).
  { intros i v V Lv. unfold points_of. rewrite <- V. apply in_map. apply in_seq. assert (L : length (vertex 2 points i) = 2) by congruence.
    unfold vertex in L. rewrite firstn_length, skipn_length in L. assert (2 * i + 2 <= length points) by lia.
    assert (S i <= length points / 2); [|lia]. apply Nat.div_le_lower_bound; lia. }
  assert (Ins : forall i x y, i < length gq -> vertex 2 points i = [x; y] -> (xl <= x <= xh)%Q /\ (yl <= y <= yh)%Q).
  { intros i x y _ V. pose proof (Two' i _ V eq_refl) as I. split; [apply (tb_in _ _ _ Tb [x; y] 0 x xl xh I); auto|apply (tb_in _ _ _ Tb [x; y] 1 y yl yh I); auto]. }
  assert (Size : (xl < xh \/ yl < yh)%Q).
  { destruct Two as (p & q & j & x & y & Ip & Iq & Hx & Hy & L). destruct j as [|[|j]].
    - left. pose proof (tb_in _ _ _ Tb p 0 x xl xh Ip Hx eq_refl eq_refl). pose proof (tb_in _ _ _ Tb q 0 y xl xh Iq Hy eq_refl eq_refl). lra.
    - right. pose proof (tb_in _ _ _ Tb p 1 x yl yh Ip Hx eq_refl eq_refl). pose proof (tb_in _ _ _ Tb q 1 y yl yh Iq Hy eq_refl eq_refl). lra.
    - exfalso. assert (length p = 2). { unfold points_of in Ip. apply in_map_iff in Ip as (i & <- & I). apply in_seq in I. apply vertex_length. pose proof (Nat.div_mod (length points) 2 ltac:(lia)). lia. }
      apply nth_error_lt in Hx. lia. }
  destruct (standard_cells big points points xl yl xh yh f gq uq (vor_lib sites) Box Size Ff Co Ins D Ap Nd) as (polys & ns & es & cs & E & Mo & Lc & Sd & Out & L2 & Rp).
  destruct (construct_correct f points gq uq Co) as (Len & _).
  assert (Ng : gq <> []) by (intros ->; cbn in Len; lia).
  destruct (polygon_mesh f polys ns es cs Mo Sd L2 (Out Ng)) as (m & bf & bn & Em & Eb & Pm).
  pose proof (pids_in _ _ _ _ Mo) as Pid. destruct (fill_correct f ns es cs mesh_new eq_refl Pid) as (m' & Em' & Fi). assert (m' = m) by congruence. subst m'.
  pose proof (fd_cells _ _ _ _ _ Fi) as Fc.
  eexists. split.
  { unfold boost_points. cbn [mesh_empty mesh_new isnil nodes]. cbn [assert bind andb]. change (plc_empty (convexHull mesh_new)) with true. cbn [assert bind andb].
    rewrite (proj2 (Nat.ltb_lt _ _) N0), (proj2 (Nat.eqb_eq _ _) Ev). cbn [assert bind]. rewrite Ff. cbn [bind]. rewrite Co. cbn [bind].
    change (boost_tessellate vor_lib gq uq) with (boost_tessellate (fun _ => vor_lib sites) gq uq). rewrite E. cbn [bind].
    rewrite <- Lc, Em. cbn [bind]. rewrite Eb. reflexivity. }
  constructor.
  - cbn [cells]. rewrite Fc, Lc. lia.
  - exists polys. split; auto.
  - cbn [cells]. rewrite Fc. intros p q c d i j z w Hc Hd Hz Hw Pz. destruct (opposite_or_same z w Pz) as [<- |O]; auto. left.
    apply (concat_position cs p q c d i j z (concat_once polys ns es cs Mo Sd)); auto.
  - destruct (Out Ng) as [s Os]. intros Eq. pose proof (proj1 Os) as Is. unfold all_sides in Is. apply in_flat_map in Is as (p & Ip & Is).
    apply In_nth_error in Ip as [i Hp]. apply In_nth_error in Is as [j Hs]. pose proof (pm_cells _ _ _ Pm) as Lm. destruct (nth_error_ex (cells m) i) as [c Hc]; [cbn [cells] in Lm; rewrite Lm; eapply nth_error_lt; eauto|].
    pose proof (pm_walk _ _ _ Pm i c p Hc Hp) as W. destruct (Forall2_nth_r _ _ _ _ _ W Hs) as (z & Hz & _).
    pose proof (proj2 (pm_outer _ _ _ Pm i c p j z s Hc Hp Hz Hs) Os) as I. rewrite Eq in I. destruct I.
  - intros i x y Vi. exact (standard_points big points points xl yl xh yh f gq uq Box Size Ff Co Ins i x y Vi).
  - cbn [cells]. rewrite Fc, Lc. intros lo hi p x Tb' Lp Hx.
    pose proof (tb_lo _ _ _ Tb') as Ll'. pose proof (tb_hi _ _ _ Tb') as Lh'. cbn [fst snd] in Ll', Lh'.
    destruct lo as [|xl' [|yl' [|? ?]]]; try discriminate. destruct hi as [|xh' [|yh' [|? ?]]]; try discriminate.
    assert (Same : forall j l h l' h', nth_error [xl; yl] j = Some l -> nth_error [xh; yh] j = Some h -> nth_error [xl'; yl'] j = Some l' -> nth_error [xh'; yh'] j = Some h' -> (l <= l')%Q /\ (h' <= h)%Q).
    { intros j l h l' h' H1 H2 H3 H4. destruct (tb_lo_met _ _ _ Tb' j l' H3) as (p1 & x1 & I1 & N1 & Q1). destruct (tb_hi_met _ _ _ Tb' j h' H4) as (p2 & x2 & I2 & N2 & Q2).
      pose proof (tb_in _ _ _ Tb p1 j x1 l h I1 N1 H1 H2). pose proof (tb_in _ _ _ Tb p2 j x2 l h I2 N2 H1 H2). lra. }
    pose proof (Hx 0 xl' xh' (fst x) eq_refl eq_refl eq_refl). pose proof (Hx 1 yl' yh' (snd x) eq_refl eq_refl eq_refl).
    destruct (Same 0 xl xh xl' xh' eq_refl eq_refl eq_refl eq_refl). destruct (Same 1 yl yh yl' yh' eq_refl eq_refl eq_refl eq_refl).
    apply (standard_guards big points points xl yl xh yh f gq uq Box Size Ff Co Ins p x); auto; lra.
Qed.
Print Assumptions boost_tessellation.

(* ------------------------------------------------------------ C86 *)
(* The same in a boundary: the points lie in its box, f is the frame around it.  The cells before
   clipping are the Voronoi cells.  If the polygon library cuts each of them at the boundary to one
   polygon, with corners apart and sides matching, then the tessellation has, for each point, the
   cell with this polygon. *)
Theorem boost_in_boundary : forall big vor_lib lib points PLCpoints geometry xl yl xh yh f gens guards outer inner,
  0 < length points -> length points mod 2 = 0 -> BoundaryBox big PLCpoints xl yl xh yh ->
  (forall i x y, vertex 2 points i = [x; y] -> (xl <= x <= xh)%Q /\ (yl <= y <= yh)%Q) ->
  boundary_frame big PLCpoints = Ok f -> construct f points = Ok (gens, guards) ->
  let sites := map fst (gens ++ guards) in
  NoDup (map fst gens) -> Diagram sites (length gens) (vor_lib sites) -> CornersApart (length gens) (vor_lib sites) ->
  Outline f PLCpoints (facets geometry) outer -> Forall2 (Outline f PLCpoints) (holes geometry) inner ->
  exists whole ns es cs, boost_tessellate vor_lib gens guards = Ok (ns, es, cs) /\ MeshOf whole ns es cs /\
    (forall p poly, nth_error whole p = Some poly -> RegionPolygon f (map (deq f) sites) p poly) /\
    forall polys, CutTo lib (b_outline lib outer inner) (map fst gens) ns es cs polys -> WellApart polys -> SideBySide polys -> (exists s, OuterSide polys s) ->
    exists m, boost_clipped big vor_lib lib points PLCpoints geometry mesh_new = Ok m /\ PolygonMesh f polys m /\ 2 * length (cells m) = length points.
Proof.
  intros big vor_lib lib points v g xl0 yl0 xh0 yh0 f gq uq outer inner N0 Ev Bb Ins0 Ff Co sites Nd D Apt Ou In_.
  destruct (box_of _ _ _ _ _ _ Bb) as (xl & yl & xh & yh & Box & Q1 & Q2 & Q3 & Q4).
  assert (Ins : forall i x y, i < length gq -> vertex 2 points i = [x; y] -> (xl <= x <= xh)%Q /\ (yl <= y <= yh)%Q).
  { intros i x y _ V. specialize (Ins0 i x y V). lra. }
  assert (Size : (xl < xh \/ yl < yh)%Q) by (destruct Bb as (_ & _ & _ & _ & [S|S]); [left|right]; lra).
  destruct (standard_cells big v points xl yl xh yh f gq uq (vor_lib sites) Box Size Ff Co Ins D Apt Nd) as (whole & ns & es & cs & E & Mo0 & Lc & _ & _ & _ & Rp).
  change (boost_tessellate (fun _ => vor_lib sites) gq uq) with (boost_tessellate vor_lib gq uq) in E.
  exists whole, ns, es, cs. split; [exact E|]. split; [exact Mo0|]. split; [exact Rp|]. intros polys (Lp & Cut) Ap Sd Out.
  pose proof (f_full big v points xl yl xh yh f gq uq Box Size Ff Co) as Fu.
  assert (Fr : forall a x y, vertex 2 v a = [x; y] -> in_frame f (x, y)).
  { intros a x y Va. assert (Bx : (xl <= x <= xh)%Q /\ (yl <= y <= yh)%Q).
    { destruct Bb as (B0 & B1 & B2 & Tb & _). assert (I : In [x; y] (points_of 2 v)).
      { unfold points_of. rewrite <- Va. apply in_map. apply in_seq. assert (L : length (vertex 2 v a) = 2) by (rewrite Va; auto).
        unfold vertex in L. rewrite firstn_length, skipn_length in L. assert (2 * a + 2 <= length v) by lia.
        assert (S a <= length v / 2); [|lia]. apply Nat.div_le_lower_bound; lia. }
      pose proof (tb_in _ _ _ Tb [x; y] 0 x _ _ I eq_refl eq_refl eq_refl). pose proof (tb_in _ _ _ Tb [x; y] 1 y _ _ I eq_refl eq_refl eq_refl). lra. }
    rewrite (f_is big v points xl yl xh yh f gq uq Box Ff Co). unfold in_frame. cbn [fx fy flen TriProofs10.around_box fst snd].
    destruct (qmax_le (xh - xl) (yh - yl)) as (A1 & A2 & _). lra. }
  pose proof (boundary_ok lib f v Fu Fr g outer inner Ou In_) as Bs.
  destruct (clip_pieces lib (fun local => boost_tessellate vor_lib (combine local (seq 0 (length local))) uq) f (map fst gq) ns es cs v g _ polys Bs Lp Ap Cut) as (ns' & es' & cs' & Ec & Mo).
  destruct (polygon_mesh f polys ns' es' cs' Mo Sd) as (m & bf & bn & Em & Eb & Pm); auto.
  { intros p I. apply In_nth_error in I as [i Hp]. destruct (nth_error_ex cs i) as [c Hc]; [rewrite <- Lp; eapply nth_error_lt; eauto|].
    destruct (Cut i c Hc) as (gen & k & p' & _ & Hp' & _ & _ & _ & x & xs & Ep & _). assert (p' = p) by congruence. subst p' p. cbn. rewrite app_length. cbn. lia. }
  eexists. split; [|split; [exact Pm|]].
  - unfold boost_clipped. cbn [mesh_empty mesh_new isnil nodes]. cbn [assert bind andb]. change (plc_empty (convexHull mesh_new)) with true. cbn [assert bind andb].
    rewrite (proj2 (Nat.ltb_lt _ _) N0), (proj2 (Nat.eqb_eq _ _) Ev). cbn [assert bind]. rewrite Ff. cbn [bind]. rewrite Co. cbn [bind].
    rewrite E. cbn [bind]. rewrite Ec. cbn [bind].
    assert (L' : length gq = length cs') by (rewrite (mo_cells _ _ _ _ Mo), Lp; auto). rewrite L', Em. cbn [bind]. rewrite Eb. reflexivity.
  - rewrite (pm_cells _ _ _ Pm), Lp, Lc. destruct (construct_correct f points gq uq Co) as (Len & _). lia.
Qed.
Print Assumptions boost_in_boundary.

(* ---------------------------------------------------------------- cases *)
(* Two points, at a corner and on a side of the square from (0,0) to (10,10), whose own frame is that
   of the square.  The cells of the diagram, each with the sites across its edges; one guard cell
   with infinite edges is listed too. *)
Definition pair_points : list Q := map inject_Z [0; 0; 10; 4]%Z.
Definition pair_cells : list (list p2 * list pt) :=
  [([(-1503238555 # 2, -1073741825 # 2); (-1073741825 # 2, -1503238555 # 2); (167865369682623491 # 944892804, -1082823876738485635 #
   1889785608); (-1392729183767003923 # 6012954215, 541411937295500994 # 1202590843); (-1138904835496913808523473715 #
   2305843006636713574, 1138904832130383019323498169 # 2305843006636713574)]%Q, [(-1073741824, -1073741824); (-1, -1073741824);
   (214748364, -42949674); (-1, 1073741823); (-1073741824, -1)]%Z); ([(-1392729183767003923 # 6012954215, 541411937295500994 #
   1202590843); (167865369682623491 # 944892804, -1082823876738485635 # 1889785608); (1073741821 # 2, -133554427076133687 #
   206158430); (308989833009653910382292081 # 461168601284393042, -247588007614501370474109757 # 461168601284393042);
   (1058843108023606025 # 1717986918, 1073741821 # 2); (2257881468433860241 # 3951369910, 2257881468433860241 # 3951369910);
   (1073741821 # 2, 1335544268613853223 # 2233382994)]%Q, [(-214748366, -214748366); (-1, -1073741824); (1073741822, -1073741824);
   (1073741823, -1); (1073741823, 1073741822); (1073741822, 1073741823); (-1, 1073741823)]%Z)].
Definition pair_lib (sites : list pt) : list vcell :=
  map (fun pc => vcell_of (fst pc) (fst (snd pc))) (combine (seq 0 2) pair_cells) ++ [mkVcell 2 true [(None, Some (0, 0)%Q); (Some (0, 0)%Q, None)]].
Lemma pair_made : exists gens guards, construct sq_frame pair_points = Ok (gens, guards) /\ length gens = 2 /\ NoDup (map fst gens) /\
  let sites := map fst (gens ++ guards) in Diagram sites 2 (pair_lib sites) /\ CornersApart 2 (pair_lib sites).
Proof.
  do 2 eexists. split; [reflexivity|]. split; [reflexivity|]. split; [vm_compute; repeat constructor; cbn; intuition discriminate|]. intros sites. apply diagram_ok.
  - reflexivity.
  - vm_compute. repeat constructor.
  - intros c [<-|[]]. vm_compute. repeat constructor.
  - repeat constructor. intros [].
  - vm_compute. reflexivity.
  - vm_compute. reflexivity.
Qed.
Example pair_tessellation : exists gens guards m, construct sq_frame pair_points = Ok (gens, guards) /\ boost_points 1000 pair_lib pair_points mesh_new = Ok m /\
  BoostMesh sq_frame (map (deq sq_frame) (map fst (gens ++ guards))) pair_points m /\ length (cells m) = 2.
Proof.
  destruct pair_made as (gens & guards & C & L & N & D & A). exists gens, guards.
  destruct (boost_tessellation 1000 pair_lib pair_points sq_frame gens guards) as (m & E & T).
  - cbn; lia.
  - reflexivity.
  - apply Forall_forall. repeat constructor; vm_compute; discriminate.
  - exists [0; 0]%Q, [10; 4]%Q, 0, 0%Q, 10%Q. split; [left; reflexivity|]. split; [right; left; reflexivity|]. repeat split.
  - vm_compute. reflexivity.
  - exact C.
  - exact N.
  - rewrite L. exact D.
  - rewrite L. exact A.
  - exists m. split; [exact C|]. split; [exact E|]. split; [exact T|]. pose proof (bt_cells _ _ _ _ T) as K. clear - K. cbn [pair_points map length] in K. lia.
Qed.
(* in the square *)
Definition pair_nodes : list pt :=
  [(-751619277, -536870912); (-536870912, -751619277); (177655464, -572987682); (-231621451, 450204606); (-493921239, 493921237);
   (536870910, -647824234); (670014897, -536870912); (616327806, 536870910); (571417386, 571417386); (536870910, 597991599)]%Z.
Definition pair_edges : list (nat * nat) := [(0, 1); (1, 2); (2, 3); (3, 4); (0, 4); (2, 5); (5, 6); (6, 7); (7, 8); (8, 9); (3, 9)].
Definition pair_faces : list (list Z) := [[0; 1; 2; 3; -5]; [-3; 5; 6; 7; 8; 9; -11]]%Z.
Definition pair_polys : list polygon :=
  [[(-137438955, 214748364); (-214748366, 214748364); (-214748366, -214748366); (34359737, -214748366); (-137438955, 214748364)];
   [(214748364, 214748364); (-137438955, 214748364); (34359737, -214748366); (214748364, -214748366); (214748364, 214748364)]]%Z.
Definition result_of {A} (d : A) (r : res A) : A := match r with Ok a => a | _ => d end.
Lemma pair_conditions : exists gens guards, 0 < length pair_points /\ length pair_points mod 2 = 0 /\ BoundaryBox 1000 square 0 0 10 10 /\
  (forall i x y, vertex 2 pair_points i = [x; y] -> (0 <= x <= 10)%Q /\ (0 <= y <= 10)%Q) /\
  boundary_frame 1000 square = Ok sq_frame /\ construct sq_frame pair_points = Ok (gens, guards) /\
  (let sites := map fst (gens ++ guards) in NoDup (map fst gens) /\ Diagram sites (length gens) (pair_lib sites) /\ CornersApart (length gens) (pair_lib sites)) /\
  Outline sq_frame square (facets square_plc) square_outline /\
  boost_tessellate pair_lib gens guards = Ok (pair_nodes, pair_edges, pair_faces) /\
  CutTo box_lib (b_outline box_lib square_outline []) (map fst gens) pair_nodes pair_edges pair_faces pair_polys /\
  WellApart pair_polys /\ SideBySide pair_polys /\ (exists s, OuterSide pair_polys s).
Proof.
  destruct five_conditions as (_ & _ & _ & _ & Bb & _ & Ff & _ & _ & Ou & _).
  destruct pair_made as (gens & guards & C & L & N & D & A). exists gens, guards.
  split; [cbn; lia|]. split; [reflexivity|]. split; [exact Bb|]. split; [apply in_square; vm_compute; reflexivity|]. split; [exact Ff|]. split; [exact C|].
  split; [rewrite L; auto|]. split; [exact Ou|].
  assert (X : construct sq_frame pair_points = Ok (result_of ([], []) (construct sq_frame pair_points))) by (vm_compute; reflexivity).
  rewrite X in C. assert (G : (gens, guards) = result_of ([], []) (construct sq_frame pair_points)) by congruence. clear C X D A N.
  assert (Gm : map fst gens = map fst (fst (result_of ([], []) (construct sq_frame pair_points)))) by (rewrite <- G; reflexivity).
  split; [|split; [|split; [|split]]].
  - replace (boost_tessellate pair_lib gens guards) with (boost_tessellate pair_lib (fst (gens, guards)) (snd (gens, guards))) by reflexivity. rewrite G. vm_compute. reflexivity.
  - split; [reflexivity|]. apply pieceb_ok. rewrite Gm. vm_compute. reflexivity.
  - apply apartb_ok. vm_compute. reflexivity.
  - apply sideb_ok. vm_compute. reflexivity.
  - exists (nth 0 (all_sides pair_polys) ((0, 0), (0, 0))%Z). apply outerb_ok. vm_compute. reflexivity.
Qed.
Example pair_in_square : exists m, boost_clipped 1000 pair_lib box_lib pair_points square square_plc mesh_new = Ok m /\
  PolygonMesh sq_frame pair_polys m /\ length (cells m) = 2.
Proof.
  destruct pair_conditions as (gq & uq & N0 & Ev & Bb & Ins & Ff & C & (Nd & D & A) & Ou & E & Cut & Ap & Sd & Os).
  destruct (boost_in_boundary 1000 pair_lib box_lib pair_points square square_plc 0 0 10 10 sq_frame gq uq square_outline [] N0 Ev Bb Ins Ff C Nd D A Ou) as (whole & ns' & es' & cs' & E' & _ & _ & H); [constructor|].
  rewrite E in E'. injection E' as <- <- <-. destruct (H pair_polys Cut Ap Sd Os) as (m & Em & Pm & Lm).
  exists m. split; [exact Em|]. split; [exact Pm|]. clear - Lm. cbn [pair_points map length] in Lm. lia.
Qed.

(* ------------------------------------------------------------ C87 *)
(* The intended property: every point has a cell with faces.  The diagram has one cell for each place
   on the grid where there is a point, and it is the Voronoi cell of the points there. *)
Definition PlaceDiagram (sites : list pt) (ngen : nat) (vd : list vcell) : Prop :=
  NoDup (map v_src vd) /\ (forall c, In c vd -> v_src c < length sites) /\
  forall p, p < ngen -> exists c xs, In c vd /\ v_src c < ngen /\ nth_error sites (v_src c) = nth_error sites p /\ v_point c = true /\ VoronoiWalk sites p (v_walk c) xs.
Definition every_point_has_a_cell : Prop := forall big vor_lib points f gens guards m,
  0 < length points -> length points mod 2 = 0 -> (forall x, In x points -> (- big <= x <= big)%Q) ->
  (forall i j x y x' y', vertex 2 points i = [x; y] -> vertex 2 points j = [x'; y'] -> i <> j -> ~ (x == x' /\ y == y')%Q) ->
  boundary_frame big points = Ok f -> construct f points = Ok (gens, guards) ->
  let sites := map fst (gens ++ guards) in PlaceDiagram sites (length gens) (vor_lib sites) -> CornersApart (length gens) (vor_lib sites) ->
  boost_points big vor_lib points mesh_new = Ok m -> forall c, In c (cells m) -> c <> [].
(* Two different points at the same place of the grid: the second one is left without a cell. *)
Definition close_points : list Q := (pair_points ++ [10; 4000000001 # 1000000000])%Q.
Definition close_lib (sites : list pt) : list vcell := map (fun pc => vcell_of (fst pc) (fst (snd pc))) (combine (seq 0 2) pair_cells).
Lemma close_vertices i x y : vertex 2 close_points i = [x; y] ->
  (i = 0 /\ x = 0%Q /\ y = 0%Q) \/ (i = 1 /\ x = 10%Q /\ y = 4%Q) \/ (i = 2 /\ x = 10%Q /\ y = (4000000001 # 1000000000)%Q).
Proof.
  intros V. assert (L : i < 3).
  { assert (L : length (vertex 2 close_points i) = 2) by (rewrite V; auto). unfold vertex in L. rewrite firstn_length, skipn_length in L. cbn [close_points pair_points map app length] in L. lia. }
  destruct i as [|[|[|i]]]; [| | |lia]; cbn in V; injection V as <- <-; auto.
Qed.
Lemma close_made : exists gens guards, construct sq_frame close_points = Ok (gens, guards) /\ length gens = 3 /\
  let sites := map fst (gens ++ guards) in PlaceDiagram sites 3 (close_lib sites) /\ CornersApart 3 (close_lib sites).
Proof.
  do 2 eexists. split; [reflexivity|]. split; [reflexivity|]. intros sites.
  assert (W : forall p k P xs qs, nth_error sites p = Some P -> nth_error pair_cells k = Some (xs, qs) -> nth_error sites k = Some P -> k < 2 -> walkb sites P xs qs = true ->
    exists c xs, In c (close_lib sites) /\ v_src c < 3 /\ nth_error sites (v_src c) = nth_error sites p /\ v_point c = true /\ VoronoiWalk sites p (v_walk c) xs).
  { intros p k P xs qs Hp Hk Hs Lk Hw. exists (vcell_of k xs), xs. split; [destruct k as [|[|k]]; [| |lia]; injection Hk as <- <-; [left|right; left]; reflexivity|]. cbn [vcell_of v_src v_point v_walk].
    split; [lia|]. split; [congruence|]. split; auto. apply (walkb_ok sites p P xs qs Hp Hw). }
  split.
  - split; [vm_compute; repeat constructor; cbn; intuition discriminate|]. split.
    + intros c I. destruct I as [<-|[<-|[]]]; vm_compute; repeat constructor.
    + intros p Lp. destruct p as [|[|[|p]]]; [| | |lia].
      * eapply (W 0 0); [vm_compute; reflexivity|reflexivity|vm_compute; reflexivity|lia|vm_compute; reflexivity].
      * eapply (W 1 1); [vm_compute; reflexivity|reflexivity|vm_compute; reflexivity|lia|vm_compute; reflexivity].
      * eapply (W 2 1); [vm_compute; reflexivity|reflexivity|vm_compute; reflexivity|lia|vm_compute; reflexivity].
  - assert (Q : forall c x, In c (close_lib sites) -> v_corner c x -> In x (flat_map fst pair_cells)).
    { intros c x [<-|[<-|[]]] V; apply vcell_corner in V; unfold flat_map, pair_cells; cbn [fst]; apply in_app_iff; [left; exact V|right; apply in_app_iff; left; exact V]. }
    assert (A : forallb (fun x => forallb (cornerapartb x) (flat_map fst pair_cells)) (flat_map fst pair_cells) = true) by (vm_compute; reflexivity).
    intros c c' x y I I' _ _ V V'. rewrite forallb_forall in A. specialize (A x (Q c x I V)). rewrite forallb_forall in A. specialize (A y (Q c' y I' V')).
    unfold cornerapartb in A. rewrite !orb_true_iff, andb_true_iff, !Qeq_bool_iff, !Qle_bool_iff in A. tauto.
Qed.
Theorem every_point_has_a_cell_refuted : ~ every_point_has_a_cell.
Proof.
  intros H. destruct close_made as (gens & guards & C & L & D & A).
  assert (E : exists m, boost_points 1000 close_lib close_points mesh_new = Ok m /\ cells m = pair_faces ++ [[]]) by (eexists; split; [vm_compute; reflexivity|reflexivity]).
  destruct E as (m & Em & Ec). refine (H 1000%Q close_lib close_points sq_frame gens guards m _ _ _ _ _ C _ _ Em [] _ eq_refl).
  - cbn; lia.
  - reflexivity.
  - apply Forall_forall. repeat constructor; vm_compute; discriminate.
  - intros i j x y x' y' V V' N [X Y]. destruct (close_vertices _ _ _ V) as [(-> & -> & ->)|[(-> & -> & ->)|(-> & -> & ->)]];
      destruct (close_vertices _ _ _ V') as [(-> & -> & ->)|[(-> & -> & ->)|(-> & -> & ->)]]; try (apply N; reflexivity); (discriminate X || discriminate Y).
  - vm_compute. reflexivity.
  - rewrite L. exact D.
  - rewrite L. exact A.
  - rewrite Ec. apply in_app_iff. right. left. reflexivity.
Qed.
Print Assumptions every_point_has_a_cell_refuted.
(* What holds: with at most one point at each place of the grid, every cell has three faces or more. *)
Theorem every_point_has_a_cell_partial : forall big vor_lib points f gens guards m,
  0 < length points -> length points mod 2 = 0 -> (forall x, In x points -> (- big <= x <= big)%Q) ->
  (exists p q j x y, In p (points_of 2 points) /\ In q (points_of 2 points) /\ nth_error p j = Some x /\ nth_error q j = Some y /\ (x < y)%Q) ->
  boundary_frame big points = Ok f -> construct f points = Ok (gens, guards) ->
  let sites := map fst (gens ++ guards) in
  NoDup (map fst gens) -> Diagram sites (length gens) (vor_lib sites) -> CornersApart (length gens) (vor_lib sites) ->
  boost_points big vor_lib points mesh_new = Ok m -> 2 * length (cells m) = length points /\ forall c, In c (cells m) -> 3 <= length c.
Proof.
  intros big vor_lib points f gq uq m N0 Ev Rg Two Ff Co sites Nd D Ap Em.
  destruct (boost_tessellation big vor_lib points f gq uq N0 Ev Rg Two Ff Co Nd D Ap) as (m' & Em' & B). assert (m' = m) by congruence. subst m'.
  split; [apply (bt_cells _ _ _ _ B)|]. intros c I. apply In_nth_error in I as [p Hc]. destruct (bt_region _ _ _ _ B) as (polys & Pm & Rp).
  destruct (nth_error_ex polys p) as [poly Hp]; [rewrite <- (pm_cells _ _ _ Pm); eapply nth_error_lt; eauto|].
  destruct (Rp p poly Hp) as (v & vs & xs & -> & _ & L & _ & F & _). pose proof (Forall2_len _ _ _ (pm_walk _ _ _ Pm p c _ Hc Hp)) as Lc.
  apply Forall2_len in F. rewrite Lc. change (v :: vs ++ [v]) with (closed (v :: vs)). rewrite closed_sides. rewrite AreaProofs2.ring_length. lia.
Qed.
Print Assumptions every_point_has_a_cell_partial.
