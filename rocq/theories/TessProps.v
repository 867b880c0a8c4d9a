(* The tessellation of points in the plane, from the coordinates given by the caller to the mesh
   handed back (C80).  The vocabulary is in TessSpec.v and TriSpec.v. *)
From Coq Require Import QArith Lqa Sorted.
From Verif Require Import Base BaseFacts SerializeModel MeshModel MeshSpec MeshProps QuantMeshModel QuantMeshProps QuantMeshProofs2 PLCSpec PLCProofs BoxModel BoxProofs BoxProps Plane WithinSpec TriModel TriSpec TriProofs6 TriProofs11 TriProps TriCheck TessModel TessSpec TessProofs TessProofs2.
Local Open Scope nat_scope.

(* ------------------------------------------------------------ C80 *)
(* Points are given, not all at one place, within the range of the number type; f is the frame that
   the tessellator puts around them, and tris a Delaunay triangulation of the points on the grid of
   the frame and the guards.  Then tessellate returns a well formed mesh with one cell per point,
   the Voronoi cell of the point. *)
Theorem points_tessellation : forall big points tris f gens guards,
  0 < length points -> length points mod 2 = 0 -> (forall x, In x points -> (- big <= x <= big)%Q) ->
  (exists p q j x y, In p (points_of 2 points) /\ In q (points_of 2 points) /\ nth_error p j = Some x /\ nth_error q j = Some y /\ (x < y)%Q) ->
  boundary_frame big points = Ok f -> construct f points = Ok (gens, guards) ->
  Delaunay (map (deq f) (map fst gens ++ map fst guards)) (length gens) tris ->
  exists m, tessellate_points big points tris mesh_new = Ok m /\
    Tessellated f (map (deq f) (map fst gens ++ map fst guards)) points m.
Proof.
  intros big points tris f gq uq N0 Ev Rg Two Ff Co D.
  destruct (bounding_box_tight 2 big points N0 Ev Rg) as ([lo hi] & Box & Tb).
  pose proof (tb_lo _ _ _ Tb) as Ll. pose proof (tb_hi _ _ _ Tb) as Lh. cbn [fst snd] in Ll, Lh.
  destruct lo as [|xl [|yl [|? ?]]]; try discriminate. destruct hi as [|xh [|yh [|? ?]]]; try discriminate.
  assert (Two' : forall x y, vertex 2 points x = y -> length y = 2 -> In y (points_of 2 points)).
  { intros i v V Lv. unfold points_of. rewrite <- V. apply in_map. apply in_seq. assert (L : length (vertex 2 points i) = 2) by congruence.
    unfold vertex in L. rewrite firstn_length, skipn_length in L. assert (2 * i + 2 <= length points) by lia.
    assert (S i <= length points / 2); [|lia]. apply Nat.div_le_lower_bound; lia. }
  assert (Ins : forall i x y, vertex 2 points i = [x; y] -> (xl <= x <= xh)%Q /\ (yl <= y <= yh)%Q).
  { intros i x y V. pose proof (Two' i _ V eq_refl) as I. split; [apply (tb_in _ _ _ Tb [x; y] 0 x xl xh I); auto|apply (tb_in _ _ _ Tb [x; y] 1 y yl yh I); auto]. }
  assert (Size : (xl < xh \/ yl < yh)%Q).
  { destruct Two as (p & q & j & x & y & Ip & Iq & Hx & Hy & L). destruct j as [|[|j]].
    - left. pose proof (tb_in _ _ _ Tb p 0 x xl xh Ip Hx eq_refl eq_refl). pose proof (tb_in _ _ _ Tb q 0 y xl xh Iq Hy eq_refl eq_refl). lra.
    - right. pose proof (tb_in _ _ _ Tb p 1 x yl yh Ip Hx eq_refl eq_refl). pose proof (tb_in _ _ _ Tb q 1 y yl yh Iq Hy eq_refl eq_refl). lra.
    - exfalso. assert (length p = 2). { unfold points_of in Ip. apply in_map_iff in Ip as (i & <- & I). apply in_seq in I. apply vertex_length. pose proof (Nat.div_mod (length points) 2 ltac:(lia)). lia. }
      apply nth_error_lt in Hx. lia. }
  pose proof (map_length fst gq) as Lg. pose proof D as D'. rewrite <- Lg in D'.
  assert (Ins' : forall i x y, i < length gq -> vertex 2 points i = [x; y] -> (xl <= x <= xh)%Q /\ (yl <= y <= yh)%Q) by eauto.
  destruct (standard_frame big points points xl yl xh yh f gq uq tris Box Size Ff Co ltac:(destruct points; [cbn in N0; lia|discriminate]) Ins D') as (ns & es & cs & E & Du & V & Bx).
  set (pts := map (deq f) (map fst gq ++ map fst uq)) in *. rewrite Lg in *.
  pose proof (du_cells _ _ _ _ _ Du) as Lc.
  assert (Pid : forall i c z, nth_error cs i = Some c -> In z c -> pid z < length es).
  { intros i c z Hc I. destruct (du_ring _ _ _ _ _ Du i c Hc) as (r & W & _). apply (in_map (way es)) in I. rewrite W in I. apply in_map_iff in I as ([a b] & Ew & _).
    symmetry in Ew. apply way_inv in Ew. destruct Ew as [Ew|Ew]; eapply nth_error_lt; eauto. }
  destruct (fill_correct f ns es cs mesh_new eq_refl Pid) as (m & Em & Fi).
  destruct (fill_ok f (length cs) ns es cs mesh_new (Nat.le_refl _) Pid) as (m' & Em' & _ & _ & _ & _ & _ & _ & _ & Hh & Hd & Sn & Sf); [rewrite firstn_nil; constructor|].
  assert (m' = m) by congruence. subst m'. cbn in Sn, Sf.
  pose proof (whole_wf f (length gq) tris ns es cs m Du Fi Sn Sf) as Wf.
  destruct (construct_correct f points gq uq Co) as (Len & Cg & _).
  assert (Ng : 0 < length gq) by (destruct gq; [cbn in Len; lia|cbn; lia]).
  destruct (findBoundaryElements_exact Q 2 m ltac:(lia) Wf (boundary_node pts (length gq) tris D f ns es cs m Du Fi Ng)) as (bf & bn & Eb & Sb & Hb & Sn' & Hn).
  exists (mkMesh (nodes m) (cells m) (faces m) bn bf (faceCells m) (convexHull m) (neighborDomains m) (sharedNodes m) (sharedFaces m)). split.
  { unfold tessellate_points. cbn [mesh_empty mesh_new isnil nodes]. cbn [assert bind andb]. change (plc_empty (convexHull mesh_new)) with true. cbn [assert bind andb].
    rewrite (proj2 (Nat.ltb_lt _ _) N0), (proj2 (Nat.eqb_eq _ _) Ev). cbn [assert bind]. rewrite Ff. cbn [bind]. rewrite Co. cbn [bind]. rewrite E. cbn [bind].
    rewrite <- Lc. rewrite Em. cbn [bind]. rewrite Eb. reflexivity. }
  constructor; cbn [nodes cells faces boundaryNodes boundaryFaces faceCells].
  - constructor; cbn [nodes cells faces boundaryNodes boundaryFaces faceCells sharedNodes sharedFaces]; apply Wf.
  - rewrite (fd_cells _ _ _ _ _ Fi), Lc. lia.
  - intros p c Hc. rewrite (fd_cells _ _ _ _ _ Fi) in Hc. destruct (V p c Hc) as (r & xs & W & Vx & Os & Re).
    destruct (du_ring _ _ _ _ _ Du p c Hc) as (r' & W' & L3 & Nd & _).
    assert (Er : r' = r).
    { assert (X : map Some (ring r') = map Some (ring r)) by congruence.
      assert (Len' : length r' = length r) by (apply (f_equal (@length _)) in X; rewrite !map_length, !AreaProofs2.ring_length in X; auto).
      apply nth_error_ext. intros i. destruct (Nat.lt_ge_cases i (length r)) as [L|L].
      - destruct (nth_error_ex r i L) as [x Hx]. destruct (nth_error_ex r' i ltac:(lia)) as [x' Hx']. rewrite Hx, Hx'.
        assert (Q1 : nth_error (ring r) i = Some (x, nth ((i + 1) mod length r) r 0)) by (apply PolygonProofs2.ring_nth; repeat split; auto; apply nth_error_nth'; apply Nat.mod_upper_bound; lia).
        assert (Q2 : nth_error (ring r') i = Some (x', nth ((i + 1) mod length r') r' 0)) by (apply PolygonProofs2.ring_nth; repeat split; auto; [lia|apply nth_error_nth'; apply Nat.mod_upper_bound; lia]).
        apply (f_equal (fun l => nth_error l i)) in X. rewrite !nth_error_map, Q1, Q2 in X. cbn in X. congruence.
      - rewrite !(proj2 (nth_error_None _ _)) by lia. auto. }
    subst r'. exists r, xs. split; [|split; [auto|split; [auto|split; [|split; auto]]]].
    + rewrite <- W. apply map_ext. intros z. rewrite <- (walk_way f ns es cs m Fi z). reflexivity.
    + clear - Vx Fi. induction Vx as [|k x r xs (v & i & t & Hv & _ & _ & _ & vx & vy & Ev & Bx & By) _ IH]; constructor; auto.
      exists vx, vy. split; auto. change (node_at 2 m k = [vx; vy]). rewrite (fd_nodes _ _ _ _ _ Fi k v Hv). auto.
  - intros i x y Vi. assert (Li : i < length gq).
    { assert (L : length (vertex 2 points i) = 2) by (rewrite Vi; auto). unfold vertex in L. rewrite firstn_length, skipn_length in L. lia. }
    pose proof (Cg i x y Li Vi) as Hg. destruct (Ins i x y Vi) as [Bxx Byy].
    pose proof (f_full big points points xl yl xh yh f gq uq Box Size Ff Co) as Fu.
    assert (Fr : in_frame f (x, y)).
    { rewrite (f_is big points points xl yl xh yh f gq uq Box Ff Co). unfold in_frame. cbn [fx fy flen TriProofs10.around_box fst snd].
      destruct (qmax_le (xh - xl) (yh - yl)) as (A1 & A2 & _). lra. }
    destruct (dequantize_error f (x, y) (full_proper f Fu) Fr) as (vx & vy & Eq & X & Y). exists vx, vy. split; auto.
    unfold pts. rewrite nth_error_map, nth_error_app1, nth_error_map, Hg by (rewrite map_length; auto). cbn [option_map fst]. f_equal.
    unfold dequantize in Eq. unfold deq. injection Eq as <- <-. auto.
  - intros lo hi p x Tb' Lp Hx. rewrite (fd_cells _ _ _ _ _ Fi), Lc in *.
    assert (Fn : firstn (length gq) pts = map (deq f) (map fst gq)).
    { unfold pts. rewrite map_app, firstn_app, !map_length, Nat.sub_diag, firstn_O, app_nil_r. apply firstn_all2. rewrite !map_length. lia. }
    rewrite Fn. pose proof (tb_lo _ _ _ Tb') as Ll'. pose proof (tb_hi _ _ _ Tb') as Lh'. cbn [fst snd] in Ll', Lh'.
    destruct lo as [|xl' [|yl' [|? ?]]]; try discriminate. destruct hi as [|xh' [|yh' [|? ?]]]; try discriminate.
    assert (Same : forall j l h l' h', nth_error [xl; yl] j = Some l -> nth_error [xh; yh] j = Some h -> nth_error [xl'; yl'] j = Some l' -> nth_error [xh'; yh'] j = Some h' -> (l <= l')%Q /\ (h' <= h)%Q).
    { intros j l h l' h' H1 H2 H3 H4. destruct (tb_lo_met _ _ _ Tb' j l' H3) as (p1 & x1 & I1 & N1 & Q1). destruct (tb_hi_met _ _ _ Tb' j h' H4) as (p2 & x2 & I2 & N2 & Q2).
      pose proof (tb_in _ _ _ Tb p1 j x1 l h I1 N1 H1 H2). pose proof (tb_in _ _ _ Tb p2 j x2 l h I2 N2 H1 H2). lra. }
    pose proof (Hx 0 xl' xh' (fst x) eq_refl eq_refl eq_refl). pose proof (Hx 1 yl' yh' (snd x) eq_refl eq_refl eq_refl).
    destruct (Same 0 xl xh xl' xh' eq_refl eq_refl eq_refl eq_refl). destruct (Same 1 yl yh yl' yh' eq_refl eq_refl eq_refl eq_refl).
    apply (Bx p x); auto; lra.
  - intros Eq. destruct (boundary_face pts (length gq) tris D f ns es cs m Du Fi Ng) as (k & fc & Hk & L1). assert (I : In k bf) by (apply Hb; eauto). rewrite Eq in I. destruct I.
  - exact Hb.
  - exact Hn.
  - auto.
Qed.
Print Assumptions points_tessellation.

(* Five points, with the Delaunay triangulation of their grid positions and the guards. *)
Definition own_frame : frame := mkFrame coordMin coordMax (2 - 2 * (8 - 2))%Q (2 - 2 * (8 - 2))%Q (5 * (8 - 2))%Q.
Definition own_tris : list tri :=
  [(0, 11, 5); (15, 11, 3); (3, 11, 0); (0, 5, 9); (10, 6, 15); (10, 15, 3); (4, 3, 0); (1, 0, 9); (10, 3, 2); (4, 0, 1);
   (2, 3, 4); (2, 4, 1); (1, 9, 13); (14, 10, 2); (12, 2, 1); (16, 14, 2); (12, 1, 13); (16, 2, 12); (12, 13, 8)].
Definition own_stars : list (list nat * list nat) :=
  [([11; 5; 9; 1; 4; 3], [0; 3; 7; 9; 6; 2]); ([0; 9; 13; 12; 2; 4], [7; 12; 16; 14; 11; 9]); ([10; 3; 4; 1; 12; 16; 14], [8; 10; 11; 14; 17; 15; 13]);
   ([15; 11; 0; 4; 2; 10], [1; 2; 6; 10; 8; 5]); ([3; 0; 1; 2], [6; 9; 11; 10])].
Example five_points : exists gens guards m, construct own_frame five = Ok (gens, guards) /\
  tessellate_points 1000 five own_tris mesh_new = Ok m /\ Tessellated own_frame (map (deq own_frame) (map fst gens ++ map fst guards)) five m.
Proof.
  assert (C : exists gens guards, construct own_frame five = Ok (gens, guards) /\ length gens = 5 /\
    delaunayb (map fst gens ++ map fst guards) own_tris own_stars = true).
  { do 2 eexists. split; [reflexivity|]. split; [reflexivity|]. vm_compute. reflexivity. }
  destruct C as (gens & guards & C & Lg & Db). exists gens, guards.
  destruct (points_tessellation 1000 five own_tris own_frame gens guards) as (m & E & T).
  - cbn; lia.
  - reflexivity.
  - apply Forall_forall. repeat constructor; vm_compute; discriminate.
  - exists [2; 3]%Q, [7; 2]%Q, 0, 2%Q, 7%Q. split; [left; reflexivity|]. split; [right; left; reflexivity|]. repeat split.
  - vm_compute. reflexivity.
  - exact C.
  - rewrite Lg. apply (delaunayb_ok own_frame _ _ own_stars); [split; reflexivity|exact Db].
  - exists m. auto.
Qed.
