(* C94: constructive solid geometry in space. *)
From Verif Require Import Base BaseFacts Plane PLCSpec HashSpec HashModel HashProps WithinSpec WithinProofs MeshEditorModel BoxModel Csg3Model Csg3Spec Csg3Proofs Csg3Proofs5 Csg3Proofs6.
From Coq Require Import QArith Lqa Lia.
Local Open Scope nat_scope.

Lemma gives_polys op eps A B T KA KB : (0 <= eps)%Q -> Solid eps A -> Solid eps B ->
  (forall a b la lb, SolidTree eps (triangles A) a la -> SolidTree eps (triangles B) b lb -> Gives eps (triangles A) (triangles B) (op eps a b) T KA KB) ->
  exists ps, csg_polygons op eps A B = Ok ps /\
    (forall p, In p ps -> exists t, In t T /\ PieceOf t (pverts p)) /\
    (forall x, Clear eps B x -> (Covers (map pverts ps) x <-> OnSurface A x /\ KA x)) /\
    (forall x, Clear eps A x -> (Covers (map pverts ps) x <-> OnSurface B x /\ KB x)).
Proof.
  intros E SA SB H. destruct (solid_tree eps A E SA) as (a & la & EA & TA). destruct (solid_tree eps B E SB) as (b & lb & EB & TB).
  destruct (H a b la lb TA TB) as (tr & Er & FT & XA & XB). exists (allPolygons tr). unfold csg_polygons.
  apply bind_ok in EA as (pa & Epa & EA). apply bind_ok in EB as (pb & Epb & EB). rewrite Epa. cbn [bind]. rewrite EA. cbn [bind]. rewrite Epb. cbn [bind]. rewrite EB. cbn [bind]. rewrite Er. cbn [bind].
  split; [reflexivity|]. split; [intros p Ip; destruct (FT p Ip) as (t & It & _ & P); exists t; split; auto; apply P|].
  assert (CC : forall x, Covers (map pverts (allPolygons tr)) x <-> Cov (allPolygons tr) x).
  { intros x. unfold Covers, Cov, cov. split.
    - intros (vs & Iv & Hx). apply in_map_iff in Iv as (p & <- & Ip). exists p. split; auto. apply hull_iff. auto.
    - intros (p & Ip & Hx). exists (pverts p). split; [apply in_map; auto|]. apply hull_iff. auto. }
  split; intros x Hx; rewrite CC; [apply XA|apply XB]; auto.
Qed.

(* For two convex solids the polygons of the result are convex parts of the facets, facing as the
   facets do, and they cover exactly the part of each surface that is on the right side of the other
   solid (points within eps of a facet plane of the other solid left aside). *)
Theorem csg3_union_partial : forall eps A B, (0 <= eps)%Q -> Solid eps A -> Solid eps B ->
  exists ps, csg_polygons tree_union eps A B = Ok ps /\
    (forall p, In p ps -> exists t, In t (triangles A ++ triangles B) /\ PieceOf t (pverts p)) /\
    (forall x, Clear eps B x -> (Covers (map pverts ps) x <-> OnSurface A x /\ Outside B x)) /\
    (forall x, Clear eps A x -> (Covers (map pverts ps) x <-> OnSurface B x /\ Outside A x)).
Proof. intros eps A B E SA SB. apply gives_polys; auto. intros a b la lb TA TB. apply (union_gives eps E _ _ a b la lb); auto. Qed.
Print Assumptions csg3_union_partial.
Theorem csg3_intersect_partial : forall eps A B, (0 <= eps)%Q -> Solid eps A -> Solid eps B ->
  exists ps, csg_polygons tree_intersect eps A B = Ok ps /\
    (forall p, In p ps -> exists t, In t (triangles A ++ triangles B) /\ PieceOf t (pverts p)) /\
    (forall x, Clear eps B x -> (Covers (map pverts ps) x <-> OnSurface A x /\ Inside3 B x)) /\
    (forall x, Clear eps A x -> (Covers (map pverts ps) x <-> OnSurface B x /\ Inside3 A x)).
Proof. intros eps A B E SA SB. apply gives_polys; auto. intros a b la lb TA TB. apply (intersect_gives eps E _ _ a b la lb); auto. Qed.
Print Assumptions csg3_intersect_partial.
(* the facets of the solid taken away are turned round *)
Theorem csg3_subtract_partial : forall eps A B, (0 <= eps)%Q -> Solid eps A -> Solid eps B ->
  exists ps, csg_polygons tree_subtract eps A B = Ok ps /\
    (forall p, In p ps -> exists t, In t (triangles A ++ map reverse3 (triangles B)) /\ PieceOf t (pverts p)) /\
    (forall x, Clear eps B x -> (Covers (map pverts ps) x <-> OnSurface A x /\ Outside B x)) /\
    (forall x, Clear eps A x -> (Covers (map pverts ps) x <-> OnSurface B x /\ Inside3 A x)).
Proof. intros eps A B E SA SB. apply gives_polys; auto. intros a b la lb TA TB. apply (subtract_gives eps E _ _ a b la lb); auto. Qed.
Print Assumptions csg3_subtract_partial.

(* Whatever the two boundaries, convex or not, if no triangle of theirs is flat: the trees are
   built, and only convex parts of the triangles come out, each facing one of the two ways. *)
Definition Unflat (plc : list Q * list (list nat)) : Prop := forall t, In t (triangles plc) -> (0 < det3 (normal3 t) (sub3 (snd (fst t)) (fst (fst t))) (sub3 (snd t) (fst (fst t))))%Q.
Lemma unflat_real plc t : Unflat plc -> In t (triangles plc) -> Real t.
Proof.
  intros U I. specialize (U t I). unfold Real. assert (E : (dotn (normal3 t) (normal3 t) == det3 (normal3 t) (sub3 (snd (fst t)) (fst (fst t))) (sub3 (snd t) (fst (fst t))))%Q).
  { clear. destruct t as ((a & b) & c). unfold normal3, dotn. cbn [fst snd]. coords. ring. }
  rewrite E. auto.
Qed.
Definition both (T : list tri) : list tri := T ++ map reverse3 T.
Lemma both_rev T t : In t (map reverse3 (both T)) -> In t (both T).
Proof. unfold both. rewrite map_app, rev_rev, !in_app_iff. tauto. Qed.
Lemma invert_both T t : From (both T) (allPolygons t) -> From (both T) (allPolygons (invert t)).
Proof. intros F. apply (from_mono (map reverse3 (both T))); [apply both_rev|]. apply invert_from. auto. Qed.
Theorem csg3_parts : forall op eps A B, In op [tree_union; tree_intersect; tree_subtract] -> (0 <= eps)%Q -> ValidPLC3 A -> ValidPLC3 B -> Unflat A -> Unflat B ->
  exists ps, csg_polygons op eps A B = Ok ps /\
    (forall p, In p ps -> exists t, In t (triangles A ++ triangles B) /\ (PieceOf t (pverts p) \/ PieceOf (reverse3 t) (pverts p))).
Proof.
  intros op eps A B Io E VA VB UA UB. set (T := triangles A ++ triangles B).
  assert (N : forall plc, ValidPLC3 plc -> Unflat plc -> (forall t, In t (triangles plc) -> In t T) -> exists ps tr, to_polygons plc = Ok ps /\ new_node eps ps = Ok tr /\ From (both T) (allPolygons tr)).
  { intros plc V U H. rewrite (polygons_ok plc V). destruct (new_node_ok eps E (both T) (map tripoly (triangles plc))) as (tr & Et & Ft & _); [|eauto].
    intros p Ip. apply in_map_iff in Ip as (t & <- & It). exists t. split; [apply in_or_app; auto|]. pose proof (unflat_real plc t U It). split; auto. apply tri_pp; auto. }
  destruct (N A VA UA) as (pa & a & Ea & Na & Fa); [intros; apply in_or_app; auto|]. destruct (N B VB UB) as (pb & b & Eb & Nb & Fb); [intros; apply in_or_app; auto|].
  assert (R : exists tr, op eps a b = Ok tr /\ From (both T) (allPolygons tr)).
  { assert (CT : forall t o, From (both T) (allPolygons t) -> From (both T) (allPolygons (clipTo eps t o))) by (intros t o F; apply clipTo_from; auto).
    assert (BD : forall t t', From (both T) (allPolygons t) -> From (both T) (allPolygons t') -> exists r, build eps t (allPolygons t') = Ok r /\ From (both T) (allPolygons r)) by (intros t t' F F'; destruct (build_ok eps E (both T) t (allPolygons t') F F') as (r & ? & ? & _); eauto).
    assert (NN : forall t, From (both T) (allPolygons t) -> exists r, new_node eps (allPolygons t) = Ok r /\ From (both T) (allPolygons r)) by (intros t F; destruct (new_node_ok eps E (both T) (allPolygons t) F) as (r & ? & ? & _); eauto).
    pose proof (invert_both T) as IV. destruct Io as [<-|[<-|[<-|[]]]]; [unfold tree_union|unfold tree_intersect|unfold tree_subtract];
      match goal with |- context[build eps ?x (allPolygons ?y)] => destruct (BD x y) as (r & -> & Fr); [auto 12|auto 12|] end; cbn [bind]; auto. }
  destruct R as (tr & Er & Fr). exists (allPolygons tr). unfold csg_polygons. rewrite Ea. cbn [bind]. rewrite Na. cbn [bind]. rewrite Eb. cbn [bind]. rewrite Nb. cbn [bind]. rewrite Er. cbn [bind]. split; auto.
  intros p Ip. destruct (Fr p Ip) as (t & It & _ & [P _]). apply in_app_or in It as [It|It]; [exists t; auto|]. apply in_map_iff in It as (u & <- & Iu). exists u. auto.
Qed.
Print Assumptions csg3_parts.

(* ---- the hypotheses can be met ---- *)
Definition solidb (eps : Q) (plc : list Q * list (list nat)) : bool :=
  let ts := triangles plc in
  (4 <=? length (snd plc)) && forallb (fun f => (3 <=? length f) && forallb (fun k => 3 * k + 3 <=? length (fst plc)) f) (snd plc) &&
  forallb (fun t => forallb (fun t' => forallb (fun v => Qeq_bool (beyond t v) 0 || Qlt_bool (beyond t v) (- eps)) (corners3 t')) ts &&
                    existsb (fun t' => existsb (fun v => Qlt_bool (beyond t v) (- eps)) (corners3 t')) ts) ts.
Lemma solidb_ok eps plc : solidb eps plc = true -> Solid eps plc.
Proof.
  unfold solidb. intros H. apply andb_prop in H as (H & H3). apply andb_prop in H as (H1 & H2). rewrite forallb_forall in H2, H3. constructor.
  - split; [apply Nat.leb_le; auto|]. intros f If. specialize (H2 f If). apply andb_prop in H2 as (L & K). split; [apply Nat.leb_le; auto|]. intros k Ik. rewrite forallb_forall in K. apply Nat.leb_le. auto.
  - intros t t' v It It' Iv. specialize (H3 t It). apply andb_prop in H3 as (H3 & _). rewrite forallb_forall in H3. specialize (H3 t' It'). rewrite forallb_forall in H3. specialize (H3 v Iv). apply orb_prop in H3 as [X|X]; [left; apply Qeq_bool_iff; auto|right]. destruct (qltb_spec (beyond t v) (- eps)); [auto|discriminate].
  - intros t It. specialize (H3 t It). apply andb_prop in H3 as (_ & H3). apply existsb_exists in H3 as (t' & It' & H3). apply existsb_exists in H3 as (v & Iv & X). exists t', v. split; auto. split; auto. destruct (qltb_spec (beyond t v) (- eps)); [auto|discriminate].
Qed.
(* a box, all facets seen from outside counterclockwise, and a tetrahedron with a corner in it *)
Definition box3 : list Q * list (list nat) :=
  ([0; 0; 0; 2; 0; 0; 2; 2; 0; 0; 2; 0; 0; 0; 2; 2; 0; 2; 2; 2; 2; 0; 2; 2]%Q,
   [[0; 3; 2; 1]; [4; 5; 6; 7]; [0; 1; 5; 4]; [1; 2; 6; 5]; [2; 3; 7; 6]; [3; 0; 4; 7]]).
Definition tet3 : list Q * list (list nat) := ([1; 1; 1; 5; 1; 1; 1; 5; 1; 1; 1; 5]%Q, [[0; 2; 1]; [0; 1; 3]; [0; 3; 2]; [1; 2; 3]]).
Example csg3_case : let eps := (1 # 1000)%Q in let x := (2, 1 # 2, 3 # 2)%Q in let y := (5 # 4, 3 # 2, 1)%Q in
  Solid eps box3 /\ Solid eps tet3 /\ Clear eps tet3 x /\ OnSurface box3 x /\ Outside tet3 x /\ Clear eps box3 y /\ OnSurface tet3 y /\ Inside3 box3 y.
Proof.
  intros eps x y. split; [apply solidb_ok; vm_compute; reflexivity|]. split; [apply solidb_ok; vm_compute; reflexivity|].
  split. { intros t It. cbn in It. repeat (destruct It as [<-|It]; [(left; vm_compute; reflexivity) || (right; vm_compute; reflexivity)|]). destruct It. }
  assert (K : forall a b c p w1 w2 w3, (0 <= w1)%Q -> (0 <= w2)%Q -> (0 <= w3)%Q -> (w1 + w2 + w3 == 1)%Q -> (forall i, C i p == w1 * C i a + w2 * C i b + w3 * C i c)%Q -> Combination3 [a; b; c] p).
  { intros a b c p w1 w2 w3 H1 H2 H3 Hs Hp. exists [w1; w2; w3]. split; [reflexivity|]. split; [intros w [<-|[<-|[<-|[]]]]; auto|]. pose proof (Hp 0) as P0. pose proof (Hp 1) as P1. pose proof (Hp 2) as P2. cbn [C] in *. unfold sumf. cbn [fold_right combine map fst snd]. repeat split; lra. }
  split. { exists (nth 7 (triangles box3) ((0,0,0),(0,0,0),(0,0,0))%Q). split; [apply nth_In; cbn; lia|]. apply (K _ _ _ _ (1#4) (1#4) (1#2))%Q; try lra. intros i. destruct i as [|[|i]]; vm_compute; reflexivity. }
  split. { exists (nth 1 (triangles tet3) ((0,0,0),(0,0,0),(0,0,0))%Q). split; [apply nth_In; cbn; lia|]. vm_compute. reflexivity. }
  split. { intros t It. cbn in It. repeat (destruct It as [<-|It]; [(left; vm_compute; reflexivity) || (right; vm_compute; reflexivity)|]). destruct It. }
  split. { exists (nth 0 (triangles tet3) ((0,0,0),(0,0,0),(0,0,0))%Q). split; [apply nth_In; cbn; lia|]. apply (K _ _ _ _ (13#16) (1#8) (1#16))%Q; try lra. intros i. destruct i as [|[|i]]; vm_compute; reflexivity. }
  intros t It. cbn in It. repeat (destruct It as [<-|It]; [vm_compute; reflexivity|]). destruct It.
Qed.
Example csg3_parts_case : ValidPLC3 tet3 /\ Unflat tet3.
Proof.
  split; [apply (so_valid (1 # 1000)); apply solidb_ok; vm_compute; reflexivity|]. intros t It. cbn in It. repeat (destruct It as [<-|It]; [vm_compute; reflexivity|]). destruct It.
Qed.

(* ---- where the code fails ---- *)
Definition in3 (lo hi v : p3) : Prop := (X3 lo <= X3 v <= X3 hi /\ Y3 lo <= Y3 v <= Y3 hi /\ Z3 lo <= Z3 v <= Z3 hi)%Q.
Lemma box_grow vs : forall lo hi, in3 lo hi lo -> in3 lo hi hi ->
  let bx := fold_left (fun bx v => (min3 (fst bx) v, max3 (snd bx) v)) vs (lo, hi) in
  in3 (fst bx) (snd bx) lo /\ in3 (fst bx) (snd bx) hi /\ forall v, In v vs -> in3 (fst bx) (snd bx) v.
Proof.
  induction vs as [|v vs IH]; intros lo hi Hl Hh; [cbn; split; auto; split; auto; intros ? []|]. cbn [fold_left fst snd].
  assert (G : in3 (min3 lo v) (max3 hi v) lo /\ in3 (min3 lo v) (max3 hi v) hi /\ in3 (min3 lo v) (max3 hi v) v /\ in3 (min3 lo v) (max3 hi v) (min3 lo v) /\ in3 (min3 lo v) (max3 hi v) (max3 hi v)).
  { clear IH. destruct lo as ((lx & ly) & lz), hi as ((hx & hy) & hz), v as ((vx & vy) & vz). unfold in3, min3, max3 in *. cbn [X3 Y3 Z3 fst snd] in *.
    assert (MN : forall a b, (qmin a b <= a /\ qmin a b <= b /\ (qmin a b == a \/ qmin a b == b))%Q) by (intros p q; unfold qmin; destruct (Qlt_le_dec q p); lra).
    assert (MX : forall a b, (a <= qmax a b /\ b <= qmax a b /\ (qmax a b == a \/ qmax a b == b))%Q) by (intros p q; unfold qmax; destruct (Qlt_le_dec p q); lra).
    pose proof (MN lx vx). pose proof (MN ly vy). pose proof (MN lz vz). pose proof (MX hx vx). pose proof (MX hy vy). pose proof (MX hz vz).
    repeat split; lra. }
  destruct G as (G1 & G2 & G3 & G4 & G5). destruct (IH (min3 lo v) (max3 hi v) G4 G5) as (I1 & I2 & I3).
  assert (TR : forall u lo' hi', in3 lo' hi' (min3 lo v) -> in3 lo' hi' (max3 hi v) -> in3 (min3 lo v) (max3 hi v) u -> in3 lo' hi' u) by (unfold in3; intros; lra).
  split; [eapply TR; eauto|]. split; [eapply TR; eauto|]. intros u [<-|Iu]; [eapply TR; eauto|apply I3; auto].
Qed.
(* The public functions never return: the first point they hash shifts an int by 42 bits. *)
Theorem csg3_refuted : forall op eps A B r, csg3 op int_key eps A B <> Ok r.
Proof.
  intros op eps A B r E. unfold csg3 in E. apply bind_ok in E as (ps & _ & E). unfold from_polygons in E. apply bind_ok in E as ((lo & hi) & Eb & E). apply bind_ok in E as (pa & Ep & _).
  unfold box_of in Eb. apply bind_ok in Eb as (u & _ & Eb). apply bind_ok in Eb as (p0 & Hp & Eb). apply bind_ok in Eb as (v0 & Hv & Eb). apply bind_ok in Eb as ((lo' & hi') & Em & Eb). apply bind_ok in Eb as (u' & Ha & Eb). injection Eb as <- <-.
  apply assert_ok in Ha. apply andb_prop in Ha as (Ha & Hz). apply andb_prop in Ha as (Hx & Hy).
  apply get_ok in Hp. destruct ps as [|q ps]; [discriminate|]. cbn in Hp. injection Hp as ->.
  assert (IN : forall qs lo hi lo' hi', in3 lo hi lo -> in3 lo hi hi -> mfold box_step qs (lo, hi) = Ok (lo', hi') -> in3 lo' hi' lo' /\ in3 lo' hi' hi' /\ in3 lo' hi' lo /\ in3 lo' hi' hi /\ forall p, In p qs -> forall v, In v (pverts p) -> in3 lo' hi' v).
  { clear. induction qs as [|q qs IH]; intros lo hi lo' hi' Hl Hh E; [injection E as <- <-; split; auto; split; auto; split; auto; split; auto; intros ? []|]. cbn [mfold] in E. apply bind_ok in E as ((l2 & h2) & E1 & E). unfold box_step in E1. apply bind_ok in E1 as (? & _ & E1).
    destruct (box_grow (pverts q) lo hi Hl Hh) as (G1 & G2 & G3). injection E1 as E1. rewrite E1 in G1, G2, G3. cbn [fst snd] in *.
    assert (L2 : in3 l2 h2 l2 /\ in3 l2 h2 h2) by (unfold in3 in *; lra). destruct L2 as (L2 & H2). destruct (IH l2 h2 lo' hi' L2 H2 E) as (I1 & I2 & I3 & I4 & I5).
    assert (TR : forall u, in3 l2 h2 u -> in3 lo' hi' u) by (unfold in3 in *; intros; lra). split; auto. split; auto. split; auto. split; auto. intros p [<-|Ip] v Iv; [apply TR; auto|apply (I5 p); auto]. }
  assert (R0 : in3 v0 v0 v0) by (unfold in3; lra). destruct (IN (p0 :: ps) v0 v0 lo' hi' R0 R0 Em) as (_ & _ & _ & _ & I5).
  cbn [mfold] in Ep. apply bind_ok in Ep as (ps1 & Ep & _). unfold first_poly in Ep. apply bind_ok in Ep as (st & Ep & _).
  apply get_ok in Hv. destruct (pverts p0) as [|v vs] eqn:Evs; [discriminate|]. cbn in Hv. injection Hv as ->.
  assert (RG : exists w es, ring (v0 :: vs) = (v0, w) :: es) by (destruct vs as [|w vs]; unfold ring; cbn; eauto). destruct RG as (w & es & RG). rewrite RG in Ep. cbn [mfold] in Ep. apply bind_ok in Ep as (st1 & Ep & _).
  unfold first_edge in Ep. cbn [fst snd] in Ep. rewrite hash_int_3d_refuted in Ep; [discriminate| |].
  - assert (XX : (X3 lo' < X3 hi' /\ Y3 lo' < Y3 hi' /\ Z3 lo' < Z3 hi')%Q) by (repeat split; match goal with H : Qlt_bool ?a ?b = true |- (?a < ?b)%Q => destruct (qltb_spec a b); [auto|discriminate] end).
    constructor; intros; try (intros); (assert (J : j = 0 \/ j = 1 \/ j = 2) by lia; destruct J as [->|[->| ->]]; unfold coord, l3; cbn [nth]; lra).
  - intros j Hj. assert (IV : in3 lo' hi' v0) by (apply (I5 p0 (or_introl eq_refl) v0); rewrite Evs; left; auto). unfold in3 in IV.
    assert (J : j = 0 \/ j = 1 \/ j = 2) by lia; destruct J as [->|[->| ->]]; unfold coord, l3; cbn [nth]; lra.
Qed.
Print Assumptions csg3_refuted.
