(* The tessellation with a Voronoi diagram: what is common to the cases with and without a boundary. *)
From Coq Require Import QArith Qabs Lqa.
From Verif Require Import Base BaseFacts SerializeModel MeshModel PointMapProofs Hull3Proofs3 QuantMeshModel QuantMeshProps PLCSpec PLCProofs BoxModel BoxProofs BoxProps Plane WithinSpec TriModel TriSpec TriProofs6 TriProofs10 TriProofs11 ClipModel ClipSpec BoundedSpec BoundedProofs BoostModel BoostSpec BoostProofs BoostProofs2 BoostProofs3.
Local Open Scope nat_scope.

Lemma region_polygon f sites p xs : proper f -> StrictlyConvex xs -> 3 <= length xs -> NoDup (map tp xs) ->
  (forall x, Nearest (map grid_pt sites) p x <-> Combination xs x) -> RegionPolygon f (map (deq f) sites) p (closed (map tp xs)).
Proof.
  intros Pf C L N V. destruct xs as [|a t] eqn:E; [cbn in L; lia|]. rewrite <- E in *. exists (tp a), (map tp t), (map (gplace f) xs).
  split; [rewrite E; reflexivity|]. split; [rewrite E in N; exact N|]. split; [rewrite map_length; auto|]. split; [apply convex_place; auto|]. split.
  - change (tp a :: map tp t) with (map tp (a :: t)). rewrite <- E. clear - Pf. induction xs as [|x xs IH]; constructor; auto. apply near_place; auto.
  - intros X. destruct (unplace f Pf X) as [x Ex]. rewrite (nearest_place f Pf sites p x X Ex), (combination_place f Pf xs x X Ex). apply V.
Qed.

Section Standard.
  Context (big : Q) (bnd points : list Q) (xl yl xh yh : Q) (f : frame) (gq uq : list (pt * nat)) (vd : list vcell).
  Context (Box : local_box 2 big bnd = Ok ([xl; yl], [xh; yh])) (Size : (xl < xh \/ yl < yh)%Q) (Ff : boundary_frame big bnd = Ok f)
    (Co : construct f points = Ok (gq, uq))
    (Inside : forall i x y, i < length gq -> vertex 2 points i = [x; y] -> (xl <= x <= xh)%Q /\ (yl <= y <= yh)%Q).
  Let sites := map fst (gq ++ uq).
  Context (D : Diagram sites (length gq) vd) (Ap : CornersApart (length gq) vd) (Distinct : NoDup (map fst gq)).

  Lemma standard_cells : exists polys ns es cs, boost_tessellate (fun _ => vd) gq uq = Ok (ns, es, cs) /\ MeshOf polys ns es cs /\ length cs = length gq /\
    SideBySide polys /\ (gq <> [] -> exists s, OuterSide polys s) /\ (forall p, In p polys -> 2 <= length p) /\
    forall p poly, nth_error polys p = Some poly -> RegionPolygon f (map (deq f) sites) p poly.
  Proof.
    pose proof (f_full big bnd points xl yl xh yh f gq uq Box Size Ff Co) as Fu. pose proof (full_proper f Fu) as Pf.
    destruct (choose_corners gq uq vd D) as (xss & Len & Xs).
    destruct (diagram_mesh gq uq vd D (gen_index points xl yl xh yh f gq uq Co Inside) (guard_index points f gq uq Co) (grid_range big bnd points xl yl xh yh f gq uq Box Size Ff Co Inside) xss Len Xs) as (ns & es & cs & E & Mo & Lc).
    exists (polys_of xss), ns, es, cs. split; auto. split; auto. split; auto.
    pose proof (xss_convex gq uq vd xss Xs) as Cv. pose proof (xss_vor gq uq vd xss Xs) as Vor. pose proof (xss_apart gq uq vd Ap xss Len Xs) as Apt.
    pose proof (ngen_sites gq uq) as Ns. pose proof (distinct_sites gq uq Distinct) as Dt. split; [|split; [|split]].
    - apply (side_by_side sites (length gq) xss Len Ns Dt Cv Vor Apt).
    - intros Ne. apply (outer_side sites (length gq) xss Len Ns Dt Cv Vor Apt). destruct xss; [|discriminate]. destruct gq; [congruence|discriminate Len].
    - intros p I. unfold polys_of in I. apply in_map_iff in I as (xs & <- & I). destruct (Cv xs I) as [_ L]. destruct xs as [|a t]; [cbn in L; lia|]. cbn. rewrite app_length. cbn. lia.
    - intros p poly H. unfold polys_of in H. rewrite nth_error_map in H. destruct (nth_error xss p) as [xs|] eqn:Hx; [|discriminate]. injection H as <-.
      destruct (Cv xs (nth_error_In _ _ Hx)) as [C L]. apply region_polygon; auto. apply (tps_nodup xss Cv Apt xs (nth_error_In _ _ Hx)).
  Qed.
  Lemma standard_points i x y : vertex 2 points i = [x; y] -> exists vx vy, nth_error (map (deq f) sites) i = Some (vx, vy) /\
     (vx <= x < vx + spacing f)%Q /\ (vy <= y < vy + spacing f)%Q.
  Proof.
    intros Vi. destruct (construct_correct f points gq uq Co) as (Len & Cg & _). assert (Li : i < length gq).
    { assert (L : length (vertex 2 points i) = 2) by (rewrite Vi; auto). unfold vertex in L. rewrite firstn_length, skipn_length in L. lia. }
    pose proof (Cg i x y Li Vi) as Hg. destruct (Inside i x y Li Vi) as [Bxx Byy].
    pose proof (f_full big bnd points xl yl xh yh f gq uq Box Size Ff Co) as Fu.
    assert (Fr : in_frame f (x, y)).
    { rewrite (f_is big bnd points xl yl xh yh f gq uq Box Ff Co). unfold in_frame. cbn [fx fy flen around_box fst snd].
      destruct (qmax_le (xh - xl) (yh - yl)) as (A1 & A2 & _). lra. }
    destruct (dequantize_error f (x, y) (full_proper f Fu) Fr) as (vx & vy & Eq & X & Y). exists vx, vy. split; auto.
    unfold sites. rewrite map_app, nth_error_map, nth_error_app1, nth_error_map, Hg by (rewrite map_length; auto). cbn [option_map fst]. f_equal.
    unfold dequantize in Eq. unfold deq. injection Eq as <- <-. auto.
  Qed.
  Lemma standard_guards p x : p < length gq -> (xl <= fst x <= xh)%Q -> (yl <= snd x <= yh)%Q ->
    (Nearest (map (deq f) sites) p x <-> Nearest (firstn (length gq) (map (deq f) sites)) p x).
  Proof.
    intros Lp Bx By. assert (Fn : firstn (length gq) (map (deq f) sites) = map (deq f) (map fst gq)).
    { unfold sites. rewrite !map_app, firstn_app, !map_length, Nat.sub_diag, firstn_O, app_nil_r. apply firstn_all2. rewrite !map_length. apply Nat.le_refl. }
    rewrite Fn. unfold sites. rewrite (map_app fst). refine (box_only big bnd points xl yl xh yh f gq uq Box Size Ff Co Inside p x _ Bx By). rewrite map_length. auto.
  Qed.
End Standard.

(* two signed faces with the same number *)
Lemma opposite_or_same z w : pid z = pid w -> z = w \/ w = Z.lnot z.
Proof. intros P. unfold pid, positiveID in P. destruct (Z.leb_spec 0 z), (Z.leb_spec 0 w); unfold Z.lnot in *; lia. Qed.
Lemma concat_position {A} (ls : list (list A)) p q c d i j z : NoDup (concat ls) -> nth_error ls p = Some c -> nth_error ls q = Some d ->
  nth_error c i = Some z -> nth_error d j = Some z -> p = q /\ i = j.
Proof.
  revert p q. induction ls as [|l ls IH]; intros [|p] [|q] N Hp Hq Hi Hj; try discriminate; cbn [concat nth_error] in *.
  - injection Hp as ->. injection Hq as ->. split; auto. apply PointMapProofs.NoDup_app_l in N. apply (proj1 (NoDup_nth_error d) N); [eapply nth_error_lt; eauto|congruence].
  - exfalso. injection Hp as ->. apply Hull3Proofs3.nodup_app_inv in N as (_ & _ & N). apply (N z); [eapply nth_error_In; eauto|]. apply in_concat. exists d. split; eapply nth_error_In; eauto.
  - exfalso. injection Hq as ->. apply Hull3Proofs3.nodup_app_inv in N as (_ & _ & N). apply (N z); [eapply nth_error_In; eauto|]. apply in_concat. exists c. split; eapply nth_error_In; eauto.
  - apply PointMapProofs.NoDup_app_r in N. destruct (IH p q N Hp Hq Hi Hj). auto.
Qed.
