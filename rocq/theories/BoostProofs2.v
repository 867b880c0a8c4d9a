(* Reading out a Voronoi diagram gives the mesh of its truncated cells. *)
From Coq Require Import QArith Qabs Lqa.
From Verif Require Import Base BaseFacts SerializeModel KeyMapModel MeshModel QuantMeshModel QuantMeshSpec QuantMeshProps QuantMeshProofs QuantMeshProofs2 PLCSpec BoxModel BoxProofs BoxProps Plane WithinSpec WithinProofs4 TriModel TriSpec TriProofs6 ClipModel ClipSpec ClipProofs2 BoundedSpec BoundedProofs BoostModel BoostSpec BoostProofs.
Local Open Scope nat_scope.

Definition tpo (x : option p2) : pt := match x with Some x => tp x | None => (0, 0)%Z end.
Definition cells_of (l : list vcell) : list (nat * list (pt * pt)) := map (fun c => (v_src c, map (fun e => (tpo (fst e), tpo (snd e))) (v_walk c))) (filter v_point l).

Definition Readable (ngen : nat) (sites : list (pt * nat)) (c : vcell) : Prop :=
  exists s, nth_error sites (v_src c) = Some s /\ (v_src c < ngen -> snd s = v_src c) /\ (ngen <= v_src c -> ngen <= snd s) /\
    (v_src c < ngen -> v_point c = true -> v_walk c <> [] /\ forall e, In e (v_walk c) -> exists x y, e = (Some x, Some y) /\ int_pt x = Ok (tp x) /\ int_pt y = Ok (tp y)).
Lemma read_vedges i w : forall st, (forall e, In e w -> exists x y, e = (Some x, Some y) /\ int_pt x = Ok (tp x) /\ int_pt y = Ok (tp y)) ->
  mfold (read_vedge i) w st = mfold (visit boost_node i) (map (fun e => (tpo (fst e), tpo (snd e))) w) st.
Proof.
  induction w as [|e w IH]; intros st H; [reflexivity|]. cbn [mfold map]. destruct (H e (or_introl eq_refl)) as (x & y & -> & Ex & Ey).
  unfold read_vedge at 1. rewrite Ex, Ey. cbn [bind fst snd tpo]. destruct (visit boost_node i st (tp x, tp y)) as [st'| | |]; cbn [bind]; auto.
  apply IH. intros; apply H; right; auto.
Qed.
Lemma read_cells ngen sites l : forall st, (forall c, In c l -> Readable ngen sites c) ->
  mfold (read_vcell ngen sites) l st = mfold (read_cell boost_node) (real_cells ngen (cells_of l)) st.
Proof.
  induction l as [|c l IH]; intros st H; [reflexivity|]. cbn [mfold]. destruct (H c (or_introl eq_refl)) as (s & Hs & S1 & S2 & W).
  assert (IH' : forall st, mfold (read_vcell ngen sites) l st = mfold (read_cell boost_node) (real_cells ngen (cells_of l)) st) by (intros; apply IH; intros; apply H; right; auto).
  unfold read_vcell at 1. unfold get. rewrite Hs. cbn [bind]. unfold cells_of, real_cells. cbn [filter].
  destruct (v_point c) eqn:Vp; cbn [andb].
  - cbn [map filter]. cbn [fst]. destruct (Nat.ltb_spec (v_src c) ngen) as [L|L].
    + rewrite (S1 L), (proj2 (Nat.ltb_lt _ _) L). destruct (W L eq_refl) as [Ne We]. cbn [map mfold fst snd].
      assert (E : match v_walk c with [] => UB | e :: w => bind (read_vedge (v_src c) st e) (fun s' => mfold (read_vedge (v_src c)) w s') end = mfold (read_vedge (v_src c)) (v_walk c) st) by (destruct (v_walk c); [congruence|reflexivity]).
      rewrite E, (read_vedges _ _ _ We). unfold read_cell at 1. cbn [bind].
      destruct (mfold (visit boost_node (v_src c)) _ st) as [st'| | |]; cbn [bind]; [apply IH'|reflexivity..].
    + rewrite (proj2 (Nat.ltb_ge (snd s) ngen)) by auto. cbn [bind]. apply IH'.
  - cbn [bind]. apply IH'.
Qed.

Lemma wanted_one {A} (evs : list (nat * bool * list A)) : forall i segs, NoDup (map (fun e => fst (fst e)) evs) -> In (i, false, segs) evs -> wanted i evs = segs.
Proof.
  unfold wanted. assert (K : forall (evs : list (nat * bool * list A)) i segs acc, NoDup (map (fun e => fst (fst e)) evs) -> In (i, false, segs) evs ->
    fold_left (fun acc e => let '(j, clear, segs) := e in if j =? i then (if clear : bool then segs else acc ++ segs) else acc) evs acc = acc ++ segs).
  { clear evs. induction evs as [|[[j b] l] evs IH]; intros i segs acc N I; [destruct I|]. cbn [map fst] in N. inversion N as [|? ? N1 N2]; subst. destruct I as [E|I].
    - injection E as -> -> ->. cbn [fold_left]. rewrite Nat.eqb_refl. apply wanted_none. intros e Ie Ee. apply N1. rewrite <- Ee. apply (in_map (fun e => fst (fst e)) _ _ Ie).
    - cbn [fold_left]. destruct (Nat.eqb_spec j i) as [->|]; [|apply IH; auto]. elim N1. apply (in_map (fun e => fst (fst e)) _ _ I). }
  intros i segs N I. rewrite (K _ _ _ _ N I). auto.
Qed.

(* a read-out that stores every point exactly *)
Lemma mesh_of_eq polys evs ns es cs : (forall s, In s (walked evs) <-> In s (all_sides polys)) ->
  (forall i p, nth_error polys i = Some p -> wanted i evs = sides p) ->
  ReadOut eq (length polys) evs (fun p => p) ns es cs -> MeshOf polys ns es cs.
Proof.
  intros W Wi R. constructor.
  - apply (ro_ncells _ _ _ _ _ _ _ R).
  - intros i c p Hc Hp. rewrite (ro_cells _ _ _ _ _ _ _ R i c Hc), (Wi i p Hp). f_equal. unfold snapped. f_equal. rewrite <- (map_id (sides p)) at 2. apply map_ext. intros [a b]. reflexivity.
  - intros q. split.
    + intros I. destruct (ro_nodes _ _ _ _ _ _ _ R q I) as (_ & s & Is & E). apply W in Is. apply in_flat_map in Is as (p & Ip & Is). eauto.
    + intros (p & s & Ip & Is & E). apply (ro_snap _ _ _ _ _ _ _ R s q); auto. apply W. apply in_flat_map. eauto.
  - apply NoDup_nth_error. intros i j L E. destruct (nth_error_ex ns i L) as [x Hx]. apply (ro_apart _ _ _ _ _ _ _ R i j x x Hx); congruence.
  - apply (ro_edges _ _ _ _ _ _ _ R).
  - apply (ro_order _ _ _ _ _ _ _ R).
  - intros a b I. destruct (ro_used _ _ _ _ _ _ _ R a b I) as (s & Is & H). apply W in Is. apply in_flat_map in Is as (p & Ip & Is). destruct s as [x y]. cbn [fst snd] in H.
    destruct H as [[H1 H2]|[H1 H2]]; [exists p, (x, y), x, y|exists p, (x, y), y, x]; auto 10.
Qed.

Section ReadDiagram.
  Context (gens guards : list (pt * nat)) (vd : list vcell).
  Let ngen := length gens.
  Let sites := map fst (gens ++ guards).
  Context (D : Diagram sites ngen vd) (Ap : CornersApart ngen vd) (Distinct : NoDup (map fst gens))
    (Ig : forall i g k, nth_error gens i = Some (g, k) -> k = i) (Iu : forall u k, In (u, k) guards -> ngen <= k)
    (Range : forall p x, p < ngen -> Nearest (map grid_pt sites) p x -> (inject_Z coordMin <= fst x <= inject_Z coordMax)%Q /\ (inject_Z coordMin <= snd x <= inject_Z coordMax)%Q).

  Lemma choose_corners : exists xss, length xss = ngen /\ forall p xs, nth_error xss p = Some xs -> exists c, In c vd /\ v_src c = p /\ v_point c = true /\ VoronoiWalk sites p (v_walk c) xs.
  Proof using D. apply (choose_list (fun p xs => exists c, In c vd /\ v_src c = p /\ v_point c = true /\ VoronoiWalk sites p (v_walk c) xs)). intros p Lp. destruct (dg_cell _ _ _ D p Lp) as (c & xs & H). eauto. Qed.

  Context (xss : list (list p2)) (Len : length xss = ngen)
    (Xs : forall p xs, nth_error xss p = Some xs -> exists c, In c vd /\ v_src c = p /\ v_point c = true /\ VoronoiWalk sites p (v_walk c) xs).

  Lemma src_inj c c' : In c vd -> In c' vd -> v_src c = v_src c' -> c = c'.
  Proof using D. clear - D. intros I I' E. pose proof (dg_once _ _ _ D) as N. revert I I' N. clear - E. induction vd as [|a l IH]; intros I I' N; [destruct I|]. cbn in N. inversion N as [|? ? N1 N2]; subst.
    destruct I as [->|I], I' as [->|I']; auto.
    - elim N1. rewrite E. apply in_map. auto.
    - elim N1. rewrite <- E. apply in_map. auto.
  Qed.
  Lemma walk_of c : In c vd -> v_src c < ngen -> exists xs, nth_error xss (v_src c) = Some xs /\ VoronoiWalk sites (v_src c) (v_walk c) xs /\ v_point c = true.
  Proof using D Len Xs.
    intros I L. destruct (nth_error_ex xss (v_src c)) as [xs Hx]; [rewrite Len; exact L|]. destruct (Xs _ _ Hx) as (c' & I' & E & Vp & W). assert (c' = c) by (apply src_inj; auto). subst c'. eauto.
  Qed.
  Lemma corner_of c xs x : v_walk c = map (fun e : p2 * p2 => (Some (fst e), Some (snd e))) (ring xs) -> In x xs -> v_corner c x.
  Proof using. clear. intros W I. destruct (ring_fst_in xs x I) as [y R]. exists (Some x, Some y). split; auto. rewrite W. apply (in_map (fun e : p2 * p2 => (Some (fst e), Some (snd e))) _ _ R). Qed.
  Lemma xss_convex xs : In xs xss -> StrictlyConvex xs /\ 3 <= length xs.
  Proof using Xs. intros I. apply In_nth_error in I as [p H]. destruct (Xs p xs H) as (c & _ & _ & _ & _ & L & C & _). auto. Qed.
  Lemma xss_vor p xs : nth_error xss p = Some xs -> forall x, Nearest (map grid_pt sites) p x <-> Combination xs x.
  Proof using Xs. intros H. destruct (Xs p xs H) as (c & _ & _ & _ & _ & L & C & V). auto. Qed.
  Lemma xss_apart xs ys x y : In xs xss -> In ys xss -> In x xs -> In y ys -> qsame x y \/ (2 <= Qabs (fst x - fst y))%Q \/ (2 <= Qabs (snd x - snd y))%Q.
  Proof using Ap Len Xs.
    intros I J Ix Iy. apply In_nth_error in I as [p Hp]. apply In_nth_error in J as [q Hq].
    destruct (Xs p xs Hp) as (c & Ic & Ec & _ & Wc & _). destruct (Xs q ys Hq) as (d & Id & Ed & _ & Wd & _).
    apply (Ap c d x y Ic Id); [rewrite Ec, <- Len; eapply nth_error_lt; eauto|rewrite Ed, <- Len; eapply nth_error_lt; eauto|eapply corner_of; eauto|eapply corner_of; eauto].
  Qed.
  Lemma int_ok p xs x : nth_error xss p = Some xs -> In x xs -> int_pt x = Ok (tp x).
  Proof using Range Len Xs.
    intros H I. assert (Lp : p < ngen) by (rewrite <- Len; eapply nth_error_lt; eauto). destruct (Range p x Lp) as [Rx Ry]; [apply (xss_vor p xs H), comb_corner; auto|].
    unfold int_pt. cbn [fst snd]. apply trunc_range in Rx. apply trunc_range in Ry. destruct coord_vals as [V1 V2]. rewrite V1, V2 in Rx, Ry.
    rewrite !as_int_ok by (clear - Rx Ry; lia). reflexivity.
  Qed.
  Lemma ngen_sites : ngen <= length sites.
  Proof using. clear. unfold sites, ngen. rewrite map_length, app_length. lia. Qed.
  Lemma distinct_sites : NoDup (firstn ngen sites).
  Proof using Distinct. unfold sites, ngen. rewrite map_app, firstn_app, map_length, Nat.sub_diag, firstn_O, app_nil_r, firstn_all2; [auto|rewrite map_length; apply Nat.le_refl]. Qed.

  Lemma readable c : In c vd -> Readable ngen (gens ++ guards) c.
  Proof using D Ig Iu Range Len Xs.
    intros I. pose proof (dg_site _ _ _ D c I) as L. unfold sites in L. rewrite map_length in L. destruct (nth_error_ex (gens ++ guards) (v_src c) L) as [[g k] Hs].
    exists (g, k). split; auto. cbn [snd]. split; [|split].
    - intros Ls. rewrite nth_error_app1 in Hs by auto. eapply Ig; eauto.
    - intros Ls. rewrite nth_error_app2 in Hs by auto. apply nth_error_In in Hs. eapply Iu; eauto.
    - intros Ls _. destruct (walk_of c I Ls) as (xs & Hx & (W & L3 & _ & _) & _). split.
      + rewrite W. intros E. apply (f_equal (@length _)) in E. rewrite map_length, AreaProofs2.ring_length in E. cbn in E. clear - E L3. lia.
      + intros e Ie. rewrite W in Ie. apply in_map_iff in Ie as ([x y] & <- & Ie). destruct (ring_in_both _ _ _ Ie). exists x, y. cbn [fst snd]. split; auto. split; eapply int_ok; eauto.
  Qed.

  Lemma seg_walk c xs : v_walk c = map (fun e : p2 * p2 => (Some (fst e), Some (snd e))) (ring xs) -> map (fun e => (tpo (fst e), tpo (snd e))) (v_walk c) = ring (map tp xs).
  Proof using. clear. intros ->. rewrite map_map, ring_mapped. reflexivity. Qed.
  Lemma ev_in p xs : nth_error xss p = Some xs -> In (p, false, ring (map tp xs)) (real_cells ngen (cells_of vd)).
  Proof using D Len Xs.
    intros H. assert (Lp : p < ngen) by (rewrite <- Len; eapply nth_error_lt; eauto). destruct (Xs p xs H) as (c & I & E & Vp & W & _). unfold real_cells.
    apply in_map_iff. exists (p, ring (map tp xs)). split; auto. apply filter_In. split; [|apply Nat.ltb_lt; auto].
    unfold cells_of. apply in_map_iff. exists c. rewrite E, (seg_walk c xs W). split; auto. apply filter_In. auto.
  Qed.
  Lemma ev_inv e : In e (real_cells ngen (cells_of vd)) -> exists xs, nth_error xss (fst (fst e)) = Some xs /\ e = (fst (fst e), false, ring (map tp xs)).
  Proof using D Len Xs.
    intros I. unfold real_cells in I. apply in_map_iff in I as (c & <- & I). apply filter_In in I as [I L]. apply Nat.ltb_lt in L. unfold cells_of in I. apply in_map_iff in I as (v & <- & I).
    apply filter_In in I as [I _]. cbn [fst snd] in *. destruct (walk_of v I L) as (xs & Hx & (W & _) & _). exists xs. split; auto. rewrite (seg_walk v xs W). auto.
  Qed.
  Lemma evs_once : NoDup (map (fun e => fst (fst e)) (real_cells ngen (cells_of vd))).
  Proof using D.
    pose proof (dg_once _ _ _ D) as N. clear - N. unfold real_cells, cells_of. rewrite map_map. cbn [fst].
    assert (In_ : forall l s, In s (map (fun x : nat * list (pt * pt) => fst x) (filter (fun c => fst c <? ngen) (map (fun c => (v_src c, map (fun e => (tpo (fst e), tpo (snd e))) (v_walk c))) (filter v_point l)))) -> In s (map v_src l)).
    { clear. intros l s I. apply in_map_iff in I as (e & <- & I). apply filter_In in I as [I _]. apply in_map_iff in I as (c & <- & I). apply filter_In in I as [I _]. cbn [fst]. apply in_map. auto. }
    induction vd as [|c l IH]; [constructor|]. cbn [map] in N. inversion N as [|? ? N1 N2]; subst. cbn [filter]. destruct (v_point c); [|apply IH; auto].
    cbn [map filter fst]. destruct (v_src c <? ngen); [|apply IH; auto]. cbn [map fst]. constructor; [|apply IH; auto]. intros I. apply N1. apply In_. exact I.
  Qed.

  Lemma diagram_mesh : exists ns es cs, boost_tessellate (fun _ => vd) gens guards = Ok (ns, es, cs) /\ MeshOf (polys_of xss) ns es cs /\ length cs = ngen.
  Proof using D Ig Iu Range Len Xs.
    destruct (boost_readout_correct ngen (cells_of vd)) as (st & E & R). exists (qnodes st), (qedges st), (qcells st). split; [|split].
    - change (mfold (read_cell boost_node) (real_cells ngen (cells_of vd)) (mkQuant [] [] [] [] (repeat [] ngen)) = Ok st) in E.
      change (bind (mfold (read_vcell ngen (gens ++ guards)) vd (mkQuant [] [] [] [] (repeat [] ngen))) (fun st => Ok (qnodes st, qedges st, qcells st)) = Ok (qnodes st, qedges st, qcells st)).
      rewrite (read_cells ngen (gens ++ guards) vd _ readable), E. reflexivity.
    - apply (mesh_of_eq _ (real_cells ngen (cells_of vd))).
      + intros s. unfold walked. rewrite sides_of, in_flat_map, in_map_iff. split.
        * intros (e & Ie & Is). destruct (ev_inv e Ie) as (xs & Hx & Ee). rewrite Ee in Is. cbn [snd] in Is. rewrite ring_mapped in Is. apply in_map_iff in Is as (x & <- & Ix).
          exists x. split; auto. apply in_flat_map. exists xs. split; auto. eapply nth_error_In; eauto.
        * intros (x & <- & Ix). apply in_flat_map in Ix as (xs & Ixs & Ix). apply In_nth_error in Ixs as [p Hp]. exists (p, false, ring (map tp xs)). split; [apply ev_in; auto|]. cbn [snd]. rewrite ring_mapped. apply (in_map (fun e : p2 * p2 => (tp (fst e), tp (snd e))) _ _ Ix).
      + intros i p Hp. unfold polys_of in Hp. rewrite nth_error_map in Hp. destruct (nth_error xss i) as [xs|] eqn:Hx; [|discriminate]. injection Hp as <-. rewrite closed_sides. apply wanted_one; [apply evs_once|apply ev_in; auto].
      + assert (L : length (polys_of xss) = ngen) by (unfold polys_of; rewrite map_length; auto). rewrite L. exact R.
    - apply (ro_ncells _ _ _ _ _ _ _ R).
  Qed.
End ReadDiagram.
