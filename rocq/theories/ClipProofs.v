(* Proofs about clipping: the read-out keeps track of the cells at each node without changing
   anything else; removing collinear points never works; pieces are never adopted. *)
From Coq Require Import QArith.
From Verif Require Import Base BaseFacts StdAlg KeyMapModel PointMapModel FaceSortModel SerializeModel MeshModel MeshEditorModel QuantMeshModel QuantMeshSpec QuantMeshProofs QuantMeshProofs2 PLCSpec BoxModel TriModel ClipModel ClipSpec.
Local Open Scope nat_scope.

(* ------------------------------------------------------------ nodes and their cells *)
Definition all_pts : pt -> Prop := fun _ => True.
Record Sim (st : quant ipmap) (st' : quant cellmap) : Prop := {
  sm_map : exists nc, qmap st' = (qmap st, nc) /\ length nc = length (qnodes st);
  sm_ci : CI all_pts (qmap st) (qnodes st);
  sm_nodes : qnodes st' = qnodes st;
  sm_e2id : qe2id st' = qe2id st;
  sm_edges : qedges st' = qedges st;
  sm_cells : qcells st' = qcells st }.

Lemma node_sim i m nc ns p j m' ns' : CI all_pts m ns -> length nc = length ns -> clip_node (m, ns) p = Ok (j, (m', ns')) ->
  exists nc', node_in i ((m, nc), ns) p = Ok (j, ((m', nc'), ns')) /\ length nc' = length ns' /\ CI all_pts m' ns'.
Proof.
  intros C L E. destruct (clip_HA all_pts m ns p j m' ns' C Logic.I E) as (C' & F & _). apply first_lt in F.
  unfold clip_node in E. unfold node_in. destruct (index m [fst p; snd p]) as [[j0 m0]| | |]; try discriminate. cbn [bind] in *. injection E as -> -> <-.
  destruct (j =? length ns) eqn:Ej.
  - assert (Lx : j < length (nc ++ [[]])) by (rewrite app_length in *; cbn in *; lia).
    destruct (get_lt _ _ Lx) as [s Hs]. rewrite Hs. cbn [bind]. rewrite (set_lt _ _ _ Lx). cbn [bind].
    eexists. split; [reflexivity|]. split; auto. rewrite upd_length, !app_length. cbn. lia.
  - assert (Lx : j < length nc) by lia.
    destruct (get_lt _ _ Lx) as [s Hs]. rewrite Hs. cbn [bind]. rewrite (set_lt _ _ _ Lx). cbn [bind].
    eexists. split; [reflexivity|]. split; auto. rewrite upd_length. auto.
Qed.

Lemma visit_sim i k st st' s r : Sim st st' -> visit clip_node k st s = Ok r -> exists r', visit (node_in i) k st' s = Ok r' /\ Sim r r'.
Proof.
  intros [(nc & Em & Ln) Ci En Ee Ed Ec] E. unfold visit in *. rewrite Em, En, Ee, Ed, Ec.
  destruct (clip_node (qmap st, qnodes st) (fst s)) as [[j0 [m0 ns0]]| | |] eqn:E0; try discriminate. cbn [bind] in E.
  destruct (node_sim i _ nc _ _ _ _ _ Ci Ln E0) as (nc0 & -> & L0 & C0). cbn [bind].
  destruct (clip_node (m0, ns0) (snd s)) as [[j1 [m1 ns1]]| | |] eqn:E1; try discriminate. cbn [bind] in E.
  destruct (node_sim i _ nc0 _ _ _ _ _ C0 L0 E1) as (nc1 & -> & L1 & C1). cbn [bind].
  destruct (j0 =? j1).
  - injection E as <-. eexists. split; [reflexivity|]. constructor; cbn; eauto.
  - destruct (addKeyToMap nedge_lt (edge_key j0 j1) (qe2id st)) as [e1 e2id].
    destruct (if e1 =? length (qe2id st) then _ else _) as [edges| | |]; try discriminate. cbn [bind] in *.
    destruct (get (qcells st) k) as [c| | |]; try discriminate. cbn [bind] in *.
    destruct (set (qcells st) k _) as [cs| | |]; try discriminate. cbn [bind] in *. injection E as <-.
    eexists. split; [reflexivity|]. constructor; cbn; eauto.
Qed.
Lemma visits_sim i k segs : forall st st' r, Sim st st' -> mfold (visit clip_node k) segs st = Ok r ->
  exists r', mfold (visit (node_in i) k) segs st' = Ok r' /\ Sim r r'.
Proof.
  induction segs as [|s segs IH]; intros st st' r S E; cbn [mfold] in *.
  - injection E as <-. eauto.
  - destruct (visit clip_node k st s) as [t| | |] eqn:Ev; try discriminate. cbn [bind] in E.
    destruct (visit_sim i k _ _ _ _ S Ev) as (t' & -> & S'). cbn [bind]. eauto.
Qed.
Lemma read_sim j e st st' r : Sim st st' -> read_cell clip_node st e = Ok r -> exists r', read_cell (node_in j) st' e = Ok r' /\ Sim r r'.
Proof.
  destruct e as [[i clear] segs]. intros S E. unfold read_cell in *. destruct clear.
  - destruct S as [(nc & Em & Ln) Ci En Ee Ed Ec]. rewrite Ec. destruct (set (qcells st) i []) as [cs| | |]; try discriminate. cbn [bind] in *.
    rewrite Em, En, Ee, Ed. refine (visits_sim j i segs _ _ r _ E). constructor; cbn; eauto.
  - cbn [bind] in *. eapply visits_sim; eauto.
Qed.

(* ------------------------------------------------------------ cells in one piece *)
Lemma tail_ok ns es z p q : oriented_ends ns es z = Some (p, q) -> tail_of ns es z = Ok p.
Proof.
  unfold oriented_ends, tail_of, pid, positiveID. intros H.
  destruct (Z.leb_spec 0 z) as [L|L].
  - rewrite (proj2 (Z.ltb_ge z 0) L). destruct (nth_error es (Z.to_nat z)) as [[a b]|] eqn:E; [|discriminate].
    unfold get. rewrite E. cbn [bind fst]. destruct (nth_error ns a); [|discriminate]. destruct (nth_error ns b); [|discriminate]. congruence.
  - rewrite (proj2 (Z.ltb_lt z 0) L). destruct (nth_error es (Z.to_nat (Z.lnot z))) as [[a b]|] eqn:E; [|discriminate].
    unfold get. rewrite E. cbn [bind snd]. destruct (nth_error ns b); [|discriminate]. destruct (nth_error ns a); [|discriminate]. congruence.
Qed.
Lemma corners_ok ns es c corners : Corners ns es c corners -> mmap (tail_of ns es) c = Ok corners.
Proof.
  intros (segs & W & ->). revert segs W. induction c as [|z c IH]; intros [|[p q] segs] W; try discriminate; [reflexivity|].
  injection W as Wz Wc. cbn [mmap map fst]. rewrite (tail_ok _ _ _ _ _ Wz). cbn [bind]. rewrite (IH segs Wc). reflexivity.
Qed.

Lemma clip_one_ok lib ns es gens bs st i c gen corners poly q' :
  Corners ns es c corners -> nth_error gens i = Some gen -> OnePiece lib bs gen corners poly ->
  read_cell (node_in i) (c_mesh st) (i, false, sides poly) = Ok q' ->
  clip_one lib ns es gens bs st (i, c) = Ok (mkClip q' (c_polys st ++ [poly]) (c_orphans st)).
Proof.
  intros K G (A & Cn & v & vs & Ep & L) R.
  assert (L' : length poly = 2 + length vs) by (subst poly; cbn; rewrite app_length; cbn; lia).
  assert (G0 : get poly 0 = Ok v) by (subst poly; reflexivity).
  assert (G1 : get poly (length poly - 1) = Ok v).
  { rewrite L'. replace (2 + length vs - 1) with (Datatypes.S (length vs)) by lia. subst poly. unfold get. cbn [nth_error]. rewrite nth_error_app2, Nat.sub_diag by lia. reflexivity. }
  unfold clip_one, clip_cell. rewrite (corners_ok _ _ _ _ K). cbn [bind]. rewrite A.
  unfold get at 1. rewrite G. cbn [bind]. change (1 <? length [poly]) with false. cbn [bind]. unfold get at 1. cbn [nth_error bind]. rewrite Cn. cbn [assert bind].
  rewrite (proj2 (Nat.ltb_lt 3 (length poly)) ltac:(lia)). cbn [assert bind]. rewrite G0, G1. cbn [bind].
  unfold pt_eq. rewrite !Z.eqb_refl. cbn [andb assert bind]. unfold sides in R. rewrite R. reflexivity.
Qed.

(* the events of reading the polygons *)
Definition events (o : nat) (polys : list polygon) : list (nat * bool * list (pt * pt)) :=
  map (fun ip => (fst ip, false, sides (snd ip))) (combine (seq o (length polys)) polys).

Lemma clip_fold lib ns es gens bs : forall cs polys o st q,
  length polys = length cs ->
  (forall i c, nth_error cs i = Some c -> exists gen corners poly, nth_error gens (o + i) = Some gen /\ nth_error polys i = Some poly /\
     Corners ns es c corners /\ OnePiece lib bs gen corners poly) ->
  forall st', Sim q (c_mesh st) -> mfold (read_cell clip_node) (events o polys) q = Ok st' ->
  exists q', mfold (clip_one lib ns es gens bs) (combine (seq o (length cs)) cs) st = Ok (mkClip q' (c_polys st ++ polys) (c_orphans st)) /\ Sim st' q'.
Proof.
  induction cs as [|c cs IH]; intros [|p polys] o st q L H st' S E; try discriminate.
  - cbn in E. injection E as <-. exists (c_mesh st). destruct st. cbn in *. rewrite app_nil_r. auto.
  - cbn [length seq combine mfold]. unfold events in E. cbn [length seq combine map mfold fst snd] in E.
    destruct (read_cell clip_node q (o, false, sides p)) as [q1| | |] eqn:Eq; try discriminate. cbn [bind] in E.
    destruct (H 0 c eq_refl) as (gen & corners & poly & G & P & K & O). rewrite Nat.add_0_r in G. injection P as <-.
    destruct (read_sim o _ _ _ _ S Eq) as (q1' & R & S1).
    rewrite (clip_one_ok lib ns es gens bs st o c gen corners p q1' K G O R). cbn [bind].
    destruct (IH polys (Datatypes.S o) (mkClip q1' (c_polys st ++ [p]) (c_orphans st)) q1 ltac:(cbn in L; lia)) with (st' := st') as (q' & F & S'); auto.
    + intros i c' Hc. destruct (H (Datatypes.S i) c' Hc) as (g' & k' & p' & G' & P' & X). exists g', k', p'. rewrite Nat.add_succ_r in G'. auto.
    + exists q'. cbn [c_polys c_orphans] in F. rewrite <- app_assoc in F. auto.
Qed.

(* ------------------------------------------------------------ removing collinear points *)
Lemma collinear_fails lib poly r : removeCollinearPoints lib poly <> Ok r.
Proof.
  unfold removeCollinearPoints. destruct (length poly) as [|[|n]] eqn:L; cbn [Nat.eqb]; [discriminate| |].
  - cbn. discriminate.
  - change (Datatypes.S (Datatypes.S n) - 1) with (Datatypes.S n). cbn [seq mfold]. unfold point_of at 1.
    replace (Z.rem (Z.of_nat 0 - 1) (Z.of_nat (Datatypes.S (Datatypes.S n)))) with (-1)%Z; [discriminate|].
    change (Z.of_nat 0 - 1)%Z with (Z.opp 1). rewrite Z.rem_opp_l by lia. rewrite Z.rem_small by lia. reflexivity.
Qed.

Ltac step E x Ex := match type of E with bind ?X _ = Ok _ => destruct X as [x| | |] eqn:Ex; try discriminate E; cbn [bind] in E end.

(* ------------------------------------------------------------ pieces are never adopted *)
Section Pieces.
  Context (lib : polylib).
  (* what the library cuts out has an area: it does not vanish in a union *)
  Hypothesis Area : forall cells s p os, In p (b_and lib cells s) -> b_or lib os [p] <> [].

  Lemma join_none p : forall os r, join_orphan lib p os = Ok r -> r = None.
  Proof using.
    induction os as [|o t IH]; cbn [join_orphan]; intros r E; [congruence|].
    assert (K : (do r <- join_orphan lib p t; Ok (match r with None => None | Some l => Some (o :: l) end)) = Ok r -> r = None).
    { intros E'. destruct (join_orphan lib p t) as [x| | |] eqn:Ex; try discriminate. rewrite (IH x eq_refl) in E'. cbn [bind] in E'. congruence. }
    destruct (b_or lib _ _) as [|u [|? ?]]; auto.
    destruct (removeCollinearPoints lib u) as [x| | |] eqn:Ex; try discriminate. elim (collinear_fails _ _ _ Ex).
  Qed.
  Lemma add_some cells s p os r : In p (b_and lib cells s) -> add_orphan lib os p = Ok r -> r <> [].
  Proof.
    intros I E. unfold add_orphan in E. destruct (join_orphan lib p os) as [x| | |] eqn:Ex; try discriminate. rewrite (join_none _ _ _ Ex) in E. cbn [bind] in E.
    injection E as <-. eauto.
  Qed.

  Lemma pieces_some cells s k : forall ps o os r, (forall p, In p ps -> In p (b_and lib cells s)) ->
    mfold (fun os jp => if fst jp =? k then Ok os else add_orphan lib os (snd jp)) (combine (seq o (length ps)) ps) os = Ok r ->
    os <> [] \/ (exists j p, nth_error ps j = Some p /\ o + j <> k) -> r <> [].
  Proof.
    induction ps as [|p ps IH]; intros o os r I E H; cbn [length seq combine mfold] in E.
    - injection E as <-. destruct H as [H|(j & p & Hj & _)]; auto. destruct j; discriminate.
    - step E os1 E1. refine (IH _ os1 r _ E _); [intros; apply I; right; auto|].
      cbn [fst snd] in E1. destruct (Nat.eqb_spec o k) as [->|N].
      + injection E1 as <-. destruct H as [H|(j & q & Hj & Hn)]; auto. destruct j as [|j]; [lia|]. right. exists j, q. split; auto. lia.
      + left. eapply add_some; eauto. apply I. left. auto.
  Qed.

  Lemma clip_one_orphans ns es gens bs st i c st' : clip_one lib ns es gens bs st (i, c) = Ok st' -> 
    c_orphans st <> [] \/ (exists corners, mmap (tail_of ns es) c = Ok corners /\ 1 < length (b_and lib (b_or lib [] [corners]) bs)) ->
    c_orphans st' <> [].
  Proof.
    unfold clip_one, clip_cell. intros E H. destruct (mmap (tail_of ns es) c) as [corners| | |]; try discriminate. cbn [bind] in E.
    set (ps := b_and lib (b_or lib [] [corners]) bs) in *. destruct (get gens i) as [gen| | |]; try discriminate. cbn [bind] in E.
    step E ko Eo. destruct ko as [k os].
    destruct (get ps k) as [p| | |]; try discriminate. cbn [bind] in E.
    destruct (assert (b_contains lib p gen)) as [[]| | |]; try discriminate. cbn [bind] in E.
    destruct (assert (3 <? length p)) as [[]| | |]; try discriminate. cbn [bind] in E.
    destruct (get p 0) as [a| | |]; try discriminate. cbn [bind] in E.
    destruct (get p (length p - 1)) as [b| | |]; try discriminate. cbn [bind] in E.
    destruct (assert (pt_eq a b)) as [[]| | |]; try discriminate. cbn [bind] in E.
    destruct (read_cell (node_in i) (c_mesh st) (i, false, combine p (tl p))) as [q| | |]; try discriminate. cbn [bind] in E. injection E as <-. cbn [c_orphans].
    destruct (Nat.ltb_spec 1 (length ps)) as [L|L].
    - destruct (assert (piece_with lib gen ps <? length ps)) as [[]| | |]; try discriminate. cbn [bind] in Eo.
      step Eo os' Ef. injection Eo as <- <-.
      refine (pieces_some (b_or lib [] [corners]) bs (piece_with lib gen ps) ps 0 _ _ (fun p I => I) Ef _).
      right. destruct (Nat.eq_dec (piece_with lib gen ps) 0) as [Z|Z].
      + destruct (nth_error_ex ps 1 ltac:(lia)) as [x Hx]. exists 1, x. split; auto. lia.
      + destruct (nth_error_ex ps 0 ltac:(lia)) as [x Hx]. exists 0, x. split; auto.
    - injection Eo as <- <-. destruct H as [H|(c' & Ec & H)]; auto. injection Ec as <-. fold ps in H. lia.
  Qed.

  Lemma clip_fold_orphans ns es gens bs : forall cs o st st', mfold (clip_one lib ns es gens bs) (combine (seq o (length cs)) cs) st = Ok st' ->
    c_orphans st <> [] \/ (exists c corners, In c cs /\ mmap (tail_of ns es) c = Ok corners /\ 1 < length (b_and lib (b_or lib [] [corners]) bs)) ->
    c_orphans st' <> [].
  Proof.
    induction cs as [|c cs IH]; intros o st st' E H; cbn [length seq combine mfold] in E.
    - injection E as <-. destruct H as [H|(c & _ & [] & _)]; auto.
    - destruct (clip_one lib ns es gens bs st (o, c)) as [s1| | |] eqn:E1; try discriminate. cbn [bind] in E. apply (IH _ s1 st' E).
      destruct H as [H|(c' & k & [->|I] & Hk & L)].
      + left. eapply clip_one_orphans; eauto.
      + left. eapply clip_one_orphans; eauto.
      + right. eauto.
  Qed.

  Lemma adopt_fails tessq gens st o r : adopt lib tessq gens st o <> Ok r.
  Proof using.
    unfold adopt. intros E. destruct (orphan_neighbors o (c_mesh st)) as [[nb m]| | |]; try discriminate. cbn [bind] in E.
    destruct nb as [|g nb]; [discriminate|]. cbn [length Nat.ltb Nat.leb assert bind] in E.
    step E lb Elb.
    destruct (mmap (get gens) (g :: nb)) as [lg| | |]; try discriminate. cbn [bind] in E.
    destruct (assert (length lb =? 1)) as [[]| | |]; try discriminate. cbn [bind] in E.
    destruct (tessq lg) as [[[lns les] lcs]| | |]; try discriminate. cbn [bind] in E.
    cbn [length seq combine mfold] in E. step E s1 E1. clear E.
    unfold reclip in E1. destruct (get lcs 0) as [c| | |]; try discriminate. cbn [bind] in E1.
    destruct (clip_cell lib lns les lb c) as [ps| | |]; try discriminate. cbn [bind] in E1.
    destruct (assert (length ps =? 1)) as [[]| | |]; try discriminate. cbn [bind] in E1.
    destruct (get ps 0) as [p| | |]; try discriminate. cbn [bind] in E1.
    destruct (removeCollinearPoints lib p) as [x| | |] eqn:Ex; try discriminate. elim (collinear_fails _ _ _ Ex).
  Qed.

  Lemma pieces_fail tessq f gens ns es cs PLCpoints g bs c corners r :
    boundary_set lib f PLCpoints g = Ok bs -> In c cs -> Corners ns es c corners -> 1 < length (b_and lib (b_or lib [] [corners]) bs) ->
    clip lib tessq f gens ns es cs PLCpoints g <> Ok r.
  Proof.
    intros B I K L E. unfold clip in E. rewrite B in E. cbn [bind] in E.
    step E st Es.
    pose proof (clip_fold_orphans _ _ _ _ _ _ _ _ Es (or_intror (ex_intro _ c (ex_intro _ corners (conj I (conj (corners_ok _ _ _ _ K) L)))))) as N.
    step E u Eu.
    destruct (c_orphans st) as [|o os]; [contradiction|]. cbn [mfold] in E.
    destruct (adopt lib tessq gens st o) as [x| | |] eqn:Ea; try discriminate. elim (adopt_fails _ _ _ _ _ Ea).
  Qed.
End Pieces.
