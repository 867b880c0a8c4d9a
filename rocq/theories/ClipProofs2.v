(* Proofs about clipping cells that stay in one piece. *)
From Coq Require Import QArith.
From Verif Require Import Base BaseFacts StdAlg KeyMapModel PointMapModel SerializeModel MeshModel QuantMeshModel QuantMeshSpec QuantMeshProofs QuantMeshProofs2 QuantMeshProps PLCSpec BoxModel BoxProps TriModel TriProofs6 ClipModel ClipSpec ClipProofs.
Local Open Scope nat_scope.

Lemma nth_skip {A} (l : list A) : forall k j, nth_error (skipn k l) j = nth_error l (k + j).
Proof. induction l as [|a l IH]; intros [|k] j; cbn; auto. destruct j; reflexivity. Qed.
Lemma vertex_get (pts : list Q) a x y : vertex 2 pts a = [x; y] -> get pts (2 * a) = Ok x /\ get pts (2 * a + 1) = Ok y.
Proof.
  unfold vertex. intros H. pose proof (nth_skip pts (2 * a) 0) as K0. pose proof (nth_skip pts (2 * a) 1) as K1. rewrite Nat.add_0_r in K0.
  unfold get. rewrite <- K0, <- K1. destruct (skipn (2 * a) pts) as [|u [|v l]]; try discriminate. cbn in H. injection H as -> ->. auto.
Qed.

Section Boundary.
  Context (lib : polylib) (f : frame) (PLCpoints : list Q).
  Hypothesis Fu : full f.
  Hypothesis In_frame : forall a x y, vertex 2 PLCpoints a = [x; y] -> in_frame f (x, y).

  Lemma outline_ok fs pts : Outline f PLCpoints fs pts -> mmap (boundary_point f PLCpoints) fs = Ok pts.
  Proof.
    induction 1 as [|fc p fs pts (a & b & x & y & -> & V & ->) _ IH]; [reflexivity|]. cbn [mmap]. unfold boundary_point at 1.
    cbn [length Nat.eqb assert bind]. unfold get at 1. cbn [nth_error bind]. rewrite (proj2 (Z.ltb_ge (Z.of_nat a) 0)), Nat2Z.id by lia.
    destruct (vertex_get _ _ _ _ V) as [-> ->]. cbn [bind]. rewrite (to_grid_ok f _ Fu (In_frame a x y V)). cbn [bind]. rewrite IH. reflexivity.
  Qed.
  Lemma boundary_ok g outer inner : Outline f PLCpoints (facets g) outer -> Forall2 (Outline f PLCpoints) (holes g) inner ->
    boundary_set lib f PLCpoints g = Ok (b_outline lib outer inner).
  Proof.
    intros O I. unfold boundary_set. rewrite (outline_ok _ _ O). cbn [bind].
    assert (E : mmap (mmap (boundary_point f PLCpoints)) (holes g) = Ok inner); [|rewrite E; reflexivity].
    induction I as [|h p hs ps H _ IH]; [reflexivity|]. cbn [mmap]. rewrite (outline_ok _ _ H). cbn [bind]. rewrite IH. reflexivity.
  Qed.
End Boundary.

(* ------------------------------------------------------------ the events *)
Lemma sides_in poly s : In s (sides poly) -> In (fst s) poly /\ In (snd s) poly.
Proof.
  destruct s as [a b]. unfold sides. intros I. split; [eapply in_combine_l; eauto|]. apply in_combine_r in I. destruct poly; [destruct I|right; auto].
Qed.
Lemma walked_events : forall polys o, walked (events o polys) = flat_map sides polys.
Proof. unfold walked, events. induction polys as [|p polys IH]; intros o; [reflexivity|]. cbn. rewrite <- (IH (S o)). reflexivity. Qed.
Lemma wanted_none {A} i : forall (evs : list (nat * bool * list A)) acc, (forall e, In e evs -> fst (fst e) <> i) ->
  fold_left (fun acc e => let '(j, clear, segs) := e in if j =? i then (if clear : bool then segs else acc ++ segs) else acc) evs acc = acc.
Proof.
  induction evs as [|[[j b] segs] evs IH]; intros acc H; [reflexivity|]. cbn. destruct (Nat.eqb_spec j i) as [->|].
  - elim (H (i, b, segs)); [left; auto|reflexivity].
  - apply IH. intros e I. apply H. right. auto.
Qed.
Lemma events_ge polys : forall o e, In e (events o polys) -> o <= fst (fst e) < o + length polys.
Proof.
  intros o e I. unfold events in I. apply in_map_iff in I as ([k p] & <- & I). apply in_combine_l in I. apply in_seq in I. cbn. lia.
Qed.
Lemma wanted_events : forall polys o i p, nth_error polys i = Some p -> wanted (o + i) (events o polys) = sides p.
Proof.
  intros polys. unfold wanted. assert (K : forall polys o i p acc, nth_error polys i = Some p -> fold_left (fun acc e => let '(j, clear, segs) := e in if j =? o + i then (if clear : bool then segs else acc ++ segs) else acc) (events o polys) acc = acc ++ sides p).
  { clear polys. induction polys as [|q polys IH]; intros o [|i] p acc H; try discriminate.
    - injection H as ->. rewrite Nat.add_0_r. unfold events. cbn [length seq combine map fold_left fst snd]. rewrite Nat.eqb_refl. apply wanted_none. intros e I.
      change (In e (events (S o) polys)) in I. apply events_ge in I. lia.
    - unfold events. cbn [length seq combine map fold_left fst snd]. destruct (Nat.eqb_spec o (o + S i)) as [E|_]; [lia|].
      rewrite <- Nat.add_succ_comm. apply (IH (S o) i p acc H). }
  intros o i p H. rewrite (K polys o i p [] H). reflexivity.
Qed.

(* ------------------------------------------------------------ the mesh of the polygons *)
Section Read.
  Context (polys : list polygon).
  Hypothesis Ap : WellApart polys.

  Lemma mesh_of snap ns es cs : ReadOut close2 (length polys) (events 0 polys) snap ns es cs -> MeshOf polys ns es cs.
  Proof.
    intros R. pose proof (walked_events polys 0) as W.
    assert (Pt : forall p, (exists s, In s (walked (events 0 polys)) /\ (p = fst s \/ p = snd s)) <-> exists q s, In q polys /\ In s (sides q) /\ (p = fst s \/ p = snd s)).
    { intros p. rewrite W. split.
      - intros (s & I & E). apply in_flat_map in I as (q & Iq & Is). eauto.
      - intros (q & s & Iq & Is & E). exists s. split; auto. apply in_flat_map. eauto. }
    assert (Snap : forall q s p, In q polys -> In s (sides q) -> p = fst s \/ p = snd s -> snap p = p /\ In p ns).
    { intros q s p Iq Is E. assert (Iw : In s (walked (events 0 polys))) by (rewrite W; apply in_flat_map; eauto).
      destruct (ro_snap _ _ _ _ _ _ _ R s p Iw E) as [[C1 C2] I]. destruct (ro_nodes _ _ _ _ _ _ _ R (snap p) I) as (_ & X). apply Pt in X as (q' & s' & Iq' & Is' & E').
      destruct (sides_in _ _ Is) as [A1 A2]. destruct (sides_in _ _ Is') as [B1 B2].
      destruct (Ap q' q (snap p) p Iq' Iq) as [Eq|[L|L]]; try lia.
      - destruct E' as [->| ->]; auto.
      - destruct E as [->| ->]; auto.
      - rewrite Eq in *. auto. }
    constructor.
    - apply (ro_ncells _ _ _ _ _ _ _ R).
    - intros i c p Hc Hp. rewrite (ro_cells _ _ _ _ _ _ _ R i c Hc). f_equal. pose proof (wanted_events polys 0 i p Hp) as Wi. cbn [Nat.add] in Wi. rewrite Wi.
      unfold snapped. f_equal. rewrite <- (map_id (sides p)) at 2. apply map_ext_in. intros [a b] I. cbn [fst snd].
      rewrite (proj1 (Snap p (a, b) a (nth_error_In _ _ Hp) I (or_introl eq_refl))), (proj1 (Snap p (a, b) b (nth_error_In _ _ Hp) I (or_intror eq_refl))). auto.
    - intros q. rewrite <- Pt. split.
      + intros I. apply (ro_nodes _ _ _ _ _ _ _ R q I).
      + intros X. apply Pt in X as (p & s & Ip & Is & E). apply (Snap p s q Ip Is E).
    - apply NoDup_nth_error. intros i j L E. destruct (nth_error_ex ns i L) as [x Hx]. apply (ro_apart _ _ _ _ _ _ _ R i j x x Hx); [congruence|].
      unfold close2. rewrite !Z.sub_diag. cbn. lia.
    - apply (ro_edges _ _ _ _ _ _ _ R).
    - apply (ro_order _ _ _ _ _ _ _ R).
    - intros a b I. destruct (ro_used _ _ _ _ _ _ _ R a b I) as (s & Is & H). rewrite W in Is. apply in_flat_map in Is as (p & Ip & Is).
      rewrite (proj1 (Snap p s (fst s) Ip Is (or_introl eq_refl))), (proj1 (Snap p s (snd s) Ip Is (or_intror eq_refl))) in H. destruct s as [x y]. cbn [fst snd] in H.
      destruct H as [[H1 H2]|[H1 H2]]; [exists p, (x, y), x, y|exists p, (x, y), y, x]; auto 10.
  Qed.

  Lemma events_returns : exists st, clip_read (length polys) (events 0 polys) = Ok st.
  Proof.
    apply clip_readout_returns.
    - intros e I. apply events_ge in I. lia.
    - intros s s' p q Is Is' Ep Eq. rewrite walked_events in Is, Is'. apply in_flat_map in Is as (a & Ia & Is). apply in_flat_map in Is' as (b & Ib & Is').
      destruct (sides_in _ _ Is). destruct (sides_in _ _ Is'). apply (Ap a b p q Ia Ib); [destruct Ep as [->| ->]; auto|destruct Eq as [->| ->]; auto].
  Qed.
End Read.

Lemma sim_init n : Sim (mkQuant (ipm_new 2 2) [] [] [] (repeat [] n)) (mkQuant (ipm_new 2 2, []) [] [] [] (repeat [] n)).
Proof. constructor; cbn; eauto. apply clip_init. Qed.

Lemma clip_pieces lib tessq f gens ns es cs PLCpoints g bs polys :
  boundary_set lib f PLCpoints g = Ok bs -> length polys = length cs -> WellApart polys ->
  (forall i c, nth_error cs i = Some c -> exists gen corners poly, nth_error gens i = Some gen /\ nth_error polys i = Some poly /\
     Corners ns es c corners /\ OnePiece lib bs gen corners poly) ->
  exists ns' es' cs', clip lib tessq f gens ns es cs PLCpoints g = Ok (ns', es', cs') /\ MeshOf polys ns' es' cs'.
Proof.
  intros B L Ap H. destruct (events_returns polys Ap) as [st E]. destruct (clip_readout_correct _ _ _ E) as [snap R]. apply (mesh_of polys Ap) in R.
  unfold clip. rewrite B. cbn [bind]. unfold clip_read, read_out in E. rewrite L in E.
  destruct (clip_fold lib ns es gens bs cs polys 0 (mkClip (mkQuant (ipm_new 2 2, []) [] [] [] (repeat [] (length cs))) [] []) _ L H st (sim_init _) E) as (q' & F & S).
  cbn [c_polys c_orphans app] in F. rewrite F. cbn [bind c_polys c_orphans]. rewrite L, Nat.eqb_refl. cbn [assert bind mfold length Nat.ltb Nat.leb c_mesh].
  destruct S as [_ _ -> _ -> ->]. eauto.
Qed.
