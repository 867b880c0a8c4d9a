(* The mesh of polygons that lie side by side is well formed. *)
From Coq Require Import QArith Permutation.
From Verif Require Import Base BaseFacts SerializeModel MeshModel MeshSpec MeshProofs2 MeshProps QuantMeshModel QuantMeshSpec QuantMeshProps QuantMeshProofs QuantMeshProofs2 QuantMeshProofs3 QuantMeshProofs4 PLCSpec TriSpec TessSpec TessProofs ClipModel ClipSpec ClipProofs2 BoundedSpec.
Local Open Scope nat_scope.

Section Mesh.
  Context (polys : list polygon) (ns : list pt) (es : list (nat * nat)) (cs : list (list Z))
    (Mo : MeshOf polys ns es cs) (Side : SideBySide polys).

  Lemma walk_exact i c p : nth_error cs i = Some c -> nth_error polys i = Some p -> map (oriented_ends ns es) c = map Some (sides p).
  Proof.
    intros Hc Hp. rewrite (mo_walk _ _ _ _ Mo i c p Hc Hp). f_equal. destruct Side as [Ln _].
    assert (K : forall s, In s (sides p) -> fst s <> snd s). { intros s I. apply Ln. apply in_flat_map. exists p. split; auto. eapply nth_error_In; eauto. }
    clear - K. induction (sides p) as [|s l IH]; [reflexivity|]. cbn. assert (E : pt_eqb (fst s) (snd s) = false).
    { destruct (pt_eqb (fst s) (snd s)) eqn:E; auto. elim (K s (or_introl eq_refl)). apply pt_eqb_iff. auto. }
    rewrite E. cbn. f_equal. apply IH. intros; apply K; right; auto.
  Qed.
  Lemma walk_all : map (oriented_ends ns es) (concat cs) = map Some (all_sides polys).
  Proof.
    pose proof (mo_cells _ _ _ _ Mo) as L. assert (K : forall i c p, nth_error cs i = Some c -> nth_error polys i = Some p -> map (oriented_ends ns es) c = map Some (sides p)) by (exact walk_exact).
    unfold all_sides. clear Mo Side. revert polys L K. induction cs as [|c l IH]; intros [|p q] L K; try discriminate; [reflexivity|].
    cbn [concat flat_map]. rewrite !map_app. f_equal; [apply (K 0 c p); reflexivity|]. apply IH; [cbn in L; lia|]. intros i. apply (K (S i)).
  Qed.
  Lemma concat_once : NoDup (concat cs).
  Proof.
    apply (NoDup_map_inv (oriented_ends ns es)). rewrite walk_all. apply FinFun.Injective_map_NoDup; [|exact (proj2 Side)]. intros a b E. congruence.
  Qed.
  Lemma side_of z : In z (concat cs) -> exists s, In s (all_sides polys) /\ oriented_ends ns es z = Some s.
  Proof. intros I. apply (in_map (oriented_ends ns es)) in I. rewrite walk_all in I. apply in_map_iff in I as (s & E & I). eauto. Qed.
  Lemma use_of s : In s (all_sides polys) -> exists z, In z (concat cs) /\ oriented_ends ns es z = Some s.
  Proof. intros I. apply (in_map Some) in I. rewrite <- walk_all in I. apply in_map_iff in I as (z & E & I). eauto. Qed.
  Lemma ends_inv z s : oriented_ends ns es z = Some s -> exists a b, nth_error es (pid z) = Some (a, b) /\
    ((0 <= z)%Z /\ nth_error ns a = Some (fst s) /\ nth_error ns b = Some (snd s) \/ (z < 0)%Z /\ nth_error ns b = Some (fst s) /\ nth_error ns a = Some (snd s)).
  Proof.
    unfold oriented_ends. destruct (nth_error es (pid z)) as [[a b]|] eqn:E; [|discriminate]. intros H. exists a, b. split; auto.
    destruct (Z.leb_spec 0 z) as [L|L].
    - left. destruct (nth_error ns a), (nth_error ns b); try discriminate. injection H as <-. auto.
    - right. destruct (nth_error ns b), (nth_error ns a); try discriminate. injection H as <-. auto.
  Qed.
  Lemma node_inj i j x : nth_error ns i = Some x -> nth_error ns j = Some x -> i = j.
  Proof. intros A B. apply (proj1 (NoDup_nth_error ns) (mo_once _ _ _ _ Mo)); [eapply nth_error_lt; eauto|congruence]. Qed.
  Lemma edge_inj i j x : nth_error es i = Some x -> nth_error es j = Some x -> i = j.
  Proof. intros A B. apply (proj1 (NoDup_nth_error es) (mo_edges _ _ _ _ Mo)); [eapply nth_error_lt; eauto|congruence]. Qed.

  Ltac same_nodes := repeat match goal with A : nth_error ns ?i = Some ?v, B : nth_error ns ?j = Some ?v |- _ =>
    lazymatch i with j => fail | _ => assert (i = j) by (eapply node_inj; eauto); subst j end end.
  (* two uses of an edge: the same side in opposite directions *)
  Lemma same_edge z z' s s' : oriented_ends ns es z = Some s -> oriented_ends ns es z' = Some s' ->
    (pid z = pid z' /\ z <> z' <-> s' = (snd s, fst s) /\ fst s <> snd s) /\ (z = z' <-> s = s').
  Proof.
    intros E E'. destruct (ends_inv _ _ E) as (a & b & He & C). destruct (ends_inv _ _ E') as (a' & b' & He' & C').
    assert (Ord : a < b). { apply nth_error_In in He. apply (mo_order _ _ _ _ Mo) in He. lia. }
    assert (Ord' : a' < b'). { apply nth_error_In in He'. apply (mo_order _ _ _ _ Mo) in He'. lia. }
    assert (Pz : forall z z', pid z = pid z' -> ((0 <= z)%Z <-> (0 <= z')%Z) -> z = z').
    { clear. intros z z' P S. unfold pid, positiveID in P. destruct (Z.leb_spec 0 z), (Z.leb_spec 0 z'); unfold Z.lnot in *; lia. }
    destruct s as [x y], s' as [x' y']. cbn [fst snd] in *.
    assert (Dif : x <> y). { intros <-. destruct C as [(_ & A & B)|(_ & B & A)]; pose proof (node_inj _ _ _ A B); lia. }
    split; split.
    - intros [P N]. rewrite P in He. rewrite He in He'. injection He' as <- <-. split; auto.
      destruct C as [(S & A & B)|(S & B & A)], C' as [(S' & A' & B')|(S' & B' & A')]; try congruence; elim N; apply Pz; auto; lia.
    - intros [Q _]. injection Q as -> ->.
      destruct C as [(S & A & B)|(S & B & A)], C' as [(S' & A' & B')|(S' & B' & A')];
        same_nodes; try lia; (split; [eapply edge_inj; eauto|intros ->; lia]).
    - intros <-. congruence.
    - intros Q. injection Q as -> ->.
      destruct C as [(S & A & B)|(S & B & A)], C' as [(S' & A' & B')|(S' & B' & A')];
        same_nodes; try lia; (apply Pz; [eapply edge_inj; eauto|lia]).
  Qed.

  Lemma occ_two e : e < length es -> occ e (concat cs) = 1 \/ occ e (concat cs) = 2.
  Proof.
    intros Le. destruct (nth_error_ex es e Le) as [[a b] He]. destruct (mo_sides _ _ _ _ Mo a b (nth_error_In _ _ He)) as (p & s & x & y & Ip & Is & Ha & Hb & C).
    assert (I : In s (all_sides polys)) by (apply in_flat_map; eauto). destruct (use_of s I) as (z & Iz & Ez).
    destruct (ends_inv _ _ Ez) as (a' & b' & He' & C'). pose proof (mo_order _ _ _ _ Mo a' b' (nth_error_In _ _ He')). pose proof (mo_order _ _ _ _ Mo a b (nth_error_In _ _ He)).
    assert (E : pid z = e).
    { destruct C as [-> | ->]; cbn [fst snd] in C'; destruct C' as [(_ & A & B)|(_ & B & A)]; same_nodes; try lia; eapply edge_inj; eauto. }
    assert (0 < occ e (concat cs)) by (apply occ_pos; eauto). pose proof (nodup_pid (concat cs) e concat_once). lia.
  Qed.
  (* an edge is used once exactly if no polygon goes the other way *)
  Lemma occ_outer z s : In z (concat cs) -> oriented_ends ns es z = Some s -> (occ (pid z) (concat cs) = 1 <-> OuterSide polys s).
  Proof.
    intros Iz Ez. assert (Is : In s (all_sides polys)). { destruct (side_of z Iz) as (s' & I & E). congruence. }
    split.
    - intros O. split; auto. intros Ib. destruct (use_of _ Ib) as (z' & Iz' & Ez').
      destruct (proj2 (proj1 (same_edge z z' s _ Ez Ez'))) as [P N]; [split; auto; apply (proj1 Side); auto|].
      unfold occ in O. assert (L : length [z; z'] <= length (filter (fun w => pid w =? pid z) (concat cs))); [|cbn in L; lia].
      apply NoDup_incl_length; [constructor; [intros [E|[]]; auto|constructor; [intros []|constructor]]|].
      intros w [<-|[<-|[]]]; apply filter_In; split; auto; apply Nat.eqb_eq; auto.
    - intros [_ No]. unfold occ. assert (F : filter (fun w => pid w =? pid z) (concat cs) = [z]); [|rewrite F; auto].
      assert (Nd : NoDup (filter (fun w => pid w =? pid z) (concat cs))) by (apply NoDup_filter, concat_once).
      assert (Al : forall w, In w (filter (fun w => pid w =? pid z) (concat cs)) <-> w = z).
      { intros w. rewrite filter_In, Nat.eqb_eq. split; [|intros ->; auto]. intros [Iw Pw]. destruct (Z.eq_dec w z) as [|N]; auto. exfalso.
        destruct (side_of w Iw) as (s' & Is' & Ew). destruct (proj1 (proj1 (same_edge z w s s' Ez Ew))) as [E _]; [split; auto|]. subst s'. apply No. exact Is'. }
      destruct (filter _ (concat cs)) as [|w [|w' l]]; [destruct (proj2 (Al z) eq_refl)|f_equal; apply Al; left; auto|].
      exfalso. inversion Nd as [|? ? N _]; subst. apply N. left. transitivity z; [|symmetry]; apply Al; [right; left|left]; auto.
  Qed.

  Context (f : frame) (m : mesh Q) (Fi : Filled f ns es cs m).
  Lemma along z s : oriented_ends ns es z = Some s -> GoesAlong f m z s.
  Proof.
    intros E. destruct (ends_inv _ _ E) as (a & b & He & C). unfold GoesAlong. rewrite (walk_way f ns es cs m Fi). unfold way. rewrite He.
    destruct C as [(S & A & B)|(S & B & A)].
    - exists a, b. rewrite (proj2 (Z.leb_le _ _) S). split; auto. split; apply (fd_nodes _ _ _ _ _ Fi); auto.
    - exists b, a. rewrite (proj2 (Z.leb_gt _ _) S). split; auto. split; apply (fd_nodes _ _ _ _ _ Fi); auto.
  Qed.
End Mesh.

Lemma pids_in polys ns es cs : MeshOf polys ns es cs -> forall i c z, nth_error cs i = Some c -> In z c -> pid z < length es.
Proof.
  intros Mo i c z Hc I. assert (L : i < length polys) by (rewrite <- (mo_cells _ _ _ _ Mo); eapply nth_error_lt; eauto). destruct (nth_error_ex _ _ L) as [p Hp].
  apply (in_map (oriented_ends ns es)) in I. rewrite (mo_walk _ _ _ _ Mo i c p Hc Hp) in I. apply in_map_iff in I as (s & E & _). symmetry in E.
  destruct (ends_inv _ _ _ _ E) as (a & b & He & _). eapply nth_error_lt; eauto.
Qed.
Lemma corner_side (p : polygon) q : 2 <= length p -> (In q p <-> exists s, In s (sides p) /\ (q = fst s \/ q = snd s)).
Proof.
  intros L. split.
  - destruct p as [|a [|b t]]; try (cbn in L; lia). clear L. unfold sides. cbn [tl]. revert a b. induction t as [|c t IH]; intros a b I.
    + destruct I as [<-|[<-|[]]]; exists (a, b); cbn; auto.
    + destruct I as [<-|I]; [exists (a, b); cbn; auto|]. destruct (IH b c I) as (s & Is & E). exists s. split; auto. right. auto.
  - intros (s & I & E). destruct (sides_in _ _ I). destruct E as [-> | ->]; auto.
Qed.

Lemma polygon_mesh f polys ns es cs : MeshOf polys ns es cs -> SideBySide polys -> (forall p, In p polys -> 2 <= length p) -> (exists s, OuterSide polys s) ->
  exists m bf bn, fill f (length cs) ns es cs mesh_new = Ok m /\ findBoundaryElements m = Ok (bf, bn) /\
    PolygonMesh f polys (mkMesh (nodes m) (cells m) (faces m) bn bf (faceCells m) (convexHull m) (neighborDomains m) (sharedNodes m) (sharedFaces m)).
Proof.
  intros Mo Sd L2 (s0 & O0). pose proof (pids_in _ _ _ _ Mo) as Pid.
  destruct (fill_correct f ns es cs mesh_new eq_refl Pid) as (m & Em & Fi).
  destruct (fill_ok f (length cs) ns es cs mesh_new (Nat.le_refl _) Pid) as (m' & Em' & Hn & _); [rewrite firstn_nil; constructor|].
  assert (m' = m) by congruence. subst m'.
  assert (Wf : WellFormed 2 m).
  { apply (fill_wf f ns es cs m); auto; [|apply (occ_two polys ns es cs Mo Sd)]. intros a b I. destruct (mo_order _ _ _ _ Mo a b I). lia. }
  assert (Fc : forall k fc, nth_error (faceCells m) k = Some fc -> length fc = occ k (concat cs)) by (intros k fc H; apply (fd_count _ _ _ _ _ Fi k fc H)).
  assert (B1 : forall z s, In z (concat cs) -> oriented_ends ns es z = Some s -> ((exists fc, nth_error (faceCells m) (pid z) = Some fc /\ length fc = 1) <-> OuterSide polys s)).
  { intros z s Iz Ez. rewrite <- (occ_outer polys ns es cs Mo Sd z s Iz Ez). split.
    - intros (fc & H & L). rewrite <- (Fc _ _ H). auto.
    - intros O. destruct (ends_inv _ _ _ _ Ez) as (a & b & He & _). destruct (nth_error_ex (faceCells m) (pid z)) as [fc H]; [rewrite (fd_nfc _ _ _ _ _ Fi); eapply nth_error_lt; eauto|].
      exists fc. split; auto. rewrite (Fc _ _ H). auto. }
  assert (Bn : exists n, bnode m n).
  { destruct (use_of polys ns es cs Mo Sd s0 (proj1 O0)) as (z & Iz & Ez). destruct (ends_inv _ _ _ _ Ez) as (a & b & He & _).
    exists a, (pid z), [a; b]. split; [apply (B1 z s0 Iz Ez); auto|]. split; [|left; auto]. rewrite (fd_faces _ _ _ _ _ Fi), nth_error_map, He. auto. }
  destruct (findBoundaryElements_exact Q 2 m ltac:(lia) Wf Bn) as (bf & bn & Eb & Sb & Hb & Sn' & Hn').
  exists m, bf, bn. split; auto. split; auto.
  constructor; cbn [nodes cells faces boundaryNodes boundaryFaces faceCells].
  - constructor; cbn [nodes cells faces boundaryNodes boundaryFaces faceCells sharedNodes sharedFaces]; apply Wf.
  - rewrite (fd_cells _ _ _ _ _ Fi). apply (mo_cells _ _ _ _ Mo).
  - intros i c p Hc Hp. rewrite (fd_cells _ _ _ _ _ Fi) in Hc. pose proof (walk_exact polys ns es cs Mo Sd i c p Hc Hp) as W.
    assert (K : forall z s, oriented_ends ns es z = Some s -> GoesAlong f m z s) by (apply (along ns es cs f m Fi)).
    clear Hc Hp. revert W. generalize (sides p). clear - K. induction c as [|z c IH]; intros [|s l] W; try discriminate; constructor.
    + cbn in W. assert (W0 : oriented_ends ns es z = Some s) by congruence. apply (K z s W0).
    + apply IH. cbn in W. congruence.
  - exists ns. split; [apply (mo_once _ _ _ _ Mo)|]. split; [rewrite Hn; auto|]. intros q. rewrite (mo_nodes _ _ _ _ Mo). split.
    + intros (p & s & Ip & Is & E). exists p. split; auto. apply corner_side; eauto.
    + intros (p & Ip & Iq). apply corner_side in Iq as (s & Is & E); auto. exists p, s. auto.
  - intros k k' a b c d Hk Hk' C. rewrite (fd_faces _ _ _ _ _ Fi), nth_error_map in Hk, Hk'.
    destruct (nth_error es k) as [[x y]|] eqn:E; [|discriminate]. destruct (nth_error es k') as [[x' y']|] eqn:E'; [|discriminate]. cbn in Hk, Hk'.
    injection Hk as -> ->. injection Hk' as -> ->. pose proof (mo_order _ _ _ _ Mo _ _ (nth_error_In _ _ E)). pose proof (mo_order _ _ _ _ Mo _ _ (nth_error_In _ _ E')).
    destruct C as [[-> ->]|[-> ->]]; [|lia]. apply (proj1 (NoDup_nth_error es) (mo_edges _ _ _ _ Mo)); [eapply nth_error_lt; eauto|congruence].
  - exact Hb.
  - intros i c p j z s Hc Hp Hz Hs. rewrite Hb. rewrite (fd_cells _ _ _ _ _ Fi) in Hc. apply B1.
    + apply in_concat. exists c. split; eapply nth_error_In; eauto.
    + pose proof (walk_exact polys ns es cs Mo Sd i c p Hc Hp) as W. apply (f_equal (fun l => nth_error l j)) in W. rewrite !nth_error_map, Hz, Hs in W. cbn in W. congruence.
  - exact Hn'.
  - auto.
Qed.
