(* All the planar cells, and the mesh that is made of them. *)
From Verif Require Import Base BaseFacts PLCSpec MeshModel MeshSpec Plane MeshEditorModel HullModel HullSpec VoroModel VoroSpec VoroProofs VoroProofs2 VoroProofs3 VoroProofs4 Voro2Model Voro2Spec Voro2Proofs Voro2Proofs2.
From Verif Require Import FaceSortProofs4.
From Verif Require AreaProofs AreaProofs2 CsgProofs3.
From Coq Require Import Lia QArith.
Local Open Scope nat_scope.

Notation hullc := (vcell2 * list (Z * Z))%type.
Definition sides2 (hs : list hullc) : list side2 := flat_map (fun h => map (pair (fst h)) (ring (snd h))) hs.
Lemma sides2_in hs s : In s (sides2 hs) -> exists h, In h hs /\ fst s = fst h /\ In (snd s) (ring (snd h)).
Proof. intros H. apply in_flat_map in H as (h & H & S). apply in_map_iff in S as (e & <- & E). exists h. auto. Qed.

Lemma rep2_grow ns r s it : Rep2 ns s it -> Rep2 (ns ++ r) s it.
Proof.
  intros [A (i & j & E & I & J)]. split; [exact A|]. exists i, j. split; [exact E|].
  split; (rewrite nth_error_app1; [assumption | eapply nth_error_lt; eassumption]).
Qed.
Lemma map_fst_ring {A} (l : list A) : map fst (ring l) = l.
Proof.
  destruct l as [|a t]; [reflexivity|]. cbn [ring].
  assert (G : forall u v : list A, length u = length v -> map fst (combine u v) = u).
  { induction u as [|x u IH]; intros [|y v] E; cbn in *; try discriminate; [reflexivity|]. f_equal. apply IH. lia. }
  apply G. rewrite app_length. cbn. lia.
Qed.
(* the first points of the facets of a polygon *)
Lemma corners_read zs vs ps : Chosen zs vs ps ->
  mmap (fun f => do k <- get f 0; do z <- get zs (Z.to_nat k); Ok (fst z, snd z, 0%Z)) (polygon_facets vs) = Ok (map lift ps).
Proof.
  intros C. unfold polygon_facets. assert (G : forall l : list (nat * nat), forall qs, Forall2 (fun i p => nth_error zs i = Some p) (map fst l) qs ->
    mmap (fun f => do k <- get f 0; do z <- get zs (Z.to_nat k); Ok (fst z, snd z, 0%Z)) (map (fun e => [Z.of_nat (fst e); Z.of_nat (snd e)]) l) = Ok (map lift qs)).
  { induction l as [|e l IH]; intros qs F; cbn [map] in F; inversion F as [|? q ? qs' H F']; subst; [reflexivity|].
    cbn [map mmap]. unfold get at 1. cbn [nth_error bind]. rewrite Nat2Z.id. unfold get at 1. rewrite H. cbn [bind]. rewrite (IH qs' F'). reflexivity. }
  apply G. rewrite map_fst_ring. exact C.
Qed.
Lemma polygon_len2 vs : length (polygon_facets vs) = length vs.
Proof. unfold polygon_facets. rewrite map_length. apply AreaProofs2.ring_length. Qed.

Section Cells.
  Variables (fill : list hpt -> list hpt) (dx : Q) (n : nat) (cs : list vcell2).
  Hypothesis (RD : Readable2 dx n cs) (FILL : forall hs, set_fill hs [] (fill hs)).

  (* the nodes are the corners of the hulls *)
  Definition Known (hs : list hullc) (ns : list ipt) : Prop := forall p, In p ns <-> exists h z, In h hs /\ In z (snd h) /\ p = lift z.

  Lemma cell2_step pc c post hs m done ns : cs = pc ++ c :: post -> map fst hs = pc -> Forall (fun h => HullOf (spots2 dx (fst h)) (snd h)) hs -> Known hs ns ->
    Linv2 dx n cs ns m done (sides2 hs) ->
    exists ps ns' m' done', read_vcell2 fill dx (ns, m) c = Ok (ns', m') /\ HullOf (spots2 dx c) ps /\ Known (hs ++ [(c, ps)]) ns' /\ Linv2 dx n cs ns' m' done' (sides2 (hs ++ [(c, ps)])).
  Proof using RD FILL.
    intros EC EH HF KN L. assert (IC : In c cs) by (rewrite EC; apply in_or_app; right; left; reflexivity).
    assert (IH : forall h, In h hs -> In (fst h) cs) by (intros h H; rewrite EC; apply in_or_app; left; rewrite <- EH; apply in_map; exact H).
    destruct (r2_angle _ _ _ RD c IC) as [RA FN].
    assert (RG : Forall (fun z => (0 <= fst z < 2 ^ 31 - 1 /\ 0 <= snd z < 2 ^ 31 - 1)%Z) (spots2 dx c)).
    { apply Forall_forall. intros z Z. apply in_map_iff in Z as (q & <- & _). cbn [fst snd]. split; apply snap1_range. }
    assert (L3 : 3 <= length (c2_pts c)).
    { destruct RA as (z0 & j & zj & i & zi & Z0 & ZJ & _ & D & _ & LJ & _). assert (j <> 0) by (intros ->; congruence). unfold spots2 in LJ. rewrite map_length in LJ. lia. }
    destruct (int_hull_ok fill (spots2 dx c) FILL RG) as (vs & ps & E & CH & HO); auto.
    { intros u v U V. exact (r2_apart _ _ _ RD c c u v IC IC U V). }
    exists ps. unfold read_vcell2. rewrite (proj2 (Nat.leb_le 3 _) L3). cbn [assert bind].
    assert (ZS : map (fun q => (clamp dx (fst (c2_centroid c) + fst (c2_pos c) + (1 # 2) * fst q)%Q, clamp dx (snd (c2_centroid c) + snd (c2_pos c) + (1 # 2) * snd q)%Q)) (c2_pts c) = spots2 dx c).
    { unfold spots2. apply map_ext. intros q. rewrite !clamp_snap. f_equal; apply snap1_eq; unfold placed2; cbn [fst snd]; ring. }
    cbv zeta. rewrite ZS, E. cbn [bind].
    pose proof (hull_nodup _ _ HO) as NDP. pose proof (Forall2_len _ _ _ CH) as LEN.
    assert (LE : length (polygon_facets vs) <= length (spots2 dx c)).
    { rewrite polygon_len2, LEN. apply NoDup_incl_length; [exact NDP | apply HO]. }
    rewrite (proj2 (Nat.leb_le _ _) LE). cbn [assert bind]. rewrite (corners_read _ _ _ CH). cbn [bind].
    destruct (update_ok (map lift ps) ns) as (ids & EU & F).
    { apply Forall_forall. intros p P. apply in_map_iff in P as (z & <- & Z). apply (proj1 (proj2 HO)) in Z. rewrite Forall_forall in RG. apply RG in Z. unfold small, lift. lia. }
    { intros p q P Q. apply in_map_iff in Q as (zq & <- & Q). apply (proj1 (proj2 HO)) in Q.
      assert (exists d z, In d cs /\ In z (spots2 dx d) /\ p = lift z) as (d & z & D & Z & ->).
      { destruct P as [P | P].
        - apply KN in P as (h & z & H & Z & ->). exists (fst h), z. split; [auto|]. split; [|reflexivity]. rewrite Forall_forall in HF. apply (proj1 (proj2 (HF h H))). exact Z.
        - apply in_map_iff in P as (z & <- & Z). exists c, z. split; [exact IC|]. split; [apply (proj1 (proj2 HO)); exact Z | reflexivity]. }
      unfold apart, lift. destruct (r2_apart _ _ _ RD d c z zq D IC Z Q) as [-> | A]; [left; reflexivity | right; lia]. }
    rewrite EU. cbn [bind]. set (ns' := fold_left grow (map lift ps) ns) in *.
    assert (PID : forall s, In s (sides2 hs) -> c2_pid (fst s) <> c2_pid c).
    { intros s S P. apply sides2_in in S as (h & H & Es & _). pose proof (r2_pids _ _ _ RD) as ND. rewrite EC, map_app in ND. cbn [map] in ND. apply NoDup_remove_2 in ND. apply ND.
      apply in_or_app. left. rewrite <- P, Es, <- EH, map_map. apply in_map_iff. exists h. auto. }
    destruct (ring_loop dx n cs RD c ps ids ns' m done (sides2 hs) IC HO F PID) with (k := length ps) as (m' & done' & EM & LM); [|lia|].
    { destruct (grows_prefix (map lift ps) ns) as (r & R). constructor; try apply L.
      - unfold ns'. rewrite R. apply forall2_imp with (2 := l2_rep _ _ _ _ _ _ _ L). intros a b. apply rep2_grow.
      - unfold ns'. apply grows_nodup, L. }
    exists ns', m', done'. cbv zeta. replace (seq 0 (length (map lift ps))) with (seq 0 (length ps)) by (rewrite map_length; reflexivity). rewrite EM. cbn [bind]. split; [reflexivity|]. split; [exact HO|]. split.
    - intros p. unfold ns'. rewrite grows_in, (KN p). split.
      + intros [(h & z & H & Z & P) | P]; [exists h, z; rewrite in_app_iff; auto|]. apply in_map_iff in P as (z & <- & Z). exists (c, ps), z. rewrite in_app_iff. cbn. auto.
      + intros (h & z & H & Z & ->). apply in_app_or in H as [H | [<- | []]]; [left; exists h, z; auto | right; apply in_map; exact Z].
    - unfold sides2. rewrite flat_map_app. cbn [flat_map fst snd]. rewrite app_nil_r. rewrite firstn_all2 in LM by (rewrite AreaProofs2.ring_length; lia). exact LM.
  Qed.

  Lemma cells2_ok : exists hs ns m done, mfold (read_vcell2 fill dx) cs ([], mkV (repeat [] n) [] []) = Ok (ns, m) /\ map fst hs = cs /\
    Forall (fun h => HullOf (spots2 dx (fst h)) (snd h)) hs /\ Known hs ns /\ Linv2 dx n cs ns m done (sides2 hs).
  Proof using RD FILL.
    assert (G : forall rest pc hs ns m done, cs = pc ++ rest -> map fst hs = pc -> Forall (fun h => HullOf (spots2 dx (fst h)) (snd h)) hs -> Known hs ns -> Linv2 dx n cs ns m done (sides2 hs) ->
      exists hs' ns' m' done', mfold (read_vcell2 fill dx) rest (ns, m) = Ok (ns', m') /\ map fst hs' = cs /\ Forall (fun h => HullOf (spots2 dx (fst h)) (snd h)) hs' /\ Known hs' ns' /\ Linv2 dx n cs ns' m' done' (sides2 hs')).
    { induction rest as [|c t IH]; intros pc hs ns m done EC EH HF KN L; cbn [mfold].
      - rewrite app_nil_r in EC. exists hs, ns, m, done. split; [reflexivity|]. split; [congruence|]. auto.
      - destruct (cell2_step pc c t hs m done ns EC EH HF KN L) as (ps & ns' & m' & done' & E & HO & KN' & L'). rewrite E. cbn [bind].
        apply (IH (pc ++ [c]) (hs ++ [(c, ps)]) ns' m' done'); [rewrite <- app_assoc; exact EC | rewrite map_app, EH; reflexivity | apply Forall_app; split; [exact HF | constructor; [exact HO | constructor]] | exact KN' | exact L']. }
    apply (G cs [] [] [] _ []); try reflexivity.
    - constructor.
    - intros p. cbn. split; [intros [] | intros (h & z & [] & _)].
    - constructor.
      + apply inv_start.
      + constructor.
      + constructor.
      + intros s [].
      + intros f. constructor.
      + intros f. cbn. lia.
      + intros it [].
  Qed.
End Cells.

Definition ofcell2 (i : nat) (s : side2) : bool := c2_pid (fst s) =? i.
Lemma sides2_none hs i : ~ In i (map c2_pid (map fst hs)) -> filter (ofcell2 i) (sides2 hs) = [].
Proof.
  intros H. apply filter_no. intros s S. apply sides2_in in S as (h & I & E & _).
  unfold ofcell2. apply Nat.eqb_neq. intros <-. apply H. rewrite E. apply in_map, in_map, I.
Qed.
Lemma sides2_one hs h : NoDup (map c2_pid (map fst hs)) -> In h hs -> filter (ofcell2 (c2_pid (fst h))) (sides2 hs) = map (pair (fst h)) (ring (snd h)).
Proof.
  induction hs as [|d t IH]; intros N I; [destruct I|]. cbn [map] in N. inversion N as [|? ? N1 N2]; subst.
  change (sides2 (d :: t)) with (map (pair (fst d)) (ring (snd d)) ++ sides2 t). rewrite filter_app. destruct I as [-> | I].
  - rewrite (sides2_none t _ N1), app_nil_r. apply filter_all. intros s S. apply in_map_iff in S as (f & <- & _). apply Nat.eqb_refl.
  - rewrite (IH N2 I). rewrite filter_no; [reflexivity|]. intros s S. apply in_map_iff in S as (f & <- & _). unfold ofcell2. cbn [fst].
    apply Nat.eqb_neq. intros E. apply N1. rewrite E. apply in_map, in_map. exact I.
Qed.

(* what an entry of a cell says *)
Lemma entry2_says dx n cs ns m done ss it : Linv2 dx n cs ns m done ss -> In it done ->
  exists k g o t, face_id (v_faces m) (snd it) = Some k /\ nth_error (v_faces m) k = Some g /\ same_set g (snd it) = true /\
    owners done g = o :: t /\ In (o, g) done /\ pid (entry (v_faces m) done it) = k /\
    ((fst it = o /\ entry (v_faces m) done it = Z.of_nat k /\ g = snd it) \/ (In (fst it) t /\ fst it <> o /\ entry (v_faces m) done it = Z.lnot (Z.of_nat k))).
Proof.
  intros L I. pose proof (l2_inv _ _ _ _ _ _ _ L) as V. pose proof (iv_known _ _ _ V it I) as K.
  destruct (face_id (v_faces m) (snd it)) as [k|] eqn:F; [|congruence]. destruct (face_id_some _ _ _ F) as (g & G & S).
  destruct (iv_from _ _ _ V g (nth_error_In _ _ G)) as (o & t & O & J). exists k, g, o, t.
  assert (OE : owners done (snd it) = o :: t) by (rewrite <- (owners_same _ _ _ S); exact O).
  pose proof (owners_in _ _ I) as OI. rewrite OE in OI. pose proof (l2_nodup _ _ _ _ _ _ _ L g) as ND. rewrite O in ND.
  assert (EV : entry (v_faces m) done it = if o =? fst it then Z.of_nat k else Z.lnot (Z.of_nat k)) by (unfold entry; rewrite F, OE; reflexivity).
  do 5 (split; [assumption || reflexivity|]). rewrite EV. destruct (Nat.eqb_spec o (fst it)) as [E | NE].
  - split; [apply pid_nat|]. left. split; [auto|]. split; [reflexivity|].
    assert (Q : (o, g) = it). { apply (owner_item done g); auto; [apply (l2_nodup _ _ _ _ _ _ _ L) | cbn; apply same_refl]. }
    rewrite <- Q. reflexivity.
  - split; [apply pid_lnot|]. right. destruct OI as [OI | OI]; [congruence|]. auto.
Qed.

Definition drop (p : ipt) : Z * Z := let '(x, y, _) := p in (x, y).
Lemma drop_lift z : drop (lift z) = z.
Proof. destruct z. reflexivity. Qed.
Lemma flat_len2 {A} (g : A -> list Q) l : (forall a, length (g a) = 2) -> length (flat_map g l) = 2 * length l.
Proof. intros H. induction l as [|a t IH]; [reflexivity|]. cbn [flat_map length]. rewrite app_length, IH, H. lia. Qed.

Lemma readout2 dx s lo n cs hs ns m done (g : ipt -> list Q) hull : Readable2 dx n cs -> map fst hs = cs -> Forall (fun h => HullOf (spots2 dx (fst h)) (snd h)) hs -> Known hs ns ->
  Linv2 dx n cs ns m done (sides2 hs) ->
  (forall x y z, exists a b, g (x, y, z) = [a; b] /\ (a == fst lo + inject_Z x * dx * s /\ b == snd lo + inject_Z y * dx * s)%Q) ->
  ReadOut2 dx s lo n cs (mkMesh (flat_map g ns) (v_cells m) (v_faces m) [] [] (v_fcells m) hull [] [] []).
Proof.
  intros RD EH HF KN L HG. pose proof (l2_inv _ _ _ _ _ _ _ L) as V.
  assert (G2 : forall a, length (g a) = 2) by (intros [[x y] z]; destruct (HG x y z) as (a & b & E & _); rewrite E; reflexivity).
  assert (PT : forall k f, nth_error (v_faces m) k = Some f -> exists sd o, In sd (sides2 hs) /\ Rep2 ns sd (o, f)).
  { intros k f H. destruct (iv_from _ _ _ V f (nth_error_In _ _ H)) as (o & t & _ & J). destruct (Forall2_in_r _ _ _ (l2_rep _ _ _ _ _ _ _ L) _ J) as (sd & S & R). eauto. }
  assert (ROW : forall i l, nth_error (v_cells m) i = Some l -> i < n /\ l = row (v_faces m) done i).
  { intros i l H. pose proof (nth_error_lt _ _ _ H) as LT. rewrite (iv_cells _ _ _ V) in H, LT. rewrite map_length, seq_length in LT. split; [exact LT|].
    rewrite nth_error_map, nth_error_seq in H by exact LT. cbn in H. congruence. }
  constructor; cbn [nodes cells faces faceCells boundaryNodes boundaryFaces]; auto.
  - constructor; cbn [nodes cells faces faceCells sharedNodes sharedFaces].
    + exists (length ns). apply flat_len2, G2.
    + intros i c z H I. destruct (ROW i c H) as [_ ->]. destruct (row_pid _ _ _ _ _ V I) as (f & k & _ & F & E). destruct (face_id_some _ _ _ F) as (h & N & _).
      apply nth_error_lt in N. destruct E as [-> | ->]; [rewrite pid_nat | rewrite pid_lnot]; exact N.
    + intros i f k H I. destruct (PT i f H) as (sd & o & _ & _ & a & b & E & A & B). cbn [snd] in E. subst f. rewrite (flat_len2 g) by exact G2.
      apply nth_error_lt in A, B. destruct I as [<- | [<- | []]]; lia.
    + rewrite (iv_fcells _ _ _ V), map_length. reflexivity.
    + intros i fc H. rewrite (iv_fcells _ _ _ V), nth_error_map in H. destruct (nth_error (v_faces m) i) as [f|] eqn:F; [|discriminate]. cbn in H. injection H as <-.
      destruct (iv_from _ _ _ V f (nth_error_In _ _ F)) as (o & t & O & _). pose proof (l2_two _ _ _ _ _ _ _ L f) as T. rewrite O in *. cbn in *. rewrite map_length. lia.
    + intros i c z fc H I HFc. destruct (ROW i c H) as [_ ->]. unfold row in I. apply in_map_iff in I as (it & <- & I). apply filter_In in I as [I E]. apply Nat.eqb_eq in E.
      destruct (entry2_says _ _ _ _ _ _ _ _ L I) as (k & f & o & t & _ & N & _ & O & _ & P & CASE). rewrite P, (iv_fcells _ _ _ V), nth_error_map, N in HFc. cbn in HFc. injection HFc as <-.
      rewrite O. cbn [signed]. destruct CASE as [(E1 & E2 & _) | (E1 & _ & E2)]; rewrite E2; unfold sign_cell.
      * rewrite (proj2 (Z.leb_le 0 (Z.of_nat k))) by lia. left. congruence.
      * rewrite (proj2 (Z.leb_gt 0 (Z.lnot (Z.of_nat k)))) by (apply lnot_neg). right. apply in_map_iff. exists i. split; [reflexivity | rewrite <- E; exact E1].
    + intros k fc z H I. rewrite (iv_fcells _ _ _ V), nth_error_map in H. destruct (nth_error (v_faces m) k) as [f|] eqn:F; [|discriminate]. cbn in H. injection H as <-.
      destruct (iv_from _ _ _ V f (nth_error_In _ _ F)) as (o & t & O & J).
      assert (B : exists b, In b (owners done f) /\ pid z = b /\ ((0 <= z)%Z <-> b = o)).
      { rewrite O in I |- *. cbn [signed] in I. destruct I as [<- | I].
        - exists o. rewrite pid_nat. split; [left; reflexivity|]. split; [reflexivity|]. split; [auto | lia].
        - apply in_map_iff in I as (b & <- & I). exists b. rewrite pid_lnot. split; [right; exact I|]. split; [reflexivity|]. pose proof (lnot_neg b). split; [lia|].
          intros ->. pose proof (l2_nodup _ _ _ _ _ _ _ L f) as ND. rewrite O in ND. inversion ND. contradiction. }
      destruct B as (b & B & P & SG). destruct (owners_ex _ _ _ B) as (f' & I' & S'). pose proof (l2_pid _ _ _ _ _ _ _ L _ I') as LT. cbn [fst] in LT.
      exists (row (v_faces m) done b). rewrite P. split. { rewrite (iv_cells _ _ _ V), nth_error_map, nth_error_seq by exact LT. reflexivity. }
      destruct (entry2_says _ _ _ _ _ _ _ _ L I') as (k' & f'' & o' & t' & FI & N & S'' & O' & _ & _ & CASE). cbn [fst snd] in *.
      assert (k' = k). { rewrite <- (face_id_same _ _ _ S'), (iv_dist _ _ _ V _ _ F) in FI. congruence. } subst k'. rewrite F in N. injection N as <-.
      rewrite O in O'. injection O' as <- <-.
      replace (sign_face z k) with (entry (v_faces m) done (b, f')).
      { apply in_map_iff. exists (b, f'). split; [reflexivity|]. apply filter_In. split; [exact I' | apply Nat.eqb_refl]. }
      unfold sign_face. destruct CASE as [(E1 & E2 & _) | (_ & E1 & E2)]; rewrite E2; destruct (Z.leb_spec 0 z); auto; exfalso; [apply SG in E1; lia | apply E1, SG; assumption].
    + reflexivity.
    + intros [|d] l k H; discriminate.
    + intros [|d] l k H; discriminate.
  - assert (LD : forall p, In p ns -> p = lift (drop p)) by (intros p P; apply KN in P as (h & z & _ & _ & ->); rewrite drop_lift; reflexivity).
    assert (ND2 : forall k z, nth_error ns k = Some (lift z) -> nth_error (map drop ns) k = Some z) by (intros k z H; rewrite nth_error_map, H; cbn [option_map]; rewrite drop_lift; reflexivity).
    exists (map drop ns). split.
    { apply NoDup_nth_error. intros i j Li E. rewrite map_length in Li. rewrite !nth_error_map in E. destruct (nth_error_ex ns i Li) as [p P]. rewrite P in E. cbn in E.
      destruct (nth_error ns j) as [q|] eqn:Q; [|discriminate]. cbn in E. apply (proj1 (NoDup_nth_error ns) (l2_ns _ _ _ _ _ _ _ L)); [exact Li|]. rewrite P, Q. f_equal.
      rewrite (LD p (nth_error_In _ _ P)), (LD q (nth_error_In _ _ Q)). f_equal. congruence. }
    split.
    { clear - HG. induction ns as [|[[x y] z] t IH]; cbn [flat_map map]; [constructor|]. destruct (HG x y z) as (a & b & E & A & B). rewrite E. cbn [app drop fst snd]. repeat constructor; assumption. }
    split. { rewrite (iv_cells _ _ _ V), map_length, seq_length. reflexivity. }
    split.
    { intros i l H. destruct (ROW i l H) as [LT ->].
      assert (FF : Forall2 (Rep2 ns) (filter (ofcell2 i) (sides2 hs)) (filter (fun it => fst it =? i) done)).
      { apply forall2_filter; [apply L|]. intros a b [E _]. unfold ofcell2. rewrite E. reflexivity. }
      destruct (in_dec Nat.eq_dec i (map c2_pid cs)) as [I | I].
      - left. rewrite <- EH, map_map in I. apply in_map_iff in I as (h & E & I). exists (fst h), (snd h). split; [rewrite <- EH; apply in_map; exact I|]. split; [exact E|].
        rewrite Forall_forall in HF. pose proof (HF h I) as HO. split; [exact HO|]. split.
        { intros z Z. apply in_map_iff. exists (lift z). split; [apply drop_lift|]. apply KN. exists h, z. auto. }
        rewrite <- E in FF at 1. rewrite (sides2_one hs h) in FF; [| rewrite EH; apply (r2_pids _ _ _ RD) | exact I].
        assert (SUB : forall it, In it (filter (fun it => fst it =? i) done) -> In it done) by (intros it H'; apply filter_In in H'; apply H').
        assert (SI : forall e, In e (ring (snd h)) -> In (fst h, e) (sides2 hs)) by (intros e Ie; apply in_flat_map; exists h; split; [exact I | apply in_map; exact Ie]).
        revert FF SUB SI. unfold row. generalize (filter (fun it => fst it =? i) done) as its. generalize (ring (snd h)) as es.
        induction es as [|e es IH]; intros its FF SUB SI; cbn [map] in FF; inversion FF as [|? it ? its' R FF']; subst; cbn [map]; constructor.
        + destruct (entry2_says _ _ _ _ _ _ _ _ L (SUB it (or_introl eq_refl))) as (k & g' & o & t & _ & N & S & O & J & P & CASE).
          destruct R as [RP (x & y & ES & X & Y)]. cbn [fst snd] in RP, X, Y. exists x, y. split; [|split; apply ND2; assumption]. rewrite P, N. f_equal.
          destruct CASE as [(_ & EG & GG) | (_ & NO & EG)]; rewrite EG.
          * rewrite (proj2 (Z.leb_le 0 (Z.of_nat k))) by lia. congruence.
          * rewrite (proj2 (Z.leb_gt 0 (Z.lnot (Z.of_nat k)))) by (apply lnot_neg).
            destruct (Forall2_in_r _ _ _ (l2_rep _ _ _ _ _ _ _ L) _ J) as (sd & SD & RP' & u & v & EU & U & W). cbn [fst snd] in RP', EU.
            rewrite EU, ES in S. destruct (l2_side _ _ _ _ _ _ _ L _ (SI e (or_introl eq_refl))) as [C1 E1]. destruct (l2_side _ _ _ _ _ _ _ L _ SD) as [C2 E2]. cbn [fst snd] in C1, E1.
            assert (XY : x <> y) by (intros ->; destruct E1 as (_ & _ & NE & _); apply NE, lift_inj; congruence).
            apply pair_same in S as [[-> ->] | [[-> ->] | [_ ->]]]; [|exact EU | congruence].
            exfalso. apply NO. rewrite RP, RP'. f_equal. assert (FE : fst e = fst (snd sd)) by (apply lift_inj; congruence). assert (SE : snd e = snd (snd sd)) by (apply lift_inj; congruence).
            rewrite FE, SE in E1. apply (r2_disjoint _ _ _ RD _ _ _ _ C1 C2 E1 E2).
        + apply IH; [exact FF' | intros q Q; apply SUB; right; exact Q | intros q Q; apply SI; right; exact Q].
      - right. split; [|exact I]. rewrite (sides2_none hs i) in FF by (rewrite EH; exact I). unfold row. inversion FF. reflexivity. }
    intros z Z. apply in_map_iff in Z as (p & <- & P). apply KN in P as (h & z & H & Z & ->). rewrite drop_lift. rewrite Forall_forall in HF. pose proof (HF h H) as HO.
    apply In_nth_error in Z as (k & K). destruct (nth_error_ex (ring (snd h)) k) as [[a b] E]; [rewrite AreaProofs2.ring_length; apply nth_error_lt with z; exact K|].
    destruct (ring_parts _ _ _ _ E) as (A & _ & _). exists (fst h), a, b. split; [rewrite <- EH; apply in_map; exact H|].
    split; [apply hull_edge with (snd h); [exact HO | apply nth_error_In with k; exact E] | left; congruence].
  - intros i j f h Hf Hh S. apply same_set_iff in S. pose proof (iv_dist _ _ _ V _ _ Hf) as A. pose proof (iv_dist _ _ _ V _ _ Hh) as B.
    rewrite (face_id_same _ _ _ S) in A. congruence.
Qed.
