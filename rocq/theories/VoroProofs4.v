(* The whole loop, and the mesh it makes. *)
From Verif Require Import Base BaseFacts PLCSpec MeshModel MeshSpec Plane MeshEditorModel HullModel VoroModel VoroSpec VoroProofs VoroProofs2 VoroProofs3 FaceSortProofs4.
From Coq Require Import Lia QArith.
Local Open Scope nat_scope.

Lemma rep_grow dx ns r s it : Rep dx ns s it -> Rep dx (ns ++ r) s it.
Proof. intros [A B]. split; [exact A | apply at_grow; exact B]. Qed.
Lemma forall2_imp {A B} (P Q : A -> B -> Prop) l l' : (forall a b, P a b -> Q a b) -> Forall2 P l l' -> Forall2 Q l l'.
Proof. intros H F. induction F; constructor; auto. Qed.
Lemma mmap_all {A B} (f : A -> res B) g l : (forall a, In a l -> f a = Ok (g a)) -> mmap f l = Ok (map g l).
Proof.
  induction l as [|a t IH]; intros H; [reflexivity|]. cbn. rewrite (H a) by (left; reflexivity). cbn [bind].
  rewrite IH by (intros b I; apply H; right; exact I). reflexivity.
Qed.

Section Loop.
  Variables (dx : Q) (n : nat) (cs : list vcell).
  Hypothesis (RD : Readable dx n cs).

  Lemma faces_ok pc c post ns ids : cs = pc ++ c :: post -> Forall2 (fun v i => nth_error ns i = Some v) (spots dx c) ids ->
    forall rest pf m done, vc_faces c = pf ++ rest -> Linv dx n ns m done (sides_of pc ++ map (pair c) pf) ->
    exists m' done', mfold (fun m f => do fn <- face_nodes ids f; insertFaceInfo (vc_pid c) m fn) rest m = Ok m' /\
      Linv dx n ns m' done' (sides_of pc ++ map (pair c) (vc_faces c)).
  Proof using All.
    intros EC F. induction rest as [|f t IH]; intros pf m done EF L; cbn [mfold].
    - exists m, done. rewrite app_nil_r in EF. rewrite EF. auto.
    - destruct (face_step dx n cs RD pc c post pf f t ns m done ids EC EF L F) as (m' & it & E & L'). rewrite E. cbn [bind].
      apply (IH (pf ++ [f]) m' (done ++ [it])); [rewrite <- app_assoc; exact EF | exact L'].
  Qed.

  Lemma cell_step pc c post m done ns : cs = pc ++ c :: post -> ns = fold_left grow (flat_map (spots dx) pc) [] ->
    Linv dx n ns m done (sides_of pc) ->
    exists ns' m' done', read_vcell dx (ns, m) c = Ok (ns', m') /\ ns' = fold_left grow (flat_map (spots dx) (pc ++ [c])) [] /\
      Linv dx n ns' m' done' (sides_of (pc ++ [c])).
  Proof using All.
    intros EC EN L.
    assert (IC : In c cs) by (rewrite EC; apply in_or_app; right; left; reflexivity).
    destruct (rd_pts _ _ _ RD c IC) as [P4 F4]. unfold read_vcell.
    assert (GR : forall q, In q (vc_pts c) -> grid_point dx (add3 (add3 (vc_centroid c) (vc_pos c)) (half3 q)) = Ok (snap dx (placed c q)) /\ small (snap dx (placed c q))).
    { intros q Q. destruct (rd_range _ _ _ RD c q IC Q) as (A & B & C). apply grid_ok; assumption. }
    rewrite (mmap_all _ (fun q => snap dx (placed c q))) by (intros q Q; apply GR; exact Q). cbn [bind].
    change (map (fun q => snap dx (placed c q)) (vc_pts c)) with (spots dx c).
    rewrite (proj2 (Nat.leb_le 4 (length (spots dx c)))) by (unfold spots; rewrite map_length; exact P4). cbn [assert bind].
    destruct (update_ok (spots dx c) ns) as (ids & E & F).
    { apply Forall_forall. intros p P. unfold spots in P. apply in_map_iff in P as (q & <- & Q). apply GR. exact Q. }
    { intros p q P Q.
      assert (exists d, In d cs /\ In p (spots dx d)) as (d & D & PD).
      { destruct P as [P | P]; [|exists c; auto]. rewrite EN in P. apply grows_in in P as [[] | P]. apply in_flat_map in P as (d & D & P).
        exists d. split; [rewrite EC; apply in_or_app; left; exact D | exact P]. }
      apply (rd_apart _ _ _ RD d c p q D IC PD Q). }
    rewrite E. cbn [bind]. rewrite (proj2 (Nat.leb_le 4 _) F4). cbn [assert bind].
    set (ns' := fold_left grow (spots dx c) ns) in *.
    destruct (faces_ok pc c post ns' ids EC F (vc_faces c) [] m done eq_refl) as (m' & done' & M & L').
    { cbn [map]. rewrite app_nil_r. destruct (grows_prefix (spots dx c) ns) as (r & R). constructor; try apply L.
      - unfold ns'. rewrite R. apply forall2_imp with (2 := li_rep _ _ _ _ _ _ L). intros a b. apply rep_grow.
      - unfold ns'. apply grows_nodup, L. }
    rewrite M. cbn [bind]. exists ns', m', done'. split; [reflexivity|]. split.
    - unfold ns'. rewrite EN, flat_map_app, fold_left_app. cbn [flat_map]. rewrite app_nil_r. reflexivity.
    - unfold sides_of. rewrite flat_map_app. cbn [flat_map]. rewrite app_nil_r. exact L'.
  Qed.

  Lemma cells_ok : exists ns m done, mfold (read_vcell dx) cs ([], mkV (repeat [] n) [] []) = Ok (ns, m) /\
    ns = fold_left grow (flat_map (spots dx) cs) [] /\ Linv dx n ns m done (sides_of cs).
  Proof using All.
    assert (G : forall rest pc ns m done, cs = pc ++ rest -> ns = fold_left grow (flat_map (spots dx) pc) [] -> Linv dx n ns m done (sides_of pc) ->
      exists ns' m' done', mfold (read_vcell dx) rest (ns, m) = Ok (ns', m') /\ ns' = fold_left grow (flat_map (spots dx) cs) [] /\ Linv dx n ns' m' done' (sides_of cs)).
    { induction rest as [|c t IH]; intros pc ns m done EC EN L; cbn [mfold].
      - rewrite app_nil_r in EC. subst pc. exists ns, m, done. auto.
      - destruct (cell_step pc c t m done ns EC EN L) as (ns' & m' & done' & E & EN' & L'). rewrite E. cbn [bind].
        apply (IH (pc ++ [c]) ns' m' done'); [rewrite <- app_assoc; exact EC | exact EN' | exact L']. }
    apply (G cs [] [] _ []); try reflexivity. apply Build_Linv.
    - apply inv_start.
    - constructor.
    - constructor.
    - intros f. constructor.
    - intros f. cbn. lia.
    - intros it [].
  Qed.
End Loop.

Lemma forall2_filter {A B} (R : A -> B -> Prop) p q l l' : Forall2 R l l' -> (forall a b, R a b -> p a = q b) -> Forall2 R (filter p l) (filter q l').
Proof. intros F H. induction F as [|a b l l' E F IH]; cbn; [constructor|]. rewrite (H a b E). destruct (q b); [constructor|]; assumption. Qed.
Lemma filter_all {A} (p : A -> bool) l : (forall a, In a l -> p a = true) -> filter p l = l.
Proof. induction l as [|a t IH]; intros H; cbn; [reflexivity|]. rewrite (H a) by (left; reflexivity). f_equal. apply IH. intros b I. apply H. right. exact I. Qed.
Lemma filter_no {A} (p : A -> bool) l : (forall a, In a l -> p a = false) -> filter p l = [].
Proof. induction l as [|a t IH]; intros H; cbn; [reflexivity|]. rewrite (H a) by (left; reflexivity). apply IH. intros b I. apply H. right. exact I. Qed.
Definition ofcell (i : nat) (s : vside) : bool := vc_pid (fst s) =? i.
Lemma sides_none cs i : ~ In i (map vc_pid cs) -> filter (ofcell i) (sides_of cs) = [].
Proof.
  intros H. apply filter_no. intros s S. unfold sides_of in S. apply in_flat_map in S as (c & C & S). apply in_map_iff in S as (f & <- & _).
  unfold ofcell. cbn [fst]. apply Nat.eqb_neq. intros <-. apply H, in_map, C.
Qed.
Lemma sides_one cs c : NoDup (map vc_pid cs) -> In c cs -> filter (ofcell (vc_pid c)) (sides_of cs) = map (pair c) (vc_faces c).
Proof.
  induction cs as [|d t IH]; intros N I; [destruct I|]. cbn [map] in N. inversion N as [|? ? N1 N2]; subst. change (sides_of (d :: t)) with (map (pair d) (vc_faces d) ++ sides_of t). rewrite filter_app.
  destruct I as [-> | I].
  - rewrite (sides_none t (vc_pid c) N1), app_nil_r. apply filter_all. intros s S. apply in_map_iff in S as (f & <- & _). apply Nat.eqb_refl.
  - rewrite (IH N2 I). rewrite filter_no; [reflexivity|]. intros s S. apply in_map_iff in S as (f & <- & _). unfold ofcell. cbn [fst].
    apply Nat.eqb_neq. intros E. apply N1. rewrite E. apply in_map. exact I.
Qed.
Lemma owner_item done f a b : NoDup (owners done f) -> In a done -> In b done -> same_set f (snd a) = true -> same_set f (snd b) = true -> fst a = fst b -> a = b.
Proof.
  unfold owners. induction done as [|x t IH]; intros N A B SA SB E; [destruct A|]. cbn [filter] in N.
  destruct (same_set f (snd x)) eqn:SX.
  - cbn [map] in N. inversion N as [|? ? N1 N2]; subst. destruct A as [-> | A], B as [-> | B]; auto; exfalso; apply N1; [rewrite E | rewrite <- E]; apply in_map, filter_In; auto.
  - destruct A as [-> | A], B as [-> | B]; auto; congruence.
Qed.
Lemma at_nodup ns a ps : at_ids ns a ps -> NoDup ps -> NoDup a.
Proof.
  intros F. induction F as [|i p a ps H F IH]; intros N; [constructor|]. inversion N as [|? ? N1 N2]; subst. constructor; [|auto].
  intros I. apply N1. destruct (at_in _ _ _ _ F I) as (q & Q & J). congruence.
Qed.
Lemma lnot_neg k : (Z.lnot (Z.of_nat k) < 0)%Z.
Proof. unfold Z.lnot. lia. Qed.
Lemma pid_lnot k : pid (Z.lnot (Z.of_nat k)) = k.
Proof. unfold pid, positiveID. pose proof (lnot_neg k). destruct (Z.leb_spec 0 (Z.lnot (Z.of_nat k))); [lia|]. unfold Z.lnot. lia. Qed.
Lemma pid_nat k : pid (Z.of_nat k) = k.
Proof. unfold pid, positiveID. destruct (Z.leb_spec 0 (Z.of_nat k)); lia. Qed.

(* what an entry of a cell says *)
Lemma entry_says dx n ns m done ss it : Linv dx n ns m done ss -> In it done ->
  exists k g o t, face_id (v_faces m) (snd it) = Some k /\ nth_error (v_faces m) k = Some g /\ same_set g (snd it) = true /\
    owners done g = o :: t /\ In (o, g) done /\ pid (entry (v_faces m) done it) = k /\
    ((fst it = o /\ entry (v_faces m) done it = Z.of_nat k /\ g = snd it) \/ (In (fst it) t /\ fst it <> o /\ entry (v_faces m) done it = Z.lnot (Z.of_nat k))).
Proof.
  intros L I. pose proof (li_inv _ _ _ _ _ _ L) as V. pose proof (iv_known _ _ _ V it I) as K.
  destruct (face_id (v_faces m) (snd it)) as [k|] eqn:F; [|congruence]. destruct (face_id_some _ _ _ F) as (g & G & S).
  destruct (iv_from _ _ _ V g (nth_error_In _ _ G)) as (o & t & O & J). exists k, g, o, t.
  assert (OE : owners done (snd it) = o :: t) by (rewrite <- (owners_same _ _ _ S); exact O).
  pose proof (owners_in _ _ I) as OI. rewrite OE in OI. pose proof (li_nodup _ _ _ _ _ _ L g) as ND. rewrite O in ND.
  assert (EV : entry (v_faces m) done it = if o =? fst it then Z.of_nat k else Z.lnot (Z.of_nat k)) by (unfold entry; rewrite F, OE; reflexivity).
  do 5 (split; [assumption || reflexivity|]). rewrite EV. destruct (Nat.eqb_spec o (fst it)) as [E | NE].
  - split; [apply pid_nat|]. left. split; [auto|]. split; [reflexivity|].
    assert (Q : (o, g) = it). { apply (owner_item done g); auto; [apply (li_nodup _ _ _ _ _ _ L) | cbn; apply same_refl]. }
    rewrite <- Q. reflexivity.
  - split; [apply pid_lnot|]. right. destruct OI as [OI | OI]; [congruence|]. auto.
Qed.

Lemma flat_len {A} (g : A -> list Q) l : (forall a, length (g a) = 3) -> length (flat_map g l) = 3 * length l.
Proof. intros H. induction l as [|a t IH]; [reflexivity|]. cbn [flat_map length]. rewrite app_length, IH, H. lia. Qed.

Lemma readout dx s lo n cs ns m done (g : ipt -> list Q) hull : Readable dx n cs -> ns = fold_left grow (flat_map (spots dx) cs) [] -> Linv dx n ns m done (sides_of cs) ->
  (forall x y z, exists a b c, g (x, y, z) = [a; b; c] /\ (a == X3 lo + inject_Z x * dx * s /\ b == Y3 lo + inject_Z y * dx * s /\ c == Z3 lo + inject_Z z * dx * s)%Q) ->
  ReadOut dx s lo n cs (mkMesh (flat_map g ns) (v_cells m) (v_faces m) [] [] (v_fcells m) hull [] [] []).
Proof.
  intros RD EN L HG. pose proof (li_inv _ _ _ _ _ _ L) as V.
  assert (G3 : forall a, length (g a) = 3) by (intros [[x y] z]; destruct (HG x y z) as (a & b & c & E & _); rewrite E; reflexivity).
  assert (PT : forall k f, nth_error (v_faces m) k = Some f -> exists c h, In c cs /\ In h (vc_faces c) /\ at_ids ns f (once [] (corners dx c h))).
  { intros k f H. destruct (iv_from _ _ _ V f (nth_error_In _ _ H)) as (o & t & _ & J). destruct (Forall2_in_r _ _ _ (li_rep _ _ _ _ _ _ L) _ J) as ([c h] & S & R).
    destruct (in_sides _ _ S) as (a & b & [A B]). exists c, h. cbn [fst snd] in *. split; [apply nth_error_In with a; exact A|]. split; [apply nth_error_In with b; exact B | apply R]. }
  assert (ROW : forall i l, nth_error (v_cells m) i = Some l -> i < n /\ l = row (v_faces m) done i).
  { intros i l H. pose proof (nth_error_lt _ _ _ H) as LT. rewrite (iv_cells _ _ _ V) in H, LT. rewrite map_length, seq_length in LT. split; [exact LT|].
    rewrite nth_error_map, nth_error_seq in H by exact LT. cbn in H. congruence. }
  constructor; cbn [nodes cells faces faceCells boundaryNodes boundaryFaces]; auto.
  - constructor; cbn [nodes cells faces faceCells sharedNodes sharedFaces].
    + exists (length ns). apply flat_len, G3.
    + intros i c z H I. destruct (ROW i c H) as [_ ->]. destruct (row_pid _ _ _ _ _ V I) as (f & k & _ & F & E). destruct (face_id_some _ _ _ F) as (h & N & _).
      apply nth_error_lt in N. destruct E as [-> | ->]; [rewrite pid_nat | rewrite pid_lnot]; exact N.
    + intros i f k H I. destruct (PT i f H) as (c & h & _ & _ & A). destruct (at_in _ _ _ _ A I) as (p & P & _). apply nth_error_lt in P. rewrite (flat_len g) by exact G3. lia.
    + rewrite (iv_fcells _ _ _ V), map_length. reflexivity.
    + intros i fc H. rewrite (iv_fcells _ _ _ V), nth_error_map in H. destruct (nth_error (v_faces m) i) as [f|] eqn:F; [|discriminate]. cbn in H. injection H as <-.
      destruct (iv_from _ _ _ V f (nth_error_In _ _ F)) as (o & t & O & _). pose proof (li_two _ _ _ _ _ _ L f) as T. rewrite O in *. cbn in *. rewrite map_length. lia.
    + intros i c z fc H I HF. destruct (ROW i c H) as [_ ->]. unfold row in I. apply in_map_iff in I as (it & <- & I). apply filter_In in I as [I E]. apply Nat.eqb_eq in E.
      destruct (entry_says _ _ _ _ _ _ _ L I) as (k & f & o & t & _ & N & _ & O & _ & P & CASE). rewrite P, (iv_fcells _ _ _ V), nth_error_map, N in HF. cbn in HF. injection HF as <-.
      rewrite O. cbn [signed]. destruct CASE as [(E1 & E2 & _) | (E1 & _ & E2)]; rewrite E2; unfold sign_cell.
      * rewrite (proj2 (Z.leb_le 0 (Z.of_nat k))) by lia. left. congruence.
      * rewrite (proj2 (Z.leb_gt 0 (Z.lnot (Z.of_nat k)))) by (apply lnot_neg). right. apply in_map_iff. exists i. split; [reflexivity | rewrite <- E; exact E1].
    + intros k fc z H I. rewrite (iv_fcells _ _ _ V), nth_error_map in H. destruct (nth_error (v_faces m) k) as [f|] eqn:F; [|discriminate]. cbn in H. injection H as <-.
      destruct (iv_from _ _ _ V f (nth_error_In _ _ F)) as (o & t & O & J).
      assert (B : exists b, In b (owners done f) /\ pid z = b /\ ((0 <= z)%Z <-> b = o)).
      { rewrite O in I |- *. cbn [signed] in I. destruct I as [<- | I].
        - exists o. rewrite pid_nat. split; [left; reflexivity|]. split; [reflexivity|]. split; [auto | lia].
        - apply in_map_iff in I as (b & <- & I). exists b. rewrite pid_lnot. split; [right; exact I|]. split; [reflexivity|]. pose proof (lnot_neg b). split; [lia|].
          intros ->. pose proof (li_nodup _ _ _ _ _ _ L f) as ND. rewrite O in ND. inversion ND. contradiction. }
      destruct B as (b & B & P & SG). destruct (owners_ex _ _ _ B) as (f' & I' & S'). pose proof (li_pid _ _ _ _ _ _ L _ I') as LT. cbn [fst] in LT.
      exists (row (v_faces m) done b). rewrite P. split. { rewrite (iv_cells _ _ _ V), nth_error_map, nth_error_seq by exact LT. reflexivity. }
      destruct (entry_says _ _ _ _ _ _ _ L I') as (k' & f'' & o' & t' & FI & N & S'' & O' & _ & _ & CASE). cbn [fst snd] in *.
      assert (k' = k). { rewrite <- (face_id_same _ _ _ S'), (iv_dist _ _ _ V _ _ F) in FI. congruence. } subst k'. rewrite F in N. injection N as <-.
      rewrite O in O'. injection O' as <- <-.
      replace (sign_face z k) with (entry (v_faces m) done (b, f')).
      { apply in_map_iff. exists (b, f'). split; [reflexivity|]. apply filter_In. split; [exact I' | apply Nat.eqb_refl]. }
      unfold sign_face. destruct CASE as [(E1 & E2 & _) | (_ & E1 & E2)]; rewrite E2; destruct (Z.leb_spec 0 z); auto; exfalso; [apply SG in E1; lia | apply E1, SG; assumption].
    + reflexivity.
    + intros [|d] l k H; discriminate.
    + intros [|d] l k H; discriminate.
  - exists ns. split; [apply L|]. split.
    { intros p. rewrite EN, grows_in, in_flat_map. cbn. split; [intros [[] | H]; exact H | auto]. } split.
    { clear - HG. induction ns as [|[[x y] z] t IH]; cbn [flat_map]; [constructor|]. destruct (HG x y z) as (a & b & c & E & A & B & C). rewrite E. cbn [app]. repeat constructor; assumption. }
    split. { rewrite (iv_cells _ _ _ V), map_length, seq_length. reflexivity. }
    intros i l H. clear EN. destruct (ROW i l H) as [LT ->].
    assert (FF : Forall2 (Rep dx ns) (filter (ofcell i) (sides_of cs)) (filter (fun it => fst it =? i) done)).
    { apply forall2_filter; [apply L|]. intros a b [E _]. unfold ofcell. rewrite E. reflexivity. }
    destruct (in_dec Nat.eq_dec i (map vc_pid cs)) as [I | I].
    + left. apply in_map_iff in I as (c & E & I). exists c. split; [exact I|]. split; [exact E|]. rewrite <- E in FF at 1. rewrite (sides_one cs c (rd_pids _ _ _ RD) I) in FF.
      assert (SUB : forall it, In it (filter (fun it => fst it =? i) done) -> In it done) by (intros it H'; apply filter_In in H'; apply H').
      assert (FI : forall f, In f (vc_faces c) -> In f (vc_faces c)) by auto. revert FF SUB FI. unfold row.
      generalize (filter (fun it => fst it =? i) done) as its. generalize (vc_faces c) at 1 2 4 as fs.
      induction fs as [|f fs IH]; intros its FF SUB FI; cbn [map] in FF; inversion FF as [|? it ? its' R FF']; subst; cbn [map]; constructor.
      * destruct (entry_says _ _ _ _ _ _ _ L (SUB it (or_introl eq_refl))) as (k & g' & o & t & _ & N & S & O & J & P & CASE).
        destruct (PT k g' N) as (d & h & D & HH & A). exists g', (once [] (corners dx d h)). rewrite P. destruct R as [RP RA]. cbn [fst snd] in RP, RA.
        assert (SM : sameset (once [] (corners dx d h)) (once [] (corners dx c f))) by (apply (same_points ns g' (snd it)); assumption).
        assert (L3 : length g' = length (once [] (corners dx d h))) by (apply Forall2_len with (1 := A)).
        split; [exact N|]. split; [exact A|]. split; [intros x; rewrite (SM x); apply once_same|]. split; [apply at_nodup with (1 := A); apply once_nodup|].
        split; [rewrite L3; apply (rd_face _ _ _ RD d h D HH)|]. intros Z0. destruct CASE as [(_ & _ & EG) | (_ & _ & EG)]; [|rewrite EG in Z0; pose proof (lnot_neg k); lia].
        subst g'. clear - A RA. revert A RA. generalize (snd it) as a, (once [] (corners dx d h)) as u, (once [] (corners dx c f)) as v.
        intros a u v F. revert v. induction F as [|x p a u H F IH]; intros v F'; inversion F' as [|? q ? v' H' F'']; subst; [reflexivity|]. f_equal; [congruence | apply IH; exact F''].
      * apply IH; [exact FF' | intros x X; apply SUB; right; exact X | intros x X; apply FI; right; exact X].
    + right. split; [|exact I]. rewrite (sides_none cs i I) in FF. unfold row. inversion FF. reflexivity.
  - intros i j f h Hf Hh S. apply same_set_iff in S. pose proof (iv_dist _ _ _ V _ _ Hf) as A. pose proof (iv_dist _ _ _ V _ _ Hh) as B.
    rewrite (face_id_same _ _ _ S) in A. congruence.
Qed.
