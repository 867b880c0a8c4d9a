(* The faces of a mesh as a function of the list of (cell, nodes) pairs given so far. *)
From Verif Require Import Base BaseFacts PLCSpec MeshModel MeshSpec Plane VoroModel VoroSpec FaceSortProofs4.
From Coq Require Import Lia.
Local Open Scope nat_scope.

Lemma memn_in x l : memn x l = true <-> In x l.
Proof.
  unfold memn. rewrite existsb_exists. split.
  - intros (y & H & E). apply Nat.eqb_eq in E. subst. exact H.
  - intros H. exists x. split; [exact H | apply Nat.eqb_refl].
Qed.
Lemma same_set_iff a b : same_set a b = true <-> sameset a b.
Proof.
  unfold same_set, sameset. rewrite andb_true_iff, !forallb_forall. split.
  - intros [A B] x. split; intros H; apply memn_in; auto.
  - intros E. split; intros x H; apply memn_in; apply E; exact H.
Qed.
Lemma same_refl a : same_set a a = true.
Proof. apply same_set_iff. intros x. tauto. Qed.
Lemma same_sym a b : same_set a b = same_set b a.
Proof. apply eq_iff_eq_true. rewrite !same_set_iff. unfold sameset. split; intros H x; symmetry; auto. Qed.
Lemma same_trans a b c : same_set a b = true -> same_set b c = true -> same_set a c = true.
Proof. rewrite !same_set_iff. intros A B x. rewrite (A x). auto. Qed.
Lemma same_left a b c : same_set a b = true -> same_set a c = same_set b c.
Proof.
  intros E. apply eq_iff_eq_true. split; intros H.
  - apply same_trans with a; [rewrite same_sym|]; assumption.
  - apply same_trans with b; assumption.
Qed.

Lemma face_id_some fs : forall f k, face_id fs f = Some k -> exists g, nth_error fs k = Some g /\ same_set g f = true.
Proof.
  induction fs as [|h t IH]; intros f k H; [discriminate|]. cbn in H.
  destruct (same_set h f) eqn:E. { injection H as <-. exists h. auto. }
  destruct (face_id t f) as [j|] eqn:F; [|discriminate]. injection H as <-. destruct (IH _ _ F) as (g & A & B). exists g. auto.
Qed.
Lemma face_id_none fs : forall f, face_id fs f = None -> forall g, In g fs -> same_set g f = false.
Proof.
  induction fs as [|h t IH]; intros f H g I; [destruct I|]. cbn in H. destruct (same_set h f) eqn:E; [discriminate|].
  destruct (face_id t f) eqn:F; [discriminate|]. destruct I as [<- | I]; [exact E | apply IH; auto].
Qed.
Lemma face_id_app fs r f : face_id (fs ++ r) f = match face_id fs f with Some k => Some k | None => option_map (fun k => length fs + k) (face_id r f) end.
Proof.
  induction fs as [|h t IH]; cbn. { destruct (face_id r f); reflexivity. }
  destruct (same_set h f); [reflexivity|]. rewrite IH. destruct (face_id t f); [reflexivity|]. destruct (face_id r f); reflexivity.
Qed.
Lemma face_id_same fs f g : same_set f g = true -> face_id fs f = face_id fs g.
Proof.
  intros E. induction fs as [|h t IH]; [reflexivity|]. cbn. rewrite IH.
  rewrite (same_sym h f), (same_sym h g), (same_left f g h E). reflexivity.
Qed.

Notation item := (nat * list nat)%type.
Definition owners (done : list item) (f : list nat) : list nat := map fst (filter (fun it => same_set f (snd it)) done).
Definition signed (l : list nat) : list Z := match l with [] => [] | a :: t => Z.of_nat a :: map (fun b => Z.lnot (Z.of_nat b)) t end.
Definition entry (fs : list (list nat)) (done : list item) (it : item) : Z :=
  match face_id fs (snd it) with
  | Some k => if hd (fst it) (owners done (snd it)) =? fst it then Z.of_nat k else Z.lnot (Z.of_nat k)
  | None => 0%Z
  end.
Definition row (fs : list (list nat)) (done : list item) (i : nat) : list Z := map (entry fs done) (filter (fun it => fst it =? i) done).

Record Inv (n : nat) (done : list item) (st : vmesh) : Prop := {
  iv_known : forall it, In it done -> face_id (v_faces st) (snd it) <> None;
  iv_from : forall f, In f (v_faces st) -> exists i t, owners done f = i :: t /\ In (i, f) done;
  iv_dist : forall k f, nth_error (v_faces st) k = Some f -> face_id (v_faces st) f = Some k;
  iv_fcells : v_fcells st = map (fun f => signed (owners done f)) (v_faces st);
  iv_cells : v_cells st = map (row (v_faces st) done) (seq 0 n) }.

Lemma owners_app a b f : owners (a ++ b) f = owners a f ++ owners b f.
Proof. unfold owners. rewrite filter_app, map_app. reflexivity. Qed.
Lemma owners_one it f : owners [it] f = if same_set f (snd it) then [fst it] else [].
Proof. unfold owners. cbn. destruct (same_set f (snd it)); reflexivity. Qed.
Lemma owners_same done f g : same_set f g = true -> owners done f = owners done g.
Proof. intros E. unfold owners. f_equal. apply filter_ext. intros a. apply same_left. exact E. Qed.
Lemma owners_in done it : In it done -> In (fst it) (owners done (snd it)).
Proof. intros H. unfold owners. apply in_map, filter_In. split; [exact H | apply same_refl]. Qed.
Lemma owners_ex done f i : In i (owners done f) -> exists g, In (i, g) done /\ same_set f g = true.
Proof. unfold owners. intros H. apply in_map_iff in H as ([j g] & <- & H). apply filter_In in H as [A B]. exists g. auto. Qed.
Lemma hd_app {A} (d : A) l r : l <> [] -> hd d (l ++ r) = hd d l.
Proof. destruct l; [congruence | reflexivity]. Qed.
Lemma owners_some done it : In it done -> owners done (snd it) <> [].
Proof. intros H E. pose proof (owners_in done it H) as I. rewrite E in I. destruct I. Qed.

Lemma entry_keep fs r done it old : In old done -> face_id fs (snd old) <> None -> entry (fs ++ r) (done ++ [it]) old = entry fs done old.
Proof.
  intros I K. unfold entry. rewrite face_id_app. destruct (face_id fs (snd old)) as [k|]; [|congruence].
  rewrite owners_app, hd_app by (apply owners_some; exact I). reflexivity.
Qed.
Lemma row_keep fs r done it i : (forall o, In o done -> face_id fs (snd o) <> None) ->
  row (fs ++ r) (done ++ [it]) i = row fs done i ++ if fst it =? i then [entry (fs ++ r) (done ++ [it]) it] else [].
Proof.
  intros K. unfold row. rewrite filter_app, map_app. f_equal.
  - apply map_ext_in. intros o H. apply filter_In in H as [H _]. apply entry_keep; auto.
  - cbn. destruct (fst it =? i); reflexivity.
Qed.
Lemma rows_upd n (g g' : nat -> list Z) i x : i < n -> g' i = x -> (forall j, j <> i -> g' j = g j) -> upd (map g (seq 0 n)) i x = map g' (seq 0 n).
Proof.
  intros L E O. apply nth_error_ext. intros k. rewrite upd_nth, !nth_error_map, map_length, seq_length.
  destruct (le_lt_dec n k) as [H|H].
  - rewrite (proj2 (nth_error_None (seq 0 n) k)) by (rewrite seq_length; lia). cbn [option_map]. rewrite (proj2 (Nat.ltb_ge k n) H), andb_false_r. reflexivity.
  - rewrite nth_error_seq by lia. cbn [option_map Nat.add]. rewrite (proj2 (Nat.ltb_lt k n) H). destruct (Nat.eqb_spec i k) as [<- | N]; cbn; [subst; reflexivity | rewrite O by auto; reflexivity].
Qed.
Lemma count_app z a b : count_z z (a ++ b) = count_z z a + count_z z b.
Proof. unfold count_z. rewrite filter_app, app_length. reflexivity. Qed.
Lemma count_none z a : ~ In z a -> count_z z a = 0.
Proof.
  unfold count_z. intros H. destruct (filter (Z.eqb z) a) as [|y t] eqn:E; [reflexivity|]. exfalso. apply H.
  assert (I : In y (filter (Z.eqb z) a)) by (rewrite E; left; reflexivity). apply filter_In in I as [A B]. apply Z.eqb_eq in B. subst. exact A.
Qed.
Lemma count_one z : count_z z [z] = 1.
Proof. unfold count_z. cbn. rewrite Z.eqb_refl. reflexivity. Qed.

Lemma row_pid n done st i z : Inv n done st -> In z (row (v_faces st) done i) ->
  exists f k, In (i, f) done /\ face_id (v_faces st) f = Some k /\ (z = Z.of_nat k \/ z = Z.lnot (Z.of_nat k)).
Proof.
  intros V H. unfold row in H. apply in_map_iff in H as ([j f] & E & H). apply filter_In in H as [A B]. cbn in B. apply Nat.eqb_eq in B. subst j.
  pose proof (iv_known _ _ _ V _ A) as K. cbn in K. unfold entry in E. cbn in E. destruct (face_id (v_faces st) f) as [k|] eqn:F; [|congruence].
  exists f, k. split; [exact A|]. split; [exact F|]. destruct (_ =? _) in E; auto.
Qed.

Lemma insert_new n done st i f : Inv n done st -> i < n -> face_id (v_faces st) f = None ->
  exists st', insertFaceInfo i st f = Ok st' /\ Inv n (done ++ [(i, f)]) st'.
Proof.
  intros V L F. unfold insertFaceInfo. rewrite F.
  assert (NO : owners done f = []).
  { destruct (owners done f) as [|j t] eqn:E; [reflexivity|]. exfalso.
    destruct (owners_ex done f j) as (g & A & B); [rewrite E; left; reflexivity|].
    apply (iv_known _ _ _ V _ A). cbn. rewrite <- (face_id_same _ f g B). exact F. }
  assert (GC : get (v_cells st) i = Ok (row (v_faces st) done i)).
  { apply get_ok. rewrite (iv_cells _ _ _ V), nth_error_map, nth_error_seq by lia. reflexivity. }
  rewrite GC. cbn [bind]. rewrite set_lt by (rewrite (iv_cells _ _ _ V), map_length, seq_length; lia). cbn [bind].
  assert (CN : count_z (Z.of_nat (length (v_faces st))) (row (v_faces st) done i ++ [Z.of_nat (length (v_faces st))]) = 1).
  { rewrite count_app, count_one, count_none; [reflexivity|]. intros I. destruct (row_pid _ _ _ _ _ V I) as (g & k & _ & G & E).
    destruct (face_id_some _ _ _ G) as (h & H & _). pose proof (nth_error_lt _ _ _ H) as LT. destruct E as [E|E]; [lia|]. unfold Z.lnot in E. lia. }
  rewrite CN, app_length. cbn [Nat.eqb assert bind length].
  assert (LF : length (v_fcells st) = length (v_faces st)) by (rewrite (iv_fcells _ _ _ V), map_length; reflexivity).
  rewrite LF, Nat.eqb_refl. cbn [assert bind]. eexists. split; [reflexivity|].
  assert (FN : face_id (v_faces st ++ [f]) f = Some (length (v_faces st))) by (rewrite face_id_app, F; cbn; rewrite same_refl; cbn; f_equal; lia).
  constructor; cbn [v_faces v_fcells v_cells].
  - intros it H. apply in_app_or in H as [H | [<- | []]].
    + rewrite face_id_app. pose proof (iv_known _ _ _ V _ H). destruct (face_id (v_faces st) (snd it)); congruence.
    + cbn [snd]. rewrite FN. discriminate.
  - intros g H. apply in_app_or in H as [H | [<- | []]].
    + destruct (iv_from _ _ _ V _ H) as (j & t & OT & J). exists j, (t ++ owners [(i, f)] g). rewrite owners_app, OT. split; [reflexivity | apply in_or_app; auto].
    + exists i, []. rewrite owners_app, owners_one, NO. cbn [snd fst]. rewrite same_refl. split; [reflexivity | apply in_or_app; right; left; reflexivity].
  - intros k g H. destruct (le_lt_dec (length (v_faces st)) k) as [G|G].
    + rewrite nth_error_app2 in H by lia. destruct (k - length (v_faces st)) as [|d] eqn:D; [|cbn in H; destruct d; discriminate].
      cbn in H. injection H as <-. rewrite FN. f_equal. lia.
    + rewrite nth_error_app1 in H by lia. rewrite face_id_app, (iv_dist _ _ _ V _ _ H). reflexivity.
  - rewrite map_app, (iv_fcells _ _ _ V). f_equal.
    + apply map_ext_in. intros g H. rewrite owners_app, owners_one. cbn [snd].
      rewrite (face_id_none _ _ F g H), app_nil_r. reflexivity.
    + cbn [map]. rewrite owners_app, owners_one, NO. cbn [snd]. rewrite same_refl. reflexivity.
  - rewrite (iv_cells _ _ _ V). apply rows_upd; [exact L| |].
    + rewrite row_keep by (apply (iv_known _ _ _ V)). cbn [fst]. rewrite Nat.eqb_refl. f_equal. unfold entry. cbn [snd fst].
      rewrite FN, owners_app, owners_one, NO. cbn [snd fst app]. rewrite same_refl. cbn. rewrite Nat.eqb_refl. reflexivity.
    + intros j NJ. rewrite row_keep by (apply (iv_known _ _ _ V)). cbn [fst]. destruct (Nat.eqb_spec i j); [congruence|]. apply app_nil_r.
Qed.

Lemma insert_old n done st i f k : Inv n done st -> i < n -> face_id (v_faces st) f = Some k ->
  NoDup (owners (done ++ [(i, f)]) f) -> length (owners (done ++ [(i, f)]) f) <= 2 ->
  exists st', insertFaceInfo i st f = Ok st' /\ Inv n (done ++ [(i, f)]) st'.
Proof.
  intros V L F ND L2. unfold insertFaceInfo. rewrite F.
  destruct (face_id_some _ _ _ F) as (g & NG & SG). pose proof (nth_error_lt _ _ _ NG) as LK.
  assert (ON : exists o, owners done f = [o] /\ o <> i).
  { rewrite owners_app, owners_one in ND, L2. cbn [snd fst] in ND, L2. rewrite same_refl in ND, L2.
    destruct (iv_from _ _ _ V g (nth_error_In _ _ NG)) as (j & tj & _ & J). pose proof (owners_some _ _ J) as NE. cbn [snd] in NE. rewrite (owners_same done g f SG) in NE.
    rewrite app_length in L2. cbn in L2. destruct (owners done f) as [|o [|o' t]]; [congruence | | cbn in L2; lia].
    exists o. split; [reflexivity|]. intros ->. cbn in ND. inversion ND as [|? ? NI _]. apply NI. left. reflexivity. }
  destruct ON as (o & OD & NO).
  assert (GC : get (v_cells st) i = Ok (row (v_faces st) done i)).
  { apply get_ok. rewrite (iv_cells _ _ _ V), nth_error_map, nth_error_seq by lia. reflexivity. }
  rewrite GC. cbn [bind]. rewrite set_lt by (rewrite (iv_cells _ _ _ V), map_length, seq_length; lia). cbn [bind].
  assert (GF : get (v_fcells st) k = Ok [Z.of_nat o]).
  { apply get_ok. rewrite (iv_fcells _ _ _ V), nth_error_map, NG. cbn [option_map]. rewrite (owners_same done g f SG), OD. reflexivity. }
  rewrite GF. cbn [bind app]. rewrite set_lt by (rewrite (iv_fcells _ _ _ V), map_length; exact LK). cbn [bind].
  assert (CN : count_z (Z.lnot (Z.of_nat k)) (row (v_faces st) done i ++ [Z.lnot (Z.of_nat k)]) = 1).
  { rewrite count_app, count_one, count_none; [reflexivity|]. intros I. destruct (row_pid _ _ _ _ _ V I) as (h & k' & IH & G & E).
    assert (k' = k) by (unfold Z.lnot in E; lia). subst k'.
    destruct (face_id_some _ _ _ G) as (g' & NG' & SG'). rewrite NG in NG'. injection NG' as <-.
    pose proof (owners_in _ _ IH) as OI. cbn [fst snd] in OI. rewrite <- (owners_same done g h SG'), (owners_same done g f SG), OD in OI.
    destruct OI as [<- | []]. congruence. }
  rewrite CN. cbn [Nat.eqb assert bind length get nth_error]. cbn. rewrite Z.eqb_refl. cbn [assert bind].
  eexists. split; [reflexivity|].
  constructor; cbn [v_faces v_fcells v_cells].
  - intros it H. apply in_app_or in H as [H | [<- | []]]; [apply (iv_known _ _ _ V); exact H | cbn [snd]; rewrite F; discriminate].
  - intros h H. destruct (iv_from _ _ _ V _ H) as (j & t & OT & J). exists j, (t ++ owners [(i, f)] h). rewrite owners_app, OT. split; [reflexivity | apply in_or_app; auto].
  - apply (iv_dist _ _ _ V).
  - rewrite (iv_fcells _ _ _ V). apply nth_error_ext. intros j. rewrite upd_nth, !nth_error_map, map_length.
    destruct (nth_error (v_faces st) j) as [h|] eqn:H; cbn [option_map].
    + rewrite (proj2 (Nat.ltb_lt j _) (nth_error_lt _ _ _ H)), andb_true_r. destruct (Nat.eqb_spec k j) as [<- | NJ].
      * rewrite NG in H. injection H as <-. rewrite owners_app, owners_one. cbn [fst snd]. rewrite SG, (owners_same done g f SG), OD. reflexivity.
      * rewrite owners_app, owners_one. cbn [fst snd]. destruct (same_set h f) eqn:S; [|rewrite app_nil_r; reflexivity].
        exfalso. apply NJ. pose proof (iv_dist _ _ _ V _ _ H) as D. rewrite (face_id_same _ _ _ S), F in D. congruence.
    + destruct (Nat.eqb_spec k j) as [<- | NJ]; [congruence | reflexivity].
  - rewrite (iv_cells _ _ _ V).
    assert (RK : forall j, row (v_faces st) (done ++ [(i, f)]) j = row (v_faces st) done j ++ if i =? j then [entry (v_faces st) (done ++ [(i, f)]) (i, f)] else []).
    { intros j. pose proof (row_keep (v_faces st) [] done (i, f) j (iv_known _ _ _ V)) as R. rewrite app_nil_r in R. exact R. }
    apply rows_upd; [exact L| |].
    + rewrite RK, Nat.eqb_refl. f_equal. unfold entry. cbn [snd fst].
      rewrite F, owners_app, OD. cbn [app hd]. destruct (Nat.eqb_spec o i); [congruence | reflexivity].
    + intros j NJ. rewrite RK. destruct (Nat.eqb_spec i j); [congruence|]. apply app_nil_r.
Qed.

Lemma insert_any n done st i f : Inv n done st -> i < n -> NoDup (owners (done ++ [(i, f)]) f) -> length (owners (done ++ [(i, f)]) f) <= 2 ->
  exists st', insertFaceInfo i st f = Ok st' /\ Inv n (done ++ [(i, f)]) st'.
Proof.
  intros V L A B. destruct (face_id (v_faces st) f) as [k|] eqn:F; [apply insert_old with k; assumption | apply insert_new; assumption].
Qed.
Lemma inv_start n : Inv n [] (mkV (repeat [] n) [] []).
Proof.
  constructor; cbn; try tauto; auto.
  - intros [|k] f H; discriminate.
  - apply nth_error_ext. intros k. rewrite nth_error_map. destruct (le_lt_dec n k) as [H|H].
    + rewrite !(proj2 (nth_error_None _ k)); [reflexivity | rewrite seq_length; lia | rewrite repeat_length; lia].
    + rewrite nth_error_seq, nth_error_repeat by lia. reflexivity.
Qed.
