From Verif Require Import Base BaseFacts SerializeModel MeshModel StdAlg PLCSpec MeshEditorModel Plane PlaneFacts AreaModel AreaSpec AreaProofs.
From Coq Require Import QArith Lqa Qabs Permutation.
Local Open Scope Q_scope.

Lemma node3_ok m n p : node3 m n = Ok p <-> pos3 m n p.
Proof.
  unfold node3, pos3, get. destruct p as [[x y] z]. cbn [X3 Y3 Z3]. split.
  - destruct (nth_error (nodes m) (3 * n)) as [x'|]; [|discriminate]. cbn [bind].
    destruct (nth_error (nodes m) (3 * n + 1)) as [y'|]; [|discriminate]. cbn [bind].
    destruct (nth_error (nodes m) (3 * n + 2)) as [z'|]; [|discriminate]. cbn [bind]. intros [= -> -> ->]. auto.
  - intros (-> & -> & ->). reflexivity.
Qed.
Lemma pos3_fun m n p q : pos3 m n p -> pos3 m n q -> p = q.
Proof. intros A B. apply node3_ok in A, B. congruence. Qed.

(* ---- polynomial identities ---- *)
Notation tri3 := (p3 * p3 * p3)%type.
Definition phi (o : p3) (t : tri3) : Q := let '(a, b, c) := t in vol6 o a b c.
Definition mom (u : p3 -> Q) (o : p3) (t : tri3) : Q := let '(a, b, c) := t in vol6 o a b c * (u o + u a + u b + u c).
Ltac pts := repeat match goal with p : p3 |- _ => let x := fresh "x" in let y := fresh "y" in let z := fresh "z" in destruct p as [[x y] z] end.
Ltac poly := unfold phi, mom, vol6, det3, sub3, X3, Y3, Z3; ring.
Lemma phi_swap o a b c : phi o (b, a, c) == - phi o (a, b, c).
Proof. pts. poly. Qed.
Lemma phi_turn o a b c : phi o (b, c, a) == phi o (a, b, c).
Proof. pts. poly. Qed.
Lemma vol_swap o a b c : vol6 o b a c == - vol6 o a b c.
Proof. pts. poly. Qed.
Lemma vol_turn o a b c : vol6 o b c a == vol6 o a b c.
Proof. pts. poly. Qed.
Lemma mom_swap u o a b c : mom u o (b, a, c) == - mom u o (a, b, c).
Proof. unfold mom. rewrite vol_swap. ring. Qed.
Lemma mom_turn u o a b c : mom u o (b, c, a) == mom u o (a, b, c).
Proof. unfold mom. rewrite vol_turn. ring. Qed.
Definition coordinate (u : p3 -> Q) : Prop := u = X3 \/ u = Y3 \/ u = Z3.
Notation tet := (p3 * p3 * p3 * p3)%type.
Definition tvol (t : tet) : Q := let '(a, b, c, d) := t in vol6 a b c d.
Definition tsum (u : p3 -> Q) (t : tet) : Q := let '(a, b, c, d) := t in u a + u b + u c + u d.
Lemma tet_phi o t : sumf (phi o) (tet_faces t) == tvol t.
Proof. destruct t as [[[a b] c] d]. unfold tet_faces, tvol. rewrite !sumf_cons, sumf_nil. pts. poly. Qed.
Lemma tet_mom u o t : coordinate u -> sumf (mom u o) (tet_faces t) == tvol t * tsum u t.
Proof.
  intros [-> | [-> | ->]]; destruct t as [[[a b] c] d]; unfold tet_faces, tvol, tsum; rewrite !sumf_cons, sumf_nil; pts; poly.
Qed.
(* changing the apex *)
Definition psi (o o' : p3) (e : p3 * p3) : Q := vol6 o o' (fst e) (snd e).
Definition psm (u : p3 -> Q) (o o' : p3) (e : p3 * p3) : Q := psi o o' e * (u o + u o' + u (fst e) + u (snd e)).
Lemma apex_phi o o' a b c : phi o (a, b, c) == phi o' (a, b, c) + (psi o o' (a, b) + psi o o' (b, c) + psi o o' (c, a)).
Proof. unfold psi. cbn [fst snd]. pts. poly. Qed.
Lemma apex_mom u o o' a b c : coordinate u -> mom u o (a, b, c) == mom u o' (a, b, c) + (psm u o o' (a, b) + psm u o o' (b, c) + psm u o o' (c, a)).
Proof. intros [-> | [-> | ->]]; unfold psm, psi; cbn [fst snd]; pts; poly. Qed.
Lemma psi_anti o o' a b : psi o o' (b, a) == - psi o o' (a, b).
Proof. unfold psi. cbn [fst snd]. pts. poly. Qed.
Lemma psm_anti u o o' a b : psm u o o' (b, a) == - psm u o o' (a, b).
Proof. unfold psm. rewrite psi_anti. cbn [fst snd]. ring. Qed.

Definition same3 (p q : p3) : Prop := X3 p == X3 q /\ Y3 p == Y3 q /\ Z3 p == Z3 q.
Lemma vol_ext o a b g g' : same3 g g' -> vol6 o a b g == vol6 o a b g'.
Proof.
  intros (A & B & C). pts. cbn [X3 Y3 Z3] in A, B, C. unfold vol6, det3, sub3. rewrite A, B, C. reflexivity.
Qed.
Lemma coordinate_ext u p q : coordinate u -> same3 p q -> u p == u q.
Proof. intros [-> | [-> | ->]] (A & B & C); auto. Qed.

(* ---- face centroid ---- *)
Lemma fcent_fold m f : forall s vs s' vs', mfold (fcent_step m) f (s, vs) = Ok (s', vs') ->
  exists ps, Forall2 (pos3 m) f ps /\ X3 s' == X3 s + sumf X3 ps /\ Y3 s' == Y3 s + sumf Y3 ps /\ Z3 s' == Z3 s + sumf Z3 ps.
Proof.
  induction f as [|n f IH]; intros s vs s' vs' H; cbn [mfold] in H.
  - injection H as <- <-. exists []. split; [constructor|]. rewrite !sumf_nil. repeat split; ring.
  - destruct (fcent_step m (s, vs) n) as [[s1 vs1]| | |] eqn:E; try discriminate. cbn [bind] in H.
    unfold fcent_step in E. destruct s as [[x y] z]. destruct (n <? length (nodes m) / 3)%nat; [|discriminate]. cbn [assert bind] in E.
    destruct (node3 m n) as [p| | |] eqn:P; try discriminate. cbn [bind] in E. apply node3_ok in P. injection E as <- _.
    destruct (IH _ _ _ _ H) as (ps & F & A & B & C). exists (p :: ps). split; [constructor; auto|]. rewrite !sumf_cons. cbn [X3 Y3 Z3] in *.
    repeat split; [rewrite A|rewrite B|rewrite C]; ring.
Qed.
Lemma mean_unique ps g g' : Mean3 ps g -> Mean3 ps g' -> same3 g g'.
Proof.
  intros (N & A1 & A2 & A3) (_ & B1 & B2 & B3). assert (P : 0 < inject_Z (Z.of_nat (length ps))).
  { change 0 with (inject_Z 0). rewrite <- Zlt_Qlt. destruct ps; [congruence|cbn [length]; lia]. }
  repeat split; apply (Qmult_inj_l _ _ (inject_Z (Z.of_nat (length ps)))); try lra; intros C; lra.
Qed.
Lemma mean_perm ps ps' g : Permutation ps ps' -> Mean3 ps g -> Mean3 ps' g.
Proof.
  intros P (N & A1 & A2 & A3). unfold Mean3. rewrite <- (Permutation_length P), <- !(sumf_perm _ _ _ P). repeat split; auto.
  intros ->. apply N. apply Permutation_nil. apply Permutation_sym; auto.
Qed.
Lemma face_centroid_ok m fi g : face_centroid m fi = Ok g -> exists f ps, nth_error (faces m) fi = Some f /\ (3 <= length f)%nat /\ Forall2 (pos3 m) f ps /\ Mean3 ps g.
Proof.
  unfold face_centroid. intros H. destruct (fi <? length (faces m))%nat; [|discriminate]. cbn [assert bind] in H.
  destruct (get (faces m) fi) as [f| | |] eqn:F; try discriminate. cbn [bind] in H. apply get_ok in F.
  destruct (3 <=? length f)%nat eqn:L; [|discriminate]. cbn [assert bind] in H. apply Nat.leb_le in L.
  destruct (mfold (fcent_step m) f _) as [[s vs]| | |] eqn:E; try discriminate. cbn [bind] in H.
  destruct (length vs =? 3)%nat; [|discriminate]. cbn [assert bind] in H. injection H as <-.
  destruct (fcent_fold _ _ _ _ _ _ E) as (ps & P & A & B & C). exists f, ps. split; auto. split; auto. split; auto.
  cbn [X3 Y3 Z3] in A, B, C. pose proof (Forall2_len _ _ _ P) as Lp. unfold Mean3. rewrite <- Lp.
  assert (Ps : ~ inject_Z (Z.of_nat (length f)) == 0). { change 0 with (inject_Z 0). rewrite inject_Z_injective. lia. }
  split; [intros ->; cbn in Lp; lia|]. cbn [X3 Y3 Z3]. rewrite !Qmult_div_r by auto. repeat split; [rewrite A|rewrite B|rewrite C]; ring.
Qed.

(* ---- walking one side ---- *)
Definition visits (m : mesh Q) (f : list nat) (down : bool) (i : nat) (e : p3 * p3) : Prop :=
  let nn := length f in
  exists ni nj, nth_error f i = Some ni /\ nth_error f (if down then (i + nn - 1) mod nn else (i + 1) mod nn)%nat = Some nj /\
    pos3 m ni (fst e) /\ pos3 m nj (snd e).
Lemma tet_volume_vol c a b g : tet_volume6 c b a g == vol6 c a b g.
Proof. pts. unfold tet_volume6, dot3, cross3, vol6, det3, sub3, X3, Y3, Z3. ring. Qed.
Lemma tet_fold m c g f down idx es : Forall2 (visits m f down) idx es -> forall s v, exists s' v',
  mfold (tet_step m c g f down) idx (s, v) = Ok (s', v') /\
  v' == v + sumf (fun e => vol6 c (fst e) (snd e) g) es /\
  forall u, coordinate u -> 4 * u s' == 4 * u s + sumf (fun e => vol6 c (fst e) (snd e) g * (u c + u (fst e) + u (snd e) + u g)) es.
Proof.
  induction 1 as [|i e idx es He _ IH]; intros s v; cbn [mfold].
  - exists s, v. split; auto. rewrite sumf_nil. split; [ring|]. intros u _. rewrite sumf_nil. ring.
  - destruct He as (ni & nj & Ei & Ej & Pi & Pj). unfold tet_step at 1. destruct s as [[x y] z].
    unfold get at 1. rewrite Ej. cbn [bind]. unfold get at 1. rewrite Ei. cbn [bind].
    rewrite (proj2 (node3_ok _ _ _) Pj). cbn [bind]. rewrite (proj2 (node3_ok _ _ _) Pi). cbn [bind].
    match goal with |- context [mfold _ idx (?s1, ?v1)] => destruct (IH s1 v1) as (s' & v' & E & Hv & Hu) end.
    exists s', v'. split; auto. split.
    + rewrite Hv, sumf_cons, tet_volume_vol. ring.
    + intros u Cu. rewrite (Hu u Cu), sumf_cons. pose proof (tet_volume_vol c (fst e) (snd e) g) as T.
      destruct Cu as [-> | [-> | ->]]; cbn [X3 Y3 Z3 tet_centroid]; rewrite T; ring.
Qed.

Lemma nth_rev {A} (l : list A) k : (k < length l)%nat -> nth_error (rev l) k = nth_error l (length l - 1 - k).
Proof.
  revert k. induction l as [|a l IH]; intros k H; [cbn in H; lia|]. cbn [rev length] in *.
  destruct (Nat.eq_dec k (length l)) as [->|Ne].
  - rewrite nth_error_app2, rev_length, Nat.sub_diag by (rewrite rev_length; lia). replace (S (length l) - 1 - length l)%nat with 0%nat by lia. reflexivity.
  - rewrite nth_error_app1 by (rewrite rev_length; lia). rewrite IH by lia. replace (S (length l) - 1 - k)%nat with (S (length l - 1 - k)) by lia. reflexivity.
Qed.
Lemma forall2_nth_intro {A B} (R : A -> B -> Prop) l l' : length l = length l' ->
  (forall i a b, nth_error l i = Some a -> nth_error l' i = Some b -> R a b) -> Forall2 R l l'.
Proof.
  revert l'. induction l as [|a l IH]; intros [|b l'] L H; try discriminate; constructor; [apply (H 0%nat); auto|]. apply IH; [cbn in L; lia|]. intros i x y X Y. apply (H (S i)); auto.
Qed.
Lemma ring_length {A} (l : list A) : length (ring l) = length l.
Proof. destruct l; auto. unfold ring. rewrite combine_length, app_length. cbn [length]. lia. Qed.
Lemma visits_ring m f z ps : (0 < length f)%nat -> Forall2 (pos3 m) (if (0 <=? z)%Z then f else rev f) ps ->
  Forall2 (visits m f (z <? 0)%Z) (if (z <? 0)%Z then rev (seq 0 (length f)) else seq 0 (length f)) (ring ps).
Proof.
  intros Lf F. assert (E : (z <? 0)%Z = negb (0 <=? z)%Z) by lia. rewrite E.
  assert (Lp : length ps = length f). { rewrite <- (Forall2_len _ _ _ F). destruct (0 <=? z)%Z; [auto|apply rev_length]. }
  apply forall2_nth_intro.
  { rewrite ring_length, Lp. destruct (0 <=? z)%Z; cbn [negb]; rewrite ?rev_length, seq_length; auto. }
  intros k i e K R. apply ring_nth in R as (A & B & L). rewrite Lp in *.
  destruct (Forall2_nth_r _ _ _ _ _ F A) as (x & X & Px). destruct (Forall2_nth_r _ _ _ _ _ F B) as (y & Y & Py).
  destruct (0 <=? z)%Z; cbn [negb] in K |- *.
  - pose proof (nth_error_nth _ _ 0%nat K) as K'. rewrite seq_nth in K' by auto. cbn in K'. subst i. exists x, y. rewrite Nat.add_1_r. auto.
  - rewrite nth_rev in K by (rewrite seq_length; auto). rewrite seq_length in K. pose proof (nth_error_nth _ _ 0%nat K) as K'. rewrite seq_nth in K' by lia. cbn in K'.
    rewrite nth_rev in X by lia. pose proof (Nat.mod_upper_bound (S k) (length f) ltac:(lia)) as Mb. rewrite nth_rev in Y by lia.
    exists x, y. split; [congruence|]. split; auto. rewrite <- Y. f_equal. subst i.
    destruct (Nat.eq_dec (S k) (length f)) as [Ek|Ek].
    + rewrite Ek, Nat.mod_same by lia. rewrite Nat.mod_small by lia. lia.
    + rewrite (Nat.mod_small (S k)) by lia. replace (length f - 1 - k + length f - 1)%nat with ((length f - 1 - S k) + 1 * length f)%nat by lia.
      rewrite Nat.mod_add by lia. rewrite Nat.mod_small by lia. lia.
Qed.

Definition side_of (m : mesh Q) (z : Z) (s : list p3 * p3) : Prop :=
  exists f, nth_error (faces m) (pid z) = Some f /\ Forall2 (pos3 m) (if (0 <=? z)%Z then f else rev f) (fst s) /\ Mean3 (fst s) (snd s).
Definition side_tris (s : list p3 * p3) : list tri3 := map (fun e => (fst e, snd e, snd s)) (ring (fst s)).
Lemma forall2_fun {A B} (R : A -> B -> Prop) (HR : forall a b b', R a b -> R a b' -> b = b') l l1 l2 : Forall2 R l l1 -> Forall2 R l l2 -> l1 = l2.
Proof. intros H. revert l2. induction H as [|a b l l1 Hab _ IH]; intros l2 H2; inversion H2; subst; auto. f_equal; eauto. Qed.

Lemma volume_step_ok m c st z st' s : side_of m z s -> volume_step m c st z = Ok st' ->
  snd st' == snd st + sumf (phi c) (side_tris s) /\ forall u, coordinate u -> 4 * u (fst st') == 4 * u (fst st) + sumf (mom u c) (side_tris s).
Proof.
  intros (f & F & P & M) H. unfold volume_step, get in H. rewrite F in H. cbn [bind] in H.
  destruct (face_centroid m (pid z)) as [g| | |] eqn:G; try discriminate. cbn [bind] in H.
  apply face_centroid_ok in G as (f' & ps & F' & L & Pf & Mf). assert (f' = f) by congruence. subst f'.
  assert (Pm : Permutation ps (fst s)).
  { destruct (0 <=? z)%Z.
    - rewrite (forall2_fun _ (pos3_fun m) _ _ _ Pf P). auto.
    - assert (X : Forall2 (pos3 m) (rev f) (rev ps)).
      { clear - Pf. induction Pf; cbn; auto. apply Forall2_app; auto. }
      rewrite <- (forall2_fun _ (pos3_fun m) _ _ _ X P). apply Permutation_rev. }
  assert (Eg : same3 g (snd s)) by (eapply mean_unique; [eapply mean_perm; eauto|auto]).
  destruct st as [s0 v0]. destruct (tet_fold m c g f (z <? 0)%Z _ _ (visits_ring m f z (fst s) ltac:(lia) P) s0 v0) as (s1 & v1 & E & Hv & Hu).
  rewrite E in H. injection H as <-. cbn [fst snd]. unfold side_tris. rewrite sumf_map. split.
  - rewrite Hv. apply Qplus_comp; [reflexivity|]. apply sumf_ext. intros e _. cbn [phi]. apply vol_ext; auto.
  - intros u Cu. rewrite (Hu u Cu), sumf_map. apply Qplus_comp; [reflexivity|]. apply sumf_ext. intros e _. cbn [mom].
    rewrite (vol_ext _ _ _ _ _ Eg), (coordinate_ext u _ _ Cu Eg). reflexivity.
Qed.
Lemma volume_fold m c cs sides : Forall2 (side_of m) cs sides -> forall st st', mfold (volume_step m c) cs st = Ok st' ->
  snd st' == snd st + sumf (phi c) (surface sides) /\ forall u, coordinate u -> 4 * u (fst st') == 4 * u (fst st) + sumf (mom u c) (surface sides).
Proof.
  induction 1 as [|z s cs sides Hs _ IH]; intros st st' E; cbn [mfold] in E.
  - injection E as <-. unfold surface. cbn [flat_map]. split; [rewrite sumf_nil; ring|]. intros u _. rewrite sumf_nil. ring.
  - destruct (volume_step m c st z) as [st1| | |] eqn:E1; try discriminate. cbn [bind] in E.
    destruct (volume_step_ok _ _ _ _ _ _ Hs E1) as [A1 B1]. destruct (IH _ _ E) as [A2 B2].
    change (surface (s :: sides)) with (side_tris s ++ surface sides). split.
    + rewrite sumf_app, A2, A1. ring.
    + intros u Cu. rewrite sumf_app, (B2 u Cu), (B1 u Cu). ring.
Qed.
Lemma cell_volume_sums m ci sides g v : CellSides m ci sides -> cell_volume m ci = Ok (g, v) ->
  ~ v == 0 /\ exists c, 6 * v == sumf (phi c) (surface sides) /\ forall u, coordinate u -> 24 * v * u g == sumf (mom u c) (surface sides).
Proof.
  intros (cs & C & F) H. unfold cell_volume, get in H. rewrite C in H. destruct (ci <? length (cells m))%nat; [|discriminate]. cbn [assert bind] in H.
  destruct (cell_centroid 3 m ci) as [cm| | |]; try discriminate. cbn [bind] in H.
  match type of H with context [mfold (volume_step m ?x)] => set (c := x) in * end.
  destruct (mfold (volume_step m c) cs (0, 0, 0, 0)) as [[s w]| | |] eqn:E; try discriminate. cbn [bind] in H.
  destruct (Qeq_bool w 0) eqn:W; [discriminate|]. cbn [negb assert bind] in H. apply Qeq_bool_neq in W.
  destruct (volume_fold m c cs sides F _ _ E) as [A B]. cbn [fst snd] in *.
  assert (Ev : v == w * (1 # 6)) by (injection H as _ <-; unfold Qdiv; reflexivity).
  assert (Eg : X3 g = X3 s / w /\ Y3 g = Y3 s / w /\ Z3 g = Z3 s / w) by (injection H as <- _; auto).
  split; [intros Z; apply W; lra|]. exists c. split; [lra|]. intros u Cu. pose proof (B u Cu) as Bu.
  assert (u (0, 0, 0) == 0) as U0 by (destruct Cu as [-> | [-> | ->]]; reflexivity).
  assert (Eu : u g = u s / w) by (destruct Cu as [-> | [-> | ->]]; tauto). rewrite Eu, Ev.
  setoid_replace (24 * (w * (1 # 6)) * (u s / w)) with (4 * (w * (u s / w))) by ring. rewrite Qmult_div_r by auto. rewrite Bu, U0. ring.
Qed.

Lemma volume_tets m ci sides g v ts : CellSides m ci sides -> cell_volume m ci = Ok (g, v) -> SameTriangles (flat_map tet_faces ts) (surface sides) ->
  6 * v == sumf tvol ts /\ forall u, coordinate u -> 24 * v * u g == sumf (fun t => tvol t * tsum u t) ts.
Proof.
  intros S E T. destruct (cell_volume_sums _ _ _ _ _ S E) as (_ & c & A & B). split.
  - rewrite A, <- (same_triangles_sum (phi c) (phi_swap c) (phi_turn c) _ _ T), sumf_flat. apply sumf_ext. intros t _. apply tet_phi.
  - intros u Cu. rewrite (B u Cu), <- (same_triangles_sum (mom u c) (mom_swap u c) (mom_turn u c) _ _ T), sumf_flat. apply sumf_ext. intros t _. apply tet_mom. auto.
Qed.

(* closed surfaces: any apex *)
Lemma apex_sum (F F' : tri3 -> Q) (G : p3 * p3 -> Q) sides :
  (forall a b c, F (a, b, c) == F' (a, b, c) + (G (a, b) + G (b, c) + G (c, a))) -> (forall a b, G (b, a) == - G (a, b)) ->
  SameEdges (flat_map (fun s => ring (fst s)) sides) [] -> sumf F (surface sides) == sumf F' (surface sides).
Proof.
  intros HF HG C. assert (Z : sumf G (flat_map (fun s : list p3 * p3 => ring (fst s)) sides) == 0) by (rewrite (same_edges_sum G HG _ _ C); reflexivity).
  assert (X : sumf F (surface sides) == sumf F' (surface sides) + sumf G (flat_map (fun s : list p3 * p3 => ring (fst s)) sides)); [|lra].
  clear C Z. induction sides as [|s sides IH]; [cbn; ring|].
  change (surface (s :: sides)) with (side_tris s ++ surface sides). cbn [flat_map]. rewrite !sumf_app, IH.
  assert (Y : sumf F (side_tris s) == sumf F' (side_tris s) + sumf G (ring (fst s))); [|lra].
  unfold side_tris. rewrite !sumf_map. pose proof (ring_heads (fun p => G (p, snd s)) (fst s)) as R.
  assert (W : sumf (fun e => F (fst e, snd e, snd s)) (ring (fst s)) ==
     sumf (fun e => (F' (fst e, snd e, snd s) + G e) + ((fun e => G (snd e, snd s)) e + -(1) * (fun e => G (fst e, snd s)) e)) (ring (fst s))).
  { apply sumf_ext. intros [a b] _. cbn [fst snd]. rewrite HF, (HG (snd s) a) by auto.
    pose proof (HG a (snd s)). rewrite (HG a (snd s)). ring. }
  rewrite W, !sumf_plus, sumf_scale. cbv beta in *. rewrite R. ring.
Qed.
Lemma volume_apex m ci sides g v o : CellSides m ci sides -> SameEdges (flat_map (fun s => ring (fst s)) sides) [] -> cell_volume m ci = Ok (g, v) ->
  6 * v == sumf (phi o) (surface sides) /\ forall u, coordinate u -> 24 * v * u g == sumf (mom u o) (surface sides).
Proof.
  intros S C E. destruct (cell_volume_sums _ _ _ _ _ S E) as (_ & c & A & B). split.
  - rewrite A. apply (apex_sum _ _ (psi c o)); auto; [intros; apply apex_phi|intros; apply psi_anti].
  - intros u Cu. rewrite (B u Cu). apply (apex_sum _ _ (psm u c o)); auto; [intros; apply apex_mom; auto|intros; apply psm_anti].
Qed.
