From Verif Require Import Base BaseFacts SerializeModel Plane PlaneFacts MeshEditorModel AreaProofs WithinSpec HullSpec RayModel RaySpec RayProofs NearProofs2.
From Coq Require Import QArith Qabs ZArith Lia Lqa.
Import RayModel.
Local Open Scope Q_scope.

Lemma sqq (x : Q) : 0 <= x * x.
Proof. nra. Qed.
Lemma dotl_cons x u y v : dotl (x :: u) (y :: v) == x * y + dotl u v.
Proof. unfold dotl. cbn [combine]. rewrite sumf_cons. reflexivity. Qed.
Lemma dotl_nn u : 0 <= dotl u u.
Proof. induction u as [|x u IH]; [unfold dotl; cbn; lra|]. rewrite dotl_cons. pose proof (sqq x). lra. Qed.
Lemma sq_dist_cons x u y v : sq_dist (x :: u) (y :: v) == (x - y) * (x - y) + sq_dist u v.
Proof. unfold sq_dist. cbn [combine]. rewrite sumf_cons. reflexivity. Qed.
Lemma sq_dist_nn u : forall v, 0 <= sq_dist u v.
Proof. induction u as [|x u IH]; intros [|y v]; try (unfold sq_dist; cbn; lra). rewrite sq_dist_cons. pose proof (IH v). pose proof (sqq (x - y)). lra. Qed.
Lemma sub_dist a : forall b, length a = length b -> dotl (zipsub b a) (zipsub b a) == sq_dist a b.
Proof.
  induction a as [|x a IH]; intros [|y b] L; try discriminate; [reflexivity|]. cbn [zipsub combine map fst snd]. change (map _ (combine b a)) with (zipsub b a). rewrite dotl_cons, sq_dist_cons, IH by (cbn in L; lia). ring.
Qed.
Lemma along_dist a : forall b c t, length a = length b -> length a = length c ->
  sq_dist c (pos_at a b t) == dotl (zipsub c a) (zipsub c a) - 2 * t * dotl (zipsub b a) (zipsub c a) + t * t * dotl (zipsub b a) (zipsub b a).
Proof.
  induction a as [|x a IH]; intros [|y b] [|z c] t L L'; try discriminate; [unfold sq_dist, dotl; cbn; ring|].
  cbn [zipsub pos_at combine map fst snd]. change (map _ (combine b a)) with (zipsub b a). change (map _ (combine c a)) with (zipsub c a). change (map _ (combine a b)) with (pos_at a b t).
  rewrite !dotl_cons, sq_dist_cons, (IH b c t) by (cbn in L, L'; lia). ring.
Qed.
Lemma between_sound a b c tol : length a = length b -> length a = length c -> 0 <= tol -> between a b c tol = true ->
  sq_dist a c <= tol * sq_dist a b \/ sq_dist b c <= tol * sq_dist a b \/ exists t, 0 < t /\ t <= 1 /\ sq_dist c (pos_at a b t) < tol.
Proof.
  intros L L' T. unfold between. cbv zeta. set (ab2 := dotl (zipsub b a) (zipsub b a)). set (ac2 := dotl (zipsub c a) (zipsub c a)). set (bc2 := dotl (zipsub c b) (zipsub c b)). set (th := dotl (zipsub b a) (zipsub c a)).
  assert (E1 : ab2 == sq_dist a b) by (apply sub_dist; auto). assert (E2 : ac2 == sq_dist a c) by (apply sub_dist; auto). assert (E3 : bc2 == sq_dist b c) by (apply sub_dist; lia).
  destruct (Qle_bool (if Qlt_bool bc2 ac2 then bc2 else ac2) (tol * ab2)) eqn:M.
  - intros _. apply qle_b in M. destruct (Qlt_bool bc2 ac2); [right; left|left]; rewrite <- E1; lra.
  - destruct (Qle_bool ab2 tol) eqn:S0; [discriminate|]. assert (P : tol < ab2) by (apply Qnot_le_lt; intros C; apply qle_b in C; congruence). intros H.
    apply andb_true_iff in H as [H H3]. apply andb_true_iff in H as [H1 H2]. apply qlt_bool_iff in H1, H2. apply qle_b in H3. right. right.
    assert (Pab : 0 < ab2) by lra. exists (th / ab2). set (t := th / ab2). assert (Et : t * ab2 == th) by (unfold t; field; lra).
    assert (D : sq_dist c (pos_at a b t) == ac2 - t * t * ab2). { rewrite along_dist by auto. fold ac2 ab2 th. rewrite <- Et. ring. }
    pose proof (sq_dist_nn c (pos_at a b t)) as NN. rewrite D in NN. assert (Tp : 0 < t) by (apply Qlt_shift_div_l; lra).
    split; auto. split; [nra|]. rewrite D. assert (E : ab2 * (ac2 - t * t * ab2) == - (th * th - ab2 * ac2)) by (rewrite <- Et; ring).
    apply Qabs_Qlt_condition in H2 as [H2 _]. set (w := ac2 - t * t * ab2) in *. assert (ab2 * w < ab2 * tol) by lra. apply Qmult_lt_l in H; auto.
Qed.
Lemma between_complete a b c t tol : length a = length b -> length a = length c -> 0 < tol -> tol < sq_dist a b -> 0 <= t -> t <= 1 -> sq_dist c (pos_at a b t) == 0 -> between a b c tol = true.
Proof.
  intros L L' T Lg T0 T1 On. unfold between. cbv zeta. set (ab2 := dotl (zipsub b a) (zipsub b a)). set (ac2 := dotl (zipsub c a) (zipsub c a)). set (bc2 := dotl (zipsub c b) (zipsub c b)). set (th := dotl (zipsub b a) (zipsub c a)).
  assert (E1 : ab2 == sq_dist a b) by (apply sub_dist; auto). rewrite <- E1 in Lg.
  assert (Z : ac2 == t * t * ab2 /\ th == t * ab2).
  { (* c - a - t (b - a) has every component zero *)
    assert (G : forall a b c, length a = length b -> length a = length c -> sq_dist c (pos_at a b t) == 0 -> dotl (zipsub c a) (zipsub c a) == t * t * dotl (zipsub b a) (zipsub b a) /\ dotl (zipsub b a) (zipsub c a) == t * dotl (zipsub b a) (zipsub b a)).
    { clear. induction a as [|x a IH]; intros [|y b] [|z c] L L' H; try discriminate; [unfold dotl; cbn; split; ring|].
      cbn [zipsub pos_at combine map fst snd] in *. change (map _ (combine b a)) with (zipsub b a). change (map _ (combine c a)) with (zipsub c a). change (map _ (combine a b)) with (pos_at a b t) in H.
      rewrite sq_dist_cons in H. pose proof (sq_dist_nn c (pos_at a b t)) as NN. set (w := z - (x + t * (y - x))) in *. assert (W : w * w == 0) by (pose proof (sqq w); lra). assert (W0 : w == 0) by (apply Qmult_integral in W; tauto).
      destruct (IH b c) as [A B]; [cbn in L; lia|cbn in L'; lia|lra|]. assert (Ez : z - x == t * (y - x)) by (unfold w in W0; lra). rewrite !dotl_cons, A, B, Ez. split; ring. }
    apply G; auto. }
  destruct Z as [Ac Th]. destruct (Qle_bool (if Qlt_bool bc2 ac2 then bc2 else ac2) (tol * ab2)) eqn:M; auto.
  destruct (Qle_bool ab2 tol) eqn:S0; [apply qle_b in S0; lra|].
  assert (Tp : 0 < t). { destruct (Qlt_le_dec 0 t); auto. assert (t == 0) by lra. exfalso. apply not_true_iff_false in M. apply M. apply qle_b. assert (A0 : ac2 == 0) by (rewrite Ac, H; ring). assert (0 < tol * ab2) by (apply Qmult_lt_0_compat; lra).
    destruct (Qlt_bool bc2 ac2) eqn:C; [apply qlt_bool_iff in C|]; lra. }
  repeat (apply andb_true_intro; split).
  - apply qlt_bool_iff. rewrite Th. apply Qmult_lt_0_compat; lra.
  - apply qlt_bool_iff. setoid_replace (th * th - ab2 * ac2) with 0 by (rewrite Ac, Th; ring). change (Qabs 0) with 0. apply Qmult_lt_0_compat; lra.
  - apply qle_b. rewrite Ac. assert (t * t <= 1) by nra. assert (0 <= (1 - t * t) * ab2) by (apply Qmult_le_0_compat; lra). lra.
Qed.

(* ---- clouds ---- *)
Lemma collinear_line a b c s tol : length a = length b -> length a = length c -> 0 < tol -> sq_dist c (pos_at a b s) == 0 -> collinear_pts a b c tol = true.
Proof.
  intros L L' T On. unfold collinear_pts. cbv zeta. set (ab2 := dotl (zipsub b a) (zipsub b a)). set (ac2 := dotl (zipsub c a) (zipsub c a)). set (d := dotl (zipsub b a) (zipsub c a)).
  destruct (Qlt_bool ab2 tol) eqn:U; auto. destruct (Qlt_bool ac2 tol) eqn:V; auto. cbn [orb]. destruct (Qlt_bool 1 tol) eqn:O; auto. cbn [orb]. apply andb_true_intro. split; apply qlt_bool_iff; auto.
  assert (Lu : tol <= ab2) by (apply Qnot_lt_le; intros C; apply qlt_bool_iff in C; congruence). assert (Lv : tol <= ac2) by (apply Qnot_lt_le; intros C; apply qlt_bool_iff in C; congruence). assert (Lo : tol <= 1) by (apply Qnot_lt_le; intros C; apply qlt_bool_iff in C; congruence).
  assert (G : forall a b c, length a = length b -> length a = length c -> sq_dist c (pos_at a b s) == 0 -> dotl (zipsub c a) (zipsub c a) == s * s * dotl (zipsub b a) (zipsub b a) /\ dotl (zipsub b a) (zipsub c a) == s * dotl (zipsub b a) (zipsub b a)).
  { clear. induction a as [|x a IH]; intros [|y b] [|z c] L L' H; try discriminate; [unfold dotl; cbn; split; ring|].
    cbn [zipsub pos_at combine map fst snd] in *. change (map _ (combine b a)) with (zipsub b a). change (map _ (combine c a)) with (zipsub c a). change (map _ (combine a b)) with (pos_at a b s) in H.
    rewrite sq_dist_cons in H. pose proof (sq_dist_nn c (pos_at a b s)) as NN. set (w := z - (x + s * (y - x))) in *. assert (W : w * w == 0) by (pose proof (sqq w); lra). assert (W0 : w == 0) by (apply Qmult_integral in W; tauto).
    destruct (IH b c) as [A B]; [cbn in L; lia|cbn in L'; lia|lra|]. assert (Ez : z - x == s * (y - x)) by (unfold w in W0; lra). rewrite !dotl_cons, A, B, Ez. split; ring. }
  destruct (G a b c L L' On) as [A B]. fold ab2 ac2 d in A, B. assert (I : d * d == ab2 * ac2) by (rewrite A, B; ring). assert (W : 0 < ab2 * ac2) by (apply Qmult_lt_0_compat; lra). set (w := ab2 * ac2) in *.
  assert (Tt : 0 < tol * (2 - tol)) by nra. set (t := tol * (2 - tol)) in *. assert (Tw : 0 < t * w) by (apply Qmult_lt_0_compat; lra). assert (E : (1 - tol) * (1 - tol) * w == w - t * w) by (unfold t; ring). lra.
Qed.
Lemma collinear_bent a b c tol : length a = length b -> length a = length c -> 0 < tol -> tol <= 1 -> tol <= sq_dist a b -> tol <= sq_dist a c ->
  dotl (zipsub b a) (zipsub c a) * dotl (zipsub b a) (zipsub c a) <= (1 - tol) * (1 - tol) * (sq_dist a b * sq_dist a c) -> collinear_pts a b c tol = false.
Proof.
  intros L L' T T1 A B D. unfold collinear_pts. cbv zeta. rewrite <- (sub_dist a b L), <- (sub_dist a c L') in D. rewrite <- (sub_dist a b L) in A. rewrite <- (sub_dist a c L') in B.
  assert (Q : forall x y, y <= x -> Qlt_bool x y = false). { intros x y H. apply not_true_is_false. intros C. apply qlt_bool_iff in C. lra. }
  rewrite (Q _ _ A), (Q _ _ B), (Q _ _ T1), (Q _ _ D). cbn [orb]. apply andb_false_r.
Qed.
Lemma cloud2 pts tol a b : nth_error pts 0 = Some a -> nth_error pts 1 = Some b -> collinear_cloud 2 pts tol = Ok (forallb (fun c => collinear_pts a b c tol) (skipn 2 pts)).
Proof.
  intros A B. pose proof (nth_error_lt _ _ _ B) as L. unfold collinear_cloud. destruct (Nat.ltb_spec 1 (length pts)); [|lia]. destruct (Nat.ltb_spec (length pts) 2); [lia|].
  assert (G : forall l k ok, skipn k pts = l -> mfold (fun ok i => if ok : bool then do a <- get pts 0; do b <- get pts 1; do c <- get pts i; Ok (collinear_pts a b c tol) else Ok false) (seq k (length l)) ok = Ok (ok && forallb (fun c => collinear_pts a b c tol) l)).
  { induction l as [|c l IH]; intros k ok E; [cbn; rewrite andb_true_r; auto|]. cbn [length seq mfold]. 
    assert (Ec : nth_error pts k = Some c). { clear - E. revert k E. induction pts as [|p pts' IH]; intros [|k] E; try discriminate; cbn in *; [injection E as <-; auto|auto]. }
    assert (Es : skipn (S k) pts = l). { clear - E. revert k E. induction pts as [|p pts' IH]; intros [|k] E; try discriminate; cbn in *; [congruence|]. apply IH. auto. }
    destruct ok; cbn [andb forallb].
    - unfold get at 1 2 3. rewrite A, B, Ec. cbn [bind]. rewrite IH; auto.
    - cbn [bind]. rewrite IH; auto. }
  replace (length pts - 2)%nat with (length (skipn 2 pts)) by (rewrite skipn_length; auto). rewrite (G (skipn 2 pts) 2%nat true); auto.
Qed.

(* ---- crossings of a boundary ---- *)
Definition hits (q1 q2 : p2) (vs : list Q) (f : list Z) (p : p2) : Prop :=
  exists i j a b, f = [i; j] /\ vertex2 vs i = Ok a /\ vertex2 vs j = Ok b /\ segmentIntersection2D q1 q2 a b seg_tol = Some p.
Lemma facets_sound q1 q2 vs fs r k r' : intersect_facets q1 q2 vs fs r = Ok (k, r') -> exists new, r' = r ++ new /\ k = length new /\ (forall p, In p new -> exists f, In f fs /\ hits q1 q2 vs f p) /\
  ((exists f p, In f fs /\ hits q1 q2 vs f p) -> (0 < k)%nat).
Proof.
  unfold intersect_facets. intros H.
  apply (mfold_hoare _ (fun l (st : nat * list p2) => exists new, snd st = r ++ new /\ fst st = length new /\ (forall p, In p new -> exists f, In f l /\ hits q1 q2 vs f p) /\ ((exists f p, In f l /\ hits q1 q2 vs f p) -> (0 < fst st)%nat))) in H; auto.
  - exists []. cbn. rewrite app_nil_r. split; auto. split; auto. split; [intros p []|intros (f & p & [] & _)].
  - clear. intros l1 f l2 [k s] st' _ (new & E & K & S1 & S2) H. cbn [fst snd] in *. unfold intersect_facet in H. destruct f as [|i [|j [|]]]; try discriminate.
    destruct (vertex2 vs i) as [a| | |] eqn:A; try discriminate. cbn [bind] in H. destruct (vertex2 vs j) as [b| | |] eqn:B; try discriminate. cbn [bind] in H.
    assert (Mono : forall p, In p new -> exists f, In f (l1 ++ [[i; j]]) /\ hits q1 q2 vs f p). { intros p I. destruct (S1 p I) as (f & If & Hf). exists f. split; auto. apply in_or_app. auto. }
    destruct (segmentIntersection2D q1 q2 a b seg_tol) as [p|] eqn:P.
    + assert (Hp : hits q1 q2 vs [i; j] p) by (exists i, j, a, b; auto). destruct (Nat.eqb_spec k 0) as [->|Nk].
      * cbn [bind] in H. injection H as <-. exists (new ++ [p]). cbn [fst snd]. split; [rewrite E, app_assoc; auto|]. split; [rewrite app_length; cbn; lia|]. split; [|intros; lia].
        intros q I. apply in_app_or in I as [I|[<-|[]]]; auto. exists [i; j]. split; auto. apply in_or_app. right. left. auto.
      * destruct (get s (length s - 1)) as [l| | |] eqn:G; try discriminate. cbn [bind] in H. destruct (negb _ && negb _); injection H as <-; cbn [fst snd].
        -- exists (new ++ [p]). split; [rewrite E, app_assoc; auto|]. split; [rewrite app_length; cbn; lia|]. split; [|intros; lia].
           intros q I. apply in_app_or in I as [I|[<-|[]]]; auto. exists [i; j]. split; auto. apply in_or_app. right. left. auto.
        -- exists new. split; auto. split; auto. split; auto. intros; lia.
    + injection H as <-. exists new. cbn [fst snd]. split; auto. split; auto. split; auto. intros (f & p & I & Hf). apply in_app_or in I as [I|[<-|[]]]; [apply S2; eauto|].
      destruct Hf as (i' & j' & a' & b' & [= <- <-] & A' & B' & P'). rewrite A in A'. rewrite B in B'. injection A' as <-. injection B' as <-. congruence.
Qed.
Definition all_facets (g : plc) : list (list Z) := facets g ++ concat (holes g).
Lemma intersect_sound q1 q2 vs g k r : intersect q1 q2 vs g [] = Ok (k, r) -> k = length r /\ (forall p, In p r -> exists f, In f (all_facets g) /\ hits q1 q2 vs f p) /\
  (k = 0%nat <-> forall f p, In f (all_facets g) -> ~ hits q1 q2 vs f p).
Proof.
  unfold intersect. destruct (intersect_facets q1 q2 vs (facets g) []) as [[k0 r0]| | |] eqn:F; try discriminate. cbn [bind]. intros H.
  destruct (facets_sound _ _ _ _ _ _ _ F) as (new & E & K & S1 & S2). cbn in E. subst r0.
  apply (mfold_hoare _ (fun l (st : nat * list p2) => fst st = length (snd st) /\ (forall p, In p (snd st) -> exists f, In f (facets g ++ concat l) /\ hits q1 q2 vs f p) /\ ((exists f p, In f (facets g ++ concat l) /\ hits q1 q2 vs f p) -> (0 < fst st)%nat))) in H.
  - cbn [fst snd] in H. destruct H as (A & B & C). split; auto. split; auto. split.
    + intros Z f p I Hp. assert (0 < k)%nat by (apply C; eauto). lia.
    + intros N. destruct r as [|p r]; [auto|]. destruct (B p) as (f & I & Hp); [left; auto|]. exfalso. apply (N f p I Hp).
  - cbn [fst snd concat]. rewrite app_nil_r. split; auto.
  - clear. intros l1 h l2 [k s] st' _ (A & B & C) H. cbn [fst snd] in *. destruct (intersect_facets q1 q2 vs h s) as [[k1 r1]| | |] eqn:F; try discriminate. cbn [bind fst snd] in H. injection H as <-. cbn [fst snd].
    destruct (facets_sound _ _ _ _ _ _ _ F) as (new & -> & K & S1 & S2). rewrite app_length. split; [lia|]. rewrite concat_app. cbn [concat]. rewrite app_nil_r. split.
    + intros p I. apply in_app_or in I as [I|I]; [destruct (B p I) as (f & If & Hf)|destruct (S1 p I) as (f & If & Hf)]; exists f; (split; auto); rewrite app_assoc; apply in_or_app; auto.
    + intros (f & p & I & Hf). rewrite app_assoc in I. apply in_app_or in I as [I|I]; [assert (0 < k)%nat by (apply C; eauto)|assert (0 < k1)%nat by (apply S2; eauto)]; lia.
Qed.
