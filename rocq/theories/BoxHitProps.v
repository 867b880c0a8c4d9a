(* C107: where a segment meets a bounding box. *)
From Verif Require Import Base BaseFacts SerializeModel Plane PlaneFacts MeshEditorModel AreaProofs WithinSpec HullSpec RayModel RaySpec RayProofs RayProofs2 RayProps BoxHitModel BoxHitSpec.
From Coq Require Import QArith Qabs ZArith Lia Lqa Sorted.
Local Open Scope Q_scope.

Definition onto (lo hi : p2) (f : nat) (r : p2) : p2 :=
  match f with 0%nat => (fst r, snd lo) | 1%nat => (fst hi, snd r) | 2%nat => (fst r, snd hi) | _ => (fst lo, snd r) end.
Definition meet (q1 q2 lo hi : p2) (f : nat) : option p2 := segmentIntersection2D q1 q2 (fst (side lo hi f)) (snd (side lo hi f)) seg_tol.
(* the test against the last point *)
Definition kept (tol : Q) (ps : list p2) (p : p2) : bool :=
  match rev ps with [] => true | l :: _ => Qlt_bool tol (Qabs (fst p - (snd l - 1))) && Qlt_bool tol (Qabs (snd p - snd l)) end.

Lemma flat_app ps qs : flat (ps ++ qs) = flat ps ++ flat qs.
Proof. unfold flat. rewrite map_app, concat_app. reflexivity. Qed.
Lemma flat_len ps : length (flat ps) = (2 * length ps)%nat.
Proof. induction ps; cbn; auto. unfold flat in IHps. rewrite IHps. lia. Qed.
Lemma step_box q1 q2 lo hi tol f fs ps : (f < 4)%nat -> length fs = length ps ->
  box_hit q1 q2 4 (flat (corners lo hi)) sides tol (length fs, fs, flat ps) f =
  Ok (match meet q1 q2 lo hi f with
      | None => (length fs, fs, flat ps)
      | Some r => if kept tol ps (onto lo hi f r) then (S (length fs), fs ++ [f], flat (ps ++ [onto lo hi f r])) else (length fs, fs, flat ps)
      end).
Proof.
  intros F L.
  assert (G : forall p : p2, (do add <- (if (length fs =? 0)%nat then Ok true else do l <- get (flat ps) (length (flat ps) - 1); Ok (Qlt_bool tol (Qabs (fst p - (l - 1))) && Qlt_bool tol (Qabs (snd p - l))));
      Ok (if add : bool then (S (length fs), fs ++ [f], flat ps ++ [fst p; snd p]) else (length fs, fs, flat ps))) = Ok (if kept tol ps p then (S (length fs), fs ++ [f], flat (ps ++ [p])) else (length fs, fs, flat ps))).
  { intros p. unfold kept. rewrite L, flat_app. destruct (rev ps) as [|l t] eqn:E.
    - assert (ps = []) by (rewrite <- (rev_involutive ps), E; auto). subst ps. reflexivity.
    - assert (Ep : ps = rev t ++ [l]) by (rewrite <- (rev_involutive ps), E; auto). assert (NZ : (length ps =? 0)%nat = false) by (rewrite Ep, app_length; cbn; apply Nat.eqb_neq; lia). rewrite NZ.
      assert (G : get (flat ps) (length (flat ps) - 1) = Ok (snd l)). { apply get_ok. rewrite Ep, flat_app, app_length. cbn [flat map concat app length]. replace (length (flat (rev t)) + 2 - 1)%nat with (length (flat (rev t)) + 1)%nat by lia. rewrite nth_error_app2 by lia. replace (length (flat (rev t)) + 1 - length (flat (rev t)))%nat with 1%nat by lia. reflexivity. }
      rewrite G. reflexivity. }
  destruct lo as [lx ly], hi as [hx hy].
  set (vs := flat (corners (lx, ly) (hx, hy))).
  assert (V0 : vertex2 vs 0 = Ok (lx, ly)) by reflexivity. assert (V1 : vertex2 vs 1 = Ok (hx, ly)) by reflexivity. assert (V2 : vertex2 vs 2 = Ok (hx, hy)) by reflexivity. assert (V3 : vertex2 vs 3 = Ok (lx, hy)) by reflexivity.
  unfold box_hit, meet. destruct f as [|[|[|[|f]]]]; [| | | |lia].
  - change (get sides 0) with (Ok [0; 1]%Z). cbn [bind]. change (stored 0 4) with true. change (stored 1 4) with true. cbn [assert bind]. rewrite V0, V1. cbn [bind side fst snd]. destruct (segmentIntersection2D _ _ _ _ _) as [r|]; [|reflexivity]. change (side_point vs 0 r) with (Ok (fst r, ly)). cbn [bind onto]. apply G.
  - change (get sides 1) with (Ok [1; 2]%Z). cbn [bind]. change (stored 1 4) with true. change (stored 2 4) with true. cbn [assert bind]. rewrite V1, V2. cbn [bind side fst snd]. destruct (segmentIntersection2D _ _ _ _ _) as [r|]; [|reflexivity]. change (side_point vs 1 r) with (Ok (hx, snd r)). cbn [bind onto]. apply G.
  - change (get sides 2) with (Ok [2; 3]%Z). cbn [bind]. change (stored 2 4) with true. change (stored 3 4) with true. cbn [assert bind]. rewrite V2, V3. cbn [bind side fst snd]. destruct (segmentIntersection2D _ _ _ _ _) as [r|]; [|reflexivity]. change (side_point vs 2 r) with (Ok (fst r, hy)). cbn [bind onto]. apply G.
  - change (get sides 3) with (Ok [3; 0]%Z). cbn [bind]. change (stored 3 4) with true. change (stored 0 4) with true. cbn [assert bind]. rewrite V3, V0. cbn [bind side fst snd]. destruct (segmentIntersection2D _ _ _ _ _) as [r|]; [|reflexivity]. change (side_point vs 3 r) with (Ok (lx, snd r)). cbn [bind onto]. apply G.
Qed.
Lemma near_part x y t : 0 <= t -> x * x + y * y <= t -> x * x <= t /\ y * y <= t.
Proof. intros T H. pose proof (sqq x). pose proof (sqq y). split; lra. Qed.
Lemma onto_hit q1 q2 lo hi f r : (f < 4)%nat -> meet q1 q2 lo hi f = Some r -> HitAt seg_tol q1 q2 lo hi f (onto lo hi f r).
Proof.
  intros F H. split; [destruct f as [|[|[|[|f]]]]; try lia; reflexivity|]. split; [apply segments_meet; eauto|]. apply segments_point in H; [|unfold seg_tol; discriminate].
  destruct H as (s & u & M & S1 & S2 & D). exists s, u. split; auto. split; auto. split; auto.
  set (c := fst (side lo hi f)) in *. set (d := snd (side lo hi f)) in *.
  assert (E : dist2 (onto lo hi f r) (along c d u) <= dist2 r (along c d u)).
  { pose proof (sqq (fst r - fst (along c d u))) as A. pose proof (sqq (snd r - snd (along c d u))) as B. unfold dist2.
    destruct f as [|[|[|[|f]]]]; [| | | |lia]; unfold c, d, along in *; cbn [side onto fst snd] in *;
      match goal with |- ?x * ?x + ?y * ?y <= _ => first [setoid_replace y with 0 by ring|setoid_replace x with 0 by ring] end; lra. }
  assert (E' : dist2 (onto lo hi f r) (along q1 q2 s) <= dist2 r (along q1 q2 s)).
  { destruct M as [M1 M2]. unfold dist2 in *. rewrite M1, M2. exact E. }
  destruct D as [D|D]; [left|right]; lra.
Qed.
Lemma touched q1 q2 lo hi f : Touches seg_tol q1 q2 lo hi f <-> exists r, meet q1 q2 lo hi f = Some r.
Proof. symmetry. apply segments_meet. Qed.

(* The sides found so far. *)
Definition Found (tol : Q) (q1 q2 lo hi : p2) (j : nat) (st : nat * list nat * list Q) : Prop :=
  exists fs ps, st = (length fs, fs, flat ps) /\ Forall2 (HitAt seg_tol q1 q2 lo hi) fs ps /\ (forall f, In f fs -> (f < j)%nat) /\ StronglySorted lt fs /\
    (fs = [] <-> forall f, (f < j)%nat -> ~ Touches seg_tol q1 q2 lo hi f) /\
    (forall i p p', nth_error ps i = Some p -> nth_error ps (S i) = Some p' -> tol < Qabs (snd p' - snd p)) /\
    ((forall f g p p', (f < g)%nat -> (g < 4)%nat -> HitAt seg_tol q1 q2 lo hi f p -> HitAt seg_tol q1 q2 lo hi g p' -> tol < Qabs (snd p' - snd p) /\ tol < Qabs (fst p' - (snd p - 1))) ->
      forall f, (f < j)%nat -> Touches seg_tol q1 q2 lo hi f -> In f fs).
Lemma sorted_snoc fs j : StronglySorted lt fs -> (forall f, In f fs -> (f < j)%nat) -> StronglySorted lt (fs ++ [j]).
Proof.
  induction 1; intros B; cbn; [repeat constructor|]. constructor; [apply IHStronglySorted; intros; apply B; right; auto|]. apply Forall_app. split; auto. constructor; auto. apply B. left. auto.
Qed.
Lemma found_step tol q1 q2 lo hi j st : (j < 4)%nat -> Found tol q1 q2 lo hi j st -> exists st', box_hit q1 q2 4 (flat (corners lo hi)) sides tol st j = Ok st' /\ Found tol q1 q2 lo hi (S j) st'.
Proof.
  intros J (fs & ps & -> & F & LT & SO & EM & FAR & ALL). assert (L : length fs = length ps) by (clear -F; induction F; cbn; auto). rewrite step_box by auto. eexists. split; [reflexivity|].
  destruct (meet q1 q2 lo hi j) as [r|] eqn:M.
  - assert (T : Touches seg_tol q1 q2 lo hi j) by (apply touched; eauto). pose proof (onto_hit _ _ _ _ _ _ J M) as HJ. set (p := onto lo hi j r) in *. destruct (kept tol ps p) eqn:K.
    + exists (fs ++ [j]), (ps ++ [p]). split; [rewrite app_length; cbn [length]; rewrite Nat.add_1_r; reflexivity|]. split; [apply Forall2_app; auto|].
      split; [intros f Hf; apply in_app_or in Hf as [Hf|[<-|[]]]; auto; specialize (LT f Hf); lia|]. split; [apply sorted_snoc; auto|]. split; [split; [intros C; destruct fs; discriminate|intros C; exfalso; apply (C j); auto]|]. split.
      * intros i a b Ha Hb. assert (Li : (S i < length (ps ++ [p]))%nat) by (eapply nth_error_lt; eauto). rewrite app_length in Li. cbn [length] in Li. destruct (Nat.eq_dec (S i) (length ps)) as [E|E].
        -- rewrite nth_error_app2 in Hb by lia. rewrite E, Nat.sub_diag in Hb. cbn in Hb. injection Hb as <-. rewrite nth_error_app1 in Ha by lia.
           unfold kept in K. destruct (rev ps) as [|l t] eqn:R; [assert (ps = []) by (rewrite <- (rev_involutive ps), R; auto); subst ps; cbn in E; lia|].
           assert (Ep : ps = rev t ++ [l]) by (rewrite <- (rev_involutive ps), R; auto). assert (a = l). { rewrite Ep in Ha, E. rewrite app_length in E. cbn in E. rewrite nth_error_app2 in Ha by lia. replace (i - length (rev t))%nat with 0%nat in Ha by lia. cbn in Ha. congruence. }
           subst a. apply andb_true_iff in K as [_ K]. apply qlt_bool_iff in K. auto.
        -- rewrite nth_error_app1 in Ha, Hb by lia. eauto.
      * intros CL f Hf TF. apply in_or_app. destruct (Nat.eq_dec f j) as [->|]; [right; left; auto|]. left. apply ALL; auto. lia.
    + assert (NE : fs <> []) by (intros C; rewrite C in L; destruct ps; [discriminate K|discriminate L]).
      exists fs, ps. split; auto. split; auto. split; [intros f Hf; specialize (LT f Hf); lia|]. split; auto. split; [split; [intros C; contradiction|intros C; exfalso; apply (C j); auto]|]. split; auto.
      intros CL f Hf TF. destruct (Nat.eq_dec f j) as [->|]; [exfalso|apply ALL; auto; lia].
      unfold kept in K. destruct (rev ps) as [|l t] eqn:R; [discriminate|]. assert (Il : In l ps) by (rewrite <- (rev_involutive ps), R; cbn; apply in_or_app; right; left; auto).
      apply In_nth_error in Il as (i & Hi). destruct (Forall2_nth_r _ _ _ _ _ F Hi) as (g & Hg & HG). apply nth_error_In in Hg. destruct (CL g j l p (LT g Hg) J HG HJ) as [A B].
      apply qlt_bool_iff in A, B. rewrite A, B in K. discriminate.
  - assert (NT : ~ Touches seg_tol q1 q2 lo hi j) by (intros C; apply touched in C as (r & C); congruence).
    exists fs, ps. split; auto. split; auto. split; [intros f Hf; specialize (LT f Hf); lia|]. split; auto. split.
    + rewrite EM. split; intros C f Hf; [destruct (Nat.eq_dec f j) as [->|]; auto; apply C; lia|apply C; lia].
    + split; auto. intros CL f Hf TF. destruct (Nat.eq_dec f j) as [->|]; [contradiction|]. apply ALL; auto. lia.
Qed.
Lemma found_all tol q1 q2 lo hi : exists fs ps, intersectBoundingBox q1 q2 4 (flat (corners lo hi)) sides tol = Ok (length fs, fs, flat ps) /\ Found tol q1 q2 lo hi 4 (length fs, fs, flat ps).
Proof.
  assert (G : forall m j st, (j + m = 4)%nat -> Found tol q1 q2 lo hi j st -> exists st', mfold (box_hit q1 q2 4 (flat (corners lo hi)) sides tol) (seq j m) st = Ok st' /\ Found tol q1 q2 lo hi 4 st').
  { induction m; intros j st E H; [replace 4%nat with j by lia; exists st; auto|]. destruct (found_step tol q1 q2 lo hi j st ltac:(lia) H) as (s1 & E1 & H1). cbn [seq mfold]. rewrite E1. cbn [bind]. apply IHm; auto. lia. }
  destruct (G 4%nat 0%nat (0%nat, [], []) eq_refl) as (st & E & H).
  - exists [], []. split; auto. split; [constructor|]. split; [intros f []|]. split; [constructor|]. split; [split; auto; intros _ f Hf; lia|]. split; [intros i p p' Hi; destruct i; discriminate|intros; lia].
  - pose proof H as (fs & ps & -> & F & _). exists fs, ps. split; auto. unfold intersectBoundingBox. change (length sides) with 4%nat. rewrite E. cbn [bind]. assert (L : length fs = length ps) by (clear -F; induction F; cbn; auto). rewrite flat_len, Nat.mul_comm, Nat.div_mul, L, Nat.eqb_refl by lia. reflexivity.
Qed.

(* C107. For every segment and box the call returns: the count is the number of points and of
   sides listed, the sides are in order and each once, each point is on its side where the segment
   meets it, the lists are empty exactly if no side is touched, and two points in a row are not at
   one height. *)
Theorem box_hits_partial : forall q1 q2 lo hi tol, exists fs ps,
  intersectBoundingBox q1 q2 4 (flat (corners lo hi)) sides tol = Ok (length fs, fs, flat ps) /\
  Forall2 (HitAt seg_tol q1 q2 lo hi) fs ps /\ (forall f, In f fs -> (f < 4)%nat) /\ StronglySorted lt fs /\
  (fs = [] <-> forall f, (f < 4)%nat -> ~ Touches seg_tol q1 q2 lo hi f) /\
  (forall i p p', nth_error ps i = Some p -> nth_error ps (S i) = Some p' -> tol < Qabs (snd p' - snd p)).
Proof.
  intros q1 q2 lo hi tol. destruct (found_all tol q1 q2 lo hi) as (fs & ps & E & (fs' & ps' & E' & F & LT & SO & EM & FAR & _)). exists fs, ps'. injection E' as _ <- Ep. rewrite <- Ep. split; auto.
Qed.
Print Assumptions box_hits_partial.
(* Every side touched is listed if no two meeting points are within the tolerance in height, and
   none is within it of having the height of another less one as its first coordinate. *)
Theorem box_complete_partial : forall q1 q2 lo hi tol k fs r, intersectBoundingBox q1 q2 4 (flat (corners lo hi)) sides tol = Ok (k, fs, r) ->
  (forall f g p p', (f < g)%nat -> (g < 4)%nat -> HitAt seg_tol q1 q2 lo hi f p -> HitAt seg_tol q1 q2 lo hi g p' -> tol < Qabs (snd p' - snd p) /\ tol < Qabs (fst p' - (snd p - 1))) ->
  forall f, (f < 4)%nat -> (In f fs <-> Touches seg_tol q1 q2 lo hi f).
Proof.
  intros q1 q2 lo hi tol k fs r H CL f Hf. destruct (found_all tol q1 q2 lo hi) as (fs1 & ps & E & (fs' & ps' & E' & F & LT & SO & EM & FAR & ALL)). rewrite E in H. injection H as _ <- _. injection E' as _ <- _. split; [|apply ALL; auto].
  intros I. apply In_nth_error in I as (i & Hi). destruct (Forall2_nth _ _ _ _ _ F Hi) as (p & _ & _ & T & _). exact T.
Qed.
Print Assumptions box_complete_partial.
(* A level segment through a box meets its left and right side; only one of them is listed. *)
Theorem box_level_refuted : exists q1 q2 lo hi tol r, fst lo < fst hi /\ snd lo < snd hi /\ 0 < tol /\
  Touches seg_tol q1 q2 lo hi 1 /\ Touches seg_tol q1 q2 lo hi 3 /\ intersectBoundingBox q1 q2 4 (flat (corners lo hi)) sides tol = Ok (1%nat, [1%nat], r).
Proof.
  exists (-1, 1), (3, 1), (0, 0), (2, 2), (1 # 1000). eexists. split; [reflexivity|]. split; [reflexivity|]. split; [reflexivity|].
  split; [apply touched; eexists; vm_compute; reflexivity|]. split; [apply touched; eexists; vm_compute; reflexivity|]. vm_compute. reflexivity.
Qed.
Print Assumptions box_level_refuted.
(* A segment through two opposite corners: one of them is listed twice. *)
Theorem box_twice_refuted : exists q1 q2 lo hi tol, fst lo < fst hi /\ snd lo < snd hi /\ 0 < tol /\
  intersectBoundingBox q1 q2 4 (flat (corners lo hi)) sides tol = Ok (3%nat, [0; 1; 3]%nat, flat [lo; hi; lo]).
Proof. exists (-1, -1), (3, 3), (0, 0), (2, 2), (1 # 1000). split; [reflexivity|]. split; [reflexivity|]. split; [reflexivity|]. vm_compute. reflexivity. Qed.
Print Assumptions box_twice_refuted.

(* An upright segment through a box: both sides are listed. *)
Example upright : let q1 := (1, -1) in let q2 := (1, 3) in let lo := (0, 0) in let hi := (2, 2) in let tol := 1 # 1000 in
  (forall f g p p', (f < g)%nat -> (g < 4)%nat -> HitAt seg_tol q1 q2 lo hi f p -> HitAt seg_tol q1 q2 lo hi g p' -> tol < Qabs (snd p' - snd p) /\ tol < Qabs (fst p' - (snd p - 1))) /\
  exists r, intersectBoundingBox q1 q2 4 (flat (corners lo hi)) sides tol = Ok (2%nat, [0; 2]%nat, r).
Proof.
  cbv zeta. split; [|eexists; vm_compute; reflexivity]. intros f g p p' FG G4 (O1 & (N1 & _) & _) (O2 & (N2 & _) & (s & u & (M1 & M2) & _ & _ & D)).
  assert (f = 0 /\ g = 2)%nat as [-> ->].
  { destruct f as [|[|[|[|f]]]], g as [|[|[|[|g]]]]; try lia; auto; exfalso; first [apply N1; unfold Parallel; cbn; reflexivity|apply N2; unfold Parallel; cbn; reflexivity]. }
  cbn in O1, O2. rewrite O1, O2. split; [reflexivity|]. unfold dist2, along in *. cbn [side fst snd] in *.
  assert (K : (fst p' - 1) * (fst p' - 1) <= 1). { pose proof (sqq (snd p' - (-1 + s * (3 - -1)))). pose proof (sqq (snd p' - (2 + u * (2 - 2)))). destruct D as [D|D].
    - setoid_replace (fst p' - (1 + s * (1 - 1))) with (fst p' - 1) in D by ring. unfold seg_tol in D. lra.
    - rewrite <- M1 in D. setoid_replace (fst p' - (1 + s * (1 - 1))) with (fst p' - 1) in D by ring. unfold seg_tol in D. lra. }
  assert (0 <= fst p') by (apply Qnot_lt_le; intros C; nra). rewrite Qabs_pos; lra.
Qed.
