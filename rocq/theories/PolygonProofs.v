From Verif Require Import Base BaseFacts SerializeModel PLCSpec Plane PlaneFacts AreaModel AreaProofs MeshEditorModel WithinModel WithinSpec WithinProofs WithinProofs2 PolygonModel PolygonSpec.
From Coq Require Import QArith Lqa Permutation.
Local Open Scope Q_scope.

Lemma coords_length ps : length (coords ps) = (2 * length ps)%nat.
Proof. induction ps as [|p ps IH]; [reflexivity|]. unfold coords in *. cbn [flat_map app length]. rewrite IH. lia. Qed.
Lemma coords_nth ps : forall i p, nth_error ps i = Some p -> nth_error (coords ps) (2 * i) = Some (fst p) /\ nth_error (coords ps) (2 * i + 1) = Some (snd p).
Proof.
  induction ps as [|q ps IH]; intros [|i] p H; try discriminate.
  - injection H as <-. split; reflexivity.
  - cbn in H. destruct (IH i p H) as [X Y]. replace (2 * S i)%nat with (S (S (2 * i))) by lia. replace (S (S (2 * i)) + 1)%nat with (S (S (2 * i + 1))) by lia. split; [exact X|exact Y].
Qed.
Lemma coords_stored ps : StoredAt (coords ps) 0 ps.
Proof. intros i p H. exact (coords_nth ps i p H). Qed.
Lemma coords_half ps : (length (coords ps) / 2 = length ps)%nat.
Proof. rewrite coords_length, Nat.mul_comm. apply Nat.div_mul. lia. Qed.
Lemma vat_in ps i p : nth_error ps i = Some p -> vat (coords ps) 0 i = Ok p.
Proof. apply vat_ok, coords_stored. Qed.
Lemma vat_out ps i : (length ps <= i)%nat -> vat (coords ps) 0 i = UB.
Proof.
  intros L. unfold vat, get. cbn [Nat.add]. rewrite (proj2 (nth_error_None (coords ps) (2 * i))); [reflexivity|]. rewrite coords_length. lia.
Qed.
Lemma polygon_ok ps : (3 <= length ps)%nat -> polygon (coords ps) = Ok (coords ps).
Proof.
  intros L. unfold polygon. rewrite coords_half, coords_length, Nat.mul_comm, Nat.mod_mul by lia. rewrite (proj2 (Nat.leb_le _ _) L). reflexivity.
Qed.
Lemma polygon_inv vs q : polygon vs = Ok q -> exists ps, q = coords ps /\ vs = coords ps /\ (3 <= length ps)%nat.
Proof.
  unfold polygon. intros H. apply bind_ok in H as (_1 & A & H). apply assert_ok in A. apply bind_ok in H as (_2 & B & H). apply assert_ok in B. injection H as <-.
  apply Nat.eqb_eq in A. apply Nat.leb_le in B.
  assert (G : forall n l, length l = (2 * n)%nat -> exists ps : list p2, l = coords ps /\ length ps = n).
  { induction n as [|n IH]; intros l E; [exists []; destruct l; [auto|discriminate]|]. destruct l as [|x [|y l]]; try (cbn in E; lia).
    destruct (IH l) as (ps & -> & F); [cbn in E; lia|]. exists ((x, y) :: ps). split; [reflexivity|cbn; lia]. }
  destruct (G (length vs / 2)%nat vs) as (ps & E & F).
  { pose proof (Nat.div_mod (length vs) 2 ltac:(lia)). lia. }
  exists ps. rewrite <- E. split; [auto|]. split; [auto|lia].
Qed.

(* ---- signs of one edge ---- *)
Definition rel (p w : p2) : p2 := (fst w - fst p, snd w - snd p).
Lemma div_pos u w : 0 < w -> (0 < u / w <-> 0 < u) /\ (u / w < 0 <-> u < 0).
Proof.
  intros W. assert (E : w * (u / w) == u) by (apply Qmult_div_r; lra). split; split; intros H.
  - assert (0 < w * (u / w)) by (apply sign_pp; auto). lra.
  - apply (Qmult_lt_l _ _ w W). lra.
  - assert (w * (u / w) < 0) by (apply sign_pn; auto). lra.
  - apply (Qmult_lt_l _ _ w W). lra.
Qed.
Lemma div_neg u w : w < 0 -> (0 < u / w <-> u < 0) /\ (u / w < 0 <-> 0 < u).
Proof.
  intros W. assert (E : u / w == (- u) / (- w)) by (field; lra). destruct (div_pos (- u) (- w) ltac:(lra)) as [A B]. split; split; intros H.
  - assert (- u / - w > 0) by lra. apply A in H0. lra.
  - assert (0 < - u / - w) by (apply A; lra). lra.
  - assert (- u / - w < 0) by lra. apply B in H0. lra.
  - assert (- u / - w < 0) by (apply B; lra). lra.
Qed.
Lemma cross_orient p a b : fst (rel p a) * snd (rel p b) - fst (rel p b) * snd (rel p a) == orient a b p.
Proof. unfold rel, orient. cbn [fst snd]. ring. Qed.
Lemma r_crosses_ok p a b : r_crosses (rel p a) (rel p b) = crossing p a b.
Proof.
  unfold r_crosses. pose proof (cross_orient p a b) as C. set (u := fst (rel p a) * snd (rel p b) - fst (rel p b) * snd (rel p a)) in *. clearbody u.
  assert (U : forall a, Qlt_bool 0 (snd (rel p a)) = up p a) by (intros c; apply qltb_ext; unfold rel; cbn [snd]; split; lra).
  rewrite !U. destruct (Bool.bool_dec (up p a) (up p b)) as [E|E]; [rewrite (crossing_no _ _ _ E), E, xorb_nilpotent; auto|].
  unfold up in *. unfold rel. cbn [snd]. destruct (qltb_spec (snd p) (snd a)), (qltb_spec (snd p) (snd b)); try congruence; cbn [xorb andb].
  - rewrite crossing_down by lra. apply qltb_ext. rewrite (proj1 (div_neg u (snd b - snd p - (snd a - snd p)) ltac:(lra))). split; lra.
  - rewrite crossing_up by lra. apply qltb_ext. rewrite (proj1 (div_pos u (snd b - snd p - (snd a - snd p)) ltac:(lra))). split; lra.
Qed.
Lemma l_crosses_sym v w : l_crosses v w = l_crosses w v.
Proof.
  unfold l_crosses. rewrite (xorb_comm (Qlt_bool (snd w) 0)). destruct (xorb (Qlt_bool (snd v) 0) (Qlt_bool (snd w) 0)) eqn:X; [|auto]. cbn [andb]. apply qltb_ext.
  assert (E : (fst v * snd w - fst w * snd v) / (snd w - snd v) == (fst w * snd v - fst v * snd w) / (snd v - snd w)).
  { field. destruct (qltb_spec (snd v) 0), (qltb_spec (snd w) 0); try discriminate X; split; lra. }
  rewrite E. tauto.
Qed.
(* what each corner adds to both counts *)
Definition gv (p a : p2) : bool := xorb (up p a) (Qeq_bool (snd (rel p a)) 0 && Qlt_bool (fst (rel p a)) 0).
Definition onb (p a b : p2) : bool := xorb (xorb (crossing p a b) (l_crosses (rel p a) (rel p b))) (xorb (gv p a) (gv p b)).
Lemma gv_pos p a : 0 < snd (rel p a) -> gv p a = true.
Proof.
  intros H. unfold gv, up. destruct (qltb_spec (snd p) (snd a)); [|exfalso; unfold rel in H; cbn [snd] in H; lra].
  destruct (Qeq_bool (snd (rel p a)) 0) eqn:E; [apply Qeq_bool_iff in E; exfalso; lra|reflexivity].
Qed.
Lemma gv_neg p a : snd (rel p a) < 0 -> gv p a = false.
Proof.
  intros H. unfold gv, up. destruct (qltb_spec (snd p) (snd a)); [exfalso; unfold rel in H; cbn [snd] in H; lra|].
  destruct (Qeq_bool (snd (rel p a)) 0) eqn:E; [apply Qeq_bool_iff in E; exfalso; lra|reflexivity].
Qed.
Lemma gv_zero p a : snd (rel p a) == 0 -> gv p a = Qlt_bool (fst (rel p a)) 0.
Proof.
  intros H. unfold gv, up. destruct (qltb_spec (snd p) (snd a)); [exfalso; unfold rel in H; cbn [snd] in H; lra|].
  rewrite (proj2 (Qeq_bool_iff _ _) H). apply xorb_false_l.
Qed.
Lemma on_rel p a b : OnEdge p (a, b) <-> exists t, 0 <= t <= 1 /\
  (1 - t) * fst (rel p a) + t * fst (rel p b) == 0 /\ (1 - t) * snd (rel p a) + t * snd (rel p b) == 0.
Proof.
  unfold OnEdge, SamePoint, along, rel. cbn [fst snd]. split; intros (t & T & X & Y); exists t; (split; [auto|]); split; lra.
Qed.
Lemma signs (x : Q) : 0 < x \/ x < 0 \/ x == 0.
Proof. destruct (Qlt_le_dec 0 x); [auto|]. destruct (Qlt_le_dec x 0); [auto|]. right; right; lra. Qed.
Ltac qlb := repeat match goal with |- context [Qlt_bool ?a ?b] => destruct (qltb_spec a b); try (exfalso; lra) end.
Ltac mono := cbn [xorb andb]; qlb; reflexivity.
Lemma pinned ax ay bx by_ t : 0 < ax * by_ - bx * ay \/ ax * by_ - bx * ay < 0 ->
  (1 - t) * ax + t * bx == 0 -> (1 - t) * ay + t * by_ == 0 -> by_ == 0.
Proof.
  intros U X Y. assert (Z : (1 - t) * (ax * by_ - bx * ay) == 0) by (transitivity (by_ * ((1 - t) * ax + t * bx) - bx * ((1 - t) * ay + t * by_)); [ring|rewrite X, Y; ring]).
  apply Qmult_integral in Z as [Z|Z]; [|exfalso; destruct U; lra]. assert (T : t == 1) by lra. rewrite T in Y. lra.
Qed.
Lemma onb_ok p a b : ~ SamePoint p a -> ~ SamePoint p b -> (onb p a b = true <-> OnEdge p (a, b)).
Proof.
  intros Na Nb. rewrite on_rel. unfold onb. rewrite <- r_crosses_ok.
  assert (Ma : ~ (fst (rel p a) == 0 /\ snd (rel p a) == 0)) by (intros [X Y]; apply Na; unfold rel in *; cbn [fst snd] in *; split; lra).
  assert (Mb : ~ (fst (rel p b) == 0 /\ snd (rel p b) == 0)) by (intros [X Y]; apply Nb; unfold rel in *; cbn [fst snd] in *; split; lra).
  clear Na Nb.
  assert (Ga := gv_pos p a). assert (Ga' := gv_neg p a). assert (Ga0 := gv_zero p a).
  assert (Gb := gv_pos p b). assert (Gb' := gv_neg p b). assert (Gb0 := gv_zero p b).
  destruct (rel p a) as [ax ay], (rel p b) as [bx by_]. cbn [fst snd] in *. unfold r_crosses, l_crosses. cbn [fst snd].
  set (u := ax * by_ - bx * ay). set (w := by_ - ay).
  destruct (signs ay) as [Ay|[Ay|Ay]], (signs by_) as [By|[By|By]].
  - rewrite Ga, Gb by auto. split; [intros H; exfalso; revert H; qlb; cbn; discriminate|]. intros (t & [T1 T2] & _ & Y). exfalso. nra.
  - rewrite Ga, Gb' by auto. assert (W : w < 0) by (unfold w; lra). destruct (div_neg u w W) as [P N].
    qlb; cbn [xorb andb].
    + split; [discriminate|]. intros (t & [T1 T2] & X & Y). exfalso. assert (u < 0) by (apply P; auto). assert (by_ == 0) by (apply (pinned ax ay bx by_ t); auto). lra.
    + split; [discriminate|]. intros (t & [T1 T2] & X & Y). exfalso. assert (0 < u) by (apply N; auto). assert (by_ == 0) by (apply (pinned ax ay bx by_ t); auto). lra.
    + split; [|reflexivity]. intros _. assert (U : u == 0) by (destruct (signs u) as [S|[S|S]]; [exfalso; apply N in S; lra|exfalso; apply P in S; lra|auto]).
      exists (ay / (ay - by_)). split.
      * assert (E : (ay - by_) * (ay / (ay - by_)) == ay) by (apply Qmult_div_r; lra). split; nra.
      * split; [|field; lra]. transitivity (u / (by_ - ay)); [unfold u; field; lra|]. rewrite U. field. lra.
  - rewrite Ga, Gb0 by auto. assert (W : w < 0) by (unfold w; lra). destruct (div_neg u w W) as [P N]. assert (bx > 0 -> u < 0) by (intros; unfold u; nra). assert (bx < 0 -> 0 < u) by (intros; unfold u; nra).
    split; [intros K|intros (t & [T1 T2] & X & Y)].
    + exfalso. revert K. destruct (signs bx) as [S|[S|S]]; [| |tauto].
      * assert (0 < u / w) by (apply P; auto). qlb; cbn; discriminate.
      * assert (u / w < 0) by (apply N; auto). qlb; cbn; discriminate.
    + exfalso. assert (t == 1) by nra. apply Mb. split; [nra|auto].
  - rewrite Ga', Gb by auto. assert (W : 0 < w) by (unfold w; lra). destruct (div_pos u w W) as [P N].
    qlb; cbn [xorb andb].
    + split; [discriminate|]. intros (t & [T1 T2] & X & Y). exfalso. assert (0 < u) by (apply P; auto). assert (by_ == 0) by (apply (pinned ax ay bx by_ t); auto). lra.
    + split; [discriminate|]. intros (t & [T1 T2] & X & Y). exfalso. assert (u < 0) by (apply N; auto). assert (by_ == 0) by (apply (pinned ax ay bx by_ t); auto). lra.
    + split; [|reflexivity]. intros _. assert (U : u == 0) by (destruct (signs u) as [S|[S|S]]; [exfalso; apply P in S; lra|exfalso; apply N in S; lra|auto]).
      exists (- ay / (by_ - ay)). split.
      * assert (E : (by_ - ay) * (- ay / (by_ - ay)) == - ay) by (apply Qmult_div_r; lra). split; nra.
      * split; [|field; lra]. transitivity (u / (by_ - ay)); [unfold u; field; lra|]. rewrite U. field. lra.
  - rewrite Ga', Gb' by auto. split; [intros H; exfalso; revert H; qlb; cbn; discriminate|]. intros (t & [T1 T2] & _ & Y). exfalso. nra.
  - rewrite Ga', Gb0 by auto. assert (W : 0 < w) by (unfold w; lra). destruct (div_pos u w W) as [P N]. assert (bx > 0 -> 0 < u) by (intros; unfold u; nra). assert (bx < 0 -> u < 0) by (intros; unfold u; nra).
    split; [intros K|intros (t & [T1 T2] & X & Y)].
    + exfalso. revert K. destruct (signs bx) as [S|[S|S]]; [| |tauto].
      * assert (0 < u / w) by (apply P; auto). qlb; cbn; discriminate.
      * assert (u / w < 0) by (apply N; auto). qlb; cbn; discriminate.
    + exfalso. assert (t == 1) by nra. apply Mb. split; [nra|auto].
  - rewrite Ga0, Gb by auto. assert (W : 0 < w) by (unfold w; lra). destruct (div_pos u w W) as [P N]. assert (ax > 0 -> 0 < u) by (intros; unfold u; nra). assert (ax < 0 -> u < 0) by (intros; unfold u; nra).
    split; [intros K|intros (t & [T1 T2] & X & Y)].
    + exfalso. revert K. destruct (signs ax) as [S|[S|S]]; [| |tauto].
      * assert (0 < u / w) by (apply P; auto). qlb; cbn; discriminate.
      * assert (u / w < 0) by (apply N; auto). qlb; cbn; discriminate.
    + exfalso. assert (t == 0) by nra. apply Ma. split; [nra|auto].
  - rewrite Ga0, Gb' by auto. assert (W : w < 0) by (unfold w; lra). destruct (div_neg u w W) as [P N]. assert (ax > 0 -> u < 0) by (intros; unfold u; nra). assert (ax < 0 -> 0 < u) by (intros; unfold u; nra).
    split; [intros K|intros (t & [T1 T2] & X & Y)].
    + exfalso. revert K. destruct (signs ax) as [S|[S|S]]; [| |tauto].
      * assert (0 < u / w) by (apply P; auto). qlb; cbn; discriminate.
      * assert (u / w < 0) by (apply N; auto). qlb; cbn; discriminate.
    + exfalso. assert (t == 0) by nra. apply Ma. split; [nra|auto].
  - rewrite Ga0, Gb0 by auto. clearbody u w.
    destruct (signs ax) as [S|[S|S]]; [| |tauto]; (destruct (signs bx) as [R|[R|R]]; [| |tauto]).
    + split; [intros H; exfalso; revert H; qlb; cbn; discriminate|]. intros (t & [T1 T2] & X & Y). exfalso. nra.
    + split; [intros _|intros _; qlb; reflexivity]. exists (ax / (ax - bx)). split.
      * assert (E : (ax - bx) * (ax / (ax - bx)) == ax) by (apply Qmult_div_r; lra). split; nra.
      * split; [field; lra|]. rewrite Ay, By. ring.
    + split; [intros _|intros _; qlb; reflexivity]. exists (- ax / (bx - ax)). split.
      * assert (E : (bx - ax) * (- ax / (bx - ax)) == - ax) by (apply Qmult_div_r; lra). split; nra.
      * split; [field; lra|]. rewrite Ay, By. ring.
    + split; [intros H; exfalso; revert H; qlb; cbn; discriminate|]. intros (t & [T1 T2] & X & Y). exfalso. nra.
Qed.
