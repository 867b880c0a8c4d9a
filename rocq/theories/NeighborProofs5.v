(* Lower-dimensional hulls, and the runs in the plane. *)
From Verif Require Import Base BaseFacts SerializeModel SerializeSpec SerializeProofs MeshModel MeshSpec PLCModel PLCSpec PLCProps Plane AreaProofs WithinModel WithinSpec WithinProofs4 WithinProofs5 WithinProps
  HullModel HullSpec HullProofs3 HullProofs5 CsgProofs3 CollModel SerialDistModel SerialDistSpec SerialDistProofs CheckProofs NeighborModel NeighborSpec NeighborProofs NeighborProofs2 NeighborProofs3 NeighborProofs4.
From Coq Require Import Sorted QArith Lqa Permutation.
Local Open Scope nat_scope.

Section Line.
  Context (val : Z -> Q) (low : p2) (dx : Q) (uniq : list hpt) (tess : list Z -> res (mesh Z)) (points : list Z) (N : nat) (m : mesh Z).
  Hypothesis Len : length points = 2 * N.
  Hypothesis Npos : 0 < N.
  Hypothesis TS : tess points = Ok m.
  Local Notation ps := (points2 val points).
  Lemma local_line i j : convexHull_2d ps low dx uniq = Ok [[Z.of_nat i; Z.of_nat j]] -> i < N -> j < N -> OnLine ps ->
    exists h, localHull2 val low dx uniq tess points = Ok h /\ Outline val points h /\ rpoints h = points /\ SmallInts h N.
  Proof.
    intros E Li Lj OL. assert (LN : N <= length ps) by (rewrite (points2_len val points N Len); lia). destruct (nth_error_ex ps i ltac:(lia)) as [a Ea]. destruct (nth_error_ex ps j ltac:(lia)) as [b Eb].
    assert (F : Forall2 (facet_between ps) [[Z.of_nat i; Z.of_nat j]] [(a, b)]) by (constructor; [exists i, j; auto|constructor]).
    destruct (start val low dx uniq tess points N m Len Npos TS _ _ E F) as (h & keep & R & RT & Rh & Lf & Lp & Lk & Ip & Ck & Fh & Bz & ->).
    inversion Fh as [|f e fs es (x & y & Ef & Ax & Ay) F' E1 E2]; subst. inversion F'; subst.
    assert (D1 : exists d, hullDimension2 h = Ok d /\ (d =? 2) = false). { unfold hullDimension2. rewrite <- E1. cbn. destruct (Z.of_nat x =? Z.of_nat y)%Z; eauto. }
    destruct D1 as (d & -> & Ed). cbn [bind]. rewrite Ed. eexists. split; [reflexivity|]. rewrite <- E1, Rh in *.
    assert (Bx : x < N). { destruct (Bz [Z.of_nat x; Z.of_nat y] (Z.of_nat x)); cbn; auto. lia. } assert (By : y < N). { destruct (Bz [Z.of_nat x; Z.of_nat y] (Z.of_nat y)); cbn; auto. lia. }
    destruct (nth_error_ex ps x ltac:(lia)) as [u Eu]. destruct (nth_error_ex ps y ltac:(lia)) as [v Ev]. split; [|split; auto].
    - constructor; cbn [rpoints rfacets]; auto.
      + exists (N - 1). lia.
      + intros p I. apply comb_corner. auto.
      + exists [(u, v)]. split; [constructor; [exists x, y; auto|constructor]|]. intros e p [<-|[]] I. cbn [fst snd]. rewrite (OL u v p); [lra| | |auto]; eapply nth_error_In; eauto.
    - split; [cbn; lia|]. split; auto. cbn [rfacets]. intros f [<-|[]]. split; auto. intros z [<-|[<-|[]]]; lia.
  Qed.
End Line.

(* for two polygons the test is exact *)
Lemma canonical cs : exists r, HoldsPolygon r cs.
Proof.
  exists (mkRPLC (polygon_facets (seq 0 (length cs))) [] (flat2 cs)). split; [exists cs; split; auto; reflexivity|]. exists (ring cs). split; auto. cbn [rfacets rpoints].
  assert (C : Chosen cs (seq 0 (length cs)) cs). { apply forall2_of_nth; [apply seq_length|]. intros i x y Hx Hy. rewrite nth_error_nth' with (d := 0) in Hx by (rewrite seq_length; eapply nth_error_lt; eauto). rewrite seq_nth in Hx by (eapply nth_error_lt; eauto). injection Hx as <-. auto. }
  pose proof (polygon_between cs _ cs C) as P. eapply (fun H => forall2_weaken _ _ _ _ H P). intros f e (i & j & -> & A & B). exists (Z.of_nat i), (Z.of_nat j). split; auto.
  assert (At : forall k p, nth_error cs k = Some p -> pt_at (flat2 cs) (Z.of_nat k) p).
  { clear. intros k p E. split; [lia|]. rewrite Nat2Z.id. revert k E. induction cs as [|q l IH]; intros [|k] E; try discriminate; cbn in E. - injection E as ->. auto. - specialize (IH k E). replace (2 * S k) with (S (S (2 * k))) by lia. exact IH. }
  split; auto.
Qed.
Lemma polygons_meet val pa pb a b ca cb : Outline val pa a -> Outline val pb b ->
  StrictlyConvex ca -> StrictlyConvex cb -> 3 <= length ca -> 3 <= length cb ->
  Forall2 (facet_between (points2 val (rpoints a))) (rfacets a) (ring ca) -> Forall2 (facet_between (points2 val (rpoints b))) (rfacets b) (ring cb) ->
  incl ca (points2 val (rpoints a)) -> incl cb (points2 val (rpoints b)) ->
  convexIntersect (rmap val a) (rmap val b) = Ok true -> exists x, InPolygon x ca /\ InPolygon x cb.
Proof.
  intros OA OB Va Vb La Lb Fa Fb Ia Ib E. destruct (canonical ca) as [ra Ha]. destruct (canonical cb) as [rb Hb]. destruct (intersect_ok ra rb ca cb Ha Hb Va Vb La Lb) as (o & Eo & Ho). apply Ho. clear Ho.
  destruct Ha as ((pa' & Pa & Ra) & ea & Ea & FA). destruct Hb as ((pb' & Pb & Rb) & eb & Eb & FB).
  assert (Na : pa' <> []). { intros ->. apply Permutation_nil in Pa. subst. cbn in La. lia. }
  assert (Nb : pb' <> []). { intros ->. apply Permutation_nil in Pb. subst. cbn in Lb. lia. }
  destruct (excludes_ok ra ea rb pb' FA Rb Nb) as (o1 & E1 & H1). destruct (excludes_ok rb eb ra pa' FB Ra Na) as (o2 & E2 & H2).
  destruct (outline_flat val _ _ OA) as [Fla Nla]. destruct (outline_flat val _ _ OB) as [Flb Nlb].
  assert (C : forall h es, Forall2 (facet_between (points2 val (rpoints h))) (rfacets h) es -> Forall2 (facet_of (rpoints (rmap val h))) (rfacets (rmap val h)) es).
  { intros h es F. cbn. induction F; constructor; auto. apply between_facet. auto. }
  destruct (excludes_ok (rmap val a) (ring ca) (rmap val b) _ (C _ _ Fa) Flb Nlb) as (q1 & Q1 & K1). destruct (excludes_ok (rmap val b) (ring cb) (rmap val a) _ (C _ _ Fb) Fla Nla) as (q2 & Q2 & K2).
  unfold convexIntersect in E. rewrite Q1 in E. cbn [bind] in E. destruct q1; [discriminate|]. rewrite Q2 in E. cbn [bind] in E. destruct q2; [discriminate|].
  (* all visible points are combinations of the corners *)
  assert (Side : forall (c : list p2) vis e, incl c vis -> (forall p, In p vis -> Combination c p) -> (forall q, In q c -> (orient (fst e) (snd e) q < 0)%Q) -> forall q, In q vis -> (orient (fst e) (snd e) q < 0)%Q).
  { intros c vis e _ Cb H q Iq. assert (P : (0 < WithinProofs4.val (edge_half (snd e) (fst e)) q)%Q). { apply (combination_gt _ c q (Cb q Iq)). intros r Ir. rewrite val_edge, orient_swap. specialize (H r Ir). lra. } rewrite val_edge, orient_swap in P. lra. }
  assert (InA : forall c h p, Outline val p h -> StrictlyConvex c -> 3 <= length c -> Forall2 (facet_between (points2 val (rpoints h))) (rfacets h) (ring c) -> forall q, In q (points2 val (rpoints h)) -> Combination c q).
  { intros c h p OH SC L F q Iq. apply (polygon_comb c q SC L). destruct (ou_edges _ _ _ OH) as (es & F2 & S2).
    assert (es = ring c). { clear -F F2. revert es F2. induction F as [|f e fs es' (i & j & -> & A & B) F IH]; intros es F2; inversion F2 as [|? e2 ? es2 (i2 & j2 & Ef & A2 & B2) F3]; subst; auto. injection Ef as E1 E2. apply Nat2Z.inj in E1, E2. subst. f_equal; [destruct e, e2; cbn in *; congruence|auto]. } subst es.
    intros u v Iuv. apply (S2 (u, v) q Iuv). apply (ou_own _ _ _ OH). auto. }
  unfold convexIntersect in Eo. rewrite E1 in Eo. cbn [bind] in Eo. destruct o1.
  - exfalso. destruct (proj1 H1 eq_refl) as (e & Ie & He). assert (false = true); [|discriminate]. apply K1. exists e. split; [eapply Permutation_in; eauto|]. apply (Side cb _ e Ib).
    + intros p Ipp. apply (InA cb b pb OB Vb Lb Fb). auto.
    + intros q Iq. apply He. eapply Permutation_in; [symmetry; exact Pb|auto].
  - rewrite E2 in Eo. cbn [bind] in Eo. destruct o2; cbn in Eo; [|congruence]. exfalso. destruct (proj1 H2 eq_refl) as (e & Ie & He). assert (false = true); [|discriminate]. apply K2. exists e. split; [eapply Permutation_in; eauto|]. apply (Side ca _ e Ia).
    + intros p Ipp. apply (InA ca a pa OA Va La Fa). auto.
    + intros q Iq. apply He. eapply Permutation_in; [symmetry; exact Pa|auto].
Qed.

(* the test in space is symmetric whenever it answers *)
Lemma isect3_sym a b x y : convexIntersect3 a b = Ok x -> convexIntersect3 b a = Ok y -> x = y.
Proof.
  intros E1 E2. assert (K : forall a b, convexIntersect3 a b = Ok true -> excludes3 a b = Ok false /\ excludes3 b a = Ok false).
  { clear. intros a b E. unfold convexIntersect3 in E. apply bind_ok in E as (o & E1 & E). destruct o; [discriminate|]. apply bind_ok in E as (o & E2 & E). destruct o; [discriminate|]. auto. }
  destruct x, y; auto; exfalso.
  - destruct (K _ _ E1) as [A B]. destruct (edges_dead _ _ _ E2 eq_refl); congruence.
  - destruct (K _ _ E2) as [A B]. destruct (edges_dead _ _ _ E1 eq_refl); congruence.
Qed.

Section Run.
  Context (val : Z -> Q) (n : nat) (low : p2) (dx : Q) (uniq : nat -> list hpt) (tess tessAll : list Z -> res (mesh Z)) (pts : nat -> list Z) (hull : nat -> rplc Z) (m : mesh Z).
  Hypothesis LH : forall r, r < n -> localHull2 val low dx (uniq r) tess (pts r) = Ok (hull r).
  Hypothesis OU : forall r, r < n -> Outline val (pts r) (hull r).
  Hypothesis SD : Sendable 2 n hull.
  Hypothesis TS : tessAll (gathered n (visible hull)) = Ok m.
  Hypothesis WF : WellFormed 2 m.
  Hypothesis Cells : length (cells m) = length (gathered n (visible hull)) / 2.
  Local Notation test := (fun r s => match convexIntersect (rmap val (hull r)) (rmap val (hull s)) with Ok b => b | _ => false end).
  Lemma run_plane : exists nb, Together n (fun r => domainNeighbors2 val low dx (uniq r) tess n tessAll r (pts r)) (fun r => Ok (nb r)) /\
    (forall r, r < n -> NeighborList n (fun r s => convexIntersect (rmap val (hull r)) (rmap val (hull s)) = Ok true) m (Owns 2 (visible hull)) r (nb r)) /\
    (forall r s, r < n -> s < n -> In s (nb r) <-> In r (nb s)).
  Proof.
    assert (IS : forall r s, r < n -> s < n -> convexIntersect (rmap val (hull r)) (rmap val (hull s)) = Ok (test r s) /\ test r s = test s r).
    { intros r s Lr Ls. destruct (meet_sym val _ _ _ _ (OU r Lr) (OU s Ls)) as (x & -> & ->). auto. }
    destruct (neighbors_ok 2 ltac:(lia) n hull tessAll m SD TS WF Cells (fun a b => convexIntersect (rmap val a) (rmap val b)) test (fun r s Lr Ls => proj1 (IS r s Lr Ls))) as (nb & T & NL).
    exists nb. split; [|split].
    - eapply together_ext; [|exact T]. intros r L. unfold domainNeighbors2. rewrite (LH r L). reflexivity.
    - intros r L. destruct (NL r L) as [S1 X]. split; auto. intros s. rewrite X. split; intros (A & B & [C|C]); auto 10; split; auto; split; auto; left; destruct (IS s r A L) as [Q1 _]; cbv beta in *; [rewrite Q1; congruence|rewrite C; reflexivity].
    - intros r s Lr Ls. rewrite (nl_exact _ _ _ _ _ _ (NL r Lr) s), (nl_exact _ _ _ _ _ _ (NL s Ls) r). destruct (IS r s Lr Ls) as [_ E]. split; intros (A & B & [C|(x & C1 & C2)]); split; auto; split; auto; [left; congruence|right; exists x; split; auto|left; congruence|right; exists x; split; auto].
  Qed.
End Run.
