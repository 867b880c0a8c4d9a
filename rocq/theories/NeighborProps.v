(* C67-C69: which domains are neighbors. *)
From Verif Require Import Base BaseFacts SerializeModel SerializeSpec MeshModel MeshSpec MeshProofs PLCModel PLCSpec Plane AreaProofs WithinModel WithinSpec WithinProofs4 WithinProofs5 WithinProps
  HullModel HullSpec HullProofs3 HullProofs5 HullProps CollModel SerialDistModel SerialDistSpec SerialDistProofs MpiModel MpiSpec ExchangeModel CheckModel CheckProofs DistModel DistSpec DistProps
  StdAlg NeighborModel NeighborSpec NeighborProofs NeighborProofs2 NeighborProofs3 NeighborProofs4 NeighborProofs5.
From Coq Require Import Sorted QArith Lqa Permutation.
Local Open Scope nat_scope.

(* ---- C67: the lists of neighbors ---- *)
(* Given the hulls of n ranks, and a test of hulls that answers: every rank gets, in increasing
   order, exactly the other ranks whose hull meets its own or that have a visible point whose cell
   has a node in common with the cell of one of its own. *)
Theorem neighbor_lists : forall V D n (hull : nat -> rplc Z) tess (m : mesh V) isect meet, 0 < D -> Sendable D n hull ->
  tess (gathered n (visible hull)) = Ok m -> WellFormed D m -> length (cells m) = length (gathered n (visible hull)) / D ->
  (forall r s, r < n -> s < n -> isect (hull r) (hull s) = Ok (meet r s)) ->
  exists nb, Together n (fun r => domainNeighbors D isect n tess r (hull r)) (fun r => Ok (nb r)) /\
    forall r, r < n -> NeighborList n (fun s r => meet s r = true) m (Owns D (visible hull)) r (nb r).
Proof. intros V D n hull tess m isect meet Dp SD TS WF Ce IS. exact (neighbors_ok D Dp n hull tess m SD TS WF Ce isect meet IS). Qed.
Print Assumptions neighbor_lists.

(* The two tests of the code say the same of two hulls whichever comes first. *)
Definition Even (isect : rplc Z -> rplc Z -> res bool) : Prop := forall a b x y, isect a b = Ok x -> isect b a = Ok y -> x = y.
Theorem test_even_plane : forall val, Even (fun a b => convexIntersect (rmap val a) (rmap val b)).
Proof.
  intros val a b x y. set (u := rmap val a). set (v := rmap val b). unfold convexIntersect. intros E1 E2. apply bind_ok in E1 as (o & A & E1). apply bind_ok in E2 as (o' & B & E2).
  destruct o; [|rewrite B in E1]; (destruct o'; [|rewrite A in E2]); cbn in *; congruence.
Qed.
Print Assumptions test_even_plane.
Theorem test_even_space : forall val, Even (fun a b => convexIntersect3 (rmap val a) (rmap val b)).
Proof. intros val a b x y. apply isect3_sym. Qed.
Print Assumptions test_even_space.

(* So the lists are mutual: s is in the list of r just when r is in the list of s. *)
Theorem neighbors_mutual : forall V D n (hull : nat -> rplc Z) tess (m : mesh V) isect meet, 0 < D -> Sendable D n hull ->
  tess (gathered n (visible hull)) = Ok m -> WellFormed D m -> length (cells m) = length (gathered n (visible hull)) / D ->
  (forall r s, r < n -> s < n -> isect (hull r) (hull s) = Ok (meet r s)) -> Even isect ->
  exists nb, Together n (fun r => domainNeighbors D isect n tess r (hull r)) (fun r => Ok (nb r)) /\
    (forall r, r < n -> NeighborList n (fun s r => meet s r = true) m (Owns D (visible hull)) r (nb r)) /\
    forall r s, r < n -> s < n -> In s (nb r) <-> In r (nb s).
Proof.
  intros V D n hull tess m isect meet Dp SD TS WF Ce IS EV. destruct (neighbor_lists _ _ _ _ _ _ _ _ Dp SD TS WF Ce IS) as (nb & T & NL). exists nb. split; auto. split; auto.
  intros r s Lr Ls. rewrite (nl_exact _ _ _ _ _ _ (NL r Lr) s), (nl_exact _ _ _ _ _ _ (NL s Ls) r). pose proof (EV _ _ _ _ (IS r s Lr Ls) (IS s r Ls Lr)) as E.
  split; intros (A & B & [C|(x & C1 & C2)]); split; auto; split; auto; [left; congruence|right; exists x; split; auto|left; congruence|right; exists x; split; auto].
Qed.
Print Assumptions neighbors_mutual.

(* What the rest of the code needs of them: the check of the contract between neighbors passes and
   the exchange of generators with these lists completes (C61). *)
Theorem neighbors_talk : forall V D n (hull : nat -> rplc Z) tess (m : mesh V) isect meet pts, 0 < D -> Sendable D n hull ->
  tess (gathered n (visible hull)) = Ok m -> WellFormed D m -> length (cells m) = length (gathered n (visible hull)) / D ->
  (forall r s, r < n -> s < n -> isect (hull r) (hull s) = Ok (meet r s)) -> Even isect ->
  (forall r, r < n -> (exists k, length (pts r) = D * k) /\ Forall (fits TDouble) (pts r) /\ (Z.of_nat (4 + 8 * length (pts r)) < 2 ^ 32)%Z) ->
  exists nb, Together n (fun r => domainNeighbors D isect n tess r (hull r)) (fun r => Ok (nb r)) /\ Talk D n pts nb /\ (forall r, r < n -> ~ In r (nb r)) /\
    Together n (fun r => contract r (nb r) (seq 0 n)) (fun _ => Ok tt) /\
    Finishes n (fun r => if r <? n then genExchange D r (pts r) (nb r) else Ret (Ok ([], [])))
      (fun r => Ok (flat_map pts (r :: nb r), flat_map (fun s => repeat s (length (pts s) / D)) (r :: nb r))).
Proof.
  intros V D n hull tess m isect meet pts Dp SD TS WF Ce IS EV P. destruct (neighbors_mutual _ _ _ _ _ _ _ _ Dp SD TS WF Ce IS EV) as (nb & T & NL & M). exists nb. split; auto.
  assert (ND : forall r, r < n -> NoDup (nb r) /\ (Z.of_nat (length (nb r)) < 2 ^ 32)%Z).
  { intros r L. assert (N1 := sorted_lt_nodup _ (nl_sorted _ _ _ _ _ _ (NL r L))). split; auto. pose proof (sd_ranks _ _ _ SD). assert (length (nb r) <= length (seq 0 n)); [|rewrite seq_length in *; lia]. apply NoDup_incl_length; auto. intros s I. apply (nl_exact _ _ _ _ _ _ (NL r L)) in I as (A & _). apply in_seq. lia. }
  assert (TK : Talk D n pts nb). { constructor; auto. intros r s L I. apply (nl_exact _ _ _ _ _ _ (NL r L)) in I. tauto. }
  split; auto. split; [intros r L I; apply (nl_exact _ _ _ _ _ _ (NL r L)) in I; tauto|]. split; [apply neighbors_checked; auto|]. apply generators_exchanged; auto.
Qed.
Print Assumptions neighbors_talk.

(* ---- C68: the hulls the ranks send, in the plane ---- *)
(* whatever the mesh of the rank's points, as long as every cell is a polygon *)
Lemma rank_hull val low dx uniq tess pts m : (0 < dx)%Q -> RankPoints val low dx uniq pts -> tess pts = Ok m -> PolygonMesh (length pts / 2) m ->
  exists h, localHull2 val low dx uniq tess pts = Ok h /\ Outline val pts h /\ fits (TReducedPLC TDouble) h /\ (Z.of_nat (length (serialize (TReducedPLC TDouble) h)) < 2 ^ 32)%Z.
Proof.
  intros Dx [(k & L) Fi Few (zs & hs & G & Ap & Hp & SF) Sh] TS PM. assert (LN := points2_len val pts (S k) L). replace (length pts / 2) with (S k) in PM by (rewrite L, Nat.mul_comm, Nat.div_mul; auto).
  assert (Bd : (44 * Z.of_nat (S k) + 12 < 2 ^ 31)%Z) by lia.
  destruct Sh as [Sb|Ol].
  - destruct (convex_hull_partial _ _ _ _ _ _ Dx G Ap Sb Hp SF) as (fs & E & vs & cs & -> & Ch & L3 & SC & IP).
    destruct (local_full val low dx uniq tess pts (S k) m L ltac:(lia) TS vs cs PM E Ch L3 SC IP) as (h & E1 & OU & I & Lh & SI & _). exists h. split; auto. split; auto. apply (sendable_one pts (S k)); auto.
  - assert (Ne : points2 val pts <> []) by (intros Z; rewrite Z in LN; discriminate). destruct (convex_hull_line _ _ _ _ _ _ Dx Ne G Ap Ol Hp SF) as (i & j & a & b & E & Ei & Ej & _).
    destruct (local_line val low dx uniq tess pts (S k) m L ltac:(lia) TS i j E) as (h & E1 & OU & Ep & SI); auto; try (rewrite <- LN; eapply nth_error_lt; eauto). exists h. split; auto. split; auto. apply (sendable_one pts (S k)); auto; change (denote TDouble) with Z in *; rewrite Ep; [apply incl_refl|rewrite L; lia].
Qed.
(* every rank gets a hull made of some of its points, spanning all of them *)
Theorem rank_hull_partial : forall val low dx uniq tess pts m, (0 < dx)%Q -> RankPoints val low dx uniq pts -> tess pts = Ok m -> PolygonMesh (length pts / 2) m ->
  exists h, localHull2 val low dx uniq tess pts = Ok h /\ Outline val pts h.
Proof. intros val low dx uniq tess pts m Dx RP TS PM. destruct (rank_hull val low dx uniq tess pts m Dx RP TS PM) as (h & E & O & _). eauto. Qed.
Print Assumptions rank_hull_partial.

(* The points a rank with a proper hull shows are the corners of the hull and those whose cell, in
   the mesh of the rank's points, is not strictly inside the hull. *)
Theorem visible_points_partial : forall val low dx uniq tess pts m, (0 < dx)%Q -> RankPoints val low dx uniq pts -> SeenBent (points2 val pts) dx ->
  tess pts = Ok m -> PolygonMesh (length pts / 2) m ->
  exists h vs cs, localHull2 val low dx uniq tess pts = Ok h /\ Chosen (points2 val pts) vs cs /\ 3 <= length cs /\ StrictlyConvex cs /\ (forall p, In p (points2 val pts) -> InPolygon p cs) /\
    Forall2 (facet_between (points2 val (rpoints h))) (rfacets h) (ring cs) /\ incl (rpoints h) pts /\
    forall i p, nth_error (points2 val pts) i = Some p -> (exists q, In q (points2 val (rpoints h)) /\ SamePoint q p) <->
      ((exists c, In c cs /\ SamePoint c p) \/ exists j p', nth_error (points2 val pts) j = Some p' /\ SamePoint p' p /\ exists x, CornerOf m j x /\ ~ StrictlyInside (node2 val m x) cs).
Proof.
  intros val low dx uniq tess pts m Dx [(k & L) Fi Few (zs & hs & G & Ap & Hp & SF) _] Sb TS PM. replace (length pts / 2) with (S k) in PM by (rewrite L, Nat.mul_comm, Nat.div_mul; auto).
  destruct (convex_hull_partial _ _ _ _ _ _ Dx G Ap Sb Hp SF) as (fs & E & vs & cs & -> & Ch & L3 & SC & IP).
  destruct (local_full val low dx uniq tess pts (S k) m L ltac:(lia) TS vs cs PM E Ch L3 SC IP) as (h & E1 & OU & I & Lh & SI & F & Ic & Ex). exists h, vs, cs. auto 10.
Qed.
Print Assumptions visible_points_partial.

(* Two hulls with a point in common are found to meet, and for proper hulls only these are. *)
Theorem hulls_meet_partial : forall val pa pb a b, Outline val pa a -> Outline val pb b ->
  (exists x, Combination (points2 val pa) x /\ Combination (points2 val pb) x) -> convexIntersect (rmap val a) (rmap val b) = Ok true.
Proof. intros val pa pb a b OA OB (x & CA & CB). eapply meet_found; eauto. Qed.
Print Assumptions hulls_meet_partial.
Theorem polygon_hulls_meet : forall val pa pb a b ca cb, Outline val pa a -> Outline val pb b -> StrictlyConvex ca -> StrictlyConvex cb -> 3 <= length ca -> 3 <= length cb ->
  Forall2 (facet_between (points2 val (rpoints a))) (rfacets a) (ring ca) -> Forall2 (facet_between (points2 val (rpoints b))) (rfacets b) (ring cb) ->
  incl ca (points2 val (rpoints a)) -> incl cb (points2 val (rpoints b)) ->
  exists o, convexIntersect (rmap val a) (rmap val b) = Ok o /\ (o = true <-> exists x, Combination (points2 val pa) x /\ Combination (points2 val pb) x).
Proof.
  intros val pa pb a b ca cb OA OB Va Vb La Lb Fa Fb Ia Ib. destruct (meet_sym val pa pb a b OA OB) as (o & E & _). exists o. split; auto. split.
  - intros ->. destruct (polygons_meet val pa pb a b ca cb OA OB Va Vb La Lb Fa Fb Ia Ib E) as (x & Ha & Hb). apply (polygon_is_hull ca x Va La) in Ha. apply (polygon_is_hull cb x Vb Lb) in Hb.
    exists x. split; [apply (comb_incl x ca)|apply (comb_incl x cb)]; auto; intros p I; [apply (ou_own _ _ _ OA)|apply (ou_own _ _ _ OB)]; auto.
  - intros (x & CA & CB). rewrite (meet_found val pa pb a b x OA OB CA CB) in E. congruence.
Qed.
Print Assumptions polygon_hulls_meet.

(* The whole run in the plane: the lists are mutual, a rank is listed when its points and those of
   this rank have convex hulls with a point in common, and when the visible cells touch. *)
Theorem domain_neighbors_partial : forall val n low dx uniq tess tessAll pts, (0 < dx)%Q -> (Z.of_nat n < 2 ^ 32)%Z ->
  (forall r, r < n -> RankPoints val low dx (uniq r) (pts r) /\ exists m, tess (pts r) = Ok m /\ PolygonMesh (length (pts r) / 2) m) ->
  exists hull, (forall r, r < n -> localHull2 val low dx (uniq r) tess (pts r) = Ok (hull r) /\ Outline val (pts r) (hull r)) /\
    forall m, tessAll (gathered n (visible hull)) = Ok m -> WellFormed 2 m -> length (cells m) = length (gathered n (visible hull)) / 2 ->
    exists nb, Together n (fun r => domainNeighbors2 val low dx (uniq r) tess n tessAll r (pts r)) (fun r => Ok (nb r)) /\
      (forall r s, r < n -> s < n -> In s (nb r) <-> In r (nb s)) /\
      (forall r, r < n -> NeighborList n (fun r s => convexIntersect (rmap val (hull r)) (rmap val (hull s)) = Ok true) m (Owns 2 (visible hull)) r (nb r)) /\
      (forall r s x, r < n -> s < n -> s <> r -> Combination (points2 val (pts r)) x -> Combination (points2 val (pts s)) x -> In s (nb r)).
Proof.
  intros val n low dx uniq tess tessAll pts Dx Ln H.
  assert (Ex : forall r, exists h, r < n -> localHull2 val low dx (uniq r) tess (pts r) = Ok h /\ Outline val (pts r) h /\ fits (TReducedPLC TDouble) h /\ (Z.of_nat (length (serialize (TReducedPLC TDouble) h)) < 2 ^ 32)%Z).
  { intros r. destruct (lt_dec r n) as [L|L]; [|exists (mkRPLC [] [] []); intros; lia]. destruct (H r L) as (RP & m & TS & PM). destruct (rank_hull _ _ _ _ _ _ _ Dx RP TS PM) as (h & E). exists h. auto. }
  destruct (ExchangeProofs2.choose (mkRPLC [] [] []) _ n (fun r L => match Ex r with ex_intro _ h Eh => ex_intro _ h (Eh L) end)) as [hull HH]. cbv beta in HH.
  exists hull. split; [intros r L; destruct (HH r L) as (A & B & _); auto|]. intros m TA WF Ce.
  assert (SD : Sendable 2 n hull). { constructor; auto; try (intros r L; destruct (HH r L) as (A & B & C & D); auto). destruct (ou_whole _ _ _ B) as [c Ec]. eauto. }
  destruct (run_plane val n low dx uniq tess tessAll pts hull m (fun r L => proj1 (HH r L)) (fun r L => proj1 (proj2 (HH r L))) SD TA WF Ce) as (nb & T & NL & M). exists nb. split; auto. split; auto. split; auto.
  intros r s x Lr Ls Ne Cr Cs. apply (nl_exact _ _ _ _ _ _ (NL r Lr)). split; auto. split; auto. left. destruct (HH r Lr) as (_ & Or & _). destruct (HH s Ls) as (_ & Os & _). eapply meet_found; eauto.
Qed.
Print Assumptions domain_neighbors_partial.
