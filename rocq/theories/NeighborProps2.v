(* C69: domains whose cells touch are neighbors where they touch outside of the hulls, not always. *)
From Verif Require Import Base BaseFacts SerializeModel SerializeSpec MeshModel MeshSpec MeshProofs MeshCheck PLCModel PLCSpec Plane AreaProofs WithinModel WithinSpec WithinProofs4 WithinProofs5 WithinProps
  HullModel HullSpec HullProofs3 HullProofs5 HullProps CollModel SerialDistModel SerialDistSpec SerialDistProofs CheckProofs
  StdAlg NeighborModel NeighborSpec NeighborProofs NeighborProofs2 NeighborProofs3 NeighborProofs4 NeighborProofs5 NeighborProps.
From Coq Require Import Sorted QArith Lqa Permutation.
Local Open Scope nat_scope.

(* a reading of patterns: hundredths for the small ones, all fractions for the others *)
Definition xval (z : Z) : Q := if (z <? 2 ^ 16)%Z then Qmake (z - 2 ^ 15) 100 else let w := (z - 2 ^ 16)%Z in Qmake (w / 2 ^ 80 - 2 ^ 79) (Z.to_pos (w mod 2 ^ 80 + 1)).
Definition enc (z : Z) : Z := (z + 2 ^ 15)%Z.
Definition enc2 (l : list (Z * Z)) : list Z := flat_map (fun p => [enc (fst p); enc (snd p)]) l.
Definition xA : list (Z * Z) := [(-10000, 20); (10000, 20); (0, 20000); (-400, 100); (400, 100); (0, 1000); (-1000, 2000); (1000, 2000)]%Z.
Definition xB : list (Z * Z) := [(0, 0); (-20, -100); (20, -100)]%Z.
Definition xC : list (Z * Z) := [(-100, 8); (100, 8); (-200, -300); (200, -300)]%Z.
Definition xpts (r : nat) : list Z := match r with 0 => enc2 xA | 1 => enc2 xB | _ => enc2 xC end.
Definition xlow : p2 := (-(100), -(3))%Q.
Definition xzs (r : nat) : list (Z * Z) := map (fun p => (fst p + 10000, snd p + 300)%Z) (match r with 0 => xA | 1 => xB | _ => xC end).
Definition xuniq (r : nat) : list hpt := lin_fill (hashes (xzs r)) [].

(* the points of a gathered list *)
Lemma whole_gathered n pts : (forall r, r < n -> exists c, length (pts r) = 2 * c) -> exists c, length (gathered n pts) = 2 * c.
Proof. induction n as [|n IH]; intros H; [exists 0; auto|]. destruct IH as [c E]; [auto|]. destruct (H n) as [d F]; auto. exists (c + d). rewrite gathered_S, app_length, E, F. lia. Qed.
Lemma owner_point val n pts r i p : (forall r, r < n -> exists c, length (pts r) = 2 * c) -> r < n -> Owns 2 pts r i -> nth_error (points2 val (gathered n pts)) i = Some p -> In p (points2 val (pts r)).
Proof.
  intros H L [O1 O2] E. assert (Sp : exists rest, gathered n pts = gathered r pts ++ pts r ++ rest).
  { unfold gathered. replace n with (r + S (n - S r)) by lia. rewrite seq_app, flat_map_app. cbn [seq flat_map Nat.add]. eauto. } destruct Sp as [rest Sp].
  destruct (whole_gathered r pts) as [c Ec]; [intros; apply H; lia|]. destruct (H r L) as [d Ed]. unfold before in *. rewrite gathered_S, app_length in O2. rewrite Ec, Ed in *. rewrite Nat.mul_comm, Nat.div_mul in O1 by lia. replace (2 * c + 2 * d) with ((c + d) * 2) in O2 by lia. rewrite Nat.div_mul in O2 by lia.
  rewrite Sp, (points2_app val _ _ _ Ec), (points2_app val _ _ _ Ed) in E. assert (Lc := points2_len val _ _ Ec). assert (Ld := points2_len val _ _ Ed).
  rewrite nth_error_app2, nth_error_app1 in E by lia. eapply nth_error_In; eauto.
Qed.
Lemma gathered_in val n pts r p : (forall r, r < n -> exists c, length (pts r) = 2 * c) -> r < n -> In p (points2 val (pts r)) -> In p (points2 val (gathered n pts)).
Proof.
  intros H L I. assert (Sp : exists rest, gathered n pts = gathered r pts ++ pts r ++ rest).
  { unfold gathered. replace n with (r + S (n - S r)) by lia. rewrite seq_app, flat_map_app. cbn [seq flat_map Nat.add]. eauto. } destruct Sp as [rest Sp].
  destruct (whole_gathered r pts) as [c Ec]; [intros; apply H; lia|]. destruct (H r L) as [d Ed]. rewrite Sp, (points2_app val _ _ _ Ec), (points2_app val _ _ _ Ed). apply in_or_app. right. apply in_or_app. auto.
Qed.

Lemma point_owner val n pts r p : (forall r, r < n -> exists c, length (pts r) = 2 * c) -> r < n -> In p (points2 val (pts r)) -> exists i, Owns 2 pts r i /\ nth_error (points2 val (gathered n pts)) i = Some p.
Proof.
  intros H L I. assert (Sp : exists rest, gathered n pts = gathered r pts ++ pts r ++ rest).
  { unfold gathered. replace n with (r + S (n - S r)) by lia. rewrite seq_app, flat_map_app. cbn [seq flat_map Nat.add]. eauto. } destruct Sp as [rest Sp].
  destruct (whole_gathered r pts) as [c Ec]; [intros; apply H; lia|]. destruct (H r L) as [d Ed]. assert (Lc := points2_len val _ _ Ec). assert (Ld := points2_len val _ _ Ed).
  apply In_nth_error in I as [k Ek]. pose proof (nth_error_lt _ _ _ Ek). exists (c + k). unfold Owns, before. rewrite gathered_S, app_length, Ec, Ed, Sp, (points2_app val _ _ _ Ec), (points2_app val _ _ _ Ed).
  rewrite Nat.mul_comm, Nat.div_mul by lia. replace (c * 2 + 2 * d) with ((c + d) * 2) by lia. rewrite Nat.div_mul by lia. split; [lia|]. rewrite nth_error_app2, nth_error_app1 by lia. rewrite <- Ek. f_equal. lia.
Qed.
(* a point with a cell that reaches x, outside of the hull, is visible *)
Lemma reach_visible val low dx uniq tess pts m Box i p x : (0 < dx)%Q -> RankPoints val low dx uniq pts -> tess pts = Ok m -> PolygonMesh (length pts / 2) m -> CompleteMesh val Box pts m ->
  nth_error (points2 val pts) i = Some p -> Box x -> InCell (points2 val pts) p x -> NotInside (points2 val pts) x ->
  exists h q, localHull2 val low dx uniq tess pts = Ok h /\ In q (points2 val (rpoints h)) /\ SamePoint q p.
Proof.
  intros Dx RP TS PM CM Ei Bx Ic NI. destruct (rp_shape _ _ _ _ _ RP) as [Sb|Ol].
  - destruct (visible_points_partial _ _ _ _ _ _ _ Dx RP Sb TS PM) as (h & vs & cs & E & Ch & L3 & SC & IP & F & _ & V). exists h. destruct (proj2 (V i p Ei)) as (q & Iq & Sq); [|eauto].
    right. exists i, p. split; auto. split; [split; reflexivity|]. destruct (cm_cover _ _ _ _ CM i p x Ei Bx Ic) as (ns & Hn & Cb).
    assert (Iv : incl cs (points2 val pts)). { intros c I. destruct (Forall2_in_r _ _ _ _ Ch I) as (v & _ & Ev). eapply nth_error_In; eauto. }
    specialize (NI cs Iv L3 SC IP).
    destruct (existsb (fun y => existsb (fun e => Qle_bool (orient (fst e) (snd e) y) 0) (ring cs)) ns) eqn:X.
    + apply existsb_exists in X as (y & Iy & X). apply existsb_exists in X as ([u v] & Ie & X). apply Qle_bool_iff in X. cbn [fst snd] in X. destruct (Hn y Iy) as (k & Ck & ->). exists k. split; auto. intros SI. specialize (SI u v Ie). lra.
    + exfalso. apply NI. intros u v Ie. rewrite <- val_edge. apply (combination_gt _ ns x Cb). intros y Iy. rewrite val_edge. apply Qnot_le_lt. intros Q. apply not_true_iff_false in X. apply X. apply existsb_exists. exists y. split; auto. apply existsb_exists. exists (u, v). split; auto. apply Qle_bool_iff. auto.
  - destruct RP as [(k & L) Fi Few (zs & hs & G & Ap & Hp & SF) _]. assert (LN := points2_len val pts (S k) L). assert (Ne : points2 val pts <> []) by (intros Z; rewrite Z in LN; discriminate).
    destruct (convex_hull_line _ _ _ _ _ _ Dx Ne G Ap Ol Hp SF) as (i0 & j0 & a & b & E & Ei0 & Ej0 & _).
    destruct (local_line val low dx uniq tess pts (S k) m L ltac:(lia) TS i0 j0 E) as (h & E1 & OU & Ep & SI); auto; try (rewrite <- LN; eapply nth_error_lt; eauto). exists h, p. split; auto. rewrite Ep. split; [eapply nth_error_In; eauto|split; reflexivity].
Qed.
(* Cells that touch, in the diagram of all points, somewhere outside of the hulls of their own
   ranks make neighbors. *)
Theorem outer_touch_partial : forall val n low dx uniq tess tessAll pts Box, (0 < dx)%Q -> (Z.of_nat n < 2 ^ 32)%Z ->
  (forall r, r < n -> RankPoints val low dx (uniq r) (pts r) /\ exists m, tess (pts r) = Ok m /\ PolygonMesh (length (pts r) / 2) m /\ CompleteMesh val Box (pts r) m) ->
  (forall hull, (forall r, r < n -> localHull2 val low dx (uniq r) tess (pts r) = Ok (hull r)) ->
     exists m, tessAll (gathered n (visible hull)) = Ok m /\ WellFormed 2 m /\ length (cells m) = length (gathered n (visible hull)) / 2 /\ CompleteMesh val Box (gathered n (visible hull)) m) ->
  exists nb, Together n (fun r => domainNeighbors2 val low dx (uniq r) tess n tessAll r (pts r)) (fun r => Ok (nb r)) /\
    forall r s p q x, r < n -> s < n -> s <> r -> In p (points2 val (pts r)) -> In q (points2 val (pts s)) -> Box x ->
      InCell (points2 val (gathered n pts)) p x -> InCell (points2 val (gathered n pts)) q x ->
      NotInside (points2 val (pts r)) x -> NotInside (points2 val (pts s)) x -> In s (nb r).
Proof.
  intros val n low dx uniq tess tessAll pts Box Dx Ln H T2.
  destruct (domain_neighbors_partial val n low dx uniq tess tessAll pts Dx Ln) as (hull & HH & Run). { intros r L. destruct (H r L) as (RP & m & A & B & _). eauto. }
  destruct (T2 hull (fun r L => proj1 (HH r L))) as (m & TA & WF & Ce & CM). destruct (Run m TA WF Ce) as (nb & T & _ & NL & _). exists nb. split; auto.
  intros r s p q x Lr Ls Ne Ip Iq Bx Cp Cq Np Nq.
  assert (WhP : forall r, r < n -> exists c, length (pts r) = 2 * c). { intros t L. destruct (H t L) as (RP & _). destruct (rp_whole _ _ _ _ _ RP) as [c Ec]. eauto. }
  assert (Wh : forall r, r < n -> exists c, length (visible hull r) = 2 * c). { intros t L. destruct (HH t L) as (_ & OU). destruct (ou_whole _ _ _ OU) as [c Ec]. unfold visible. eauto. }
  assert (Sub : forall y, In y (points2 val (gathered n (visible hull))) -> In y (points2 val (gathered n pts))).
  { intros y Iy. apply In_nth_error in Iy as [k Ek]. assert (O : exists t, t < n /\ Owns 2 (visible hull) t k). { apply nth_error_lt in Ek. destruct (whole_gathered n _ Wh) as [d Ed]. rewrite (points2_len _ _ _ Ed) in Ek.
      assert (B : k < before 2 (visible hull) n) by (unfold before; rewrite Ed, Nat.mul_comm, Nat.div_mul; auto). clear -B. revert B. generalize (visible hull). intros vs B. induction n as [|n IH]; [cbn in B; lia|]. destruct (lt_dec k (before 2 vs n)) as [C|C]; [destruct (IH C) as (t & A1 & A2); exists t; auto|]. exists n. split; auto. split; auto. lia. }
    destruct O as (t & Lt & O). pose proof (owner_point val n (visible hull) t k y Wh Lt O Ek) as I. apply (gathered_in val n pts t y WhP Lt). apply (ou_own _ _ _ (proj2 (HH t Lt))). auto. }
  assert (Vis : forall t u, t < n -> In u (points2 val (pts t)) -> InCell (points2 val (gathered n pts)) u x -> NotInside (points2 val (pts t)) x ->
    exists i v, Owns 2 (visible hull) t i /\ nth_error (points2 val (gathered n (visible hull))) i = Some v /\ InCell (points2 val (gathered n (visible hull))) v x).
  { intros t u Lt Iu Cu Nu. apply In_nth_error in Iu as [k Ek]. destruct (H t Lt) as (RP & m' & A & B & C).
    destruct (reach_visible val low dx (uniq t) tess (pts t) m' Box k u x Dx RP A B C Ek Bx) as (h & v & Eh & Iv & Sv); auto. { intros y Iy. apply Cu. apply (gathered_in val n pts t); auto. }
    rewrite (proj1 (HH t Lt)) in Eh. injection Eh as <-. destruct (point_owner val n (visible hull) t v Wh Lt Iv) as (i & O & Ei). exists i, v. split; auto. split; auto. intros y Iy. specialize (Cu y (Sub y Iy)).
    destruct Sv as [S1 S2]. unfold dist2 in *. rewrite S1, S2. auto. }
  destruct (Vis r p Lr Ip Cp Np) as (i & u & Oi & Ei & Ci). destruct (Vis s q Ls Iq Cq Nq) as (j & v & Oj & Ej & Cj). destruct (cm_touch _ _ _ _ CM i j u v x Ei Ej Bx Ci Cj) as (k & Ki & Kj).
  apply (nl_exact _ _ _ _ _ _ (NL r Lr)). split; auto. split; auto. right. exists k. split; [exists i|exists j]; auto.
Qed.
Print Assumptions outer_touch_partial.

Definition convexb (ps : list p2) : bool :=
  let n := length ps in let at_ i := nth i ps (0, 0)%Q in
  forallb (fun i => forallb (fun j => forallb (fun k => implb ((i <? j) && (j <? k)) (negb (Qle_bool (orient (at_ i) (at_ j) (at_ k)) 0))) (seq 0 n)) (seq 0 n)) (seq 0 n).
Lemma convexb_ok ps : convexb ps = true -> StrictlyConvex ps.
Proof.
  intros H i j k a b c L A B C. unfold convexb in H. cbv zeta in H. rewrite forallb_forall in H. assert (S1 : forall i a, nth_error ps i = Some a -> In i (seq 0 (length ps)) /\ nth i ps (0, 0)%Q = a) by (intros x y E; split; [apply in_seq; apply nth_error_lt in E; lia|apply nth_error_nth; auto]).
  destruct (S1 _ _ A) as [IA EA]. destruct (S1 _ _ B) as [IB EB]. destruct (S1 _ _ C) as [IC EC]. specialize (H i IA). rewrite forallb_forall in H. specialize (H j IB). rewrite forallb_forall in H. specialize (H k IC).
  rewrite EA, EB, EC in H. replace (i <? j) with true in H by (symmetry; apply Nat.ltb_lt; lia). replace (j <? k) with true in H by (symmetry; apply Nat.ltb_lt; lia). cbn [andb implb] in H.
  apply Qnot_le_lt. intros Q. apply Qle_bool_iff in Q. rewrite Q in H. discriminate.
Qed.
Definition insideb (ps cs : list p2) : bool := forallb (fun p => forallb (fun e => Qle_bool 0 (orient (fst e) (snd e) p)) (ring cs)) ps.
Lemma insideb_ok ps cs : insideb ps cs = true -> forall p, In p ps -> InPolygon p cs.
Proof. intros H p I a b R. unfold insideb in H. rewrite forallb_forall in H. specialize (H p I). rewrite forallb_forall in H. specialize (H (a, b) R). apply Qle_bool_iff in H. auto. Qed.

Definition xps (r : nat) : list p2 := map (fun p => (Qmake (fst p) 100, Qmake (snd p) 100)) (match r with 0 => xA | 1 => xB | _ => xC end).
Definition xvs (r : nat) : list nat := match r with 0 => [0; 1; 2] | 1 => [1; 2; 0] | _ => [2; 3; 1; 0] end.
Definition xcs (r : nat) : list p2 := map (fun i => nth i (xps r) (0, 0)%Q) (xvs r).
Lemma xpoints r : points2 xval (xpts r) = xps r.
Proof. destruct r as [|[|r]]; reflexivity. Qed.
Lemma xhull r : convexHull_2d (xps r) xlow (1 # 100) (xuniq r) = Ok (polygon_facets (xvs r)) /\ Chosen (xps r) (xvs r) (xcs r) /\ 3 <= length (xcs r) /\ StrictlyConvex (xcs r) /\ (forall p, In p (xps r) -> InPolygon p (xcs r)).
Proof.
  destruct r as [|[|r]]; (split; [vm_compute; reflexivity|]); (split; [repeat constructor|]); (split; [cbn; lia|]); (split; [apply convexb_ok; vm_compute; reflexivity|apply insideb_ok; vm_compute; reflexivity]).
Qed.
Lemma xrank r : RankPoints xval xlow (1 # 100) (xuniq r) (xpts r).
Proof.
  assert (K : forall r', (r' = 0 \/ r' = 1 \/ r' = 2) -> RankPoints xval xlow (1 # 100) (xuniq r') (xpts r')).
  2: { destruct r as [|[|r]]; [apply (K 0)|apply (K 1)|apply (K 2)]; auto. }
  intros r' H. constructor.
  - destruct H as [->|[->| ->]]; [exists 7|exists 2|exists 3]; reflexivity.
  - destruct H as [->|[->| ->]]; repeat constructor; unfold enc; cbn; lia.
  - destruct H as [->|[->| ->]]; cbn; lia.
  - exists (xzs r'), (hashes (xzs r')). rewrite xpoints. split; [|split; [|split; [|apply lin_fill_ok]]].
    + destruct H as [->|[->| ->]]; repeat constructor; try reflexivity; cbn; lia.
    + apply apartb_ok. destruct H as [->|[->| ->]]; reflexivity.
    + destruct H as [->|[->| ->]]; vm_compute; reflexivity.
  - left. rewrite xpoints. exists 1, 2. destruct H as [->|[->| ->]]; (eexists _, _, _; split; [|split; [cbn; lia|split; [lia|split; [reflexivity|split; [reflexivity|split; [reflexivity|]]]]]]);
    first [unfold Bent; repeat split; vm_compute; discriminate|eexists _, _; (split; [reflexivity|]); (split; [reflexivity|]); (split; [vm_compute; discriminate|]); intros [|i] p L E; [injection E as <-; vm_compute; auto|lia]].
Qed.

(* the cell of the point (0, 10) is inside the hull of its rank, whatever the mesh *)
Lemma g_inside x : InCell (xps 0) (0 # 100, 1000 # 100)%Q x -> StrictlyInside x (xcs 0).
Proof.
  intros H a b I. destruct x as [x y].
  assert (H3 := H (-400 # 100, 100 # 100)%Q ltac:(cbn; auto 10)). assert (H4 := H (400 # 100, 100 # 100)%Q ltac:(cbn; auto 10)). assert (H5 := H (-1000 # 100, 2000 # 100)%Q ltac:(cbn; auto 10)). assert (H6 := H (1000 # 100, 2000 # 100)%Q ltac:(cbn; auto 10)).
  unfold dist2 in *. cbn [fst snd] in *. clear H.
  cbn in I. destruct I as [E|[E|[E|[]]]]; injection E as <- <-; unfold orient; cbn [fst snd]; lra.
Qed.
(* no point is nearest to a point of A other than this one and to a point of B, if the corners of
   the hulls are there *)
Lemma no_common ps a b x : (forall r, r < 3 -> incl (xcs r) ps) -> In a (xps 0) -> a <> (0 # 100, 1000 # 100)%Q -> In b (xps 1) -> In a ps -> In b ps -> InCell ps a x -> InCell ps b x -> False.
Proof.
  intros C Ia Ng Ib Pa Pb Ha Hb. destruct x as [x y].
  pose proof (Ha b Pb) as H1. pose proof (Hb a Pa) as H2. assert (C1 : forall q, In q (xcs 1) -> In q ps) by (apply C; lia). assert (C2 : forall q, In q (xcs 2) -> In q ps) by (apply C; lia).
  pose proof (Ha (-100 # 100, 8 # 100)%Q (C2 (-100 # 100, 8 # 100)%Q ltac:(cbn; auto 10))) as A1. pose proof (Ha (100 # 100, 8 # 100)%Q (C2 (100 # 100, 8 # 100)%Q ltac:(cbn; auto 10))) as A2.
  pose proof (Hb (-100 # 100, 8 # 100)%Q (C2 (-100 # 100, 8 # 100)%Q ltac:(cbn; auto 10))) as B1. pose proof (Hb (100 # 100, 8 # 100)%Q (C2 (100 # 100, 8 # 100)%Q ltac:(cbn; auto 10))) as B2.
  pose proof (Hb (-200 # 100, -300 # 100)%Q (C2 (-200 # 100, -300 # 100)%Q ltac:(cbn; auto 10))) as B3. pose proof (Hb (200 # 100, -300 # 100)%Q (C2 (200 # 100, -300 # 100)%Q ltac:(cbn; auto 10))) as B4.
  pose proof (Hb (0 # 100, 0 # 100)%Q (C1 (0 # 100, 0 # 100)%Q ltac:(cbn; auto 10))) as B5.
  clear Ha Hb Pa Pb C C1 C2. unfold dist2 in *.
  cbn in Ia, Ib. destruct Ib as [<-|[<-|[<-|[]]]]; cbn [fst snd] in *;
    (destruct Ia as [<-|[<-|[<-|[<-|[<-|[<-|[<-|[<-|[]]]]]]]]]; cbn [fst snd] in *; [lra|lra|lra|lra|lra|congruence|lra|lra]).
Qed.

Theorem neighbors_missed_refuted : exists val low dx uniq pts,
  (0 < dx)%Q /\ (forall r, RankPoints val low dx (uniq r) (pts r)) /\
  (* the cells of a point of rank 0 and a point of rank 1 have a side in common in the diagram of all points *)
  (exists g h, In g (points2 val (pts 0)) /\ In h (points2 val (pts 1)) /\
     forall t, (- (1 # 10) <= t <= 1 # 10)%Q -> InCell (points2 val (gathered 3 pts)) g (t, 5)%Q /\ InCell (points2 val (gathered 3 pts)) h (t, 5)%Q) /\
  forall tess tessAll, (forall r, r < 3 -> exists m, tess (pts r) = Ok m /\ VoronoiMesh val (pts r) m) ->
    (forall hull, (forall r, r < 3 -> localHull2 val low dx (uniq r) tess (pts r) = Ok (hull r)) ->
       exists m, tessAll (gathered 3 (visible hull)) = Ok m /\ WellFormed 2 m /\ VoronoiMesh val (gathered 3 (visible hull)) m) ->
    exists nb, Together 3 (fun r => domainNeighbors2 val low dx (uniq r) tess 3 tessAll r (pts r)) (fun r => Ok (nb r)) /\
      ~ In 1 (nb 0) /\ ~ In 0 (nb 1).
Proof.
  exists xval, xlow, (1 # 100)%Q, xuniq, xpts. split; [reflexivity|]. split; [exact xrank|]. split.
  - exists (0 # 100, 1000 # 100)%Q, (0 # 100, 0 # 100)%Q. rewrite !xpoints. split; [cbn; auto 10|]. split; [cbn; auto|]. intros t Ht.
    assert (G : points2 xval (gathered 3 xpts) = xps 0 ++ xps 1 ++ xps 2) by reflexivity. rewrite G. clear G.
    split; intros q I; unfold dist2; cbn [fst snd]; cbn in I; repeat (destruct I as [<-|I]; [cbn [fst snd]; lra|]); destruct I.
  - intros tess tessAll T1 T2.
    set (P := fun (r : nat) (h : rplc Z) => localHull2 xval xlow (1 # 100) (xuniq r) tess (xpts r) = Ok h /\ Outline xval (xpts r) h /\
      (fits (TReducedPLC TDouble) h /\ (Z.of_nat (length (serialize (TReducedPLC TDouble) h)) < 2 ^ 32)%Z) /\
      Forall2 (facet_between (points2 xval (rpoints h))) (rfacets h) (ring (xcs r)) /\ incl (xcs r) (points2 xval (rpoints h)) /\
      (r = 0 -> ~ In (0 # 100, 1000 # 100)%Q (points2 xval (rpoints h)))).
    assert (HH : exists hull, forall r, r < 3 -> P r (hull r)).
    { apply (ExchangeProofs2.choose (mkRPLC [] [] []) P 3). unfold P. clear P. intros r Lr. destruct (T1 r Lr) as (m & Em & PM & VM). destruct (xhull r) as (E & Ch & L3 & SC & IP). destruct (rp_whole _ _ _ _ _ (xrank r)) as (k & Lk). rewrite <- xpoints in E, Ch, IP.
      replace (length (xpts r) / 2) with (S k) in PM by (rewrite Lk, Nat.mul_comm, Nat.div_mul; auto).
      destruct (local_full xval xlow (1 # 100) (xuniq r) tess (xpts r) (S k) m Lk ltac:(lia) Em _ _ PM E Ch L3 SC IP) as (h & E1 & OU & I & Lh & SI & F & Ic & Ex). exists h. split; auto. split; auto.
      split. { apply (sendable_one (xpts r) (S k)); auto; [|apply (rp_fits _ _ _ _ _ (xrank r))]. pose proof (rp_few _ _ _ _ _ (xrank r)). lia. }
      split; auto. split; auto. intros -> Ig. assert (E5 : nth_error (points2 xval (xpts 0)) 5 = Some (0 # 100, 1000 # 100)%Q) by reflexivity.
      destruct (proj1 (Ex 5 _ E5)) as [(c & I1 & S1)|(j & p' & Ej & Sp & x & Cx & Nx)]; [exists (0 # 100, 1000 # 100)%Q; split; auto; split; reflexivity| |].
      - destruct S1 as [S1 S2]. cbn in I1. repeat (destruct I1 as [<-|I1]; [cbn [fst snd] in *; first [vm_compute in S1; discriminate|vm_compute in S2; discriminate]|]). destruct I1.
      - assert (j = 5). { rewrite xpoints in Ej. destruct Sp as [S1 S2]. do 8 (destruct j as [|j]; [cbn in Ej; injection Ej as <-; cbn [fst snd] in *; first [reflexivity|vm_compute in S1; discriminate|vm_compute in S2; discriminate]|]). destruct j; discriminate. } subst j. rewrite E5 in Ej. injection Ej as <-.
        apply Nx. apply g_inside. rewrite <- xpoints. apply (VM 5); auto. destruct Cx as (c & z & a & b & A1 & A2 & A3 & ->). exists c, z, [a; b]. repeat (split; auto). destruct (z <? 0)%Z; cbn; auto. }
    destruct HH as [hull HH]. unfold P in HH. clear P. destruct (T2 hull (fun r L => proj1 (HH r L))) as (m & Em & WF & PM & VM).
    assert (Wh : forall r, r < 3 -> exists c, length (visible hull r) = 2 * c). { intros r L. destruct (HH r L) as (_ & OU & _). destruct (ou_whole _ _ _ OU) as [c Ec]. unfold visible. eauto. }
    assert (SD : Sendable 2 3 hull). { constructor; auto; [reflexivity|intros r L; apply (proj1 (proj1 (proj2 (proj2 (HH r L)))))|intros r L; apply (proj2 (proj1 (proj2 (proj2 (HH r L)))))]. }
    destruct (run_plane xval 3 xlow (1 # 100) xuniq tess tessAll xpts hull m (fun r L => proj1 (HH r L)) (fun r L => proj1 (proj2 (HH r L))) SD Em WF (pm_cells _ _ PM)) as (nb & T & NL & M).
    exists nb. split; auto. assert (N01 : ~ In 1 (nb 0)); [|split; auto; intros I; apply N01; apply M; auto].
    intros I. apply (nl_exact _ _ _ _ _ _ (NL 0 ltac:(lia))) in I as (_ & _ & [Me|(x & (i & Oi & Ni) & (j & Oj & Nj))]).
    + destruct (HH 0 ltac:(lia)) as (_ & OA & _ & FA & IA & _). destruct (HH 1 ltac:(lia)) as (_ & OB & _ & FB & IB & _). destruct (xhull 0) as (_ & _ & LA & SA & _). destruct (xhull 1) as (_ & _ & LB & SB & _).
      destruct (polygons_meet xval _ _ _ _ _ _ OB OA SB SA LB LA FB FA IB IA Me) as ([x y] & HB & HA).
      specialize (HA (-10000 # 100, 20 # 100)%Q (10000 # 100, 20 # 100)%Q ltac:(cbn; auto)). pose proof (HB (20 # 100, -100 # 100)%Q (0 # 100, 0 # 100)%Q ltac:(cbn; auto)) as H1. pose proof (HB (0 # 100, 0 # 100)%Q (-20 # 100, -100 # 100)%Q ltac:(cbn; auto)) as H2.
      unfold orient in *. cbn [fst snd] in *. lra.
    + assert (Pt : forall i, NodeOf m i x -> exists p, nth_error (points2 xval (gathered 3 (visible hull))) i = Some p).
      { intros k (c & _ & _ & Ec & _). apply nth_error_ex. destruct (whole_gathered 3 _ Wh) as [d Ed]. rewrite (points2_len _ _ _ Ed). apply nth_error_lt in Ec. rewrite (pm_cells _ _ PM), Ed, Nat.mul_comm, Nat.div_mul in Ec; auto. }
      destruct (Pt i Ni) as [a Ea]. destruct (Pt j Nj) as [b Eb]. pose proof (owner_point xval 3 (visible hull) 0 i a Wh ltac:(lia) Oi Ea) as Ia. pose proof (owner_point xval 3 (visible hull) 1 j b Wh ltac:(lia) Oj Eb) as Ib. unfold visible in Ia, Ib.
      destruct (HH 0 ltac:(lia)) as (_ & OA & _ & _ & _ & Ng). destruct (HH 1 ltac:(lia)) as (_ & OB & _).
      apply (no_common (points2 xval (gathered 3 (visible hull))) a b (node2 xval m x)).
      * intros r Lr p Ip. apply (gathered_in _ _ _ r); auto. destruct (HH r Lr) as (_ & _ & _ & _ & Ic & _). apply Ic. auto.
      * rewrite <- xpoints. apply (ou_own _ _ _ OA). auto.
      * intros ->. apply Ng; auto.
      * rewrite <- xpoints. apply (ou_own _ _ _ OB). auto.
      * eapply nth_error_In; eauto.
      * eapply nth_error_In; eauto.
      * apply (VM i); auto.
      * apply (VM j); auto.
Qed.
Print Assumptions neighbors_missed_refuted.

(* ---- the diagrams of these points, cut off at a large square, are such meshes ---- *)
Definition mA : mesh Z := mkMesh [730750818665451459101117060866372732323142631424; 730750818665451459101117060866372732323142631424; 730750818665451459090479722579583610214902988999; 730750818665451459101117060866372732323142631424; 730750818665451458942277506353026219687672875499; 730750818665451459099002649607866745896581530234; 730750818665451458683401758118208372103616467292; 730750818665451460327559006681398269141636424377; 730750818665451459101117060866372732323142631424; 730750818665451463635313030987181300346951640837; 730750818665451459113205110136699409441029685447; 730750818665451459101117060866372732323142631424; 730750818665451459102567771849910287332790042624; 730750818665451459101117060866372732323142631424; 730750818665451459102567771849910287332790042624; 730750818665451463635313030987181300346951640837; 730750818665451459520283074598074647552316215644; 730750818665451460327559006681398269141636424377; 730750818665451459261407326363256799968259803627; 730750818665451459099002649607866745896581530234; 730750818665451459102567771849910287332790042624; 730750818665451459102567771849910287332790042624; 730750818665451459101117060866372732323142631424; 730750818665451459102567771849910287332790042624; 32768; 730750818665451459104230044851880402448011034641; 32768; 730750818665451459101117060866372732323142631424; 32768; 730750818665451459101942757201169524049466949649; 730750818665451459101507543906108257546572726297; 730750818665451459102136185332307864717419937817; 730750818665451459102177288810174762109359947801; 730750818665451459102136185332307864717419937817; 32768; 34768]%Z [[0; 1; 2; 3; 4]; [5; 6; 7; 8; 9]; [10; 11; 12; -4; 13; 14; -8]; [15; 16; 17; 18; -2]; [19; -10; 20; 21; -17]; [-18; -22; 22; 23]; [-3; -19; -24; 24; -14]; [-23; -21; -9; -15; -25]]%Z [[0; 1]; [1; 2]; [2; 3]; [3; 4]; [4; 0]; [5; 6]; [6; 7]; [7; 8]; [8; 9]; [9; 5]; [7; 10]; [10; 11]; [11; 4]; [3; 12]; [12; 8]; [1; 13]; [13; 14]; [14; 15]; [15; 2]; [13; 5]; [9; 16]; [16; 14]; [16; 17]; [17; 15]; [17; 12]] [] [] [[0]; [0; -4]; [0; -7]; [0; -3]; [0]; [1]; [1]; [1; -3]; [1; -8]; [1; -5]; [2]; [2]; [2]; [2; -7]; [2; -8]; [3]; [3; -5]; [3; -6]; [3; -7]; [4]; [4; -8]; [4; -6]; [5; -8]; [5; -7]; [6; -8]]%Z plc_new [] [] [].
Definition mB : mesh Z := mkMesh [730750818665451459102567771849910287332790042624; 44716; 730750818665451459102567771849910287332790042624; 730750818665451459102567771849910287332790042624; 730750818665451459101117060866372732323142631424; 730750818665451459102567771849910287332790042624; 730750818665451459101117060866372732323142631424; 44716; 32768; 32716; 730750818665451459101117060866372732323142631424; 730750818665451459101117060866372732323142631424; 32768; 730750818665451459101117060866372732323142631424; 730750818665451459102567771849910287332790042624; 730750818665451459101117060866372732323142631424]%Z [[0; 1; 2; 3; 4]; [5; 6; -4; 7]; [8; 9; -5; -7]]%Z [[0; 1]; [1; 2]; [2; 3]; [3; 4]; [4; 0]; [5; 6]; [6; 4]; [3; 5]; [6; 7]; [7; 0]] [] [] [[0]; [0]; [0]; [0; -2]; [0; -3]; [1]; [1; -3]; [1]; [2]; [2]]%Z plc_new [] [] [].
Definition mC : mesh Z := mkMesh [32768; 730750818665451459097311362386225879681167591300; 32768; 730750818665451459102567771849910287332790042624; 730750818665451459101117060866372732323142631424; 730750818665451459102567771849910287332790042624; 730750818665451459101117060866372732323142631424; 730750818665451459165959006127222982737683087634; 730750818665451459102567771849910287332790042624; 730750818665451459165959006127222982737683087634; 730750818665451459102567771849910287332790042624; 730750818665451459102567771849910287332790042624; 730750818665451459101117060866372732323142631424; 730750818665451459101117060866372732323142631424; 32768; 730750818665451459101117060866372732323142631424; 730750818665451459102567771849910287332790042624; 730750818665451459101117060866372732323142631424]%Z [[0; 1; 2; 3]; [4; 5; -1; 6]; [7; 8; -4; 9]; [10; 11; -7; -9]]%Z [[0; 1]; [1; 2]; [2; 3]; [3; 0]; [4; 5]; [5; 1]; [0; 4]; [6; 7]; [7; 0]; [3; 6]; [7; 8]; [8; 4]] [] [] [[0; -2]; [0]; [0]; [0; -3]; [1]; [1]; [1; -4]; [2]; [2; -4]; [2]; [3]; [3]]%Z plc_new [] [] [].
Definition mAll : mesh Z := mkMesh [730750818665451459101117060866372732323142631424; 730750818665451459101117060866372732323142631424; 730750818665451458997368255952864871179033314504; 730750818665451459101117060866372732323142631424; 730750818665451459026406654140008263955475662004; 730750818665451459064852913055392700969481471156; 730750818665451458942277506353026219687672875499; 730750818665451459099002649607866745896581530234; 730750818665451458683401758118208372103616467292; 730750818665451460327559006681398269141636424377; 730750818665451459101117060866372732323142631424; 730750818665451463635313030987181300346951640837; 730750818665451459206316576763418148476899361992; 730750818665451459101117060866372732323142631424; 730750818665451459102567771849910287332790042624; 730750818665451459101117060866372732323142631424; 730750818665451459102567771849910287332790042624; 730750818665451463635313030987181300346951640837; 730750818665451459520283074598074647552316215644; 730750818665451460327559006681398269141636424377; 730750818665451459261407326363256799968259803627; 730750818665451459099002649607866745896581530234; 730750818665451459177278178576274755700457014452; 730750818665451459064852913055392700969481471156; 730750818665451459102567771849910287332790042624; 730750818665451459102567771849910287332790042624; 730750818665451459101117060866372732323142631424; 730750818665451459102567771849910287332790042624; 32768; 730750818665451459104230044851880402448011034641; 32768; 730750818665451459107884627604575426443147805246; 32768; 730750818665451459102426327529015375719349420069; 730750818665451459090453126211552088373059456102; 730750818665451459098066941023485022915358952550; 730750818665451459113231706504730931282873224294; 730750818665451459098066941023485022915358952550; 32768; 33397; 730750818665451459101019137874983947359991432437; 730750818665451459098673821784931566761061456077; 32768; 32716; 730750818665451459102665694841299072295941244149; 730750818665451459098673821784931566761061456077; 32768; 32469; 730750818665451459092133533100816422925901041997; 730750818665451459065467047371756932590232229509; 730750818665451459111551299615466596730031640909; 730750818665451459065467047371756932590232229509; 32768; 730750818665451459101117060866372732323142631424]%Z [[0; 1; 2; 3; 4; 5]; [6; 7; 8; 9; 10; 11]; [12; 13; 14; -5; 15; 16; -9]; [17; 18; -3; 19; 20]; [-11; 21; -18; 22; 23]; [-4; -19; 24; -16]; [-22; -10; -17; -25]; [25; 26; 27; 28]; [29; -27; 30; 31]; [32; -28; -30; 33]; [-26; 34; -21; 35; -31]; [-23; -35; -29; -33; 36]; [37; 38; -32; -36; -20; -2]; [39; -12; -24; -37; -34; -39]]%Z [[0; 1]; [1; 2]; [2; 3]; [3; 4]; [4; 5]; [5; 0]; [6; 7]; [7; 8]; [8; 9]; [9; 10]; [10; 11]; [11; 6]; [8; 12]; [12; 13]; [13; 5]; [4; 14]; [14; 9]; [15; 16]; [16; 3]; [2; 17]; [17; 15]; [10; 16]; [15; 18]; [18; 11]; [16; 14]; [19; 20]; [20; 21]; [21; 22]; [22; 19]; [23; 21]; [20; 24]; [24; 23]; [25; 22]; [23; 25]; [19; 15]; [17; 24]; [25; 18]; [1; 26]; [26; 23]; [26; 6]] [] [] [[0]; [0; -13]; [0; -4]; [0; -6]; [0; -3]; [0]; [1]; [1]; [1; -3]; [1; -7]; [1; -5]; [1; -14]; [2]; [2]; [2]; [2; -6]; [2; -7]; [3; -5]; [3; -6]; [3; -13]; [3; -11]; [4; -7]; [4; -12]; [4; -14]; [5; -7]; [7; -11]; [7; -9]; [7; -10]; [7; -12]; [8; -10]; [8; -11]; [8; -13]; [9; -12]; [9; -14]; [10; -12]; [10; -13]; [11; -14]; [12]; [12; -14]; [13]]%Z plc_new [] [] [].
Definition xtess (l : list Z) : res (mesh Z) := Ok (if length l =? 16 then mA else if length l =? 6 then mB else if length l =? 8 then mC else mAll).
Definition polygonb (n : nat) (m : mesh Z) : bool :=
  (length (cells m) =? n) && forallb (fun c => (3 <=? length c) && forallb (fun z => match nth_error (faces m) (pid z) with Some [a; b] => (a <? length (nodes m) / 2) && (b <? length (nodes m) / 2) | _ => false end) c) (cells m).
Lemma polygonb_ok n m : polygonb n m = true -> PolygonMesh n m.
Proof.
  intros H. apply andb_true_iff in H as [H1 H2]. apply Nat.eqb_eq in H1. rewrite forallb_forall in H2. constructor; auto.
  - intros i c E. specialize (H2 c ltac:(eapply nth_error_In; eauto)). apply andb_true_iff in H2 as [H2 _]. apply Nat.leb_le in H2. auto.
  - intros i c z E I. specialize (H2 c ltac:(eapply nth_error_In; eauto)). apply andb_true_iff in H2 as [_ H2]. rewrite forallb_forall in H2. specialize (H2 z I). destruct (nth_error (faces m) (pid z)) as [[|a [|b [|]]]|]; try discriminate. apply andb_true_iff in H2 as [A B]. apply Nat.ltb_lt in A, B. eauto.
Qed.
Definition voronoib (ps : list p2) (m : mesh Z) : bool :=
  forallb (fun '(p, c) => forallb (fun z => match nth_error (faces m) (pid z) with Some ns => forallb (fun x => forallb (fun q => Qle_bool (dist2 (node2 xval m x) p) (dist2 (node2 xval m x) q)) ps) ns | None => false end) c) (combine ps (cells m)).
Lemma voronoib_ok pts m : polygonb (length pts / 2) m = true -> voronoib (points2 xval pts) m = true -> VoronoiMesh xval pts m.
Proof.
  intros P H. split; [apply polygonb_ok; auto|]. intros i p x Ei (c & z & ns & Ec & Iz & En & Ix) q Iq. unfold voronoib in H. rewrite forallb_forall in H.
  assert (I : In (p, c) (combine (points2 xval pts) (cells m))). { clear -Ei Ec. revert i Ei Ec. generalize (cells m). induction (points2 xval pts) as [|a l IH]; intros [|b l'] [|i] A B; try discriminate; cbn in *; [left; congruence|right; eauto]. }
  specialize (H _ I). cbv beta iota in H. rewrite forallb_forall in H. specialize (H z Iz). rewrite En in H. rewrite forallb_forall in H. specialize (H x Ix). rewrite forallb_forall in H. specialize (H q Iq). apply Qle_bool_iff in H. auto.
Qed.
(* the hulls they give: all points but the one in the middle of rank 0 *)
Definition xhulls (r : nat) : rplc Z := match r with
  | 0 => mkRPLC [[0; 1]; [1; 2]; [2; 0]]%Z [] (enc2 [(-10000, 20); (10000, 20); (0, 20000); (-400, 100); (400, 100); (-1000, 2000); (1000, 2000)]%Z)
  | 1 => mkRPLC [[1; 2]; [2; 0]; [0; 1]]%Z [] (enc2 xB)
  | _ => mkRPLC [[2; 3]; [3; 1]; [1; 0]; [0; 2]]%Z [] (enc2 xC) end.
Lemma xhulls_ok r : localHull2 xval xlow (1 # 100) (xuniq r) xtess (xpts r) = Ok (xhulls r).
Proof. destruct r as [|[|r]]; vm_compute; reflexivity. Qed.
Example missed_case : (forall r, r < 3 -> exists m, xtess (xpts r) = Ok m /\ VoronoiMesh xval (xpts r) m) /\
  (forall hull, (forall r, r < 3 -> localHull2 xval xlow (1 # 100) (xuniq r) xtess (xpts r) = Ok (hull r)) ->
     exists m, xtess (gathered 3 (visible hull)) = Ok m /\ WellFormed 2 m /\ VoronoiMesh xval (gathered 3 (visible hull)) m) /\
  (* and rank 2 is the only neighbor the others get *)
  map (fun me => do s <- hullNeighbors (fun a b => convexIntersect (rmap xval a) (rmap xval b)) (map xhulls [0; 1; 2]) me 3; do cs <- cellsOfInterest 2 mAll [0; 7; 10; 14] me; meshNeighbors [0; 7; 10; 14] me cs s) [0; 1; 2] = [Ok [2]; Ok [2]; Ok [0; 1]].
Proof.
  split; [|split].
  - intros r L. destruct r as [|[|[|r]]]; [exists mA|exists mB|exists mC|lia]; (split; [reflexivity|]); apply voronoib_ok; vm_compute; reflexivity.
  - intros hull H. assert (G : gathered 3 (visible hull) = gathered 3 (visible xhulls)). { unfold gathered, visible. cbn [seq flat_map]. assert (E : forall r, r < 3 -> hull r = xhulls r) by (intros r L; specialize (H r L); rewrite xhulls_ok in H; congruence). rewrite !E by lia. reflexivity. } rewrite G.
    exists mAll. split; [reflexivity|]. split; [apply wfb_sound; vm_compute; reflexivity|]. apply voronoib_ok; vm_compute; reflexivity.
  - vm_compute. reflexivity.
Qed.

(* ---- a triangle and a point to its right, in a square ---- *)
Definition tA : mesh Z := mkMesh [30768; 30768; 32968; 30768; 32968; 730750818665451459101848460987239582973839867909; 30768; 34318; 34768; 30768; 34768; 730750818665451459101935503646251836274418712581; 34768; 34768; 30768; 34768]%Z [[0; 1; 2; 3]; [4; 5; 6; -2]; [7; 8; 9; -3; -7]]%Z [[0; 1]; [1; 2]; [2; 3]; [3; 0]; [1; 4]; [4; 5]; [5; 2]; [5; 6]; [6; 7]; [7; 3]] [] [] [[0]; [0; -2]; [0; -3]; [0]; [1]; [1]; [1; -3]; [2]; [2]; [2]]%Z plc_new [] [] [].
Definition tB : mesh Z := mkMesh [30768; 30768; 34768; 30768; 34768; 34768; 30768; 34768]%Z [[0; 1; 2; 3]]%Z [[0; 1]; [1; 2]; [2; 3]; [3; 0]] [] [] [[0]; [0]; [0]; [0]]%Z plc_new [] [] [].
Definition tAll : mesh Z := mkMesh [30768; 30768; 32968; 30768; 32968; 730750818665451459101848460987239582973839867909; 30768; 34318; 730750818665451459101993532085593338474804609035; 30768; 33413; 33148; 33818; 34768; 30768; 34768; 34768; 30768; 34768; 34768]%Z [[0; 1; 2; 3]; [4; 5; 6; -2]; [7; 8; -3; -7; 9]; [10; 11; 12; -10; -6]]%Z [[0; 1]; [1; 2]; [2; 3]; [3; 0]; [1; 4]; [4; 5]; [5; 2]; [6; 7]; [7; 3]; [5; 6]; [4; 8]; [8; 9]; [9; 6]] [] [] [[0]; [0; -2]; [0; -3]; [0]; [1]; [1; -4]; [1; -3]; [2]; [2]; [2; -4]; [3]; [3]; [3]]%Z plc_new [] [] [].
Definition tpts (r : nat) : list Z := match r with 0 => enc2 [(0, 0); (400, 0); (200, 300)]%Z | _ => enc2 [(1000, 100)]%Z end.
Definition tps (r : nat) : list p2 := match r with 0 => [(0 # 100, 0 # 100); (400 # 100, 0 # 100); (200 # 100, 300 # 100)]%Q | _ => [(1000 # 100, 100 # 100)]%Q end.
Definition tzs (r : nat) : list (Z * Z) := match r with 0 => [(0, 0); (400, 0); (200, 300)]%Z | _ => [(1000, 100)]%Z end.
Definition tuniq (r : nat) : list hpt := lin_fill (hashes (tzs r)) [].
Definition ttess (l : list Z) : res (mesh Z) := Ok (if length l =? 6 then tA else if length l =? 2 then tB else tAll).
Definition TBox (x : p2) : Prop := (-20 <= fst x <= 20 /\ -20 <= snd x <= 20)%Q.
Lemma tpoints r : points2 xval (tpts r) = tps r.
Proof. destruct r as [|r]; reflexivity. Qed.
Lemma trank r : RankPoints xval (0, 0)%Q (1 # 100) (tuniq r) (tpts r).
Proof.
  assert (K : forall r', (r' = 0 \/ r' = 1) -> RankPoints xval (0, 0)%Q (1 # 100) (tuniq r') (tpts r')).
  2: { destruct r as [|r]; [apply (K 0)|apply (K 1)]; auto. }
  intros r' H. constructor.
  - destruct H as [->| ->]; [exists 2|exists 0]; reflexivity.
  - destruct H as [->| ->]; repeat constructor; unfold enc; cbn; lia.
  - destruct H as [->| ->]; cbn; lia.
  - exists (tzs r'), (hashes (tzs r')). rewrite tpoints. split; [|split; [|split; [|apply lin_fill_ok]]].
    + destruct H as [->| ->]; repeat constructor; try reflexivity; cbn; lia.
    + apply apartb_ok. destruct H as [->| ->]; reflexivity.
    + destruct H as [->| ->]; vm_compute; reflexivity.
  - rewrite tpoints. destruct H as [->| ->].
    + left. exists 1, 2. eexists _, _, _. split; [|split; [cbn; lia|split; [lia|split; [reflexivity|split; [reflexivity|split; [reflexivity|]]]]]].
      * eexists _, _. split; [reflexivity|]. split; [reflexivity|]. split; [vm_compute; discriminate|]. intros [|i] p L E; [injection E as <-; vm_compute; auto|lia].
      * unfold Bent; repeat split; vm_compute; discriminate.
    + right. intros a b c [<-|[]] [<-|[]] [<-|[]]. reflexivity.
Qed.
(* the corners of a cell, in order *)
Definition corners (m : mesh Z) (i : nat) : list nat :=
  map (fun z => match nth_error (faces m) (pid z) with Some [a; b] => if (z <? 0)%Z then a else b | _ => 0 end) (nth i (cells m) []).
Lemma corners_ok n m i k : PolygonMesh n m -> i < n -> In k (corners m i) -> CornerOf m i k.
Proof.
  intros PM L I. unfold corners in I. apply in_map_iff in I as (z & <- & Iz). destruct (nth_error_ex (cells m) i) as [c Ec]; [rewrite (pm_cells _ _ PM); auto|]. rewrite (nth_error_nth _ _ _ Ec) in Iz. destruct (pm_faces _ _ PM i c z Ec Iz) as (a & b & Ef & _). exists c, z, a, b. rewrite Ef. auto.
Qed.
Lemma cover_cell n m i x : PolygonMesh n m -> i < n -> convexb (map (node2 xval m) (corners m i)) = true -> 3 <= length (map (node2 xval m) (corners m i)) -> InPolygon x (map (node2 xval m) (corners m i)) ->
  exists ns, (forall y, In y ns -> exists k, CornerOf m i k /\ y = node2 xval m k) /\ Combination ns x.
Proof.
  intros PM L C L3 IP. exists (map (node2 xval m) (corners m i)). split; [|apply (polygon_is_hull _ x (convexb_ok _ C) L3); auto]. intros y Iy. apply in_map_iff in Iy as (k & <- & Ik). exists k. split; auto. eapply corners_ok; eauto.
Qed.
Ltac cells_in IC := (* the inequalities of a cell *)
  repeat match goal with H : InCell (?q :: ?l) ?p ?x |- _ => let H1 := fresh in let H2 := fresh in assert (H1 : (dist2 x p <= dist2 x q)%Q) by (apply H; cbn; auto); assert (H2 : InCell l p x) by (intros ? ?; apply H; cbn; auto); clear H end;
  unfold dist2 in *; cbn [fst snd] in *.
Ltac cover := let a := fresh in let b := fresh in let R := fresh in intros a b R; vm_compute in R; repeat (destruct R as [R|R]; [injection R as <- <-; unfold orient; cbn [fst snd]; lra|]); destruct R.
Lemma tcomplete r : r < 2 -> exists m, ttess (tpts r) = Ok m /\ PolygonMesh (length (tpts r) / 2) m /\ CompleteMesh xval TBox (tpts r) m.
Proof.
  intros L. assert (PA : PolygonMesh 3 tA) by (apply polygonb_ok; vm_compute; reflexivity). assert (PB : PolygonMesh 1 tB) by (apply polygonb_ok; vm_compute; reflexivity). destruct r as [|[|r]]; [exists tA|exists tB|lia]; (split; [reflexivity|]); (split; [assumption|]); constructor; rewrite tpoints; unfold tps.
  - intros i p [x y] E [[B1 B2] [B3 B4]] IC. cbn [fst snd] in *. destruct i as [|[|[|i]]]; [| | |destruct i; discriminate]; cbn in E; injection E as <-; cells_in IC; (apply (cover_cell 3); [assumption|lia|vm_compute; reflexivity|cbn; lia|cover]).
  - intros i j p q x Ei Ej _ _ _. assert (N2 : forall i, i < 3 -> NodeOf tA i 2). { clear. intros [|[|[|i]]] L; [exists [0; 1; 2; 3]%Z, 1%Z, [1; 2]|exists [4; 5; 6; -2]%Z, 6%Z, [5; 2]|exists [7; 8; 9; -3; -7]%Z, (-3)%Z, [2; 3]|lia]; cbn; auto 10. }
    apply nth_error_lt in Ei, Ej. exists 2. split; [apply N2; exact Ei|exact (N2 _ Ej)].
  - intros i p [x y] E [[B1 B2] [B3 B4]] IC. cbn [fst snd] in *. destruct i as [|i]; [|destruct i; discriminate]; cbn in E; injection E as <-; cells_in IC; (apply (cover_cell 1); [assumption|lia|vm_compute; reflexivity|cbn; lia|cover]).
  - intros i j p q x Ei Ej _ _ _. apply nth_error_lt in Ei, Ej. cbn in Ei, Ej. exists 0. assert (i = 0) by lia. assert (j = 0) by lia. subst. split; exists [0; 1; 2; 3]%Z, 0%Z, [0; 1]; cbn; auto 10.
Qed.
Lemma tall_complete : CompleteMesh xval TBox (gathered 2 tpts) tAll.
Proof.
  assert (PM : PolygonMesh 4 tAll) by (apply polygonb_ok; vm_compute; reflexivity). assert (G : points2 xval (gathered 2 tpts) = [(0 # 100, 0 # 100); (400 # 100, 0 # 100); (200 # 100, 300 # 100); (1000 # 100, 100 # 100)]%Q) by reflexivity. constructor; rewrite G.
  - intros i p [x y] E [[B1 B2] [B3 B4]] IC. cbn [fst snd] in *. destruct i as [|[|[|[|i]]]]; [| | | |destruct i; discriminate]; cbn in E; injection E as <-; cells_in IC; (apply (cover_cell 4); [assumption|lia|vm_compute; reflexivity|cbn; lia|cover]).
  - intros i j p q [x y] Ei Ej [[B1 B2] [B3 B4]] Cp Cq. cbn [fst snd] in *.
    assert (N2 : forall i, i < 3 -> NodeOf tAll i 2). { clear. intros [|[|[|i]]] L; [exists [0; 1; 2; 3]%Z, 1%Z, [1; 2]|exists [4; 5; 6; -2]%Z, 6%Z, [5; 2]|exists [7; 8; -3; -7; 9]%Z, (-3)%Z, [2; 3]|lia]; cbn; auto 10. }
    assert (N5 : forall i, 1 <= i < 4 -> NodeOf tAll i 5). { clear. intros [|[|[|[|i]]]] L; [lia|exists [4; 5; 6; -2]%Z, 6%Z, [5; 2]|exists [7; 8; -3; -7; 9]%Z, (-7)%Z, [5; 2]|exists [10; 11; 12; -10; -6]%Z, (-6)%Z, [4; 5]|lia]; cbn; auto 10. }
    pose proof (nth_error_lt _ _ _ Ei) as Li. pose proof (nth_error_lt _ _ _ Ej) as Lj. cbn [length] in Li, Lj.
    destruct (le_lt_dec 3 i) as [Gi|Gi]; destruct (le_lt_dec 3 j) as [Gj|Gj]; [exists 5; split; apply N5; lia| | |exists 2; split; apply N2; lia].
    + destruct j as [|j]; [exfalso|exists 5; split; apply N5; lia]. assert (i = 3) by lia. subst i. cbn in Ei, Ej. injection Ei as <-. injection Ej as <-. cells_in Cp. lra.
    + destruct i as [|i]; [exfalso|exists 5; split; apply N5; lia]. assert (j = 3) by lia. subst j. cbn in Ei, Ej. injection Ei as <-. injection Ej as <-. cells_in Cp. lra.
Qed.
Definition thulls (r : nat) : rplc Z := match r with 0 => mkRPLC [[0; 1]; [1; 2]; [2; 0]]%Z [] (tpts 0) | _ => mkRPLC [[0; 0]]%Z [] (tpts 1) end.
Example outer_touch_case : (forall r, r < 2 -> RankPoints xval (0, 0)%Q (1 # 100) (tuniq r) (tpts r) /\ exists m, ttess (tpts r) = Ok m /\ PolygonMesh (length (tpts r) / 2) m /\ CompleteMesh xval TBox (tpts r) m) /\
  (forall hull, (forall r, r < 2 -> localHull2 xval (0, 0)%Q (1 # 100) (tuniq r) ttess (tpts r) = Ok (hull r)) ->
     exists m, ttess (gathered 2 (visible hull)) = Ok m /\ WellFormed 2 m /\ length (cells m) = length (gathered 2 (visible hull)) / 2 /\ CompleteMesh xval TBox (gathered 2 (visible hull)) m) /\
  (* the cells of (4, 0) and (10, 1) meet at (7, 1 / 2) *)
  InCell (points2 xval (gathered 2 tpts)) (400 # 100, 0 # 100)%Q (7, 1 # 2)%Q /\ InCell (points2 xval (gathered 2 tpts)) (1000 # 100, 100 # 100)%Q (7, 1 # 2)%Q /\ TBox (7, 1 # 2)%Q /\
  NotInside (points2 xval (tpts 0)) (7, 1 # 2)%Q /\ NotInside (points2 xval (tpts 1)) (7, 1 # 2)%Q.
Proof.
  split; [intros r L; split; [apply trank|apply tcomplete; auto]|]. split.
  - intros hull H. assert (G : gathered 2 (visible hull) = gathered 2 tpts). { unfold gathered, visible. cbn [seq flat_map]. assert (E0 : hull 0 = thulls 0). { specialize (H 0 ltac:(lia)). vm_compute in H. injection H as <-. reflexivity. } assert (E1 : hull 1 = thulls 1). { specialize (H 1 ltac:(lia)). vm_compute in H. injection H as <-. reflexivity. } rewrite E0, E1. reflexivity. } rewrite G.
    exists tAll. split; [reflexivity|]. split; [apply wfb_sound; vm_compute; reflexivity|]. split; [reflexivity|apply tall_complete].
  - split; [|split; [|split; [|split]]].
    + intros q I. cbn in I. repeat (destruct I as [<-|I]; [vm_compute; discriminate|]). destruct I.
    + intros q I. cbn in I. repeat (destruct I as [<-|I]; [vm_compute; discriminate|]). destruct I.
    + split; cbn [fst snd]; lra.
    + intros cs Ic L3 SC IP SI. assert (C : Combination cs (7, 1 # 2)%Q). { apply (polygon_is_hull cs _ SC L3). intros a b R. specialize (SI a b R). lra. }
      assert (P : (0 <= WithinProofs4.val (edge_half (400 # 100, 0 # 100)%Q (400 # 100, 100 # 100)%Q) (7, 1 # 2)%Q)%Q).
      { apply (combination_ge _ cs _ C). intros p I. apply Ic in I. rewrite tpoints in I. rewrite val_edge. cbn in I. repeat (destruct I as [<-|I]; [vm_compute; discriminate|]). destruct I. }
      rewrite val_edge in P. vm_compute in P. apply P. reflexivity.
    + intros cs Ic L3 SC _ _. destruct cs as [|a [|b [|c cs]]]; cbn in L3; try lia. specialize (SC 0 1 2 a b c ltac:(lia) eq_refl eq_refl eq_refl). rewrite tpoints in Ic. pose proof (Ic a ltac:(cbn; auto)) as [<-|[]]. pose proof (Ic b ltac:(cbn; auto)) as [<-|[]]. pose proof (Ic c ltac:(cbn; auto)) as [<-|[]]. vm_compute in SC. discriminate.
Qed.
(* the hypotheses of the lists of neighbors, for the three ranks above *)
Example lists_case : Sendable 2 3 xhulls /\ xtess (gathered 3 (visible xhulls)) = Ok mAll /\ WellFormed 2 mAll /\ length (cells mAll) = length (gathered 3 (visible xhulls)) / 2 /\
  (forall r s, r < 3 -> s < 3 -> convexIntersect (rmap xval (xhulls r)) (rmap xval (xhulls s)) = Ok ((r =? s) || (0 <? r) && (0 <? s))) /\
  (forall r, r < 3 -> (exists k, length (xpts r) = 2 * k) /\ Forall (fits TDouble) (xpts r) /\ (Z.of_nat (4 + 8 * length (xpts r)) < 2 ^ 32)%Z).
Proof.
  split; [|split; [reflexivity|split; [apply wfb_sound; vm_compute; reflexivity|split; [reflexivity|split]]]].
  - constructor; [reflexivity| | |].
    + intros r L. destruct r as [|[|[|r]]]; [| | |lia]; (split; [split; [reflexivity|]|split; [split; [reflexivity|constructor]|split; [reflexivity|]]]); repeat constructor; unfold enc; cbn; lia.
    + intros r L. destruct r as [|[|[|r]]]; [| | |lia]; vm_compute; reflexivity.
    + intros r L. destruct r as [|[|[|r]]]; [exists 7|exists 3|exists 4|lia]; reflexivity.
  - intros r s Lr Ls. destruct r as [|[|[|r]]]; [| | |lia]; (destruct s as [|[|[|s]]]; [| | |lia]); vm_compute; reflexivity.
  - intros r L. destruct (xrank r) as [(k & E) F _ _ _]. split; [eauto|]. split; auto. destruct r as [|[|[|r]]]; [| | |lia]; vm_compute; reflexivity.
Qed.
