(* Computable tests for the conditions of Diagram and CornersApart (BoostSpec.v), used by the examples
   only. *)
From Coq Require Import QArith Qabs Lqa.
From Verif Require Import Base BaseFacts SerializeModel QuantMeshModel PLCSpec BoxModel BoxProofs Plane PlaneFacts AreaProofs AreaProofs2 Hull3Proofs3 WithinSpec WithinProofs4 NeighborProps2 TriModel TriSpec TriProofs8 BoostModel BoostSpec BoostProofs.
Local Open Scope nat_scope.

(* no closer to q than to P *)
Definition closerb (x : p2) (P q : pt) : bool :=
  Qle_bool (fst x * inject_Z (2 * (fst q - fst P)) + snd x * inject_Z (2 * (snd q - snd P)))
    (inject_Z (fst q * fst q + snd q * snd q - fst P * fst P - snd P * snd P)).
Lemma closerb_iff x P q : closerb x P q = true <-> (sqd x (grid_pt P) <= sqd x (grid_pt q))%Q.
Proof.
  unfold closerb. rewrite Qle_bool_iff. unfold sqd, grid_pt. cbn [fst snd]. unfold Zminus. repeat (rewrite ?inject_Z_mult, ?inject_Z_plus, ?inject_Z_opp).
  set (a := inject_Z (fst P)). set (b := inject_Z (snd P)). set (c := inject_Z (fst q)). set (d := inject_Z (snd q)). change (inject_Z 2) with 2%Q. split; intros H; lra || nra.
Qed.
(* site P; qs are the sites on the other side of the edges *)
Definition walkb (sites : list pt) (P : pt) (xs : list p2) (qs : list pt) : bool :=
  convexb xs && (3 <=? length xs) && (length qs =? length xs) && forallb (fun x => forallb (closerb x P) sites) xs &&
  forallb (fun eq => existsb (fun s => (fst s =? fst (snd eq))%Z && (snd s =? snd (snd eq))%Z) sites && closerb (fst (fst eq)) (snd eq) P && closerb (snd (fst eq)) (snd eq) P &&
    existsb (fun w => negb (closerb w (snd eq) P)) xs) (combine (ring xs) qs).

Lemma side_of P q a b w z : (sqd a P == sqd a q)%Q -> (sqd b P == sqd b q)%Q ->
  ((sqd w q - sqd w P) * orient a b z == (sqd z q - sqd z P) * orient a b w)%Q.
Proof.
  destruct P as [p1 p2'], q as [q1 q2], a as [a1 a2], b as [b1 b2], w as [w1 w2], z as [z1 z2]. unfold sqd, orient. cbn [fst snd]. intros Ha Hb.
  set (u := (p1 - q1)%Q). set (v := (p2' - q2)%Q).
  assert (A : ((a1 - q1) * (a1 - q1) + (a2 - q2) * (a2 - q2) - ((a1 - p1) * (a1 - p1) + (a2 - p2') * (a2 - p2')) == 0)%Q) by lra.
  assert (W : forall w1 w2, ((w1 - q1) * (w1 - q1) + (w2 - q2) * (w2 - q2) - ((w1 - p1) * (w1 - p1) + (w2 - p2') * (w2 - p2')) == 2 * (u * (w1 - a1) + v * (w2 - a2)))%Q).
  { intros c d. rewrite <- (Qplus_0_r (2 * _)), <- A. unfold u, v. ring. }
  assert (B : (u * (b1 - a1) + v * (b2 - a2) == 0)%Q) by (pose proof (W b1 b2); lra).
  rewrite (W w1 w2), (W z1 z2). clearbody u v. clear - B.
  assert (E : (2 * (u * (w1 - a1) + v * (w2 - a2)) * ((b1 - a1) * (z2 - a2) - (b2 - a2) * (z1 - a1)) - 2 * (u * (z1 - a1) + v * (z2 - a2)) * ((b1 - a1) * (w2 - a2) - (b2 - a2) * (w1 - a1)) ==
     2 * (u * (b1 - a1) + v * (b2 - a2)) * ((w1 - a1) * (z2 - a2) - (z1 - a1) * (w2 - a2)))%Q) by ring.
  rewrite B in E. lra.
Qed.
Lemma in_combined {A B} (l : list A) : forall (l' : list B) a, length l' = length l -> In a l -> exists b, In (a, b) (combine l l').
Proof.
  induction l as [|x l IH]; intros [|y l'] a L I; try discriminate; [destruct I|]; destruct I as [->|I]; [exists y; left; auto|]. destruct (IH l' a ltac:(cbn in L; lia) I) as [b Ib]. exists b. right. auto.
Qed.
Lemma walkb_ok sites p P xs qs : nth_error sites p = Some P -> walkb sites P xs qs = true ->
  VoronoiWalk sites p (map (fun e => (Some (fst e), Some (snd e))) (ring xs)) xs.
Proof.
  intros HP H. unfold walkb in H. rewrite !andb_true_iff in H. destruct H as ((((C & L) & Lq) & N) & Ed). apply convexb_ok in C. apply Nat.leb_le in L. apply Nat.eqb_eq in Lq.
  rewrite forallb_forall in N, Ed. assert (HP' : nth_error (map grid_pt sites) p = Some (grid_pt P)) by (rewrite nth_error_map, HP; auto).
  assert (Nx : forall x q, In x xs -> In q sites -> (sqd x (grid_pt P) <= sqd x (grid_pt q))%Q).
  { intros x q I Iq. specialize (N x I). rewrite forallb_forall in N. apply closerb_iff. apply N. auto. }
  split; auto. split; auto. split; auto. intros x. split.
  - intros (P' & HP'' & Nr). assert (P' = grid_pt P) by congruence. subst P'. apply polygon_comb; auto. intros a b R.
    destruct (in_combined (ring xs) qs (a, b)) as [q I]; [rewrite AreaProofs2.ring_length; auto|auto|]. specialize (Ed _ I). cbn [fst snd] in Ed. rewrite !andb_true_iff, !existsb_exists in Ed.
    destruct Ed as [[[Es0 Ha] Hb] Hw0]. destruct Es0 as (s & Is & Es). destruct Hw0 as (w & Iw & Hw). apply andb_true_iff in Es as [E1 E2]. apply Z.eqb_eq in E1. apply Z.eqb_eq in E2.
    assert (s = q) by (destruct s, q; cbn in *; congruence). subst s. apply closerb_iff in Ha. apply closerb_iff in Hb. apply negb_true_iff in Hw.
    destruct (ring_in_both xs a b R) as [Ia Ib]. pose proof (Nx a q Ia Is). pose proof (Nx b q Ib Is).
    assert (Hw' : (0 < sqd w (grid_pt q) - sqd w (grid_pt P))%Q). { destruct (Qlt_le_dec (sqd w (grid_pt P)) (sqd w (grid_pt q))) as [Q|Q]; [lra|]. apply closerb_iff in Q. congruence. }
    pose proof (side_of (grid_pt P) (grid_pt q) a b w x ltac:(lra) ltac:(lra)) as K. pose proof (convex_edge_le xs a b w C R Iw) as O.
    pose proof (Nr (grid_pt q) (in_map _ _ _ Is)) as Nq. destruct (Qlt_le_dec (orient a b x) 0) as [Q|Q]; auto. exfalso.
    assert (0 <= (sqd x (grid_pt q) - sqd x (grid_pt P)) * orient a b w)%Q by (apply Qmult_le_0_compat; lra).
    assert (0 < (sqd w (grid_pt q) - sqd w (grid_pt P)) * (- orient a b x))%Q by (apply Qmult_lt_0_compat; lra). lra.
  - intros Cx. exists (grid_pt P). split; auto. intros q I. apply in_map_iff in I as (v & <- & I). apply (hull_near (grid_pt P) (grid_pt v) xs x); auto.
Qed.

(* the cells of the generators, with the sites across their edges *)
Definition vcell_of (p : nat) (xs : list p2) : vcell := mkVcell p true (map (fun e => (Some (fst e), Some (snd e))) (ring xs)).
Definition cornerapartb (x y : p2) : bool :=
  (Qeq_bool (fst x) (fst y) && Qeq_bool (snd x) (snd y)) || Qle_bool 2 (Qabs (fst x - fst y)) || Qle_bool 2 (Qabs (snd x - snd y)).
Lemma vcell_corner p xs x : v_corner (vcell_of p xs) x -> In x xs.
Proof.
  intros (e & I & H). unfold vcell_of in I. cbn [v_walk] in I. apply in_map_iff in I as ([a b] & <- & I). cbn [fst snd] in H. destruct (ring_in_both xs a b I). destruct H as [H|H]; injection H as <-; auto.
Qed.
Lemma diagram_ok sites ngen (cells : list (list p2 * list pt)) rest : length cells = ngen -> ngen <= length sites ->
  (forall c, In c rest -> ngen <= v_src c < length sites) -> NoDup (map v_src rest) ->
  forallb (fun pc => match nth_error sites (fst pc) with Some P => walkb sites P (fst (snd pc)) (snd (snd pc)) | None => false end) (combine (seq 0 ngen) cells) = true ->
  forallb (fun x => forallb (cornerapartb x) (flat_map fst cells)) (flat_map fst cells) = true ->
  let vd := map (fun pc => vcell_of (fst pc) (fst (snd pc))) (combine (seq 0 ngen) cells) ++ rest in
  Diagram sites ngen vd /\ CornersApart ngen vd.
Proof.
  intros Lc Ls Rs Rn W A vd. rewrite forallb_forall in W.
  assert (Ix : forall (l : list nat) (cs : list (list p2 * list pt)) p c, In (p, c) (combine l cs) -> In p l /\ In c cs) by (intros l cs p c I; split; [eapply in_combine_l|eapply in_combine_r]; eauto).
  assert (Mv : map v_src vd = seq 0 ngen ++ map v_src rest).
  { unfold vd. rewrite map_app, map_map. f_equal.
    assert (G : forall n s (cs : list (list p2 * list pt)), length cs = n -> map (fun pc : nat * (list p2 * list pt) => v_src (vcell_of (fst pc) (fst (snd pc)))) (combine (seq s n) cs) = seq s n); [|auto].
    clear. induction n as [|n IH]; intros s [|c cs] L; try discriminate; cbn; auto. f_equal. apply IH. cbn in L. lia. }
  split.
  - split.
    + intros c I. unfold vd in I. apply in_app_iff in I as [I|I]; [|apply Rs; auto]. apply in_map_iff in I as ([p d] & <- & I). apply Ix in I as [I _]. apply in_seq in I. cbn. lia.
    + rewrite Mv. apply Hull3Proofs3.nodup_app; [apply seq_NoDup|exact Rn|]. intros n I J. apply in_seq in I. apply in_map_iff in J as (c & <- & J). apply Rs in J. lia.
    + intros p Lp. destruct (nth_error_ex cells p) as [[xs qs] Hc]; [lia|].
      assert (I : In (p, (xs, qs)) (combine (seq 0 ngen) cells)).
      { clear - Lp Hc Lc. assert (G : forall n s (cs : list (list p2 * list pt)) k c, length cs = n -> nth_error cs k = Some c -> In (s + k, c) (combine (seq s n) cs)).
        { induction n as [|n IH]; intros s [|d cs] [|k] c L H; try discriminate; cbn in *; [injection H as ->; left; f_equal; lia|]. right. replace (s + S k) with (S s + k) by lia. apply IH; auto. }
        apply (G ngen 0 cells p _ Lc Hc). }
      specialize (W _ I). cbn [fst snd] in W. destruct (nth_error sites p) as [P|] eqn:HP; [|discriminate].
      exists (vcell_of p xs), xs. split; [unfold vd; apply in_app_iff; left; apply (in_map (fun pc : nat * (list p2 * list pt) => vcell_of (fst pc) (fst (snd pc))) _ _ I)|]. split; auto. split; auto.
      cbn [vcell_of v_walk]. apply (walkb_ok sites p P xs qs HP W).
  - assert (K : forall c x, In c vd -> v_src c < ngen -> v_corner c x -> In x (flat_map fst cells)).
    { intros c x I L V. unfold vd in I. apply in_app_iff in I as [I|I]; [|apply Rs in I; lia]. apply in_map_iff in I as ([p [xs qs]] & <- & I). apply Ix in I as [_ I]. cbn [fst snd] in V. apply vcell_corner in V.
      apply in_flat_map. exists (xs, qs). auto. }
    intros c c' x y I I' L L' V V'. rewrite forallb_forall in A. specialize (A x (K c x I L V)). rewrite forallb_forall in A. specialize (A y (K c' y I' L' V')).
    unfold cornerapartb in A. rewrite !orb_true_iff, andb_true_iff, !Qeq_bool_iff, !Qle_bool_iff in A. tauto.
Qed.
