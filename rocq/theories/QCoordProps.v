(* Theorems about the integer grid over points, QuantizedCoordinates (C105).  The vocabulary is in
   QCoordSpec.v and HashSpec.v. *)
From Coq Require Import QArith Qabs Qround Lqa.
From Verif Require Import Base BaseFacts PLCSpec BoxModel BoxProofs MeshEditorModel HullModel VoroModel HashSpec PointModel PointProps QCoordModel QCoordSpec QCoordProofs.
Local Open Scope nat_scope.

(* ------------------------------------------------------------ C105 *)
(* After any history of calls that returns: the outer box holds every point given since the grid was
   set up, the inner box lies in the outer one and holds the points the grid was set up with, there
   is one box unless two were asked for last, and the center stays where it was: in the middle of
   the first points.  The outer box holds the sphere. *)
Theorem coords_hold : forall D big ops q, 0 < D -> (0 < big)%Q -> in_range big ops -> history D big ops = Ok q ->
  (forall ps, In ps (given ops) -> Holds D (low_out q) (high_out q) ps) /\
  (forall j, j < D -> (coord (low_out q) j <= coord (low_in q) j)%Q /\ (coord (high_in q) j <= coord (high_out q) j)%Q) /\
  (two q = false -> low_in q = low_out q /\ high_in q = high_out q) /\
  (given ops <> [] -> Holds D (low_in q) (high_in q) (last (given ops) []) /\
    (forall lo hi, BoxAround D (last (given ops) []) lo hi -> forall j, j < D -> (coord (mid q) j == (1 # 2) * (coord lo j + coord hi j))%Q)) /\
  (plc_pts q <> [] -> forall j, j < D -> (coord (low_out q) j <= coord (mid q) j - r_out q)%Q /\ (coord (mid q) j + r_out q <= coord (high_out q) j)%Q).
Proof.
  intros D big ops q D0 B Rg E. destruct (run_good D big ops D0 B _ _ [] Rg (cleared_good D None None) E) as [G1 G2 G3 G4 G5]. fold (given ops) in *.
  split; [exact G1|]. split; [exact G2|]. split; [intros T; destruct (G3 T) as (A1 & A2 & _); auto|]. split; [exact G5|].
  intros S j L. destruct G4 as [Z|(_ & H & _)]; [congruence|]. apply H. exact L.
Qed.
Print Assumptions coords_hold.

(* Setting up a grid with a positive spacing: when it returns, and what it gives: a cube around
   the middle of the points, of half width 3/4 of their largest extent.  It returns exactly if the points
   do not all have the same first coordinate and the grid fits in an int. *)
Theorem coords_start : forall D big ps d q0 lo hi m, 0 < D -> (0 < big)%Q -> (forall x, In x ps -> (- big <= x <= big)%Q) -> 0 < length ps -> length ps mod D = 0 -> (0 < d)%Q ->
  BoxAround D ps lo hi -> (forall j, j < D -> (coord hi j - coord lo j <= m)%Q) -> (exists j, j < D /\ (coord hi j - coord lo j == m)%Q) ->
  ((exists q, initialize D big ps d q0 = Ok q) <-> (coord lo 0 < coord hi 0)%Q /\ (Qceiling ((3 # 2) * m / d) < 2 ^ 31 - 1)%Z) /\
  forall q, initialize D big ps d q0 = Ok q -> two q = false /\ delta q = d /\ cmax q = Some (Qceiling ((3 # 2) * m / d)) /\
    forall j, j < D -> (coord (low_in q) j == (1 # 2) * (coord lo j + coord hi j) - (3 # 4) * m)%Q /\ (coord (high_in q) j == (1 # 2) * (coord lo j + coord hi j) + (3 # 4) * m)%Q.
Proof.
  intros D big ps d q0 lo hi m D0 B Rg N Md Dp Ba Mx (jm & Ljm & Ejm).
  assert (Rm : forall q, Started D ps d q -> (r_in q == (3 # 4) * m)%Q).
  { intros q S. destruct (st_big _ _ _ _ S lo hi Ba) as (j & L & X). destruct (st_box _ _ _ _ S lo hi Ba jm Ljm) as (_ & _ & _ & Y). pose proof (Mx j L). lra. }
  assert (Cm : forall q, Started D ps d q -> cmax q = Some (Qceiling ((3 # 2) * m / d)) /\ (Qceiling ((3 # 2) * m / d) < 2 ^ 31 - 1)%Z).
  { intros q S. destruct (st_max _ _ _ _ S) as (z & Ez & Mz). pose proof (Rm q S) as R. pose proof (st_r _ _ _ _ S) as Rp. apply max_coord_iff in Mz as [-> L]; auto; [|lra].
    assert (X : Qceiling (2 * r_in q / d) = Qceiling ((3 # 2) * m / d)) by (apply Qceiling_comp; rewrite R; field; lra). rewrite X in *. auto. }
  split; [split|].
  - intros (q & E). destruct (initialize_ok D big ps d q0 q D0 B Rg E) as [_ S]. split; [|apply (Cm q S)].
    unfold initialize in E. apply bind_ok in E as ([lo' hi'] & Eb & E). apply bind_ok in E as (c & Ec & E). apply bind_ok in E as (r & Er & E).
    pose proof (box_is D big ps lo' hi' D0 Rg Eb N) as Ba'. destruct (same_box _ _ _ _ _ _ Ba Ba' 0 D0) as [X Y].
    destruct D as [|D]; [lia|]. cbn [seq mfold] in Er. apply bind_ok in Er as (r1 & E1 & Er). unfold sphere_step in E1. apply bind_ok in E1 as (u & U & E1). apply assert_ok, Qle_bool_iff in U.
    cbv zeta in E1. apply bind_ok in E1 as (v & A & E1). apply assert_ok in A. rewrite andb_true_iff, !qlt_iff in A. destruct A as [A1 A2]. change at_ with coord in *.
    destruct (qmax_spec 0 ((3 # 4) * (coord hi' 0 - coord lo' 0))%Q) as (M1 & M2 & [M3|M3]); rewrite M3 in *; lra.
  - intros [P F]. destruct (BoxProps.bounding_box_tight D big ps N Md Rg) as ([lo' hi'] & Eb & _). pose proof (box_is D big ps lo' hi' D0 Rg Eb N) as Ba'.
    assert (Eq : forall j, j < D -> (coord lo j == coord lo' j /\ coord hi j == coord hi' j)%Q) by (apply (same_box _ _ _ _ _ _ Ba Ba')).
    assert (Le : forall j, j < D -> (coord lo' j <= coord hi' j)%Q). { intros j L. destruct (ba_lo _ _ _ _ Ba' j L) as (i & Li & X). destruct (ba_in _ _ _ _ Ba' i Li j L). lra. }
    unfold initialize. rewrite Eb. cbn [bind]. unfold center_of.
    replace (forallb _ (seq 0 D)) with true by (symmetry; apply all_axes; intros j L; apply Qle_bool_iff; apply Le; auto). cbn [assert bind].
    assert (Sr : exists r, mfold (sphere_step lo' hi') (seq 0 D) 0%Q = Ok r).
    { destruct D as [|D]; [lia|]. cbn [seq mfold]. destruct (Eq 0 ltac:(lia)) as [X Y].
      assert (E1 : sphere_step lo' hi' 0 0 = Ok (qmax 0 ((3 # 4) * (coord hi' 0 - coord lo' 0))%Q)).
      { unfold sphere_step. change at_ with coord. rewrite (proj2 (Qle_bool_iff _ _) (Le 0 ltac:(lia))). cbn [assert bind]. cbv zeta.
        destruct (qmax_spec 0 ((3 # 4) * (coord hi' 0 - coord lo' 0))%Q) as (M1 & M2 & _). set (r' := qmax _ _) in *. replace (Qlt_bool _ _ && Qlt_bool _ _) with true; [reflexivity|]. symmetry. rewrite andb_true_iff, !qlt_iff. split; lra. }
      rewrite E1. cbn [bind]. apply sphere_go.
      - destruct (qmax_spec 0 ((3 # 4) * (coord hi' 0 - coord lo' 0))%Q) as (M1 & M2 & _). lra.
      - intros j I. apply in_seq in I. apply Le. lia. }
    destruct Sr as (r & Er). rewrite Er. cbn [bind]. destruct (sphere_ok _ _ _ _ _ Er) as (R0 & H & V).
    assert (Rv : (r == (3 # 4) * m)%Q /\ (0 < r)%Q).
    { assert (Hj : forall j, j < D -> ((3 # 4) * (coord hi' j - coord lo' j) <= r)%Q) by (intros j L; apply (H j); apply in_seq; lia).
      pose proof (Hj jm Ljm) as A. pose proof (Hj 0 D0) as A0. destruct (Eq jm Ljm). destruct (Eq 0 D0). pose proof (Mx 0 D0). split; [|lra].
      destruct V as [-> | (j & I & ->)]; [lra|]. apply in_seq in I. assert (L : j < D) by lia. pose proof (Mx j L). destruct (Eq j L). lra. }
    destruct Rv as [Rv Rp]. match goal with |- context [bounds_from_radius D r ?c lo' hi'] => destruct (bounds_go D r c lo' hi' Rp) as ([a b] & Ebd); rewrite Ebd end. cbn [bind].
    assert (X : Qceiling (2 * r / d) = Qceiling ((3 # 2) * m / d)) by (apply Qceiling_comp; rewrite Rv; field; lra).
    assert (Em : max_coord (2 * r) d = Ok (Qceiling (2 * r / d))) by (apply max_coord_iff; [lra|exact Dp|split; [reflexivity|rewrite X; exact F]]). rewrite Em. cbn [bind]. eexists. reflexivity.
  - intros q E. destruct (initialize_ok D big ps d q0 q D0 B Rg E) as [_ S]. pose proof (Rm q S) as R. destruct (st_flags _ _ _ _ S) as [_ T]. destruct (st_d _ _ _ _ S) as [Dl _].
    split; auto. split; auto. split; [apply (Cm q S)|]. intros j L. destruct (st_box _ _ _ _ S lo hi Ba j L) as (X & _). destruct (st_sides _ _ _ _ S j L) as [Y Z]. split; lra.
Qed.
Print Assumptions coords_start.

(* quantize and dequantize *)
Lemma digits (f : nat -> Q) D : (forall j, j < D -> (- 2 ^ 31 <= trunc (f j) < 2 ^ 31)%Z) -> mmap (fun j => as_int (f j)) (seq 0 D) = Ok (map (fun j => trunc (f j)) (seq 0 D)).
Proof.
  intros H. assert (G : forall js, (forall j, In j js -> j < D) -> mmap (fun j => as_int (f j)) js = Ok (map (fun j => trunc (f j)) js)).
  { induction js as [|j js IH]; intros I; [reflexivity|]. cbn [mmap map]. rewrite as_int_in by (apply H, I; cbn; auto). cbn [bind]. rewrite IH by (intros k K; apply I; cbn; auto). reflexivity. }
  apply G. intros j I. apply in_seq in I. lia.
Qed.
Lemma nth_digits (f : nat -> Z) D j : j < D -> nth j (map f (seq 0 D)) 0%Z = f j.
Proof. intros L. rewrite (nth_indep _ 0%Z (f 0)) by (rewrite map_length, seq_length; auto). rewrite map_nth, seq_nth; auto. Qed.
Lemma digits_back D f zs : mmap (fun j => as_int (f j)) (seq 0 D) = Ok zs -> forall j, j < D -> nth j zs 0%Z = trunc (f j).
Proof.
  intros E. assert (G : forall n s zs, mmap (fun j => as_int (f j)) (seq s n) = Ok zs -> forall j, j < n -> nth j zs 0%Z = trunc (f (s + j))).
  { induction n as [|n IH]; intros s l El j L; [lia|]. cbn [seq mmap] in El. apply bind_ok in El as (z & Ez & El). apply bind_ok in El as (t & Et & El). assert (z :: t = l) by congruence. subst l.
    apply as_int_ok in Ez as [Ez _]. destruct j as [|j]; cbn [nth]; [rewrite Ez; f_equal; f_equal; lia|]. rewrite (IH (S s) t Et j ltac:(lia)). f_equal. f_equal. lia. }
  intros j L. rewrite (G D 0 zs E j L). reflexivity.
Qed.

(* With one box, whenever a position in it has a place on the grid, that place is at most half a
   spacing away along each axis. *)
Theorem coords_round : forall D q p zs, two q = false -> (0 < delta q)%Q -> Inside D (low_in q) (high_in q) p -> quantize D q p = Ok zs ->
  exists p', dequantize D q zs = Ok p' /\ Within D (delta q / 2) p p'.
Proof.
  intros D q p zs T Dp Ins E. unfold quantize in E. apply bind_ok in E as (u & U & E). apply bind_ok in E as (v & V & E).
  destruct (Qeq_bool (delta q) 0) eqn:Z0; [apply Qeq_bool_eq in Z0; lra|]. pose proof (digits_back D _ zs E) as Dg.
  unfold dequantize. rewrite V. cbn [bind]. cbv zeta. unfold isInner. rewrite T. cbn [negb assert bind]. eexists. split; [reflexivity|].
  intros j L. rewrite coord_tab by auto. rewrite (Dg j L). change at_ with coord. pose proof (back (coord p j) (coord (low_in q) j) (delta q) Dp (proj1 (Ins j L))) as Bk.
  unfold real_of in Bk. rewrite (Qplus_comm (coord (low_in q) j)). exact Bk.
Qed.
Print Assumptions coords_round.
(* Right after the grid was set up every position in the box has a place on it, numbered from 0 to
   coordMax, and the way back gives a position at most half a spacing away. *)
Theorem coords_grid_partial : forall D big ops ps d q p, 0 < D -> (0 < big)%Q -> (forall x, In x ps -> (- big <= x <= big)%Q) -> (0 < d)%Q -> history D big (ops ++ [Initialize ps d]) = Ok q ->
  Inside D (low_in q) (high_in q) p ->
  exists m zs p', cmax q = Some m /\ quantize D q p = Ok zs /\ length zs = D /\ (forall z, In z zs -> (0 <= z <= m)%Z) /\ dequantize D q zs = Ok p' /\ Within D (d / 2) p p'.
Proof.
  intros D big ops ps d q p D0 B Rg Dp E Ins. unfold history in E. rewrite mfold_app in E. apply bind_ok in E as (q0 & _ & E). cbn [mfold step] in E. apply bind_ok in E as (q1 & E & Eq).
  assert (q1 = q) by congruence. subst q1. destruct (initialize_ok D big ps d _ q D0 B Rg E) as [_ S].
  destruct (st_max _ _ _ _ S) as (m & Em & Mm). pose proof (st_r _ _ _ _ S) as Rp. apply max_coord_iff in Mm as [Hm Lm]; auto; [|lra]. destruct (st_d _ _ _ _ S) as [Dl _]. destruct (st_flags _ _ _ _ S) as [Md T].
  pose proof (st_sides _ _ _ _ S) as Sd. set (f := fun j => ((at_ p j - at_ (low_in q) j) / delta q + (1 # 2))%Q).
  assert (Rz : forall j, j < D -> (0 <= trunc (f j) <= m)%Z).
  { intros j L. destruct (Ins j L) as [I1 I2]. destruct (Sd j L) as [S1 S2]. unfold f. rewrite Dl. change at_ with coord.
    assert (P0 : (0 <= (coord p j - coord (low_in q) j) / d)%Q) by (apply Qle_shift_div_l; auto; lra).
    assert (P1 : ((coord p j - coord (low_in q) j) / d <= 2 * r_in q / d)%Q). { apply Qle_shift_div_r; auto. assert (X : (2 * r_in q / d * d == 2 * r_in q)%Q) by (field; lra). rewrite X. lra. }
    pose proof (Qle_ceiling (2 * r_in q / d)) as Cl. rewrite <- Hm in Cl. destruct (trunc_near ((coord p j - coord (low_in q) j) / d + (1 # 2))%Q ltac:(lra)) as [T1 T2].
    set (z := trunc _) in *. split.
    - assert (X : (inject_Z 0 < inject_Z (z + 1))%Q) by (rewrite inject_Z_plus; change (inject_Z 0) with 0%Q; change (inject_Z 1) with 1%Q; lra). rewrite <- Zlt_Qlt in X. lia.
    - assert (X : (inject_Z z < inject_Z (m + 1))%Q) by (rewrite inject_Z_plus; change (inject_Z 1) with 1%Q; lra). rewrite <- Zlt_Qlt in X. lia. }
  assert (Ez : quantize D q p = Ok (map (fun j => trunc (f j)) (seq 0 D))).
  { unfold quantize, isInner. rewrite T, Md. cbn [negb assert bind]. rewrite Dl. destruct (Qeq_bool d 0) eqn:Z0; [apply Qeq_bool_eq in Z0; lra|]. rewrite <- Dl. apply (digits f D). intros j L. pose proof (Rz j L). lia. }
  destruct (coords_round D q p _ T ltac:(rewrite Dl; exact Dp) Ins Ez) as (p' & Ep & W). exists m, (map (fun j => trunc (f j)) (seq 0 D)), p'. split; auto. split; auto. split; [rewrite map_length, seq_length; auto|]. split; [|rewrite Dl in W; auto].
  intros z I. apply in_map_iff in I as (j & <- & I). apply in_seq in I. apply Rz. lia.
Qed.
Print Assumptions coords_grid_partial.
(* With two boxes a position outside of the inner one stops the program. *)
Theorem coords_outer_stops : forall D q p, two q = true -> ~ Inside D (low_in q) (high_in q) p -> quantize D q p = Abort.
Proof.
  intros D q p T N. unfold quantize. destruct (isInner D q p) eqn:I; [|reflexivity]. exfalso. apply N. unfold isInner in I. rewrite T in I. cbn [negb] in I.
  intros j L. pose proof (proj1 (all_axes D _) I j L) as X. cbv beta in X. rewrite andb_true_iff, !Qle_bool_iff in X. exact X.
Qed.
Print Assumptions coords_outer_stops.

(* After the degeneracy was changed nothing is placed on the old grid. *)
Theorem coords_changed_stops : forall D big ops d q p zs, history D big (ops ++ [Degeneracy d]) = Ok q -> quantize D q p = Abort /\ dequantize D q zs = Abort.
Proof.
  intros D big ops d q p zs E. unfold history in E. rewrite mfold_app in E. apply bind_ok in E as (q0 & _ & E). cbn [mfold step bind] in E.
  assert (X : set_degeneracy d q0 = q) by congruence. rewrite <- X. unfold quantize, dequantize. cbn [set_degeneracy modified negb assert bind]. destruct (isInner _ _ _); split; reflexivity.
Qed.
Print Assumptions coords_changed_stops.

(* In the plane the PLC is the box when the grid was just set up. *)
Theorem coords_plc_partial : forall big ops ps d q, (0 < big)%Q -> (forall x, In x ps -> (- big <= x <= big)%Q) -> history 2 big (ops ++ [Initialize ps d]) = Ok q ->
  plc_facets q = [[0; 1]; [1; 2]; [2; 3]; [3; 0]]%Z /\
  points_of 2 (plc_pts q) = [[coord (low_in q) 0; coord (low_in q) 1]; [coord (high_in q) 0; coord (low_in q) 1]; [coord (high_in q) 0; coord (high_in q) 1]; [coord (low_in q) 0; coord (high_in q) 1]].
Proof.
  intros big ops ps d q B Rg E. unfold history in E. rewrite mfold_app in E. apply bind_ok in E as (q0 & _ & E). cbn [mfold step] in E. apply bind_ok in E as (q1 & E & Eq).
  assert (q1 = q) by congruence. subst q1. destruct (initialize_ok 2 big ps d _ q ltac:(lia) B Rg E) as [_ S]. destruct (st_plc _ _ _ _ S) as [-> ->]. split; reflexivity.
Qed.
Print Assumptions coords_plc_partial.

(* Where the code falls short.  Growing the box takes in the origin: with points between 100 and 104 a
   position of the box has a number above coordMax. *)
Theorem coords_max_refuted : exists ops q p m zs, history 2 1000 ops = Ok q /\ two q = false /\ modified q = false /\ Inside 2 (low_in q) (high_in q) p /\
  cmax q = Some m /\ quantize 2 q p = Ok zs /\ exists z, In z zs /\ (m < z)%Z.
Proof.
  exists [Initialize [100; 100; 104; 104]%Q 1; Expand [103; 103]%Q false]. eexists. exists [102; 102]%Q. do 2 eexists.
  split; [vm_compute; reflexivity|]. split; [reflexivity|]. split; [reflexivity|]. split.
  { intros [|[|j]] L; [| |lia]; split; vm_compute; discriminate. }
  split; [reflexivity|]. split; [vm_compute; reflexivity|]. eexists. split; [left; reflexivity|]. reflexivity.
Qed.
Print Assumptions coords_max_refuted.
(* The PLC does not grow with the box. *)
Theorem coords_plc_refuted : exists ops q, history 2 1000 ops = Ok q /\ two q = false /\ exists c, In c (points_of 2 (plc_pts q)) /\
  ~ (coord c 0 == coord (low_in q) 0)%Q /\ ~ (coord c 0 == coord (high_in q) 0)%Q.
Proof.
  exists [Initialize [-(1); -(1); 1; 1]%Q 1; Expand [3; 3]%Q false]. eexists. split; [vm_compute; reflexivity|]. split; [reflexivity|].
  eexists. split; [left; reflexivity|]. split; vm_compute; discriminate.
Qed.
Print Assumptions coords_plc_refuted.
(* In space five of the six facets are never filled in, whatever was called. *)
Theorem coords_space_refuted : forall big ops q, history 3 big ops = Ok q -> plc_facets q <> [] -> nth_error (plc_facets q) 0 = Some [1; 5; 6; 2]%Z /\ forall i f, 0 < i -> nth_error (plc_facets q) i = Some f -> f = [0; 0; 0; 0]%Z.
Proof.
  intros big ops. assert (G : forall q q', (plc_facets q = [] \/ plc_facets q = sides 3) -> mfold (step 3 big) ops q = Ok q' -> plc_facets q' = [] \/ plc_facets q' = sides 3).
  { induction ops as [|o ops IH]; intros q q' H E; [injection E as <-; auto|]. cbn [mfold] in E. apply bind_ok in E as (q1 & E1 & E). apply (IH q1 q'); auto. destruct o as [ps d|ps t|d|]; cbn [step] in E1.
    - right. unfold initialize in E1. apply bind_ok in E1 as ([? ?] & _ & E1). apply bind_ok in E1 as (? & _ & E1). apply bind_ok in E1 as (? & _ & E1). apply bind_ok in E1 as ([? ?] & _ & E1). apply bind_ok in E1 as (? & _ & E1).
      match type of E1 with Ok ?x = _ => assert (X : x = q1) by congruence; rewrite <- X end. reflexivity.
    - unfold expand in E1. apply bind_ok in E1 as ([? ?] & _ & E1). destruct (gr_keep _ _ _ _ _ _ (expand_ok _ _ _ _ _ _ E1)) as (_ & _ & _ & _ & -> & _). exact H.
    - assert (X : set_degeneracy d q = q1) by congruence. rewrite <- X. exact H.
    - assert (X : coords_clear 3 q = q1) by congruence. rewrite <- X. left. reflexivity. }
  intros q E N. destruct (G (coords_new 3) q (or_introl eq_refl) E) as [Z|Z]; [contradiction|]. rewrite Z. split; [reflexivity|]. intros i f L H.
  destruct i as [|i]; [lia|]. cbn in H. do 5 (destruct i as [|i]; [injection H as <-; reflexivity|]). destruct i; discriminate.
Qed.
Print Assumptions coords_space_refuted.
(* A changed degeneracy is accepted by the next expansion, but the spacing stays what it was. *)
Theorem coords_spacing_refuted : forall D big ops ps d d' ps' t q, history D big (ops ++ [Initialize ps d; Degeneracy d'; Expand ps' t]) = Ok q ->
  modified q = false /\ degeneracy q = Ok d' /\ delta q = d.
Proof.
  intros D big ops ps d d' ps' t q E. unfold history in E. rewrite mfold_app in E. apply bind_ok in E as (q0 & _ & E). cbn [mfold step] in E. apply bind_ok in E as (q1 & E1 & E). cbn [bind] in E. apply bind_ok in E as (q2 & E2 & E).
  assert (q2 = q) by congruence. subst q2. unfold expand in E2. apply bind_ok in E2 as ([pl ph] & _ & E2). destruct (gr_keep _ _ _ _ _ _ (expand_ok _ _ _ _ _ _ E2)) as (_ & K2 & K3 & _ & _ & K6 & _).
  split; auto. unfold degeneracy. rewrite K3, K2. split; [reflexivity|]. cbn [set_degeneracy delta].
  unfold initialize in E1. apply bind_ok in E1 as ([? ?] & _ & E1). apply bind_ok in E1 as (? & _ & E1). apply bind_ok in E1 as (? & _ & E1). apply bind_ok in E1 as ([? ?] & _ & E1). apply bind_ok in E1 as (? & _ & E1).
  match type of E1 with Ok ?x = _ => assert (X : x = q1) by congruence; rewrite <- X end. reflexivity.
Qed.
Print Assumptions coords_spacing_refuted.

(* a grid that is set up, grows twice, and is set up again; and points on a line *)
Example grown : exists q, history 2 1000 [Initialize [0; 0; 4; 2]%Q (1 # 2); Expand [5; -(7)]%Q true; Expand [1; 1; 30; 1]%Q true] = Ok q /\
  given [Initialize [0; 0; 4; 2]%Q (1 # 2); Expand [5; -(7)]%Q true; Expand [1; 1; 30; 1]%Q true] = [[1; 1; 30; 1]; [5; -(7)]; [0; 0; 4; 2]]%Q /\ two q = true /\
  isInner 2 q [0; 0]%Q = true /\ isInner 2 q [30; 1]%Q = false.
Proof. eexists. split; [vm_compute; reflexivity|]. repeat split; reflexivity. Qed.
Example placed : exists q, history 2 1000 [Initialize [0; 0; 4; 2]%Q (1 # 2)] = Ok q /\ quantize 2 q [1 # 3; 1]%Q = Ok [3; 6]%Z /\ cmax q = Some 12%Z.
Proof. eexists. split; [vm_compute; reflexivity|]. split; vm_compute; reflexivity. Qed.
Example line_up : history 2 1000 [Initialize [0; 0; 0; 1]%Q (1 # 2)] = Abort.
Proof. vm_compute. reflexivity. Qed.
Example line_along : exists q, history 2 1000 [Initialize [0; 0; 1; 0]%Q (1 # 2)] = Ok q.
Proof. eexists. vm_compute. reflexivity. Qed.
Example respaced : exists q, history 2 1000 [Initialize [0; 0; 4; 2]%Q (1 # 2); Degeneracy 1; Expand [5; 5]%Q false] = Ok q /\ delta q = (1 # 2)%Q /\ degeneracy q = Ok 1%Q.
Proof. eexists. split; [vm_compute; reflexivity|]. split; reflexivity. Qed.
