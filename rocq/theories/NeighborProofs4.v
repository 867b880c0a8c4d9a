(* The hull a rank sends, completed. *)
From Verif Require Import Base BaseFacts SerializeModel SerializeSpec SerializeProofs MeshModel MeshSpec PLCModel PLCSpec PLCProps Plane AreaProofs WithinModel WithinSpec WithinProofs4 WithinProps
  HullModel HullSpec HullProofs3 HullProofs5 CsgProofs3 SerialDistProofs NeighborModel NeighborSpec NeighborProofs NeighborProofs2 NeighborProofs3.
From Coq Require Import Sorted QArith Lqa Permutation.
Local Open Scope nat_scope.

Lemma forall2_weaken {A B} (R S : A -> B -> Prop) l k : (forall a b, R a b -> S a b) -> Forall2 R l k -> Forall2 S l k.
Proof. intros H. induction 1; constructor; auto. Qed.
Lemma forall2_combine {A B} (R : A -> B -> Prop) l1 l2 k1 k2 : Forall2 R l1 k1 -> Forall2 R l2 k2 -> Forall2 (fun a b => R (fst a) (fst b) /\ R (snd a) (snd b)) (combine l1 l2) (combine k1 k2).
Proof. intros H. revert l2 k2. induction H; intros l2 k2 H2; cbn; [constructor|]. destruct H2; constructor; auto. Qed.
Lemma ring_forall2 {A B} (R : A -> B -> Prop) l k : Forall2 R l k -> Forall2 (fun a b => R (fst a) (fst b) /\ R (snd a) (snd b)) (ring l) (ring k).
Proof. intros H. inversion H; subst; cbn [ring]; [constructor|]. apply forall2_combine; auto. apply Forall2_app; auto. Qed.
Lemma polygon_between ps vs cs : Chosen ps vs cs -> Forall2 (facet_between ps) (polygon_facets vs) (ring cs).
Proof.
  intros C. unfold polygon_facets. pose proof (ring_forall2 _ _ _ C) as R. induction R as [|a b l k [H1 H2] R IH]; cbn; constructor; auto. exists (fst a), (snd a). auto.
Qed.

(* what a rank sends fits in the messages *)
Definition SmallInts (h : rplc Z) (N : nat) : Prop := length (rfacets h) <= N /\ rholes h = [] /\ forall f, In f (rfacets h) -> length f = 2 /\ forall z, In z f -> (0 <= z < Z.of_nat N)%Z.
Lemma sendable_one (points : list Z) N (h : rplc Z) : (44 * Z.of_nat N + 12 < 2 ^ 31)%Z -> Forall (fits TDouble) points -> incl (rpoints h) points -> length (rpoints h) <= 4 * N -> SmallInts h N ->
  fits (TReducedPLC TDouble) h /\ (Z.of_nat (length (serialize (TReducedPLC TDouble) h)) < 2 ^ 32)%Z.
Proof.
  intros B F I L (S1 & S2 & S3). change (denote TDouble) with Z in *. split.
  - change (fits_vec fits_ints (rfacets h) /\ fits_vec (fits_vec fits_ints) (rholes h) /\ fits_vec (fits TDouble) (rpoints h)). unfold fits_ints, fits_vec. split; [|split].
    + split; [lia|]. apply Forall_forall. intros f If. destruct (S3 f If) as [L2 S4]. split; [rewrite L2; lia|]. apply Forall_forall. intros z Iz. specialize (S4 z Iz). unfold fits_scalar. cbn. lia.
    + rewrite S2. split; [cbn; lia|constructor].
    + change (denote TDouble) with Z. split; [lia|]. rewrite Forall_forall in *. auto.
  - change (Z.of_nat (length (scalar_enc 4 (usize (rfacets h)) ++ flat_map ints_enc (firstn (Z.to_nat (usize (rfacets h))) (rfacets h)) ++ vec_enc (vec_enc ints_enc) (rholes h) ++ vec_enc (scalar_enc 8) (rpoints h))) < 2 ^ 32)%Z. rewrite S2. unfold ints_enc, int_enc.
    assert (V1 : forall w (l : list Z), (Z.of_nat (length l) < 2 ^ 32)%Z -> length (vec_enc (scalar_enc w) l) = 4 + w * length l).
    { intros w l Ll. unfold vec_enc. rewrite app_length. unfold scalar_enc at 1. rewrite le_bytes_length. rewrite usize_small, Nat2Z.id, firstn_all by auto. f_equal. clear. induction l as [|x l IH]; [cbn; lia|]. cbn [flat_map length]. rewrite app_length, IH. unfold scalar_enc. rewrite le_bytes_length. lia. }
    assert (V2 : length (flat_map (vec_enc (scalar_enc 4)) (rfacets h)) = 12 * length (rfacets h)).
    { clear -S3 V1. induction (rfacets h) as [|f l IH]; [cbn; lia|]. cbn [flat_map length]. rewrite app_length, IH by (intros g Ig; apply S3; cbn; auto). rewrite V1; destruct (S3 f ltac:(cbn; auto)) as [E _]; rewrite E; cbn; lia. }
    rewrite !app_length. rewrite (usize_small (rfacets h)) by lia. rewrite Nat2Z.id, firstn_all. rewrite V2, V1 by lia. unfold scalar_enc at 1. rewrite le_bytes_length. cbn [vec_enc flat_map usize length firstn]. unfold vec_enc. rewrite app_length. unfold scalar_enc at 1. rewrite le_bytes_length. cbn [firstn flat_map length]. rewrite firstn_nil. cbn [flat_map length]. lia.
Qed.

Section Local.
  Context (val : Z -> Q) (low : p2) (dx : Q) (uniq : list hpt) (tess : list Z -> res (mesh Z)) (points : list Z) (N : nat) (m : mesh Z).
  Hypothesis Len : length points = 2 * N.
  Hypothesis Npos : 0 < N.
  Hypothesis TS : tess points = Ok m.
  Local Notation ps := (points2 val points).

  Lemma start fs es : convexHull_2d ps low dx uniq = Ok fs -> Forall2 (facet_between ps) fs es ->
    exists h keep, reduced 2 (mkPLC fs []) points = Ok h /\ ReducedTo 2 (mkPLC fs []) points h keep /\ rholes h = [] /\
    length (rfacets h) = length fs /\ length (rpoints h) = 2 * length keep /\ length keep <= N /\ incl (rpoints h) points /\
    Forall2 (fun i p => nth_error ps i = Some p) keep (points2 val (rpoints h)) /\
    Forall2 (facet_between (points2 val (rpoints h))) (rfacets h) es /\
    (forall f z, In f (rfacets h) -> In z f -> (0 <= z)%Z /\ Z.to_nat z < length keep) /\
    localHull2 val low dx uniq tess points = do d <- hullDimension2 h; if d =? 2 then
      do ext <- exteriorCells2 val m h N; do qs <- mfold (addVisible val points) ext (zpairs (rpoints h)); Ok (mkRPLC (rfacets h) (rholes h) (flatZ qs))
      else Ok (mkRPLC (rfacets h) (rholes h) points).
  Proof.
    intros E F. destruct (reduced_hull val points N fs es Len F) as (h & keep & R & H). exists h, keep. split; auto. destruct H as (H1 & H2 & H3 & H4 & H5 & H6 & H7 & H8 & H9). repeat (split; [assumption|]).
    unfold localHull2. assert (Ne : isnil points = false) by (destruct points; [cbn in Len; lia|auto]). rewrite Ne. cbn [negb assert bind]. rewrite Len, (Nat.mul_comm 2 N), Nat.mod_mul, Nat.div_mul by lia. cbn [Nat.eqb assert bind]. rewrite <- points2_pairs, E. cbn [bind]. rewrite R. cbn [bind]. destruct (hullDimension2 h); auto. cbn [bind]. rewrite TS. cbn [bind]. destruct (a =? 2); auto.
  Qed.

  Lemma local_full vs cs : PolygonMesh N m -> convexHull_2d ps low dx uniq = Ok (polygon_facets vs) -> Chosen ps vs cs -> 3 <= length cs -> StrictlyConvex cs -> (forall p, In p ps -> InPolygon p cs) ->
    exists h, localHull2 val low dx uniq tess points = Ok h /\ Outline val points h /\ incl (rpoints h) points /\ length (rpoints h) <= 4 * N /\ SmallInts h N /\
      Forall2 (facet_between (points2 val (rpoints h))) (rfacets h) (ring cs) /\ incl cs (points2 val (rpoints h)) /\
      forall i p, nth_error ps i = Some p -> (exists q, In q (points2 val (rpoints h)) /\ SamePoint q p) <->
        ((exists c, In c cs /\ SamePoint c p) \/ exists j p', nth_error ps j = Some p' /\ SamePoint p' p /\ exists x, CornerOf m j x /\ ~ StrictlyInside (node2 val m x) cs).
  Proof.
    intros PM E C L3 SC IP. pose proof (polygon_between ps vs cs C) as F. destruct (start _ _ E F) as (h & keep & R & RT & Rh & Lf & Lp & Lk & Ip & Ck & Fh & Bz & ->).
    assert (Lvs : length vs = length cs) by (eapply Forall2_len; eauto). assert (Lpf : length (polygon_facets vs) = length cs). { unfold polygon_facets. rewrite map_length. unfold ring. destruct vs as [|v vs]; [cbn in *; lia|]. rewrite combine_length, app_length. cbn [length] in *. lia. }
    assert (D2 : hullDimension2 h = Ok 2). { unfold hullDimension2. rewrite Lpf in Lf. destruct (rfacets h) as [|f [|g l]]; auto; cbn in Lf; lia. } rewrite D2. cbn [bind Nat.eqb].
    destruct (exterior val N m PM h (ring cs) Fh) as (ext & Ee & Lex & He). rewrite Ee. cbn [bind]. destruct (add_visible val points N ext (zpairs (rpoints h)) Len ltac:(intros i Ii; apply He in Ii; tauto)) as (more & Ea & M1 & M2 & M3 & M4). rewrite Ea. cbn [bind].
    assert (Fl : flatZ (zpairs (rpoints h) ++ more) = rpoints h ++ flatZ more). { unfold flatZ at 1. rewrite flat_map_app. fold (flatZ (zpairs (rpoints h))) (flatZ more). rewrite (zpairs_flat _ _ Lp). auto. }
    eexists. split; [reflexivity|]. cbn [rpoints rfacets]. rewrite Fl. assert (Vis : points2 val (rpoints h ++ flatZ more) = points2 val (rpoints h) ++ map (fun p => (val (fst p), val (snd p))) more) by (rewrite (points2_app val _ _ _ Lp), points2_flatZ; auto).
    (* hull corners *)
    assert (KV : forall i, In i keep <-> In i vs).
    { intros i. rewrite (rd_used _ _ _ _ _ RT). cbn [facets]. unfold polygon_facets. split.
      - intros (f & If & Ix). apply in_map_iff in If as ([a b] & <- & Ie). cbn [fst snd] in Ix. assert (K : In a vs /\ In b vs). { destruct vs as [|v vs']; [destruct Ie|]. unfold ring in Ie. pose proof (in_combine_l _ _ _ _ Ie). pose proof (in_combine_r _ _ _ _ Ie) as J. split; auto. apply in_app_or in J as [J|[<-|[]]]; cbn; auto. }
        destruct Ix as [Ix|[Ix|[]]]; apply Nat2Z.inj in Ix; subst; tauto.
      - intros I. assert (K : exists b, In (i, b) (ring vs)). { destruct vs as [|v vs']; [destruct I|]. unfold ring. apply In_nth_error in I as [k Ek]. destruct (nth_error_ex (vs' ++ [v]) k) as [b Eb]. { rewrite app_length. apply nth_error_lt in Ek. cbn [length] in *. lia. }
          exists b. apply nth_error_In with k. clear -Ek Eb. revert k Ek Eb. generalize (v :: vs') (vs' ++ [v]). induction l as [|x l IH]; intros [|y l'] [|k] A B; try discriminate; cbn in *; [congruence|]. apply IH; auto. }
        destruct K as [b Ib]. exists [Z.of_nat i; Z.of_nat b]. split; [apply in_map_iff; exists (i, b); auto|cbn; auto]. }
    assert (CB : forall c, In c cs -> In c (points2 val (rpoints h))).
    { intros c Ic. destruct (Forall2_in_r _ _ _ _ C Ic) as (v & Iv & Ev). apply KV in Iv. destruct (Forall2_in_l _ _ _ _ Ck Iv) as (p & Ipp & Ep). rewrite Ev in Ep. injection Ep as ->. auto. }
    assert (BC : forall p, In p (points2 val (rpoints h)) -> In p cs /\ In p ps).
    { intros p I. destruct (Forall2_in_r _ _ _ _ Ck I) as (k & Ik & Ek). split; [|eapply nth_error_In; eauto]. apply KV in Ik. destruct (Forall2_in_l _ _ _ _ C Ik) as (c & Ic & Ec). rewrite Ek in Ec. injection Ec as ->. auto. }
    assert (MI : forall q, In q more -> exists j, In j ext /\ nth_error ps j = Some (val (fst q), val (snd q))) by auto.
    assert (Fm : Forall2 (facet_between (points2 val (rpoints h ++ flatZ more))) (rfacets h) (ring cs)).
    { rewrite Vis. eapply (fun H => forall2_weaken _ _ _ _ H Fh). intros f e (i & j & -> & A & B). exists i, j. split; auto. rewrite !nth_error_app1; auto; eapply nth_error_lt; eauto. }
    assert (Lm : length more <= N).
    { lia. }
    split.
    { constructor; cbn [rpoints rfacets].
      - rewrite app_length, Lp, flatZ_len. assert (K0 : 0 < length keep). { rewrite (Forall2_len _ _ _ Ck). destruct cs as [|c cs']; [cbn in L3; lia|]. specialize (CB c ltac:(cbn; auto)). destruct (points2 val (rpoints h)); [destruct CB|cbn; lia]. } exists (length keep + length more - 1). lia.
      - intros p I. rewrite Vis in I. apply in_app_or in I as [I|I]; [apply BC; auto|]. apply in_map_iff in I as (q & <- & Iq). destruct (MI q Iq) as (j & _ & Ej). eapply nth_error_In; eauto.
      - intros p I. apply (comb_incl p cs); [apply (polygon_comb cs p SC L3); apply IP; auto|]. intros c Ic. rewrite Vis. apply in_or_app. left. auto.
      - exists (ring cs). split; auto. intros [u v] p Ie I. cbn [fst snd]. apply (IP p I). auto. }
    split; [intros z I; apply in_app_or in I as [I|I]; auto|]. split; [rewrite app_length, Lp, flatZ_len; lia|]. split.
    { split; [|split; auto]; cbn [rfacets].
      - rewrite Lf, Lpf. rewrite <- (points2_len val points N Len). apply NoDup_incl_length; [apply convex_nodup; auto|]. intros c Ic. destruct (Forall2_in_r _ _ _ _ C Ic) as (v & _ & Ev). eapply nth_error_In; eauto.
      - intros f If. split; [destruct (Forall2_in_l _ _ _ _ Fh If) as (e & _ & i & j & -> & _); auto|]. intros z Iz. destruct (Bz f z If Iz). lia. }
    split; auto. split; [intros c Ic; rewrite Vis; apply in_or_app; auto|].
    intros i p Ei. rewrite Vis. split.
    - intros (q & Iq & Sq). apply in_app_or in Iq as [Iq|Iq]; [left; exists q; split; auto; apply BC; auto|]. right. apply in_map_iff in Iq as (q0 & <- & Iq). destruct (MI q0 Iq) as (j & Ij & Ej). exists j, (val (fst q0), val (snd q0)). split; auto. split; auto.
      apply He in Ij as (_ & x & [u v] & Cx & Ie & Lx). exists x. split; auto. intros SI. specialize (SI u v Ie). cbn [fst snd] in Lx. lra.
    - intros [(c & Ic & Sc)|(j & p' & Ej & Sj & x & Cx & Nx)]; [exists c; split; auto; apply in_or_app; auto|].
      assert (Ij : In j ext). { apply He. split; [rewrite <- (points2_len val points N Len); eapply nth_error_lt; eauto|]. destruct (existsb (fun e => Qle_bool (orient (fst e) (snd e) (node2 val m x)) 0) (ring cs)) eqn:X.
        - apply existsb_exists in X as (e & Ie & X). apply Qle_bool_iff in X. eauto.
        - exfalso. apply Nx. intros u v Ie. apply Qnot_le_lt. intros Lx. enough (existsb (fun e => Qle_bool (orient (fst e) (snd e) (node2 val m x)) 0) (ring cs) = true) by congruence. apply existsb_exists. exists (u, v). split; auto. apply Qle_bool_iff. auto. }
      destruct (M2 j p' Ij Ej) as (q & Iq & Sq). exists (val (fst q), val (snd q)). split; [|destruct Sq, Sj; split; cbn [fst snd] in *; lra].
      apply in_app_or in Iq as [Iq|Iq]; apply in_or_app; [left|right; apply in_map_iff; eauto].
      rewrite <- (zpairs_flat _ _ Lp). rewrite points2_flatZ. apply in_map_iff. eauto.
  Qed.
End Local.
