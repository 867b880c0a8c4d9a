(* The hull a rank sends. *)
From Verif Require Import Base BaseFacts SerializeModel SerializeSpec MeshModel MeshSpec PLCModel PLCSpec PLCProps Plane AreaProofs WithinModel WithinSpec WithinProofs4 WithinProps
  HullModel HullSpec HullProofs3 HullProofs5 NeighborModel NeighborSpec NeighborProofs NeighborProofs2.
From Coq Require Import Sorted QArith Lqa Permutation.
Local Open Scope nat_scope.

(* ---- the corners of a cell ---- *)
Section Cell.
  Context (val : Z -> Q) (npts : nat) (m : mesh Z).
  Hypothesis PM : PolygonMesh npts m.
  Definition tip (z : Z) : nat := match nth_error (faces m) (pid z) with Some [a; b] => if (z <? 0)%Z then a else b | _ => 0 end.
  Lemma cell_points i c : nth_error (cells m) i = Some c ->
    exists r, cell_plc2 m i = Ok r /\ length (rpoints r) = 2 * length c /\ points2 val (rpoints r) = map (fun z => node2 val m (tip z)) c.
  Proof.
    intros E. pose proof (nth_error_lt _ _ _ E) as Li. unfold cell_plc2. assert (Me : mesh_empty m = false). { unfold mesh_empty. destruct (cells m); [cbn in Li; lia|]. cbn. rewrite Bool.andb_false_r. auto. }
    rewrite Me. cbn [negb assert bind]. rewrite (proj2 (Nat.ltb_lt _ _) Li). cbn [assert bind]. rewrite (proj2 (get_ok _ _ _) E). cbn [bind]. cbv zeta. pose proof (pm_corners _ _ PM i c E) as L3. rewrite (proj2 (Nat.leb_le _ _) L3). cbn [assert bind].
    match goal with |- context [mfold ?g c _] => set (step := g) end.
    assert (G : forall l, incl l c -> forall k pts fs e, length pts = 2 * e -> exists k' pts' fs', mfold step l (k, pts, fs) = Ok (k', pts ++ pts', fs') /\ length pts' = 2 * length l /\ points2 val pts' = map (fun z => node2 val m (tip z)) l).
    { induction l as [|z l IH]; intros I k pts fs e Le.
      - exists k, [], fs. rewrite app_nil_r. cbn. auto.
      - cbn [mfold]. destruct (pm_faces _ _ PM i c z E (I z ltac:(cbn; auto))) as (a & b & Ef & La & Lb).
        assert (T : tip z = if (z <? 0)%Z then a else b) by (unfold tip; rewrite Ef; auto).
        assert (Pz : (positiveID z <? Z.of_nat (length (faces m)))%Z = true). { apply Z.ltb_lt. pose proof (nth_error_lt _ _ _ Ef) as Lf. unfold pid in Lf. unfold positiveID in *. destruct (z <? 0)%Z eqn:Ez; lia. }
        assert (Lt : tip z < length (nodes m) / 2) by (rewrite T; destruct (z <? 0)%Z; auto). assert (L2 : 2 * tip z + 1 < length (nodes m)). { pose proof (Nat.mul_div_le (length (nodes m)) 2). lia. }
        destruct (nth_error_ex (nodes m) (2 * tip z) ltac:(lia)) as [x Ex]. destruct (nth_error_ex (nodes m) (2 * tip z + 1) ltac:(lia)) as [y Ey].
        assert (St : step (k, pts, fs) z = Ok (S k, pts ++ [x; y], fs ++ [[Z.of_nat k; Z.of_nat ((k + 1) mod length c)]])).
        { unfold step. rewrite Pz. cbn [assert bind]. rewrite (proj2 (get_ok _ _ _) Ef). cbn [bind length Nat.eqb assert]. assert (Gt : (if (z <? 0)%Z then get [a; b] 0 else get [a; b] 1) = Ok (tip z)) by (rewrite T; destruct (z <? 0)%Z; reflexivity).
          rewrite Gt. cbn [bind]. rewrite (proj2 (Nat.ltb_lt _ _) Lt). cbn [assert bind]. rewrite (proj2 (get_ok _ _ _) Ex). cbn [bind]. rewrite (proj2 (get_ok _ _ _) Ey). cbn [bind]. auto. }
        rewrite St. cbn [bind]. destruct (IH ltac:(intros q Iq; apply I; cbn; auto) (S k) (pts ++ [x; y]) (fs ++ [[Z.of_nat k; Z.of_nat ((k + 1) mod length c)]]) (S e)) as (k' & pts' & fs' & E' & L' & P'); [rewrite app_length; cbn; lia|].
        exists k', (x :: y :: pts'), fs'. rewrite <- app_assoc in E'. split; [exact E'|]. split; [cbn [length]; lia|]. cbn [points2 map]. f_equal; auto. unfold node2. rewrite (nth_error_nth _ _ _ Ex), (nth_error_nth _ _ _ Ey). auto. }
    destruct (G c ltac:(intros z; auto) 0 [] [] 0 eq_refl) as (k' & pts' & fs' & E' & L' & P'). rewrite E'. cbn [bind app]. rewrite L', (Nat.mul_comm 2 (length c)), Nat.div_mul, Nat.eqb_refl by lia. cbn [assert bind]. eexists. split; [reflexivity|]. cbn [rpoints]. split; auto. lia.
  Qed.
  Lemma tip_corner i c x : nth_error (cells m) i = Some c -> (CornerOf m i x <-> exists z, In z c /\ x = tip z).
  Proof.
    intros E. split.
    - intros (c' & z & a & b & E' & I & F & ->). rewrite E in E'. injection E' as <-. exists z. split; auto. unfold tip. rewrite F. auto.
    - intros (z & I & ->). destruct (pm_faces _ _ PM i c z E I) as (a & b & F & _). exists c, z, a, b. split; auto. split; auto. split; auto. unfold tip. rewrite F. auto.
  Qed.

  (* the generators whose cell is not inside *)
  Lemma exterior h es : Forall2 (facet_between (points2 val (rpoints h))) (rfacets h) es ->
    exists ext, exteriorCells2 val m h npts = Ok ext /\ length ext <= npts /\ forall i, In i ext <-> i < npts /\ exists x e, CornerOf m i x /\ In e es /\ (orient (fst e) (snd e) (node2 val m x) <= 0)%Q.
  Proof.
    intros F. unfold exteriorCells2.
    assert (F' : Forall2 (facet_of (rpoints (rmap val h))) (rfacets (rmap val h)) es). { cbn. induction F; constructor; auto. apply between_facet. auto. }
    match goal with |- context [mfold ?g _ _] => set (step := g) end.
    assert (G : forall l, (forall i, In i l -> i < npts) -> forall s, exists ext, mfold step l s = Ok ext /\ length ext <= length s + length l /\ forall i, In i ext <-> In i s \/ In i l /\ exists x e, CornerOf m i x /\ In e es /\ (orient (fst e) (snd e) (node2 val m x) <= 0)%Q).
    { induction l as [|i l IH]; intros B s; [exists s; split; auto; split; [cbn; lia|]; intros i; split; auto; intros [|([] & _)]; auto|].
      cbn [mfold]. assert (Li : i < length (cells m)) by (rewrite (pm_cells _ _ PM); apply B; cbn; auto). destruct (nth_error_ex _ _ Li) as [c Ec]. destruct (cell_points i c Ec) as (r & Er & Lr & Pr).
      assert (Nr : points2 val (rpoints r) <> []). { rewrite Pr. pose proof (pm_corners _ _ PM i c Ec). destruct c; [cbn in *; lia|discriminate]. }
      destruct (within_ok (rmap val r) (rmap val h) es (points2 val (rpoints r)) F' (points2_flat val _ _ Lr) Nr) as (w & Ew & Hw).
      assert (St : step s i = Ok (if w then s else s ++ [i])) by (unfold step; rewrite Er; cbn [bind]; rewrite Ew; auto). rewrite St. cbn [bind].
      assert (Out : w = false <-> exists x e, CornerOf m i x /\ In e es /\ (orient (fst e) (snd e) (node2 val m x) <= 0)%Q).
      { split.
        - intros ->. destruct (existsb (fun e => existsb (fun q => Qle_bool (orient (fst e) (snd e) q) 0) (points2 val (rpoints r))) es) eqn:X.
          + apply existsb_exists in X as (e & Ie & X). apply existsb_exists in X as (q & Iq & X). apply Qle_bool_iff in X. rewrite Pr in Iq. apply in_map_iff in Iq as (z & <- & Iz). exists (tip z), e. split; auto. apply (tip_corner i c _ Ec). eauto.
          + exfalso. assert (false = true); [|discriminate]. apply Hw. intros e q Ie Iq. apply Qnot_le_lt. intros L. enough (T : existsb (fun e => existsb (fun q => Qle_bool (orient (fst e) (snd e) q) 0) (points2 val (rpoints r))) es = true) by congruence.
            apply existsb_exists. exists e. split; auto. apply existsb_exists. exists q. split; auto. apply Qle_bool_iff. auto.
        - intros (x & e & Cx & Ie & L). apply (tip_corner i c _ Ec) in Cx as (z & Iz & ->). destruct w; auto. assert (P : (0 < orient (fst e) (snd e) (node2 val m (tip z)))%Q). { apply (proj1 Hw eq_refl); auto. rewrite Pr. apply in_map_iff. eauto. } lra. }
      destruct (IH ltac:(intros j Ij; apply B; cbn; auto) (if w then s else s ++ [i])) as (ext & E & Le & H). exists ext. split; auto. split; [destruct w; [|rewrite app_length in Le]; cbn [length] in *; lia|]. intros j. rewrite H. destruct w.
      - split; [intros [|[A B']]; auto; right; split; cbn; auto|]. intros [|[[->|A] B']]; auto. apply Out in B'. discriminate.
      - rewrite in_app_iff. cbn [In]. pose proof (proj1 Out eq_refl). split; [intros [[|[<-|[]]]|[A B']]; auto|]. intros [|[[->|A] B']]; auto. }
    destruct (G (seq 0 npts) ltac:(intros i I; apply in_seq in I; lia) []) as (ext & E & Le & H). exists ext. split; auto. split; [rewrite seq_length in Le; exact Le|]. intros i. rewrite H. rewrite in_seq. cbn [In]. split; [intros [[]|[A B]]; split; auto; lia|intros [A B]; right; split; auto; lia].
  Qed.
End Cell.

Definition flatZ (l : list (Z * Z)) : list Z := flat_map (fun p => [fst p; snd p]) l.
Lemma flatZ_len l : length (flatZ l) = 2 * length l.
Proof. induction l as [|p l IH]; auto. unfold flatZ in *. cbn [flat_map app length]. rewrite IH. lia. Qed.
Lemma zpairs_flat l c : length l = 2 * c -> flatZ (zpairs l) = l.
Proof. revert c. induction l as [|x|x y t IH] using pairs_ind2; intros c L; cbn [length] in L; auto; [lia|]. cbn. f_equal. f_equal. apply (IH (c - 1)). lia. Qed.
Lemma points2_flatZ val l : points2 val (flatZ l) = map (fun p => (val (fst p), val (snd p))) l.
Proof. induction l as [|p l IH]; auto. cbn. f_equal. auto. Qed.

(* the visible points: a growing list *)
Lemma add_visible val points N ext base : length points = 2 * N -> (forall i, In i ext -> i < N) ->
  exists more, mfold (addVisible val points) ext base = Ok (base ++ more) /\
    (forall q, In q more -> exists i, In i ext /\ nth_error (points2 val points) i = Some (val (fst q), val (snd q))) /\
    (forall i p, In i ext -> nth_error (points2 val points) i = Some p -> exists q, In q (base ++ more) /\ SamePoint (val (fst q), val (snd q)) p) /\
    incl (flatZ more) points /\ length more <= length ext.
Proof.
  intros L. revert base. induction ext as [|i ext IH]; intros base B.
  - exists []. rewrite app_nil_r. split; auto. split; [intros q []|]. split; [intros i p []|split; [intros z []|cbn; lia]].
  - cbn [mfold]. pose proof (B i ltac:(cbn; auto)) as Li. destruct (nth_error_ex points (2 * i) ltac:(lia)) as [x Ex]. destruct (nth_error_ex points (2 * i + 1) ltac:(lia)) as [y Ey]. unfold addVisible at 1. rewrite (proj2 (get_ok _ _ _) Ex). cbn [bind]. rewrite (proj2 (get_ok _ _ _) Ey). cbn [bind].
    pose proof (points2_at val points i x y Ex Ey) as Ep. destruct (existsb (fun q => same2 val q (x, y)) base) eqn:X.
    + destruct (IH base ltac:(intros j Ij; apply B; cbn; auto)) as (more & E & H1 & H2 & H3 & H4). exists more. split; auto. split; [intros q Iq; destruct (H1 q Iq) as (j & Ij & Ej); exists j; cbn; auto|]. split; [|split; auto; cbn [length]; lia].
      intros j p [<-|Ij] Ej; [|eauto]. rewrite Ep in Ej. injection Ej as <-. apply existsb_exists in X as (q & Iq & Sq). exists q. split; [apply in_or_app; auto|]. unfold same2 in Sq. apply Bool.andb_true_iff in Sq as [S1 S2]. apply Qeq_bool_iff in S1, S2. split; auto.
    + destruct (IH (base ++ [(x, y)]) ltac:(intros j Ij; apply B; cbn; auto)) as (more & E & H1 & H2 & H3 & H4). exists ((x, y) :: more). rewrite <- app_assoc in E. cbn [app] in E. split; auto. split; [|split; [|split; [|cbn [length]; lia]]].
      * intros q [<-|Iq]; [exists i; cbn; auto|]. destruct (H1 q Iq) as (j & Ij & Ej). exists j. cbn; auto.
      * intros j p [<-|Ij] Ej.
        -- rewrite Ep in Ej. injection Ej as <-. exists (x, y). split; [apply in_or_app; cbn; auto|split; cbn; reflexivity].
        -- destruct (H2 j p Ij Ej) as (q & Iq & Sq). exists q. split; auto. rewrite <- app_assoc in Iq. auto.
      * intros z Iz. cbn in Iz. destruct Iz as [<-|[<-|Iz]]; [eapply nth_error_In; eauto|eapply nth_error_In; eauto|auto].
Qed.

(* ---- the reduced hull ---- *)
Lemma vertex_pt val points x p : nth_error (points2 val points) x = Some p -> exists a b, vertex 2 points x = [a; b] /\ p = (val a, val b).
Proof.
  intros E. destruct (points2_nth _ _ _ _ E) as (a & b & A & B & ->). exists a, b. split; auto. unfold vertex. apply nth_error_split in A as (l1 & l2 & -> & L1). rewrite <- L1, skipn_app, skipn_all, Nat.sub_diag. cbn [app skipn].
  rewrite nth_error_app2 in B by lia. replace (2 * x + 1 - length l1) with 1 in B by lia. destruct l2; [discriminate|]. cbn in B. injection B as ->. auto.
Qed.
Lemma keep_points val points keep : (forall i, In i keep -> i < length (points2 val points)) ->
  length (concat (map (vertex 2 points) keep)) = 2 * length keep /\ Forall2 (fun i p => nth_error (points2 val points) i = Some p) keep (points2 val (concat (map (vertex 2 points) keep))) /\
  incl (concat (map (vertex 2 points) keep)) points.
Proof.
  induction keep as [|i keep IH]; intros B; [cbn; split; auto; split; [constructor|intros z []]|]. destruct (nth_error_ex _ _ (B i ltac:(cbn; auto))) as [p Ep]. destruct (vertex_pt _ _ _ _ Ep) as (a & b & V & ->). destruct IH as (I1 & I2 & I3); [intros j Ij; apply B; cbn; auto|].
  cbn [map concat]. rewrite V. cbn [app length points2]. split; [lia|]. split; [constructor; auto|]. intros z [<-|[<-|Iz]]; auto; [destruct (points2_nth _ _ _ _ Ep) as (a' & b' & A & B' & Eq)|destruct (points2_nth _ _ _ _ Ep) as (a' & b' & A & B' & Eq)].
  - unfold vertex in V. assert (K : In a (skipn (2 * i) points)). { destruct (skipn (2 * i) points) as [|u [|v w]]; try discriminate. cbn in V. injection V as -> ->. cbn; auto. } rewrite <- (firstn_skipn (2 * i) points). apply in_or_app. auto.
  - unfold vertex in V. assert (K : In b (skipn (2 * i) points)). { destruct (skipn (2 * i) points) as [|u [|v w]]; try discriminate. cbn in V. injection V as -> ->. cbn; auto. } rewrite <- (firstn_skipn (2 * i) points). apply in_or_app. auto.
Qed.
Lemma reduced_hull val points N fs es : length points = 2 * N -> Forall2 (facet_between (points2 val points)) fs es ->
  exists h keep, reduced 2 (mkPLC fs []) points = Ok h /\ ReducedTo 2 (mkPLC fs []) points h keep /\ rholes h = [] /\
    length (rfacets h) = length fs /\ length (rpoints h) = 2 * length keep /\ length keep <= N /\ incl (rpoints h) points /\
    Forall2 (fun i p => nth_error (points2 val points) i = Some p) keep (points2 val (rpoints h)) /\
    Forall2 (facet_between (points2 val (rpoints h))) (rfacets h) es /\
    (forall f z, In f (rfacets h) -> In z f -> (0 <= z)%Z /\ Z.to_nat z < length keep).
Proof.
  intros L F. assert (LN := points2_len val points N L).
  assert (B : forall f x, In f (facets (mkPLC fs [])) -> In x f -> (0 <= x)%Z /\ 2 * S (Z.to_nat x) <= length points).
  { intros f x If Ix. cbn in If. destruct (Forall2_in_l _ _ _ _ F If) as (e & _ & i & j & -> & A & B). apply nth_error_lt in A, B. rewrite LN in A, B. destruct Ix as [<-|[<-|[]]]; rewrite Nat2Z.id; lia. }
  assert (Hh : exists h, reduced 2 (mkPLC fs []) points = Ok h /\ rholes h = [] /\ exists keep, ReducedTo 2 (mkPLC fs []) points h keep).
  { destruct (reduced_facets_partial Z 2 (mkPLC fs []) points B) as (h & keep & E & R). exists h. split; auto. split; [|eauto]. unfold reduced in E. apply bind_ok in E as (((o & j) & ps) & _ & E). injection E as <-. auto. }
  destruct Hh as (h & E & Hh & keep & R). exists h, keep. split; auto. split; auto. split; auto.
  assert (Bk : forall i, In i keep -> i < N). { intros i I. apply (rd_used _ _ _ _ _ R) in I as (f & If & Ix). destruct (B f _ If Ix) as [_ K]. rewrite Nat2Z.id in K. lia. }
  destruct (keep_points val points keep ltac:(intros i I; rewrite LN; apply Bk; auto)) as (K1 & K2 & K3). rewrite <- (rd_points _ _ _ _ _ R) in K1, K2, K3.
  pose proof (rd_facets _ _ _ _ _ R) as RF. cbn [facets] in RF. assert (Lf : length fs = length (rfacets h)) by (eapply Forall2_len; eauto).
  split; auto. split; auto. split.
  { assert (ND : NoDup keep). { pose proof (rd_sorted _ _ _ _ _ R) as S0. clear -S0. induction S0 as [|a l H IH Fa]; constructor; auto. intros I. rewrite Forall_forall in Fa. specialize (Fa a I). lia. }
    rewrite <- (seq_length N 0). apply NoDup_incl_length; auto. intros i I. apply in_seq. specialize (Bk i I). lia. }
  split; auto. split; auto. split.
  - revert RF. generalize (rfacets h). clear -F K2. induction F as [|f e fs es (i & j & -> & A & B) F IH]; intros fs' RF; inversion RF as [|? f' ? fs'' R1 R2]; subst; constructor; auto.
    inversion R1 as [|? x' ? t R3 R4]; subst. inversion R4 as [|? y' ? t' R5 R6]; subst. inversion R6; subst.
    destruct R3 as (P1 & N1 & _). destruct R5 as (P2 & N2 & _). rewrite Nat2Z.id in N1, N2. exists (Z.to_nat x'), (Z.to_nat y'). rewrite !Z2Nat.id by auto. split; auto.
    assert (At : forall k i p, nth_error keep k = Some i -> nth_error (points2 val points) i = Some p -> nth_error (points2 val (rpoints h)) k = Some p).
    { intros k i0 p Ek Ei. destruct (Forall2_nth _ _ _ _ _ K2 Ek) as (p' & E' & H'). rewrite Ei in H'. injection H' as ->. auto. }
    split; [apply (At _ _ _ N1 A)|apply (At _ _ _ N2 B)].
  - intros f' z If Iz. destruct (Forall2_in_r _ _ _ _ RF If) as (f & _ & Ff). destruct (Forall2_in_r _ _ _ _ Ff Iz) as (x & _ & P & N1 & _). split; auto. apply nth_error_lt in N1. auto.
Qed.
