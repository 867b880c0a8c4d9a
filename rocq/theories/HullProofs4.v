From Verif Require Import Base BaseFacts PLCSpec Plane MeshEditorModel AreaProofs WithinSpec HullModel HullSpec HullProofs HullProofs2 HullProofs3.
From Coq Require Import QArith Qround ZArith Qabs Sorted Permutation Lia Lqa.
Local Open Scope Q_scope.

Lemma orient_grid low dx a b c : orient (grid low dx a) (grid low dx b) (grid low dx c) == dx * dx * inject_Z (zcross a b c).
Proof. unfold orient, grid, zcross. cbn [fst snd]. unfold Zminus. rewrite !inject_Z_plus, !inject_Z_opp, !inject_Z_mult, !inject_Z_plus, !inject_Z_opp. ring. Qed.
Lemma floor_bounds q : inject_Z (Qfloor q) <= q /\ q < inject_Z (Qfloor q) + 1.
Proof. split; [apply Qfloor_le|]. pose proof (Qlt_floor q) as H. rewrite inject_Z_plus in H. exact H. Qed.
Lemma floor_unique q z : inject_Z z <= q -> q < inject_Z z + 1 -> Qfloor q = z.
Proof.
  intros A B. destruct (floor_bounds q) as [C D]. assert (inject_Z z < inject_Z (Qfloor q + 1)) by (rewrite inject_Z_plus; change (inject_Z 1) with 1; lra). assert (inject_Z (Qfloor q) < inject_Z (z + 1)) by (rewrite inject_Z_plus; change (inject_Z 1) with 1; lra).
  rewrite <- Zlt_Qlt in *. lia.
Qed.
Lemma inject_nn z : (0 <= z)%Z -> 0 <= inject_Z z.
Proof. intros H. change 0 with (inject_Z 0). rewrite <- Zle_Qle. auto. Qed.
Lemma trunc_exact q z : (0 <= z)%Z -> q == inject_Z z -> trunc (q + (1 # 2)) = z.
Proof.
  intros Z E. pose proof (inject_nn z Z). unfold trunc. replace (Qle_bool 0 (q + (1 # 2))) with true by (symmetry; apply Qle_bool_iff; lra). apply floor_unique; lra.
Qed.
Lemma hcoord_exact x lo dx z : 0 < dx -> (0 <= z < 2 ^ 31 - 1)%Z -> x == lo + dx * inject_Z z -> hcoord x lo dx = Ok z.
Proof.
  intros D Z E. unfold hcoord. replace (Qeq_bool dx 0) with false by (symmetry; apply not_true_is_false; intros C; apply Qeq_bool_iff in C; lra). rewrite (trunc_exact _ z); [|lia|].
  - destruct (Z.leb_spec (- 2 ^ 31) z); [|lia]. destruct (Z.ltb_spec z (2 ^ 31 - 1)); [|lia]. reflexivity.
  - rewrite E. field. lra.
Qed.
Lemma hcoord_near x lo dx z : 0 < dx -> lo <= x -> hcoord x lo dx = Ok z -> Qabs (x - (lo + dx * inject_Z z)) <= dx / 2.
Proof.
  intros D L. unfold hcoord. destruct (Qeq_bool dx 0); [discriminate|]. destruct ((_ <=? _) && _)%Z; [|discriminate]. intros [= <-].
  assert (N : 0 <= (x - lo) / dx) by (apply Qle_shift_div_l; lra). unfold trunc. replace (Qle_bool 0 ((x - lo) / dx + (1 # 2))) with true by (symmetry; apply Qle_bool_iff; lra).
  destruct (floor_bounds ((x - lo) / dx + (1 # 2))) as [A B]. set (f := inject_Z (Qfloor _)) in *. set (q := (x - lo) / dx) in *. assert (E : x - lo == q * dx) by (unfold q; field; lra).
  unfold Qdiv. change (/ 2) with (1 # 2). apply Qabs_Qle_condition. split; nra.
Qed.
Lemma hpoints_ok pts low dx hs : hpoints pts low dx = Ok hs -> Forall2 (fun p e => hcoord (fst p) (fst low) dx = Ok (fst (fst e)) /\ hcoord (snd p) (snd low) dx = Ok (snd (fst e))) pts hs /\
  forall i e, nth_error hs i = Some e -> snd e = i.
Proof.
  unfold hpoints. assert (G : forall l k hs, mmap (fun ip => hpoint low dx (snd ip) (fst ip)) (combine (seq k (length l)) l) = Ok hs ->
    Forall2 (fun p e => hcoord (fst p) (fst low) dx = Ok (fst (fst e)) /\ hcoord (snd p) (snd low) dx = Ok (snd (fst e))) l hs /\ forall i e, nth_error hs i = Some e -> snd e = (k + i)%nat).
  { clear. induction l as [|p l IH]; intros k hs H; cbn in H; [injection H as <-; split; [constructor|intros [|]; discriminate]|].
    unfold hpoint at 1 in H. destruct (hcoord (fst p) (fst low) dx) as [x| | |] eqn:X; try discriminate. cbn [bind] in H. destruct (hcoord (snd p) (snd low) dx) as [y| | |] eqn:Y; try discriminate. cbn [bind] in H.
    destruct (mmap _ _) as [t| | |] eqn:M; try discriminate. injection H as <-. destruct (IH _ _ M) as [A B]. split; [constructor; auto|].
    intros [|i] e E; cbn in E; [injection E as <-; cbn; lia|]. apply B in E. lia. }
  intros H. destruct (G _ _ _ H) as [A B]. split; auto.
Qed.
Lemma hpoints_exact pts low dx zs : 0 < dx -> OnGrid pts low dx zs -> exists hs, hpoints pts low dx = Ok hs /\ map fst hs = zs.
Proof.
  intros D. unfold hpoints. generalize 0%nat as k. intros k G. revert k. induction G as [|p z pts zs (A & B & C & E) G IH]; intros k; [exists []; auto|].
  cbn [length seq combine mmap fst snd]. unfold hpoint at 1. cbn [fst snd]. rewrite (hcoord_exact _ _ _ _ D C A), (hcoord_exact _ _ _ _ D E B). cbn [bind]. destruct (IH (S k)) as (hs & -> & M). eexists. split; [reflexivity|]. cbn. rewrite M. destruct z. auto.
Qed.
Lemma first_far_spec p0 dx l : forall k, let j := first_far p0 dx l k in (k <= j <= k + length l)%nat /\ (forall i p, (k + i < j)%nat -> nth_error l i = Some p -> nearer p0 p dx = true) /\
  (forall p, nth_error l (j - k) = Some p -> nearer p0 p dx = false).
Proof.
  induction l as [|q l IH]; intros k; cbn [first_far].
  - split; [cbn; lia|]. split; intros; [lia|]. destruct (k - k)%nat; discriminate.
  - destruct (nearer p0 q dx) eqn:N.
    + destruct (IH (S k)) as (A & B & C). set (j := first_far p0 dx l (S k)) in *. cbv zeta in *. cbn [length]. split; [lia|]. split.
      * intros [|i] p L E; cbn in E; [injection E as <-; auto|]. apply (B i); auto. lia.
      * intros p E. apply C. replace (j - k)%nat with (S (j - S k)) in E by lia. exact E.
    + cbv zeta. split; [cbn; lia|]. split; [intros; lia|]. intros p E. rewrite Nat.sub_diag in E. injection E as <-. auto.
Qed.
Lemma nearer_iff p0 p dx : 0 < dx -> nearer p0 p dx = true <-> dist2 p0 p < dx * dx.
Proof. intros D. unfold nearer, dist2. rewrite (proj2 (qlt_bool_iff _ _) D). cbn [andb]. apply qlt_bool_iff. Qed.
Lemma first_far_is p0 rest dx j : 0 < dx -> FirstFar (p0 :: rest) dx j -> first_far p0 dx rest 1 = j.
Proof.
  intros D (p0' & pj & E0 & Ej & F & B). cbn in E0. injection E0 as <-. destruct (first_far_spec p0 dx rest 1) as (A & N & C). set (k := first_far p0 dx rest 1) in *. cbv zeta in *.
  destruct j as [|j]; [cbn in Ej; injection Ej as <-; unfold dist2 in F; nra|]. cbn in Ej.
  destruct (Nat.lt_trichotomy k (S j)) as [L|[E|L]]; auto; exfalso.
  - destruct (nth_error rest (k - 1)) as [p|] eqn:Ep.
    + specialize (C p eq_refl). assert (K : dist2 p0 p < dx * dx). { apply (B k); auto. destruct k as [|k]; [lia|]. cbn in *. rewrite Nat.sub_0_r in Ep. auto. }
      apply nearer_iff in K; auto. congruence.
    + apply nth_error_None in Ep. apply nth_error_lt in Ej. lia.
  - assert (K : nearer p0 pj dx = true) by (apply (N j); [lia|auto]). apply nearer_iff in K; auto. lra.
Qed.
Lemma bent_not_collinear a b c dx : 0 < dx -> Bent dx a b c -> hcollinear a b c dx = false.
Proof.
  intros D (L1 & Lb & Lc & Dt). unfold hcollinear. cbn [fst snd]. cbv zeta in Dt. unfold dist2 in *.
  assert (Q : forall x y, y <= x -> Qlt_bool x y = false). { intros x y H. apply not_true_is_false. intros C. apply qlt_bool_iff in C. lra. }
  rewrite (Q ((fst b - fst a) * (fst b - fst a) + (snd b - snd a) * (snd b - snd a)) dx) by lra. rewrite (Q ((fst c - fst a) * (fst c - fst a) + (snd c - snd a) * (snd c - snd a)) dx) by lra. rewrite (Q 1 dx L1). cbn [orb].
  match goal with |- _ && Qlt_bool ?x ?y = false => rewrite (Q x y); [apply andb_false_r|] end.
  match goal with |- ?x <= ?y => setoid_replace y with ((1 - dx) * (1 - dx) * (((fst a - fst b) * (fst a - fst b) + (snd a - snd b) * (snd a - snd b)) * ((fst a - fst c) * (fst a - fst c) + (snd a - snd c) * (snd a - snd c)))) by ring end. exact Dt.
Qed.

Lemma in_ring_l {A} (l : list A) a b : In (a, b) (ring l) -> In a l /\ In b l.
Proof. intros I. apply In_nth_error in I as [k E]. apply ring_nth in E as (E1 & E2 & _). cbn in *. split; eapply nth_error_In; eauto. Qed.
Lemma map_combine {A B} (f : A -> B) l l' : combine (map f l) (map f l') = map (fun e => (f (fst e), f (snd e))) (combine l l').
Proof. revert l'. induction l as [|a l IH]; intros [|b l']; cbn; auto. f_equal. auto. Qed.
Lemma ring_map' {A B} (f : A -> B) l : ring (map f l) = map (fun e => (f (fst e), f (snd e))) (ring l).
Proof. destruct l as [|a l]; auto. cbn [ring map]. change (f a :: map f l) with (map f (a :: l)). rewrite <- (map_combine f (a :: l) (l ++ [a])), map_app. auto. Qed.
Lemma split3 {A} (l : list A) i j k a b c : (i < j < k)%nat -> nth_error l i = Some a -> nth_error l j = Some b -> nth_error l k = Some c ->
  exists l1 l2 l3 l4, l = l1 ++ a :: l2 ++ b :: l3 ++ c :: l4.
Proof.
  intros L A1 B1 C1. apply nth_error_split in A1 as (l1 & t & -> & L1). rewrite nth_error_app2 in B1, C1 by lia.
  replace (j - length l1)%nat with (S (j - length l1 - 1)) in B1 by lia. replace (k - length l1)%nat with (S (k - length l1 - 1)) in C1 by lia. cbn [nth_error] in B1, C1.
  apply nth_error_split in B1 as (l2 & t2 & -> & L2). rewrite nth_error_app2 in C1 by lia. replace (k - length l1 - 1 - length l2)%nat with (S (k - length l1 - 1 - length l2 - 1)) in C1 by lia. cbn [nth_error] in C1.
  apply nth_error_split in C1 as (l3 & l4 & -> & L3). exists l1, l2, l3, l4. auto.
Qed.
Lemma tri_convex low dx zs : 0 < dx -> tri_ok (rev zs) -> StrictlyConvex (map (grid low dx) zs).
Proof.
  intros D T i j k a b c L A1 B1 C1. rewrite nth_error_map in A1, B1, C1.
  destruct (nth_error zs i) as [x|] eqn:X; [|discriminate]. destruct (nth_error zs j) as [y|] eqn:Y; [|discriminate]. destruct (nth_error zs k) as [z|] eqn:Z; [|discriminate].
  injection A1 as <-. injection B1 as <-. injection C1 as <-. destruct (split3 zs i j k x y z) as (l1 & l2 & l3 & l4 & ->); auto.
  assert (K : (0 < zcross x y z)%Z). { eapply (tri_get _ (rev l4) z (rev l3) y (rev l2) x (rev l1)); [exact T|]. rewrite !rev_app_distr. cbn [rev]. rewrite !rev_app_distr. cbn [rev]. rewrite !rev_app_distr. cbn [rev]. rewrite <- !app_assoc. auto. }
  rewrite orient_grid. rewrite Zlt_Qlt in K. change (inject_Z 0) with 0 in K. assert (0 < dx * dx) by nra. nra.
Qed.

Lemma hull_reach pts low dx uniq hs : 0 < dx -> SeenBent pts dx -> hpoints pts low dx = Ok hs -> convexHull_2d pts low dx uniq = hull_loops (hpt_sort uniq).
Proof.
  intros D (j & i & p0 & pj & pi & F & Lj & Li & E0 & Ej & Ei & Bt) H. destruct pts as [|q rest]; [discriminate|]. cbn in E0. injection E0 as ->.
  pose proof (nth_error_lt _ _ _ Ei) as Ln. unfold convexHull_2d. replace (length (p0 :: rest) =? 1)%nat with false by (symmetry; apply Nat.eqb_neq; lia). replace (length (p0 :: rest) =? 2)%nat with false by (symmetry; apply Nat.eqb_neq; lia).
  cbv zeta. rewrite (first_far_is _ _ _ _ D F). replace (j =? length (p0 :: rest) - 1)%nat with false by (symmetry; apply Nat.eqb_neq; lia). replace (j =? length (p0 :: rest))%nat with false by (symmetry; apply Nat.eqb_neq; lia).
  unfold get at 1. rewrite Ej. cbn [bind]. rewrite H. cbn [bind]. replace (forallb _ _) with false; auto. symmetry. apply not_true_is_false. intros C. rewrite forallb_forall in C.
  assert (I : In pi (skipn 2 (p0 :: rest))). { apply (nth_error_In _ (i - 2)). rewrite nth_error_skipn_eq || idtac. replace i with (2 + (i - 2))%nat in Ei by lia. destruct rest as [|r rest]; [cbn in Ln; lia|]. exact Ei. }
  apply C in I. rewrite (bent_not_collinear _ _ _ _ D Bt) in I. discriminate.
Qed.

Lemma hull_general pts low dx uniq hs : 0 < dx -> SeenBent pts dx -> hpoints pts low dx = Ok hs -> set_fill hs [] uniq -> ~ Flat (map fst uniq) ->
  exists vs zs, convexHull_2d pts low dx uniq = Ok (polygon_facets vs) /\ Chosen (map fst hs) vs zs /\ (3 <= length zs)%nat /\ StrictlyConvex (map (grid low dx) zs) /\
    (forall e, In e uniq -> InPolygon (grid low dx (fst e)) (map (grid low dx) zs)).
Proof.
  intros D B H U NF. rewrite (hull_reach _ _ _ _ _ D B H). destruct (hpoints_ok _ _ _ _ H) as [_ Hi].
  destruct (loops_hull (hpt_sort uniq)) as (cyc & E & Inc & Len & T & L).
  - apply hpt_sort_zsorted.
  - intros F. apply NF. eapply flat_perm; [|exact F]. apply Permutation_map. apply hpt_sort_perm.
  - exists (map snd cyc), (map fst cyc). destruct (fill_keeps _ _ _ U) as (_ & _ & Sub).
    assert (Inc' : forall e, In e cyc -> In e hs). { intros e I. destruct (Sub e) as [[]|?]; auto. eapply Permutation_in; [apply hpt_sort_perm|]. auto. }
    split; [|split; [|split; [|split]]].
    + rewrite E. f_equal. unfold polygon_facets. rewrite ring_map', map_map. auto.
    + unfold Chosen. assert (G : forall l, (forall e, In e l -> In e hs) -> Forall2 (fun i p => nth_error (map fst hs) i = Some p) (map snd l) (map fst l)); [|apply G; auto].
      induction l as [|e l IH]; intros K; constructor; [|apply IH; intros; apply K; right; auto]. destruct (In_nth_error hs e) as [i Ei]; [apply K; left; auto|]. rewrite (Hi _ _ Ei), nth_error_map, Ei. auto.
    + rewrite map_length. auto.
    + apply tri_convex; auto.
    + intros e I a b R. rewrite map_map, ring_map' in R. apply in_map_iff in R as ([a' b'] & [= <- <-] & R). cbn [fst snd].
      rewrite orient_grid. assert (K : (0 <= zcross (fst a') (fst b') (fst e))%Z) by (apply L; auto; eapply Permutation_in; [symmetry; apply hpt_sort_perm|auto]). rewrite Zle_Qle in K. change (inject_Z 0) with 0 in K. assert (0 < dx * dx) by nra. nra.
Qed.
Lemma hull_flat pts low dx uniq hs : 0 < dx -> SeenBent pts dx -> hpoints pts low dx = Ok hs -> Flat (map fst uniq) -> convexHull_2d pts low dx uniq = Abort.
Proof.
  intros D B H F. rewrite (hull_reach _ _ _ _ _ D B H). apply loops_flat; [apply hpt_sort_zsorted|]. eapply flat_perm; [|exact F]. apply Permutation_map. symmetry. apply hpt_sort_perm.
Qed.

(* ---- inputs on the grid ---- *)
Lemma orient_eq a b c a' b' c' : fst a == fst a' -> snd a == snd a' -> fst b == fst b' -> snd b == snd b' -> fst c == fst c' -> snd c == snd c' -> orient a b c == orient a' b' c'.
Proof. unfold orient. intros -> -> -> -> -> ->. reflexivity. Qed.
Lemma apart_kept hs uniq zs : map fst hs = zs -> Apart zs -> set_fill hs [] uniq -> forall z, In z zs <-> In z (map fst uniq).
Proof.
  intros <- A U z. destruct (fill_keeps _ _ _ U) as (_ & K & Sub). split; intros I; apply in_map_iff in I as (e & <- & I).
  - destruct (K e I) as (e' & I' & P & P'). destruct (Sub e' I') as [[]|I2]. destruct (A (fst e) (fst e')) as [->|[L|L]]; try apply in_map; auto; lia.
  - destruct (Sub e I) as [[]|I2]. apply in_map. auto.
Qed.
Lemma grid_orient pts low dx zs i j k a b c x y z : OnGrid pts low dx zs -> nth_error pts i = Some a -> nth_error pts j = Some b -> nth_error pts k = Some c ->
  nth_error zs i = Some x -> nth_error zs j = Some y -> nth_error zs k = Some z -> orient a b c == dx * dx * inject_Z (zcross x y z).
Proof.
  intros G A B C X Y Z. rewrite <- (orient_grid low). destruct (Forall2_nth _ _ _ _ _ G A) as (x' & X' & A1 & A2 & _). destruct (Forall2_nth _ _ _ _ _ G B) as (y' & Y' & B1 & B2 & _). destruct (Forall2_nth _ _ _ _ _ G C) as (z' & Z' & C1 & C2 & _).
  rewrite X in X'. rewrite Y in Y'. rewrite Z in Z'. injection X' as <-. injection Y' as <-. injection Z' as <-. apply orient_eq; auto.
Qed.
Lemma bent_turn dx a b c : 0 < dx -> Bent dx a b c -> ~ orient a b c == 0.
Proof.
  intros D (L1 & Lb & Lc & Dt) Z. cbv zeta in Dt.
  assert (I : ((fst b - fst a) * (fst c - fst a) + (snd b - snd a) * (snd c - snd a)) * ((fst b - fst a) * (fst c - fst a) + (snd b - snd a) * (snd c - snd a)) + orient a b c * orient a b c == dist2 a b * dist2 a c) by (unfold orient, dist2; ring).
  rewrite Z in I. set (d := _ * _ + _) in *. set (u := dist2 a b) in *. set (v := dist2 a c) in *. assert (P : 0 < u * v) by nra. set (w := u * v) in *.
  assert (T : 0 < dx * (2 - dx)) by nra. set (t := dx * (2 - dx)) in *. assert (Tw : 0 < t * w) by nra. assert (E : (1 - dx) * (1 - dx) * w == w - t * w) by (unfold t; ring). lra.
Qed.
Lemma hull_grid pts low dx zs hs uniq : 0 < dx -> OnGrid pts low dx zs -> Apart zs -> SeenBent pts dx -> hpoints pts low dx = Ok hs -> set_fill hs [] uniq ->
  exists fs, convexHull_2d pts low dx uniq = Ok fs /\ IsHull pts fs.
Proof.
  intros D G A B H U. destruct (hpoints_exact _ _ _ _ D G) as (hs' & H' & M). rewrite H in H'. injection H' as <-. pose proof (apart_kept _ _ _ M A U) as K.
  assert (Lz : length pts = length zs) by (eapply Forall2_len; exact G).
  assert (At : forall i p, nth_error pts i = Some p -> exists z, nth_error zs i = Some z /\ fst p == fst (grid low dx z) /\ snd p == snd (grid low dx z)).
  { intros i p E. destruct (Forall2_nth _ _ _ _ _ G E) as (z & Ez & P1 & P2 & _). eauto. }
  assert (At' : forall i z, nth_error zs i = Some z -> exists p, nth_error pts i = Some p /\ fst p == fst (grid low dx z) /\ snd p == snd (grid low dx z)).
  { intros i z E. destruct (Forall2_nth_r _ _ _ _ _ G E) as (p & Ep & P1 & P2 & _). eauto. }
  assert (NF : ~ Flat (map fst uniq)).
  { intros F. destruct B as (j & i & p0 & pj & pi & _ & _ & _ & E0 & Ej & Ei & Bt). destruct (At _ _ E0) as (x & X & _). destruct (At _ _ Ej) as (y & Y & _). destruct (At _ _ Ei) as (z & Z & _).
    apply (bent_turn _ _ _ _ D Bt). rewrite (grid_orient _ _ _ _ _ _ _ _ _ _ _ _ _ G E0 Ej Ei X Y Z). rewrite F; [ring|apply K; eapply nth_error_In; eauto ..]. }
  destruct (hull_general _ _ _ _ _ D B H U NF) as (vs & cz & E & Ch & Len & Cx & In_). rewrite M in Ch.
  exists (polygon_facets vs). split; auto.
  assert (Ps : exists ps, Chosen pts vs ps /\ Forall2 (fun p z => fst p == fst (grid low dx z) /\ snd p == snd (grid low dx z)) ps cz).
  { clear - Ch At'. induction Ch as [|i z vs cz E _ (ps & A & B)]; [exists []; split; constructor|]. destruct (At' _ _ E) as (p & Ep & P1 & P2). exists (p :: ps). split; constructor; auto. }
  destruct Ps as (ps & Ch' & Pz). exists vs, ps. split; auto. split; auto. split; [rewrite (Forall2_len _ _ _ Pz); auto|].
  assert (Np : forall k p, nth_error ps k = Some p -> exists z, nth_error (map (grid low dx) cz) k = Some (grid low dx z) /\ fst p == fst (grid low dx z) /\ snd p == snd (grid low dx z)).
  { intros k p Ep. destruct (Forall2_nth _ _ _ _ _ Pz Ep) as (z & Ez & P). exists z. rewrite nth_error_map, Ez. auto. }
  split.
  - intros i j k a b c L Ea Eb Ec. destruct (Np _ _ Ea) as (x & X & X1 & X2). destruct (Np _ _ Eb) as (y & Y & Y1 & Y2). destruct (Np _ _ Ec) as (z & Z & Z1 & Z2).
    rewrite (orient_eq _ _ _ _ _ _ X1 X2 Y1 Y2 Z1 Z2). apply (Cx i j k); auto.
  - intros p Ip a b R. apply In_nth_error in Ip as [ip Ep]. destruct (At _ _ Ep) as (q & Q & Q1 & Q2).
    apply In_nth_error in R as [k R]. apply ring_nth in R as (Ra & Rb & Lk). cbn [fst snd] in *. destruct (Np _ _ Ra) as (x & X & X1 & X2). destruct (Np _ _ Rb) as (y & Y & Y1 & Y2).
    rewrite (orient_eq _ _ _ _ _ _ X1 X2 Y1 Y2 Q1 Q2). assert (Iq : In q (map fst uniq)) by (apply K; eapply nth_error_In; eauto). apply in_map_iff in Iq as (e & <- & Ie). apply In_; auto.
    apply (nth_error_In _ k). apply ring_nth. cbn [fst snd]. pose proof (Forall2_len _ _ _ Pz) as Lp. rewrite map_length. rewrite Lp in *. auto.
Qed.
