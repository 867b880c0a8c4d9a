From Verif Require Import Base BaseFacts PLCSpec Plane MeshEditorModel AreaProofs WithinSpec PlaneFacts HullModel HullSpec HullProofs HullProofs2 HullProofs3 HullProofs4.
From Coq Require Import QArith Qround ZArith Qabs Sorted Permutation Lia Lqa.
Local Open Scope Q_scope.

Lemma line_collinear a b c dx : 0 < dx -> orient a b c == 0 -> hcollinear a b c dx = true.
Proof.
  intros D Z. unfold hcollinear. cbn [fst snd]. set (u := (fst b - fst a) * (fst b - fst a) + (snd b - snd a) * (snd b - snd a)). set (v := (fst c - fst a) * (fst c - fst a) + (snd c - snd a) * (snd c - snd a)).
  destruct (Qlt_bool u dx) eqn:U; auto. destruct (Qlt_bool v dx) eqn:V; auto. cbn [orb]. destruct (Qlt_bool 1 dx) eqn:O; auto. cbn [orb]. apply andb_true_intro. split; apply qlt_bool_iff; auto.
  assert (Lu : dx <= u) by (apply Qnot_lt_le; intros C; apply qlt_bool_iff in C; congruence). assert (Lv : dx <= v) by (apply Qnot_lt_le; intros C; apply qlt_bool_iff in C; congruence). assert (Lo : dx <= 1) by (apply Qnot_lt_le; intros C; apply qlt_bool_iff in C; congruence).
  set (d := _ * _ + _). assert (I : d * d + orient a b c * orient a b c == u * v) by (unfold d, u, v, orient; ring). rewrite Z in I. assert (W : 0 < u * v) by nra. set (w := u * v) in *.
  assert (T : 0 < dx * (2 - dx)) by nra. set (t := dx * (2 - dx)) in *. assert (Tw : 0 < t * w) by nra. assert (E : (1 - dx) * (1 - dx) * w == w - t * w) by (unfold t; ring). lra.
Qed.
Definition between_z (a b q : Z * Z) : Prop := lexle a q /\ lexle q b /\ zcross a b q = 0%Z.
Lemma frac_in (n d : Z) : (0 <= n <= d)%Z -> (0 < d)%Z -> 0 <= inject_Z n / inject_Z d <= 1.
Proof.
  intros H P. assert (0 < inject_Z d) by (change 0 with (inject_Z 0); rewrite <- Zlt_Qlt; auto). split; [apply Qle_shift_div_l|apply Qle_shift_div_r]; auto; rewrite ?Qmult_0_l, ?Qmult_1_l.
  - change 0 with (inject_Z 0). rewrite <- Zle_Qle. lia.
  - rewrite <- Zle_Qle. lia.
Qed.
Lemma between_along low dx a b q : between_z a b q -> exists t, 0 <= t <= 1 /\ fst (grid low dx q) == fst (along (grid low dx a) (grid low dx b) t) /\ snd (grid low dx q) == snd (along (grid low dx a) (grid low dx b) t).
Proof.
  destruct a as [ax ay], b as [bx by_], q as [qx qy]. unfold between_z, lexle, lnn, HullProofs.vs, zcross, grid, along. cbn [fst snd]. intros (A & B & C).
  destruct (Z.eq_dec ax bx) as [<-|N].
  - assert (qx = ax) by lia. subst qx. destruct (Z.eq_dec ay by_) as [<-|N].
    + exists 0. assert (qy = ay) by lia. subst. repeat split; lra.
    + exists (inject_Z (qy - ay) / inject_Z (by_ - ay)). split; [apply frac_in; lia|]. assert (K : ~ inject_Z by_ - inject_Z ay == 0). { intros Z. apply N. apply (proj1 (inject_Z_injective _ _)). lra. }
      unfold Zminus. rewrite !inject_Z_plus, !inject_Z_opp. split; [ring|field; auto].
  - exists (inject_Z (qx - ax) / inject_Z (bx - ax)). split; [apply frac_in; lia|]. assert (K : ~ inject_Z bx - inject_Z ax == 0). { intros Z. apply N. apply (proj1 (inject_Z_injective _ _)). lra. }
    assert (C' : inject_Z (bx - ax) * inject_Z (qy - ay) == inject_Z (by_ - ay) * inject_Z (qx - ax)). { rewrite <- !inject_Z_mult. apply (proj2 (inject_Z_injective _ _)). lia. }
    unfold Zminus in *. rewrite !inject_Z_plus, !inject_Z_opp in *. split; [field; auto|].
    set (t := (inject_Z qx + - inject_Z ax) / (inject_Z bx + - inject_Z ax)). assert (T : t * (inject_Z bx + - inject_Z ax) == inject_Z qx + - inject_Z ax) by (unfold t; field; auto).
    assert (E : inject_Z qy == inject_Z ay + t * (inject_Z by_ - inject_Z ay)); [|rewrite E; ring].
    assert (M : (inject_Z bx - inject_Z ax) * (inject_Z qy - inject_Z ay - t * (inject_Z by_ - inject_Z ay)) == 0).
    { setoid_replace ((inject_Z bx - inject_Z ax) * (inject_Z qy - inject_Z ay - t * (inject_Z by_ - inject_Z ay))) with ((inject_Z bx + - inject_Z ax) * (inject_Z qy + - inject_Z ay) - (t * (inject_Z bx + - inject_Z ax)) * (inject_Z by_ + - inject_Z ay)) by ring. rewrite C', T. ring. }
    apply Qmult_integral in M as [M|M]; [exfalso; auto|lra].
Qed.
Lemma ss_head {A} (R : A -> A -> Prop) l a x : (forall y, R y y) -> StronglySorted R l -> nth_error l 0 = Some a -> In x l -> R a x.
Proof. intros Rf S E I. destruct l as [|h t]; [discriminate|]. injection E as ->. inversion S as [|? ? S' F]. subst. destruct I as [<-|I]; auto. rewrite Forall_forall in F. auto. Qed.
Lemma ss_last {A} (R : A -> A -> Prop) l a x : (forall y, R y y) -> StronglySorted R l -> nth_error l (length l - 1) = Some a -> In x l -> R x a.
Proof.
  intros Rf Ss. induction Ss as [|h t Ss IH F]; intros E I; [destruct I|]. destruct t as [|h2 t].
  - cbn in E. injection E as <-. destruct I as [<-|[]]. auto.
  - cbn [length] in E. replace (S (S (length t)) - 1)%nat with (S (length (h2 :: t) - 1))%nat in E by (cbn [length]; lia). cbn [nth_error] in E. destruct I as [<-|I]; [|apply IH; auto]. rewrite Forall_forall in F. apply F. eapply nth_error_In; eauto.
Qed.
Lemma hle_refl (e : hpt) : hle e e.
Proof. apply lexle_refl. Qed.
Lemma near_same low dx z z' p p' : 0 < dx -> fst p == fst (grid low dx z) -> snd p == snd (grid low dx z) -> fst p' == fst (grid low dx z') -> snd p' == snd (grid low dx z') -> dist2 p p' < dx * dx -> z = z'.
Proof.
  intros D A B A' B' L. unfold dist2 in L. rewrite A, B, A', B' in L. destruct z as [x y], z' as [x' y']. unfold grid in L. cbn [fst snd] in L.
  assert (E : dx * dx * inject_Z ((x - x') * (x - x') + (y - y') * (y - y')) < dx * dx * 1).
  { unfold Zminus. rewrite !inject_Z_plus, !inject_Z_mult, !inject_Z_plus, !inject_Z_opp. match goal with |- ?l < ?r => match type of L with ?l' < ?r' => setoid_replace l with l' by ring; setoid_replace r with r' by ring; exact L end end. }
  apply Qmult_lt_l in E; [|nra]. change 1 with (inject_Z 1) in E. rewrite <- Zlt_Qlt in E. assert (Sq : forall u, u <> 0%Z -> (1 <= u * u)%Z) by (intros u Hu; nia). assert (Sn : forall u, (0 <= u * u)%Z) by (intros u; nia).
  destruct (Z.eq_dec (x - x') 0) as [X|X]; [|apply Sq in X; pose proof (Sn (y - y')%Z); lia]. destruct (Z.eq_dec (y - y') 0) as [Y|Y]; [|apply Sq in Y; pose proof (Sn (x - x')%Z); lia]. f_equal; lia.
Qed.
Lemma hull_line pts low dx zs hs uniq : 0 < dx -> pts <> [] -> OnGrid pts low dx zs -> Apart zs -> OnLine pts -> hpoints pts low dx = Ok hs -> set_fill hs [] uniq ->
  exists i j a b, convexHull_2d pts low dx uniq = Ok [[Z.of_nat i; Z.of_nat j]] /\ nth_error pts i = Some a /\ nth_error pts j = Some b /\
    forall p, In p pts -> exists t, 0 <= t <= 1 /\ fst p == fst (along a b t) /\ snd p == snd (along a b t).
Proof.
  intros D N G A OL H U. destruct (hpoints_exact _ _ _ _ D G) as (hs' & H' & M). rewrite H in H'. injection H' as <-. pose proof (apart_kept _ _ _ M A U) as K.
  destruct pts as [|p0 rest]; [contradiction|]. clear N. unfold convexHull_2d.
  assert (Same : forall i p, nth_error (p0 :: rest) i = Some p -> dist2 p0 p < dx * dx -> fst p == fst p0 /\ snd p == snd p0).
  { intros i p E L. destruct (Forall2_nth _ _ _ 0 _ G eq_refl) as (z0 & Z0 & A1 & A2 & _). destruct (Forall2_nth _ _ _ _ _ G E) as (z & Z & B1 & B2 & _). assert (z0 = z) by (apply (near_same low dx z0 z p0 p); auto). subst z. rewrite A1, A2, B1, B2. split; reflexivity. }
  destruct (length (p0 :: rest) =? 1)%nat eqn:E1.
  { apply Nat.eqb_eq in E1. destruct rest; [|discriminate]. exists 0%nat, 0%nat, p0, p0. split; auto. split; auto. split; auto. intros p [<-|[]]. exists 0. unfold along. cbn [fst snd]. repeat split; lra. }
  destruct (length (p0 :: rest) =? 2)%nat eqn:E2.
  { apply Nat.eqb_eq in E2. destruct rest as [|p1 [|]]; try discriminate. exists 0%nat, 1%nat, p0, p1. split; auto. split; auto. split; auto. intros p [<-|[<-|[]]]; [exists 0|exists 1]; unfold along; cbn [fst snd]; repeat split; lra. }
  apply Nat.eqb_neq in E1, E2. cbv zeta. destruct (first_far_spec p0 dx rest 1) as (B & Nr & Ff). set (j := first_far p0 dx rest 1) in *. cbv zeta in B, Nr, Ff.
  assert (Early : forall i p, (i < j)%nat -> nth_error (p0 :: rest) i = Some p -> fst p == fst p0 /\ snd p == snd p0).
  { intros [|i] p L E; [cbn in E; injection E as <-; split; reflexivity|]. apply (Same (S i)); auto. apply nearer_iff; auto. apply (Nr i); auto. }
  destruct (Nat.eqb_spec j (length (p0 :: rest) - 1)) as [Ej|Nj].
  { assert (Ln : (j < length (p0 :: rest))%nat) by lia. destruct (nth_error_ex _ _ Ln) as [pj Epj]. exists 0%nat, j, p0, pj. split; auto. split; auto. split; auto.
    intros p I. apply In_nth_error in I as [i E]. pose proof (nth_error_lt _ _ _ E) as Li. destruct (Nat.eq_dec i j) as [->|Nij].
    - rewrite Epj in E. injection E as <-. exists 1. unfold along. cbn [fst snd]. repeat split; lra.
    - destruct (Early i p) as [X Y]; auto; [lia|]. exists 0. unfold along. cbn [fst snd]. repeat split; lra. }
  destruct (Nat.eqb_spec j (length (p0 :: rest))) as [Ej|Nj2].
  { exists 0%nat, 0%nat, p0, p0. split; auto. split; auto. split; auto. intros p I. apply In_nth_error in I as [i E]. pose proof (nth_error_lt _ _ _ E) as Li. destruct (Early i p) as [X Y]; auto; [lia|]. exists 0. unfold along. cbn [fst snd]. repeat split; lra. }
  cbn [length] in Nj, Nj2. assert (Ln : (j < length (p0 :: rest))%nat) by (cbn [length]; lia). destruct (nth_error_ex _ _ Ln) as [pj Epj]. unfold get at 1. rewrite Epj. cbn [bind]. rewrite H. cbn [bind].
  replace (forallb _ _) with true.
  2: { symmetry. apply forallb_forall. intros p I. apply line_collinear; auto. apply OL; [left; auto|eapply nth_error_In; eauto|]. destruct rest as [|r rest]; [destruct I|]. right. right. exact I. }
  set (s := hpt_sort uniq). assert (Pm : Permutation s uniq) by apply hpt_sort_perm. assert (Ss : StronglySorted hle s) by apply hpt_sort_sorted.
  destruct (hpoints_ok _ _ _ _ H) as [_ Hi]. destruct (fill_keeps _ _ _ U) as (_ & _ & Sub).
  assert (Hs : forall e, In e s -> nth_error hs (snd e) = Some e /\ nth_error zs (snd e) = Some (fst e)).
  { intros e I. apply (Permutation_in _ Pm) in I. destruct (Sub e I) as [[]|I2]. apply In_nth_error in I2 as [i E]. pose proof (Hi _ _ E) as Es. rewrite Es. split; auto. rewrite <- M, nth_error_map, E. auto. }
  assert (Ns : (0 < length s)%nat).
  { destruct (Forall2_nth _ _ _ 0 _ G eq_refl) as (z0 & Z0 & _). apply nth_error_In in Z0. apply K in Z0. apply in_map_iff in Z0 as (e & _ & I). apply (Permutation_in _ (Permutation_sym Pm)) in I. destruct s; [destruct I|cbn; lia]. }
  destruct (nth_error_ex s 0 Ns) as [a Ea]. destruct (nth_error_ex s (length s - 1)) as [b Eb]; [lia|]. unfold get. rewrite Ea. cbn [bind]. rewrite Eb. cbn [bind].
  destruct (Hs a) as [_ Za]; [eapply nth_error_In; eauto|]. destruct (Hs b) as [_ Zb]; [eapply nth_error_In; eauto|].
  destruct (Forall2_nth_r _ _ _ _ _ G Za) as (pa & Epa & Pa1 & Pa2 & _). destruct (Forall2_nth_r _ _ _ _ _ G Zb) as (pb & Epb & Pb1 & Pb2 & _).
  exists (snd a), (snd b), pa, pb. split; auto. split; auto. split; auto. intros p I. apply In_nth_error in I as [i E]. destruct (Forall2_nth _ _ _ _ _ G E) as (z & Z & P1 & P2 & _).
  destruct (between_along low dx (fst a) (fst b) z) as (t & Ht & X & Y).
  - assert (Iz : In z (map fst uniq)) by (apply K; eapply nth_error_In; eauto). apply in_map_iff in Iz as (e & <- & Ie). apply (Permutation_in _ (Permutation_sym Pm)) in Ie. split; [|split].
    + apply (ss_head hle s a e hle_refl Ss Ea Ie).
    + apply (ss_last hle s b e hle_refl Ss Eb Ie).
    + assert (O : orient pa pb p == 0) by (apply OL; eapply nth_error_In; eauto). rewrite (grid_orient _ _ _ _ _ _ _ _ _ _ _ _ _ G Epa Epb E Za Zb Z) in O.
      apply Qmult_integral in O as [O|O]; [nra|]. change 0 with (inject_Z 0) in O. exact (proj1 (inject_Z_injective _ _) O).
  - exists t. split; auto. unfold along in *. cbn [fst snd] in *. rewrite Pa1, Pa2, Pb1, Pb2, P1, P2. auto.
Qed.
(* every input is close to the hull of the kept points *)
Lemma kept_near pts low dx hs uniq p : 0 < dx -> hpoints pts low dx = Ok hs -> set_fill hs [] uniq -> In p pts -> fst low <= fst p -> snd low <= snd p ->
  exists e, In e uniq /\ Qabs (fst p - fst (grid low dx (fst e))) <= (3 # 2) * dx /\ Qabs (snd p - snd (grid low dx (fst e))) <= (3 # 2) * dx.
Proof.
  intros D H U I Lx Ly. destruct (hpoints_ok _ _ _ _ H) as [F _]. destruct (Forall2_in_l _ _ _ _ F I) as (e & Ie & X & Y). destruct (fill_keeps _ _ _ U) as (_ & K & _). destruct (K e Ie) as (e' & I' & Dx & Dy).
  exists e'. split; auto. apply hcoord_near in X, Y; auto. unfold grid. cbn [fst snd].
  assert (S : forall x lo u v, Qabs (x - (lo + dx * inject_Z u)) <= dx / 2 -> (Z.abs (u - v) <= 1)%Z -> Qabs (x - (lo + dx * inject_Z v)) <= (3 # 2) * dx).
  { clear - D. intros x lo u v A B. apply Qabs_Qle_condition in A. unfold Qdiv in A. change (/ 2) with (1 # 2) in A. apply Qabs_Qle_condition. assert (L1 : inject_Z u <= inject_Z v + 1) by (change 1 with (inject_Z 1); rewrite <- inject_Z_plus, <- Zle_Qle; lia). assert (L2 : inject_Z v <= inject_Z u + 1) by (change 1 with (inject_Z 1); rewrite <- inject_Z_plus, <- Zle_Qle; lia). split; nra. }
  split; [apply (S _ _ _ _ X Dx)|apply (S _ _ _ _ Y Dy)].
Qed.

(* ---- combinations of a part of the points ---- *)
Definition wsum (ws : list Q) (f : p2 -> Q) (ps : list p2) : Q := sumf (fun e => fst e * f (snd e)) (combine ws ps).
Lemma bump p qs : In p qs -> forall w ws, 0 <= w -> length ws = length qs -> (forall x, In x ws -> 0 <= x) ->
  exists ws', length ws' = length qs /\ (forall x, In x ws' -> 0 <= x) /\ sumf (fun w => w) ws' == w + sumf (fun w => w) ws /\ forall f, wsum ws' f qs == w * f p + wsum ws f qs.
Proof.
  unfold wsum. induction qs as [|q qs IH]; [intros []|]. intros I w [|v ws] W L N; [discriminate|]. cbn in L. destruct I as [<-|I].
  - exists (w + v :: ws). split; [cbn; lia|]. split.
    + intros x [<-|X]; [pose proof (N v (or_introl eq_refl)); lra|apply N; right; auto].
    + split; [rewrite !sumf_cons; lra|]. intros f. cbn [combine]. rewrite !sumf_cons. cbn [fst snd]. ring.
  - destruct (IH I w ws W) as (ws' & L' & N' & S' & F'); [lia|intros; apply N; right; auto|]. exists (v :: ws'). split; [cbn; lia|]. split.
    + intros x [<-|X]; [apply N; left; auto|auto].
    + split; [rewrite !sumf_cons, S'; ring|]. intros f. cbn [combine]. rewrite !sumf_cons, F'. ring.
Qed.
Lemma zeros qs : length (repeat 0 (length qs)) = @length p2 qs /\ sumf (fun w => w) (repeat 0 (length qs)) == 0 /\ forall f, wsum (repeat 0 (length qs)) f qs == 0.
Proof.
  unfold wsum. split; [apply repeat_length|]. split; [induction qs as [|q qs IH]; [reflexivity|]; cbn [length repeat]; rewrite sumf_cons, IH; ring|].
  intros f. induction qs as [|q qs IH]; [reflexivity|]. cbn [length repeat combine]. rewrite sumf_cons, IH. cbn [fst snd]. ring.
Qed.
Lemma spread qs ps : incl ps qs -> forall ws, length ws = length ps -> (forall x, In x ws -> 0 <= x) ->
  exists ws', length ws' = length qs /\ (forall x, In x ws' -> 0 <= x) /\ sumf (fun w => w) ws' == sumf (fun w => w) ws /\ forall f, wsum ws' f qs == wsum ws f ps.
Proof.
  induction ps as [|p ps IH]; intros I [|w ws] L N; try discriminate.
  - destruct (zeros qs) as (A & B & C). exists (repeat 0 (length qs)). split; auto. split; [intros x X; apply repeat_spec in X; subst; lra|]. split; [exact B|]. intros f. rewrite C. reflexivity.
  - destruct (IH (fun x X => I x (or_intror X)) ws) as (ws1 & L1 & N1 & S1 & F1); [cbn in L; lia|intros; apply N; right; auto|].
    destruct (bump p qs (I p (or_introl eq_refl)) w ws1) as (ws2 & L2 & N2 & S2 & F2); auto; [apply N; left; auto|]. exists ws2. split; auto. split; auto. split; [rewrite S2, S1, sumf_cons; reflexivity|].
    intros f. rewrite F2, F1. unfold wsum. cbn [combine]. rewrite sumf_cons. reflexivity.
Qed.
Lemma comb_incl q ps : Combination ps q -> forall qs, incl ps qs -> Combination qs q.
Proof.
  intros (ws & L & N & S1 & X & Y) qs I. destruct (spread qs ps I ws L N) as (ws' & L' & N' & S' & F). exists ws'. split; auto. split; auto. split; [rewrite S'; auto|]. split; [rewrite X; symmetry; apply (F fst)|rewrite Y; symmetry; apply (F snd)].
Qed.
