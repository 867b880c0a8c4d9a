(* The cells of a Voronoi diagram lie side by side, also when their corners are truncated. *)
From Coq Require Import QArith Qabs Lqa Permutation.
From Verif Require Import Base BaseFacts QuantMeshModel QuantMeshSpec PLCSpec BoxModel BoxProofs BoxProps Plane PlaneFacts AreaSpec AreaProofs WithinSpec WithinProofs4 CsgProofs3 TriModel TriSpec TriProofs8 TriProofs10 MeshEditorProofs3 EdgeMaskProofs2 QuantMeshProofs QuantMeshProofs2 ClipModel ClipSpec BoundedSpec BoostModel BoostSpec.
Local Open Scope nat_scope.

Lemma choose_list {A} (P : nat -> A -> Prop) n : (forall i, i < n -> exists x, P i x) -> exists l, length l = n /\ forall i x, nth_error l i = Some x -> P i x.
Proof.
  induction n as [|n IH]; intros H; [exists []; split; auto; intros [|i] x E; discriminate|].
  destruct IH as (l & L & Hl); [intros; apply H; lia|]. destruct (H n ltac:(lia)) as [x Hx]. exists (l ++ [x]). split; [rewrite app_length; cbn; lia|].
  intros i y E. destruct (Nat.lt_ge_cases i n) as [Li|Li].
  - rewrite nth_error_app1 in E by lia. auto.
  - rewrite nth_error_app2 in E by lia. assert (i - length l = 0) by (apply nth_error_lt in E; cbn in E; lia). rewrite H0 in E. injection E as <-. assert (i = n) by lia. subst. auto.
Qed.

(* ---- truncation ---- *)
Lemma trunc_opp q : trunc (- q) = (- trunc q)%Z.
Proof. unfold trunc. destruct q as [n d]. cbn. apply Z.quot_opp_l. discriminate. Qed.
Lemma trunc_near q : (Qabs (inject_Z (trunc q) - q) < 1)%Q.
Proof.
  destruct (Qlt_le_dec q 0) as [N|N].
  - destruct (trunc_spec (- q) ltac:(lra)) as [[A B] _]. rewrite trunc_opp, inject_Z_opp in A, B. apply Qabs_Qlt_condition. lra.
  - destruct (trunc_spec q N) as [[A B] _]. apply Qabs_Qlt_condition. lra.
Qed.
Lemma trunc_eq p q : (p == q)%Q -> trunc p = trunc q.
Proof.
  intros E. destruct (Qlt_le_dec q 0) as [N|N].
  - assert (X : trunc (- p) = trunc (- q)); [|rewrite !trunc_opp in X; lia]. rewrite !trunc_floor by lra. rewrite E. reflexivity.
  - rewrite !trunc_floor by lra. rewrite E. reflexivity.
Qed.
Lemma trunc_range p a b : (inject_Z a <= p <= inject_Z b)%Q -> (a <= trunc p <= b)%Z.
Proof.
  intros [A B]. pose proof (trunc_near p) as T. apply Qabs_Qlt_condition in T.
  destruct (Qlt_le_dec p 0) as [N|N].
  - destruct (trunc_spec (- p) ltac:(lra)) as [[C D] E]. rewrite trunc_opp, inject_Z_opp in C, D. rewrite trunc_opp in E.
    split; [rewrite Zle_Qle; lra|]. assert (X : (inject_Z (trunc p) < inject_Z (b + 1))%Q) by (rewrite inject_Z_plus; change (inject_Z 1) with 1%Q; lra). rewrite <- Zlt_Qlt in X. lia.
  - destruct (trunc_spec p N) as [[C D] E]. split; [|rewrite Zle_Qle; lra]. assert (X : (inject_Z (a - 1) < inject_Z (trunc p))%Q). { unfold Zminus. rewrite inject_Z_plus. change (inject_Z (- (1))) with (- (1))%Q. lra. } rewrite <- Zlt_Qlt in X. lia.
Qed.
Definition tp (x : p2) : pt := (trunc (fst x), trunc (snd x)).
Definition qsame (x y : p2) : Prop := (fst x == fst y /\ snd x == snd y)%Q.
Lemma tp_same x y : qsame x y -> tp x = tp y.
Proof. intros [A B]. unfold tp. rewrite (trunc_eq _ _ A), (trunc_eq _ _ B). auto. Qed.
Lemma tp_apart x y : qsame x y \/ (2 <= Qabs (fst x - fst y))%Q \/ (2 <= Qabs (snd x - snd y))%Q -> tp x = tp y -> qsame x y.
Proof.
  intros [H|H] E; auto. exfalso. unfold tp in E. injection E as E1 E2.
  assert (K : forall p q, trunc p = trunc q -> ~ (2 <= Qabs (p - q))%Q).
  { intros p q T L. pose proof (trunc_near p) as A. pose proof (trunc_near q) as B. rewrite T in A. apply Qabs_Qlt_condition in A. apply Qabs_Qlt_condition in B.
    assert (X : (Qabs (p - q) < 2)%Q) by (apply Qabs_Qlt_condition; lra). lra. }
  destruct H as [H|H]; [exact (K _ _ E1 H)|exact (K _ _ E2 H)].
Qed.

(* ---- closed polygons ---- *)
Definition closed (l : list pt) : polygon := match l with [] => [] | v :: t => v :: t ++ [v] end.
Lemma combine_short {A B} (l r : list A) (l' : list B) : length l = length l' -> combine (l ++ r) l' = combine l l'.
Proof. revert l'. induction l as [|a l IH]; intros [|b l'] L; try discriminate; [destruct r; reflexivity|]. cbn. f_equal. apply IH. auto. Qed.
Lemma closed_sides l : sides (closed l) = ring l.
Proof.
  destruct l as [|v t]; [reflexivity|]. unfold sides, closed, ring. cbn [tl]. change (v :: t ++ [v]) with ((v :: t) ++ [v]). apply combine_short. rewrite app_length. cbn. lia.
Qed.
Lemma ring_mapped {A B} (g : A -> B) (l : list A) : ring (map g l) = map (fun e => (g (fst e), g (snd e))) (ring l).
Proof.
  destruct l as [|a t]; [reflexivity|]. unfold ring. cbn [map]. change (g a :: map g t) with (map g (a :: t)). change [g a] with (map g [a]). rewrite <- map_app.
  generalize (a :: t) as l1, (t ++ [a]) as l2. induction l1 as [|x l1 IH]; intros [|y l2]; try reflexivity. cbn. f_equal. apply IH.
Qed.
Lemma ring_fst_in {A} (l : list A) x : In x l -> exists y, In (x, y) (ring l).
Proof.
  intros I. apply In_nth_error in I as [i Hi]. pose proof (nth_error_lt _ _ _ Hi) as L. destruct (nth_error_ex l (S i mod length l)) as [y Hy]; [apply Nat.mod_upper_bound; lia|].
  exists y. apply (nth_error_In _ i). apply AreaProofs.ring_nth. auto.
Qed.
Lemma ring_in_both {A} (l : list A) x y : In (x, y) (ring l) -> In x l /\ In y l.
Proof. intros I. apply In_nth_error in I as [i Hi]. apply AreaProofs.ring_nth in Hi as (A1 & A2 & _). split; eapply nth_error_In; eauto. Qed.

(* ---- convex polygons ---- *)
Lemma convex_third xs x y : StrictlyConvex xs -> 3 <= length xs -> In (x, y) (ring xs) -> exists z, In z xs /\ (0 < orient x y z)%Q.
Proof.
  intros C L I. apply In_nth_error in I as [i Hi]. pose proof (proj1 (AreaProofs.ring_nth _ _ _) Hi) as (A1 & A2 & A3). cbn [fst snd] in *.
  assert (K : exists k, k < length xs /\ k <> i /\ k <> S i mod length xs).
  { destruct (Nat.eq_dec (S i) (length xs)) as [Q|Q]; [rewrite Q, Nat.mod_same by lia; exists 1; lia|rewrite Nat.mod_small by lia].
    destruct (Nat.eq_dec i 0); [exists 2; lia|exists 0; lia]. }
  destruct K as (k & Lk & N1 & N2). destruct (nth_error_ex xs k Lk) as [z Hz]. exists z. split; [eapply nth_error_In; eauto|].
  apply (convex_edge_nth xs i x y k z C Hi Hz); auto.
Qed.
Lemma convex_side_length xs x y : StrictlyConvex xs -> 3 <= length xs -> In (x, y) (ring xs) -> ~ qsame x y.
Proof.
  intros C L I [A B]. destruct (convex_third xs x y C L I) as (z & _ & O). unfold orient in O. rewrite A, B in O. ring_simplify in O. lra.
Qed.
Definition cross2 (e : p2 * p2) : Q := (fst (fst e) * snd (snd e) - snd (fst e) * fst (snd e))%Q.
Lemma convex_area xs : StrictlyConvex xs -> 3 <= length xs -> (0 < sumf cross2 (ring xs))%Q.
Proof.
  intros C L. destruct xs as [|o l]; [cbn in L; lia|]. cbn [length] in L.
  rewrite <- (same_edges_sum cross2 ltac:(intros a b; unfold cross2; cbn [fst snd]; ring) _ _ (ring_fan o l ltac:(lia))), sumf_flat.
  assert (E : (sumf (fun t => sumf cross2 (tri_edges t)) (fan o l) == sumf tor (fan o l))%Q).
  { apply sumf_ext. intros [[a b] c] _. unfold tor, tri_edges, sumf, fold_right, cross2, orient. cbn [fst snd]. ring. }
  rewrite E. destruct l as [|b [|c t]]; try (cbn in L; lia).
  apply (sumf_pos tor _ (o, b, c)); [intros t' I; apply Qlt_le_weak, (fan_pos o _ t' C I)|left; auto|apply (fan_pos o (b :: c :: t)); auto; left; auto].
Qed.

(* two sites whose cells go along the same side in the same direction are at the same place *)
Lemma four_points P Q x y z w : (sqd x P == sqd x Q)%Q -> (sqd y P == sqd y Q)%Q ->
  ((sqd z Q - sqd z P) * orient x y w == (sqd w Q - sqd w P) * orient x y z)%Q.
Proof.
  intros A B. assert (I : ((sqd z Q - sqd z P) * orient x y w - (sqd w Q - sqd w P) * orient x y z == (sqd y Q - sqd y P) * orient x z w - (sqd x Q - sqd x P) * orient y z w)%Q) by (unfold sqd, orient; ring).
  rewrite A, B in I. ring_simplify in I. lra.
Qed.
Lemma same_side_same_site P Q xs ys x y x' y' :
  (forall z, In z xs -> sqd z P <= sqd z Q)%Q -> (forall z, In z ys -> sqd z Q <= sqd z P)%Q ->
  StrictlyConvex xs -> StrictlyConvex ys -> 3 <= length xs -> 3 <= length ys ->
  In (x, y) (ring xs) -> In (x', y') (ring ys) -> qsame x x' -> qsame y y' -> qsame P Q.
Proof.
  intros Hx Hy Cx Cy Lx Ly Ix Iy Sx Sy. destruct (convex_third xs x y Cx Lx Ix) as (z & Iz & Oz). destruct (convex_third ys x' y' Cy Ly Iy) as (w & Iw & Ow).
  assert (Ow' : (0 < orient x y w)%Q). { unfold orient in *. destruct Sx as [-> ->], Sy as [-> ->]. auto. }
  destruct (ring_in_both _ _ _ Ix) as [Ix1 Ix2]. destruct (ring_in_both _ _ _ Iy) as [Iy1 Iy2].
  assert (Eq : forall a a', qsame a a' -> In a xs -> In a' ys -> (sqd a P == sqd a Q)%Q).
  { intros a a' [A B] I I'. specialize (Hx a I). specialize (Hy a' I'). unfold sqd in *. rewrite <- A, <- B in Hy. lra. }
  pose proof (Eq x x' Sx Ix1 Iy1) as E1. pose proof (Eq y y' Sy Ix2 Iy2) as E2.
  pose proof (four_points P Q x y z w E1 E2) as F. pose proof (four_points P Q x y z P E1 E2) as G.
  specialize (Hx z Iz). specialize (Hy w Iw).
  assert (A : (0 <= (sqd z Q - sqd z P) * orient x y w)%Q) by (apply Qmult_le_0_compat; lra).
  assert (B : (0 <= (sqd w P - sqd w Q) * orient x y z)%Q) by (apply Qmult_le_0_compat; lra).
  assert (Z : (sqd z Q - sqd z P == 0)%Q). { assert (X : ((sqd z Q - sqd z P) * orient x y w == 0)%Q) by lra. apply Qmult_integral in X. destruct X; lra. }
  rewrite Z in G. assert (Y : (sqd P Q == 0)%Q).
  { assert (X : ((sqd P Q - sqd P P) * orient x y z == 0)%Q) by lra. apply Qmult_integral in X. destruct X as [X|X]; [|lra]. assert (sqd P P == 0)%Q by (unfold sqd; ring). lra. }
  unfold sqd in Y. pose proof (TriProofs10.sq_nonneg (fst P - fst Q)). pose proof (TriProofs10.sq_nonneg (snd P - snd Q)).
  assert (Y1 : ((fst P - fst Q) * (fst P - fst Q) == 0)%Q) by lra. assert (Y2 : ((snd P - snd Q) * (snd P - snd Q) == 0)%Q) by lra.
  apply Qmult_integral in Y1. apply Qmult_integral in Y2. split; [destruct Y1|destruct Y2]; lra.
Qed.

Section Cells.
  Context (sites : list pt) (ngen : nat) (xss : list (list p2)).
  Context (Len : length xss = ngen) (Nsites : ngen <= length sites) (Distinct : NoDup (firstn ngen sites)).
  Context (Cv : forall xs, In xs xss -> StrictlyConvex xs /\ 3 <= length xs)
    (Vor : forall p xs, nth_error xss p = Some xs -> forall x, Nearest (map grid_pt sites) p x <-> Combination xs x)
    (Apart : forall xs ys x y, In xs xss -> In ys xss -> In x xs -> In y ys -> qsame x y \/ (2 <= Qabs (fst x - fst y))%Q \/ (2 <= Qabs (snd x - snd y))%Q).
  Definition polys_of : list polygon := map (fun xs => closed (map tp xs)) xss.

  Lemma sides_of : all_sides polys_of = map (fun e => (tp (fst e), tp (snd e))) (flat_map ring xss).
  Proof using.
    unfold all_sides, polys_of. clear. induction xss as [|xs l IH]; [reflexivity|]. cbn [map flat_map]. rewrite map_app, IH, closed_sides, ring_mapped. reflexivity.
  Qed.
  Lemma in_ring_xs e : In e (flat_map ring xss) -> exists xs, In xs xss /\ In e (ring xs) /\ In (fst e) xs /\ In (snd e) xs.
  Proof using. intros I. apply in_flat_map in I as (xs & I1 & I2). exists xs. destruct e as [x y]. destruct (ring_in_both _ _ _ I2). auto. Qed.
  Lemma tp_inj xs ys x y : In xs xss -> In ys xss -> In x xs -> In y ys -> tp x = tp y -> qsame x y.
  Proof using Apart. intros A B C D. exact (tp_apart x y (Apart xs ys x y A B C D)). Qed.
  Lemma tp_inj_cell xs x y : In xs xss -> In x xs -> In y xs -> tp x = tp y -> x = y.
  Proof using Apart Cv.
    intros I Ix Iy E. destruct (Cv xs I) as [C L]. pose proof (tp_inj xs xs x y I I Ix Iy E) as S.
    destruct (ring_fst_in xs x Ix) as [w R]. destruct (convex_edge xs x w y C R Iy) as [|[->|O]]; auto.
    - exfalso. apply (convex_side_length xs x w C L R S).
    - exfalso. destruct S as [A B]. unfold orient in O. rewrite <- A, <- B in O. ring_simplify in O. lra.
  Qed.
  Lemma tps_nodup xs : In xs xss -> NoDup (map tp xs).
  Proof using Apart Cv.
    intros I. destruct (Cv xs I) as [C L]. pose proof (convex_nodup xs C L) as N. assert (K : forall x y, In x xs -> In y xs -> tp x = tp y -> x = y) by (intros; eapply tp_inj_cell; eauto).
    clear - N K. induction xs as [|a xs IH]; [constructor|]. inversion N; subst. cbn. constructor.
    - intros J. apply in_map_iff in J as (b & E & J). assert (b = a) by (apply K; [right; auto|left; auto|auto]). subst. auto.
    - apply IH; auto. intros; apply K; auto; right; auto.
  Qed.

  Lemma site_at p : p < ngen -> exists P, nth_error sites p = Some P.
  Proof using Nsites. clear -Nsites. intros H. apply nth_error_ex. lia. Qed.
  Lemma corner_near p xs P x q Q : nth_error xss p = Some xs -> nth_error sites p = Some P -> In x xs -> nth_error sites q = Some Q -> (sqd x (grid_pt P) <= sqd x (grid_pt Q))%Q.
  Proof using Vor.
    intros H HP I HQ. destruct (proj2 (Vor p xs H x) (comb_corner xs x I)) as (P' & E & N). rewrite nth_error_map, HP in E. injection E as <-.
    apply N. apply in_map. eapply nth_error_In; eauto.
  Qed.

  Lemma side_by_side : SideBySide polys_of.
  Proof using Len Nsites Distinct Cv Vor Apart.
    split.
    - intros s I. rewrite sides_of in I. apply in_map_iff in I as (e & <- & I). destruct (in_ring_xs e I) as (xs & Ix & Ir & A & B). cbn [fst snd]. intros E.
      destruct (Cv xs Ix) as [C L]. destruct e as [x y]. apply (convex_side_length xs x y C L Ir). eapply tp_inj; eauto.
    - assert (K : forall k l, (forall i xs, nth_error l i = Some xs -> nth_error xss (k + i) = Some xs) -> NoDup (all_sides (map (fun xs => closed (map tp xs)) l))).
      { intros k l. revert k. induction l as [|xs l IH]; intros k H; [constructor|]. cbn [map]. unfold all_sides. cbn [flat_map]. fold (all_sides (map (fun xs => closed (map tp xs)) l)).
        pose proof (H 0 xs eq_refl) as H0. rewrite Nat.add_0_r in H0. pose proof (nth_error_In _ _ H0) as I0.
        assert (Hl : forall i ys, nth_error l i = Some ys -> nth_error xss (S k + i) = Some ys) by (intros i ys E; replace (S k + i) with (k + S i) by lia; apply H; auto).
        apply MeshEditorProofs3.NoDup_app_disj; [rewrite closed_sides; apply ring_nodup, tps_nodup; auto|apply (IH (S k)); auto|].
        intros s I1 I2. rewrite closed_sides, ring_mapped in I1. apply in_map_iff in I1 as ([x y] & Es & I1). apply in_flat_map in I2 as (poly & I2 & I3). apply in_map_iff in I2 as (ys & <- & I2).
        rewrite closed_sides, ring_mapped in I3. apply in_map_iff in I3 as ([x' y'] & Es' & I3). apply In_nth_error in I2 as [i I2]. pose proof (Hl i ys I2) as Hq. pose proof (nth_error_In _ _ Hq) as Iq.
        rewrite <- Es' in Es. cbn [fst snd] in Es. injection Es as E1 E2.
        destruct (ring_in_both _ _ _ I1) as [B1 B2]. destruct (ring_in_both _ _ _ I3) as [B3 B4].
        assert (S1 : qsame x x') by (apply (tp_inj xs ys); auto; unfold tp; congruence). assert (S2 : qsame y y') by (apply (tp_inj xs ys); auto; unfold tp; congruence).
        pose proof (nth_error_lt _ _ _ H0) as Lk. pose proof (nth_error_lt _ _ _ Hq) as Lq. rewrite Len in Lk, Lq.
        destruct (site_at _ Lk) as [P HP]. destruct (site_at _ Lq) as [Q HQ].
        destruct (Cv xs I0) as [C1 L1]. destruct (Cv ys Iq) as [C2 L2].
        assert (E : qsame (grid_pt P) (grid_pt Q)).
        { apply (same_side_same_site _ _ xs ys x y x' y'); auto.
          - intros z Iz. apply (corner_near k xs P z (S k + i) Q); auto.
          - intros z Iz. apply (corner_near (S k + i) ys Q z k P); auto. }
        assert (PQ : P = Q). { destruct E as [X Y]. cbn in X, Y. unfold Qeq in X, Y. cbn in X, Y. destruct P, Q; cbn in *; f_equal; lia. }
        subst Q. assert (k = S k + i); [|lia]. apply (proj1 (NoDup_nth_error (firstn ngen sites)) Distinct); [rewrite firstn_length; lia|].
        rewrite !EdgeMaskProofs2.nth_first by auto. congruence. }
      unfold polys_of. apply (K 0). auto.
  Qed.

  (* ---- an outer side ---- *)
  Definition rep (v : pt) : p2 := match find (fun x => pt_eqb (tp x) v) (concat xss) with Some x => x | None => (0, 0)%Q end.
  Lemma rep_ok xs x : In xs xss -> In x xs -> qsame (rep (tp x)) x.
  Proof using Apart.
    intros I Ix. unfold rep. destruct (find _ (concat xss)) as [y|] eqn:F.
    - apply find_some in F as [Iy E]. apply QuantMeshProofs.pt_eqb_iff in E. apply in_concat in Iy as (ys & I1 & I2). apply (tp_inj ys xs); auto.
    - exfalso. assert (X := find_none _ _ F x ltac:(apply in_concat; eauto)). cbn in X. rewrite QuantMeshProofs2.pt_eqb_refl in X. discriminate.
  Qed.
  Lemma outer_side : xss <> [] -> exists s, OuterSide polys_of s.
  Proof using Len Nsites Distinct Cv Vor Apart.
    intros Ne. destruct side_by_side as [_ Nd]. set (g := fun s : pt * pt => cross2 (rep (fst s), rep (snd s))).
    assert (G : (0 < sumf g (all_sides polys_of))%Q).
    { rewrite sides_of, sumf_map. assert (E : (sumf (fun e : p2 * p2 => g (tp (fst e), tp (snd e))) (flat_map ring xss) == sumf cross2 (flat_map ring xss))%Q).
      { apply sumf_ext. intros e I. destruct (in_ring_xs e I) as (xs & Ix & _ & A & B). unfold g, cross2. cbn [fst snd].
        destruct (rep_ok xs (fst e) Ix A) as [-> ->]. destruct (rep_ok xs (snd e) Ix B) as [-> ->]. reflexivity. }
      rewrite E, sumf_flat. destruct xss as [|xs0 l]; [congruence|]. apply (sumf_pos _ _ xs0).
      - intros xs I. destruct (Cv xs I). apply Qlt_le_weak, convex_area; auto.
      - left; auto.
      - destruct (Cv xs0 (or_introl eq_refl)). apply convex_area; auto. }
    destruct (existsb (fun s => negb (existsb (fun t => pt_eqb (fst t) (snd s) && pt_eqb (snd t) (fst s)) (all_sides polys_of))) (all_sides polys_of)) eqn:Ex.
    - apply existsb_exists in Ex as (s & I & N). exists s. split; auto. intros J. apply negb_true_iff in N.
      assert (X : existsb (fun t => pt_eqb (fst t) (snd s) && pt_eqb (snd t) (fst s)) (all_sides polys_of) = true); [|congruence].
      apply existsb_exists. exists (snd s, fst s). split; auto. cbn [fst snd]. rewrite !QuantMeshProofs2.pt_eqb_refl. auto.
    - exfalso. assert (Fl : forall s, In s (all_sides polys_of) -> In (flip s) (all_sides polys_of)).
      { intros s I. destruct (existsb (fun t => pt_eqb (fst t) (snd s) && pt_eqb (snd t) (fst s)) (all_sides polys_of)) eqn:E.
        - apply existsb_exists in E as (t & J & E). apply andb_true_iff in E as [E1 E2]. apply QuantMeshProofs.pt_eqb_iff in E1. apply QuantMeshProofs.pt_eqb_iff in E2.
          destruct s as [a b], t as [c d]. cbn [fst snd] in *. subst. exact J.
        - assert (X : existsb (fun s => negb (existsb (fun t => pt_eqb (fst t) (snd s) && pt_eqb (snd t) (fst s)) (all_sides polys_of))) (all_sides polys_of) = true); [|congruence].
          apply existsb_exists. exists s. split; auto. rewrite E. auto. }
      assert (P : Permutation (map flip (all_sides polys_of)) (all_sides polys_of)).
      { apply NoDup_Permutation; auto; [apply FinFun.Injective_map_NoDup; auto; intros [a b] [c d] E; unfold flip in E; cbn in E; congruence|].
        intros s. split; [intros I; apply in_map_iff in I as (t & <- & I); auto|]. intros I. apply in_map_iff. exists (flip s). split; [destruct s; reflexivity|auto]. }
      pose proof (sumf_perm g _ _ P) as S. rewrite sumf_map in S.
      assert (O : (sumf (fun a => g (flip a)) (all_sides polys_of) == (-1) * sumf g (all_sides polys_of))%Q).
      { rewrite <- sumf_scale. apply sumf_ext. intros [a b] _. unfold g, flip, cross2. cbn [fst snd]. ring. }
      lra.
  Qed.
End Cells.
