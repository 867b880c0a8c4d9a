From Verif Require Import Base BaseFacts SerializeModel PLCSpec Plane PlaneFacts AreaModel AreaProofs MeshEditorModel WithinModel WithinSpec WithinProofs.
From Coq Require Import QArith Qabs Lqa Permutation.
Local Open Scope Q_scope.

(* ---- the loop computes the parity of the crossings of the ring ---- *)
Definition par (l : list bool) : bool := fold_right xorb false l.
Definition xp (p : p2) (es : list (p2 * p2)) : bool := par (map (fun e => crossing p (fst e) (snd e)) es).
Lemma par_app l l' : par (l ++ l') = xorb (par l) (par l').
Proof. unfold par. induction l as [|b l IH]; cbn [fold_right app]; [rewrite xorb_false_l; auto|rewrite IH, xorb_assoc; auto]. Qed.
Lemma par_perm l l' : Permutation l l' -> par l = par l'.
Proof. unfold par. induction 1; cbn [fold_right]; try congruence. rewrite <- !xorb_assoc, (xorb_comm y x). auto. Qed.
Lemma par_odd l : par l = Nat.odd (length (filter (fun c => c) l)).
Proof.
  induction l as [|b l IH]; [reflexivity|]. cbn [par fold_right filter]. fold (par l). rewrite IH. destruct b; cbn [length].
  - rewrite Nat.odd_succ, <- Nat.negb_odd. reflexivity.
  - apply xorb_false_l.
Qed.
Lemma xp_app p l l' : xp p (l ++ l') = xorb (xp p l) (xp p l').
Proof. unfold xp. rewrite map_app. apply par_app. Qed.
Lemma xp_cons p e l : xp p (e :: l) = xorb (crossing p (fst e) (snd e)) (xp p l).
Proof. reflexivity. Qed.
Lemma xp_perm p l l' : Permutation l l' -> xp p l = xp p l'.
Proof. intros H. apply par_perm, Permutation_map. auto. Qed.
Lemma xp_same p l l' : SameEdges l l' -> xp p l = xp p l'.
Proof.
  induction 1 as [l l' H|a b l|l l' _ IH|l1 l2 l3 _ IH1 _ IH2]; [apply xp_perm; auto| |auto|congruence].
  rewrite !xp_cons. cbn [fst snd]. rewrite (crossing_sym p b a), <- xorb_assoc, xorb_nilpotent. apply xorb_false_l.
Qed.
Lemma xp_flip p l : xp p (map flip l) = xp p l.
Proof. unfold xp. rewrite map_map. f_equal. apply map_ext. intros [a b]. apply crossing_sym. Qed.

Fixpoint chain {A} (v : A) (l : list A) : list (A * A) := match l with [] => [] | w :: t => (v, w) :: chain w t end.
Lemma combine_chain {A} (a : A) t b : combine (a :: t) (t ++ [b]) = chain a (t ++ [b]).
Proof. revert a. induction t as [|c t IH]; intros a; [reflexivity|]. cbn [app combine chain]. f_equal. apply IH. Qed.
Lemma chain_last {A} (a : A) t b : chain a (t ++ [b]) = chain a t ++ [(last (a :: t) a, b)].
Proof.
  assert (G : forall t a d, chain a (t ++ [b]) = chain a t ++ [(last (a :: t) d, b)]).
  { clear. induction t as [|c t IH]; intros a d; [reflexivity|]. cbn [app chain]. rewrite (IH c d). reflexivity. }
  apply G.
Qed.
Lemma ring_chain {A} (a : A) t : Permutation ((last (a :: t) a, a) :: chain a t) (ring (a :: t)).
Proof. cbn [ring]. rewrite combine_chain, chain_last. apply Permutation_cons_append. Qed.

Lemma vat_ok vs base ps i p : StoredAt vs base ps -> nth_error ps i = Some p -> vat vs base i = Ok p.
Proof.
  intros S H. destruct (S i p H) as [X Y]. unfold vat, get. rewrite X. cbn [bind]. rewrite Y. cbn [bind]. destruct p; auto.
Qed.
Lemma pip_loop vs base ps p : StoredAt vs base ps -> forall m k j r vj, (k + m = length ps)%nat -> nth_error ps j = Some vj ->
  exists j', mfold (pip_step p (length ps) vs base) (seq k m) (j, r) = Ok (j', xorb r (xp p (chain vj (skipn k ps)))).
Proof.
  intros S. induction m as [|m IH]; intros k j r vj E J.
  - exists j. cbn [seq mfold]. rewrite skipn_all2 by lia. cbn. rewrite xorb_false_r. auto.
  - destruct (nth_error_ex ps k) as [vk K]; [lia|]. cbn [seq mfold].
    destruct (IH (Datatypes.S k) k (if crossing p vk vj then negb r else r) vk ltac:(lia) K) as [j' H]. exists j'.
    unfold pip_step at 1. pose proof (nth_error_lt _ _ _ K). pose proof (nth_error_lt _ _ _ J).
    rewrite (proj2 (Nat.ltb_lt k (length ps))), (proj2 (Nat.ltb_lt j (length ps))) by auto. cbn [andb assert bind].
    rewrite (vat_ok _ _ _ _ _ S K), (vat_ok _ _ _ _ _ S J). cbn [bind]. rewrite H. f_equal. f_equal.
    assert (D : skipn k ps = vk :: skipn (Datatypes.S k) ps).
    { clear - K. revert k K. induction ps as [|a ps IH]; intros [|k] K; try discriminate; cbn in *; [congruence|auto]. }
    rewrite D. cbn [chain]. rewrite xp_cons. cbn [fst snd]. rewrite (crossing_sym p vj vk). destruct (crossing p vk vj); cbn [xorb]; destruct r, (xp p (chain vk (skipn (Datatypes.S k) ps))); reflexivity.
Qed.
Lemma last_nth {A} (l : list A) d : l <> [] -> nth_error l (length l - 1) = Some (last l d).
Proof.
  intros N. destruct (exists_last N) as (t & a & ->). rewrite last_last, app_length. cbn [length]. rewrite nth_error_app2 by lia. replace (length t + 1 - 1 - length t)%nat with 0%nat by lia. auto.
Qed.
Lemma pip_ok vs base ps p : StoredAt vs base ps -> pointInPolygon p (length ps) vs base = Ok (xp p (ring ps)).
Proof.
  intros S. unfold pointInPolygon. destruct ps as [|a t]; [reflexivity|].
  destruct (pip_loop vs base (a :: t) p S (length (a :: t)) 0 (length (a :: t) - 1) false (last (a :: t) a)) as [j E]; [auto|apply last_nth; discriminate|].
  rewrite E. cbn [bind]. rewrite xorb_false_l. f_equal. cbn [skipn]. apply xp_perm, (ring_chain a t).
Qed.

(* ---- cutting into triangles ---- *)
Lemma triangle_parity_neg p a b c : orient a b c < 0 -> ~ orient a b p == 0 -> ~ orient b c p == 0 -> ~ orient c a p == 0 ->
  ~ snd a == snd p -> ~ snd b == snd p -> ~ snd c == snd p ->
  xorb (xorb (crossing p a b) (crossing p b c)) (crossing p c a) = in_tri p (a, c, b).
Proof.
  intros O N1 N2 N3 Na Nb Nc. rewrite <- (triangle_parity p a c b); auto.
  - rewrite (crossing_sym p a c), (crossing_sym p c b), (crossing_sym p b a). destruct (crossing p a b), (crossing p b c), (crossing p c a); reflexivity.
  - setoid_replace (orient a c b) with (- orient a b c) by (unfold orient; ring). lra.
  - intros Z. apply N3. rewrite orient_swap, Z. ring.
  - intros Z. apply N2. rewrite orient_swap, Z. ring.
  - intros Z. apply N1. rewrite orient_swap, Z. ring.
Qed.
Definition corners (t : p2 * p2 * p2) : list p2 := let '(a, b, c) := t in [a; b; c].
(* strictly in the triangle, whichever way it turns *)
Definition in_tri2 (p : p2) (t : p2 * p2 * p2) : bool := let '(a, b, c) := t in if Qlt_bool 0 (orient a b c) then in_tri p (a, b, c) else in_tri p (a, c, b).
Definition offheight (p : p2) (ps : list p2) : Prop := forall a, In a ps -> ~ snd a == snd p.
Lemma orient_distinct a b c : ~ orient a b c == 0 -> distinct a b /\ distinct b c /\ distinct c a.
Proof. intros N. unfold distinct. repeat split; intros [E1 E2]; apply N; unfold orient; rewrite E1, E2; ring. Qed.
Lemma tri_xp p t : ~ tor t == 0 -> General p (corners t) -> offheight p (corners t) -> xp p (tri_edges t) = in_tri2 p t.
Proof.
  destruct t as [[a b] c]. cbn [tor corners]. intros N G H. cbn [tri_edges]. rewrite !xp_cons. cbn [fst snd xp map par fold_right]. rewrite xorb_false_r, <- xorb_assoc.
  destruct (orient_distinct a b c N) as (D1 & D2 & D3).
  assert (In a [a; b; c] /\ In b [a; b; c] /\ In c [a; b; c]) as (Ia & Ib & Ic) by (cbn; tauto).
  unfold in_tri2. destruct (qltb_spec 0 (orient a b c)) as [O|O].
  - apply triangle_parity; auto; first [apply G; auto|apply H; auto].
  - apply triangle_parity_neg; auto; first [apply not_pos_neg; auto|apply G; auto|apply H; auto].
Qed.
Lemma tris_xp p ts : (forall t, In t ts -> ~ tor t == 0 /\ General p (corners t) /\ offheight p (corners t)) ->
  xp p (flat_map tri_edges ts) = par (map (in_tri2 p) ts).
Proof.
  induction ts as [|t ts IH]; intros H; [reflexivity|]. cbn [flat_map map]. rewrite xp_app, IH by (intros; apply H; right; auto).
  destruct (H t (or_introl eq_refl)) as (A & B & C). rewrite (tri_xp p t A B C). reflexivity.
Qed.
Lemma in_tri2_spec p t : ~ tor t == 0 -> General p (corners t) -> in_tri2 p t = true <-> InTriangle p t.
Proof.
  destruct t as [[a b] c]. cbn [tor corners]. intros N G. unfold in_tri2, in_tri, InTriangle, lf.
  destruct (orient_distinct a b c N) as (D1 & D2 & D3).
  assert (In a [a; b; c] /\ In b [a; b; c] /\ In c [a; b; c]) as (Ia & Ib & Ic) by (cbn; tauto).
  pose proof (G a b Ia Ib D1) as N1. pose proof (G b c Ib Ic D2) as N2. pose proof (G c a Ic Ia D3) as N3.
  assert (S1 : orient a b p + orient b c p + orient c a p == orient a b c) by (unfold orient; ring).
  destruct (qltb_spec 0 (orient a b c)) as [O|O]; rewrite !andb_true_iff, !qlt_bool_iff.
  - split; [tauto|]. intros [H|H]; [tauto|exfalso; lra].
  - rewrite (orient_swap c a), (orient_swap b c), (orient_swap a b). split; [intros; right; repeat split; lra|]. intros [H|H]; [exfalso; lra|repeat split; lra].
Qed.

(* ---- convex polygons ---- *)
Definition inside (p : p2) (es : list (p2 * p2)) : bool := forallb (fun e => lf p (fst e) (snd e)) es.
Lemma comb_sign (k x u y w : Q) : 0 < k -> 0 < u -> 0 < w -> 0 < x -> 0 < y -> forall z, k * z == u * x + w * y -> 0 < z.
Proof. intros K U W X Y z E. pose proof (sign_pp u x U X). pose proof (sign_pp w y W Y). assert (0 < k * z) by lra. destruct (Q_dec z 0) as [[L|L]|L]; auto; exfalso; [pose proof (sign_pn k z K L); lra|rewrite L in E; lra]. Qed.
Lemma lf_true p a b : lf p a b = true <-> 0 < orient a b p.
Proof. apply qlt_bool_iff. Qed.
Lemma convex_tail o b c t : StrictlyConvex (o :: b :: c :: t) -> StrictlyConvex (o :: c :: t).
Proof.
  intros V i j k x y z H X Y Z. apply (V (match i with 0 => 0 | S i => S (S i) end)%nat (S j) (S k)).
  - destruct i; lia.
  - destruct i; auto.
  - destruct j; [lia|]. auto.
  - destruct k; [lia|]. auto.
Qed.
Lemma fan_inside p o l : StrictlyConvex (o :: l) -> (forall a b, In a (o :: l) -> In b (o :: l) -> distinct a b -> ~ orient a b p == 0) -> l <> [] ->
  par (map (in_tri p) (fan o l)) = inside p (ring (o :: l)).
Proof.
  intros V G NE. destruct l as [|b l]; [contradiction|]. clear NE. revert b V G. induction l as [|c t IH]; intros b V G.
  - cbn [fan map par fold_right]. unfold inside. cbn [ring app combine forallb fst snd]. unfold lf.
    destruct (qltb_spec 0 (orient o b p)); [|reflexivity]. destruct (qltb_spec 0 (orient b o p)) as [H|H]; [|reflexivity]. rewrite orient_swap in H. exfalso. lra.
  - destruct (ring_step o b c t) as (r & R1 & R2). change (fan o (b :: c :: t)) with ((o, b, c) :: fan o (c :: t)). cbn [map]. change (par (in_tri p (o, b, c) :: map (in_tri p) (fan o (c :: t)))) with (xorb (in_tri p (o, b, c)) (par (map (in_tri p) (fan o (c :: t))))).
    rewrite IH; [|exact (convex_tail _ _ _ _ V)|intros x y X Y; apply G; cbn in *; tauto]. rewrite R1, R2. unfold inside. cbn [forallb fst snd].
    unfold in_tri. set (D := forallb _ r).
    assert (Ioc : 0 < orient o b c) by (apply (V 0 1 2)%nat; auto; lia).
    assert (Doc : distinct o c). { destruct (orient_distinct o b c) as (_ & _ & X); [lra|]. unfold distinct in *. intros [E1 E2]. apply X. split; symmetry; auto. }
    assert (Noc : ~ orient o c p == 0) by (apply G; cbn; auto).
    assert (Lco : lf p c o = negb (lf p o c)).
    { unfold lf. destruct (qltb_spec 0 (orient c o p)) as [H|H], (qltb_spec 0 (orient o c p)) as [K|K]; auto; rewrite orient_swap in H; exfalso; [lra|apply Noc; lra]. }
    rewrite Lco. destruct (lf p o c) eqn:Foc; cbn [negb].
    + (* beyond the diagonal *)
      rewrite !andb_false_r, xorb_false_l, andb_true_l. destruct D eqn:HD; [|rewrite !andb_false_r; auto].
      destruct t as [|d t].
      { (* r is the edge from c back to o *) cbn in R1. injection R1 as <-. unfold D in HD. cbn in HD. rewrite Lco in HD. discriminate. }
      apply lf_true in Foc.
      assert (Rin : forall x y, In (x, y) r -> 0 < orient x y p).
      { intros x y I. unfold D in HD. rewrite forallb_forall in HD. apply lf_true. apply (HD (x, y) I). }
      assert (Ecd : In (c, d) r) by (cbn in R1; injection R1 as <-; left; auto).
      assert (Ezo : exists z i, In (z, o) r /\ nth_error (o :: b :: c :: d :: t) i = Some z /\ (2 < i)%nat).
      { set (n := length (o :: b :: c :: d :: t)). destruct (nth_error_ex (o :: b :: c :: d :: t) (n - 1)) as [z Z]; [unfold n; cbn [length]; lia|].
        exists z, (n - 1)%nat. split; [|split; [auto|unfold n; cbn [length]; lia]].
        assert (E : nth_error (ring (o :: b :: c :: d :: t)) (n - 1) = Some (z, o)).
        { apply ring_nth. split; [auto|]. fold n. replace (S (n - 1)) with n by (unfold n; cbn [length]; lia). rewrite Nat.mod_same by (unfold n; cbn [length]; lia). split; [reflexivity|unfold n; cbn [length]; lia]. }
        rewrite R2 in E. replace (n - 1)%nat with (S (S (n - 3))) in E by (unfold n; cbn [length]; lia). change (nth_error r (n - 3) = Some (z, o)) in E. apply nth_error_In in E. auto. }
      destruct Ezo as (z & iz & Izo & Nz & Lz).
      pose proof (Rin _ _ Ecd) as Pcd. pose proof (Rin _ _ Izo) as Pzo.
      assert (V1 : 0 < orient b c d) by (apply (V 1 2 3)%nat; auto; lia).
      assert (V2 : 0 < orient o c d) by (apply (V 0 2 3)%nat; auto; lia).
      assert (V3 : 0 < orient o b z) by (apply (V 0 1 iz)%nat; auto; lia).
      assert (V4 : 0 < orient o c z) by (apply (V 0 2 iz)%nat; auto; lia).
      assert (Pbc : 0 < orient b c p).
      { apply (comb_sign (orient o c d) (orient o c p) (orient b c d) (orient c d p) (orient o b c)); auto.
        unfold orient. ring. }
      assert (Pob : 0 < orient o b p).
      { apply (comb_sign (orient o c z) (orient o c p) (orient o b z) (orient z o p) (orient o b c)); auto. unfold orient. ring. }
      rewrite (proj2 (lf_true p o b) Pob), (proj2 (lf_true p b c) Pbc). reflexivity.
    + rewrite andb_true_r, andb_false_l, xorb_false_r. destruct (lf p o b) eqn:F1; [|reflexivity]. destruct (lf p b c) eqn:F2; [|reflexivity]. cbn [andb].
      symmetry. unfold D. apply forallb_forall. intros [x y] I. cbn [fst snd]. apply lf_true in F1. apply lf_true in F2.
      assert (F3 : 0 < orient c o p) by (apply lf_true; rewrite Lco; auto).
      apply lf_true. apply In_nth_error in I as [k I].
      assert (E : nth_error (ring (o :: b :: c :: t)) (S (S k)) = Some (x, y)) by (rewrite R2; auto).
      assert (Pb : 0 < orient x y b).
      { apply (convex_edge_nth _ _ _ _ 1%nat b V E eq_refl); [lia|]. apply ring_nth in E as [E1 _]. apply nth_error_lt in E1.
        destruct (Nat.eq_dec (S (S (S k))) (length (o :: b :: c :: t))) as [->|NE]; [rewrite Nat.mod_same by (cbn; lia); lia|rewrite Nat.mod_small by lia; lia]. }
      apply nth_error_In in E. pose proof (convex_edge_le _ _ _ o V E ltac:(cbn; auto)) as Po. pose proof (convex_edge_le _ _ _ c V E ltac:(cbn; auto)) as Pc.
      assert (Id : orient o b c * orient x y p == orient x y o * orient b c p + orient x y b * orient c o p + orient x y c * orient o b p) by (unfold orient; ring).
      assert (0 <= orient x y o * orient b c p) by (apply Qmult_le_0_compat; lra). assert (0 <= orient x y c * orient o b p) by (apply Qmult_le_0_compat; lra).
      pose proof (sign_pp _ _ Pb F3). assert (Pm : 0 < orient o b c * orient x y p) by lra.
      destruct (Q_dec (orient x y p) 0) as [[L|L]|L]; auto; exfalso; [pose proof (sign_pn _ _ Ioc L); lra|rewrite L in Pm; lra].
Qed.
