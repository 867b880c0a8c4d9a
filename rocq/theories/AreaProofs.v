From Verif Require Import Base BaseFacts SerializeModel MeshModel PLCSpec MeshEditorModel Plane PlaneFacts AreaModel AreaSpec.
From Coq Require Import QArith Lqa Qabs Permutation.
Local Open Scope Q_scope.

Lemma node2_ok m n p : node2 m n = Ok p <-> pos2 m n p.
Proof.
  unfold node2, pos2, get. destruct p as [x y]. cbn [fst snd]. split.
  - destruct (nth_error (nodes m) (2 * n)) as [x'|] eqn:E1; [|discriminate]. cbn [bind].
    destruct (nth_error (nodes m) (2 * n + 1)) as [y'|] eqn:E2; [|discriminate]. cbn [bind]. intros [= -> ->]. auto.
  - intros [-> ->]. reflexivity.
Qed.
Lemma pos2_lt m n p : pos2 m n p -> (n < length (nodes m) / 2)%nat.
Proof. intros [_ H]. apply nth_error_lt in H. pose proof (Nat.div_mod (length (nodes m)) 2 ltac:(lia)). lia. Qed.

Definition cr (e : p2 * p2) : Q := fst (fst e) * snd (snd e) - snd (fst e) * fst (snd e).
Definition mx (e : p2 * p2) : Q := cr e * (fst (fst e) + fst (snd e)).
Definition my (e : p2 * p2) : Q := cr e * (snd (fst e) + snd (snd e)).

Lemma qlt_bool_iff a b : Qlt_bool a b = true <-> a < b.
Proof. unfold Qlt_bool. rewrite negb_true_iff. split; intros H; [|apply not_true_is_false; intros C; apply Qle_bool_iff in C; lra].
  destruct (Qlt_le_dec a b) as [L|L]; auto. apply Qle_bool_iff in L. congruence. Qed.

Definition edge_of (m : mesh Q) (z : Z) (e : p2 * p2) : Prop :=
  exists a b, walk m z = Some (a, b) /\ a <> b /\ pos2 m a (fst e) /\ pos2 m b (snd e).
Lemma area_step_ok m z e cx cy a : edge_of m z e -> area_step m (cx, cy, a) z = Ok (cx + mx e, cy + my e, a + cr e).
Proof.
  intros (n0 & n1 & W & Ne & P & Q). unfold area_step. unfold walk in W.
  destruct (nth_error (faces m) (pid z)) as [f|] eqn:F; [|discriminate]. unfold get at 1. rewrite F.
  rewrite (proj2 (Nat.ltb_lt _ _) (nth_error_lt _ _ _ F)). cbn [assert bind].
  destruct f as [|x [|y [|? ?]]]; try discriminate. cbn [length Nat.eqb assert bind].
  pose proof (pos2_lt _ _ _ P) as L0. pose proof (pos2_lt _ _ _ Q) as L1. apply Nat.ltb_lt in L0, L1. apply Nat.eqb_neq in Ne.
  assert (E : (z <? 0)%Z = negb (0 <=? z)%Z) by lia. rewrite E.
  destruct (0 <=? z)%Z; injection W as <- <-; cbn [negb get nth_error bind]; rewrite L0, L1; cbn [andb assert bind]; rewrite Ne; cbn [negb assert bind];
    rewrite (proj2 (node2_ok _ _ _) P); cbn [bind]; rewrite (proj2 (node2_ok _ _ _) Q); cbn [bind]; reflexivity.
Qed.
Lemma area_step_inv m z st st' : area_step m st z = Ok st' -> exists e, edge_of m z e.
Proof.
  destruct st as [[cx cy] a]. unfold area_step. intros H.
  destruct (pid z <? length (faces m))%nat; [|discriminate]. cbn [assert bind] in H.
  destruct (get (faces m) (pid z)) as [f| | |] eqn:F; try discriminate. cbn [bind] in H. apply get_ok in F.
  destruct (length f =? 2)%nat eqn:L; [|discriminate]. cbn [assert bind] in H. destruct f as [|x [|y [|? ?]]]; try discriminate.
  assert (E : (z <? 0)%Z = negb (0 <=? z)%Z) by lia. rewrite E in H.
  destruct (0 <=? z)%Z eqn:Z; cbn [negb get nth_error bind] in H;
  (destruct ((_ <? _) && _)%nat in H; [|discriminate]; cbn [assert bind] in H;
   destruct (_ =? _)%nat eqn:Ne in H; [discriminate|]; cbn [negb assert bind] in H; apply Nat.eqb_neq in Ne;
   destruct (node2 m _) as [p| | |] eqn:P in H; try discriminate; cbn [bind] in H;
   destruct (node2 m _) as [q| | |] eqn:Q in H; try discriminate; apply node2_ok in P, Q;
   exists (p, q); unfold edge_of, walk; rewrite F, Z; eauto 8).
Qed.

Lemma area_fold m c es : Forall2 (edge_of m) c es -> forall cx cy a, exists cx' cy' a',
  mfold (area_step m) c (cx, cy, a) = Ok (cx', cy', a') /\ cx' == cx + sumf mx es /\ cy' == cy + sumf my es /\ a' == a + sumf cr es.
Proof.
  induction 1 as [|z e c es He _ IH]; intros cx cy a; cbn [mfold].
  - exists cx, cy, a. rewrite !sumf_nil. repeat split; ring.
  - rewrite (area_step_ok _ _ _ _ _ _ He). cbn [bind]. destruct (IH (cx + mx e) (cy + my e) (a + cr e)) as (x' & y' & a' & E & H1 & H2 & H3).
    exists x', y', a'. rewrite !sumf_cons. repeat split; auto; [rewrite H1|rewrite H2|rewrite H3]; ring.
Qed.

Lemma cell_area_ok m ci tol es : CellEdges m ci es -> tol < Qabs (sumf cr es) -> exists g a, cell_area m ci tol = Ok (g, a).
Proof.
  intros (c & C & F) H. destruct (area_fold m c es F 0 0 0) as (x & y & a & E & H1 & H2 & H3).
  unfold cell_area, get. rewrite C. rewrite (proj2 (Nat.ltb_lt _ _) (nth_error_lt _ _ _ C)). cbn [assert bind]. rewrite E. cbn [bind].
  rewrite (proj2 (qlt_bool_iff _ _)); [cbn; eauto|]. rewrite H3, Qplus_0_l. auto.
Qed.
Lemma cell_area_edges m ci tol r : cell_area m ci tol = Ok r -> exists es, CellEdges m ci es.
Proof.
  unfold cell_area. intros H. destruct (ci <? length (cells m))%nat; [|discriminate]. cbn [assert bind] in H.
  destruct (get (cells m) ci) as [c| | |] eqn:C; try discriminate. cbn [bind] in H. apply get_ok in C.
  destruct (mfold (area_step m) c (0, 0, 0)) as [st| | |] eqn:E; try discriminate. clear H.
  assert (X : exists es, Forall2 (edge_of m) c es); [|destruct X as [es X]; exists es, c; auto].
  clear C. revert E. generalize (0, 0, 0). induction c as [|z c IH]; intros s E; [exists []; constructor|]. cbn [mfold] in E.
  destruct (area_step m s z) as [s'| | |] eqn:E1; try discriminate. cbn [bind] in E. destruct (IH _ E) as [es F].
  apply area_step_inv in E1 as [e He]. exists (e :: es). constructor; auto.
Qed.
(* with D twice the area: 3 D g are the moments *)
Lemma cell_area_sums m ci tol es g a : CellEdges m ci es -> 0 <= tol -> cell_area m ci tol = Ok (g, a) ->
  tol < Qabs (2 * a) /\ ~ a == 0 /\ 2 * a == sumf cr es /\ 6 * a * fst g == sumf mx es /\ 6 * a * snd g == sumf my es.
Proof.
  intros (c & C & F) T H. destruct (area_fold m c es F 0 0 0) as (x & y & a0 & E & H1 & H2 & H3).
  unfold cell_area, get in H. rewrite C in H. rewrite (proj2 (Nat.ltb_lt _ _) (nth_error_lt _ _ _ C)) in H. cbn [assert bind] in H. rewrite E in H. cbn [bind] in H.
  destruct (Qlt_bool tol (Qabs a0)) eqn:L; [|discriminate]. cbn [assert bind] in H. apply qlt_bool_iff in L.
  assert (Na : ~ a0 == 0). { intros Z. rewrite Z in L. cbn in L. lra. }
  set (ar := a0 / 2) in *. assert (Ea : ar == a0 * (1 # 2)) by (unfold ar, Qdiv; reflexivity).
  injection H as <- <-. cbn [fst snd].
  assert (Nar : ~ ar == 0) by (intros Z; apply Na; lra).
  assert (N6 : ~ 6 * ar == 0) by (intros Z; apply Nar; lra).
  assert (E2 : 2 * ar == a0) by lra.
  split; [rewrite E2; auto|]. split; auto. split; [lra|].
  split; rewrite Qmult_div_r; auto; lra.
Qed.

(* ---- triangles ---- *)
Notation tri := (p2 * p2 * p2)%type.
Definition tor (t : tri) : Q := let '(a, b, c) := t in orient a b c.
Definition tx (t : tri) : Q := let '(a, b, c) := t in fst a + fst b + fst c.
Definition ty (t : tri) : Q := let '(a, b, c) := t in snd a + snd b + snd c.
Lemma cr_anti a b : cr (b, a) == - cr (a, b).
Proof. unfold cr. cbn [fst snd]. ring. Qed.
Lemma mx_anti a b : mx (b, a) == - mx (a, b).
Proof. unfold mx, cr. cbn [fst snd]. ring. Qed.
Lemma my_anti a b : my (b, a) == - my (a, b).
Proof. unfold my, cr. cbn [fst snd]. ring. Qed.
Lemma tri_sums ts : sumf cr (flat_map tri_edges ts) == sumf tor ts /\
  sumf mx (flat_map tri_edges ts) == sumf (fun t => tor t * tx t) ts /\ sumf my (flat_map tri_edges ts) == sumf (fun t => tor t * ty t) ts.
Proof.
  rewrite !sumf_flat. repeat split; apply sumf_ext; intros [[a b] c] _; unfold tri_edges, tor, tx, ty; rewrite !sumf_cons, sumf_nil;
    unfold mx, my, cr, orient; cbn [fst snd]; ring.
Qed.

(* ---- fans ---- *)
Fixpoint fan {A} (o : A) (l : list A) : list (A * A * A) :=
  match l with
  | a :: (b :: _) as t => (o, a, b) :: fan o t
  | _ => []
  end.
Lemma se_cons {A} (e : A * A) l l' : SameEdges l l' -> SameEdges (e :: l) (e :: l').
Proof.
  induction 1.
  - apply se_perm. constructor. auto.
  - eapply se_trans; [apply se_perm|apply (se_cancel a b)]. eapply perm_trans; [apply perm_swap|]. constructor. apply perm_swap.
  - apply se_sym. auto.
  - eapply se_trans; eauto.
Qed.
Lemma se_app {A} (l l1 l2 : list (A * A)) : SameEdges l1 l2 -> SameEdges (l ++ l1) (l ++ l2).
Proof. intros H. induction l as [|e l IH]; cbn; auto. apply se_cons. auto. Qed.
Lemma ring_step {A} (o b c : A) t : exists r, ring (o :: c :: t) = (o, c) :: r /\ ring (o :: b :: c :: t) = (o, b) :: (b, c) :: r.
Proof. exists (combine (c :: t) (t ++ [o])). split; reflexivity. Qed.
Lemma fan_chain {A} (o : A) l : SameEdges (flat_map tri_edges (fan o l)) (ring (o :: l)) \/ (length l < 2)%nat.
Proof.
  induction l as [|b l IH]; [right; cbn; lia|]. destruct l as [|c t]; [right; cbn; lia|]. left. cbn [fan flat_map tri_edges].
  destruct (ring_step o b c t) as (r & R1 & R2). rewrite R2.
  destruct t as [|d t].
  - cbn in R1. injection R1 as <-. cbn [fan flat_map app]. apply se_perm. auto.
  - destruct IH as [IH|IH]; [|cbn in IH; lia]. rewrite R1 in IH.
    eapply se_trans; [apply (se_app [(o, b); (b, c); (c, o)]); apply IH|]. cbn [app]. apply se_cons, se_cons, se_cancel.
Qed.
Lemma ring_fan {A} (o : A) l : (2 <= length l)%nat -> SameEdges (flat_map tri_edges (fan o l)) (ring (o :: l)).
Proof. intros H. destruct (fan_chain o l); auto. lia. Qed.

(* ---- convex polygons ---- *)
Lemma ring_nth {A} (l : list A) k e : nth_error (ring l) k = Some e <->
  nth_error l k = Some (fst e) /\ nth_error l (S k mod length l) = Some (snd e) /\ (k < length l)%nat.
Proof.
  destruct l as [|a t]; [split; [destruct k; discriminate|intros (_ & _ & H); cbn in H; lia]|].
  assert (G : forall (l l' : list A) k e, nth_error (combine l l') k = Some e <-> nth_error l k = Some (fst e) /\ nth_error l' k = Some (snd e)).
  { clear. induction l as [|x l IH]; intros [|y l'] [|k] [e f]; cbn; try (split; [discriminate|intros [? ?]; discriminate]); auto.
    - split; [intros [= <- <-]; auto|intros [[= <-] [= <-]]; auto].
    - apply (IH l' k (e, f)). }
  unfold ring. rewrite G.
  assert (X : (k < length (a :: t))%nat -> nth_error (t ++ [a]) k = nth_error (a :: t) (S k mod length (a :: t))).
  { intros H. cbn [length] in *. destruct (Nat.eq_dec k (length t)) as [->|Ne].
    - rewrite Nat.mod_same by lia. rewrite nth_error_app2, Nat.sub_diag by lia. reflexivity.
    - rewrite Nat.mod_small by lia. rewrite nth_error_app1 by lia. reflexivity. }
  split.
  - intros [H1 H2]. pose proof (nth_error_lt _ _ _ H1) as L. rewrite X in H2 by auto. auto.
  - intros (H1 & H2 & L). rewrite X by auto. auto.
Qed.
Lemma orient_turn a b c : orient b c a == orient a b c.
Proof. unfold orient. ring. Qed.
Lemma orient_swap a b c : orient b a c == - orient a b c.
Proof. unfold orient. ring. Qed.
Lemma convex_edge_nth ps i a b k v : StrictlyConvex ps -> nth_error (ring ps) i = Some (a, b) -> nth_error ps k = Some v ->
  k <> i -> k <> (S i mod length ps)%nat -> 0 < orient a b v.
Proof.
  intros C R V N1 N2. apply ring_nth in R as (A & B & L). cbn [fst snd] in *. pose proof (nth_error_lt _ _ _ V) as Lk.
  destruct (Nat.eq_dec (S i) (length ps)) as [E|E].
  - rewrite E, Nat.mod_same in * by lia. rewrite <- (orient_turn a b v). apply (C 0%nat k i b v a); auto. lia.
  - rewrite Nat.mod_small in * by lia. destruct (lt_dec k i) as [Lt|Ge].
    + rewrite <- orient_turn, <- orient_turn. apply (C k i (S i) v a b); auto.
    + apply (C i (S i) k a b v); auto. lia.
Qed.
Lemma convex_edge ps a b v : StrictlyConvex ps -> In (a, b) (ring ps) -> In v ps -> v = a \/ v = b \/ 0 < orient a b v.
Proof.
  intros C R V. apply In_nth_error in R as [i R]. apply In_nth_error in V as [k V].
  pose proof R as R'. apply ring_nth in R' as (A & B & L). cbn [fst snd] in *.
  destruct (Nat.eq_dec k i) as [->|N1]; [left; congruence|]. destruct (Nat.eq_dec k (S i mod length ps)) as [->|N2]; [right; left; congruence|].
  right; right. eapply convex_edge_nth; eauto.
Qed.
Lemma orient_aaa a b : orient a b a == 0.
Proof. unfold orient. ring. Qed.
Lemma orient_abb a b : orient a b b == 0.
Proof. unfold orient. ring. Qed.
Lemma convex_edge_le ps a b v : StrictlyConvex ps -> In (a, b) (ring ps) -> In v ps -> 0 <= orient a b v.
Proof. intros C R V. destruct (convex_edge ps a b v C R V) as [->|[->|H]]; [rewrite orient_aaa|rewrite orient_abb|]; lra. Qed.
(* triangles of the fan *)
Lemma fan_in {A} (o : A) l t : In t (fan o l) -> exists i a b, t = (o, a, b) /\ nth_error l i = Some a /\ nth_error l (S i) = Some b.
Proof.
  induction l as [|a l IH]; [intros []|]. destruct l as [|b l]; [intros []|]. intros [<-|I]; [exists 0%nat, a, b; auto|].
  destruct (IH I) as (i & x & y & E & H1 & H2). exists (S i), x, y. auto.
Qed.
Lemma fan_pos o l t : StrictlyConvex (o :: l) -> In t (fan o l) -> 0 < tor t.
Proof.
  intros C I. destruct (fan_in _ _ _ I) as (i & a & b & -> & H1 & H2). cbn [tor]. apply (C 0%nat (S i) (S (S i)) o a b); auto. lia.
Qed.
