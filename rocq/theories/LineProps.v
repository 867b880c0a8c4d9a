(* The cells of generators in a line inside a circle. *)
From Coq Require Import Reals Lra Permutation.
From Verif Require Import Base BaseFacts NearModel RayCircleModel RayCircleSpec RayCircleProofs LineModel LineSpec LineProofs LineProofs2 LineProofs3.
Local Open Scope R_scope.

Lemma ok_pair {A} (x y : A) : Ok x = Ok y -> x = y.
Proof. congruence. Qed.
Lemma shape_nodup n k : (2 <= n)%nat -> (k < n)%nat -> NoDup (shape n k) /\ (3 <= length (shape n k))%nat.
Proof.
  intros N2 K. unfold shape. destruct (k =? 0)%nat eqn:E0; [apply Nat.eqb_eq in E0|apply Nat.eqb_neq in E0]; (destruct (k =? n - 1)%nat eqn:E1; [apply Nat.eqb_eq in E1|apply Nat.eqb_neq in E1]); try lia;
    (split; [|cbn; lia]); repeat constructor; cbn [In app]; lia.
Qed.

(* C106. Two or more generators in a line, in any order, none coinciding, inside the circle: the
   code returns one cell for each generator and two nodes for each generator. Every node is on the
   circle (within the tolerance). Each cell has three corners or more, all different, which go
   counterclockwise around its generator; its generator is in it; and every point of it is at
   least as near to its generator as to any other. *)
Theorem line_cells : forall srt points c r, Sorts srt -> (2 <= length points)%nat -> InLine points -> Apart points -> 0 <= r -> Forall (InCircle c r) points ->
  exists cells nodes, constructCells1d srt points c r = Ok (cells, nodes) /\ length cells = length points /\ length nodes = (2 * length points)%nat /\
    Forall (NearCircle c r (/ 10 ^ 10)) nodes /\
    forall i g, nth_error points i = Some g -> exists ks vs, nth_error cells i = Some ks /\ Forall2 (fun k p => nth_error nodes k = Some p) ks vs /\
      NoDup ks /\ (3 <= length ks)%nat /\ Spans vs g /\ (forall d, In d (around vs) -> 0 <= turn (fst d) (snd d) g) /\
      forall q, Spans vs q -> Nearest points g q.
Proof.
  intros srt points c r SO N2 IL AP R0 IC. destruct (built srt points c r SO N2 IL AP R0 IC) as (cells & nodes & a & e & s & u & v & x0 & x1 & ix & RUN & BU).
  exists cells, nodes. split; auto. pose proof BU as (U & INC & UV & X0 & X1 & PT & ON & LC & LN & Z0 & Z1 & Zn & Zc & NC). split; auto. split; auto. split; auto.
  intros i g Hi. destruct (ON i (nth_error_lt _ _ _ Hi)) as (k & Hk & Ek). pose proof (PT k Hk) as Q. rewrite Ek, Hi in Q. injection Q as Q. subst g.
  destruct (cell_geom points c r cells nodes a e s u v x0 x1 ix N2 BU k Hk) as (vs & F & LO & HI & SP & TU). exists (shape (length points) k), vs. split; [rewrite <- Ek; auto|]. split; auto. destruct (shape_nodup _ _ N2 Hk) as [ND L3]. split; auto. split; auto. split; auto. split; auto.
  intros q Hq. apply (cell_nearest points c r cells nodes a e s u v x0 x1 ix N2 BU k q Hk).
  - intros K0. pose proof (mean_ge e (lin e a + (s (k - 1)%nat + s (k - 1 + 1)%nat) * / 2) vs 1 q Hq) as G. enough (1 * (lin e a + (s (k - 1)%nat + s (k - 1 + 1)%nat) * / 2) <= lin e q) by lra. apply G. intros p Hp. specialize (LO K0 p Hp). lra.
  - intros K1. pose proof (mean_le e (lin e a + (s k + s (k + 1)%nat) * / 2) vs 1 q Hq) as G. enough (lin e q <= 1 * (lin e a + (s k + s (k + 1)%nat) * / 2)) by lra. apply G. intros p Hp. specialize (HI K1 p Hp). lra.
Qed.
Print Assumptions line_cells.

Lemma shape_edge n k : (k + 1 < n)%nat -> In (2 * k + 1, 2 * k + 2)%nat (around (shape n k)) /\ In (2 * k + 2, 2 * k + 1)%nat (around (shape n (k + 1))).
Proof.
  intros K. unfold shape. destruct (k =? n - 1)%nat eqn:E1; [apply Nat.eqb_eq in E1; lia|]. destruct (k + 1 =? 0)%nat eqn:E2; [apply Nat.eqb_eq in E2; lia|]. split.
  - destruct (k =? 0)%nat; cbn [app around combine In]; auto.
  - destruct (k + 1 =? n - 1)%nat; cbn [app around combine In]; left; f_equal; lia.
Qed.
(* Two generators with no other between them: their cells share a side, which each lists in its
   own direction, and both its ends are as near to the one generator as to the other. *)
Theorem line_shared : forall srt points c r cells nodes, Sorts srt -> (2 <= length points)%nat -> InLine points -> Apart points -> 0 <= r -> Forall (InCircle c r) points ->
  constructCells1d srt points c r = Ok (cells, nodes) -> forall i j g h, i <> j -> nth_error points i = Some g -> nth_error points j = Some h -> Next points g h ->
  exists ks ls x y p q, nth_error cells i = Some ks /\ nth_error cells j = Some ls /\ In (x, y) (around ks) /\ In (y, x) (around ls) /\
    nth_error nodes x = Some p /\ nth_error nodes y = Some q /\ len2_2 p g = len2_2 p h /\ len2_2 q g = len2_2 q h.
Proof.
  intros srt points c r cells nodes SO N2 IL AP R0 IC RUN i j g h IJ Hi Hj NX. destruct (built srt points c r SO N2 IL AP R0 IC) as (cells' & nodes' & a & e & s & u & v & x0 & x1 & ix & RUN' & BU).
  rewrite RUN in RUN'. apply ok_pair in RUN'. injection RUN' as <- <-. destruct BU as (U & INC & UV & X0 & X1 & PT & ON & LC & LN & Z0 & Z1 & Zn & Zc & NC).
  destruct (ON i (nth_error_lt _ _ _ Hi)) as (k & Hk & Ek). pose proof (PT k Hk) as Q. rewrite Ek, Hi in Q. injection Q as Q. subst g.
  destruct (ON j (nth_error_lt _ _ _ Hj)) as (l & Hl & El). pose proof (PT l Hl) as Q. rewrite El, Hj in Q. injection Q as Q. subst h.
  assert (KL : k <> l) by (intros ->; congruence).
  assert (D : forall x y, (x < length points)%nat -> (y < length points)%nat -> (x + 1 < y)%nat -> Next points (pos a e (s x) 0) (pos a e (s y) 0) \/ Next points (pos a e (s y) 0) (pos a e (s x) 0) -> False).
  { intros x y Hx Hy XY C. pose proof (INC x (x + 1)%nat ltac:(lia) ltac:(lia)) as S1. pose proof (INC (x + 1)%nat y ltac:(lia) ltac:(lia)) as S2. pose proof (PT (x + 1)%nat ltac:(lia)) as M. apply nth_error_In in M.
    assert (I0 : 0 < / (s y - s x)) by (apply Rinv_0_lt_compat; lra). set (w := / (s y - s x)) in *. assert (Ew : w * (s y - s x) = 1) by (unfold w; field; lra). destruct C as [C|C].
    - apply (C _ ((s (x + 1)%nat - s x) * w) M); [split; nra|]. unfold pos, w. cbn [fst snd]. f_equal; field; lra.
    - apply (C _ ((s y - s (x + 1)%nat) * w) M); [split; nra|]. unfold pos, w. cbn [fst snd]. f_equal; field; lra. }
  assert (EQ : forall x t, len2_2 (pos a e ((s x + s (x + 1)%nat) * / 2) t) (pos a e (s x) 0) = len2_2 (pos a e ((s x + s (x + 1)%nat) * / 2) t) (pos a e (s (x + 1)%nat) 0)) by (intros x t; rewrite !len_pos by auto; field).
  assert (C : l = (k + 1)%nat \/ k = (l + 1)%nat).
  { destruct (Nat.lt_ge_cases (k + 1) l) as [C|C]; [exfalso; eauto|]. destruct (Nat.lt_ge_cases (l + 1) k) as [C'|C']; [exfalso; eauto|]. lia. }
  subst i j. destruct C as [->| ->].
  - destruct (shape_edge (length points) k Hl) as [A B]. destruct (Zn k Hl) as [ZA ZB]. exists (shape (length points) k), (shape (length points) (k + 1)), (2 * k + 1)%nat, (2 * k + 2)%nat. eexists _, _.
    split; [apply Zc; auto|]. split; [apply Zc; auto|]. split; [exact A|]. split; [exact B|]. split; [exact ZA|]. split; [exact ZB|]. split; apply EQ.
  - destruct (shape_edge (length points) l Hk) as [A B]. destruct (Zn l Hk) as [ZA ZB]. exists (shape (length points) (l + 1)), (shape (length points) l), (2 * l + 2)%nat, (2 * l + 1)%nat. eexists _, _.
    split; [apply Zc; auto|]. split; [apply Zc; auto|]. split; [exact B|]. split; [exact A|]. split; [exact ZB|]. split; [exact ZA|]. split; symmetry; apply EQ.
Qed.
Print Assumptions line_shared.

(* A single generator makes the code read past the end of its list. *)
Theorem line_single_refuted : forall srt p c r, Sorts srt -> constructCells1d srt [p] c r = UB.
Proof.
  intros srt p c r SO. unfold constructCells1d. cbn [length seq combine]. destruct (SO [(p, 0%nat)]) as [S _]. apply Permutation_sym, Permutation_length_1_inv in S. rewrite S. reflexivity.
Qed.
Print Assumptions line_single_refuted.

Lemma zero_dir p c r : 0 <= r -> InCircle c r p -> rayCircleIntersection p (back2 (0, 0)) c r line_tol = Abort /\ rayCircleIntersection p (0, 0) c r line_tol = Abort /\ rayCircleIntersection p (0, - 0) c r line_tol = Abort.
Proof.
  intros R0 H. assert (D : distance2 p c <= r) by (unfold distance2; change (sqrt (len2_2 p c) <= r); rewrite <- (sqrt_square r R0); apply sqrt_le_1_alt; auto).
  assert (T : / 10 ^ 10 <= 1). { rewrite <- Rinv_1. apply Rinv_le_contravar; [lra|]. apply pow_R1_Rle. lra. }
  assert (K : forall n, rdot2 n n = 0 -> rayCircleIntersection p n c r line_tol = Abort).
  { intros n N. unfold rayCircleIntersection. rewrite (rlt_f _ _ D), N. replace (Rabs (0 - 1)) with 1 by (rewrite Rabs_left; lra). rewrite (rlt_f _ _ T). reflexivity. }
  split; [|split]; apply K; unfold rdot2, back2; cbn; ring.
Qed.
Lemma same_dir p : unitVector2 (rsub2 p p) = (0, 0).
Proof. unfold unitVector2, rsub2. cbn [fst snd]. rewrite !Rminus_diag_eq by auto. unfold Rdiv. f_equal; ring. Qed.
Lemma face_same c r p : 0 <= r -> InCircle c r p -> face_ends c r p p = Abort.
Proof.
  intros R0 H. unfold face_ends. rewrite same_dir. cbn [fst snd]. destruct (zero_dir ((fst p + fst p) * / 2, (snd p + snd p) * / 2) c r R0 (mid_in c r p p H H)) as (_ & _ & E). rewrite E. reflexivity.
Qed.
Lemma fold_each {A St} (f : St -> A -> res St) : forall l s s', mfold f l s = Ok s' -> forall x, In x l -> exists s1 s2, f s1 x = Ok s2.
Proof.
  induction l; intros s s' H x Hx; [contradiction|]. cbn in H. apply bind_ok in H. destruct H as (s1 & E & H). destruct Hx as [->|Hx]; eauto.
Qed.
(* Generators inside the circle, two of which coincide: the code stops. *)
Theorem line_coincide_stops : forall srt points c r i j g, Sorts srt -> 0 <= r -> Forall (InCircle c r) points ->
  i <> j -> nth_error points i = Some g -> nth_error points j = Some g -> forall out, constructCells1d srt points c r <> Ok out.
Proof.
  intros srt points c r i j g SO R0 IC IJ Hi Hj [cells nodes] RUN. rewrite Forall_forall in IC. set (n := length points) in *. set (ref := srt (combine points (seq 0 n))).
  assert (PP : forall k, (k < n)%nat -> nth_error points (I ref k) = Some (P ref k)) by (intros k Hk; apply (ref_in srt points SO k Hk)).
  assert (GE : forall k, (k < n)%nat -> get ref k = Ok (P ref k, I ref k)) by (intros k Hk; apply get_ok; apply (ref_in srt points SO k Hk)).
  (* every face was computed *)
  assert (FA : forall k, (k + 1 < n)%nat -> face_ends c r (P ref k) (P ref (k + 1)) <> Abort).
  { intros k Hk. unfold constructCells1d in RUN. fold n in RUN. fold ref in RUN. rewrite (GE 0%nat), (GE 1%nat) in RUN by lia. cbn [bind fst snd] in RUN.
    apply bind_ok in RUN. destruct RUN as (q & _ & RUN). apply bind_ok in RUN. destruct RUN as (nodes1 & _ & RUN). apply bind_ok in RUN. destruct RUN as ((A & B) & EF & RUN).
    destruct (Nat.eq_dec k 0) as [->|K0]; [cbn [Nat.add]; congruence|].
    apply bind_ok in RUN. destruct RUN as (nodes2 & _ & RUN). apply bind_ok in RUN. destruct RUN as (nodes3 & _ & RUN). apply bind_ok in RUN. destruct RUN as (cells1 & _ & RUN). apply bind_ok in RUN. destruct RUN as (cells2 & _ & RUN). apply bind_ok in RUN. destruct RUN as (s' & FO & _).
    destruct (fold_each _ _ _ _ FO k) as ([cs ns] & s2 & E); [apply in_seq; lia|]. unfold line_step in E. rewrite !GE in E by lia. cbn [bind fst snd] in E. intros C. rewrite C in E. discriminate. }
  assert (N : (i < n)%nat /\ (j < n)%nat) by (split; eapply nth_error_lt; eauto). destruct (ref_onto srt points SO i (proj1 N)) as (k & Hk & Ek). destruct (ref_onto srt points SO j (proj2 N)) as (l & Hl & El). fold n in Hk, Hl, Ek, El. fold ref in Ek, El.
  assert (Pk : P ref k = g) by (pose proof (PP k Hk) as Q; rewrite Ek, Hi in Q; congruence). assert (Pl : P ref l = g) by (pose proof (PP l Hl) as Q; rewrite El, Hj in Q; congruence).
  assert (KL : k <> l) by (intros ->; congruence).
  assert (ADJ : exists x, (x + 1 < n)%nat /\ P ref x = P ref (x + 1)%nat).
  { assert (G : forall x y, (x < y)%nat -> (y < n)%nat -> P ref x = P ref y -> exists x, (x + 1 < n)%nat /\ P ref x = P ref (x + 1)%nat).
    { intros x y XY Y E. exists x. split; [lia|]. pose proof (ref_order srt points SO x (x + 1) ltac:(lia) ltac:(lia)) as O1. fold n in O1. fold ref in O1.
      destruct (Nat.eq_dec (x + 1) y) as [->|NE]; auto. pose proof (ref_order srt points SO (x + 1) y ltac:(lia) Y) as O2. fold n in O2. fold ref in O2. rewrite <- E in O2.
      unfold lex in O1, O2. destruct (P ref x) as [ax ay], (P ref (x + 1)) as [bx by_]. cbn [fst snd] in *. f_equal.
      - destruct (Rtotal_order ax bx) as [T|[T|T]]; auto; exfalso; tauto.
      - destruct (Rtotal_order ax bx) as [T|[T|T]]; [exfalso; tauto| |exfalso; tauto]. subst bx. destruct (Rtotal_order ay by_) as [T|[T|T]]; auto; exfalso; tauto. }
    destruct (Nat.lt_total k l) as [L|[L|L]]; [apply (G k l); auto; congruence|contradiction|apply (G l k); auto; congruence]. }
  destruct ADJ as (x & Hx & E). apply (FA x Hx). rewrite <- E. apply face_same; auto. apply IC. pose proof (PP x ltac:(lia)) as Q. apply nth_error_In in Q. auto.
Qed.
Print Assumptions line_coincide_stops.

(* A sorting function as the theorems ask for. *)
Definition lexb (a b : pt2) : bool := rlt (fst a) (fst b) || (rle (fst a) (fst b) && rle (fst b) (fst a) && rlt (snd a) (snd b)).
Lemma lexb_iff a b : lexb a b = true <-> lex a b.
Proof.
  unfold lexb, lex, rlt, rle. destruct (Rlt_dec (fst a) (fst b)), (Rle_dec (fst a) (fst b)), (Rle_dec (fst b) (fst a)), (Rlt_dec (snd a) (snd b)); cbn; split; intros; try discriminate; auto; try lra; try (right; split; lra).
Qed.
Fixpoint put (x : pt2 * nat) (l : list (pt2 * nat)) : list (pt2 * nat) :=
  match l with [] => [x] | y :: t => if lexb (fst y) (fst x) then y :: put x t else x :: l end.
Definition sort_points (l : list (pt2 * nat)) : list (pt2 * nat) := fold_right put [] l.
Lemma put_perm x : forall l, Permutation (put x l) (x :: l).
Proof. induction l as [|y t IH]; cbn; auto. destruct (lexb (fst y) (fst x)); auto. rewrite IH. constructor. Qed.
Lemma lex_not_trans a b c : ~ lex b a -> ~ lex c b -> ~ lex c a.
Proof. unfold lex. intros H K L. destruct (Rtotal_order (fst b) (fst a)) as [T|[T|T]], (Rtotal_order (fst c) (fst b)) as [T'|[T'|T']], (Rtotal_order (snd b) (snd a)) as [W|[W|W]], (Rtotal_order (snd c) (snd b)) as [W'|[W'|W']]; try tauto; destruct L; lra. Qed.
Definition ordered (l : list (pt2 * nat)) : Prop := ForallOrdPairs (fun a b => ~ lex (fst b) (fst a)) l.
Lemma put_ordered x : forall l, ordered l -> ordered (put x l).
Proof.
  induction l as [|y t IH]; intros O; cbn; [repeat constructor|]. inversion O; subst. destruct (lexb (fst y) (fst x)) eqn:E.
  - constructor; [|apply IH; auto]. rewrite Forall_forall. intros z Hz. apply (Permutation_in _ (put_perm x t)) in Hz. destruct Hz as [<-|Hz]; [apply lexb_iff in E; unfold lex in *; lra|]. rewrite Forall_forall in H1. auto.
  - assert (NL : ~ lex (fst y) (fst x)) by (intros C; apply lexb_iff in C; congruence). constructor; auto. constructor; auto. rewrite Forall_forall in *. intros z Hz. apply (lex_not_trans (fst x) (fst y) (fst z)); auto.
Qed.
Lemma pairs_nth {A} (Q : A -> A -> Prop) : forall l, ForallOrdPairs Q l -> forall i j a b, (i < j)%nat -> nth_error l i = Some a -> nth_error l j = Some b -> Q a b.
Proof.
  induction 1; intros i j x y L Hi Hj; [destruct i; discriminate|]. destruct j; [lia|]. cbn in Hj. destruct i.
  - cbn in Hi. injection Hi as ->. rewrite Forall_forall in H. apply H. apply nth_error_In in Hj. auto.
  - apply (IHForallOrdPairs i j); auto. lia.
Qed.
Example sort_ok : Sorts sort_points.
Proof.
  intros l. split.
  - induction l; cbn; auto. rewrite put_perm, IHl. reflexivity.
  - apply (pairs_nth (fun a b => ~ lex (fst b) (fst a))). induction l; [constructor|]. apply put_ordered. auto.
Qed.
(* Three generators on a slanted line, given out of order, in a circle of radius five. *)
Example slanted : let ps := [(1, 2); (-1, -2); (0, 0)] in (2 <= length ps)%nat /\ InLine ps /\ Apart ps /\ Forall (InCircle (0, 0) 5) ps /\ Next ps (1, 2) (0, 0).
Proof.
  cbv zeta. split; [cbn; lia|]. split; [|split; [|split]].
  - exists (0, 0), (1, 2). split; [intros C; injection C; lra|]. intros p [<-|[<-|[<-|[]]]]; [exists 1|exists (-1)|exists 0]; cbn; f_equal; lra.
  - intros i j p q Hi Hj IJ. assert (T : / 10 ^ 100 <= 1). { rewrite <- Rinv_1. apply Rinv_le_contravar; [lra|]. apply pow_R1_Rle. lra. } pose proof small_pos as W. set (w := / 10 ^ 100) in *. assert (w * w <= 1) by nra.
    unfold len2_2, sq. destruct i as [|[|[|i]]], j as [|[|[|j]]]; try congruence; cbn in Hi, Hj; try (destruct i; discriminate); try (destruct j; discriminate); injection Hi as <-; injection Hj as <-; cbn; lra.
  - unfold InCircle, len2_2, sq. repeat constructor; cbn; lra.
  - intros k t Hk T E. cbn in E. destruct Hk as [<-|[<-|[<-|[]]]]; injection E; lra.
Qed.
Example coinciding : 0 <= 5 /\ Forall (InCircle (0, 0) 5) [(1, 2); (0, 0); (1, 2)] /\ nth_error [(1, 2); (0, 0); (1, 2)] 0 = Some (1, 2) /\ nth_error [(1, 2); (0, 0); (1, 2)] 2 = Some (1, 2).
Proof. split; [lra|]. split; [|auto]. unfold InCircle, len2_2, sq. repeat constructor; cbn; lra. Qed.
