(* Proofs about constructive solid geometry: clipping by convex polygons. *)
From Verif Require Import Base BaseFacts Plane PLCSpec WithinModel WithinSpec WithinProofs MeshEditorModel CsgModel CsgSpec CsgProofs.
From Coq Require Import QArith Lqa Permutation.
Local Open Scope nat_scope.

(* ---- whatever the trees, only parts remain ---- *)
Definition Sub (L' L : list seg) : Prop := forall s', In s' L' -> exists s, In s L /\ Part (se s') (se s) /\ (WF s -> WF s').
Lemma sub_refl L L' : (forall s, In s L' -> In s L) -> Sub L' L.
Proof. intros H s I. exists s. split; auto. split; [apply part_refl|auto]. Qed.
Lemma sub_trans L'' L' L : Sub L'' L' -> Sub L' L -> Sub L'' L.
Proof. intros A C s'' I. destruct (A _ I) as (s' & I' & P & W). destruct (C _ I') as (s & I0 & P' & W'). exists s. split; auto. split; [eapply part_trans; eauto|auto]. Qed.
Lemma sub_app A B L : Sub A L -> Sub B L -> Sub (A ++ B) L.
Proof. intros H1 H2 s I. apply in_app_or in I. destruct I; auto. Qed.
Lemma sub_wider A L L' : Sub A L -> (forall s, In s L -> In s L') -> Sub A L'.
Proof. intros H I. eapply sub_trans; [exact H|apply sub_refl; auto]. Qed.
Definition lfront (eps : Q) (l : line) (L : list seg) := flat_map (fun s => let q := splitSegment eps l s in cfront q ++ front4 q) L.
Definition lback (eps : Q) (l : line) (L : list seg) := flat_map (fun s => let q := splitSegment eps l s in cback q ++ back4 q) L.
Lemma halves_sub eps l L : (0 <= eps)%Q -> Sub (lfront eps l L) L /\ Sub (lback eps l L) L.
Proof.
  intros E. split; intros s' I; apply in_flat_map in I; destruct I as (s & I & J); destruct (split_rf eps l s E) as [R _]; destruct (R s') as (s0 & [<-|[]] & P); try (exists s; split; auto);
  unfold out; rewrite !in_app_iff in *; tauto.
Qed.
Lemma clip_sub eps : (0 <= eps)%Q -> forall t L, Sub (clipSegments eps t L) L.
Proof.
  intros E. induction t as [|ss fr IHf bk IHb l]; intros L; cbn [clipSegments]; [apply sub_refl; auto|]. destruct (line_ok l); cbn [negb]; [|apply sub_refl; auto]. cbv zeta. fold (lfront eps l L) (lback eps l L).
  destruct (halves_sub eps l L E) as [F B]. apply sub_app.
  - destruct fr; auto. eapply sub_trans; [apply IHf|auto].
  - destruct bk; [intros ? []|]. eapply sub_trans; [apply IHb|auto].
Qed.
Lemma clipTo_all (P : list seg -> list seg -> Prop) : P [] [] -> (forall A' A B' B, P A' A -> P B' B -> P (A' ++ B') (A ++ B)) ->
  forall eps o t, (forall ss, (forall s, In s ss -> In s (allSegments t)) -> P (clipSegments eps o ss) ss) -> P (allSegments (clipTo eps t o)) (allSegments t).
Proof.
  intros P0 Pa eps o. induction t as [|ss fr IHf bk IHb l]; intros H; cbn [clipTo allSegments]; auto. cbn [allSegments] in H. apply Pa; [apply H; intros; apply in_or_app; auto|]. apply Pa; [apply IHf|apply IHb]; intros ss' Hs; apply H; intros s I; apply in_or_app; right; apply in_or_app; auto.
Qed.
Lemma clipTo_sub eps t o : (0 <= eps)%Q -> Sub (allSegments (clipTo eps t o)) (allSegments t).
Proof.
  intros E. apply (clipTo_all Sub); [intros ? []| |intros; apply clip_sub; auto].
  intros A' A B' B HA HB. apply sub_app; [eapply sub_wider; [apply HA|]|eapply sub_wider; [apply HB|]]; intros; apply in_or_app; auto.
Qed.
Lemma invert_in : forall t s', In s' (allSegments (invert t)) <-> exists s, In s (allSegments t) /\ s' = sflip s.
Proof.
  induction t as [|ss fr IHf bk IHb l]; intros s'; cbn [invert allSegments]; [split; [intros []|intros (s & [] & _)]|]. rewrite !in_app_iff, in_map_iff, IHf, IHb. split.
  - intros [(x & E & I)|[(x & I & E)|(x & I & E)]]; exists x; rewrite !in_app_iff; auto.
  - intros (x & I & E). rewrite !in_app_iff in I. destruct I as [I|[I|I]]; [left|right; right|right; left]; exists x; auto.
Qed.
Lemma sflip_part s : Part (se (sflip s)) (se s).
Proof. apply part_flip. Qed.
Lemma invert_sub t : Sub (allSegments (invert t)) (allSegments t).
Proof. intros s' I. apply invert_in in I. destruct I as (s & I & ->). exists s. split; auto. split; [apply sflip_part|apply wf_flip]. Qed.
Lemma sub_wf L' L : Sub L' L -> (forall s, In s L -> WF s) -> forall s, In s L' -> WF s.
Proof. intros A H s I. destruct (A s I) as (s0 & J & _1 & W). auto. Qed.
Lemma rf_sub L' L : Rf L' L -> Sub L' L.
Proof. intros [A _]. auto. Qed.

(* ---- segments in general position ---- *)
Section Clip.
Context (eps : Q) (es ls : list (p2 * p2)).
Hypothesis E0 : (0 <= eps)%Q.
Hypothesis AP : Apart eps es ls.
Definition Clean (s : seg) : Prop := exists e, In e es /\ Part (se s) e /\ forall l, In l ls -> Off eps (sa s) l /\ Off eps (sb s) l.
Lemma clean_line s l : Clean s -> In l ls -> ~ (orient (fst l) (snd l) (sa s) == 0 /\ orient (fst l) (snd l) (sb s) == 0)%Q.
Proof.
  intros (e & I & (t & u & (T & U & N) & A & B) & _1) J [Z1 Z2]. rewrite (orient_at _ _ _ _ _ A) in Z1. rewrite (orient_at _ _ _ _ _ B) in Z2.
  apply (ap_line _ _ _ AP e l I J). set (x := orient (fst l) (snd l) (fst e)) in *. set (y := orient (fst l) (snd l) (snd e)) in *.
  assert (X : ((t - u) * (y - x) == 0)%Q) by lra. apply Qmult_integral in X. destruct X as [X|X]; [exfalso; apply N; lra|]. assert (Y : (y == x)%Q) by lra. rewrite Y in Z1. split; fold x y; lra.
Qed.
Lemma clean_part s s' : Clean s -> Part (se s') (se s) -> (forall l, In l ls -> Off eps (sa s') l /\ Off eps (sb s') l) -> Clean s'.
Proof. intros (e & I & P & _1) P' O. exists e. split; auto. split; auto. eapply part_trans; eauto. Qed.
(* a line of an edge of ls, in one direction or the other *)
Definition Of (ln : line) (l : p2 * p2) : Prop := LineOf ln l \/ (forall p, side ln p == orient (fst l) (snd l) p)%Q.
Lemma of_abs ln l p : Of ln l -> Off eps p l -> (side ln p == 0 \/ eps < side ln p \/ side ln p < - eps)%Q.
Proof. intros [H|H] O; unfold Off in O; rewrite (H p); lra. Qed.
Lemma of_zero ln l p : Of ln l -> (side ln p == 0)%Q -> (orient (fst l) (snd l) p == 0)%Q.
Proof. intros [H|H] Z; rewrite (H p) in Z; lra. Qed.
Definition Frontal (ln : line) (s : seg) : Prop := (0 <= side ln (sa s) /\ 0 <= side ln (sb s))%Q.
Definition Backal (ln : line) (s : seg) : Prop := (side ln (sa s) <= 0 /\ side ln (sb s) <= 0)%Q.
Lemma split_clean ln l s : Of ln l -> In l ls -> Clean s -> WF s ->
  let q := splitSegment eps ln s in
  (forall s', In s' (cfront q ++ front4 q) -> Clean s' /\ WF s' /\ Part (se s') (se s) /\ Frontal ln s') /\
  (forall s', In s' (cback q ++ back4 q) -> Clean s' /\ WF s' /\ Part (se s') (se s) /\ Backal ln s') /\
  (forall p, OnEdge (se s) p -> (exists s', In s' (cfront q ++ front4 q) /\ OnEdge (se s') p) \/ (exists s', In s' (cback q ++ back4 q) /\ OnEdge (se s') p)).
Proof.
  intros O I C W q. assert (C' := C). destruct C' as (e & Ie & Pe & Oe). destruct (Oe l I) as [Oa Ob]. pose proof (of_abs _ _ _ O Oa) as Sa. pose proof (of_abs _ _ _ O Ob) as Sb.
  assert (Sv : forall v, OnEdge (se s) v -> (side ln v == 0)%Q -> forall l', In l' ls -> Off eps v l').
  { intros v V Z l' I'. apply (ap_meet _ _ _ AP e l l' v Ie I I'); [eapply part_on; eauto|]. eapply of_zero; eauto. }
  unfold q. destruct (split_ok eps ln s E0) as [q' H1 H2 Hq|H1 H2 H3|H1 H2 H3|H1 H2|H1 H2]; cbn [cfront cback front4 back4 app].
  - exfalso. apply (clean_line s l C I). split; eapply of_zero; eauto; lra.
  - split; [|split]; [|intros ? []|].
    + intros s' [<-|[]]. split; auto. split; auto. split; [apply part_refl|]. split; lra.
    + intros p P. left. exists s. split; auto. left. auto.
  - split; [intros ? []|split].
    + intros s' [<-|[]]. split; auto. split; auto. split; [apply part_refl|]. split; lra.
    + intros p P. right. exists s. split; auto. left. auto.
  - destruct (cut_in ln s ltac:(right; lra)) as (Ci & A & Z). set (v := lerp (sa s) (sb s) (cut ln s)) in *. assert (V : OnEdge (se s) v) by (exists (cut ln s); split; [lra|auto]).
    pose proof (piece_first s v _ Ci A) as P1. pose proof (piece_last s v _ Ci A) as P2. split; [|split].
    + intros s' [<-|[]]. split; [|split; [exact (wf_mk _ _)|split; [auto|split; cbn [sa sb mkseg]; lra]]]. apply (clean_part s); auto. intros l' I'. split; [apply Oe; auto|apply Sv; auto].
    + intros s' [<-|[]]. split; [|split; [exact (wf_mk _ _)|split; [auto|split; cbn [sa sb mkseg]; lra]]]. apply (clean_part s); auto. intros l' I'. split; [apply Oe; auto|apply Sv; auto].
    + intros p P. destruct (pieces_cover s v _ p Ci A P) as [X|X]; [left|right]; eexists; (split; [left; reflexivity|auto]).
  - destruct (cut_in ln s ltac:(left; lra)) as (Ci & A & Z). set (v := lerp (sa s) (sb s) (cut ln s)) in *. assert (V : OnEdge (se s) v) by (exists (cut ln s); split; [lra|auto]).
    pose proof (piece_first s v _ Ci A) as P1. pose proof (piece_last s v _ Ci A) as P2. split; [|split].
    + intros s' [<-|[]]. split; [|split; [exact (wf_mk _ _)|split; [auto|split; cbn [sa sb mkseg]; lra]]]. apply (clean_part s); auto. intros l' I'. split; [apply Oe; auto|apply Sv; auto].
    + intros s' [<-|[]]. split; [|split; [exact (wf_mk _ _)|split; [auto|split; cbn [sa sb mkseg]; lra]]]. apply (clean_part s); auto. intros l' I'. split; [apply Oe; auto|apply Sv; auto].
    + intros p P. destruct (pieces_cover s v _ p Ci A P) as [X|X]; [right|left]; eexists; (split; [left; reflexivity|auto]).
Qed.
Lemma halves ln l L : Of ln l -> In l ls -> (forall s, In s L -> Clean s /\ WF s) ->
  (forall s', In s' (lfront eps ln L) -> exists s, In s L /\ Clean s' /\ WF s' /\ Part (se s') (se s) /\ Frontal ln s') /\
  (forall s', In s' (lback eps ln L) -> exists s, In s L /\ Clean s' /\ WF s' /\ Part (se s') (se s) /\ Backal ln s') /\
  (forall s p, In s L -> OnEdge (se s) p -> (exists s', In s' (lfront eps ln L) /\ OnEdge (se s') p) \/ (exists s', In s' (lback eps ln L) /\ OnEdge (se s') p)).
Proof.
  intros O I H. split; [|split].
  - intros s' J. apply in_flat_map in J. destruct J as (s & J & K). exists s. split; auto. destruct (H s J) as [C W]. apply (split_clean ln l s O I C W). auto.
  - intros s' J. apply in_flat_map in J. destruct J as (s & J & K). exists s. split; auto. destruct (H s J) as [C W]. apply (split_clean ln l s O I C W). auto.
  - intros s p J P. destruct (H s J) as [C W]. destruct (split_clean ln l s O I C W) as (_1 & _2 & K). destruct (K p P) as [(s' & A & B)|(s' & A & B)]; [left|right]; exists s'; (split; [apply in_flat_map; exists s|]; auto).
Qed.

(* the tree of a convex polygon, and its inverse *)
Inductive Chain : list (p2 * p2) -> tree -> Prop :=
| ch_one ss ln l : LineOf ln l -> line_ok ln = true -> Chain [l] (Nd ss Null Null ln)
| ch_more ss ln l ms bk : LineOf ln l -> line_ok ln = true -> Chain ms bk -> Chain (l :: ms) (Nd ss Null bk ln).
Inductive IChain : list (p2 * p2) -> tree -> Prop :=
| ic_one ss ln l : (forall p, side ln p == orient (fst l) (snd l) p)%Q -> line_ok ln = true -> IChain [l] (Nd ss Null Null ln)
| ic_more ss ln l ms fr : (forall p, side ln p == orient (fst l) (snd l) p)%Q -> line_ok ln = true -> IChain ms fr -> IChain (l :: ms) (Nd ss fr Null ln).
(* an edge not reaching into the region, and one not leaving it *)
Definition Out (ms : list (p2 * p2)) (e : p2 * p2) : Prop := exists l, In l ms /\ (orient (fst l) (snd l) (fst e) <= 0 /\ orient (fst l) (snd l) (snd e) <= 0)%Q.
Definition Into (ms : list (p2 * p2)) (e : p2 * p2) : Prop := forall l, In l ms -> (0 <= orient (fst l) (snd l) (fst e) /\ 0 <= orient (fst l) (snd l) (snd e))%Q.
Lemma between x y t : (0 <= t <= 1 -> 0 <= x -> 0 <= y -> 0 <= x + t * (y - x))%Q.
Proof. intros. assert (0 <= (1 - t) * x)%Q by (apply Qmult_le_0_compat; lra). assert (0 <= t * y)%Q by (apply Qmult_le_0_compat; lra). lra. Qed.
Lemma below x y t : (0 <= t <= 1 -> x <= 0 -> y <= 0 -> x + t * (y - x) <= 0)%Q.
Proof. intros. pose proof (between (- x) (- y) t ltac:(lra) ltac:(lra) ltac:(lra)). lra. Qed.
Lemma out_part ms e' e : Part e' e -> Out ms e -> Out ms e'.
Proof. intros (t & u & (T & U & _) & A & B) (l & I & H1 & H2). exists l. split; auto. rewrite (orient_at _ _ _ _ _ A), (orient_at _ _ _ _ _ B). split; apply below; auto. Qed.
Lemma into_part ms e' e : Part e' e -> Into ms e -> Into ms e'.
Proof. intros (t & u & (T & U & _) & A & B) H l I. destruct (H l I) as [H1 H2]. rewrite (orient_at _ _ _ _ _ A), (orient_at _ _ _ _ _ B). split; apply between; auto. Qed.

Lemma clip_chain ms t : Chain ms t -> (forall l, In l ms -> In l ls) -> forall L, (forall s, In s L -> Clean s /\ WF s) ->
  (forall s', In s' (clipSegments eps t L) -> exists s, In s L /\ Clean s' /\ WF s' /\ Part (se s') (se s) /\ Out ms (se s')) /\
  (forall s p, In s L -> OnEdge (se s) p -> (exists l, In l ms /\ orient (fst l) (snd l) p < 0)%Q -> exists s', In s' (clipSegments eps t L) /\ OnEdge (se s') p).
Proof.
  induction 1 as [ss ln l H K|ss ln l ms bk H K Ch IH]; intros Hl L HL.
  - cbn [clipSegments]. rewrite K. cbn [negb]. cbv zeta. fold (lfront eps ln L) (lback eps ln L). rewrite app_nil_r. destruct (halves ln l L (or_introl H) (Hl l ltac:(left; auto)) HL) as (HF & HB & HC). split.
    + intros s' I. destruct (HF s' I) as (s & J & C & W & P & F1 & F2). exists s. split; auto. split; auto. split; auto. split; auto. exists l. split; [left; auto|]. rewrite (H (sa s')) in F1. rewrite (H (sb s')) in F2. cbn [se fst snd]. split; lra.
    + intros s p I P (l0 & [<-|[]] & N). destruct (HC s p I P) as [X|(s' & J & Q)]; auto. exfalso. destruct (HB s' J) as (_1 & _2 & _3 & _4 & _5 & F1 & F2). rewrite (H (sa s')) in F1. rewrite (H (sb s')) in F2.
      destruct Q as (t & T & At'). rewrite (orient_at _ _ _ _ _ At') in N. cbn [se fst snd] in N. pose proof (between (orient (fst l) (snd l) (sa s')) (orient (fst l) (snd l) (sb s')) t T ltac:(lra) ltac:(lra)). lra.
  - cbn [clipSegments]. rewrite K. cbn [negb]. cbv zeta. fold (lfront eps ln L) (lback eps ln L). destruct (halves ln l L (or_introl H) (Hl l ltac:(left; auto)) HL) as (HF & HB & HC).
    assert (HL' : forall s, In s (lback eps ln L) -> Clean s /\ WF s). { intros s I. destruct (HB s I) as (_1 & _2 & C & W & _3). auto. }
    destruct (IH ltac:(intros; apply Hl; right; auto) (lback eps ln L) HL') as [I1 I2].
    assert (Eb : match bk with Null => [] | _ => clipSegments eps bk (lback eps ln L) end = clipSegments eps bk (lback eps ln L)). { destruct Ch; reflexivity. }
    rewrite Eb. split.
    + intros s' I. apply in_app_or in I. destruct I as [I|I].
      * destruct (HF s' I) as (s & J & C & W & P & F1 & F2). exists s. split; auto. split; auto. split; auto. split; auto. exists l. split; [left; auto|]. rewrite (H (sa s')) in F1. rewrite (H (sb s')) in F2. cbn [se fst snd]. split; lra.
      * destruct (I1 s' I) as (s1 & J & C & W & P & (l0 & J0 & O)). destruct (HB s1 J) as (s & J1 & _1 & _2 & P1 & _3). exists s. split; auto. split; auto. split; auto. split; [eapply part_trans; eauto|]. exists l0. split; auto. right. auto.
    + intros s p I P (l0 & J0 & N). destruct (HC s p I P) as [(s' & J & Q)|(s' & J & Q)]; [exists s'; split; auto; apply in_or_app; auto|].
      assert (J1 : In l0 ms). { destruct J0 as [<-|]; auto. exfalso. destruct (HB s' J) as (_1 & _2 & _3 & _4 & _5 & F1 & F2). rewrite (H (sa s')) in F1. rewrite (H (sb s')) in F2.
        destruct Q as (t & T & At'). rewrite (orient_at _ _ _ _ _ At') in N. cbn [se fst snd] in N. pose proof (between (orient (fst l) (snd l) (sa s')) (orient (fst l) (snd l) (sb s')) t T ltac:(lra) ltac:(lra)). lra. }
      destruct (I2 s' p J Q (ex_intro _ l0 (conj J1 N))) as (s2 & J2 & Q2). exists s2. split; auto. apply in_or_app. auto.
Qed.
Lemma clip_ichain ms t : IChain ms t -> (forall l, In l ms -> In l ls) -> forall L, (forall s, In s L -> Clean s /\ WF s) ->
  (forall s', In s' (clipSegments eps t L) -> exists s, In s L /\ Clean s' /\ WF s' /\ Part (se s') (se s) /\ Into ms (se s')) /\
  (forall s p, In s L -> OnEdge (se s) p -> (forall l, In l ms -> 0 < orient (fst l) (snd l) p)%Q -> exists s', In s' (clipSegments eps t L) /\ OnEdge (se s') p).
Proof.
  induction 1 as [ss ln l H K|ss ln l ms fr H K Ch IH]; intros Hl L HL.
  - cbn [clipSegments]. rewrite K. cbn [negb]. cbv zeta. fold (lfront eps ln L) (lback eps ln L). rewrite app_nil_r. destruct (halves ln l L (or_intror H) (Hl l ltac:(left; auto)) HL) as (HF & HB & HC). split.
    + intros s' I. destruct (HF s' I) as (s & J & C & W & P & F1 & F2). exists s. split; auto. split; auto. split; auto. split; auto. intros l0 [<-|[]]. rewrite (H (sa s')) in F1. rewrite (H (sb s')) in F2. cbn [se fst snd]. split; lra.
    + intros s p I P N. destruct (HC s p I P) as [X|(s' & J & Q)]; auto. exfalso. destruct (HB s' J) as (_1 & _2 & _3 & _4 & _5 & F1 & F2). rewrite (H (sa s')) in F1. rewrite (H (sb s')) in F2. specialize (N l ltac:(left; auto)).
      destruct Q as (t & T & At'). rewrite (orient_at _ _ _ _ _ At') in N. cbn [se fst snd] in N. pose proof (below (orient (fst l) (snd l) (sa s')) (orient (fst l) (snd l) (sb s')) t T ltac:(lra) ltac:(lra)). lra.
  - cbn [clipSegments]. rewrite K. cbn [negb]. cbv zeta. fold (lfront eps ln L) (lback eps ln L). rewrite app_nil_r. destruct (halves ln l L (or_intror H) (Hl l ltac:(left; auto)) HL) as (HF & HB & HC).
    assert (HL' : forall s, In s (lfront eps ln L) -> Clean s /\ WF s). { intros s I. destruct (HF s I) as (_1 & _2 & C & W & _3). auto. }
    destruct (IH ltac:(intros; apply Hl; right; auto) (lfront eps ln L) HL') as [I1 I2].
    assert (Eb : match fr with Null => lfront eps ln L | _ => clipSegments eps fr (lfront eps ln L) end = clipSegments eps fr (lfront eps ln L)). { destruct Ch; reflexivity. }
    rewrite Eb. split.
    + intros s' I. destruct (I1 s' I) as (s1 & J & C & W & P & O). destruct (HF s1 J) as (s & J1 & _1 & _2 & P1 & F1 & F2). exists s. split; auto. split; auto. split; auto. split; [eapply part_trans; eauto|].
      intros l0 [<-|J0]; [|apply O; auto]. assert (X : Into [l] (se s1)). { intros l1 [<-|[]]. rewrite (H (sa s1)) in F1. rewrite (H (sb s1)) in F2. cbn [se fst snd]. split; lra. } apply (into_part _ _ _ P X). left. auto.
    + intros s p I P N. destruct (HC s p I P) as [(s' & J & Q)|(s' & J & Q)].
      * apply (I2 s' p J Q). intros l0 J0. apply N. right. auto.
      * exfalso. destruct (HB s' J) as (_1 & _2 & _3 & _4 & _5 & F1 & F2). rewrite (H (sa s')) in F1. rewrite (H (sb s')) in F2. specialize (N l ltac:(left; auto)).
        destruct Q as (t & T & At'). rewrite (orient_at _ _ _ _ _ At') in N. cbn [se fst snd] in N. pose proof (below (orient (fst l) (snd l) (sa s')) (orient (fst l) (snd l) (sb s')) t T ltac:(lra) ltac:(lra)). lra.
Qed.

(* ---- the segments of a tree as parts of the edges es ---- *)
Definition Part_closed (Tg : p2 * p2 -> Prop) : Prop := forall e' e, Part e' e -> Tg e -> Tg e'.
Definition St (Tg : p2 * p2 -> Prop) (Q : p2 -> Prop) (L : list seg) : Prop :=
  (forall s, In s L -> Clean s /\ WF s /\ Tg (se s)) /\ (forall p, Covered es p -> Q p -> exists s, In s L /\ OnEdge (se s) p).
Lemma st_any Tg Tg' Q L t o : Part_closed Tg -> St Tg Q (allSegments t) ->
  (forall L, (forall s, In s L -> Clean s /\ WF s) -> (forall s', In s' (clipSegments eps o L) -> exists s, In s L /\ Clean s' /\ WF s' /\ Part (se s') (se s) /\ Tg' (se s')) /\
     (forall s p, In s L -> OnEdge (se s) p -> Q p -> exists s', In s' (clipSegments eps o L) /\ OnEdge (se s') p)) -> L = allSegments (clipTo eps t o) ->
  St (fun e => Tg e /\ Tg' e) Q L.
Proof.
  intros PC [S1 S2] H ->.
  assert (G : (forall s', In s' (allSegments (clipTo eps t o)) -> exists s, In s (allSegments t) /\ Clean s' /\ WF s' /\ Part (se s') (se s) /\ Tg' (se s')) /\
    (forall s p, In s (allSegments t) -> OnEdge (se s) p -> Q p -> exists s', In s' (allSegments (clipTo eps t o)) /\ OnEdge (se s') p)).
  { apply (clipTo_all (fun L' L => (forall s', In s' L' -> exists s, In s L /\ Clean s' /\ WF s' /\ Part (se s') (se s) /\ Tg' (se s')) /\
      (forall s p, In s L -> OnEdge (se s) p -> Q p -> exists s', In s' L' /\ OnEdge (se s') p))).
    - split; [intros ? []|intros ? ? []].
    - intros A' A B' B [A1 A2] [B1 B2]. split.
      + intros s' I. apply in_app_or in I. destruct I as [I|I]; [destruct (A1 _ I) as (s & J & X)|destruct (B1 _ I) as (s & J & X)]; exists s; (split; [apply in_or_app|]; auto).
      + intros s p I P K. apply in_app_or in I. destruct I as [I|I]; [destruct (A2 _ _ I P K) as (s' & J & X)|destruct (B2 _ _ I P K) as (s' & J & X)]; exists s'; (split; [apply in_or_app|]; auto).
    - intros ss Hs. apply H. intros s I. destruct (S1 s (Hs s I)) as (C & W & _1). auto. }
  destruct G as [G1 G2]. split.
  - intros s' I. destruct (G1 s' I) as (s & J & C & W & P & T'). destruct (S1 s J) as (_1 & _2 & T). split; auto. split; auto. split; auto. eapply PC; eauto.
  - intros p Cv K. destruct (S2 p Cv K) as (s & I & P). eapply G2; eauto.
Qed.
Lemma st_chain Tg (Q : p2 -> Prop) t o ms : Part_closed Tg -> Chain ms o -> (forall l, In l ms -> In l ls) -> (forall p, Q p -> exists l, In l ms /\ orient (fst l) (snd l) p < 0)%Q ->
  St Tg Q (allSegments t) -> St (fun e => Tg e /\ Out ms e) Q (allSegments (clipTo eps t o)).
Proof.
  intros PC Ch Hl HQ S. eapply st_any; eauto. intros L HL. destruct (clip_chain ms o Ch Hl L HL) as [A B]. split; auto. intros s p I P K. apply (B s p I P). auto.
Qed.
Lemma st_ichain Tg (Q : p2 -> Prop) t o ms : Part_closed Tg -> IChain ms o -> (forall l, In l ms -> In l ls) -> (forall p, Q p -> forall l, In l ms -> 0 < orient (fst l) (snd l) p)%Q ->
  St Tg Q (allSegments t) -> St (fun e => Tg e /\ Into ms e) Q (allSegments (clipTo eps t o)).
Proof.
  intros PC Ch Hl HQ S. eapply st_any; eauto. intros L HL. destruct (clip_ichain ms o Ch Hl L HL) as [A B]. split; auto. intros s p I P K. apply (B s p I P). auto.
Qed.
Lemma st_invert Tg (Q : p2 -> Prop) t : Part_closed Tg -> St Tg Q (allSegments t) -> St Tg Q (allSegments (invert t)).
Proof.
  intros PC [S1 S2]. split.
  - intros s' I. apply invert_in in I. destruct I as (s & I & ->). destruct (S1 s I) as (C & W & T). split; [|split; [apply wf_flip; auto|eapply PC; [apply sflip_part|auto]]].
    destruct C as (e & Ie & P & O). exists e. split; auto. split; [eapply part_trans; [apply sflip_part|auto]|]. intros l J. destruct (O l J). split; auto.
  - intros p Cv K. destruct (S2 p Cv K) as (s & I & P). exists (sflip s). split; [apply invert_in; eauto|apply on_flip; auto].
Qed.
Lemma st_weaken (Tg Tg' : p2 * p2 -> Prop) (Q : p2 -> Prop) L : St Tg Q L -> (forall e, Tg e -> Tg' e) -> St Tg' Q L.
Proof. intros [S1 S2] H. split; auto. intros s I. destruct (S1 s I) as (C & W & T). auto. Qed.
End Clip.
Lemma chain_clip ms t eps o : Chain ms t -> Chain ms (clipTo eps t o).
Proof. induction 1; cbn [clipTo]; constructor; auto. Qed.
Lemma ichain_clip ms t eps o : IChain ms t -> IChain ms (clipTo eps t o).
Proof. induction 1; cbn [clipTo]; constructor; auto. Qed.
Lemma ok_flip l : line_ok (lflip l) = line_ok l.
Proof.
  assert (E : forall a : p2, length2 (neg2 a) = length2 a).
  { intros [[x dx] [y dy]]. unfold length2, neg2, Qplus, Qmult, Qopp. cbn. rewrite !Z.mul_opp_opp. auto. }
  unfold line_ok, lflip. cbn [lnorm ldir]. rewrite !E. auto.
Qed.
Lemma chain_invert ms t : Chain ms t -> IChain ms (invert t).
Proof. induction 1 as [ss ln l H K|ss ln l ms bk H K Ch IH]; cbn [invert]; constructor; auto; try (rewrite ok_flip; auto); intros p; rewrite side_flip, (H p); ring. Qed.
Lemma ichain_invert ms t : IChain ms t -> Chain ms (invert t).
Proof. induction 1 as [ss ln l H K|ss ln l ms bk H K Ch IH]; cbn [invert]; constructor; auto; try (rewrite ok_flip; auto); intros p; rewrite side_flip, (H p); ring. Qed.
