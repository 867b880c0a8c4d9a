(* Proofs about constructive solid geometry: parts of edges, splitting and building. *)
From Verif Require Import Base BaseFacts Plane PLCSpec WithinModel WithinSpec WithinProofs MeshEditorModel CsgModel CsgSpec.
From Coq Require Import QArith Lqa Permutation.
Local Open Scope nat_scope.

(* ---- parts of edges ---- *)
Lemma at_eq e t t' p : (t == t')%Q -> At e t p -> At e t' p.
Proof. intros E [H1 H2]. unfold At, along in *. cbn [fst snd] in *. rewrite E in H1, H2. auto. Qed.
Lemma at_trans e t u a b v p : At e t a -> At e u b -> At (a, b) v p -> At e (t + v * (u - t)) p.
Proof.
  intros [A1 A2] [B1 B2] [P1 P2]. unfold At, along in *. cbn [fst snd] in *. rewrite A1, B1 in P1. rewrite A2, B2 in P2. rewrite P1, P2. split; ring.
Qed.
Lemma mix t u v : (0 <= t <= 1 -> 0 <= u <= 1 -> 0 <= v <= 1 -> 0 <= t + v * (u - t) <= 1)%Q.
Proof. intros. assert (0 <= (1 - v) * t)%Q by (apply Qmult_le_0_compat; lra). assert (0 <= v * u)%Q by (apply Qmult_le_0_compat; lra). assert (0 <= (1 - v) * (1 - t))%Q by (apply Qmult_le_0_compat; lra). assert (0 <= v * (1 - u))%Q by (apply Qmult_le_0_compat; lra). split; lra. Qed.
Lemma at_0 e : At e 0 (fst e).
Proof. unfold At, along. cbn [fst snd]. split; ring. Qed.
Lemma at_1 e : At e 1 (snd e).
Proof. unfold At, along. cbn [fst snd]. split; ring. Qed.
Lemma part_refl e : Part e e.
Proof. exists 0%Q, 1%Q. split; [repeat split; try lra; discriminate|]. split; [apply at_0|apply at_1]. Qed.
Lemma part_on e' e p : Part e' e -> OnEdge e' p -> OnEdge e p.
Proof. intros (t & u & (T & U & _) & A & B) (v & V & P). exists (t + v * (u - t))%Q. split; [apply mix; auto|]. destruct e' as [a b]. eapply at_trans; eauto. Qed.
Lemma part_trans e'' e' e : Part e'' e' -> Part e' e -> Part e'' e.
Proof.
  intros (t1 & u1 & (T1 & U1 & N1) & A1 & B1) (t & u & (T & U & N) & A & B). exists (t + t1 * (u - t))%Q, (t + u1 * (u - t))%Q. destruct e' as [a b]. cbn [fst snd] in A, B. split; [|split; eapply at_trans; eauto].
  split; [apply mix; auto|]. split; [apply mix; auto|]. intros E. assert (Z : ((t1 - u1) * (u - t) == 0)%Q) by lra. apply Qmult_integral in Z. destruct Z; [apply N1|apply N]; lra.
Qed.
Lemma on_flip a b p : OnEdge (a, b) p -> OnEdge (b, a) p.
Proof. intros (t & T & [P1 P2]). exists (1 - t)%Q. split; [lra|]. unfold At, along in *. cbn [fst snd] in *. rewrite P1, P2. split; ring. Qed.
Lemma part_flip a b : Part (b, a) (a, b).
Proof. exists 1%Q, 0%Q. split; [repeat split; try lra; discriminate|]. split; [apply (at_1 (a, b))|apply (at_0 (a, b))]. Qed.
Lemma part_ends e' e : Part e' e -> OnEdge e (fst e') /\ OnEdge e (snd e').
Proof. intros (t & u & (T & U & _) & A & B). split; [exists t|exists u]; auto. Qed.
Lemma orient_at a b e t p : At e t p -> (orient a b p == orient a b (fst e) + t * (orient a b (snd e) - orient a b (fst e)))%Q.
Proof. intros [P1 P2]. unfold orient, along in *. cbn [fst snd] in *. rewrite P1, P2. ring. Qed.

(* ---- lines ---- *)
Definition side (l : line) (p : p2) : Q := (dot2 (lnorm l) p - lw l)%Q.
Definition LineOf (l : line) (e : p2 * p2) : Prop := forall p, (side l p == - orient (fst e) (snd e) p)%Q.
Definition se (s : seg) : p2 * p2 := (sa s, sb s).
Definition WF (s : seg) : Prop := LineOf (sline s) (se s).
Lemma wf_mk a b : WF (mkseg a b).
Proof. intros p. unfold side, mkseg, mkline, dot2, sub2, orient. cbn. ring. Qed.
Lemma side_flip l p : (side (lflip l) p == - side l p)%Q.
Proof. unfold side, lflip, dot2, neg2. cbn. ring. Qed.
Lemma orient_flip a b p : (orient b a p == - orient a b p)%Q.
Proof. unfold orient. ring. Qed.
Lemma lineof_flip l e : LineOf l e -> LineOf (lflip l) (snd e, fst e).
Proof. intros H p. rewrite side_flip, (H p). cbn [fst snd]. rewrite orient_flip. ring. Qed.
Lemma wf_flip s : WF s -> WF (sflip s).
Proof. intros H. apply (lineof_flip _ _ H). Qed.
Lemma side_at l e t p : At e t p -> (side l p == side l (fst e) + t * (side l (snd e) - side l (fst e)))%Q.
Proof. intros [P1 P2]. unfold side, dot2, along in *. cbn [fst snd] in *. rewrite P1, P2. ring. Qed.
Lemma self_side s : WF s -> (side (sline s) (sa s) == 0 /\ side (sline s) (sb s) == 0)%Q.
Proof. intros H. rewrite (H (sa s)), (H (sb s)). unfold se, orient. cbn [fst snd]. split; ring. Qed.

(* ---- splitting ---- *)
Lemma classify_back eps l p : classify eps l p = BACK <-> (side l p < - eps)%Q.
Proof. unfold classify. cbv zeta. fold (side l p). destruct (qltb_spec (side l p) (- eps)); [tauto|]. destruct (qltb_spec eps (side l p)); split; try discriminate; intros; contradiction. Qed.
Lemma classify_front eps l p : (0 <= eps)%Q -> (classify eps l p = FRONT <-> (eps < side l p)%Q).
Proof. intros E. unfold classify. cbv zeta. fold (side l p). destruct (qltb_spec (side l p) (- eps)) as [A|A]; [split; [discriminate|intros; lra]|]. destruct (qltb_spec eps (side l p)); [tauto|]. split; [discriminate|intros; contradiction]. Qed.
Lemma classify_coll eps l p : (classify eps l p = COLL -> - eps <= side l p <= eps)%Q.
Proof. unfold classify. cbv zeta. fold (side l p). destruct (qltb_spec (side l p) (- eps)) as [A|A]; [discriminate|]. destruct (qltb_spec eps (side l p)) as [B|B]; [discriminate|]. intros _. split; lra. Qed.
Definition out (q : four) : list seg := cfront q ++ cback q ++ front4 q ++ back4 q.
Definition cut (l : line) (s : seg) : Q := ((lw l - dot2 (lnorm l) (sa s)) / dot2 (lnorm l) (sub2 (sb s) (sa s)))%Q.
Lemma cut_in l s : (side l (sa s) < 0 /\ 0 < side l (sb s) \/ 0 < side l (sa s) /\ side l (sb s) < 0)%Q ->
  (0 < cut l s < 1)%Q /\ At (se s) (cut l s) (lerp (sa s) (sb s) (cut l s)) /\ (side l (lerp (sa s) (sb s) (cut l s)) == 0)%Q.
Proof.
  intros H. set (x := side l (sa s)) in *. set (y := side l (sb s)) in *.
  assert (E : (cut l s == - x / (y - x))%Q). { unfold cut, x, y, side, dot2, sub2. cbn [fst snd]. unfold side, dot2 in x, y. destruct H; field; subst x y; lra. }
  assert (A : At (se s) (cut l s) (lerp (sa s) (sb s) (cut l s))). { unfold At, along, lerp, se. cbn [fst snd]. split; ring. }
  assert (B : (0 < cut l s < 1)%Q).
  { rewrite E. destruct H as [[H1 H2]|[H1 H2]].
    - split; [apply Qlt_shift_div_l; lra|apply Qlt_shift_div_r; lra].
    - assert (Q : (- x / (y - x) == x / (x - y))%Q) by (field; lra). rewrite Q. split; [apply Qlt_shift_div_l; lra|apply Qlt_shift_div_r; lra]. }
  split; auto. split; auto. rewrite (side_at _ _ _ _ A). cbn [se fst snd]. fold x y. rewrite E. destruct H; field; lra.
Qed.
Inductive split_case (eps : Q) (l : line) (s : seg) : four -> Prop :=
| sc_coll q : (- eps <= side l (sa s) <= eps)%Q -> (- eps <= side l (sb s) <= eps)%Q -> (q = Four [s] [] [] [] \/ q = Four [] [s] [] []) -> split_case eps l s q
| sc_front : (- eps <= side l (sa s))%Q -> (- eps <= side l (sb s))%Q -> (eps < side l (sa s) \/ eps < side l (sb s))%Q -> split_case eps l s (Four [] [] [s] [])
| sc_back : (side l (sa s) <= eps)%Q -> (side l (sb s) <= eps)%Q -> (side l (sa s) < - eps \/ side l (sb s) < - eps)%Q -> split_case eps l s (Four [] [] [] [s])
| sc_fb : (eps < side l (sa s))%Q -> (side l (sb s) < - eps)%Q -> split_case eps l s (Four [] [] [mkseg (sa s) (lerp (sa s) (sb s) (cut l s))] [mkseg (sb s) (lerp (sa s) (sb s) (cut l s))])
| sc_bf : (side l (sa s) < - eps)%Q -> (eps < side l (sb s))%Q -> split_case eps l s (Four [] [] [mkseg (sb s) (lerp (sa s) (sb s) (cut l s))] [mkseg (sa s) (lerp (sa s) (sb s) (cut l s))]).
Lemma split_ok eps l s : (0 <= eps)%Q -> split_case eps l s (splitSegment eps l s).
Proof.
  intros E. unfold splitSegment. cbv zeta. fold (cut l s).
  destruct (classify eps l (sa s)) eqn:Ca; destruct (classify eps l (sb s)) eqn:Cb;
  repeat match goal with H : classify _ _ _ = COLL |- _ => apply classify_coll in H | H : classify _ _ _ = FRONT |- _ => apply classify_front in H; auto | H : classify _ _ _ = BACK |- _ => apply classify_back in H end; cbn [two app].
  - destruct (Qlt_bool _ _); apply sc_coll; auto.
  - apply sc_front; try lra; auto.
  - apply sc_back; try lra; auto.
  - apply sc_front; try lra; auto.
  - apply sc_front; try lra; auto.
  - apply sc_fb; auto.
  - apply sc_back; try lra; auto.
  - apply sc_bf; auto.
  - apply sc_back; try lra; auto.
Qed.
Lemma piece_first s v c : (0 < c < 1)%Q -> At (se s) c v -> Part (sa s, v) (se s).
Proof. intros C A. exists 0%Q, c. split; [repeat split; try lra|]. split; [apply (at_0 (se s))|auto]. Qed.
Lemma piece_last s v c : (0 < c < 1)%Q -> At (se s) c v -> Part (sb s, v) (se s).
Proof. intros C A. exists 1%Q, c. split; [repeat split; try lra|]. split; [apply (at_1 (se s))|auto]. Qed.
Lemma pieces_cover s v c p : (0 < c < 1)%Q -> At (se s) c v -> OnEdge (se s) p -> OnEdge (sa s, v) p \/ OnEdge (sb s, v) p.
Proof.
  intros C [V1 V2] (t & T & [P1 P2]). unfold At, along, se in *. cbn [fst snd] in *. destruct (Qlt_le_dec c t) as [L|L].
  - right. exists ((1 - t) / (1 - c))%Q. split; [split; [apply Qle_shift_div_l; lra|apply Qle_shift_div_r; lra]|]. unfold At, along. cbn [fst snd]. rewrite P1, P2, V1, V2. split; field; lra.
  - left. exists (t / c)%Q. split; [split; [apply Qle_shift_div_l; lra|apply Qle_shift_div_r; lra]|]. unfold At, along. cbn [fst snd]. rewrite P1, P2, V1, V2. split; field; lra.
Qed.

(* L' is L with some segments cut up *)
Definition Rf (L' L : list seg) : Prop :=
  (forall s', In s' L' -> exists s, In s L /\ Part (se s') (se s) /\ (WF s -> WF s')) /\
  (forall s p, In s L -> OnEdge (se s) p -> exists s', In s' L' /\ OnEdge (se s') p).
Lemma rf_refl L L' : (forall s, In s L' <-> In s L) -> Rf L' L.
Proof. intros H. split; [intros s I; exists s; split; [apply H; auto|split; [apply part_refl|auto]]|intros s p I O; exists s; split; auto; apply H; auto]. Qed.
Lemma rf_trans L'' L' L : Rf L'' L' -> Rf L' L -> Rf L'' L.
Proof.
  intros [A B] [C D]. split.
  - intros s'' I. destruct (A _ I) as (s' & I' & P & W). destruct (C _ I') as (s & I0 & P' & W'). exists s. split; auto. split; [eapply part_trans; eauto|auto].
  - intros s p I O. destruct (D _ _ I O) as (s' & I' & O'). eapply B; eauto.
Qed.
Lemma rf_app A' A B' B : Rf A' A -> Rf B' B -> Rf (A' ++ B') (A ++ B).
Proof.
  intros [A1 A2] [B1 B2]. split.
  - intros s' I. apply in_app_or in I. destruct I as [I|I]; [destruct (A1 _ I) as (s & J & P)|destruct (B1 _ I) as (s & J & P)]; exists s; split; auto; apply in_or_app; auto.
  - intros s p I O. apply in_app_or in I. destruct I as [I|I]; [destruct (A2 _ _ I O) as (s' & J & P)|destruct (B2 _ _ I O) as (s' & J & P)]; exists s'; split; auto; apply in_or_app; auto.
Qed.
Lemma rf_flat f L : (forall s, Rf (f s) [s]) -> Rf (flat_map f L) L.
Proof. intros H. induction L as [|s L IH]; [apply rf_refl; intros; tauto|]. cbn [flat_map]. change (s :: L) with ([s] ++ L). apply rf_app; auto. Qed.
Lemma split_rf eps l s : (0 <= eps)%Q -> Rf (out (splitSegment eps l s)) [s].
Proof.
  intros E. destruct (split_ok eps l s E) as [q _1 _2 [-> | ->]|_1 _2 _3|_1 _2 _3|H1 H2|H1 H2]; try (apply rf_refl; cbn; tauto).
  - destruct (cut_in l s ltac:(right; lra)) as (C & A & _). unfold out. cbn [cfront cback front4 back4 app]. set (v := lerp (sa s) (sb s) (cut l s)) in *. split.
    + intros s' [<-|[<-|[]]]; exists s; (split; [left; reflexivity|]); (split; [|intros _; exact (wf_mk _ _)]); [exact (piece_first s v _ C A)|exact (piece_last s v _ C A)].
    + intros s' p [<-|[]] O. destruct (pieces_cover s v _ p C A O) as [X|X]; [exists (mkseg (sa s) v)|exists (mkseg (sb s) v)]; split; auto; [left|right; left]; auto.
  - destruct (cut_in l s ltac:(left; lra)) as (C & A & _). unfold out. cbn [cfront cback front4 back4 app]. set (v := lerp (sa s) (sb s) (cut l s)) in *. split.
    + intros s' [<-|[<-|[]]]; exists s; (split; [left; reflexivity|]); (split; [|intros _; exact (wf_mk _ _)]); [exact (piece_last s v _ C A)|exact (piece_first s v _ C A)].
    + intros s' p [<-|[]] O. destruct (pieces_cover s v _ p C A O) as [X|X]; [exists (mkseg (sa s) v)|exists (mkseg (sb s) v)]; split; auto; [right; left|left]; auto.
Qed.
(* the three lists of build hold the pieces *)
Definition bsegs (eps : Q) (l : line) (L : list seg) := flat_map (fun s => let q := splitSegment eps l s in cfront q ++ cback q) L.
Definition bfront (eps : Q) (l : line) (L : list seg) := flat_map (fun s => front4 (splitSegment eps l s)) L.
Definition bback (eps : Q) (l : line) (L : list seg) := flat_map (fun s => back4 (splitSegment eps l s)) L.
Lemma three_rf eps l L : (0 <= eps)%Q -> Rf (bsegs eps l L ++ bfront eps l L ++ bback eps l L) L.
Proof.
  intros E. eapply rf_trans; [apply rf_refl|apply (rf_flat (fun s => out (splitSegment eps l s))); intros; apply split_rf; auto].
  intros s. unfold bsegs, bfront, bback, out. rewrite !in_app_iff, !in_flat_map. split.
  - intros [(x & I & H)|[(x & I & H)|(x & I & H)]]; exists x; (split; [auto|]); rewrite ?in_app_iff in *; tauto.
  - intros (x & I & H). rewrite !in_app_iff in H. destruct H as [H|[H|[H|H]]]; [left|left|right; left|right; right]; exists x; (split; [auto|]); rewrite ?in_app_iff; auto.
Qed.
Lemma four_short eps l s : (0 <= eps)%Q -> length (front4 (splitSegment eps l s)) <= 1 /\ length (back4 (splitSegment eps l s)) <= 1.
Proof. intros E. destruct (split_ok eps l s E) as [q _1 _2 [-> | ->]|_1 _2 _3|_1 _2 _3|H1 H2|H1 H2]; cbn; lia. Qed.
Lemma flat_short {A B} (f : A -> list B) L : (forall a, length (f a) <= 1) -> length (flat_map f L) <= length L.
Proof. intros H. induction L as [|a L IH]; cbn [flat_map length]; [lia|]. rewrite app_length. specialize (H a). lia. Qed.
Lemma self_split eps s : (0 <= eps)%Q -> WF s -> front4 (splitSegment eps (sline s) s) = [] /\ back4 (splitSegment eps (sline s) s) = [].
Proof.
  intros E W. destruct (self_side s W) as [A B]. destruct (split_ok eps (sline s) s E) as [q _1 _2 [-> | ->]|_1 _2 _3|_1 _2 _3|H1 H2|H1 H2]; auto; exfalso; lra.
Qed.
Lemma wf_rf L' L : Rf L' L -> (forall s, In s L -> WF s) -> forall s, In s L' -> WF s.
Proof. intros [A _] H s I. destruct (A s I) as (s0 & J & _1 & W). auto. Qed.

Lemma new_rf eps : (0 <= eps)%Q -> forall fuel L, length L <= fuel -> (forall s, In s L -> WF s) -> exists t, build_new eps fuel L = Ok t /\ Rf (allSegments t) L.
Proof.
  intros E. induction fuel as [|fuel IH]; intros L Ll W.
  - destruct L; [|cbn in Ll; lia]. eexists. split; [reflexivity|]. apply rf_refl. cbn. tauto.
  - destruct L as [|s L]; [eexists; split; [reflexivity|apply rf_refl; cbn; tauto]|]. cbn [build_new]. cbv zeta. set (l := sline s).
    fold (bsegs eps l (s :: L)) (bfront eps l (s :: L)) (bback eps l (s :: L)).
    pose proof (three_rf eps l (s :: L) E) as R. pose proof (wf_rf _ _ R W) as W'. destruct (self_split eps s E (W s ltac:(left; auto))) as [F B].
    assert (Lf : length (bfront eps l (s :: L)) <= fuel). { unfold bfront. cbn [flat_map]. unfold l at 1. rewrite F. cbn [app]. pose proof (flat_short (fun s => front4 (splitSegment eps l s)) L ltac:(intros; apply four_short; auto)). cbn in Ll. lia. }
    assert (Lb : length (bback eps l (s :: L)) <= fuel). { unfold bback. cbn [flat_map]. unfold l at 1. rewrite B. cbn [app]. pose proof (flat_short (fun s => back4 (splitSegment eps l s)) L ltac:(intros; apply four_short; auto)). cbn in Ll. lia. }
    assert (G : forall M, (forall s, In s M -> WF s) -> length M <= fuel -> exists t, match M with [] => Ok Null | _ :: _ => build_new eps fuel M end = Ok t /\ Rf (allSegments t) M).
    { intros [|m M] WM LM; [exists Null; split; auto; apply rf_refl; cbn; tauto|apply IH; auto]. }
    destruct (G (bfront eps l (s :: L))) as (fr & Ef & Rfr); auto. { intros x I. apply W', in_or_app. right. apply in_or_app. left. auto. }
    destruct (G (bback eps l (s :: L))) as (bk & Eb & Rbk); auto. { intros x I. apply W', in_or_app. right. apply in_or_app. right. auto. }
    rewrite Ef, Eb. cbn [bind]. eexists. split; [reflexivity|]. cbn [allSegments]. eapply rf_trans; [|exact R]. apply rf_app; [apply rf_refl; tauto|]. apply rf_app; auto.
Qed.
Lemma build_rf eps : (0 <= eps)%Q -> forall t L, (forall s, In s L -> WF s) -> exists t', build eps t L = Ok t' /\ Rf (allSegments t') (allSegments t ++ L).
Proof.
  intros E. induction t as [|ss fr IHf bk IHb l]; intros L W.
  - cbn [build allSegments app]. apply new_rf; auto.
  - destruct L as [|s L]; [eexists; split; [reflexivity|rewrite app_nil_r; apply rf_refl; tauto]|]. cbn [build]. cbv zeta. set (l' := if line_ok l then l else sline s).
    fold (bsegs eps l' (s :: L)) (bfront eps l' (s :: L)) (bback eps l' (s :: L)).
    pose proof (three_rf eps l' (s :: L) E) as R. pose proof (wf_rf _ _ R W) as W'.
    assert (G : forall t0 M, (forall L, (forall s, In s L -> WF s) -> exists t', build eps t0 L = Ok t' /\ Rf (allSegments t') (allSegments t0 ++ L)) -> (forall s, In s M -> WF s) ->
      exists t', match M with [] => Ok t0 | _ :: _ => build eps t0 M end = Ok t' /\ Rf (allSegments t') (allSegments t0 ++ M)).
    { intros t0 [|m M] H WM; [exists t0; split; auto; rewrite app_nil_r; apply rf_refl; tauto|apply H; auto]. }
    destruct (G fr (bfront eps l' (s :: L)) IHf) as (fr' & Ef & Rfr). { intros x I. apply W', in_or_app. right. apply in_or_app. left. auto. }
    destruct (G bk (bback eps l' (s :: L)) IHb) as (bk' & Eb & Rbk). { intros x I. apply W', in_or_app. right. apply in_or_app. right. auto. }
    rewrite Ef, Eb. cbn [bind]. eexists. split; [reflexivity|]. cbn [allSegments].
    eapply rf_trans; [apply rf_app; [apply rf_refl; intros; apply iff_refl|apply rf_app; [exact Rfr|exact Rbk]]|].
    eapply rf_trans; [|apply rf_app; [apply rf_refl; intros; apply iff_refl|exact R]].
    apply rf_refl. intros x. cbn [allSegments]. rewrite !in_app_iff. tauto.
Qed.
