(* The routine does the steps of the growing hull. *)
From Verif Require Import Base BaseFacts Plane PlaneFacts MeshEditorModel AreaProofs BoxModel RayModel WithinProofs PolygonProps Hull3Model Hull3Spec Hull3Proofs Hull3Proofs2 Hull3Proofs3.
From Coq Require Import QArith Qabs Lqa Permutation.
Local Open Scope Q_scope.

Definition tri (f : facet) : tri3 := (fi f, fj f, fk f).
Lemma qmax_r a b : a <= b -> qmax a b == b.
Proof. intros L. unfold qmax. destruct (Qlt_le_dec a b); [reflexivity|lra]. Qed.
Lemma vol6_eq_dot n a b c d : eq3 n (cross3 (sub3 b a) (sub3 c a)) -> dot3 (sub3 d a) n == vol6 a b c d.
Proof. intros E. rewrite (dot3_eq3 _ _ _ E). symmetry. apply vol6_dot. Qed.

Lemma filter_short {A} (g : A -> bool) l : (length (filter g l) <= length l)%nat.
Proof. induction l as [|y l IH]; [auto|]. cbn [filter]. destruct (g y); cbn [length]; lia. Qed.
Lemma filter_shorter {A} (g : A -> bool) l a : In a l -> ~ In a (filter g l) -> (length (filter g l) < length l)%nat.
Proof.
  induction l as [|b l IH]; intros J N; [destruct J|]. cbn [filter] in *. pose proof (filter_short g l) as L. destruct J as [->|J].
  - destruct (g a); [destruct N; left; auto|]. cbn [length]. lia.
  - destruct (g b); cbn [length]; [|lia]. assert (length (filter g l) < length l)%nat by (apply IH; auto; intros X; apply N; right; auto). lia.
Qed.

Section Run.
  Context (ps : list p3) (Sep : Separated ps).
  Local Notation n := (length ps).
  Local Notation P := (at3 ps).
  Lemma get_at i : (i < n)%nat -> get ps i = Ok (P i).
  Proof. intros L. unfold get, at3. destruct (nth_error ps i) eqn:E; [|apply nth_error_None in E; lia]. rewrite (nth_error_nth _ _ _ E). reflexivity. Qed.

  Definition okf (f : facet) : Prop := (fi f < n /\ fj f < n /\ fk f < n)%nat /\ different [fi f; fj f; fk f] /\
    eq3 (fn f) (cross3 (sub3 (P (fj f)) (P (fi f))) (sub3 (P (fk f)) (P (fi f)))).
  Definition Fv (f : facet) (x : p3) : Q := vol6 (P (fi f)) (P (fj f)) (P (fk f)) x.
  Definition Fa (f : facet) : Q := area2 (P (fi f)) (P (fj f)) (P (fk f)).
  Lemma mag2_ok f : okf f -> mag2 (fn f) == Fa f.
  Proof.
    intros ((A & B & C) & W & E). unfold mag2. pose proof (sp_line ps Sep _ _ _ A B C W) as L. fold (Fa f) in L.
    assert (X : dot3 (fn f) (fn f) == Fa f) by (rewrite (dot3_eq3_2 _ _ E); apply area2_dot).
    rewrite qmax_r; [auto|]. rewrite X. auto.
  Qed.
  Lemma fa_pos f : okf f -> 0 < Fa f.
  Proof. intros ((A & B & C) & W & E). apply area_pos; auto. Qed.
  Lemma compare_spec f x : okf f -> exists c, compare f x ps = Ok c /\ (Fv f x <= 0 -> c <> 1%Z) /\ (0 < Fv f x -> tol2 * Fa f <= Fv f x * Fv f x -> c = 1%Z).
  Proof.
    intros W. pose proof (mag2_ok f W) as M. pose proof (fa_pos f W) as Pa. destruct W as ((A & B & C) & W & E). unfold compare. rewrite get_at by auto. cbn [bind].
    eexists. split; [reflexivity|]. pose proof (vol6_eq_dot _ _ _ _ x E) as D. fold (Fv f x) in D.
    set (d := dot3 (sub3 x (P (fi f))) (fn f)) in *. set (v := Fv f x) in *. set (m := mag2 (fn f)) in *. set (a := Fa f) in *. clearbody d v m a. split.
    - intros L. destruct (qltb_spec (d * d) (tol2 * m)) as [X|X]; [discriminate|]. destruct (qltb_spec d 0) as [Y|Y]; [discriminate|].
      assert (Z : d == 0) by lra. exfalso. apply X. rewrite Z, M. assert (0 < tol2 * a) by (apply sign_pp; [reflexivity|auto]). lra.
    - intros L Q. assert (X : Qlt_bool (d * d) (tol2 * m) = false) by (apply qlt_false; rewrite D, M; auto). rewrite X.
      destruct (qltb_spec d 0); [lra|auto].
  Qed.

  Local Notation big := (inject_Z (Z.of_nat (2 * n)) * inject_Z (Z.of_nat (2 * n)) * (1 # (10 ^ 16))).
  (* what is not in the plane is clearly off it *)
  Lemma clear_of a b c l : (a < n)%nat -> (b < n)%nat -> (c < n)%nat -> (l < n)%nat -> different [a; b; c] -> ~ Vol ps a b c l == 0 ->
    big * area2 (P a) (P b) (P c) <= Vol ps a b c l * Vol ps a b c l.
  Proof.
    intros A B C L W Z.
    assert (N : l <> a /\ l <> b /\ l <> c) by (repeat split; intros ->; apply Z; apply vol_zero; auto).
    destruct (sp_plane ps Sep a b c l A B C L) as [X|X]; auto; [|contradiction]. apply diff4. apply diff3 in W. intuition.
  Qed.
  Lemma n_pos : (0 < n)%nat.
  Proof. destruct (sp_solid ps Sep) as (i & j & k & l & A & _). lia. Qed.
  Lemma big_tol h : (0 < h)%nat -> (h <= n)%nat -> inject_Z (Z.of_nat (2 * h)) * inject_Z (Z.of_nat (2 * h)) * tol2 <= big.
  Proof.
    intros H1 H2. rewrite <- !inject_Z_mult. apply Qmult_le_compat_r; [|discriminate]. rewrite <- Zle_Qle. nia.
  Qed.
  Lemma tol_clear a b c l : (a < n)%nat -> (b < n)%nat -> (c < n)%nat -> (l < n)%nat -> different [a; b; c] -> ~ Vol ps a b c l == 0 ->
    tol2 * area2 (P a) (P b) (P c) <= Vol ps a b c l * Vol ps a b c l.
  Proof.
    intros A B C L W Z. pose proof (clear_of a b c l A B C L W Z) as X. pose proof n_pos as N. pose proof (big_tol 1 ltac:(lia) ltac:(lia)) as T.
    pose proof (area_pos ps Sep a b c A B C W) as Ar. refine (Qle_trans _ _ _ _ X). apply Qmult_le_compat_r; [|lra].
    refine (Qle_trans _ _ _ _ T). change (inject_Z (Z.of_nat (2 * 1))) with (2 # 1). clear. assert (T0 : 0 < tol2) by reflexivity. revert T0. generalize tol2. intros t T0. lra.
  Qed.

  (* what a facet says about a point *)
  Lemma compare_at f l : okf f -> (l < n)%nat -> exists c, compare f (P l) ps = Ok c /\ (c =? 1)%Z = Qlt_bool 0 (Dt ps (tri f) l).
  Proof.
    intros W L. destruct (compare_spec f (P l) W) as (c & E & H1 & H2). exists c. split; auto. change (Fv f (P l)) with (Dt ps (tri f) l) in *.
    destruct (qltb_spec 0 (Dt ps (tri f) l)) as [X|X].
    - apply Z.eqb_eq. apply H2; auto. destruct W as ((A & B & C) & W & _). apply tol_clear; auto. intros Z. change (Vol ps (fi f) (fj f) (fk f) l) with (Dt ps (tri f) l) in Z. lra.
    - apply Z.eqb_neq. apply H1. lra.
  Qed.
  Definition above (l : nat) (f : facet) : bool := Qlt_bool 0 (Dt ps (tri f) l).
  Lemma exterior_ok fs l : Forall okf fs -> (l < n)%nat -> exterior fs (P l) ps = Ok (existsb (above l) fs).
  Proof.
    intros W L. induction W as [|f fs Wf W IH]; [reflexivity|]. cbn [exterior existsb]. destruct (compare_at f l Wf L) as (c & -> & E). cbn [bind].
    rewrite E. unfold above at 1. destruct (Qlt_bool 0 (Dt ps (tri f) l)); auto.
  Qed.
  Lemma exteriorPoints_ok fs R : Forall okf fs -> (forall r, In r R -> (r < n)%nat) ->
    exteriorPoints R fs ps = Ok (filter (fun r => existsb (above r) fs) R).
  Proof.
    intros W H. unfold exteriorPoints. assert (G : forall acc, mfold (fun acc i => do p <- get ps i; do e <- exterior fs p ps; Ok (if e : bool then acc ++ [i] else acc)) R acc =
      Ok (acc ++ filter (fun r => existsb (above r) fs) R)).
    { induction R as [|r R IH]; intros acc; cbn [mfold filter]; [rewrite app_nil_r; auto|].
      assert (L : (r < n)%nat) by (apply H; left; auto). rewrite (get_at r L). cbn [bind]. rewrite (exterior_ok fs r W L). cbn [bind].
      rewrite IH by (intros; apply H; right; auto). destruct (existsb (above r) fs); [rewrite <- app_assoc|]; reflexivity. }
    apply G.
  Qed.

  (* the highest point is one of them that is above some facet *)
  Lemma highest_ok fs R : Forall okf fs -> (forall r, In r R -> (r < n)%nat) -> (exists r, In r R /\ existsb (above r) fs = true) ->
    exists p, highestPoint R fs ps = Ok p /\ In p R.
  Proof.
    intros W H X.
    set (J := fun (st : option nat * (Q * Q)) => match fst st with None => snd st = (0, 1) | Some i => In i R end).
    set (step := fun (i : nat) '((r, m) : option nat * (Q * Q)) (f : facet) =>
          do p <- get ps i; do q <- get ps (fi f);
          let a := (dot3 (sub3 p q) (fn f), mag2 (fn f)) in
          Ok (if higher a m then (Some i, a) else (r, m))).
    assert (St : forall i st f, In i R -> In f fs -> J st -> exists st', step i st f = Ok st' /\ J st' /\ (above i f = true -> fst st' <> None) /\ (fst st <> None -> fst st' <> None)).
    { intros i [r m] f Ii If Jst. rewrite Forall_forall in W. pose proof (W _ If) as ((A & B & C) & D & E). unfold step. rewrite (get_at i) by auto. rewrite (get_at (fi f)) by auto. cbn [bind].
      destruct (higher (dot3 (sub3 (P i) (P (fi f))) (fn f), mag2 (fn f)) m) eqn:Hh.
      - eexists. split; [reflexivity|]. unfold J. cbn. split; [auto|]. split; discriminate.
      - eexists. split; [reflexivity|]. split; auto. split; [|auto]. intros Ab. cbn [fst]. intros ->. unfold J in Jst. cbn in Jst. subst m.
        unfold above in Ab. apply qlt_bool_iff in Ab. unfold higher in Hh. cbn [fst snd] in Hh.
        pose proof (vol6_eq_dot _ _ _ _ (P i) E) as V. change (vol6 (P (fi f)) (P (fj f)) (P (fk f)) (P i)) with (Dt ps (tri f) i) in V.
        rewrite <- V in Ab. apply Bool.andb_false_iff in Hh. destruct Hh as [Hh|Hh]; apply qlt_false in Hh; [lra|].
        pose proof (sign_pp _ _ Ab Ab). lra. }
    assert (Fo : forall i, In i R -> forall gs, (forall f, In f gs -> In f fs) -> forall st, J st -> exists st', mfold (step i) gs st = Ok st' /\ J st' /\ (existsb (above i) gs = true -> fst st' <> None) /\ (fst st <> None -> fst st' <> None)).
    { intros i Ii. induction gs as [|f gs IH]; intros Hg st Jst; cbn [mfold existsb]; [exists st; split; auto; split; auto; split; [discriminate|auto]|].
      destruct (St i st f Ii (Hg f (or_introl eq_refl)) Jst) as (st1 & E1 & J1 & Y1 & Z1). rewrite E1. cbn [bind].
      destruct (IH (fun g Hin => Hg g (or_intror Hin)) st1 J1) as (st2 & E2 & J2 & Y2 & Z2). exists st2. split; auto. split; auto. split; [|auto].
      intros O. apply Bool.orb_true_iff in O. destruct O; auto. }
    assert (Go : forall l, (forall i, In i l -> In i R) -> forall st, J st -> exists st', mfold (fun st i => mfold (step i) fs st) l st = Ok st' /\ J st' /\ ((exists r, In r l /\ existsb (above r) fs = true) -> fst st' <> None) /\ (fst st <> None -> fst st' <> None)).
    { induction l as [|i l IH]; intros Hl st Jst; cbn [mfold]; [exists st; split; auto; split; auto; split; [intros (r & [] & _)|auto]|].
      destruct (Fo i (Hl i (or_introl eq_refl)) fs (fun _ h => h) st Jst) as (st1 & E1 & J1 & Y1 & Z1). rewrite E1. cbn [bind].
      destruct (IH (fun g Hin => Hl g (or_intror Hin)) st1 J1) as (st2 & E2 & J2 & Y2 & Z2). exists st2. split; auto. split; auto. split; [|auto].
      intros (r & [->|Ir] & Ex); [auto|apply Y2; eauto]. }
    destruct (Go R (fun _ h => h) (None, (0, 1)) eq_refl) as ([r m] & E & J1 & Y & _). unfold highestPoint.
    change (mfold _ R (None, (0, 1))) with (mfold (fun st i => mfold (step i) fs st) R (None, (0, 1))). rewrite E. cbn [bind].
    pose proof (Y X) as Nz. cbn in Nz. destruct r as [p|]; [|congruence]. exists p. split; auto.
  Qed.

  (* culling *)
  Lemma cull_ok fs p : Forall okf fs -> (p < n)%nat -> 
    forall kept keys, mfold (cull_step ps (P p)) fs (kept, tally keys []) =
      Ok (kept ++ filter (fun f => negb (above p f)) fs, tally (keys ++ map ekey (flat_map tri_edges (map tri (filter (above p) fs)))) []).
  Proof.
    intros W L. induction W as [|f fs Wf W IH]; intros kept keys; cbn [mfold filter map flat_map]; [rewrite !app_nil_r; reflexivity|].
    unfold cull_step at 1. destruct (compare_at f p Wf L) as (c & -> & E). cbn [bind]. rewrite E. fold (above p f). destruct (above p f) eqn:Ab; cbn [negb].
    - destruct Wf as (_ & D & _). apply diff3 in D. destruct D as (D1 & D2 & D3). rewrite !hashPair_ok by auto. cbn [bind].
      match goal with |- mfold _ _ (kept, ?m) = _ => change m with (tally (map ekey (tri_edges (tri f))) (tally keys [])) end.
      replace (tally (map ekey (tri_edges (tri f))) (tally keys [])) with (tally (keys ++ map ekey (tri_edges (tri f))) []) by (unfold tally; rewrite fold_left_app; reflexivity).
      rewrite IH. rewrite <- app_assoc, <- map_app. reflexivity.
    - cbn [bind]. rewrite IH. rewrite <- app_assoc. reflexivity.
  Qed.
  Lemma filter_tri (g : tri3 -> bool) fs : map tri (filter (fun f => g (tri f)) fs) = filter g (map tri fs).
  Proof. induction fs as [|f fs IH]; [reflexivity|]. cbn [filter map]. destruct (g (tri f)); cbn; rewrite IH; reflexivity. Qed.

  (* the test point *)
  Lemma sum_ok (hz : list (nat * nat)) : (forall e, In e hz -> (fst e < n)%nat /\ (snd e < n)%nat) -> forall s0,
    exists s, mfold (fun s e => do a <- get ps (fst e); do b <- get ps (snd e); Ok (add3 (add3 s a) b)) hz s0 = Ok s /\
      forall m, dot3 s m == dot3 s0 m + sumf (fun e => dot3 (P (fst e)) m + dot3 (P (snd e)) m) hz.
  Proof.
    induction hz as [|e hz IH]; intros H s0; cbn [mfold]; [exists s0; split; auto; intros; rewrite sumf_nil; ring|].
    destruct (H e (or_introl eq_refl)) as [A B]. rewrite (get_at _ A), (get_at _ B). cbn [bind].
    destruct (IH (fun e h => H e (or_intror h)) (add3 (add3 s0 (P (fst e))) (P (snd e)))) as (s & E & G). exists s. split; auto. intros m. rewrite G, sumf_cons.
    assert (X : dot3 (add3 (add3 s0 (P (fst e))) (P (snd e))) m == dot3 s0 m + (dot3 (P (fst e)) m + dot3 (P (snd e)) m)).
    { unfold add3, dot3, X3, Y3, Z3. ring. }
    rewrite X. ring.
  Qed.
  Lemma test_point (hz : list (nat * nat)) s a b c : (0 < length hz)%nat ->
    (forall m, dot3 s m == dot3 (0, 0, 0) m + sumf (fun e => dot3 (P (fst e)) m + dot3 (P (snd e)) m) hz) ->
    let k := inject_Z (Z.of_nat (2 * length hz)) in
    k * vol6 a b c (div3 s k) == sumf (fun e => vol6 a b c (P (fst e)) + vol6 a b c (P (snd e))) hz.
  Proof.
    intros L G k. assert (Kp : 0 < k) by (unfold k; change 0 with (inject_Z 0); rewrite <- Zlt_Qlt; lia).
    set (m := cross3 (sub3 b a) (sub3 c a)). 
    assert (V : forall x, vol6 a b c x == dot3 x m - dot3 a m) by (intros; rewrite vol6_dot; fold m; unfold dot3; destruct x as [[? ?] ?], a as [[? ?] ?]; cbn; ring).
    rewrite V. rewrite (sumf_ext _ (fun e => (dot3 (P (fst e)) m + dot3 (P (snd e)) m) + (-2) * dot3 a m)) by (intros; rewrite !V; ring).
    rewrite sumf_plus. assert (Sc : sumf (fun _ : nat * nat => (-2) * dot3 a m) hz == - k * dot3 a m).
    { unfold k. clear. induction hz as [|e hz IH]; [cbn; ring|]. rewrite sumf_cons, IH. cbn [length].
      replace (Z.of_nat (2 * S (length hz))) with (Z.of_nat (2 * length hz) + 2)%Z by lia. rewrite inject_Z_plus. change (inject_Z 2) with (2 # 1). ring. }
    rewrite Sc. specialize (G m). assert (Z0 : dot3 (0, 0, 0) m == 0) by (unfold dot3; cbn; ring). rewrite Z0 in G.
    assert (Dv : k * dot3 (div3 s k) m == dot3 s m).
    { unfold div3, dot3, X3, Y3, Z3. destruct s as [[? ?] ?], m as [[? ?] ?]. field. lra. }
    rewrite <- (Qplus_0_l (sumf _ hz)), <- G, <- Dv. ring.
  Qed.
  Lemma sumf_least {A} (g : A -> Q) l a : (forall x, In x l -> g x <= 0) -> In a l -> sumf g l <= g a.
  Proof.
    induction l as [|b l IH]; intros H J; [destruct J|]. rewrite sumf_cons. destruct J as [->|J].
    - assert (X : 0 <= sumf (fun x => - g x) l) by (apply sumf_nonneg; intros x Jx; pose proof (H x (or_intror Jx)); lra).
      rewrite (sumf_ext _ (fun x => (-1) * g x)) in X by (intros; ring). rewrite sumf_scale in X. lra.
    - pose proof (H b (or_introl eq_refl)). pose proof (IH (fun x h => H x (or_intror h)) J). lra.
  Qed.

  Section Round.
    Context (R : list nat) (ts : list tri3) (I : Inv ps R ts) (p : nat) (Hp : In p R).
    Local Notation B := (border (flat_map tri_edges (filter (vis ps p) ts))).
    Context (hz : list (nat * nat)) (Hh : Permutation hz (map ekey B)) (s : p3)
      (Hs : forall m, dot3 s m == dot3 (0, 0, 0) m + sumf (fun e => dot3 (P (fst e)) m + dot3 (P (snd e)) m) hz).
    Local Notation h := (length hz).
    Local Notation x := (div3 s (inject_Z (Z.of_nat (2 * h)))).
    Lemma h_len : h = length B.
    Proof. rewrite (Permutation_length Hh), map_length. reflexivity. Qed.
    Lemma test_sum a b c : inject_Z (Z.of_nat (2 * h)) * vol6 a b c x == sumf (fun e => vol6 a b c (P (fst e)) + vol6 a b c (P (snd e))) B.
    Proof.
      rewrite test_point; auto.
      - rewrite (sumf_perm _ _ _ Hh), sumf_map. apply sumf_ext. intros e _. unfold ekey, flipe. destruct (fst e <? snd e)%nat; cbn [fst snd]; ring.
      - rewrite h_len. pose proof (horizon_three ps R ts I p Hp). lia.
    Qed.
    (* the test point is clearly under every new facet *)
    Lemma test_under a b : In (a, b) B -> vol6 (P a) (P b) (P p) x < 0 /\
      tol2 * area2 (P a) (P b) (P p) <= vol6 (P a) (P b) (P p) x * vol6 (P a) (P b) (P p) x.
    Proof.
      intros J. destruct (horizon_known ps R ts I p a b J) as (Ka & Kb & Ne). pose proof (p_new ps R p Hp a Ka) as Na. pose proof (p_new ps R p Hp b Kb) as Nb.
      pose proof (p_lt ps R ts I p Hp) as Lp.
      destruct (fan_solid ps Sep R ts I p Hp a b J) as (v & e & Je & Hv & Lv). 
      assert (Kv : known ps R v). { destruct e as [y z]. destruct (horizon_known ps R ts I p y z Je) as (Ky & Kz & _). destruct Hv as [->| ->]; auto. }
      pose proof (clear_of a b p v (proj1 Ka) (proj1 Kb) Lp (proj1 Kv) (proj2 (diff3 a b p) (conj Ne (conj Na Nb))) ltac:(intros Z; lra)) as C.
      pose proof (test_sum (P a) (P b) (P p)) as T.
      assert (U : forall e, In e B -> Vol ps a b p (fst e) <= 0 /\ Vol ps a b p (snd e) <= 0).
      { intros [y z] Jy. destruct (horizon_known ps R ts I p y z Jy) as (Ky & Kz & _). split; apply (fan_under ps R ts I p a b); auto. }
      pose proof (sumf_least (fun e => vol6 (P a) (P b) (P p) (P (fst e)) + vol6 (P a) (P b) (P p) (P (snd e))) B e) as SL.
      assert (S1 : sumf (fun e => vol6 (P a) (P b) (P p) (P (fst e)) + vol6 (P a) (P b) (P p) (P (snd e))) B <= Vol ps a b p v).
      { refine (Qle_trans _ _ _ (SL _ Je) _).
        - intros e' Je'. destruct (U e' Je') as [U1 U2]. unfold Vol in *. lra.
        - destruct (U e Je) as [U1 U2]. unfold Vol in *. destruct Hv as [->| ->]; lra. }
      rewrite <- T in S1. pose proof (horizon_three ps R ts I p Hp) as H3. pose proof (horizon_short ps Sep R ts I p Hp) as Hn. rewrite <- h_len in H3, Hn.
      pose proof (big_tol h ltac:(lia) Hn) as BT. pose proof (area_pos ps Sep a b p (proj1 Ka) (proj1 Kb) Lp (proj2 (diff3 a b p) (conj Ne (conj Na Nb)))) as Ar.
      set (k := inject_Z (Z.of_nat (2 * h))) in *. assert (Kp : 0 < k) by (unfold k; change 0 with (inject_Z 0); rewrite <- Zlt_Qlt; lia).
      set (d := vol6 (P a) (P b) (P p) (div3 s k)) in *. set (ar := area2 (P a) (P b) (P p)) in *. set (w := Vol ps a b p v) in *. set (bb := big) in *.
      clearbody k d ar w bb. clear - S1 Kp C BT Ar Lv.
      assert (D : d < 0). { destruct (Qlt_le_dec d 0); auto. assert (0 <= k * d) by (apply Qmult_le_0_compat; lra). lra. }
      split; auto.
      assert (Sq : w * w <= (k * d) * (k * d)). { assert (0 <= (w - k * d) * (- w - k * d)) by (apply Qmult_le_0_compat; lra). lra. }
      assert (Q1 : (k * k * tol2) * ar <= bb * ar) by (apply Qmult_le_compat_r; lra).
      assert (Q2 : (k * k) * (tol2 * ar) <= (k * k) * (d * d)) by (lra || nra).
      apply Qmult_lt_0_le_reg_r with (k * k); [apply sign_pp; auto|]. lra.
    Qed.
    Definition unkey (e : nat * nat) : nat * nat := if hase B e then e else flipe e.
    Lemma unkey_key e : In e B -> unkey (ekey e) = e.
    Proof.
      intros J. unfold unkey, ekey. destruct (fst e <? snd e)%nat.
      - apply hase_in in J. rewrite J. auto.
      - destruct (hase B (flipe e)) eqn:X; [|apply flipe_inv]. apply hase_in in X. apply border_in in J, X. tauto.
    Qed.
    Lemma add_ok e acc : In e B -> exists f, add_facet ps p x acc (ekey e) = Ok (acc ++ [f]) /\ okf f /\ tri f = fan p e.
    Proof.
      intros J. destruct e as [a b]. destruct (test_under a b J) as [T1 T2]. destruct (horizon_known ps R ts I p a b J) as (Ka & Kb & Ne).
      pose proof (p_new ps R p Hp a Ka) as Na. pose proof (p_new ps R p Hp b Kb) as Nb. pose proof (p_lt ps R ts I p Hp) as Lp.
      unfold add_facet, newFacet, ekey, flipe. cbn [fst snd]. destruct (a <? b)%nat; cbn [fst snd]; rewrite (get_at a (proj1 Ka)), (get_at b (proj1 Kb)), (get_at p Lp); cbn [bind].
      - set (f := mkFacet a b p _). assert (W : okf f). { repeat split; cbn; try reflexivity; try apply Ka; try apply Kb; auto. apply diff3. auto. }
        destruct (compare_spec f x W) as (c & -> & H1 & H2). cbn [bind]. assert (c <> 1%Z) by (apply H1; apply Qlt_le_weak; exact T1).
        apply Z.eqb_neq in H. rewrite H. exists f. auto.
      - set (f := mkFacet b a p _). assert (W : okf f). { repeat split; cbn; try reflexivity; try apply Ka; try apply Kb; auto. apply diff3. auto. }
        assert (Sw : Fv f x == - vol6 (P a) (P b) (P p) x) by (unfold Fv; apply vol6_swap).
        assert (Sa : Fa f == area2 (P a) (P b) (P p)) by (unfold Fa; apply area2_swap).
        destruct (compare_spec f x W) as (c & -> & H1 & H2). cbn [bind]. rewrite H2; [|rewrite Sw; lra|rewrite Sw, Sa; lra].
        exists (flipFacet f). split; [reflexivity|]. split; [|reflexivity]. destruct W as (_ & _ & W). unfold okf, flipFacet. cbn [fi fj fk fn] in *.
        split; [repeat split; [apply Ka|apply Kb|auto]|]. split; [apply diff3; auto|]. apply flip_normal; auto.
    Qed.
    Lemma add_all l acc : (forall e, In e l -> In e B) -> exists new, mfold (add_facet ps p x) (map ekey l) acc = Ok (acc ++ new) /\ Forall okf new /\ map tri new = map (fan p) l.
    Proof.
      revert acc. induction l as [|e l IH]; intros acc H; cbn [map mfold].
      { exists []. rewrite app_nil_r. repeat split; auto. }
      destruct (add_ok e acc (H e (or_introl eq_refl))) as (f & E & W & T). rewrite E. cbn [bind].
      destruct (IH (acc ++ [f]) (fun e h => H e (or_intror h))) as (new & E' & W' & T'). exists (f :: new). rewrite E', <- app_assoc. split; auto.
      split; [constructor; auto|]. cbn [map]. rewrite T, T'. reflexivity.
    Qed.
    Lemma hz_map : hz = map ekey (map unkey hz) /\ (forall e, In e (map unkey hz) -> In e B) /\ Permutation (map unkey hz) B.
    Proof.
      assert (G : forall e, In e hz -> In (unkey e) B /\ ekey (unkey e) = e).
      { intros e J. apply (Permutation_in _ Hh) in J. apply in_map_iff in J. destruct J as (e' & <- & J). rewrite unkey_key; auto. }
      split; [|split].
      - rewrite map_map. rewrite <- (map_id hz) at 1. apply map_ext_in. intros e J. symmetry. apply G; auto.
      - intros e J. apply in_map_iff in J. destruct J as (e' & <- & J). apply G; auto.
      - rewrite (Permutation_map unkey Hh), map_map. rewrite <- (map_id B) at 2. apply Permutation_refl' . apply map_ext_in. intros e J. apply unkey_key; auto.
    Qed.
  End Round.

  Lemma grow1_ok R fs : Forall okf fs -> Inv ps R (map tri fs) -> R <> [] ->
    exists R' fs', grow1 ps R fs = Ok (R', fs') /\ Forall okf fs' /\ Inv ps R' (map tri fs') /\ (length R' < length R)%nat.
  Proof.
    intros W I Ne. assert (LR : forall r, In r R -> (r < n)%nat) by (intros r J; apply (iv_ext _ _ _ I r J)).
    assert (Ex : forall r, In r R -> existsb (above r) fs = true).
    { intros r J. destruct (iv_ext _ _ _ I r J) as (_ & t & It & X). apply in_map_iff in It. destruct It as (f & <- & If). apply existsb_exists. exists f. split; auto. apply qlt_bool_iff. auto. }
    destruct (highest_ok fs R W LR) as (p & Ep & Hp). { destruct R as [|r R0]; [congruence|]. exists r. split; [left; auto|]. apply Ex. left; auto. }
    unfold grow1. rewrite Ep. cbn [bind]. pose proof (p_lt ps R _ I p Hp) as Lp. unfold cullVisibleFacets. rewrite (get_at p Lp). cbn [bind].
    change ([], []) with (@nil facet, tally [] []). rewrite (cull_ok fs p W Lp). cbn [bind app].
    set (kept := filter (fun f => negb (above p f)) fs).
    assert (EV : map tri (filter (above p) fs) = filter (vis ps p) (map tri fs)) by apply (filter_tri (vis ps p)).
    assert (EK : map tri kept = filter (fun t => negb (vis ps p t)) (map tri fs)) by apply (filter_tri (fun t => negb (vis ps p t))).
    rewrite EV. set (ev := flat_map tri_edges (filter (vis ps p) (map tri fs))).
    destruct (parts_nodup ps R _ I p) as (NV & _ & _). fold ev in NV. pose proof (no_loop_v ps R _ I p) as NL. fold ev in NL.
    rewrite (horizon_run ev NV NL). cbn [bind]. pose proof (horizon_perm ev NV NL) as HP. set (hz := horizon_of ev) in *.
    pose proof (horizon_three ps R _ I p Hp) as H3. fold ev in H3.
    assert (Hlen : length hz = length (border ev)) by (rewrite (Permutation_length HP), map_length; auto).
    assert (L3 : (3 <=? length hz)%nat = true) by (apply Nat.leb_le; lia). rewrite L3. cbn [assert bind].
    assert (Rng : forall e, In e hz -> (fst e < n)%nat /\ (snd e < n)%nat).
    { intros e J. apply (Permutation_in _ HP) in J. apply in_map_iff in J. destruct J as ([a b] & <- & J). destruct (horizon_known ps R _ I p a b J) as ((A & _) & (B & _) & _).
      unfold ekey, flipe. cbn [fst snd]. destruct (a <? b)%nat; auto. }
    destruct (sum_ok hz Rng (0, 0, 0)) as (s & Es & Gs). rewrite Es. cbn [bind].
    destruct (hz_map (map tri fs) p hz HP) as (M1 & M2 & M3).
    destruct (add_all R (map tri fs) I p Hp hz HP s Gs (map (unkey (map tri fs) p) hz) kept M2) as (new & En & Wn & Tn). rewrite <- M1 in En. rewrite En. cbn [bind].
    assert (W' : Forall okf (kept ++ new)). { apply Forall_app. split; auto. apply Forall_forall. intros f J. apply filter_In in J. rewrite Forall_forall in W. apply W. tauto. }
    rewrite (exteriorPoints_ok _ _ W' LR). cbn [bind]. set (R' := filter (fun r => existsb (above r) (kept ++ new)) R).
    assert (Pn : Permutation (map tri new) (map (fan p) (border ev))) by (rewrite Tn; apply Permutation_map; auto).
    assert (HR' : forall r, In r R' <-> In r R /\ exists t, In t (filter (fun t => negb (vis ps p t)) (map tri fs) ++ map tri new) /\ 0 < Dt ps t r).
    { intros r. unfold R'. rewrite filter_In, existsb_exists. rewrite <- EK, <- map_app. split.
      - intros (J & f & Jf & X). split; auto. exists (tri f). split; [apply in_map; auto|]. apply qlt_bool_iff in X. auto.
      - intros (J & t & Jt & X). split; auto. apply in_map_iff in Jt. destruct Jt as (f & <- & Jf). exists f. split; auto. apply qlt_bool_iff. auto. }
    pose proof (step_inv ps Sep R (map tri fs) I p Hp (map tri new) Pn R' HR') as I'. rewrite <- EK, <- map_app in I'.
    assert (Gone : ~ In p R') by apply (p_gone ps R (map tri fs) p (map tri new) Pn R' HR').
    assert (Lt : (length R' < length R)%nat).
    { apply (filter_shorter _ R p); auto. }
    assert (Lb : (length R' <? length R)%nat = true) by (apply Nat.ltb_lt; auto). rewrite Lb. cbn [assert bind].
    exists R', (kept ++ new). auto.
  Qed.
  Lemma grow_ok fuel : forall R fs, (length R <= fuel)%nat -> Forall okf fs -> Inv ps R (map tri fs) ->
    exists fs', grow fuel ps R fs = Ok fs' /\ HullSurface ps (map tri fs').
  Proof.
    induction fuel as [|fuel IH]; intros R fs L W I.
    - destruct R as [|r R]; [|cbn in L; lia]. exists fs. split; auto. apply inv_done. auto.
    - destruct R as [|r R]; [exists fs; split; auto; apply inv_done; auto|].
      destruct (grow1_ok (r :: R) fs W I ltac:(discriminate)) as (R' & fs' & E & W' & I' & Lt). cbn [grow]. rewrite E. cbn [bind]. apply IH; auto. lia.
  Qed.
End Run.
