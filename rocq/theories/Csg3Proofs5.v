(* The trees of polygons. *)
From Verif Require Import Base BaseFacts PLCSpec Plane WithinSpec MeshEditorModel RayModel Hull3Model Csg3Spec Csg3Model Csg3Proofs Csg3Proofs2 Csg3Proofs3 Csg3Proofs4 WithinProofs.
From Coq Require Import QArith Lqa Lia Permutation.
Local Open Scope Q_scope.

Notation tri := (p3 * p3 * p3)%type.
Definition apex (t : tri) : p3 := fst (fst t).
Definition cov (p : poly) (x : p3) : Prop := Hull (fun v => In v (pverts p)) x.
Definition Cov (L : list poly) (x : p3) : Prop := exists p, In p L /\ cov p x.
Definition Real (t : tri) : Prop := 0 < dotn (normal3 t) (normal3 t).
Record PP (t : tri) (p : poly) : Prop := {
  pp_piece : PieceOf t (pverts p);
  pp_plane : exists k, 0 < k /\ (forall i, C i (pnorm (pplane p)) == k * C i (normal3 t)) /\ pw (pplane p) == k * dotn (normal3 t) (apex t) }.

Lemma beyond_dot t x : beyond t x == dotn (normal3 t) x - dotn (normal3 t) (apex t).
Proof. destruct t as ((a & b) & c). unfold beyond, vol6, apex, dotn, normal3. cbn [fst snd]. coords. ring. Qed.
Lemma dot3_C a b : dot3 a b == C 0 a * C 0 b + C 1 a * C 1 b + C 2 a * C 2 b. Proof. reflexivity. Qed.
Lemma dotn_C a b : dotn a b == C 0 a * C 0 b + C 1 a * C 1 b + C 2 a * C 2 b. Proof. reflexivity. Qed.
Lemma pp_side t p : PP t p -> exists k, 0 < k /\ forall x, side (pplane p) x == k * beyond t x.
Proof.
  intros [_ (k & K & N & W)]. exists k. split; auto. intros x. rewrite beyond_dot. unfold side. rewrite dot3_C, !N, W, !dotn_C. ring.
Qed.
Lemma corner_flat t v : In v (corners3 t) -> dotn (normal3 t) v == dotn (normal3 t) (apex t).
Proof.
  destruct t as ((a & b) & c). unfold corners3, apex, dotn, normal3. cbn [fst snd]. intros [<-|[<-|[<-|[]]]]; coords; ring.
Qed.
Lemma piece_flat t p : PieceOf t p -> Flat (normal3 t) (dotn (normal3 t) (apex t)) p.
Proof.
  intros (_ & H & _) v Iv. apply H in Iv. apply comb_hull in Iv.
  assert (E : dotn (normal3 t) v == affine (X3 (normal3 t)) (Y3 (normal3 t)) (Z3 (normal3 t)) 0 v) by (unfold dotn, affine; ring). rewrite E.
  apply hull_eq with (S := fun p => In p (corners3 t)); auto. intros q Iq. rewrite <- (corner_flat t q Iq). unfold dotn, affine. ring.
Qed.
Lemma cross_along n a b d i : 0 < dotn n n -> dotn n b == dotn n a -> dotn n d == dotn n a ->
  C i (cross3 (sub3 b a) (sub3 d a)) == turn n a b d / dotn n n * C i n.
Proof.
  intros N Hb Hd.
  assert (E : dotn n n * C i (cross3 (sub3 b a) (sub3 d a)) == C i n * turn n a b d - (dotn n b - dotn n a) * C i (cross3 (sub3 d a) n) - (dotn n d - dotn n a) * C i (cross3 n (sub3 b a))).
  { clear. unfold dotn, cross3. destruct i as [|[|i]]; coords; ring. }
  rewrite Hb, Hd in E. assert (NZ : ~ dotn n n == 0) by lra.
  assert (E' : C i (cross3 (sub3 b a) (sub3 d a)) == (dotn n n * C i (cross3 (sub3 b a) (sub3 d a))) / dotn n n) by (field; auto). rewrite E', E. field. auto.
Qed.
Lemma mk_pp t vs : Real t -> PieceOf t vs -> PP t (mkpoly vs).
Proof.
  intros R P. constructor; [exact P|]. pose proof (piece_flat t vs P) as F. destruct P as (L & H & T). cbn [pplane mkpoly].
  destruct vs as [|a [|b [|d vs]]]; cbn [length] in L; try lia. cbn [pverts] in *.
  assert (Fa : dotn (normal3 t) a == dotn (normal3 t) (apex t)) by (apply F; left; auto). assert (Fb : dotn (normal3 t) b == dotn (normal3 t) a) by (rewrite Fa; apply F; right; left; auto).
  assert (Fd : dotn (normal3 t) d == dotn (normal3 t) a) by (rewrite Fa; apply F; right; right; left; auto).
  assert (P : 0 < turn (normal3 t) a b d) by (apply (T 0%nat 1%nat 2%nat); auto).
  exists (turn (normal3 t) a b d / dotn (normal3 t) (normal3 t)). unfold mkplane. cbn [pnorm pw]. unfold Real in R.
  split; [apply Qlt_shift_div_l; lra|]. split; [intros i; apply cross_along; auto|].
  rewrite dot3_C, !(cross_along (normal3 t)) by auto. rewrite <- Fa, !dotn_C. ring.
Qed.

(* ---- one polygon and one plane ---- *)
Lemma exb {A} (f : A -> bool) l : (existsb f l = true /\ exists x, In x l /\ f x = true) \/ (existsb f l = false /\ forall x, In x l -> f x = false).
Proof.
  destruct (existsb f l) eqn:E; [left; split; auto; apply existsb_exists; auto|right; split; auto]. intros x Ix. destruct (f x) eqn:F; auto.
  assert (existsb f l = true) by (apply existsb_exists; eauto). congruence.
Qed.
Lemma part_piece t p vs : PP t p -> (3 <= length vs)%nat -> Turning (normal3 t) vs -> (forall q, In q vs -> Hull (fun v => In v (pverts p)) q) -> PieceOf t vs.
Proof.
  intros [(L & H & _) _] L' T X. split; [auto|]. split; auto. intros v Iv. apply hull_comb. apply hull_flat with (S := fun v => In v (pverts p)); auto. intros q Iq. apply comb_hull. auto.
Qed.
Record Split4 (eps : Q) (l : plane) (t : tri) (p : poly) (q : four) : Prop := {
  s4_pp : forall s, In s (cfront q ++ cback q ++ front4 q ++ back4 q) -> PP t s;
  s4_sub : forall s x, In s (cfront q ++ cback q ++ front4 q ++ back4 q) -> cov s x -> cov p x;
  s4_cov : forall x, cov p x -> Cov (cfront q ++ cback q ++ front4 q ++ back4 q) x;
  s4_copl : forall s v, In s (cfront q ++ cback q) -> In v (pverts s) -> - eps <= side l v <= eps;
  s4_front : forall s v, In s (front4 q) -> In v (pverts s) -> - eps <= side l v;
  s4_back : forall s v, In s (back4 q) -> In v (pverts s) -> side l v <= eps;
  s4_few : (length (front4 q) <= 1 /\ length (back4 q) <= 1)%nat;
  s4_self : (forall v, In v (pverts p) -> side l v == 0) -> front4 q = [] /\ back4 q = [] }.
Lemma split4 eps l t p : 0 <= eps -> Real t -> PP t p -> Split4 eps l t p (splitPolygon eps l p).
Proof.
  intros E R H. unfold splitPolygon.
  assert (CF : forall v, is_front (classify eps l v) = true -> eps < side l v) by (intros v; destruct (class_cases eps l v E) as [(X&?)|[(X&?)|(X&?)]]; rewrite X; auto; discriminate).
  assert (CB : forall v, is_back (classify eps l v) = true -> side l v < - eps) by (intros v; destruct (class_cases eps l v E) as [(X&?)|[(X&?)|(X&?)]]; rewrite X; auto; discriminate).
  assert (NF : forall v, is_front (classify eps l v) = false -> side l v <= eps) by (intros v; destruct (class_cases eps l v E) as [(X&?)|[(X&?)|(X&?)]]; rewrite X; try discriminate; lra).
  assert (NB : forall v, is_back (classify eps l v) = false -> - eps <= side l v) by (intros v; destruct (class_cases eps l v E) as [(X&?)|[(X&?)|(X&?)]]; rewrite X; try discriminate; lra).
  destruct (exb (fun v => is_front (classify eps l v)) (pverts p)) as [(-> & (u & Iu & Hu))|(-> & HF)];
    destruct (exb (fun v => is_back (classify eps l v)) (pverts p)) as [(-> & (w & Iw & Hw))|(-> & HB)].
  - (* cut *)
    assert (XF : exists x, In x (pverts p) /\ classify eps l x = FRONT) by (exists u; split; auto; destruct (classify eps l u); auto; discriminate).
    assert (XB : exists x, In x (pverts p) /\ classify eps l x = BACK) by (exists w; split; auto; destruct (classify eps l w); auto; discriminate).
    pose proof (pp_piece _ _ H) as Pc. destruct Pc as (L & _ & T).
    destruct (split_parts eps l (normal3 t) _ (pverts p) E R (piece_flat t _ (pp_piece _ _ H)) T L XF XB) as ((F1 & F2 & F3) & (B1 & B2 & B3) & Z).
    unfold three. rewrite (proj2 (Nat.leb_le _ _) F1), (proj2 (Nat.leb_le _ _) B1).
    set (f := flat_map (f_part eps l) (ring (pverts p))) in *. set (b := flat_map (b_part eps l) (ring (pverts p))) in *.
    constructor; cbn [cfront cback front4 back4 app].
    + intros s [<-|[<-|[]]]; apply mk_pp; auto; apply (part_piece t p); auto; intros q Iq; [apply F3|apply B3]; auto.
    + intros s x [<-|[<-|[]]] Hx; (eapply hull_flat; [exact Hx|]); intros q Iq; [apply F3|apply B3]; auto.
    + intros x Hx. destruct (Z x Hx) as [Y|Y]; [exists (mkpoly f)|exists (mkpoly b)]; split; auto; [left; auto|right; left; auto].
    + intros s v [].
    + intros s v [<-|[]] Iv. apply F3; auto.
    + intros s v [<-|[]] Iv. apply B3; auto.
    + cbn. lia.
    + intros S. exfalso. pose proof (CF u Hu). rewrite S in H0 by auto. lra.
  - constructor; cbn [cfront cback front4 back4 app].
    + intros s [<-|[]]; auto.
    + intros s x [<-|[]]; auto.
    + intros x Hx. exists p. split; auto. left; auto.
    + intros s v [].
    + intros s v [<-|[]] Iv. apply NB; auto.
    + intros s v [].
    + cbn. lia.
    + intros S. exfalso. pose proof (CF u Hu). rewrite S in H0 by auto. lra.
  - constructor; cbn [cfront cback front4 back4 app].
    + intros s [<-|[]]; auto.
    + intros s x [<-|[]]; auto.
    + intros x Hx. exists p. split; auto. left; auto.
    + intros s v [].
    + intros s v [].
    + intros s v [<-|[]] Iv. apply NF; auto.
    + cbn. lia.
    + intros S. exfalso. pose proof (CB w Hw). rewrite S in H0 by auto. lra.
  - destruct (Qlt_bool 0 (dot3 (pnorm l) (pnorm (pplane p)))); constructor; cbn [cfront cback front4 back4 app]; try (intros s v []; fail); try (cbn; lia); auto.
    + intros s [<-|[]]; auto.
    + intros s x [<-|[]]; auto.
    + intros x Hx. exists p. split; auto. left; auto.
    + intros s v [<-|[]] Iv. split; [apply NB|apply NF]; auto.
    + intros s [<-|[]]; auto.
    + intros s x [<-|[]]; auto.
    + intros x Hx. exists p. split; auto. left; auto.
    + intros s v [<-|[]] Iv. split; [apply NB|apply NF]; auto.
Qed.

(* ---- lists of polygons ---- *)
Definition From (T : list tri) (L : list poly) : Prop := forall p, In p L -> exists t, In t T /\ Real t /\ PP t p.
Lemma from_app T L L' : From T (L ++ L') <-> From T L /\ From T L'.
Proof. split; [intros H; split; intros p Ip; apply H; apply in_or_app; auto|intros (A & B) p Ip; apply in_app_or in Ip as [I|I]; auto]. Qed.
Lemma from_nil T : From T []. Proof. intros ? []. Qed.
Lemma from_mono T T' L : (forall t, In t T -> In t T') -> From T L -> From T' L.
Proof. intros H F p Ip. destruct (F p Ip) as (t & It & R). eauto. Qed.
Lemma cov_app L L' x : Cov (L ++ L') x <-> Cov L x \/ Cov L' x.
Proof. unfold Cov. split; [intros (p & I & H); apply in_app_or in I as [I|I]; eauto|intros [(p & I & H)|(p & I & H)]; exists p; split; auto; apply in_or_app; auto]. Qed.
Lemma cov_nil x : ~ Cov [] x. Proof. intros (p & [] & _). Qed.
Definition low (eps : Q) (l : plane) (x : p3) : Prop := side l x < - eps.
Definition high (eps : Q) (l : plane) (x : p3) : Prop := eps < side l x.
Lemma cov_side (S : p3 -> Prop) l x : Hull S x -> forall m, (forall v, S v -> side l v <= m) -> side l x <= m.
Proof. intros H m B. rewrite side_affine. apply (hull_bound S x _ _ _ _ m H). intros p Hp. rewrite <- side_affine. auto. Qed.
Lemma cov_side' (S : p3 -> Prop) l x : Hull S x -> forall m, (forall v, S v -> m <= side l v) -> m <= side l x.
Proof.
  intros H m B. assert (K : affine (- X3 (pnorm l)) (- Y3 (pnorm l)) (- Z3 (pnorm l)) (pw l) x <= - m).
  { apply hull_bound with (S := S); auto. intros p Hp. specialize (B p Hp). rewrite side_affine in B. unfold affine in *. lra. }
  rewrite side_affine. unfold affine in *. lra.
Qed.
Definition fronts (eps : Q) (l : plane) (L : list poly) : list poly := flat_map (fun s => let q := splitPolygon eps l s in cfront q ++ front4 q) L.
Definition backs (eps : Q) (l : plane) (L : list poly) : list poly := flat_map (fun s => let q := splitPolygon eps l s in cback q ++ back4 q) L.
Lemma in4_f {A} (a b c d : list A) s : In s (a ++ c) -> In s (a ++ b ++ c ++ d).
Proof. rewrite !in_app_iff. tauto. Qed.
Lemma in4_b {A} (a b c d : list A) s : In s (b ++ d) -> In s (a ++ b ++ c ++ d).
Proof. rewrite !in_app_iff. tauto. Qed.
Section Lists.
  Context (eps : Q) (E0 : 0 <= eps) (T : list tri).
  Lemma fronts_from l L : From T L -> From T (fronts eps l L) /\ From T (backs eps l L).
  Proof using E0.
    intros F. split; intros s Is; apply in_flat_map in Is as (p & Ip & Is); destruct (F p Ip) as (t & It & R & H); exists t; split; auto; split; auto;
      apply (s4_pp _ _ _ _ _ (split4 eps l t p E0 R H)); [apply in4_f|apply in4_b]; auto.
  Qed.
  Lemma fronts_sub l L x : From T L -> Cov (fronts eps l L) x \/ Cov (backs eps l L) x <-> Cov L x.
  Proof using E0.
    intros F. split.
    - intros [(s & Is & H)|(s & Is & H)]; apply in_flat_map in Is as (p & Ip & Is); destruct (F p Ip) as (t & It & R & HP); exists p; split; auto;
        apply (s4_sub _ _ _ _ _ (split4 eps l t p E0 R HP) s); auto; [apply in4_f|apply in4_b]; auto.
    - intros (p & Ip & H). destruct (F p Ip) as (t & It & R & HP). destruct (s4_cov _ _ _ _ _ (split4 eps l t p E0 R HP) x H) as (s & Is & Hs).
      rewrite !in_app_iff in Is.
      assert (D : In s (cfront (splitPolygon eps l p) ++ front4 (splitPolygon eps l p)) \/ In s (cback (splitPolygon eps l p) ++ back4 (splitPolygon eps l p))) by (rewrite !in_app_iff; tauto).
      destruct D as [D|D]; [left|right]; exists s; split; auto; apply in_flat_map; exists p; split; auto.
  Qed.
  Lemma fronts_high l L x : From T L -> high eps l x -> (Cov (fronts eps l L) x <-> Cov L x) /\ ~ Cov (backs eps l L) x.
  Proof using E0.
    intros F Hx. assert (N : ~ Cov (backs eps l L) x).
    { intros (s & Is & H). apply in_flat_map in Is as (p & Ip & Is). destruct (F p Ip) as (t & It & R & HP). pose proof (split4 eps l t p E0 R HP) as S4.
      assert (B : side l x <= eps). { apply (cov_side (fun v => In v (pverts s))); auto. intros v Iv. apply in_app_or in Is as [Is|Is]; [apply (s4_copl _ _ _ _ _ S4 s v); auto; apply in_or_app; auto|apply (s4_back _ _ _ _ _ S4 s v); auto]. }
      unfold high in Hx. lra. }
    split; auto. pose proof (fronts_sub l L x F). tauto.
  Qed.
  Lemma fronts_low l L x : From T L -> low eps l x -> (Cov (backs eps l L) x <-> Cov L x) /\ ~ Cov (fronts eps l L) x.
  Proof using E0.
    intros F Hx. assert (N : ~ Cov (fronts eps l L) x).
    { intros (s & Is & H). apply in_flat_map in Is as (p & Ip & Is). destruct (F p Ip) as (t & It & R & HP). pose proof (split4 eps l t p E0 R HP) as S4.
      assert (B : - eps <= side l x). { apply (cov_side' (fun v => In v (pverts s))); auto. intros v Iv. apply in_app_or in Is as [Is|Is]; [apply (s4_copl _ _ _ _ _ S4 s v); auto; apply in_or_app; auto|apply (s4_front _ _ _ _ _ S4 s v); auto]. }
      unfold low in Hx. lra. }
    split; auto. pose proof (fronts_sub l L x F). tauto.
  Qed.

  (* ---- building keeps what is covered ---- *)
  Definition mids (l : plane) (L : list poly) : list poly := flat_map (fun s => let q := splitPolygon eps l s in cfront q ++ cback q) L.
  Definition fr4 (l : plane) (L : list poly) : list poly := flat_map (fun s => front4 (splitPolygon eps l s)) L.
  Definition bk4 (l : plane) (L : list poly) : list poly := flat_map (fun s => back4 (splitPolygon eps l s)) L.
  Lemma three_from l L : From T L -> From T (mids l L) /\ From T (fr4 l L) /\ From T (bk4 l L).
  Proof using E0.
    intros F. split; [|split]; intros s Is; apply in_flat_map in Is as (p & Ip & Is); destruct (F p Ip) as (t & It & R & H); exists t; split; auto; split; auto;
      apply (s4_pp _ _ _ _ _ (split4 eps l t p E0 R H)); rewrite !in_app_iff in *; tauto.
  Qed.
  Lemma three_cov l L x : From T L -> Cov (mids l L) x \/ Cov (fr4 l L) x \/ Cov (bk4 l L) x <-> Cov L x.
  Proof using E0.
    intros F. split.
    - intros [(s & Is & H)|[(s & Is & H)|(s & Is & H)]]; apply in_flat_map in Is as (p & Ip & Is); destruct (F p Ip) as (t & It & R & HP); exists p; split; auto;
        apply (s4_sub _ _ _ _ _ (split4 eps l t p E0 R HP) s); auto; rewrite !in_app_iff in *; tauto.
    - intros (p & Ip & H). destruct (F p Ip) as (t & It & R & HP). destruct (s4_cov _ _ _ _ _ (split4 eps l t p E0 R HP) x H) as (s & Is & Hs).
      rewrite !in_app_iff in Is.
      assert (D : In s (cfront (splitPolygon eps l p) ++ cback (splitPolygon eps l p)) \/ In s (front4 (splitPolygon eps l p)) \/ In s (back4 (splitPolygon eps l p))) by (rewrite !in_app_iff; tauto).
      destruct D as [D|[D|D]]; [left|right; left|right; right]; exists s; split; auto; apply in_flat_map; exists p; split; auto.
  Qed.
  Lemma few_len l L : From T L -> (length (fr4 l L) <= length L /\ length (bk4 l L) <= length L)%nat.
  Proof using E0.
    intros F. induction L as [|p L IH]; [cbn; lia|]. assert (F' : From T L) by (intros q Iq; apply F; right; auto). destruct (IH F') as (A & B).
    destruct (F p (or_introl eq_refl)) as (t & It & R & HP). destruct (s4_few _ _ _ _ _ (split4 eps l t p E0 R HP)).
    unfold fr4, bk4 in *. cbn [flat_map length]. rewrite !app_length. lia.
  Qed.
  Lemma self_len p L : From T (p :: L) -> (length (fr4 (pplane p) (p :: L)) <= length L /\ length (bk4 (pplane p) (p :: L)) <= length L)%nat.
  Proof using E0.
    intros F. destruct (F p (or_introl eq_refl)) as (t & It & R & HP).
    destruct (s4_self _ _ _ _ _ (split4 eps (pplane p) t p E0 R HP)) as (A & B).
    { intros v Iv. destruct (pp_side t p HP) as (k & K & S). rewrite S, beyond_dot, (piece_flat t _ (pp_piece _ _ HP) v Iv). ring. }
    unfold fr4, bk4. cbn [flat_map]. rewrite A, B. cbn [app]. apply few_len. intros q Iq. apply F. right; auto.
  Qed.
  Lemma build_new_ok : forall fuel L, (length L <= fuel)%nat -> From T L ->
    exists t, build_new eps fuel L = Ok t /\ From T (allPolygons t) /\ forall x, Cov (allPolygons t) x <-> Cov L x.
  Proof using E0.
    induction fuel as [|fuel IH]; intros L HL F.
    - destruct L; [|cbn in HL; lia]. exists (Nd [] Null Null no_plane). split; [reflexivity|]. split; [apply from_nil|]. intros x. reflexivity.
    - destruct L as [|p L]; [exists (Nd [] Null Null no_plane); split; [reflexivity|]; split; [apply from_nil|]; intros x; reflexivity|].
      cbn [build_new]. fold (mids (pplane p) (p :: L)) (fr4 (pplane p) (p :: L)) (bk4 (pplane p) (p :: L)).
      destruct (self_len p L F) as (LF & LB). cbn [length] in HL. destruct (three_from (pplane p) (p :: L) F) as (FM & FF & FB). pose proof (fun x => three_cov (pplane p) (p :: L) x F) as HC.
      set (LL := p :: L) in *. clearbody LL.
      assert (KF : exists t, match fr4 (pplane p) LL with [] => Ok Null | _ => build_new eps fuel (fr4 (pplane p) LL) end = Ok t /\ From T (allPolygons t) /\ forall x, Cov (allPolygons t) x <-> Cov (fr4 (pplane p) LL) x).
      { destruct (fr4 (pplane p) LL) as [|y u] eqn:EF; [exists Null; split; auto; split; [apply from_nil|intros; reflexivity]|]. apply IH; auto. lia. }
      assert (KB : exists t, match bk4 (pplane p) LL with [] => Ok Null | _ => build_new eps fuel (bk4 (pplane p) LL) end = Ok t /\ From T (allPolygons t) /\ forall x, Cov (allPolygons t) x <-> Cov (bk4 (pplane p) LL) x).
      { destruct (bk4 (pplane p) LL) as [|y u] eqn:EF; [exists Null; split; auto; split; [apply from_nil|intros; reflexivity]|]. apply IH; auto. lia. }
      destruct KF as (fr & -> & F1 & C1). destruct KB as (bk & -> & F2 & C2). cbn [bind]. eexists. split; [reflexivity|]. cbn [allPolygons]. split.
      + rewrite !from_app. auto.
      + intros x. rewrite !cov_app, C1, C2. apply HC.
  Qed.
  Lemma build_ok : forall t L, From T (allPolygons t) -> From T L ->
    exists t', build eps t L = Ok t' /\ From T (allPolygons t') /\ forall x, Cov (allPolygons t') x <-> Cov (allPolygons t) x \/ Cov L x.
  Proof using E0.
    induction t as [|ss fr IHf bk IHb l]; intros L F0 F.
    - cbn [build]. destruct (build_new_ok (length L) L (le_n _) F) as (t & E & FT & C0). exists t. split; auto. split; auto. intros x. rewrite C0. cbn [allPolygons]. split; auto. intros [H|H]; auto. apply cov_nil in H. contradiction.
    - cbn [build]. destruct L as [|p L]; [exists (Nd ss fr bk l); split; auto; split; auto; intros x; split; auto; intros [H|H]; auto; apply cov_nil in H; contradiction|].
      set (l' := if plane_ok l then l else pplane p). clearbody l'. set (LL := p :: L) in *. clearbody LL. fold (mids l' LL) (fr4 l' LL) (bk4 l' LL).
      cbn [allPolygons] in F0. rewrite !from_app in F0. destruct F0 as (Fs & Ff & Fb). destruct (three_from l' LL F) as (FM & FF & FB).
      assert (KF : exists t, match fr4 l' LL with [] => Ok fr | _ => build eps fr (fr4 l' LL) end = Ok t /\ From T (allPolygons t) /\ forall x, Cov (allPolygons t) x <-> Cov (allPolygons fr) x \/ Cov (fr4 l' LL) x).
      { destruct (fr4 l' LL) as [|y u] eqn:EF; [exists fr; split; auto; split; auto; intros x; split; auto; intros [H|H]; auto; apply cov_nil in H; contradiction|]. apply IHf; auto. }
      assert (KB : exists t, match bk4 l' LL with [] => Ok bk | _ => build eps bk (bk4 l' LL) end = Ok t /\ From T (allPolygons t) /\ forall x, Cov (allPolygons t) x <-> Cov (allPolygons bk) x \/ Cov (bk4 l' LL) x).
      { destruct (bk4 l' LL) as [|y u] eqn:EF; [exists bk; split; auto; split; auto; intros x; split; auto; intros [H|H]; auto; apply cov_nil in H; contradiction|]. apply IHb; auto. }
      destruct KF as (fr' & -> & F1 & C1). destruct KB as (bk' & -> & F2 & C2). cbn [bind]. eexists. split; [reflexivity|]. cbn [allPolygons]. split.
      + rewrite !from_app. auto.
      + intros x. rewrite !cov_app, C1, C2. pose proof (three_cov l' LL x F). tauto.
  Qed.
  Lemma new_node_ok L : From T L -> exists t, new_node eps L = Ok t /\ From T (allPolygons t) /\ forall x, Cov (allPolygons t) x <-> Cov L x.
  Proof using E0.
    intros F. destruct (build_ok (Nd [] Null Null no_plane) L (from_nil T) F) as (t & E & FT & C0). exists t. split; auto. split; auto. intros x. rewrite C0. cbn. split; auto. intros [H|H]; auto. apply cov_nil in H. contradiction.
  Qed.

  (* ---- clipping drops, and along a chain of planes drops the right points ---- *)
  Lemma clip_from : forall t L, From T L -> From T (clipPolygons eps t L) /\ forall x, Cov (clipPolygons eps t L) x -> Cov L x.
  Proof using E0.
    induction t as [|ss fr IHf bk IHb l]; intros L F; [cbn; auto|]. cbn [clipPolygons]. destruct (negb (plane_ok l)); [auto|].
    fold (fronts eps l L) (backs eps l L). destruct (fronts_from l L F) as (FF & FB). pose proof (fun x => proj1 (fronts_sub l L x F)) as S.
    destruct (IHf _ FF) as (A1 & A2). destruct (IHb _ FB) as (B1 & B2).
    assert (KF : From T (match fr with Null => fronts eps l L | _ => clipPolygons eps fr (fronts eps l L) end) /\ forall x, Cov (match fr with Null => fronts eps l L | _ => clipPolygons eps fr (fronts eps l L) end) x -> Cov (fronts eps l L) x) by (destruct fr; auto).
    assert (KB : From T (match bk with Null => [] | _ => clipPolygons eps bk (backs eps l L) end) /\ forall x, Cov (match bk with Null => [] | _ => clipPolygons eps bk (backs eps l L) end) x -> Cov (backs eps l L) x) by (destruct bk; auto; split; [apply from_nil|intros x H; apply cov_nil in H; contradiction]).
    rewrite from_app. split; [tauto|]. intros x. rewrite cov_app. intros [H|H]; apply S; [left; apply KF; auto|right; apply KB; auto].
  Qed.
  Inductive Chain : list plane -> tree -> Prop :=
  | ch_end ss l : plane_ok l = true -> Chain [l] (Nd ss Null Null l)
  | ch_more ss l ls bk : plane_ok l = true -> Chain ls bk -> Chain (l :: ls) (Nd ss Null bk l).
  Inductive IChain : list plane -> tree -> Prop :=
  | ic_end ss l : plane_ok l = true -> IChain [l] (Nd ss Null Null l)
  | ic_more ss l ls fr : plane_ok l = true -> IChain ls fr -> IChain (l :: ls) (Nd ss fr Null l).
  Definition Gen (ls : list plane) (x : p3) : Prop := forall l, In l ls -> high eps l x \/ low eps l x.
  Lemma clip_chain ls t : Chain ls t -> forall L x, From T L -> Gen ls x -> Cov (clipPolygons eps t L) x <-> Cov L x /\ exists l, In l ls /\ high eps l x.
  Proof using E0.
    intros H. induction H as [ss l OK|ss l ls bk OK H IH]; intros L x F G; cbn [clipPolygons]; rewrite OK; cbn [negb]; fold (fronts eps l L) (backs eps l L); rewrite ?app_nil_r.
    - destruct (G l (or_introl eq_refl)) as [X|X].
      + destruct (fronts_high l L x F X) as (A & _). rewrite A. split; [intros Y; split; auto; exists l; split; [left; auto|auto]|intros (Y & _); auto].
      + destruct (fronts_low l L x F X) as (_ & A). split; [intros Y; contradiction|]. intros (_ & l' & [<-|[]] & Y). exfalso. unfold high, low in *. lra.
    - rewrite cov_app. destruct (fronts_from l L F) as (_ & FB).
      assert (EB : match bk with Null => [] | _ => clipPolygons eps bk (backs eps l L) end = clipPolygons eps bk (backs eps l L)) by (destruct bk; auto; inversion H). rewrite EB.
      rewrite (IH (backs eps l L) x FB) by (intros l' I; apply G; right; auto).
      destruct (G l (or_introl eq_refl)) as [X|X].
      + destruct (fronts_high l L x F X) as (A & B). rewrite A. split; [intros [Y|(Y & _)]; [|contradiction]; split; auto; exists l; split; [left; auto|auto]|intros (Y & _); auto].
      + destruct (fronts_low l L x F X) as (A & B). rewrite A. split.
        * intros [Y|(Y & l' & I & Z)]; [contradiction|]. split; auto. exists l'. split; [right; auto|auto].
        * intros (Y & l' & [<-|I] & Z); [exfalso; unfold high, low in *; lra|]. right. split; auto. eauto.
  Qed.
  Lemma clip_ichain ls t : IChain ls t -> forall L x, From T L -> Gen ls x -> Cov (clipPolygons eps t L) x <-> Cov L x /\ forall l, In l ls -> high eps l x.
  Proof using E0.
    intros H. induction H as [ss l OK|ss l ls fr OK H IH]; intros L x F G; cbn [clipPolygons]; rewrite OK; cbn [negb]; fold (fronts eps l L) (backs eps l L); rewrite ?app_nil_r.
    - destruct (G l (or_introl eq_refl)) as [X|X].
      + destruct (fronts_high l L x F X) as (A & _). rewrite A. split; [intros Y; split; auto; intros l' [<-|[]]; auto|intros (Y & _); auto].
      + destruct (fronts_low l L x F X) as (_ & A). split; [intros Y; contradiction|]. intros (_ & Y). specialize (Y l (or_introl eq_refl)). exfalso. unfold high, low in *. lra.
    - destruct (fronts_from l L F) as (FF & _).
      assert (EB : match fr with Null => fronts eps l L | _ => clipPolygons eps fr (fronts eps l L) end = clipPolygons eps fr (fronts eps l L)) by (destruct fr; auto). rewrite EB.
      rewrite (IH (fronts eps l L) x FF) by (intros l' I; apply G; right; auto).
      destruct (G l (or_introl eq_refl)) as [X|X].
      + destruct (fronts_high l L x F X) as (A & B). rewrite A. split; [intros (Y & Z); split; auto; intros l' [<-|I]; auto|intros (Y & Z); split; auto; intros l' I; apply Z; right; auto].
      + destruct (fronts_low l L x F X) as (A & B). split; [intros (Y & _); contradiction|]. intros (_ & Y). specialize (Y l (or_introl eq_refl)). exfalso. unfold high, low in *. lra.
  Qed.
  Lemma clipTo_from t o : From T (allPolygons t) -> From T (allPolygons (clipTo eps t o)) /\ forall x, Cov (allPolygons (clipTo eps t o)) x -> Cov (allPolygons t) x.
  Proof using E0.
    induction t as [|ss fr IHf bk IHb l]; intros F; [cbn; auto|]. cbn [clipTo allPolygons] in *. rewrite !from_app in *. destruct F as (Fs & Ff & Fb).
    destruct (clip_from o ss Fs) as (A1 & A2). destruct (IHf Ff) as (B1 & B2). destruct (IHb Fb) as (D1 & D2). split; [auto|]. intros x. rewrite !cov_app. intros [H|[H|H]]; auto.
  Qed.
  Lemma clipTo_cov t o x (K : Prop) : From T (allPolygons t) -> (forall L, From T L -> Cov (clipPolygons eps o L) x <-> Cov L x /\ K) ->
    Cov (allPolygons (clipTo eps t o)) x <-> Cov (allPolygons t) x /\ K.
  Proof using E0.
    intros F H. induction t as [|ss fr IHf bk IHb l]; [cbn; split; [intros X; apply cov_nil in X; contradiction|intros (X & _); apply cov_nil in X; contradiction]|].
    cbn [clipTo allPolygons] in *. rewrite !from_app in F. destruct F as (Fs & Ff & Fb). rewrite !cov_app, IHf, IHb, (H ss Fs) by auto. tauto.
  Qed.
End Lists.
Lemma clipTo_chain eps ls t o : Chain ls t -> Chain ls (clipTo eps t o).
Proof. intros H. induction H; cbn; constructor; auto. Qed.
Lemma clipTo_ichain eps ls t o : IChain ls t -> IChain ls (clipTo eps t o).
Proof. intros H. induction H; cbn; constructor; auto. Qed.

(* ---- turning inside out ---- *)
Lemma side_flip l x : side (pflip l) x == - side l x.
Proof. unfold side, pflip, dot3, opp3. cbn [pnorm pw X3 Y3 Z3]. ring. Qed.
Lemma ok_flip l : plane_ok (pflip l) = plane_ok l.
Proof.
  unfold plane_ok. assert (E : dot3 (pnorm (pflip l)) (pnorm (pflip l)) == dot3 (pnorm l) (pnorm l)) by (unfold pflip, dot3, opp3; cbn [pnorm X3 Y3 Z3]; ring).
  destruct (qltb_spec 0 (dot3 (pnorm (pflip l)) (pnorm (pflip l)))), (qltb_spec 0 (dot3 (pnorm l) (pnorm l))); auto; exfalso; lra.
Qed.
Lemma invert_chain ls t : Chain ls t -> IChain (map pflip ls) (invert t).
Proof. intros H. induction H; cbn; constructor; auto; rewrite ok_flip; auto. Qed.
Lemma invert_ichain ls t : IChain ls t -> Chain (map pflip ls) (invert t).
Proof. intros H. induction H; cbn; constructor; auto; rewrite ok_flip; auto. Qed.
Lemma cov_flip p x : cov (poly_flip p) x <-> cov p x.
Proof. unfold cov, poly_flip. cbn [pverts]. split; apply hull_mono; intros v; rewrite <- in_rev; auto. Qed.
Lemma invert_cov t x : Cov (allPolygons (invert t)) x <-> Cov (allPolygons t) x.
Proof.
  induction t as [|ss fr IHf bk IHb l]; [reflexivity|]. cbn [invert allPolygons]. rewrite !cov_app, IHf, IHb.
  assert (E : Cov (map poly_flip ss) x <-> Cov ss x).
  { unfold Cov. split; intros (p & I & H); [apply in_map_iff in I as (q & <- & I); exists q; rewrite cov_flip in H; auto|exists (poly_flip p); split; [apply in_map; auto|apply cov_flip; auto]]. }
  rewrite E. tauto.
Qed.
Lemma normal_rev t i : C i (normal3 (reverse3 t)) == - C i (normal3 t).
Proof. destruct t as ((a & b) & c). unfold reverse3, normal3. cbn [fst snd]. destruct i as [|[|i]]; coords; ring. Qed.
Lemma turn_C n n' a b c : (forall i, C i n' == - C i n) -> turn n' a b c == - turn n a b c.
Proof.
  intros H. pose proof (H 0%nat) as H0. pose proof (H 1%nat) as H1. pose proof (H 2%nat) as H2. clear H. coords. rewrite H0, H1, H2. ring.
Qed.
Lemma nth_error_rev {A} (l : list A) i x : nth_error (rev l) i = Some x -> (i < length l)%nat /\ nth_error l (length l - 1 - i) = Some x.
Proof.
  intros H. assert (L : (i < length l)%nat) by (rewrite <- rev_length; apply nth_error_Some; congruence). split; auto.
  rewrite (nth_error_nth' _ x) in H by (rewrite rev_length; auto). rewrite rev_nth in H by auto. rewrite (nth_error_nth' _ x) by lia.
  replace (length l - 1 - i)%nat with (length l - S i)%nat by lia. auto.
Qed.
Lemma real_rev t : Real t -> Real (reverse3 t).
Proof. unfold Real. intros H. rewrite dotn_C, !normal_rev. rewrite dotn_C in H. lra. Qed.
Lemma pp_flip t p : PP t p -> PP (reverse3 t) (poly_flip p).
Proof.
  intros [(L & H & T) (k & K & N & W)]. constructor.
  - unfold poly_flip. cbn [pverts]. split; [rewrite rev_length; auto|]. split.
    + intros v Iv. apply in_rev in Iv. apply H in Iv. apply hull_comb. apply comb_hull in Iv. eapply hull_mono; [|exact Iv]. intros q Iq. unfold corners3, reverse3 in *. cbn [fst snd In] in *. tauto.
    + intros i j m a b c O Hi Hj Hm. apply nth_error_rev in Hi as (Li & Hi). apply nth_error_rev in Hj as (Lj & Hj). apply nth_error_rev in Hm as (Lm & Hm).
      rewrite (turn_C (normal3 t)) by (intros q; apply normal_rev).
      assert (X : 0 < turn (normal3 t) c b a) by (apply (T (length (pverts p) - 1 - m) (length (pverts p) - 1 - j) (length (pverts p) - 1 - i))%nat; auto; lia).
      assert (Y : turn (normal3 t) c b a == - turn (normal3 t) a b c) by (rewrite turn_cycle, turn_swap; reflexivity). rewrite Y in X. auto.
  - exists k. split; auto. unfold poly_flip, pflip. cbn [pplane pnorm pw]. split.
    + intros i. rewrite normal_rev. assert (E : C i (opp3 (pnorm (pplane p))) == - C i (pnorm (pplane p))) by (destruct i as [|[|i]]; reflexivity). rewrite E, N. ring.
    + rewrite W. unfold apex, reverse3 at 2. cbn [fst snd]. rewrite !dotn_C, !normal_rev. ring.
Qed.
Lemma from_map T L : From T L -> From (map reverse3 T) (map poly_flip L).
Proof. intros F q Iq. apply in_map_iff in Iq as (p & <- & Ip). destruct (F p Ip) as (t & It & R & H). exists (reverse3 t). split; [apply in_map; auto|]. split; [apply real_rev; auto|apply pp_flip; auto]. Qed.
Lemma invert_from T t : From T (allPolygons t) -> From (map reverse3 T) (allPolygons (invert t)).
Proof.
  induction t as [|ss fr IHf bk IHb l]; intros F; [intros ? []|]. cbn [invert allPolygons] in *. rewrite !from_app in *. destruct F as (Fs & Ff & Fb). split; [apply from_map; auto|auto].
Qed.
Lemma rev_rev T : map reverse3 (map reverse3 T) = T.
Proof. rewrite map_map. rewrite <- (map_id T) at 2. apply map_ext. intros ((a & b) & c). reflexivity. Qed.
