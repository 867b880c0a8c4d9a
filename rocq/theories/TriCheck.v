(* A computable test for the conditions of Delaunay (TriSpec.v), used by the examples only. *)
From Coq Require Import QArith Lqa.
From Verif Require Import Base BaseFacts QuantMeshModel BoxModel BoxProofs BoxProps Plane TriModel TriSpec TriProofs6.
Local Open Scope nat_scope.

(* on the grid, in whole numbers: counterclockwise, and no site inside the circle *)
Definition zturn (a b c : pt) : Z := ((fst b - fst a) * (snd c - snd a) - (snd b - snd a) * (fst c - fst a))%Z.
Definition zcircle (a b c q : pt) : Z :=
  let ax := (fst a - fst q)%Z in let ay := (snd a - snd q)%Z in let bx := (fst b - fst q)%Z in let by_ := (snd b - snd q)%Z in
  let cx := (fst c - fst q)%Z in let cy := (snd c - snd q)%Z in
  ((ax * ax + ay * ay) * (bx * cy - by_ * cx) + (bx * bx + by_ * by_) * (cx * ay - cy * ax) + (cx * cx + cy * cy) * (ax * by_ - ay * bx))%Z.
Definition ccwb (sites : list pt) (t : nat * nat * nat) : bool :=
  let '(a, b, c) := t in match nth_error sites a, nth_error sites b, nth_error sites c with
  | Some A, Some B, Some C => (0 <? zturn A B C)%Z && forallb (fun q => (zcircle A B C q <=? 0)%Z) sites
  | _, _, _ => false end.
Definition cornerb (t : nat * nat * nat) (p : nat) : bool := let '(a, b, c) := t in (p =? a) || (p =? b) || (p =? c).
Definition commonb (t u v : nat * nat * nat) : bool :=
  let '(a, b, c) := t in length (filter (fun p => cornerb u p && cornerb v p) [a; b; c]) <? 2.
Definition edgeb (tris : list (nat * nat * nat)) : bool :=
  let l := combine (seq 0 (length tris)) tris in
  forallb (fun i => forallb (fun j => forallb (fun k =>
    (fst i =? fst j) || (fst i =? fst k) || (fst j =? fst k) || commonb (snd i) (snd j) (snd k)) l) l) l.
Fixpoint nodupb (l : list nat) : bool := match l with [] => true | a :: r => negb (existsb (Nat.eqb a) r) && nodupb r end.
Definition turnedb (t u : nat * nat * nat) : bool :=
  let eqb (x y : nat * nat * nat) := let '(a, b, c) := x in let '(d, e, f) := y in (a =? d) && (b =? e) && (c =? f) in
  let '(a, b, c) := u in eqb t (a, b, c) || eqb t (b, c, a) || eqb t (c, a, b).
Definition starb (tris : list (nat * nat * nat)) (p : nat) (link ts : list nat) : bool :=
  (3 <=? length link) && (length ts =? length link) && nodupb link && nodupb ts &&
  forallb (fun i => match nth_error tris i with Some t => Bool.eqb (cornerb t p) (existsb (Nat.eqb i) ts) | None => false end) (seq 0 (length tris)) &&
  forallb (fun i => i <? length tris) ts &&
  forallb (fun i => match nth_error ts i, nth_error link i, nth_error link ((i + 1) mod length link) with
    | Some t, Some a, Some b => match nth_error tris t with Some u => turnedb u (p, a, b) | None => false end
    | _, _, _ => false end) (seq 0 (length link)).
Definition delaunayb (sites : list pt) (tris : list (nat * nat * nat)) (stars : list (list nat * list nat)) : bool :=
  forallb (ccwb sites) tris && edgeb tris &&
  forallb (fun it => starb tris (fst it) (fst (snd it)) (snd (snd it))) (combine (seq 0 (length stars)) stars).

Lemma cornerb_iff t p : cornerb t p = true <-> corner t p.
Proof. destruct t as [[a b] c]. cbn. rewrite !orb_true_iff, !Nat.eqb_eq. tauto. Qed.
Lemma nodupb_ok l : nodupb l = true -> NoDup l.
Proof.
  induction l as [|a r IH]; cbn; [constructor|]. rewrite andb_true_iff, negb_true_iff. intros [H1 H2]. constructor; auto.
  intros I. assert (existsb (Nat.eqb a) r = true) by (apply existsb_exists; exists a; split; auto; apply Nat.eqb_refl). congruence.
Qed.
Lemma turnedb_ok t u : turnedb t u = true -> turned t u.
Proof.
  destruct t as [[a b] c], u as [[d e] f]. cbn. rewrite !orb_true_iff, !andb_true_iff, !Nat.eqb_eq.
  intros [[[[-> ->] ->]|[[-> ->] ->]]|[[-> ->] ->]]; auto.
Qed.
Lemma starb_ok tris p link ts : starb tris p link ts = true -> Star tris p link ts.
Proof.
  unfold starb. intros H. apply andb_true_iff in H as [H H7]. apply andb_true_iff in H as [H H6]. apply andb_true_iff in H as [H H5].
  apply andb_true_iff in H as [H H4]. apply andb_true_iff in H as [H H3]. apply andb_true_iff in H as [H1 H2].
  apply Nat.leb_le in H1. apply Nat.eqb_eq in H2. apply nodupb_ok in H3. apply nodupb_ok in H4. rewrite forallb_forall in H5, H6, H7.
  split; auto.
  - intros i. assert (E : existsb (Nat.eqb i) ts = true <-> In i ts).
    { rewrite existsb_exists. split; [intros (x & I & E); apply Nat.eqb_eq in E as ->; auto|]. intros I. exists i. split; auto. apply Nat.eqb_refl. }
    split.
    + intros I. pose proof (H6 i I) as Li. apply Nat.ltb_lt in Li. specialize (H5 i ltac:(apply in_seq; lia)).
      destruct (nth_error tris i) as [t|] eqn:Et; [|discriminate]. apply Bool.eqb_prop in H5. exists t. split; auto. apply cornerb_iff. rewrite H5. apply E. auto.
    + intros (t & Et & C). pose proof (nth_error_lt _ _ _ Et) as Li. specialize (H5 i ltac:(apply in_seq; lia)). rewrite Et in H5.
      apply Bool.eqb_prop in H5. apply E. rewrite <- H5. apply cornerb_iff. auto.
  - intros i t a b Ht Ha Hb. pose proof (nth_error_lt _ _ _ Ha) as Li. specialize (H7 i ltac:(apply in_seq; lia)). cbv beta in H7.
    rewrite Ht, Ha, Hb in H7. destruct (nth_error tris t) as [u|]; [|discriminate]. exists u. split; auto. apply turnedb_ok. auto.
Qed.

Lemma two_of (l : list nat) a b : In a l -> In b l -> a <> b -> 2 <= length l.
Proof. destruct l as [|x [|y l]]; cbn; intros; try lia; intuition congruence. Qed.

Lemma deq_at f v : exists o o', let s := spacing f in (fst (deq f v) == o + s * inject_Z (fst v))%Q /\ (snd (deq f v) == o' + s * inject_Z (snd v))%Q /\
  (o == fx f - s * inject_Z (cmin f))%Q /\ (o' == fy f - s * inject_Z (cmin f))%Q.
Proof.
  exists (fx f - spacing f * inject_Z (cmin f))%Q, (fy f - spacing f * inject_Z (cmin f))%Q. unfold deq, dequantize1. cbn [fst snd]. unfold spacing, Zminus.
  rewrite !(inject_Z_plus _ (- cmin f)), !inject_Z_opp. repeat split; ring.
Qed.
Lemma turn_deq f a b c : (orient (deq f a) (deq f b) (deq f c) == (spacing f * spacing f) * inject_Z (zturn a b c))%Q.
Proof.
  destruct (deq_at f a) as (o & o' & A & A' & O & O'). destruct (deq_at f b) as (p & p' & B & B' & P & P'). destruct (deq_at f c) as (q & q' & C & C' & R & R').
  unfold orient. rewrite A, A', B, B', C, C', O, O', P, P', R, R'. unfold zturn, Zminus. rewrite ?inject_Z_plus, ?inject_Z_opp, ?inject_Z_mult, ?inject_Z_plus, ?inject_Z_opp. ring.
Qed.
Lemma circle_eq A B C q x : (sqd x A == sqd x B)%Q -> (sqd x A == sqd x C)%Q ->
  (sqd q A * ((fst B - fst q) * (snd C - snd q) - (snd B - snd q) * (fst C - fst q)) +
   sqd q B * ((fst C - fst q) * (snd A - snd q) - (snd C - snd q) * (fst A - fst q)) +
   sqd q C * ((fst A - fst q) * (snd B - snd q) - (snd A - snd q) * (fst B - fst q)) == orient A B C * (sqd x A - sqd x q))%Q.
Proof.
  intros E1 E2. destruct A as [ax ay], B as [bx by_], C as [cx cy], q as [qx qy], x as [x y]. unfold sqd, orient in *. cbn [fst snd] in *.
  set (k := ((x - ax) * (x - ax) + (y - ay) * (y - ay) - ((x - qx) * (x - qx) + (y - qy) * (y - qy)))%Q).
  assert (SA : ((qx - ax) * (qx - ax) + (qy - ay) * (qy - ay) == k + 2 * (x - qx) * (ax - qx) + 2 * (y - qy) * (ay - qy))%Q) by (unfold k; ring).
  assert (SB : ((qx - bx) * (qx - bx) + (qy - by_) * (qy - by_) == k + 2 * (x - qx) * (bx - qx) + 2 * (y - qy) * (by_ - qy))%Q) by (unfold k; rewrite E1; ring).
  assert (SC : ((qx - cx) * (qx - cx) + (qy - cy) * (qy - cy) == k + 2 * (x - qx) * (cx - qx) + 2 * (y - qy) * (cy - qy))%Q) by (unfold k; rewrite E2; ring).
  rewrite SA, SB, SC. clearbody k. ring.
Qed.
Lemma circle_deq f a b c v : let A := deq f a in let B := deq f b in let C := deq f c in let q := deq f v in
  (sqd q A * ((fst B - fst q) * (snd C - snd q) - (snd B - snd q) * (fst C - fst q)) +
   sqd q B * ((fst C - fst q) * (snd A - snd q) - (snd C - snd q) * (fst A - fst q)) +
   sqd q C * ((fst A - fst q) * (snd B - snd q) - (snd A - snd q) * (fst B - fst q)) ==
   (spacing f * spacing f * (spacing f * spacing f)) * inject_Z (zcircle a b c v))%Q.
Proof.
  intros A B C q. destruct (deq_at f a) as (o & o' & Ea & Ea' & O & O'). destruct (deq_at f b) as (p & p' & Eb & Eb' & P & P').
  destruct (deq_at f c) as (r & r' & Ec & Ec' & R & R'). destruct (deq_at f v) as (t & t' & Ev & Ev' & T & T'). unfold sqd, A, B, C, q.
  rewrite Ea, Ea', Eb, Eb', Ec, Ec', Ev, Ev', O, O', P, P', R, R', T, T'. unfold zcircle, Zminus. cbv zeta. repeat (rewrite ?inject_Z_plus, ?inject_Z_opp, ?inject_Z_mult). ring.
Qed.

Lemma delaunayb_ok f sites tris stars : proper f -> delaunayb sites tris stars = true -> Delaunay (map (deq f) sites) (length stars) tris.
Proof.
  intros Pf. pose proof (spacing_pos f Pf) as Sp. assert (S2 : (0 < spacing f * spacing f)%Q) by (apply Qmult_lt_0_compat; auto).
  assert (S4 : (0 < spacing f * spacing f * (spacing f * spacing f))%Q) by (apply Qmult_lt_0_compat; auto).
  unfold delaunayb. intros H. apply andb_true_iff in H as [H H3]. apply andb_true_iff in H as [H1 H2]. rewrite forallb_forall in H1, H3.
  assert (W : forall a b c, In (a, b, c) tris -> exists A B C, nth_error sites a = Some A /\ nth_error sites b = Some B /\ nth_error sites c = Some C /\
    (0 < orient (deq f A) (deq f B) (deq f C))%Q /\ forall q, In q sites -> (zcircle A B C q <= 0)%Z).
  { intros a b c I. specialize (H1 _ I). unfold ccwb in H1.
    destruct (nth_error sites a) as [A|], (nth_error sites b) as [B|], (nth_error sites c) as [C|]; try discriminate.
    apply andb_true_iff in H1 as [O N]. rewrite forallb_forall in N. apply Z.ltb_lt in O. exists A, B, C. repeat split; auto.
    - rewrite turn_deq. apply Qmult_lt_0_compat; auto. change 0%Q with (inject_Z 0). rewrite <- Zlt_Qlt. auto.
    - intros q I'. apply Z.leb_le. auto. }
  split.
  - intros a b c I. destruct (W a b c I) as (A & B & C & Ha & Hb & Hc & O & _). exists (deq f A), (deq f B), (deq f C). rewrite !nth_error_map, Ha, Hb, Hc. auto.
  - intros [[a b] c] p x I (A & B & C & Ha & Hb & Hc & E1 & E2) Cp. destruct (W a b c I) as (A' & B' & C' & Ha' & Hb' & Hc' & O & N).
    assert (A = deq f A') by (rewrite nth_error_map, Ha' in Ha; injection Ha; auto). assert (B = deq f B') by (rewrite nth_error_map, Hb' in Hb; injection Hb; auto).
    assert (C = deq f C') by (rewrite nth_error_map, Hc' in Hc; injection Hc; auto).
    assert (Na : forall q, In q (map (deq f) sites) -> (sqd x A <= sqd x q)%Q).
    { intros q Iq. apply in_map_iff in Iq as (v & <- & Iv). specialize (N v Iv). rewrite Zle_Qle in N.
      pose proof (circle_eq A B C (deq f v) x E1 E2) as K. subst A B C. rewrite circle_deq in K.
      destruct (Qlt_le_dec (sqd x (deq f v)) (sqd x (deq f A'))) as [L|L]; auto. exfalso.
      assert (0 < orient (deq f A') (deq f B') (deq f C') * (sqd x (deq f A') - sqd x (deq f v)))%Q by (apply Qmult_lt_0_compat; auto; lra). rewrite <- K in H.
      assert (M : (spacing f * spacing f * (spacing f * spacing f) * inject_Z (zcircle A' B' C' v) <= spacing f * spacing f * (spacing f * spacing f) * 0)%Q) by (apply Qmult_le_l; auto). lra. }
    cbn in Cp. destruct Cp as [-> |[-> | ->]].
    + exists A. auto.
    + exists B. split; auto. intros q Iq. rewrite <- E1. auto.
    + exists C. split; auto. intros q Iq. rewrite <- E2. auto.
  - intros a b i j k N (ti & Ti & Ai) (ti' & Ti' & Bi) (tj & Tj & Aj) (tj' & Tj' & Bj) (tk & Tk & Ak) (tk' & Tk' & Bk).
    assert (ti' = ti) by congruence. assert (tj' = tj) by congruence. assert (tk' = tk) by congruence. subst ti' tj' tk'.
    unfold edgeb in H2. rewrite forallb_forall in H2.
    assert (M : forall i t, nth_error tris i = Some t -> In (i, t) (combine (seq 0 (length tris)) tris)).
    { intros n t Hn. apply (nth_error_In _ n). pose proof (nth_error_lt _ _ _ Hn) as Ln.
      assert (G : forall (l : list (nat * nat * nat)) s n t, nth_error l n = Some t -> nth_error (combine (seq s (length l)) l) n = Some (s + n, t)).
      { induction l as [|u l IH]; intros s [|m] v Hv; cbn in Hv; try discriminate; cbn.
        - injection Hv as ->. rewrite Nat.add_0_r. auto.
        - rewrite (IH (S s) m v Hv). f_equal. f_equal. lia. }
      rewrite (G tris 0 n t Hn). auto. }
    specialize (H2 _ (M _ _ Ti)). rewrite forallb_forall in H2. specialize (H2 _ (M _ _ Tj)). rewrite forallb_forall in H2. specialize (H2 _ (M _ _ Tk)).
    cbn [fst snd] in H2. rewrite !orb_true_iff, !Nat.eqb_eq in H2. destruct H2 as [[[E|E]|E]|E]; auto. exfalso.
    destruct ti as [[x y] z]. unfold commonb in E. apply Nat.ltb_lt in E.
    assert (2 <= length (filter (fun p => cornerb tj p && cornerb tk p) [x; y; z])); [|lia].
    apply (two_of _ a b); auto; apply filter_In; (split; [cbn in *; intuition|apply andb_true_iff; split; apply cornerb_iff; auto]).
  - intros p Lp. destruct (nth_error_ex stars p Lp) as [[link ts] E]. exists link, ts. apply starb_ok.
    apply (H3 (p, (link, ts))). apply (nth_error_In _ p).
    assert (G : forall (l : list (list nat * list nat)) s n t, nth_error l n = Some t -> nth_error (combine (seq s (length l)) l) n = Some (s + n, t)).
    { induction l as [|u l IH]; intros s [|m] v Hv; cbn in Hv; try discriminate; cbn.
      - injection Hv as ->. rewrite Nat.add_0_r. auto.
      - rewrite (IH (S s) m v Hv). f_equal. f_equal. lia. }
    rewrite (G stars 0 p _ E). auto.
Qed.
