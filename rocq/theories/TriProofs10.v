(* The frame put around boundary points is large enough. *)
From Coq Require Import QArith Lqa.
From Verif Require Import Base BaseFacts SerializeModel MeshModel QuantMeshModel PLCSpec BoxModel BoxProofs BoxProps Plane TriModel TriSpec TriProofs6 TriProofs8.
Local Open Scope Q_scope.

Definition around_box (xl yl L : Q) : frame := mkFrame coordMin coordMax (xl - 2 * L) (yl - 2 * L) (5 * L).
Definition marks : list Z := [coordMin; (-1)%Z; (coordMax - 1)%Z].
Definition mark (lo L : Q) (i : Z) : Q := dequantize1 coordMin coordMax lo (5 * L) i.

Lemma mark_vals lo L : 0 < L -> mark lo L coordMin == lo /\ mark lo L coordMax == lo + 5 * L /\
  lo + (24 # 10) * L <= mark lo L (-1) <= lo + (26 # 10) * L /\ lo + (49 # 10) * L <= mark lo L (coordMax - 1) <= lo + 5 * L.
Proof.
  intros Lp. unfold mark, dequantize1.
  assert (E : forall z, inject_Z z * (5 * L / inject_Z (coordMax - coordMin)) == inject_Z z / inject_Z (coordMax - coordMin) * (5 * L)).
  { intros z. field. vm_compute. discriminate. }
  rewrite !E. replace (coordMin - coordMin)%Z with 0%Z by lia.
  set (m1 := inject_Z (-1 - coordMin) / inject_Z (coordMax - coordMin)). set (m2 := inject_Z (coordMax - 1 - coordMin) / inject_Z (coordMax - coordMin)).
  assert (M1 : (48 # 100) <= m1 <= (52 # 100)) by (split; vm_compute; discriminate).
  assert (M2 : (98 # 100) <= m2 <= 1) by (split; vm_compute; discriminate).
  assert (M0 : inject_Z 0 / inject_Z (coordMax - coordMin) == 0) by reflexivity.
  assert (M3 : inject_Z (coordMax - coordMin) / inject_Z (coordMax - coordMin) == 1) by (field; vm_compute; discriminate).
  rewrite M0, M3. repeat split; try lra; nra.
Qed.

(* along one axis some mark is near enough *)
Lemma sq_le a b : - b <= a -> a <= b -> a * a <= b * b.
Proof. intros H1 H2. assert (0 <= (b - a) * (b + a)) by (apply Qmult_le_0_compat; lra). lra. Qed.
Lemma sq_nonneg a : 0 <= a * a.
Proof. destruct (Qlt_le_dec 0 a); [apply Qmult_le_0_compat; lra|]. setoid_replace (a * a) with (- a * - a) by ring. apply Qmult_le_0_compat; lra. Qed.
Lemma near_mark lo L g y : 0 < L -> lo + (19 # 10) * L <= g <= lo + 3 * L ->
  exists i, In i marks /\ (y - mark lo L i) * (y - mark lo L i) < (36 # 10) * (L * L) + (y - g) * (y - g).
Proof.
  intros Lp G. destruct (mark_vals lo L Lp) as (V1 & _ & V2 & V3). assert (LL : 0 < L * L) by (apply Qmult_lt_0_compat; auto).
  destruct (Qlt_le_dec y lo) as [A|A].
  - exists coordMin. split; [left; auto|]. rewrite V1.
    assert ((lo - y) * (lo - y) <= (g - y) * (g - y)) by (apply sq_le; lra). lra.
  - destruct (Qlt_le_dec y (lo + (125 # 100) * L)) as [B|B].
    + exists coordMin. split; [left; auto|]. rewrite V1.
      assert ((y - lo) * (y - lo) <= ((125 # 100) * L) * ((125 # 100) * L)) by (apply sq_le; lra). pose proof (sq_nonneg (y - g)). lra.
    + destruct (Qlt_le_dec y (lo + (375 # 100) * L)) as [C|C].
      * exists (-1)%Z. split; [right; left; auto|]. set (m := mark lo L (-1)) in *.
        assert ((y - m) * (y - m) <= ((14 # 10) * L) * ((14 # 10) * L)) by (apply sq_le; lra). pose proof (sq_nonneg (y - g)). lra.
      * exists (coordMax - 1)%Z. split; [right; right; left; auto|]. set (m := mark lo L (coordMax - 1)) in *.
        destruct (Qlt_le_dec y m) as [E|E].
        -- assert ((y - m) * (y - m) <= ((14 # 10) * L) * ((14 # 10) * L)) by (apply sq_le; lra). pose proof (sq_nonneg (y - g)). lra.
        -- assert ((y - m) * (y - m) <= (y - g) * (y - g)) by (apply sq_le; lra). lra.
Qed.
(* beyond the border the border is much nearer *)
Lemma near_border_hi lo L g x : 0 < L -> g <= lo + 3 * L -> lo + 5 * L < x -> (36 # 10) * (L * L) + (x - (lo + 5 * L)) * (x - (lo + 5 * L)) <= (x - g) * (x - g).
Proof.
  intros Lp G X. assert (LL : 0 < L * L) by (apply Qmult_lt_0_compat; auto).
  assert (H : (x - (lo + 5 * L) + 2 * L) * (x - (lo + 5 * L) + 2 * L) <= (x - g) * (x - g)) by (apply sq_le; lra).
  assert (0 <= (x - (lo + 5 * L)) * L) by (apply Qmult_le_0_compat; lra). lra.
Qed.
Lemma near_border_lo lo L g x : 0 < L -> lo + (19 # 10) * L <= g -> x < lo -> (36 # 10) * (L * L) + (x - lo) * (x - lo) <= (x - g) * (x - g).
Proof.
  intros Lp G X. assert (LL : 0 < L * L) by (apply Qmult_lt_0_compat; auto).
  assert (H : (lo - x + (19 # 10) * L) * (lo - x + (19 # 10) * L) <= (g - x) * (g - x)) by (apply sq_le; lra).
  assert (0 <= (lo - x) * L) by (apply Qmult_le_0_compat; lra). lra.
Qed.

Lemma guards_at n i : In i marks -> In (i, coordMin) (map fst (guards n)) /\ In (i, coordMax) (map fst (guards n)) /\
  In (coordMin, i) (map fst (guards n)) /\ In (coordMax, i) (map fst (guards n)).
Proof.
  intros I. assert (E : map fst (guards n) = flat_map (fun c => [(c, coordMin); (c, coordMax); (coordMin, c); (coordMax, c)]) marks) by (vm_compute; reflexivity).
  rewrite E. repeat split; apply in_flat_map; exists i; (split; [auto|cbn; auto 6]).
Qed.

Section Frame.
  Context (xl yl L : Q) (Lp : 0 < L).
  Let f := around_box xl yl L.
  Lemma around_full : full f.
  Proof. split; [reflexivity|]. split; [reflexivity|]. cbn. lra. Qed.

  (* g is in the middle, and no guard is closer to x than g: then x is in the frame *)
  Lemma center_inside n g x :
    xl - (1 # 10) * L <= fst g <= xl + L -> yl - (1 # 10) * L <= snd g <= yl + L ->
    (forall u, In u (map fst (guards n)) -> sqd x g <= sqd x (deq f u)) -> in_frame f x.
  Proof.
    intros Gx Gy H. unfold in_frame, f. cbn [fx fy flen around_box].
    assert (M : forall u v, deq f (u, v) = (mark (xl - 2 * L) L u, mark (yl - 2 * L) L v)) by reflexivity.
    destruct (mark_vals (xl - 2 * L) L Lp) as (X1 & X2 & _). destruct (mark_vals (yl - 2 * L) L Lp) as (Y1 & Y2 & _).
    destruct (near_mark (xl - 2 * L) L (fst g) (fst x) Lp ltac:(lra)) as (i & Ii & Di).
    destruct (near_mark (yl - 2 * L) L (snd g) (snd x) Lp ltac:(lra)) as (j & Ij & Dj).
    destruct (guards_at n i Ii) as (G1 & G2 & _). destruct (guards_at n j Ij) as (_ & _ & G3 & G4).
    apply H in G1. apply H in G2. apply H in G3. apply H in G4. rewrite M in G1, G2, G3, G4. unfold sqd in G1, G2, G3, G4. cbn [fst snd] in G1, G2, G3, G4.
    rewrite Y1 in G1. rewrite Y2 in G2. rewrite X1 in G3. rewrite X2 in G4.
    split; split.
    - destruct (Qlt_le_dec (fst x) (xl - 2 * L)) as [C|]; auto. pose proof (near_border_lo (xl - 2 * L) L (fst g) (fst x) Lp ltac:(lra) C). lra.
    - destruct (Qlt_le_dec (xl - 2 * L + 5 * L) (fst x)) as [C|]; auto. pose proof (near_border_hi (xl - 2 * L) L (fst g) (fst x) Lp ltac:(lra) C). lra.
    - destruct (Qlt_le_dec (snd x) (yl - 2 * L)) as [C|]; auto. pose proof (near_border_lo (yl - 2 * L) L (snd g) (snd x) Lp ltac:(lra) C). lra.
    - destruct (Qlt_le_dec (yl - 2 * L + 5 * L) (snd x)) as [C|]; auto. pose proof (near_border_hi (yl - 2 * L) L (snd g) (snd x) Lp ltac:(lra) C). lra.
  Qed.

  (* inside the box the guards do not matter *)
  Lemma guard_far n g x u :
    xl - (1 # 10) * L <= fst g <= xl + L -> yl - (1 # 10) * L <= snd g <= yl + L ->
    xl <= fst x <= xl + L -> yl <= snd x <= yl + L -> In u (map fst (guards n)) -> sqd x g <= sqd x (deq f u).
  Proof.
    intros Gx Gy Bx By I. assert (LL : 0 < L * L) by (apply Qmult_lt_0_compat; auto).
    assert (A : sqd x g <= 3 * (L * L)).
    { unfold sqd. assert ((fst x - fst g) * (fst x - fst g) <= ((11 # 10) * L) * ((11 # 10) * L)) by (apply sq_le; lra).
      assert ((snd x - snd g) * (snd x - snd g) <= ((11 # 10) * L) * ((11 # 10) * L)) by (apply sq_le; lra). lra. }
    assert (M : forall u v, deq f (u, v) = (mark (xl - 2 * L) L u, mark (yl - 2 * L) L v)) by reflexivity.
    destruct (mark_vals (xl - 2 * L) L Lp) as (X1 & X2 & _). destruct (mark_vals (yl - 2 * L) L Lp) as (Y1 & Y2 & _).
    assert (E : map fst (guards n) = flat_map (fun c => [(c, coordMin); (c, coordMax); (coordMin, c); (coordMax, c)]) marks) by (vm_compute; reflexivity).
    rewrite E in I. apply in_flat_map in I as (i & _ & I). destruct u as [u v].
    assert (C : v = coordMin \/ v = coordMax \/ u = coordMin \/ u = coordMax).
    { cbn in I. destruct I as [I|[I|[I|[I|[]]]]]; injection I as <- <-; auto. }
    rewrite M. unfold sqd at 2. cbn [fst snd]. set (mu := mark (xl - 2 * L) L u) in *. set (mv := mark (yl - 2 * L) L v) in *.
    pose proof (sq_nonneg (fst x - mu)). pose proof (sq_nonneg (snd x - mv)).
    destruct C as [-> | [-> | [-> | ->]]]; unfold mu, mv in *; rewrite ?X1, ?X2, ?Y1, ?Y2 in *.
    - assert ((2 * L) * (2 * L) <= (snd x - (yl - 2 * L)) * (snd x - (yl - 2 * L))) by (apply sq_le; lra). lra.
    - assert ((2 * L) * (2 * L) <= (yl - 2 * L + 5 * L - snd x) * (yl - 2 * L + 5 * L - snd x)) by (apply sq_le; lra). lra.
    - assert ((2 * L) * (2 * L) <= (fst x - (xl - 2 * L)) * (fst x - (xl - 2 * L))) by (apply sq_le; lra). lra.
    - assert ((2 * L) * (2 * L) <= (xl - 2 * L + 5 * L - fst x) * (xl - 2 * L + 5 * L - fst x)) by (apply sq_le; lra). lra.
  Qed.
End Frame.
