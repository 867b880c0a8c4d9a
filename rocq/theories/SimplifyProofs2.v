(* Proofs about simplifyPLCfacets: points in line in order, the first corner, and dropping unused points. *)
From Verif Require Import Base BaseFacts Rank Plane PLCSpec WithinModel WithinSpec WithinProofs HullModel HullSpec HullProofs4 HullProofs5 SimplifyModel SimplifySpec SimplifyProofs.
From Coq Require Import QArith Lqa Permutation Sorted.
Local Open Scope nat_scope.

Lemma sq_nonneg (x : Q) : (0 <= x * x)%Q.
Proof. destruct (Qlt_le_dec x 0) as [L|L]; [assert (E : (x * x == (- x) * (- x))%Q) by ring; rewrite E; apply Qmult_le_0_compat; lra|apply Qmult_le_0_compat; auto]. Qed.
Lemma line_param a b c : ~ (dist2 a b == 0)%Q -> (orient a b c == 0)%Q ->
  let t := (((fst c - fst a) * (fst b - fst a) + (snd c - snd a) * (snd b - snd a)) / dist2 a b)%Q in
  (fst c == fst a + t * (fst b - fst a) /\ snd c == snd a + t * (snd b - snd a))%Q.
Proof.
  intros N L t. set (D := dist2 a b) in *. unfold orient in L. set (ux := (fst b - fst a)%Q) in *. set (uy := (snd b - snd a)%Q) in *.
  set (cx := (fst c - fst a)%Q) in *. set (cy := (snd c - snd a)%Q) in *.
  assert (ED : (D == ux * ux + uy * uy)%Q) by (unfold D, dist2, ux, uy; ring).
  assert (ET : (t * D == cx * ux + cy * uy)%Q) by (unfold t; field; auto).
  assert (E1 : (D * (cx - t * ux) == 0)%Q). { assert (X : (D * (cx - t * ux) == D * cx - (t * D) * ux)%Q) by ring. rewrite X, ET, ED. assert (Y : ((ux * ux + uy * uy) * cx - (cx * ux + cy * uy) * ux == - uy * (ux * cy - uy * cx))%Q) by ring. rewrite Y, L. ring. }
  assert (E2 : (D * (cy - t * uy) == 0)%Q). { assert (X : (D * (cy - t * uy) == D * cy - (t * D) * uy)%Q) by ring. rewrite X, ET, ED. assert (Y : ((ux * ux + uy * uy) * cy - (cx * ux + cy * uy) * uy == ux * (ux * cy - uy * cx))%Q) by ring. rewrite Y, L. ring. }
  apply Qmult_integral in E1, E2. destruct E1 as [|E1]; [tauto|]. destruct E2 as [|E2]; [tauto|]. unfold cx, cy in E1, E2. split; lra.
Qed.

(* points in line, never turning back, follow each other on the segment from the first to the last *)
Section Straight.
Context (q : nat -> p2) (c : nat).
Hypothesis ne : ~ (dist2 (q 0) (q 1) == 0)%Q.
Hypothesis on : forall j, j <= c + 1 -> (orient (q 0) (q 1) (q j) == 0)%Q.
Hypothesis fwd : forall j, j < c -> (0 < (fst (q (j + 1)) - fst (q j)) * (fst (q (j + 2)) - fst (q (j + 1))) + (snd (q (j + 1)) - snd (q j)) * (snd (q (j + 2)) - snd (q (j + 1))))%Q.
Definition tau (j : nat) : Q := (((fst (q j) - fst (q 0)) * (fst (q 1) - fst (q 0)) + (snd (q j) - snd (q 0)) * (snd (q 1) - snd (q 0))) / dist2 (q 0) (q 1))%Q.
Lemma tau_pos j : j <= c + 1 -> (fst (q j) == fst (q 0) + tau j * (fst (q 1) - fst (q 0)) /\ snd (q j) == snd (q 0) + tau j * (snd (q 1) - snd (q 0)))%Q.
Proof. intros J. apply (line_param (q 0) (q 1) (q j) ne (on j J)). Qed.
Lemma dpos : (0 < dist2 (q 0) (q 1))%Q.
Proof. assert (0 <= dist2 (q 0) (q 1))%Q. { unfold dist2. pose proof (sq_nonneg (fst (q 0) - fst (q 1))). pose proof (sq_nonneg (snd (q 0) - snd (q 1))). lra. } destruct (Qlt_le_dec 0 (dist2 (q 0) (q 1))) as [|L]; auto. exfalso. apply ne. lra. Qed.
Lemma tau_0 : (tau 0 == 0)%Q.
Proof. unfold tau. field. auto. Qed.
Lemma tau_1 : (tau 1 == 1)%Q.
Proof. unfold tau. assert (E : ((fst (q 1) - fst (q 0)) * (fst (q 1) - fst (q 0)) + (snd (q 1) - snd (q 0)) * (snd (q 1) - snd (q 0)) == dist2 (q 0) (q 1))%Q) by (unfold dist2; ring). rewrite E. field. auto. Qed.
Lemma tau_step j : j <= c -> (tau j < tau (j + 1))%Q.
Proof.
  induction j as [|j IH]; intros J; [rewrite Nat.add_0_l, tau_0, tau_1; reflexivity|].
  specialize (IH ltac:(lia)). pose proof (fwd j ltac:(lia)) as F. destruct (tau_pos j ltac:(lia)) as [X0 Y0]. destruct (tau_pos (j + 1) ltac:(lia)) as [X1 Y1]. destruct (tau_pos (j + 2) ltac:(lia)) as [X2 Y2].
  replace (S j) with (j + 1) in * by lia. replace (j + 1 + 1) with (j + 2) by lia.
  set (ux := (fst (q 1) - fst (q 0))%Q) in *. set (uy := (snd (q 1) - snd (q 0))%Q) in *.
  assert (E : ((fst (q (j + 1)) - fst (q j)) * (fst (q (j + 2)) - fst (q (j + 1))) + (snd (q (j + 1)) - snd (q j)) * (snd (q (j + 2)) - snd (q (j + 1))) ==
     ((tau (j + 1) - tau j) * (tau (j + 2) - tau (j + 1))) * (ux * ux + uy * uy))%Q) by (rewrite X0, Y0, X1, Y1, X2, Y2; ring).
  rewrite E in F. assert (U : (0 <= ux * ux + uy * uy)%Q) by (pose proof (sq_nonneg ux); pose proof (sq_nonneg uy); lra).
  set (d1 := (tau (j + 1) - tau j)%Q) in *. set (d2 := (tau (j + 2) - tau (j + 1))%Q) in *.
  destruct (Qlt_le_dec (tau (j + 1)) (tau (j + 2))) as [|L]; auto. exfalso.
  assert (D1 : (0 <= d1)%Q) by (unfold d1; lra). assert (D2 : (0 <= - d2)%Q) by (unfold d2; lra).
  pose proof (Qmult_le_0_compat _ _ (Qmult_le_0_compat _ _ D1 D2) U) as G. assert (X : (d1 * - d2 * (ux * ux + uy * uy) == - (d1 * d2 * (ux * ux + uy * uy)))%Q) by ring. lra.
Qed.
Lemma tau_mono i j : i < j -> j <= c + 1 -> (tau i < tau j)%Q.
Proof. intros L J. induction L as [|j L IH]; [replace (S i) with (i + 1) by lia; apply tau_step; lia|]. replace (S j) with (j + 1) in * by lia. pose proof (tau_step j ltac:(lia)). specialize (IH ltac:(lia)). lra. Qed.
Lemma sorted_map (f : nat -> Q) a m : (forall i j, a <= i -> i < j -> j < a + m -> (f i < f j)%Q) -> StronglySorted Qlt (map f (seq a m)).
Proof.
  revert a. induction m as [|m IH]; intros a H; cbn; constructor.
  - apply IH. intros. apply H; lia.
  - apply Forall_forall. intros x Ix. apply in_map_iff in Ix. destruct Ix as (i & <- & Ii). apply in_seq in Ii. apply H; lia.
Qed.
Lemma straight : exists ts, StronglySorted Qlt ts /\ Forall2 (fun j t => (0 < t < 1)%Q /\
   (fst (q j) == fst (along (q 0) (q (c + 1)) t))%Q /\ (snd (q j) == snd (along (q 0) (q (c + 1)) t))%Q) (seq 1 c) ts.
Proof.
  assert (T : (0 < tau (c + 1))%Q) by (pose proof (tau_mono 0 (c + 1) ltac:(lia) ltac:(lia)) as X; rewrite tau_0 in X; auto).
  assert (Mo : forall i j, i < j -> j <= c + 1 -> (tau i / tau (c + 1) < tau j / tau (c + 1))%Q).
  { intros i j L J. apply Qlt_shift_div_l; auto. assert (E : (tau i / tau (c + 1) * tau (c + 1) == tau i)%Q) by (field; lra). rewrite E. apply tau_mono; auto. }
  exists (map (fun j => tau j / tau (c + 1))%Q (seq 1 c)). split; [apply sorted_map; intros; apply Mo; lia|].
  assert (G : forall l, (forall j, In j l -> 1 <= j <= c) -> Forall2 (fun j t => (0 < t < 1)%Q /\
   (fst (q j) == fst (along (q 0) (q (c + 1)) t))%Q /\ (snd (q j) == snd (along (q 0) (q (c + 1)) t))%Q) l (map (fun j => tau j / tau (c + 1))%Q l)); [|apply G; intros j; rewrite in_seq; lia].
  induction l as [|j l IH]; intros Hl; cbn [map]; constructor; [|apply IH; intros; apply Hl; right; auto].
  specialize (Hl j (or_introl eq_refl)). split; [split|].
  - pose proof (Mo 0 j ltac:(lia) ltac:(lia)) as X. rewrite tau_0 in X. unfold Qdiv in X. rewrite Qmult_0_l in X. exact X.
  - pose proof (Mo j (c + 1) ltac:(lia) ltac:(lia)) as X. assert (E : (tau (c + 1) / tau (c + 1) == 1)%Q) by (field; lra). rewrite E in X. auto.
  - destruct (tau_pos j ltac:(lia)) as [X0 Y0]. destruct (tau_pos (c + 1) ltac:(lia)) as [X1 Y1]. unfold along. cbn [fst snd]. rewrite X0, Y0, X1, Y1. split; field; lra.
Qed.
End Straight.
