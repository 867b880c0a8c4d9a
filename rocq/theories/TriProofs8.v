(* The circumcenters around a point span its Voronoi cell. *)
From Coq Require Import QArith Lqa.
From Verif Require Import Base BaseFacts PLCSpec Plane PlaneFacts WithinSpec WithinProofs4 HullProofs5 TriSpec TriProofs7.
Local Open Scope Q_scope.

Definition vsub (a b : p2) : p2 := (fst a - fst b, snd a - snd b).
Lemma sqd_diff x P a : sqd x a - sqd x P == dt (vsub a P) (vsub a P) - 2 * dt (vsub x P) (vsub a P).
Proof. unfold sqd, dt, vsub. cbn [fst snd]. ring. Qed.
Lemma orient_cr P a b : orient P a b == cr (vsub a P) (vsub b P).
Proof. unfold orient, cr, vsub. cbn [fst snd]. ring. Qed.
Lemma cr_pos_nonzero u w : 0 < cr u w -> 0 < dt u u.
Proof.
  intros C. destruct (Qlt_le_dec 0 (dt u u)) as [P|P]; auto. exfalso. unfold dt, cr in *.
  assert (X : fst u == 0) by nra. assert (Y : snd u == 0) by nra. rewrite X, Y in C. lra.
Qed.

Lemma sq_zero s t : s * s + t * t <= 0 -> s == 0 /\ t == 0.
Proof.
  intros H. assert (G : forall u, ~ u == 0 -> 0 < u * u).
  { intros u N. destruct (Qlt_le_dec 0 u); [apply Qmult_lt_0_compat; auto|].
    setoid_replace (u * u) with (- u * - u) by ring. assert (u < 0) by (destruct (Qlt_le_dec u 0); auto; exfalso; apply N; lra).
    apply Qmult_lt_0_compat; lra. }
  assert (S : forall u, 0 <= u * u) by (intros u; destruct (Qeq_dec u 0) as [->|N]; [lra|specialize (G u N); lra]).
  split; (destruct (Qeq_dec s 0) as [Z|Z]; [|specialize (G s Z); specialize (S t); lra]); (destruct (Qeq_dec t 0) as [Z'|Z']; [|specialize (G t Z'); specialize (S s); lra]); auto.
Qed.
Section Vor.
  Context (n : nat) (n1 : (1 <= n)%nat) (P : p2) (a c : nat -> p2) (Pa : forall i, a (i + n)%nat = a i) (Pc : forall i, c (i + n)%nat = c i)
    (Or : forall i, 0 < orient P (a i) (a (i + 1)%nat))
    (E1 : forall i, sqd (c i) P == sqd (c i) (a i)) (E2 : forall i, sqd (c i) P == sqd (c i) (a (i + 1)%nat))
    (Nr : forall i j, sqd (c i) P <= sqd (c i) (a j)).
  Let w (i : nat) : p2 := vsub (a i) P.
  Let v (i : nat) : p2 := vsub (c i) P.

  Lemma w_turn i : 0 < cr (w i) (w (i + 1)%nat).
  Proof. unfold w. rewrite <- orient_cr. apply Or. Qed.
  Lemma w_pos i : 0 < dt (w i) (w i).
  Proof. apply (cr_pos_nonzero _ _ (w_turn i)). Qed.
  Lemma on1 i : 2 * dt (v i) (w i) == dt (w i) (w i).
  Proof. pose proof (sqd_diff (c i) P (a i)) as Q. fold (w i) (v i) in Q. specialize (E1 i). lra. Qed.
  Lemma on2 i : 2 * dt (v i) (w (i + 1)%nat) == dt (w (i + 1)%nat) (w (i + 1)%nat).
  Proof. pose proof (sqd_diff (c i) P (a (i + 1)%nat)) as Q. fold (w (i + 1)%nat) (v i) in Q. specialize (E2 i). lra. Qed.
  Lemma within i j : 2 * dt (v i) (w j) <= dt (w j) (w j).
  Proof. pose proof (sqd_diff (c i) P (a j)) as Q. fold (w j) (v i) in Q. specialize (Nr i j). lra. Qed.
  Lemma dt_sym x y : dt x y == dt y x. Proof. unfold dt. ring. Qed.

  Lemma v_pos i : 0 < dt (v i) (v i).
  Proof.
    pose proof (on1 i) as O. pose proof (w_pos i) as W. destruct (Qlt_le_dec 0 (dt (v i) (v i))) as [G|G]; auto. exfalso.
    unfold dt in O, W, G. assert (X : fst (v i) == 0) by nra. assert (Y : snd (v i) == 0) by nra. rewrite X, Y in O. lra.
  Qed.
  (* along the common border the next center lies to the left *)
  Lemma v_along i : cr (w (i + 1)%nat) (v i) <= cr (w (i + 1)%nat) (v (i + 1)%nat).
  Proof.
    set (u := w (i + 1)%nat). set (z := w (i + 1 + 1)%nat). pose proof (w_turn (i + 1)) as T. fold u z in T. pose proof (w_pos (i + 1)) as U. fold u in U.
    pose proof (on2 (i + 1)) as A. fold z in A. pose proof (within i (i + 1 + 1)) as B. fold z in B.
    pose proof (on2 i) as C. fold u in C. pose proof (on1 (i + 1)) as D. fold u in D.
    pose proof (dt_cr u (v i) z) as F1. pose proof (dt_cr u (v (i + 1)%nat) z) as F2.
    rewrite (dt_sym u (v i)) in F1. rewrite (dt_sym u (v (i + 1)%nat)) in F2.
    assert (G : 0 <= (cr u (v (i + 1)%nat) - cr u (v i)) * cr u z).
    { setoid_replace ((cr u (v (i + 1)%nat) - cr u (v i)) * cr u z) with ((dt (v (i + 1)%nat) z - dt (v i) z) * dt u u + (dt (v i) u - dt (v (i + 1)%nat) u) * dt u z)
        by (clear - F1 F2; lra).
      assert (Z : dt (v i) u - dt (v (i + 1)%nat) u == 0) by lra. rewrite Z. rewrite Qmult_0_l, Qplus_0_r. apply Qmult_le_0_compat; lra. }
    apply pos_mult in G; auto. lra.
  Qed.
  Lemma v_cr i : cr (v i) (v (i + 1)%nat) * dt (w (i + 1)%nat) (w (i + 1)%nat) ==
    dt (v i) (w (i + 1)%nat) * (cr (w (i + 1)%nat) (v (i + 1)%nat) - cr (w (i + 1)%nat) (v i)).
  Proof.
    rewrite cr_dt. assert (Q : dt (w (i + 1)%nat) (v (i + 1)%nat) == dt (v i) (w (i + 1)%nat)).
    { pose proof (on2 i). pose proof (on1 (i + 1)). rewrite dt_sym. lra. }
    rewrite Q, (dt_sym (w (i + 1)%nat) (v i)). ring.
  Qed.
  Lemma v_half i : 0 < dt (v i) (w (i + 1)%nat).
  Proof. pose proof (on2 i). pose proof (w_pos (i + 1)). lra. Qed.
  Lemma v_left i : 0 <= cr (v i) (v (i + 1)%nat).
  Proof.
    apply (pos_mult _ _ (w_pos (i + 1))). rewrite v_cr. pose proof (v_along i). pose proof (v_half i). apply Qmult_le_0_compat; lra.
  Qed.
  Lemma v_stay i : cr (v i) (v (i + 1)%nat) == 0 -> veq (v (i + 1)%nat) (v i).
  Proof.
    intros Z. pose proof (v_cr i) as Q. rewrite Z, Qmult_0_l in Q. symmetry in Q. rewrite Qmult_comm in Q.
    apply (zero_mult _ _ (v_half i)) in Q. apply (veq_of (w (i + 1)%nat)); [apply w_pos| |lra].
    pose proof (on2 i). pose proof (on1 (i + 1)). rewrite !(dt_sym (w (i + 1)%nat)). lra.
  Qed.
  Lemma v_move : exists i j, ~ veq (v i) (v j).
  Proof.
    assert (Dec : forall i, ~ veq (v i) (v 0%nat) \/ ~ ~ veq (v i) (v 0%nat)).
    { intros i. destruct (Qeq_dec (fst (v i)) (fst (v 0%nat))) as [X|X]; [|left; intros [Y _]; auto].
      destruct (Qeq_dec (snd (v i)) (snd (v 0%nat))) as [Y|Y]; [right; intros N; apply N; split; auto|left; intros [_ Z]; auto]. }
    destruct (bounded_or _ Dec n) as [(i & _ & H)|All]; [eauto|]. exfalso.
    assert (Eq : forall i, veq (v i) (v 0%nat)).
    { assert (G : forall i, (i < n)%nat -> veq (v i) (v 0%nat)).
      { intros i L. destruct (Qeq_dec (fst (v i)) (fst (v 0%nat))) as [X|X], (Qeq_dec (snd (v i)) (snd (v 0%nat))) as [Y|Y]; [split; auto| | |];
          exfalso; apply (All i L); intros [? ?]; auto. }
      intros i. unfold v. rewrite (per_mod n n1 c Pc i). apply G. apply Nat.mod_upper_bound. lia. }
    set (d := v 0%nat).
    assert (Dw : forall i, 2 * dt d (w i) == dt (w i) (w i)).
    { intros i. destruct (Eq i) as [X Y]. fold d in X, Y. rewrite <- (on1 i). unfold dt. rewrite X, Y. reflexivity. }
    assert (Sl : forall i, dt d (w i) * cr d (w (i + 1)%nat) - cr d (w i) * dt d (w (i + 1)%nat) == 0).
    { apply (still n n1 (fun i => dt d (w i)) (fun i => cr d (w i))).
      - intros i. unfold w. rewrite Pa. auto.
      - intros i. unfold w. rewrite Pa. auto.
      - intros i. specialize (Dw i). pose proof (w_pos i). lra.
      - intros i. rewrite <- cr_dt. apply Qmult_le_0_compat; [apply Qlt_le_weak, w_turn|apply dt_pos]. }
    specialize (Sl 0%nat). rewrite <- cr_dt in Sl. apply (zero_mult _ _ (v_pos 0)) in Sl. pose proof (w_turn 0). lra.
  Qed.

  Lemma vor_hull x : (forall j, sqd x P <= sqd x (a j)) -> Combination (map c (seq 0 n)) x.
  Proof.
    intros H.
    assert (Pv : forall i, v (i + n)%nat = v i) by (intros i; unfold v; rewrite Pc; auto).
    pose proof (cone n n1 v Pv v_pos v_left v_stay v_move) as K.
    assert (Cin : forall i, In (c i) (map c (seq 0 n))).
    { intros i. rewrite (per_mod n n1 c Pc i). apply in_map, in_seq. pose proof (Nat.mod_upper_bound i n ltac:(lia)). lia. }
    (* P itself *)
    destruct (K (- fst (v 0%nat), - snd (v 0%nat))) as (i & al & be & A & B & X & Y).
    { pose proof (v_pos 0) as W. unfold dt in *. cbn [fst snd]. lra. }
    cbn [fst snd] in X, Y. unfold v, vsub in X, Y. cbn [fst snd] in X, Y.
    assert (Px : exists j a' b', 0 <= a' /\ 0 <= b' /\ a' + b' <= 1 /\
      fst x - fst P == a' * fst (v j) + b' * fst (v (j + 1)%nat) /\ snd x - snd P == a' * snd (v j) + b' * snd (v (j + 1)%nat)).
    { destruct (Qlt_le_dec 0 (dt (vsub x P) (vsub x P))) as [Q|Q].
      - destruct (K (vsub x P) Q) as (j & a' & b' & A' & B' & X' & Y'). exists j, a', b'. split; auto. split; auto. unfold vsub at 1 in X'. unfold vsub at 1 in Y'. cbn [fst snd] in X', Y'. split; [|auto].
        pose proof (sqd_diff x P (a (j + 1)%nat)) as S. specialize (H (j + 1)%nat). fold (w (j + 1)%nat) in S.
        assert (D : dt (vsub x P) (w (j + 1)%nat) == (a' + b') * dt (v j) (w (j + 1)%nat)).
        { assert (Z : dt (v j) (w (j + 1)%nat) == dt (v (j + 1)%nat) (w (j + 1)%nat)) by (pose proof (on2 j); pose proof (on1 (j + 1)); lra).
          transitivity (a' * dt (v j) (w (j + 1)%nat) + b' * dt (v (j + 1)%nat) (w (j + 1)%nat)); [|rewrite <- Z; ring].
          unfold dt. unfold vsub at 1 2. cbn [fst snd]. rewrite X', Y'. ring. }
        pose proof (on2 j) as O. pose proof (v_half j) as V.
        apply (Qmult_lt_0_le_reg_r _ _ _ V). rewrite Qmult_1_l. lra.
      - exists 0%nat, 0, 0. unfold dt, vsub in Q. cbn [fst snd] in Q.
        destruct (sq_zero _ _ Q). repeat split; lra. }
    destruct Px as (j & a' & b' & A' & B' & S & X' & Y'). unfold v, vsub in X', Y'. cbn [fst snd] in X', Y'.
    apply (comb_incl x [c 0%nat; c i; c (i + 1)%nat; c j; c (j + 1)%nat]).
    - set (k := (1 - a' - b') / (1 + al + be)). assert (Kp : 0 <= k) by (apply Qle_shift_div_l; lra).
      assert (Kd : k * (1 + al + be) == 1 - a' - b') by (unfold k; field; lra).
      exists [k; k * al; k * be; a'; b']. split; auto. split; [|split].
      + assert (0 <= k * al) by (apply Qmult_le_0_compat; auto). assert (0 <= k * be) by (apply Qmult_le_0_compat; auto).
        intros z [<-|[<-|[<-|[<-|[<-|[]]]]]]; auto.
      + unfold sumf. cbn [fold_right]. lra.
      + unfold sumf. cbn [combine fold_right fst snd]. split.
        * assert (Z : (1 - a' - b') * fst P == k * fst (c 0%nat) + k * al * fst (c i) + k * be * fst (c (i + 1)%nat)).
          { rewrite <- Kd. assert (Q : (1 + al + be) * fst P == fst (c 0%nat) + al * fst (c i) + be * fst (c (i + 1)%nat)) by lra.
            transitivity (k * ((1 + al + be) * fst P)); [ring|rewrite Q; ring]. }
          lra.
        * assert (Z : (1 - a' - b') * snd P == k * snd (c 0%nat) + k * al * snd (c i) + k * be * snd (c (i + 1)%nat)).
          { rewrite <- Kd. assert (Q : (1 + al + be) * snd P == snd (c 0%nat) + al * snd (c i) + be * snd (c (i + 1)%nat)) by lra.
            transitivity (k * ((1 + al + be) * snd P)); [ring|rewrite Q; ring]. }
          lra.
    - intros z [<-|[<-|[<-|[<-|[<-|[]]]]]]; auto.
  Qed.
End Vor.

(* the other direction: points spanned by points of a Voronoi cell are in it *)
Lemma hull_near P q ps x : (forall y, In y ps -> sqd y P <= sqd y q) -> Combination ps x -> sqd x P <= sqd x q.
Proof.
  intros H C. set (h := (2 * (fst P - fst q), 2 * (snd P - snd q), fst q * fst q + snd q * snd q - fst P * fst P - snd P * snd P)).
  assert (V : forall y, val h y == sqd y q - sqd y P) by (intros y; unfold val, h, sqd; ring).
  assert (G : 0 <= val h x) by (apply (combination_ge h ps x C); intros y I; rewrite V; specialize (H y I); lra).
  rewrite V in G. lra.
Qed.
