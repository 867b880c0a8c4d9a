(* The circumcenters around a point span its Voronoi cell. *)
From Coq Require Import QArith Lqa.
From Verif Require Import Base BaseFacts PLCSpec Plane WithinSpec WithinProofs4 HullProofs5 TriSpec.
Local Open Scope Q_scope.

Definition dt (a b : p2) : Q := fst a * fst b + snd a * snd b.
Definition cr (a b : p2) : Q := fst a * snd b - snd a * fst b.
Definition veq (a b : p2) : Prop := fst a == fst b /\ snd a == snd b.

Lemma cr_dt u v w : cr v w * dt u u == dt u v * cr u w - cr u v * dt u w.
Proof. unfold cr, dt. ring. Qed.
Lemma dt_cr u v w : dt v w * dt u u == dt u v * dt u w + cr u v * cr u w.
Proof. unfold cr, dt. ring. Qed.
Lemma dt_pos u : 0 <= dt u u.
Proof. unfold dt. nra. Qed.
Lemma veq_of u v w : 0 < dt u u -> dt u v == dt u w -> cr u v == cr u w -> veq v w.
Proof.
  intros P D C.
  assert (X : forall z, fst z * dt u u == dt u z * fst u - cr u z * snd u) by (intros z; unfold dt, cr; ring).
  assert (Y : forall z, snd z * dt u u == dt u z * snd u + cr u z * fst u) by (intros z; unfold dt, cr; ring).
  split; apply (Qmult_inj_r _ _ (dt u u)); try lra; rewrite ?X, ?Y, D, C; reflexivity.
Qed.
Lemma pos_mult a b : 0 < b -> 0 <= a * b -> 0 <= a.
Proof. intros B H. apply (Qmult_lt_0_le_reg_r 0 a b B). lra. Qed.
Lemma zero_mult a b : 0 < b -> a * b == 0 -> a == 0.
Proof. intros B H. apply (Qmult_inj_r _ _ b); lra. Qed.

(* ---- a sequence that goes round in a half plane stands still ---- *)
Section Half.
  Context (n : nat) (n1 : (1 <= n)%nat) (fv gv : nat -> Q) (Pf : forall i, fv (i + n)%nat = fv i) (Pg : forall i, gv (i + n)%nat = gv i)
    (Pos : forall i, 0 < fv i) (Up : forall i, 0 <= fv i * gv (i + 1)%nat - gv i * fv (i + 1)%nat).
  Let q (i : nat) : Q := gv i / fv i.
  Lemma q_step i : q i <= q (i + 1)%nat.
  Proof.
    unfold q. apply Qle_shift_div_l; [apply Pos|].
    pose proof (Pos i). pose proof (Pos (i + 1)%nat). specialize (Up i).
    setoid_replace (gv i / fv i * fv (i + 1)%nat) with (gv i * fv (i + 1)%nat / fv i) by (field; lra).
    apply Qle_shift_div_r; auto. lra.
  Qed.
  Lemma q_mono i k : q i <= q (i + k)%nat.
  Proof.
    induction k as [|k IH]; [rewrite Nat.add_0_r; lra|]. pose proof (q_step (i + k)%nat) as Q. replace (i + k + 1)%nat with (i + S k)%nat in Q by lia. lra.
  Qed.
  Lemma still i : fv i * gv (i + 1)%nat - gv i * fv (i + 1)%nat == 0.
  Proof.
    pose proof (q_step i) as A. pose proof (q_mono (i + 1)%nat (n - 1)) as B. replace (i + 1 + (n - 1))%nat with (i + n)%nat in B by lia.
    assert (E : q (i + n)%nat = q i) by (unfold q; rewrite Pf, Pg; auto). rewrite E in B.
    assert (Q : gv (i + 1)%nat / fv (i + 1)%nat == gv i / fv i) by (fold (q i) (q (i + 1)%nat); lra).
    pose proof (Pos i). pose proof (Pos (i + 1)%nat).
    assert (G1 : gv (i + 1)%nat == gv (i + 1)%nat / fv (i + 1)%nat * fv (i + 1)%nat) by (field; lra).
    assert (G2 : gv i == gv i / fv i * fv i) by (field; lra).
    rewrite G1, G2, Q. ring.
  Qed.
End Half.

Lemma bounded_or (P : nat -> Prop) (Dec : forall i, P i \/ ~ P i) n : (exists i, (i < n)%nat /\ P i) \/ (forall i, (i < n)%nat -> ~ P i).
Proof.
  induction n as [|n IH]; [right; intros; lia|]. destruct IH as [(i & L & H)|H]; [left; exists i; split; auto|].
  destruct (Dec n) as [D|D]; [left; exists n; split; auto|]. right. intros i L. destruct (Nat.eq_dec i n) as [->|]; auto. apply H. lia.
Qed.

Lemma per_mult {A} n (v : nat -> A) (Per : forall i, v (i + n)%nat = v i) i k : v (i + k * n)%nat = v i.
Proof. induction k as [|k IH]; [f_equal; lia|]. replace (i + S k * n)%nat with (i + k * n + n)%nat by lia. rewrite Per. auto. Qed.
Lemma per_mod {A} n (n1 : (1 <= n)%nat) (v : nat -> A) (Per : forall i, v (i + n)%nat = v i) i : v i = v (i mod n)%nat.
Proof. rewrite (Nat.div_mod i n) at 1 by lia. rewrite Nat.add_comm, Nat.mul_comm. apply per_mult. auto. Qed.

(* ---- vectors turning left all the way round meet every direction ---- *)
Section Cone.
  Context (n : nat) (n1 : (1 <= n)%nat) (v : nat -> p2) (Per : forall i, v (i + n)%nat = v i)
    (NZ : forall i, 0 < dt (v i) (v i)) (Left : forall i, 0 <= cr (v i) (v (i + 1)%nat))
    (Stay : forall i, cr (v i) (v (i + 1)%nat) == 0 -> veq (v (i + 1)%nat) (v i))
    (Move : exists i j, ~ veq (v i) (v j)).

  Lemma not_all : (forall i, cr (v i) (v (i + 1)%nat) == 0) -> False.
  Proof.
    intros H. assert (G : forall i, veq (v i) (v 0%nat)).
    { induction i as [|i [A B]]; [split; reflexivity|]. destruct (Stay i (H i)) as [C D]. rewrite Nat.add_1_r in C, D. split; lra. }
    destruct Move as (i & j & N). apply N. destruct (G i), (G j). split; lra.
  Qed.
  Lemma no_half d : 0 < dt d d -> (forall i, 0 < cr d (v i)) -> False.
  Proof.
    intros Dp H. apply not_all. intros i. apply (zero_mult _ (dt d d)); auto. rewrite cr_dt.
    pose proof (still n n1 (fun i => cr d (v i)) (fun i => - dt d (v i))) as Sl. cbv beta in Sl.
    rewrite <- (Sl (fun i => f_equal (cr d) (Per i)) (fun i => f_equal (fun w => - dt d w) (Per i)) H) with (i := i); [ring|].
    intros k. setoid_replace (cr d (v k) * - dt d (v (k + 1)%nat) - - dt d (v k) * cr d (v (k + 1)%nat)) with (cr (v k) (v (k + 1)%nat) * dt d d) by (rewrite cr_dt; ring).
    apply Qmult_le_0_compat; auto. lra.
  Qed.
  Lemma crossing (s : nat -> Q) a k : s a <= 0 -> 0 < s (a + k)%nat -> exists i, s i <= 0 /\ 0 < s (i + 1)%nat.
  Proof.
    clear. revert a. induction k as [|k IH]; intros a A B; [rewrite Nat.add_0_r in B; lra|].
    destruct (Qlt_le_dec 0 (s (a + 1)%nat)) as [P|P]; [eauto|]. apply (IH (a + 1)%nat); auto. replace (a + 1 + k)%nat with (a + S k)%nat by lia. auto.
  Qed.

  Lemma cone d : 0 < dt d d -> exists i al be, 0 <= al /\ 0 <= be /\
    fst d == al * fst (v i) + be * fst (v (i + 1)%nat) /\ snd d == al * snd (v i) + be * snd (v (i + 1)%nat).
  Proof.
    intros Dp. pose (s := fun i => cr d (v i)).
    assert (Sp : forall i k, s (i + k * n)%nat = s i) by (intros i k; unfold s; rewrite (per_mult n v Per); auto).
    assert (Sm : forall i, s i = s (i mod n)%nat) by (intros i; unfold s; rewrite (per_mod n n1 v Per i) at 1; auto).
    assert (Cross : forall i, s i <= 0 -> 0 < s (i + 1)%nat -> exists al be, 0 <= al /\ 0 <= be /\
       fst d == al * fst (v i) + be * fst (v (i + 1)%nat) /\ snd d == al * snd (v i) + be * snd (v (i + 1)%nat)).
    { intros i A B. unfold s in A, B. assert (C : 0 < cr (v i) (v (i + 1)%nat)).
      { destruct (Qlt_le_dec 0 (cr (v i) (v (i + 1)%nat))) as [P|P]; auto. exfalso.
        destruct (Stay i) as [X Y]; [specialize (Left i); lra|]. unfold cr in A, B. rewrite X, Y in B. lra. }
      exists (cr d (v (i + 1)%nat) / cr (v i) (v (i + 1)%nat)), (- cr d (v i) / cr (v i) (v (i + 1)%nat)).
      assert (C' : ~ fst (v i) * snd (v (i + 1)%nat) - snd (v i) * fst (v (i + 1)%nat) == 0) by (unfold cr in C; lra).
      split; [apply Qle_shift_div_l; auto; lra|]. split; [apply Qle_shift_div_l; auto; lra|]. unfold cr. split; field; auto. }
    destruct (bounded_or (fun i => 0 < s i) (fun i => match Qlt_le_dec 0 (s i) with left p => or_introl p | right p => or_intror (Qle_not_lt _ _ p) end) n) as [(b & Lb & Hb)|None].
    - destruct (bounded_or (fun i => s i <= 0) (fun i => match Qlt_le_dec 0 (s i) with left p => or_intror (Qlt_not_le _ _ p) | right p => or_introl p end) n) as [(a & La & Ha)|All].
      + destruct (crossing s a (b + n - a)) as (i & A & B); auto.
        { replace (a + (b + n - a))%nat with (b + 1 * n)%nat by lia. rewrite Sp. auto. }
        destruct (Cross i A B) as (al & be & W). eauto.
      + exfalso. apply (no_half d Dp). intros i. change (0 < s i). rewrite Sm. apply Qnot_le_lt. apply All. apply Nat.mod_upper_bound. lia.
    - assert (Neg : forall i, s i <= 0) by (intros i; rewrite Sm; apply Qnot_lt_le, None, Nat.mod_upper_bound; lia).
      destruct (bounded_or (fun i => s i == 0) (fun i => match Qeq_dec (s i) 0 with left p => or_introl p | right p => or_intror p end) n) as [(i & Li & Hi)|NoZ].
      + (* v i is parallel to d *)
        destruct (Qlt_le_dec 0 (dt d (v i))) as [P|P].
        * exists i, (dt d (v i) / dt (v i) (v i)), 0. split; [apply Qle_shift_div_l; auto; lra|]. split; [lra|].
          assert (E : veq d (dt d (v i) / dt (v i) (v i) * fst (v i), dt d (v i) / dt (v i) (v i) * snd (v i))).
          { specialize (NZ i). apply (veq_of (v i)); auto.
            - assert (Z : forall c, dt (v i) (c * fst (v i), c * snd (v i)) == c * dt (v i) (v i)) by (intros c; unfold dt; cbn [fst snd]; ring).
              rewrite Z. assert (Q : dt (v i) d == dt d (v i)) by (unfold dt; ring). rewrite Q. field. lra.
            - assert (Z : forall c, cr (v i) (c * fst (v i), c * snd (v i)) == 0) by (intros c; unfold cr; cbn [fst snd]; ring).
              rewrite Z. unfold s, cr in *. lra. }
          destruct E as [E1 E2]. cbn [fst snd] in E1, E2. split; [rewrite E1 at 1|rewrite E2 at 1]; ring.
        * exfalso. assert (P' : dt d (v i) < 0).
          { destruct (Qlt_le_dec (dt d (v i)) 0) as [|P']; auto. exfalso. pose proof (dt_cr d (v i) (v i)) as Q.
            assert (Z : dt d (v i) == 0) by lra. unfold s in Hi. rewrite Z, Hi in Q. specialize (NZ i).
            assert (dt (v i) (v i) * dt d d > 0) by (apply Qmult_lt_0_compat; auto). lra. }
          (* going back everything is equal *)
          assert (Back : forall k, veq (v (i + k * (n - 1))%nat) (v i)).
          { induction k as [|k [A B]]; [rewrite Nat.mul_0_l, Nat.add_0_r; split; reflexivity|].
            set (j := (i + k * (n - 1) + (n - 1))%nat). replace (i + S k * (n - 1))%nat with j by (unfold j; lia).
            assert (J : v (j + 1)%nat = v (i + k * (n - 1))%nat) by (unfold j; replace (i + k * (n - 1) + (n - 1) + 1)%nat with (i + k * (n - 1) + n)%nat by lia; apply Per).
            assert (Z : cr (v j) (v (j + 1)%nat) == 0).
            { assert (U : cr (v j) (v (j + 1)%nat) <= 0).
              { apply Qnot_lt_le. intros G. assert (G' : 0 < cr (v j) (v (j + 1)%nat) * dt d d) by (apply Qmult_lt_0_compat; auto).
                rewrite cr_dt, J in G'. assert (C1 : cr d (v (i + k * (n - 1))%nat) == cr d (v i)) by (unfold cr; rewrite A, B; reflexivity).
                assert (C2 : dt d (v (i + k * (n - 1))%nat) == dt d (v i)) by (unfold dt; rewrite A, B; reflexivity).
                rewrite C1, C2 in G'. change (cr d (v i)) with (s i) in G'. rewrite Hi in G'. specialize (Neg j). unfold s in Neg. nra. }
              specialize (Left j). lra. }
            destruct (Stay j Z) as [X Y]. rewrite J in X, Y. split; lra. }
          destruct Move as (x & y & Nxy). apply Nxy.
          assert (All : forall x, veq (v x) (v i)).
          { intros z. assert (E : exists k, v z = v (i + k * (n - 1))%nat).
            { exists (i + z * (n - 1))%nat. rewrite (per_mod n n1 v Per z), (per_mod n n1 v Per (i + (i + z * (n - 1)) * (n - 1))%nat). f_equal.
              destruct n as [|m]; [lia|]. replace (S m - 1)%nat with m by lia.
              replace (i + (i + z * m) * m)%nat with (z + (i + z * m - z) * S m)%nat; [rewrite Nat.mod_add by lia; auto|].
              destruct m as [|m]; [|nia]. rewrite !Nat.mul_0_r, !Nat.add_0_r. exfalso. clear - Stay Per Move.
              destruct Move as (x & y & N). apply N. assert (G : forall k, v k = v 0%nat) by (induction k as [|k IH]; auto; rewrite <- Nat.add_1_r, Per; auto).
              rewrite (G x), (G y). split; reflexivity. }
            destruct E as [k ->]. apply Back. }
          destruct (All x), (All y). split; lra.
      + exfalso. apply (no_half (- fst d, - snd d)); [unfold dt in *; cbn [fst snd]; lra|].
        intros i. assert (0 > s i).
        { rewrite Sm. specialize (NoZ (i mod n)%nat ltac:(apply Nat.mod_upper_bound; lia)). specialize (Neg (i mod n)%nat).
          destruct (Qlt_le_dec (s (i mod n)%nat) 0); auto. exfalso. apply NoZ. lra. }
        unfold s, cr in *. cbn [fst snd]. lra.
  Qed.
End Cone.
