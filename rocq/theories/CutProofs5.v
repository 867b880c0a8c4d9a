(* Lemmas for CutProps.v: convex polygons and half planes. *)
From Verif Require Import Base BaseFacts Plane PLCSpec MeshEditorModel CutModel CutSpec CutProofs2.
From Coq Require Import QArith Lqa Psatz.
Local Open Scope nat_scope.

Lemma combine_nth {A B} (l : list A) (m : list B) i a b : nth_error (combine l m) i = Some (a, b) <-> nth_error l i = Some a /\ nth_error m i = Some b.
Proof.
  revert m i. induction l as [|x l IH]; intros m i.
  - destruct m, i; cbn; split; try (intros; discriminate); intros [E F]; discriminate E.
  - destruct m as [|y m], i as [|i]; cbn.
    + split; [discriminate|intros [E F]; discriminate F].
    + split; [discriminate|intros [E F]; discriminate F].
    + split; [intros E; injection E; intros; subst; auto|intros [E F]; congruence].
    + apply IH.
Qed.
Definition succ_in (n i : nat) := if S i =? n then 0 else S i.
Lemma in_ring {A} (l : list A) a b : In (a, b) (ring l) <-> exists i, nth_error l i = Some a /\ nth_error l (succ_in (length l) i) = Some b.
Proof.
  destruct l as [|h t]; [cbn; split; [tauto|intros ([|i] & H & _); discriminate]|]. unfold ring. split.
  - intros H. apply In_nth_error in H. destruct H as (i & H). apply combine_nth in H. destruct H as [H K]. exists i. split; auto. unfold succ_in. cbn [length].
    destruct (Nat.lt_ge_cases i (length t)) as [C|C]; [rewrite nth_error_app1 in K by auto; rewrite (proj2 (Nat.eqb_neq _ _)) by lia; exact K|].
    rewrite nth_error_app2 in K by auto. assert (E : i - length t = 0) by (apply nth_error_lt in K; cbn in K; lia). rewrite E in K. rewrite (proj2 (Nat.eqb_eq _ _)) by lia. exact K.
  - intros (i & H & K). apply (nth_error_In _ i). apply combine_nth. split; auto. pose proof (nth_error_lt _ _ _ H) as L. cbn [length] in L. unfold succ_in in K. cbn [length] in K.
    destruct (Nat.eqb_spec (S i) (S (length t))) as [C|C].
    + injection C as ->. rewrite nth_error_app2, Nat.sub_diag by auto. exact K.
    + rewrite nth_error_app1 by lia. exact K.
Qed.
Lemma ring_turn {A} (a b : list A) x y : In (x, y) (ring (b ++ a)) -> In (x, y) (ring (a ++ b)).
Proof.
  intros H. apply in_ring in H. destruct H as (i & H & K). apply in_ring. rewrite app_length in *. unfold succ_in in *.
  pose proof (nth_error_lt _ _ _ H) as L. rewrite app_length in L.
  destruct (Nat.lt_ge_cases i (length b)) as [C|C].
  - exists (length a + i). rewrite nth_error_app1 in H by auto. split; [rewrite nth_error_app2 by lia; rewrite <- H; f_equal; lia|].
    destruct (Nat.eqb_spec (S i) (length b + length a)) as [E|E].
    + assert (length a = 0) by lia. destruct a; [|discriminate]. rewrite (proj2 (Nat.eqb_eq _ _)) by (cbn; lia). rewrite app_nil_r in K. exact K.
    + destruct (Nat.eqb_spec (S (length a + i)) (length a + length b)) as [E'|E'].
      * rewrite nth_error_app2 in K by lia. assert (Ei : S i - length b = 0) by lia. rewrite Ei in K. destruct a; [discriminate|]. exact K.
      * rewrite nth_error_app1 in K by lia. rewrite nth_error_app2 by lia. rewrite <- K. f_equal. lia.
  - exists (i - length b). rewrite nth_error_app2 in H by auto. split; [rewrite nth_error_app1 by lia; exact H|].
    destruct (Nat.eqb_spec (S i) (length b + length a)) as [E|E].
    + destruct (Nat.eqb_spec (S (i - length b)) (length a + length b)) as [E'|E'].
      * assert (length b = 0) by lia. destruct b; [|discriminate]. rewrite app_nil_r. exact K.
      * rewrite nth_error_app2 by lia. assert (Ei : S (i - length b) - length a = 0) by lia. rewrite Ei. destruct b as [|h b]; [cbn in *; lia|]. exact K.
    + rewrite nth_error_app2 in K by lia. rewrite (proj2 (Nat.eqb_neq _ _)) by lia. rewrite nth_error_app1 by lia. rewrite <- K. f_equal. lia.
Qed.
Lemma within_turn (a b : list p2) q : Within (a ++ b) q -> Within (b ++ a) q.
Proof. intros W x y H. apply W, ring_turn, H. Qed.

Lemma orient_cyc a b c : (orient a b c == orient b c a)%Q.
Proof. unfold orient. ring. Qed.
Lemma orient_aab a b : (orient a a b == 0)%Q.
Proof. unfold orient. ring. Qed.
Lemma sc_turn (a b : list p2) : StrictlyConvex (a ++ b) -> StrictlyConvex (b ++ a).
Proof.
  intros S i j k p q r O H K L. unfold StrictlyConvex in S. pose proof (nth_error_lt _ _ _ L) as Lk. rewrite app_length in Lk.
  assert (Z : forall i p, nth_error (b ++ a) i = Some p -> nth_error (a ++ b) (if i <? length b then length a + i else i - length b) = Some p).
  { clear. intros i p H. pose proof (nth_error_lt _ _ _ H) as Li. rewrite app_length in Li. destruct (Nat.ltb_spec i (length b)) as [C|C]; [rewrite nth_error_app1 in H by auto; rewrite nth_error_app2 by lia; rewrite <- H; f_equal; lia|]. rewrite nth_error_app2 in H by auto. rewrite nth_error_app1 by lia. exact H. }
  apply Z in H. apply Z in K. apply Z in L. destruct (Nat.ltb_spec i (length b)), (Nat.ltb_spec j (length b)), (Nat.ltb_spec k (length b)); try lia.
  - refine (S _ _ _ _ _ _ _ H K L); lia.
  - rewrite orient_cyc, orient_cyc. refine (S _ _ _ _ _ _ _ L H K); lia.
  - rewrite orient_cyc. refine (S _ _ _ _ _ _ _ K L H); lia.
  - refine (S _ _ _ _ _ _ _ H K L); lia.
Qed.
Lemma sc_weak ps i j k p q r : StrictlyConvex ps -> i <= j <= k -> nth_error ps i = Some p -> nth_error ps j = Some q -> nth_error ps k = Some r -> (0 <= orient p q r)%Q.
Proof.
  intros S O H K L. destruct (Nat.eq_dec i j) as [->|N]; [assert (p = q) by congruence; subst; rewrite orient_aab; lra|]. destruct (Nat.eq_dec j k) as [->|N']; [assert (q = r) by congruence; subst; rewrite orient_cyc, orient_aab; lra|]. apply Qlt_le_weak. apply (S i j k); auto. lia.
Qed.
(* the corners are within the polygon *)
Lemma sc_within ps p : StrictlyConvex ps -> In p ps -> Within ps p.
Proof.
  intros S H a b R. apply In_nth_error in H. destruct H as (k & H). apply in_ring in R. destruct R as (i & A & B). unfold succ_in in B. destruct (Nat.eqb_spec (Datatypes.S i) (length ps)) as [C|C].
  - pose proof (nth_error_lt _ _ _ H). rewrite orient_cyc. apply (sc_weak ps 0 k i); auto. lia.
  - destruct (Nat.le_gt_cases k i) as [D|D]; [rewrite orient_cyc, orient_cyc; apply (sc_weak ps k i (Datatypes.S i)); auto; lia|apply (sc_weak ps i (Datatypes.S i) k); auto; lia].
Qed.

(* a point within the polygon is in a triangle of its corners *)
Lemma fan_find ps p0 q i p : StrictlyConvex ps -> nth_error ps 0 = Some p0 -> Within ps q -> nth_error ps (S i) = Some p -> (orient p0 p q < 0)%Q ->
  exists j a b, nth_error ps (S j) = Some a /\ nth_error ps (S (S j)) = Some b /\ (0 <= orient p0 a q)%Q /\ (orient p0 b q < 0)%Q.
Proof.
  intros SC H0 W. revert p. induction i as [|i IH]; intros p Hp N.
  - exfalso. assert (K : In (p0, p) (ring ps)). { apply in_ring. exists 0. split; auto. unfold succ_in. pose proof (nth_error_lt _ _ _ Hp). rewrite (proj2 (Nat.eqb_neq _ _)) by lia. auto. } specialize (W _ _ K). lra.
  - destruct (nth_error_ex ps (S i)) as (a & Ha); [apply nth_error_lt in Hp; lia|]. destruct (Qlt_le_dec (orient p0 a q) 0) as [C|C]; [apply (IH a); auto|]. exists i, a, p. auto.
Qed.
Lemma in_triangle ps q : StrictlyConvex ps -> 3 <= length ps -> Within ps q ->
  exists a b c, In a ps /\ In b ps /\ In c ps /\ (0 < orient a b c)%Q /\ (0 <= orient a b q)%Q /\ (0 <= orient b c q)%Q /\ (0 <= orient c a q)%Q.
Proof.
  intros SC L W. destruct (nth_error_ex ps 0 ltac:(lia)) as (p0 & H0). destruct (nth_error_ex ps (length ps - 1) ltac:(lia)) as (z & Hz).
  assert (Z : (0 <= orient z p0 q)%Q). { apply W. apply in_ring. exists (length ps - 1). split; auto. unfold succ_in. rewrite (proj2 (Nat.eqb_eq _ _)) by lia. auto. }
  destruct (Qlt_le_dec (orient p0 z q) 0) as [C|C].
  - destruct (fan_find ps p0 q (length ps - 2) z SC H0 W) as (j & a & b & Ha & Hb & A & B); auto; [replace (S (length ps - 2)) with (length ps - 1) by lia; auto|].
    exists p0, a, b. repeat split; try (eapply nth_error_In; eassumption); auto.
    + apply (SC 0 (S j) (S (S j))); auto. lia.
    + apply W. apply in_ring. exists (S j). split; auto. unfold succ_in. pose proof (nth_error_lt _ _ _ Hb). rewrite (proj2 (Nat.eqb_neq _ _)) by lia. auto.
    + assert (E : (orient b p0 q == - orient p0 b q)%Q) by (unfold orient; ring). rewrite E. lra.
  - (* q is on the line of p0 and the last corner *)
    destruct (nth_error_ex ps (length ps - 2) ltac:(lia)) as (y & Hy). exists p0, y, z. repeat split; try (eapply nth_error_In; eassumption); auto.
    + apply (SC 0 (length ps - 2) (length ps - 1)); auto. lia.
    + assert (E0 : (orient p0 z q == - orient z p0 q)%Q) by (unfold orient; ring). assert (Zq : (orient p0 z q == 0)%Q) by lra.
      destruct (Qlt_le_dec (orient p0 y q) 0) as [D|D]; auto. exfalso.
      assert (P1 : (0 <= orient y z q)%Q). { apply W. apply in_ring. exists (length ps - 2). split; auto. unfold succ_in. rewrite (proj2 (Nat.eqb_neq _ _)) by lia. replace (S (length ps - 2)) with (length ps - 1) by lia. auto. }
      assert (Pyz : (0 < orient p0 y z)%Q) by (apply (SC 0 (length ps - 2) (length ps - 1)); auto; lia).
      (* q is p0 + t (z - p0), and t < 0 *)
      destruct (nth_error_ex ps 1 ltac:(lia)) as (w & Hw). assert (P2 : (0 <= orient p0 w q)%Q). { apply W. apply in_ring. exists 0. split; auto. unfold succ_in. rewrite (proj2 (Nat.eqb_neq _ _)) by lia. auto. }
      destruct (Nat.eq_dec (length ps) 3) as [E3|E3]; [assert (w = y) by (replace (length ps - 2) with 1 in Hy by lia; congruence); subst; lra|].
      assert (Pwz : (0 < orient p0 w z)%Q) by (apply (SC 0 1 (length ps - 1)); auto; lia).
      assert (I : (orient p0 y q * orient p0 w z == orient p0 w q * orient p0 y z + orient p0 z q * orient p0 w y * -1 + 0)%Q \/ True) by auto. clear I.
      assert (I : (orient p0 y q * orient p0 w z == orient p0 w q * orient p0 y z - orient p0 z q * orient p0 y w * -1)%Q \/ (orient p0 y q * orient p0 w z == orient p0 w q * orient p0 y z + orient p0 z q * orient p0 y w * -1)%Q) by (first [left; unfold orient; ring|right; unfold orient; ring]).
      destruct I as [I|I]; rewrite Zq in I; nra.
    + apply W. apply in_ring. exists (length ps - 2). split; auto. unfold succ_in. rewrite (proj2 (Nat.eqb_neq _ _)) by lia. replace (S (length ps - 2)) with (length ps - 1) by lia. auto.
Qed.
(* so what holds, as a half plane, for the corners holds for the point *)
Lemma triangle_half (X Y Z : Q) a b c q : (0 < orient a b c)%Q -> (0 <= orient a b q)%Q -> (0 <= orient b c q)%Q -> (0 <= orient c a q)%Q ->
  (X * fst a + Y * snd a + Z <= 0)%Q -> (X * fst b + Y * snd b + Z <= 0)%Q -> (X * fst c + Y * snd c + Z <= 0)%Q -> (X * fst q + Y * snd q + Z <= 0)%Q.
Proof.
  intros P A B C Ha Hb Hc. assert (I : (orient a b c * (X * fst q + Y * snd q + Z) == orient b c q * (X * fst a + Y * snd a + Z) + orient c a q * (X * fst b + Y * snd b + Z) + orient a b q * (X * fst c + Y * snd c + Z))%Q) by (unfold orient; ring).
  assert (K : (orient a b c * (X * fst q + Y * snd q + Z) <= 0)%Q) by (rewrite I; nra). apply Qnot_lt_le. intros N. nra.
Qed.
