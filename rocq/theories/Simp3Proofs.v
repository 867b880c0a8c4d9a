(* Proofs about simplifying the surface of a solid: tolerances and normals. *)
From Coq Require Import QArith Qabs Lqa Permutation.
From Verif Require Import Base BaseFacts Plane PLCSpec MeshEditorModel WithinProofs RayModel Hull3Model Simp3Model Simp3Spec.
Local Open Scope nat_scope.

Lemma pat_ok pts i p : pat pts i = Ok p -> p = pos3 pts i /\ 3 * i + 3 <= length pts.
Proof.
  unfold pat. intros H. apply bind_ok in H as (x & X & H). apply bind_ok in H as (y & Y & H). apply bind_ok in H as (z & Z & H). inversion H; subst.
  apply get_ok in X, Y, Z. unfold pos3. rewrite (nth_error_nth _ _ 0%Q X), (nth_error_nth _ _ 0%Q Y), (nth_error_nth _ _ 0%Q Z). split; auto. apply nth_error_lt in Z. lia.
Qed.
Lemma pat_lt pts i : 3 * i + 3 <= length pts -> pat pts i = Ok (pos3 pts i).
Proof.
  intros H. unfold pat. destruct (nth_error_ex pts (3 * i)) as [x X]; [lia|]. destruct (nth_error_ex pts (3 * i + 1)) as [y Y]; [lia|]. destruct (nth_error_ex pts (3 * i + 2)) as [z Z]; [lia|].
  rewrite (proj2 (get_ok _ _ _) X), (proj2 (get_ok _ _ _) Y), (proj2 (get_ok _ _ _) Z). cbn [bind]. unfold pos3. rewrite (nth_error_nth _ _ 0%Q X), (nth_error_nth _ _ 0%Q Y), (nth_error_nth _ _ 0%Q Z). auto.
Qed.
Lemma qlt_iff a b : Qlt_bool a b = true <-> (a < b)%Q.
Proof. unfold Qlt_bool. rewrite Bool.negb_true_iff. split; intros H; [apply Qnot_le_lt; intros L; apply Qle_bool_iff in L; congruence|destruct (Qle_bool b a) eqn:E; auto; apply Qle_bool_iff in E; lra]. Qed.
Lemma near_iff tol a b : nearb tol a b = true <-> Close tol a b.
Proof. unfold nearb, Close. rewrite Bool.andb_true_iff, !qlt_iff. reflexivity. Qed.
Lemma inline_iff tol a b c : inlineb tol a b c = true <-> InLine3 tol a b c.
Proof.
  unfold inlineb, InLine3. cbv zeta. change (dot3 (sub3 b a) (sub3 b a)) with (vlen2 (sub3 b a)). change (dot3 (sub3 c a) (sub3 c a)) with (vlen2 (sub3 c a)). change (dot3 (sub3 b a) (sub3 c a)) with (vdot (sub3 b a) (sub3 c a)).
  destruct (Qlt_bool (vlen2 (sub3 b a)) tol) eqn:E1; [apply qlt_iff in E1; cbn [orb]; tauto|]. destruct (Qlt_bool (vlen2 (sub3 c a)) tol) eqn:E2; [apply qlt_iff in E2; cbn [orb]; tauto|]. cbn [orb].
  assert (N1 : ~ (vlen2 (sub3 b a) < tol)%Q) by (rewrite <- qlt_iff; congruence). assert (N2 : ~ (vlen2 (sub3 c a) < tol)%Q) by (rewrite <- qlt_iff; congruence).
  rewrite Bool.orb_true_iff, Bool.andb_true_iff, !qlt_iff. tauto.
Qed.
Lemma facing_iff tol n m : facingb tol n m = true <-> Facing tol n m.
Proof.
  unfold facingb, Facing. cbv zeta. change (dot3 n n) with (vlen2 n). change (dot3 m m) with (vlen2 m). change (dot3 n m) with (vdot n m). rewrite !Bool.andb_true_iff, Bool.orb_true_iff, !qlt_iff.
  assert (E : (vdot n m - tol < 0 <-> vdot n m < tol)%Q) by (split; intros; lra). tauto.
Qed.
Lemma bend_iff tol j k : bendb tol j k = true <-> (tol + Qabs (vdot j k) < 0 \/ (tol + Qabs (vdot j k)) * (tol + Qabs (vdot j k)) < vlen2 j * vlen2 k)%Q.
Proof. unfold bendb. cbv zeta. rewrite Bool.orb_true_iff, !qlt_iff. reflexivity. Qed.

Section Normal.
Context (points : list Q) (tol : Q).
Notation P := (pos3 points).
Lemma far_ok p1 l : forall r, first_far points tol p1 l = Ok r ->
  match r with
  | None => forall x, In x l -> Close tol p1 (P x)
  | Some (p, t) => exists l1 b, l = l1 ++ b :: t /\ p = P b /\ (forall x, In x l1 -> Close tol p1 (P x)) /\ ~ Close tol p1 (P b)
  end.
Proof.
  induction l as [|j l IH]; intros r H; cbn [first_far] in H; [inversion H; intros x []|]. apply bind_ok in H as (p & Hp & H). apply pat_ok in Hp as [-> _].
  destruct (nearb tol p1 (P j)) eqn:E.
  - apply near_iff in E. specialize (IH _ H). destruct r as [(p & t)|].
    + destruct IH as (l1 & b & -> & -> & A & B). exists (j :: l1), b. split; auto. split; auto. split; auto. intros x [<-|X]; auto.
    + intros x [<-|X]; auto.
  - inversion H; subst. exists [], j. split; auto. split; auto. split; [intros x []|]. intros C. apply near_iff in C. congruence.
Qed.
Lemma bent_ok p1 p2 l : forall r, first_bent points tol p1 p2 l = Ok r ->
  match r with
  | None => forall x, In x l -> InLine3 tol p1 p2 (P x)
  | Some p => exists l1 c t, l = l1 ++ c :: t /\ p = P c /\ (forall x, In x l1 -> InLine3 tol p1 p2 (P x)) /\ ~ InLine3 tol p1 p2 (P c)
  end.
Proof.
  induction l as [|j l IH]; intros r H; cbn [first_bent] in H; [inversion H; intros x []|]. apply bind_ok in H as (p & Hp & H). apply pat_ok in Hp as [-> _].
  destruct (inlineb tol p1 p2 (P j)) eqn:E.
  - apply inline_iff in E. specialize (IH _ H). destruct r as [p|].
    + destruct IH as (l1 & b & t & -> & -> & A & B). exists (j :: l1), b, t. split; auto. split; auto. split; auto. intros x [<-|X]; auto.
    + intros x [<-|X]; auto.
  - inversion H; subst. exists [], j, l. split; auto. split; auto. split; [intros x []|]. intros C. apply inline_iff in C. congruence.
Qed.
(* splitting a list at the first element without the property is unique *)
Lemma split_unique (R : nat -> Prop) l1 : forall b t l1' b' t', l1 ++ b :: t = l1' ++ b' :: t' -> (forall x, In x l1 -> R x) -> ~ R b -> (forall x, In x l1' -> R x) -> ~ R b' -> l1 = l1' /\ b = b' /\ t = t'.
Proof.
  induction l1 as [|a l1 IH]; intros b t [|a' l1'] b' t' E H1 Hb H1' Hb'; cbn in E; inversion E; subst; auto.
  - exfalso. apply Hb. apply H1'. left; auto.
  - exfalso. apply Hb'. apply H1. left; auto.
  - destruct (IH _ _ _ _ _ H2) as (-> & -> & ->); auto; intros; [apply H1|apply H1']; right; auto.
Qed.
Lemma normal_ok f r : facet_normal points tol f = Ok r -> 3 <= length f /\ forall n, HasNormal points tol f n <-> r = Some n.
Proof.
  unfold facet_normal. intros H. apply bind_ok in H as (u & A & H). apply assert_ok in A. apply Nat.leb_le in A. split; auto.
  apply bind_ok in H as (k1 & K & H). apply get_ok in K. destruct f as [|a f]; [discriminate|]. cbn in K. inversion K; subst k1. clear K. cbn [tl] in H.
  apply bind_ok in H as (p1 & Hp & H). apply pat_ok in Hp as [-> _]. apply bind_ok in H as (r1 & F & H). apply far_ok in F. destruct r1 as [(p2 & t)|].
  - destruct F as (l1 & b & -> & -> & C1 & C2). apply bind_ok in H as (r2 & B & H). apply bent_ok in B. destruct r2 as [p3|].
    + destruct B as (l2 & c & l3 & -> & -> & L1 & L2). inversion H; subst r. intros n. split.
      * intros (a' & l1' & b' & l2' & c' & l3' & E & C1' & C2' & L1' & L2' & ->). injection E as -> E. destruct (split_unique (fun x => Close tol (P a') (P x)) _ _ _ _ _ _ E C1 C2 C1' C2') as (-> & -> & E2).
        destruct (split_unique (fun x => InLine3 tol (P a') (P b') (P x)) _ _ _ _ _ _ E2 L1 L2 L1' L2') as (-> & -> & ->). reflexivity.
      * intros E. injection E as <-. exists a, l1, b, l2, c, l3. cbv zeta. repeat (split; auto).
    + inversion H; subst r. intros n. split; [|discriminate]. intros (a' & l1' & b' & l2' & c' & l3' & E & C1' & C2' & L1' & L2' & ->). injection E as -> E.
      destruct (split_unique (fun x => Close tol (P a') (P x)) _ _ _ _ _ _ E C1 C2 C1' C2') as (-> & -> & ->). exfalso. apply L2', B, in_elt.
  - inversion H; subst r. intros n. split; [|discriminate]. intros (a' & l1' & b' & l2' & c' & l3' & E & C1' & C2' & _). injection E as -> ->. exfalso. apply C2', F, in_elt.
Qed.
End Normal.
