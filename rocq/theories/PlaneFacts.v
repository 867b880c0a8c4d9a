(* Facts about sums over edges and triangles. *)
From Verif Require Import Base BaseFacts PLCSpec Plane.
From Coq Require Import QArith Lqa Permutation.
Local Open Scope Q_scope.

Section Sum.
  Context {A : Type}.
  Lemma sumf_cons (f : A -> Q) a l : sumf f (a :: l) = f a + sumf f l.
  Proof. reflexivity. Qed.
  Lemma sumf_nil (f : A -> Q) : sumf f [] = 0.
  Proof. reflexivity. Qed.
  Lemma sumf_app (f : A -> Q) l l' : sumf f (l ++ l') == sumf f l + sumf f l'.
  Proof. induction l as [|a l IH]; cbn [app]; rewrite ?sumf_cons, ?sumf_nil; [ring|]. rewrite IH. ring. Qed.
  Lemma sumf_perm (f : A -> Q) l l' : Permutation l l' -> sumf f l == sumf f l'.
  Proof. induction 1; rewrite ?sumf_cons; try reflexivity; [rewrite IHPermutation; reflexivity|ring|eapply Qeq_trans; eauto]. Qed.
  Lemma sumf_ext (f g : A -> Q) l : (forall a, In a l -> f a == g a) -> sumf f l == sumf g l.
  Proof.
    induction l as [|a l IH]; intros H; [reflexivity|]. rewrite !sumf_cons. rewrite (H a) by (left; auto). rewrite IH; [reflexivity|]. intros b I. apply H. right; auto.
  Qed.
  Lemma sumf_scale (f : A -> Q) k l : sumf (fun a => k * f a) l == k * sumf f l.
  Proof. induction l as [|a l IH]; [cbn; ring|]. rewrite !sumf_cons, IH. ring. Qed.
  Lemma sumf_plus (f g : A -> Q) l : sumf (fun a => f a + g a) l == sumf f l + sumf g l.
  Proof. induction l as [|a l IH]; [cbn; ring|]. rewrite !sumf_cons, IH. ring. Qed.
  Lemma sumf_nonneg (f : A -> Q) l : (forall a, In a l -> 0 <= f a) -> 0 <= sumf f l.
  Proof. induction l as [|a l IH]; intros H; [cbn; lra|]. rewrite sumf_cons. pose proof (H a (or_introl eq_refl)). assert (0 <= sumf f l) by (apply IH; intros; apply H; right; auto). lra. Qed.
  Lemma sumf_pos (f : A -> Q) l a : (forall a, In a l -> 0 <= f a) -> In a l -> 0 < f a -> 0 < sumf f l.
  Proof.
    induction l as [|b l IH]; intros H I P; [destruct I|]. rewrite sumf_cons. destruct I as [->|I].
    - assert (0 <= sumf f l) by (apply sumf_nonneg; intros; apply H; right; auto). lra.
    - pose proof (H b (or_introl eq_refl)). assert (0 < sumf f l) by (apply IH; auto; intros; apply H; right; auto). lra.
  Qed.
End Sum.
Lemma sumf_map {A B} (g : A -> B) (f : B -> Q) l : sumf f (map g l) = sumf (fun a => f (g a)) l.
Proof. induction l as [|a l IH]; [reflexivity|]. cbn [map]. rewrite !sumf_cons, IH. reflexivity. Qed.
Lemma sumf_flat {A B} (g : A -> list B) (f : B -> Q) l : sumf f (flat_map g l) == sumf (fun a => sumf f (g a)) l.
Proof. induction l as [|a l IH]; [reflexivity|]. cbn [flat_map]. rewrite sumf_app, sumf_cons, IH. reflexivity. Qed.

(* antisymmetric edge functions see only the boundary content *)
Lemma same_edges_sum {A} (f : A * A -> Q) (Hf : forall a b, f (b, a) == - f (a, b)) l l' :
  SameEdges l l' -> sumf f l == sumf f l'.
Proof.
  induction 1; [apply sumf_perm; auto| |symmetry; auto|etransitivity; eauto].
  rewrite !sumf_cons, (Hf a b). ring.
Qed.
Lemma same_triangles_sum {A} (f : A * A * A -> Q) (Hf : forall a b c, f (b, a, c) == - f (a, b, c)) (Ht : forall a b c, f (b, c, a) == f (a, b, c)) l l' :
  SameTriangles l l' -> sumf f l == sumf f l'.
Proof.
  induction 1; [apply sumf_perm; auto| | |symmetry; auto|etransitivity; eauto].
  - rewrite !sumf_cons, (Ht a b c). reflexivity.
  - rewrite !sumf_cons, (Hf a b c). ring.
Qed.

(* heads and tails of a ring are the same points *)
Lemma ring_heads {A} (f : A -> Q) (l : list A) : sumf (fun e => f (fst e)) (ring l) == sumf (fun e => f (snd e)) (ring l).
Proof.
  destruct l as [|a t]; [reflexivity|]. unfold ring.
  assert (G : forall (l l' : list A), length l = length l' -> sumf (fun e => f (fst e)) (combine l l') == sumf f l /\ sumf (fun e => f (snd e)) (combine l l') == sumf f l').
  { induction l as [|x l IH]; intros [|y l'] L; try discriminate; [split; reflexivity|]. cbn [combine]. rewrite !sumf_cons. cbn [fst snd].
    destruct (IH l') as [A1 A2]; [auto|]. rewrite A1, A2. split; reflexivity. }
  destruct (G (a :: t) (t ++ [a])) as [G1 G2]; [rewrite app_length; cbn; lia|]. rewrite G1, G2, sumf_app, !sumf_cons, sumf_nil. ring.
Qed.
