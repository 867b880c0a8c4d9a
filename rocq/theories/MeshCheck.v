(* A checker for WellFormed, used only to show that concrete meshes satisfy the
   hypotheses of the theorems. *)
From Verif Require Import Base BaseFacts SerializeModel MeshModel MeshSpec.

Definition all_i {A} (P : nat -> A -> bool) (l : list A) : bool :=
  forallb (fun x => P (fst x) (snd x)) (combine (seq 0 (length l)) l).

Lemma all_i_spec {A} (P : nat -> A -> bool) l : all_i P l = true ->
  forall i a, nth_error l i = Some a -> P i a = true.
Proof.
  unfold all_i. rewrite forallb_forall. intros H i a Hi.
  apply (H (i, a)). assert (G : forall s (l : list A) i a, nth_error l i = Some a ->
    In (s + i, a) (combine (seq s (length l)) l)).
  { clear. intros s l; revert s; induction l as [|b l IH]; intros s [|i] a H; cbn in *; try discriminate.
    - inversion H; subst. left; f_equal; lia.
    - right. replace (s + S i) with (S s + i) by lia. auto. }
  apply (G 0); auto.
Qed.

Definition memZ (z : Z) (l : list Z) : bool := existsb (Z.eqb z) l.
Lemma memZ_in z l : memZ z l = true -> In z l.
Proof. unfold memZ. rewrite existsb_exists. intros (x & I & E). apply Z.eqb_eq in E; subst; auto. Qed.

Definition wfb {V} (D : nat) (m : mesh V) : bool :=
  (length (nodes m) =? D * numNodes D m) &&
  forallb (forallb (fun z => pid z <? length (faces m))) (cells m) &&
  forallb (forallb (fun n => D * n + D <=? length (nodes m))) (faces m) &&
  (length (faceCells m) =? length (faces m)) &&
  forallb (fun fc => (length fc =? 1) || (length fc =? 2)) (faceCells m) &&
  all_i (fun i c => forallb (fun z => match nth_error (faceCells m) (pid z) with
            | Some fc => memZ (sign_cell z i) fc | None => true end) c) (cells m) &&
  all_i (fun f fc => forallb (fun z => match nth_error (cells m) (pid z) with
            | Some c => memZ (sign_face z f) c | None => false end) fc) (faceCells m) &&
  (length (sharedFaces m) =? length (sharedNodes m)) &&
  forallb (forallb (fun n => D * n + D <=? length (nodes m))) (sharedNodes m) &&
  forallb (forallb (fun f => f <? length (faces m))) (sharedFaces m).

Lemma wfb_sound {V} D (m : mesh V) : wfb D m = true -> WellFormed D m.
Proof.
  unfold wfb. intros H. repeat (apply andb_true_iff in H as [H ?]).
  rewrite ?forallb_forall in *.
  constructor.
  - exists (numNodes D m). apply Nat.eqb_eq; auto.
  - intros i c z Hc I. apply nth_error_In in Hc.
    specialize (H8 c Hc). rewrite forallb_forall in H8. apply H8 in I. apply Nat.ltb_lt; auto.
  - intros i f n Hf I. apply nth_error_In in Hf. specialize (H7 f Hf).
    rewrite forallb_forall in H7. apply H7 in I. apply Nat.leb_le; auto.
  - apply Nat.eqb_eq; auto.
  - intros i fc Hi. apply nth_error_In in Hi. apply H5 in Hi.
    apply orb_true_iff in Hi as [E|E]; apply Nat.eqb_eq in E; auto.
  - intros i c z fc Hc I Hfc. pose proof (all_i_spec _ _ H4 i c Hc) as E.
    rewrite forallb_forall in E. apply E in I. rewrite Hfc in I. apply memZ_in; auto.
  - intros f fc z Hfc I. pose proof (all_i_spec _ _ H3 f fc Hfc) as E.
    rewrite forallb_forall in E. apply E in I. destruct (nth_error (cells m) (pid z)) as [c|] eqn:Hc; [|discriminate].
    exists c; split; auto. apply memZ_in; auto.
  - apply Nat.eqb_eq; auto.
  - intros d l n Hd I. apply nth_error_In in Hd. specialize (H1 l Hd).
    rewrite forallb_forall in H1. apply H1 in I. apply Nat.leb_le; auto.
  - intros d l n Hd I. apply nth_error_In in Hd. specialize (H0 l Hd).
    rewrite forallb_forall in H0. apply H0 in I. apply Nat.ltb_lt; auto.
Qed.
