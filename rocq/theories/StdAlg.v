(* The C++ standard library algorithms used by the code, on vectors of ids. *)
From Verif Require Import Base.
From Coq Require Import Sorted Permutation.

(* std::sort on a vector of ids (result: the sorted permutation) *)
Fixpoint ins (a : nat) (l : list nat) : list nat :=
  match l with
  | [] => [a]
  | b :: t => if a <=? b then a :: l else b :: ins a t
  end.
Fixpoint sort (l : list nat) : list nat :=
  match l with [] => [] | a :: t => ins a (sort t) end.

(* std::set_intersection *)
Fixpoint set_inter (l1 : list nat) : list nat -> list nat :=
  fix aux (l2 : list nat) : list nat :=
    match l1, l2 with
    | a :: t1, b :: t2 =>
        if a <? b then set_inter t1 l2
        else if b <? a then aux t2
        else a :: set_inter t1 t2
    | _, _ => []
    end.

(* v.erase(std::unique(v.begin(), v.end()), v.end()): drop repeats of the predecessor *)
Fixpoint unique (l : list nat) : list nat :=
  match l with
  | a :: (b :: _) as t => if a =? b then unique t else a :: unique t
  | _ => l
  end.

(* ---- facts ---- *)
Lemma ins_perm a l : Permutation (ins a l) (a :: l).
Proof.
  induction l as [|b t IH]; cbn; [reflexivity|]. destruct (a <=? b); [reflexivity|].
  rewrite IH. constructor.
Qed.
Lemma sort_perm l : Permutation (sort l) l.
Proof. induction l; cbn; [reflexivity|]. rewrite ins_perm, IHl. reflexivity. Qed.
Lemma ins_sorted a l : StronglySorted le l -> StronglySorted le (ins a l).
Proof.
  induction 1 as [|b t S IH F]; cbn; [repeat constructor|].
  destruct (Nat.leb_spec a b).
  - constructor; [constructor; auto|]. constructor; auto.
    eapply Forall_impl; [|eassumption]; cbn; lia.
  - constructor; auto. rewrite ins_perm. constructor; [lia|auto].
Qed.
Lemma sort_sorted l : StronglySorted le (sort l).
Proof. induction l; cbn; [constructor|]. apply ins_sorted; auto. Qed.
Lemma sort_in l x : In x (sort l) <-> In x l.
Proof.
  split; apply Permutation_in; [|symmetry]; apply sort_perm.
Qed.
Lemma sorted_nodup_lt l : StronglySorted le l -> NoDup l -> StronglySorted lt l.
Proof.
  induction 1 as [|a t S IH F]; intros N; [constructor|].
  inversion N; subst. constructor; auto.
  rewrite Forall_forall in *. intros x Hx. specialize (F x Hx).
  assert (a <> x) by (intros ->; contradiction). lia.
Qed.
Lemma sort_nodup l : NoDup l -> StronglySorted lt (sort l).
Proof.
  intros H. apply sorted_nodup_lt; [apply sort_sorted|].
  eapply Permutation_NoDup; [symmetry; apply sort_perm|auto].
Qed.
Lemma sorted_lt_nodup l : StronglySorted lt l -> NoDup l.
Proof.
  induction 1 as [|a t S IH F]; constructor; auto.
  rewrite Forall_forall in F. intros I; apply F in I; lia.
Qed.

Lemma unique_in l x : In x (unique l) <-> In x l.
Proof.
  induction l as [|a t IH]; [tauto|]. destruct t as [|b t]; [tauto|].
  cbn [unique]. fold (unique (b :: t)).
  change (match t with [] => b :: t | b0 :: _ => if b =? b0 then unique t else b :: unique t end)
    with (unique (b :: t)).
  destruct (Nat.eqb_spec a b) as [->|N].
  - rewrite IH. cbn; tauto.
  - cbn [In]. rewrite IH. reflexivity.
Qed.
Lemma unique_sorted l : StronglySorted le l -> StronglySorted lt (unique l).
Proof.
  induction l as [|a t IH]; intros S; [constructor|]. destruct t as [|b t]; [repeat constructor|].
  inversion S as [|? ? S' F]; subst. specialize (IH S').
  cbn [unique]. 
  change (match t with [] => b :: t | b0 :: _ => if b =? b0 then unique t else b :: unique t end)
    with (unique (b :: t)).
  destruct (Nat.eqb_spec a b) as [->|N]; [auto|].
  constructor; auto. rewrite Forall_forall in *. intros x Hx. rewrite unique_in in Hx.
  assert (a < b) by (specialize (F b (or_introl eq_refl)); lia).
  destruct Hx as [->|Hx]; [auto|].
  inversion S' as [|? ? _ F']; subst. rewrite Forall_forall in F'. apply F' in Hx. lia.
Qed.

Lemma set_inter_nil_r l : set_inter l [] = [].
Proof. destruct l; reflexivity. Qed.
Lemma set_inter_cons a t1 b t2 : set_inter (a :: t1) (b :: t2) =
  if a <? b then set_inter t1 (b :: t2) else if b <? a then set_inter (a :: t1) t2
  else a :: set_inter t1 t2.
Proof. reflexivity. Qed.

Lemma set_inter_in l1 l2 x : StronglySorted lt l1 -> StronglySorted lt l2 ->
  In x (set_inter l1 l2) <-> In x l1 /\ In x l2.
Proof.
  intros S1; revert l2; induction S1 as [|a t1 S1 IH1 F1]; intros l2 S2.
  - destruct l2; cbn; tauto.
  - induction S2 as [|b t2 S2 IH2 F2]; [rewrite set_inter_nil_r; cbn; tauto|].
    rewrite set_inter_cons. rewrite Forall_forall in F1, F2.
    destruct (Nat.ltb_spec a b); [|destruct (Nat.ltb_spec b a)].
    + rewrite IH1 by (constructor; auto; rewrite Forall_forall; auto). cbn [In].
      split; [tauto|]. intros [[->|A] B]; [|tauto].
      destruct B as [->|B]; [lia|]. apply F2 in B; lia.
    + rewrite IH2. cbn [In]. split; [tauto|]. intros [A [->|B]]; [|tauto].
      destruct A as [->|A]; [lia|]. apply F1 in A; lia.
    + assert (a = b) by lia; subst. cbn [In]. rewrite IH1 by auto.
      split; [intros [->|?]; tauto|]. intros [[->|A] B]; [auto|].
      destruct B as [->|B]; [auto|auto].
Qed.
Lemma set_inter_sorted l1 l2 : StronglySorted lt l1 -> StronglySorted lt l2 ->
  StronglySorted lt (set_inter l1 l2).
Proof.
  intros S1; revert l2; induction S1 as [|a t1 S1 IH1 F1]; intros l2 S2.
  - destruct l2; constructor.
  - induction S2 as [|b t2 S2 IH2 F2]; [rewrite set_inter_nil_r; constructor|].
    rewrite set_inter_cons.
    destruct (Nat.ltb_spec a b); [|destruct (Nat.ltb_spec b a)].
    + apply IH1; constructor; auto.
    + auto.
    + constructor; [auto|]. rewrite Forall_forall in *. intros x Hx.
      apply set_inter_in in Hx; auto. apply F1; tauto.
Qed.

Lemma sorted_lt_ext l l' : StronglySorted lt l -> StronglySorted lt l' ->
  (forall x, In x l <-> In x l') -> l = l'.
Proof.
  intros S; revert l'; induction S as [|a t S IH F]; intros l' S' E.
  - destruct l' as [|b t']; [reflexivity|]. destruct (proj2 (E b)); left; auto.
  - destruct S' as [|b t' S' F'].
    + destruct (proj1 (E a)); left; auto.
    + rewrite Forall_forall in F, F'.
      assert (a = b).
      { destruct (proj1 (E a) (or_introl eq_refl)) as [|A]; [auto|].
        destruct (proj2 (E b) (or_introl eq_refl)) as [|B]; [auto|].
        apply F in B; apply F' in A; lia. }
      subst b. f_equal. apply IH; auto. intros x; split; intros Hx.
      * destruct (proj1 (E x) (or_intror Hx)) as [<-|]; [apply F in Hx; lia|auto].
      * destruct (proj2 (E x) (or_intror Hx)) as [<-|]; [apply F' in Hx; lia|auto].
Qed.
