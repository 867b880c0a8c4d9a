(* Theorems about removeElements (C07) and bisectSearch (C08). *)
From Verif Require Import Base BaseFacts Rank ArrayModel ArrayProofs.
From Coq Require Import Sorted.

(* ---- C07: specification of "remove the listed positions" ---- *)
Record Removed {V} (vec : list V) (ids : list nat) (vec' : list V) (old2new : list Z) : Prop := {
  rm_size : length vec' + length ids = length vec;
  rm_map_size : length old2new = length vec;
  rm_gone : forall i, In i ids -> nth_error old2new i = Some (-1)%Z;
  rm_kept : forall i, i < length vec -> ~ In i ids ->
     exists j, nth_error old2new i = Some (Z.of_nat j) /\ nth_error vec' j = nth_error vec i;
  rm_order : forall i i' j j', i < i' -> nth_error old2new i = Some (Z.of_nat j) ->
     nth_error old2new i' = Some (Z.of_nat j') -> j < j';
  rm_onto : forall j, j < length vec' -> exists i, nth_error old2new i = Some (Z.of_nat j) }.

Theorem removeElements_correct : forall V (vec : list V) ids,
  StronglySorted lt ids -> (forall i, In i ids -> i < length vec) ->
  exists vec' old2new, removeElements vec ids = Ok (vec', old2new) /\ Removed vec ids vec' old2new.
Proof.
  intros V vec ids S B.
  destruct (removeElements_ok vec ids S B) as (vec' & o2n & E & L & RC & Lo & Hk & Hm).
  exists vec', o2n; split; auto.
  assert (G : forall i j, nth_error o2n i = Some (Z.of_nat j) ->
              i < length vec /\ keepf ids i = true /\ rank (keepf ids) i = j).
  { intros i j H. assert (Li : i < length vec) by (apply nth_error_lt in H; lia).
    rewrite Hm in H by auto. destruct (keepf ids i); [|inversion H; lia].
    inversion H. repeat split; auto; lia. }
  constructor; auto.
  - lia.
  - intros i I. rewrite Hm by auto. unfold keepf. apply mem_in in I. rewrite I. reflexivity.
  - intros i Li N. exists (rank (keepf ids) i).
    assert (K : keepf ids i = true).
    { unfold keepf. apply negb_true_iff. destruct (mem ids i) eqn:M; [|auto].
      apply mem_in in M; contradiction. }
    split; [rewrite Hm, K by auto; reflexivity|apply Hk; auto].
  - intros i i' j j' Li Hi Hi'. apply G in Hi as (? & Ki & <-). apply G in Hi' as (? & Ki' & <-).
    apply rank_lt; auto.
  - intros j Lj. rewrite L in Lj. destruct (rank_onto _ _ _ Lj) as (i & Li & Ki & <-).
    exists i. rewrite Hm, Ki by auto. reflexivity.
Qed.
Print Assumptions removeElements_correct.

(* any other (non-empty) list is refused by the contract checks *)
Theorem removeElements_refuses : forall V (vec : list V) ids, ids <> [] ->
  ~ (StronglySorted lt ids /\ forall i, In i ids -> i < length vec) ->
  removeElements vec ids = Abort.
Proof. exact @removeElements_bad. Qed.
Print Assumptions removeElements_refuses.

Example removeElements_example :
  removeElements [10; 11; 12; 13; 14; 15] [1; 2; 4] = Ok ([10; 13; 15], [0; -1; -1; 1; -1; 2]%Z).
Proof. reflexivity. Qed.
Example removeElements_hyp : StronglySorted lt [1; 2; 4] /\ forall i, In i [1; 2; 4] -> i < 6.
Proof. split; [repeat constructor|cbn; lia]. Qed.

(* ---- C08 ---- *)
Local Open Scope Z_scope.

(* j brackets val: at or above entry j (if any), below entry j+1 (if any) *)
Definition brackets (table : list Z) (val j : Z) : Prop :=
  -1 <= j < Z.of_nat (length table) /\
  (forall t, 0 <= j -> nth_error table (Z.to_nat j) = Some t -> t <= val) /\
  (forall t, nth_error table (Z.to_nat (j + 1)) = Some t -> val < t).

Theorem bisectSearch_ascending : forall table val,
  table <> [] -> StronglySorted Z.le table ->
  exists j, bisectSearch table val = Ok j /\ brackets table val j.
Proof.
  intros table val Ne S. destruct (bisect_ascending table val Ne S) as (j & E & B & L & U).
  exists j; split; auto. split; [auto|]. unfold tnth in *. split.
  - intros t P H. apply (nth_error_nth _ _ 0) in H. subst. auto.
  - intros t H. assert (Q := nth_error_lt _ _ _ H). apply (nth_error_nth _ _ 0) in H. subst.
    apply U; lia.
Qed.
Print Assumptions bisectSearch_ascending.

(* the answer counts the entries <= val: it is the only bracketing index *)
Theorem brackets_unique : forall table val i j, StronglySorted Z.le table ->
  brackets table val i -> brackets table val j -> i = j.
Proof.
  intros table val. assert (W : forall i j, StronglySorted Z.le table ->
    brackets table val i -> brackets table val j -> ~ i < j).
  { intros i j S (Bi & _ & Ui) (Bj & Lj & _) Lt.
    destruct (nth_error_ex table (Z.to_nat (i + 1))) as [t Ht]; [lia|].
    destruct (nth_error_ex table (Z.to_nat j)) as [u Hu]; [lia|].
    pose proof (Ui t Ht). pose proof (Lj u ltac:(lia) Hu).
    pose proof (sorted_nth Z.le table (i + 1) j S Z.le_refl ltac:(lia) ltac:(lia)) as M.
    unfold tnth in M. apply (nth_error_nth _ _ 0) in Ht, Hu. lia. }
  intros i j S A B. destruct (Z.lt_trichotomy i j) as [L|[E|L]]; auto; exfalso; [exact (W i j S A B L)|exact (W j i S B A L)].
Qed.
Print Assumptions brackets_unique.

(* descending tables: right when the value is not an entry ... *)
Theorem bisectSearch_descending_partial : forall table val,
  (1 < length table)%nat -> StronglySorted Z.gt table -> ~ In val table ->
  exists j, bisectSearch table val = Ok j /\ -1 <= j < Z.of_nat (length table) /\
    (forall t, 0 <= j -> nth_error table (Z.to_nat j) = Some t -> val < t) /\
    (forall t, nth_error table (Z.to_nat (j + 1)) = Some t -> t < val).
Proof.
  intros table val Ln S NI.
  destruct (bisect_descending table val Ln S) as (j & E & B & L & U).
  { intros x I ->; auto. }
  exists j; split; auto. split; auto. unfold tnth in *. split.
  - intros t P H. apply (nth_error_nth _ _ 0) in H. subst. auto.
  - intros t H. assert (Q := nth_error_lt _ _ _ H). apply (nth_error_nth _ _ 0) in H. subst.
    apply U; lia.
Qed.
Print Assumptions bisectSearch_descending_partial.

(* ... but a value equal to an entry makes the routine read outside the table (first
   entry) or abort (inner entry), and an empty table is read out of range. *)
Definition descending_ok : Prop := forall table val,
  (1 < length table)%nat -> StronglySorted Z.gt table ->
  exists j, bisectSearch table val = Ok j.
Theorem bisectSearch_descending_refuted : ~ descending_ok.
Proof.
  intros H. destruct (H [3; 2; 1] 3) as [j E]; [cbn; lia|repeat constructor|].
  vm_compute in E. discriminate.
Qed.
Print Assumptions bisectSearch_descending_refuted.
Example bisect_desc_first : bisectSearch [3; 2; 1] 3 = UB. Proof. reflexivity. Qed.
Example bisect_desc_inner : bisectSearch [3; 2; 1] 2 = Abort. Proof. reflexivity. Qed.
Theorem bisectSearch_empty_reads_outside : forall val, bisectSearch [] val = UB.
Proof. reflexivity. Qed.
Print Assumptions bisectSearch_empty_reads_outside.

Example bisect_example : bisectSearch [1; 3; 3; 7; 9] 3 = Ok 2 /\ bisectSearch [1; 3; 3; 7; 9] 0 = Ok (-1)
  /\ bisectSearch [1; 3; 3; 7; 9] 9 = Ok 4.
Proof. repeat split. Qed.
