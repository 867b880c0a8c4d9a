From Verif Require Import Base BaseFacts Rank SerializeModel MeshModel MeshSpec QuantMeshModel PLCModel PLCSpec.
From Coq Require Import Sorted.

(* ------------------------------------------------------------ sets and maps *)
Lemma zinsert_in x s y : In y (zinsert x s) <-> y = x \/ In y s.
Proof.
  induction s as [|z t IH]; cbn; [intuition|].
  destruct (Z.ltb_spec x z); cbn; [intuition|]. destruct (Z.ltb_spec z x); cbn; [rewrite IH; intuition|].
  assert (x = z) by lia. subst. intuition.
Qed.
Lemma zinsert_sorted x s : StronglySorted Z.lt s -> StronglySorted Z.lt (zinsert x s).
Proof.
  induction 1 as [|z t S IH F]; cbn; [repeat constructor|].
  destruct (Z.ltb_spec x z).
  - constructor; [constructor; auto|]. constructor; auto. eapply Forall_impl; [|eassumption]; cbn; lia.
  - destruct (Z.ltb_spec z x).
    + constructor; auto. apply Forall_forall. intros y I. apply zinsert_in in I as [->|I]; auto.
      rewrite Forall_forall in F. auto.
    + constructor; auto.
Qed.
Lemma indices_row f s : (StronglySorted Z.lt s -> StronglySorted Z.lt (fold_left (fun s x => zinsert x s) f s)) /\
  forall y, In y (fold_left (fun s x => zinsert x s) f s) <-> In y f \/ In y s.
Proof.
  revert s. induction f as [|x f IH]; intros s; cbn; [intuition|]. destruct (IH (zinsert x s)) as [A B]. split.
  - intros S. apply A, zinsert_sorted; auto.
  - intros y. rewrite B, zinsert_in. intuition.
Qed.
Lemma indices_all (fs : list (list Z)) s :
  (StronglySorted Z.lt s -> StronglySorted Z.lt (fold_left (fun s f => fold_left (fun s x => zinsert x s) f s) fs s)) /\
  forall y, In y (fold_left (fun s f => fold_left (fun s x => zinsert x s) f s) fs s) <-> (exists f, In f fs /\ In y f) \/ In y s.
Proof.
  revert s. induction fs as [|f fs IH]; intros s; cbn.
  - split; auto. intros y. split; auto. intros [(f & [] & _)|H]; auto.
  - destruct (IH (fold_left (fun s x => zinsert x s) f s)) as [A B]. destruct (indices_row f s) as [C D]. split; auto.
    intros y. rewrite B, D. split.
    + intros [(g & I & J)|[I|I]]; eauto 6.
    + intros [(g & [<-|I] & J)|I]; eauto 6.
Qed.

(* ------------------------------------------------------------ points *)
Lemma vertex_length {A} D (pts : list A) k : D * S k <= length pts -> length (vertex D pts k) = D.
Proof. intros H. unfold vertex. rewrite firstn_length, skipn_length. lia. Qed.
Lemma vertex_concat {A} D (ls : list (list A)) k l : Forall (fun l => length l = D) ls -> nth_error ls k = Some l ->
  vertex D (concat ls) k = l.
Proof.
  intros F. revert k. induction F as [|x ls Hx F IH]; intros [|k] H; try discriminate.
  - injection H as ->. unfold vertex. cbn [concat]. rewrite Nat.mul_0_r. cbn [skipn].
    rewrite firstn_app, <- Hx, firstn_all, Nat.sub_diag. cbn. apply app_nil_r.
  - unfold vertex. cbn [concat]. rewrite skipn_app. replace (D * S k - length x) with (D * k) by lia.
    rewrite skipn_all2 by lia. cbn. apply IH. auto.
Qed.
Lemma copy_ok {A} D (pts : list A) i : (0 <= i)%Z -> D * S (Z.to_nat i) <= length pts ->
  copy_point D pts i = Ok (vertex D pts (Z.to_nat i)).
Proof.
  intros H L. unfold copy_point. destruct (Z.leb_spec 0 i); [|lia].
  destruct (Nat.leb_spec (D * S (Z.to_nat i)) (length pts)); [|lia]. reflexivity.
Qed.

(* number the members of a list *)
Fixpoint number (o : Z) (l : list Z) : list (Z * Z) :=
  match l with [] => [] | x :: t => (x, o) :: number (o + 1) t end.
Lemma number_app o l l' : number o (l ++ l') = number o l ++ number (o + Z.of_nat (length l)) l'.
Proof.
  revert o. induction l as [|x l IH]; intros o; cbn [app number length].
  - f_equal. lia.
  - rewrite IH. cbn. do 2 f_equal. f_equal. lia.
Qed.
Lemma zlookup_number o l k x : NoDup l -> nth_error l k = Some x -> zlookup x (number o l) = (o + Z.of_nat k)%Z.
Proof.
  intros N. revert o k. induction N as [|y l Hy N IH]; intros o [|k] H; try discriminate; cbn.
  - injection H as ->. rewrite Z.eqb_refl. lia.
  - destruct (Z.eqb_spec y x) as [->|Ne]; [elim Hy; eapply nth_error_In; eauto|].
    cbn in H. rewrite (IH _ _ H). lia.
Qed.

Definition reduce_step {A} (D : nat) (allpoints : list A) : list (Z * Z) * Z * list A -> Z -> res (list (Z * Z) * Z * list A) :=
  fun '(old2new, j, pts) i =>
       do c <- copy_point D allpoints i; Ok (old2new ++ [(i, j)], (j + 1)%Z, pts ++ c).

Lemma reduce_fold {A} D (pts : list A) l : (forall i, In i l -> (0 <= i)%Z /\ D * S (Z.to_nat i) <= length pts) ->
  forall m j acc, mfold (reduce_step D pts) l (m, j, acc) =
    Ok (m ++ number j l, (j + Z.of_nat (length l))%Z, acc ++ concat (map (fun i => vertex D pts (Z.to_nat i)) l)).
Proof.
  induction l as [|i l IH]; intros B m j acc; cbn [mfold].
  - cbn. rewrite !app_nil_r, Z.add_0_r. reflexivity.
  - unfold reduce_step at 1. destruct (B i (or_introl eq_refl)) as [B1 B2]. rewrite (copy_ok _ _ _ B1 B2). cbn [bind].
    rewrite IH by (intros; apply B; right; auto). cbn [number map concat length].
    rewrite <- !app_assoc. cbn [app]. do 3 f_equal. lia.
Qed.
Lemma reduce_fold_ub {A} D (pts : list A) l i : In i l -> ~ ((0 <= i)%Z /\ D * S (Z.to_nat i) <= length pts) ->
  forall st, mfold (reduce_step D pts) l st = UB.
Proof.
  induction l as [|k l IH]; intros [] N [[m j] acc]; cbn [mfold].
  - subst k. unfold reduce_step at 1, copy_point. destruct (Z.leb_spec 0 i), (Nat.leb_spec (D * S (Z.to_nat i)) (length pts)); cbn; auto. lia.
  - unfold reduce_step at 1, copy_point. destruct (_ && _); cbn [bind]; auto.
Qed.

Lemma sorted_Z_nat l : (forall i, In i l -> (0 <= i)%Z) -> StronglySorted Z.lt l -> StronglySorted lt (map Z.to_nat l).
Proof.
  intros B. induction 1 as [|x l S IH F]; cbn; constructor; [apply IH; intros; apply B; right; auto|].
  rewrite Forall_forall in *. intros y I. apply in_map_iff in I as (z & <- & I). specialize (F z I).
  pose proof (B x (or_introl eq_refl)). lia.
Qed.
Lemma sorted_Z_nodup l : StronglySorted Z.lt l -> NoDup l.
Proof.
  induction 1 as [|x l S IH F]; constructor; auto. intros I. rewrite Forall_forall in F. specialize (F x I). lia.
Qed.

Definition in_range {A} (D : nat) (pts : list A) (x : Z) : Prop := (0 <= x)%Z /\ D * S (Z.to_nat x) <= length pts.

Lemma reduced_ok {A} D (p : plc) (pts : list A) :
  (forall f x, In f (facets p) -> In x f -> in_range D pts x) ->
  exists r keep, reduced D p pts = Ok r /\ ReducedTo D p pts r keep /\ rholes r = holes p.
Proof.
  intros B. unfold reduced. set (idx := fold_left _ (facets p) []).
  destruct (indices_all (facets p) []) as [S I]. fold idx in S, I. specialize (S (SSorted_nil _)).
  assert (I' : forall y, In y idx <-> exists f, In f (facets p) /\ In y f) by (intros y; rewrite I; cbn; intuition).
  clear I. assert (Bi : forall i, In i idx -> in_range D pts i).
  { intros i H. apply I' in H as (f & Hf & Hi). eauto. }
  match goal with |- context [mfold ?f idx ?st] => change (mfold f idx st) with (mfold (reduce_step D pts) idx st) end. rewrite (reduce_fold D pts idx Bi). cbn [bind app].
  set (r := mkRPLC _ _ _). exists r, (map Z.to_nat idx). split; auto. split; [|reflexivity].
  assert (Rp : rpoints r = concat (map (vertex D pts) (map Z.to_nat idx))).
  { cbn. f_equal. rewrite map_map. reflexivity. }
  constructor; auto.
  - apply sorted_Z_nat; auto. intros i H. apply Bi; auto.
  - intros i. rewrite in_map_iff. split.
    + intros (z & <- & H). pose proof (Bi z H) as [H0 _]. rewrite Z2Nat.id by auto. apply I'. auto.
    + intros H. exists (Z.of_nat i). rewrite Nat2Z.id. split; auto. apply I'. auto.
  - cbn [rfacets r]. assert (G : forall fs, incl fs (facets p) -> Forall2 (Forall2 (fun x x' => (0 <= x')%Z /\
        nth_error (map Z.to_nat idx) (Z.to_nat x') = Some (Z.to_nat x) /\
        vertex D (rpoints r) (Z.to_nat x') = vertex D pts (Z.to_nat x))) fs (map (map (fun x => zlookup x (number 0 idx))) fs)).
    { induction fs as [|f fs IH]; intros L; cbn [map]; constructor; [|apply IH; intros g Hg; apply L; right; auto].
      assert (Lf : forall x, In x f -> In x idx) by (intros x Hx; apply I'; exists f; split; auto; apply L; left; auto).
      clear - Lf S Bi Rp. induction f as [|x f IH]; cbn [map]; constructor; [|apply IH; intros; apply Lf; right; auto].
      destruct (In_nth_error _ _ (Lf x (or_introl eq_refl))) as [k Hk].
      rewrite (zlookup_number 0 idx k x (sorted_Z_nodup _ S) Hk). cbn [Z.add]. rewrite Nat2Z.id.
      assert (K : nth_error (map Z.to_nat idx) k = Some (Z.to_nat x)) by (apply map_nth_error; auto).
      split; [lia|]. split; auto. rewrite Rp. apply vertex_concat; [|apply map_nth_error; auto].
      apply Forall_forall. intros l Hl. apply in_map_iff in Hl as (y & <- & Hy). apply in_map_iff in Hy as (z & <- & Hz).
      apply vertex_length. apply (Bi z Hz). }
    apply G. apply incl_refl.
Qed.

Lemma reduced_ub {A} D (p : plc) (pts : list A) f x : In f (facets p) -> In x f -> ~ in_range D pts x -> reduced D p pts = UB.
Proof.
  intros Hf Hx N. unfold reduced. set (idx := fold_left _ (facets p) []).
  destruct (indices_all (facets p) []) as [_ I]. fold idx in I. match goal with |- context [mfold ?f idx ?st] => change (mfold f idx st) with (mfold (reduce_step D pts) idx st) end.
  rewrite (reduce_fold_ub D pts idx x); auto. apply I. left. eauto.
Qed.

(* when the first k+1 points are all used, point k keeps its number *)
Lemma sorted_initial keep k : StronglySorted lt keep -> (forall i, i <= k -> In i keep) -> nth_error keep k = Some k.
Proof.
  revert keep. assert (G : forall k o keep, StronglySorted lt keep -> (forall i, In i keep -> o <= i) ->
     (forall i, o <= i <= o + k -> In i keep) -> nth_error keep k = Some (o + k)).
  { clear. induction k as [|k IH]; intros o keep Srt L B.
    - destruct Srt as [|x t Srt F]; [destruct (B o); lia|]. cbn. f_equal. destruct (B o) as [E|I]; [lia|lia|].
      rewrite Forall_forall in F. specialize (F o I). pose proof (L x (or_introl eq_refl)). lia.
    - destruct Srt as [|x t Srt F]; [destruct (B o); lia|]. cbn [nth_error]. rewrite Forall_forall in F.
      assert (x = o). { destruct (B o) as [E|I]; [lia|auto|]. specialize (F o I). pose proof (L x (or_introl eq_refl)). lia. }
      subst x. rewrite (IH (S o)); [f_equal; lia|auto|intros i I; specialize (F i I); lia|].
      intros i H. destruct (B i) as [E|I]; [lia|lia|auto]. }
  intros keep Srt B. apply (G k 0); auto; [lia|]. intros i H. apply B. lia.
Qed.
