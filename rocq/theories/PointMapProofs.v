From Verif Require Import Base BaseFacts StdAlg PointMapModel.
From Coq Require Import Sorted Permutation.
Local Open Scope Z_scope.

Definition keylt (a b : Z * list nat) : Prop := fst a < fst b.

Lemma lower_bound_split c v : StronglySorted keylt c ->
  Forall (fun e => fst e < v) (firstn (lower_bound c v) c) /\
  Forall (fun e => v <= fst e) (skipn (lower_bound c v) c).
Proof.
  induction 1 as [|[k ids] t S IH F]; cbn; [split; constructor|].
  destruct (Z.ltb_spec k v); cbn.
  - destruct IH; split; auto.
  - split; [constructor|]. constructor; [auto|].
    eapply Forall_impl; [|eassumption]. unfold keylt; cbn; intros; lia.
Qed.

Lemma upper_bound_split c v : StronglySorted keylt c ->
  Forall (fun e => fst e <= v) (firstn (upper_bound c v) c) /\
  Forall (fun e => v < fst e) (skipn (upper_bound c v) c).
Proof.
  induction 1 as [|[k ids] t S IH F]; cbn; [split; constructor|].
  destruct (Z.ltb_spec v k); cbn.
  - split; [constructor|]. constructor; [auto|].
    eapply Forall_impl; [|eassumption]. unfold keylt; cbn; intros; lia.
  - destruct IH; split; auto.
Qed.

Lemma lower_bound_le c v : (lower_bound c v <= length c)%nat.
Proof. induction c as [|[k i] t IH]; cbn; [lia|]. destruct (k <? v); cbn; lia. Qed.
Lemma upper_bound_le c v : (upper_bound c v <= length c)%nat.
Proof. induction c as [|[k i] t IH]; cbn; [lia|]. destruct (v <? k); cbn; lia. Qed.

Lemma lower_bound_mono c v w : v <= w -> (lower_bound c v <= lower_bound c w)%nat.
Proof.
  intros L; induction c as [|[k i] t IH]; cbn; [lia|].
  destruct (Z.ltb_spec k v), (Z.ltb_spec k w); lia.
Qed.
Lemma lower_upper c v w : v <= w -> (lower_bound c v <= upper_bound c w)%nat.
Proof.
  intros L; induction c as [|[k i] t IH]; cbn; [lia|].
  destruct (Z.ltb_spec k v), (Z.ltb_spec w k); lia.
Qed.

Lemma slice_sub_lb c lo up x : StronglySorted keylt c ->
  (lo <= lower_bound c x)%nat -> (lower_bound c x <= up)%nat ->
  (lo + lower_bound (slice c lo up) x = lower_bound c x)%nat.
Proof.
  intros S. unfold slice. revert lo up; induction S as [|[k i] t S IH F]; intros lo up H1 H2.
  - cbn in *. rewrite skipn_nil, firstn_nil; cbn; lia.
  - destruct lo as [|lo].
    + cbn [skipn]. rewrite Nat.sub_0_r. destruct up as [|up]; [cbn in *; lia|].
      cbn in *. destruct (k <? x); [|lia].
      specialize (IH 0%nat up). rewrite Nat.sub_0_r in IH; cbn in IH. rewrite IH; lia.
    + cbn in *. destruct (k <? x); [|lia]. destruct up as [|up]; [lia|].
      cbn. rewrite IH; lia.
Qed.

Lemma slice_in tol c x e : 0 <= tol -> StronglySorted keylt c ->
  In e (slice c (lower_bound c (x - tol)) (upper_bound c (x + tol))) <->
  In e c /\ Z.abs (fst e - x) <= tol.
Proof.
  intros T S. unfold slice.
  set (lo := lower_bound c (x - tol)). set (up := upper_bound c (x + tol)).
  assert (LU : (lo <= up)%nat) by (apply lower_upper; lia).
  destruct (lower_bound_split c (x - tol) S) as [A1 A2]. fold lo in A1, A2.
  destruct (upper_bound_split c (x + tol) S) as [B1 B2]. fold up in B1, B2.
  rewrite Forall_forall in *.
  assert (Ec : c = firstn lo c ++ firstn (up - lo) (skipn lo c) ++ skipn up c).
  { rewrite <- (firstn_skipn lo c) at 1. f_equal.
    rewrite <- (firstn_skipn (up - lo) (skipn lo c)) at 1. f_equal.
    rewrite skipn_skipn. f_equal; lia. }
  split.
  - intros I. split.
    + rewrite Ec. apply in_or_app; right; apply in_or_app; left; auto.
    + assert (x - tol <= fst e).
      { apply A2. rewrite <- (firstn_skipn (up - lo) (skipn lo c)). apply in_or_app; auto. }
      assert (fst e <= x + tol).
      { apply B1. rewrite firstn_skipn_comm in I.
        replace (lo + (up - lo))%nat with up in I by lia.
        rewrite <- (firstn_skipn lo (firstn up c)). apply in_or_app; auto. }
      lia.
  - intros [I L]. rewrite Ec in I. apply in_app_or in I as [I|I]; [apply A1 in I; lia|].
    apply in_app_or in I as [I|I]; [auto|apply B2 in I; lia].
Qed.

(* the container of one dimension represents the list of coordinates of points 0,1,... *)
Record Rep (c : container) (xs : list Z) : Prop := {
  rep_sorted : StronglySorted keylt c;
  rep_nodup : NoDup (flat_map snd c);
  rep_sound : forall k ids, In (k, ids) c ->
     ids <> [] /\ forall i, In i ids -> nth_error xs i = Some k;
  rep_complete : forall i x, nth_error xs i = Some x -> exists ids, In (x, ids) c /\ In i ids }.

Lemma NoDup_app_r {A} (l1 l2 : list A) : NoDup (l1 ++ l2) -> NoDup l2.
Proof. induction l1; cbn; [auto|]. inversion 1; auto. Qed.
Lemma NoDup_app_l {A} (l1 l2 : list A) : NoDup (l1 ++ l2) -> NoDup l1.
Proof.
  induction l1; cbn; [constructor|]. inversion 1; subst. constructor; auto.
  intros I; apply H2, in_or_app; auto.
Qed.

Lemma dimIDs_spec tol c xs x : 0 <= tol -> Rep c xs ->
  StronglySorted lt (dimIDs tol c x) /\
  forall i, In i (dimIDs tol c x) <-> exists y, nth_error xs i = Some y /\ Z.abs (y - x) <= tol.
Proof.
  intros T [S N Sd C]. unfold dimIDs, bounds. split.
  - apply sort_nodup. unfold slice.
    set (lo := lower_bound c (x - tol)). set (m := (upper_bound c (x + tol) - lo)%nat).
    rewrite <- (firstn_skipn lo c), flat_map_app in N. apply NoDup_app_r in N.
    rewrite <- (firstn_skipn m (skipn lo c)), flat_map_app in N. apply NoDup_app_l in N. auto.
  - intros i. rewrite sort_in, in_flat_map. split.
    + intros ([k ids] & I & J). apply slice_in in I as [I L]; auto.
      cbn in *. exists k; split; auto. apply (Sd k ids); auto.
    + intros (y & E & L). destruct (C i y E) as (ids & I & J).
      exists (y, ids); split; [|auto]. apply slice_in; auto.
Qed.

Lemma slice_nil_iff c lo up : (lo <= up <= length c)%nat ->
  (lo =? up)%nat = true <-> slice c lo up = [].
Proof.
  intros L. rewrite Nat.eqb_eq. unfold slice. split; intros E.
  - rewrite E, Nat.sub_diag; reflexivity.
  - assert (X : length (firstn (up - lo) (skipn lo c)) = 0%nat) by (rewrite E; auto).
    rewrite firstn_length, skipn_length in X. lia.
Qed.

(* empty range <-> no coordinate near *)
Lemma empty_dim tol c xs x : 0 <= tol -> Rep c xs ->
  (let (lo, up) := bounds tol c x in (lo =? up)%nat) = true <->
  forall y, In y xs -> Z.abs (y - x) > tol.
Proof.
  intros T R. unfold bounds. rewrite slice_nil_iff.
  2:{ split; [apply lower_upper; lia|apply upper_bound_le]. }
  destruct R as [S N Sd C]. split.
  - intros E y I. apply In_nth_error in I as [i I]. destruct (C i y I) as (ids & J & _).
    destruct (Z.le_gt_cases (Z.abs (y - x)) tol); [|lia]. exfalso.
    assert (X : In (y, ids) (slice c (lower_bound c (x - tol)) (upper_bound c (x + tol)))).
    { apply slice_in; auto. }
    rewrite E in X; contradiction.
  - intros H. destruct (slice c _ _) as [|[k ids] r] eqn:E; [reflexivity|]. exfalso.
    assert (X : In (k, ids) (slice c (lower_bound c (x - tol)) (upper_bound c (x + tol)))).
    { rewrite E; left; auto. }
    apply slice_in in X as [X L]; auto. destruct (Sd k ids X) as [Ne So].
    destruct ids as [|i ids]; [congruence|].
    assert (In k xs) by (eapply nth_error_In; apply So; left; auto).
    apply H in H0. cbn in L; lia.
Qed.

Lemma ssorted_app {A} (R : A -> A -> Prop) l1 l2 :
  StronglySorted R (l1 ++ l2) <->
  StronglySorted R l1 /\ StronglySorted R l2 /\ (forall a b, In a l1 -> In b l2 -> R a b).
Proof.
  induction l1 as [|a l1 IH]; cbn.
  - split; [intros H; repeat split; auto; [constructor|tauto]|tauto].
  - split.
    + inversion 1 as [|? ? S F]; subst. apply IH in S as (S1 & S2 & C).
      rewrite Forall_app in F. destruct F as [F1 F2]. rewrite Forall_forall in F2.
      repeat split; auto; [constructor; auto|]. intros x b [->|I] J; auto.
    + intros (S1 & S2 & C). inversion S1; subst. constructor.
      * apply IH; repeat split; auto.
      * rewrite Forall_app; split; auto. rewrite Forall_forall. auto.
Qed.

Lemma upd_app_mid {A} (l1 l2 : list A) x a : upd (l1 ++ x :: l2) (length l1) a = l1 ++ a :: l2.
Proof. apply upd_app. Qed.

Lemma nodup_mid {A} (l1 l2 : list A) x : NoDup (l1 ++ l2) -> ~ In x (l1 ++ l2) ->
  NoDup (l1 ++ x :: l2).
Proof.
  intros. apply NoDup_Add with (a:=x) (l:=l1 ++ l2); [apply Add_app|]. auto.
Qed.

Lemma nth_error_snoc {A} (l : list A) a i y :
  nth_error (l ++ [a]) i = Some y <-> nth_error l i = Some y \/ (i = length l /\ y = a).
Proof.
  destruct (Nat.lt_ge_cases i (length l)).
  - rewrite nth_error_app1 by auto. split; [auto|]. intros [|[? ?]]; [auto|lia].
  - rewrite nth_error_app2 by auto. split.
    + intros H'. destruct (i - length l)%nat eqn:E; cbn in H'.
      * right; split; [lia|congruence].
      * destruct n; discriminate.
    + intros [H'|[-> ->]].
      * apply nth_error_lt in H'; lia.
      * rewrite Nat.sub_diag; reflexivity.
Qed.

Lemma add_id_rep tol c xs x : 0 <= tol -> Rep c xs ->
  Rep (let (lo, up) := bounds tol c x in add_id c lo up x (length xs)) (xs ++ [x]).
Proof.
  intros T R. assert (R' := R). destruct R' as [S N Sd C]. unfold bounds, add_id.
  rewrite slice_sub_lb; auto.
  2:{ apply lower_bound_mono; lia. }
  2:{ apply lower_upper; lia. }
  set (b := lower_bound c x).
  destruct (lower_bound_split c x S) as [A1 A2]. fold b in A1, A2.
  rewrite Forall_forall in A1, A2.
  assert (Fresh : ~ In (length xs) (flat_map snd c)).
  { intros I. apply in_flat_map in I as ([k ids] & I & J). destruct (Sd k ids I) as [_ So].
    apply So, nth_error_lt in J. lia. }
  assert (Ec : c = firstn b c ++ skipn b c) by (symmetry; apply firstn_skipn).
  assert (Lb : length (firstn b c) = b) by apply firstn_length_le, lower_bound_le.
  revert Ec Lb A1 A2. generalize (firstn b c) (skipn b c). intros c1 c2 Ec Lb A1 A2.
  (* the insertion case *)
  assert (Ins : (forall k ids, In (k, ids) c2 -> k <> x) ->
                Rep (c1 ++ (x, [length xs]) :: c2) (xs ++ [x])).
  { intros Nx. rewrite Ec in S. apply ssorted_app in S as (S1 & S2 & S12). constructor.
    - apply ssorted_app; split; [auto|]. split.
      + constructor; auto. apply Forall_forall. intros [k ids] I. unfold keylt; cbn.
        pose proof (A2 _ I). pose proof (Nx _ _ I). cbn in *. lia.
      + intros e e' I [<-|J]; [|auto]. unfold keylt; cbn. apply A1; auto.
    - rewrite Ec, flat_map_app in N, Fresh. rewrite flat_map_app. cbn.
      apply nodup_mid; auto.
    - intros k ids I. apply in_app_or in I as [I|[I|I]].
      + destruct (Sd k ids) as [Ne So]; [rewrite Ec; apply in_or_app; auto|].
        split; auto. intros i J. apply nth_error_snoc; left; auto.
      + inversion I; subst. split; [congruence|]. intros i [<-|[]].
        apply nth_error_snoc; right; auto.
      + destruct (Sd k ids) as [Ne So]; [rewrite Ec; apply in_or_app; auto|].
        split; auto. intros i J. apply nth_error_snoc; left; auto.
    - intros i y E. apply nth_error_snoc in E as [E|[-> ->]].
      + destruct (C i y E) as (ids & I & J). exists ids; split; auto.
        rewrite Ec in I. apply in_app_or in I as [I|I]; apply in_or_app; [auto|right; right; auto].
      + exists [length xs]; split; [apply in_or_app; right; left; auto|left; auto]. }
  assert (Enth : nth_error c b = nth_error c2 0).
  { rewrite Ec at 1. rewrite nth_error_app2 by lia. f_equal; lia. }
  rewrite Enth. destruct c2 as [|[k ids] c2'] eqn:E2; cbn [nth_error].
  - apply Ins. intros ? ? [].
  - assert (Bk : x <= k) by (apply (A2 (k, ids)); left; auto).
    destruct (Z.eqb_spec k x) as [->|Nk].
    + replace (upd c b (x, ids ++ [length xs])) with (c1 ++ (x, ids ++ [length xs]) :: c2').
      2:{ rewrite Ec, <- Lb. symmetry; apply upd_app_mid. }
      assert (S' := S). rewrite Ec in S'. apply ssorted_app in S' as (S1 & S2 & S12).
      destruct (StronglySorted_inv S2) as [S2' F2]. constructor.
      * apply ssorted_app; split; [auto|]. split; [constructor; auto|].
        intros e e' I [<-|J]; [|apply S12; [auto|right; auto]].
        apply (S12 e (x, ids)); [auto|left; auto].
      * rewrite Ec, flat_map_app in N, Fresh. rewrite flat_map_app. cbn in *.
        rewrite <- app_assoc. cbn. rewrite app_assoc in *.
        apply nodup_mid; rewrite <- app_assoc in *; auto.
      * intros k0 ids0 I. apply in_app_or in I as [I|[I|I]].
        -- destruct (Sd k0 ids0) as [Ne So]; [rewrite Ec; apply in_or_app; auto|].
           split; auto. intros i J. apply nth_error_snoc; left; auto.
        -- injection I as <- <-. split; [destruct ids; discriminate|].
           intros i J. apply nth_error_snoc. apply in_app_or in J as [J|[<-|[]]]; [left|right; auto].
           apply (Sd x ids); auto. rewrite Ec. apply in_or_app; right; left; auto.
        -- destruct (Sd k0 ids0) as [Ne So]; [rewrite Ec; apply in_or_app; right; right; auto|].
           split; auto. intros i J. apply nth_error_snoc; left; auto.
      * intros i y E. apply nth_error_snoc in E as [E|[-> ->]].
        -- destruct (C i y E) as (ids' & I & J). rewrite Ec in I.
           apply in_app_or in I as [I|[I|I]].
           ++ exists ids'; split; auto. apply in_or_app; auto.
           ++ injection I as <- <-. exists (ids ++ [length xs]).
              split; [apply in_or_app; right; left; auto|apply in_or_app; auto].
           ++ exists ids'; split; auto. apply in_or_app; right; right; auto.
        -- exists (ids ++ [length xs]).
           split; apply in_or_app; right; left; auto.
    + apply Ins. intros k0 ids0 [I|I]; [inversion I; subst; auto|].
      assert (S' := S). rewrite Ec in S'. apply ssorted_app in S' as (_ & S2 & _).
      destruct (StronglySorted_inv S2) as [_ F2]. rewrite Forall_forall in F2.
      apply F2 in I. unfold keylt in I; cbn in I. lia.
Qed.

(* all dimensions *)
Fixpoint RepAll (cs : list container) (pts : list (list Z)) : Prop :=
  match cs with
  | [] => True
  | c :: cs => Rep c (map (hd 0) pts) /\ RepAll cs (map (@tl Z) pts)
  end.

Definition near (tol : Z) (p q : list Z) : Prop := Forall2 (fun a b => Z.abs (a - b) <= tol) p q.

Lemma add_all_rep tol cs pts p : 0 <= tol -> length p = length cs -> RepAll cs pts ->
  RepAll (add_all tol cs p (length pts)) (pts ++ [p]).
Proof.
  intros T. revert pts p; induction cs as [|c cs IH]; intros pts p L R; [exact I|].
  destruct p as [|x p]; [discriminate|]. cbn in L. destruct R as [R1 R2].
  cbn [add_all]. pose proof (add_id_rep tol c _ x T R1) as A.
  rewrite map_length in A. destruct (bounds tol c x) as [lo up].
  cbn [RepAll]. rewrite !map_app. cbn [map hd tl]. split; [auto|].
  replace (length pts) with (length (map (@tl Z) pts)) by apply map_length.
  apply IH; [lia|auto].
Qed.

Lemma add_all_length tol cs p id : length p = length cs -> length (add_all tol cs p id) = length cs.
Proof.
  revert p; induction cs as [|c cs IH]; intros [|x p] L; cbn in *; try lia.
  destruct (bounds tol c x). cbn. rewrite IH; lia.
Qed.

Lemma match_dims_spec tol cs pts p M :
  0 <= tol -> length p = length cs -> RepAll cs pts -> Forall (fun q => length q = length cs) pts ->
  StronglySorted lt M -> (forall i, In i M -> (i < length pts)%nat) ->
  match match_dims tol cs p M with
  | None => forall i q, In i M -> nth_error pts i = Some q -> ~ near tol q p
  | Some M' => StronglySorted lt M' /\ (M <> [] -> M' <> []) /\
      forall i, In i M' <-> In i M /\ exists q, nth_error pts i = Some q /\ near tol q p
  end.
Proof.
  intros T. revert pts p M; induction cs as [|c cs IH]; intros pts p M L R FL S B.
  - destruct p; [|discriminate]. cbn. split; [auto|]. split; [auto|]. intros i; split; [|tauto].
    intros I. split; auto. destruct (nth_error_ex pts i (B i I)) as [q Hq]. exists q; split; auto.
    rewrite Forall_forall in FL. apply nth_error_In, FL in Hq. destruct q; [constructor|discriminate].
  - destruct p as [|x p]; [discriminate|]. destruct R as [R1 R2]. cbn in L.
    destruct (dimIDs_spec tol c _ x T R1) as [DS DI].
    assert (II : forall i, In i (set_inter M (dimIDs tol c x)) <->
               In i M /\ exists y, nth_error (map (hd 0) pts) i = Some y /\ Z.abs (y - x) <= tol).
    { intros i. rewrite set_inter_in by auto. rewrite DI. reflexivity. }
    assert (IS := set_inter_sorted M _ S DS).
    (* near decomposes *)
    assert (Nr : forall i q, nth_error pts i = Some q -> near tol q (x :: p) <->
               Z.abs (hd 0 q - x) <= tol /\ near tol (tl q) p).
    { intros i q Hq. rewrite Forall_forall in FL. apply nth_error_In, FL in Hq.
      destruct q as [|y q]; [discriminate|]. cbn. unfold near. split.
      - inversion 1; auto.
      - intros [? ?]; constructor; auto. }
    assert (Hm : forall i q, nth_error pts i = Some q -> nth_error (map (hd 0) pts) i = Some (hd 0 q)).
    { intros; apply map_nth_error; auto. }
    cbn [match_dims]. destruct (set_inter M (dimIDs tol c x)) as [|i0 inter] eqn:E.
    + intros i q I Hq Nq. apply (Nr i q Hq) in Nq as [N1 N2].
      apply (proj2 (II i)). split; auto. exists (hd 0 q); auto.
    + assert (B' : forall i, In i (i0 :: inter) -> (i < length (map (@tl Z) pts))%nat).
      { intros i I. rewrite map_length. apply II in I as [I _]. auto. }
      assert (FL' : Forall (fun q => length q = length cs) (map (@tl Z) pts)).
      { rewrite Forall_forall in *. intros q I. apply in_map_iff in I as (q0 & <- & I).
        apply FL in I. destruct q0; cbn in *; lia. }
      specialize (IH (map (@tl Z) pts) p (i0 :: inter) ltac:(lia) R2 FL' IS B').
      destruct (match_dims tol cs p (i0 :: inter)) as [M'|].
      * destruct IH as (S' & Ne & IH). split; [auto|]. split; [intros _; apply Ne; congruence|].
        intros i. rewrite IH, II. split.
        -- intros [[I (y & Hy & Ly)] (q' & Hq' & Nq)]. split; auto.
           destruct (nth_error_ex pts i (B i I)) as [q Hq]. exists q; split; auto.
           apply (Nr i q Hq). rewrite (Hm i q Hq) in Hy. rewrite (map_nth_error (@tl Z) i pts Hq) in Hq'.
           inversion Hy; inversion Hq'; subst; auto.
        -- intros [I (q & Hq & Nq)]. apply (Nr i q Hq) in Nq as [N1 N2]. split.
           ++ split; auto. exists (hd 0 q); auto.
           ++ exists (tl q). split; auto. apply map_nth_error; auto.
      * intros i q I Hq Nq. apply (Nr i q Hq) in Nq as [N1 N2].
        apply (IH i (tl q)); auto.
        -- apply II. split; auto. exists (hd 0 q); auto.
        -- apply map_nth_error; auto.
Qed.

Lemma some_empty_spec tol cs pts p : 0 <= tol -> length p = length cs -> RepAll cs pts ->
  Forall (fun q => length q = length cs) pts ->
  some_empty tol cs p = true -> forall q, In q pts -> ~ near tol q p.
Proof.
  intros T. revert pts p; induction cs as [|c cs IH]; intros pts p L R FL E q I N.
  - destruct p; discriminate.
  - destruct p as [|x p]; [discriminate|]. destruct R as [R1 R2].
    assert (Lq : length q = Datatypes.S (length cs)).
    { rewrite Forall_forall in FL; apply FL; auto. }
    destruct q as [|y q]; [discriminate|]. inversion N as [|? ? ? ? Ny N']; subst.
    cbn [some_empty] in E. pose proof (empty_dim tol c _ x T R1) as ED.
    destruct (bounds tol c x) as [lo up]. apply orb_true_iff in E as [E|E].
    + apply (proj1 ED) with (y:=y) in E; [lia|].
      change y with (hd 0 (y :: q)). apply in_map; auto.
    + eapply (IH (map (@tl Z) pts) p) with (q:=q); auto.
      * rewrite Forall_forall in *. intros q' I'. apply in_map_iff in I' as (q0 & <- & I').
        apply FL in I'. destruct q0; cbn in *; lia.
      * change q with (tl (y :: q)). apply in_map; auto.
Qed.

Lemma some_empty_false_dim0 tol c cs x p : some_empty tol (c :: cs) (x :: p) = false ->
  (let (lo, up) := bounds tol c x in (lo =? up)%nat) = false.
Proof.
  cbn [some_empty]. destruct (bounds tol c x). intros H. apply orb_false_iff in H; tauto.
Qed.

(* abstraction relation between a map and the points indexed so far (id = position) *)
Definition Holds (m : ipmap) (D : nat) (tol : Z) (pts : list (list Z)) : Prop :=
  mtol m = tol /\ current m = length pts /\ length (coords m) = D /\
  Forall (fun q => length q = D) pts /\ RepAll (coords m) pts.

Lemma ipm_sorted m D tol pts : Holds m D tol pts ->
  forall c, In c (coords m) -> StronglySorted keylt c.
Proof.
  intros (_ & _ & _ & _ & R). revert pts R; induction (coords m) as [|c cs IH]; [intros ? ? ? []|].
  intros pts [R1 R2] c' [<-|I]; [apply R1|eapply IH; eauto].
Qed.

Lemma new_holds D tol : Holds (ipm_new D tol) D tol [].
Proof.
  unfold Holds, ipm_new; cbn. rewrite repeat_length. repeat split; auto.
  induction D; cbn; [exact I|]. split; auto. constructor; cbn.
  - constructor.
  - constructor.
  - intros ? ? [].
  - intros [|i]; discriminate.
Qed.

Lemma index_spec m D tol pts p : 0 <= tol -> (0 < D)%nat -> length p = D -> Holds m D tol pts ->
  (exists k q, nth_error pts k = Some q /\ near tol q p /\ index m p = Ok (k, m) /\
     (forall k' q', nth_error pts k' = Some q' -> near tol q' p -> k' = k)) \/
  (exists k k' q q', k <> k' /\ nth_error pts k = Some q /\ nth_error pts k' = Some q' /\
     near tol q p /\ near tol q' p /\ index m p = Abort) \/
  ((forall q, In q pts -> ~ near tol q p) /\
     exists m', index m p = Ok (length pts, m') /\ Holds m' D tol (pts ++ [p])).
Proof.
  intros T DP Lp (Em & Ec & LD & FL & R). subst tol. destruct LD.
  assert (New : Holds (mkIpmap (add_all (mtol m) (coords m) p (current m)) (mtol m) (S (current m)))
                      (length (coords m)) (mtol m) (pts ++ [p])).
  { unfold Holds; cbn. rewrite app_length, add_all_length by auto. cbn. repeat split; auto; try lia.
    - apply Forall_app; split; auto.
    - rewrite Ec. apply add_all_rep; auto. }
  unfold index. destruct (some_empty (mtol m) (coords m) p) eqn:SE.
  { right; right. split.
    - intros q I. exact (some_empty_spec _ _ pts p T Lp R FL SE q I).
    - eexists; split; [rewrite <- Ec; reflexivity|exact New]. }
  remember (coords m) as cs eqn:Hcs. destruct cs as [|c cs]; [cbn in DP; lia|].
  destruct p as [|x p]; [discriminate|]. cbn in Lp.
  assert (FL0 := FL). assert (R0 := R). destruct R as [R1 R2].
  destruct (dimIDs_spec (mtol m) c _ x T R1) as [DS DI].
  apply some_empty_false_dim0 in SE.
  assert (NE : dimIDs (mtol m) c x <> []).
  { intros E. rewrite <- not_true_iff_false in SE. apply SE. apply empty_dim with (xs := map (hd 0) pts); auto.
    intros y I. apply In_nth_error in I as [i Hi].
    destruct (Z.le_gt_cases (Z.abs (y - x)) (mtol m)); [|lia].
    assert (J : In i (dimIDs (mtol m) c x)) by (apply DI; eauto). rewrite E in J; contradiction. }
  assert (FL' : Forall (fun q => length q = length cs) (map (@tl Z) pts)).
  { rewrite Forall_forall in *. intros q I. apply in_map_iff in I as (q0 & <- & I).
    apply FL in I. destruct q0; cbn in *; lia. }
  assert (B : forall i, In i (dimIDs (mtol m) c x) -> (i < length (map (@tl Z) pts))%nat).
  { intros i I. apply DI in I as (y & Hy & _). apply nth_error_lt in Hy.
    rewrite map_length in *; auto. }
  pose proof (match_dims_spec (mtol m) cs _ p _ T ltac:(lia) R2 FL' DS B) as MS.
  assert (Nr : forall i q, nth_error pts i = Some q -> near (mtol m) q (x :: p) <->
             In i (dimIDs (mtol m) c x) /\ exists q', nth_error (map (@tl Z) pts) i = Some q' /\ near (mtol m) q' p).
  { intros i q Hq. rewrite DI. assert (Hl := Hq). rewrite Forall_forall in FL. apply nth_error_In, FL in Hl.
    rewrite (map_nth_error (@tl Z) i pts Hq), (map_nth_error (hd 0) i pts Hq).
    destruct q as [|y q]; [discriminate|]. cbn. unfold near. split.
    - inversion 1; subst. split; [exists y; auto|exists q; auto].
    - intros [(y' & Ey & Hy) (q' & Eq & Hq')]. inversion Ey; inversion Eq; subst. constructor; auto. }
  destruct (match_dims (mtol m) cs p (dimIDs (mtol m) c x)) as [M|].
  - destruct MS as (MSo & MNe & MI). specialize (MNe NE).
    assert (NM : forall i, In i M <-> exists q, nth_error pts i = Some q /\ near (mtol m) q (x :: p)).
    { intros i. rewrite MI. split.
      - intros [I (q' & Hq' & Nq)]. destruct (nth_error_ex pts i) as [q Hq].
        { apply B in I. rewrite map_length in I; auto. }
        exists q; split; auto. apply (Nr i q Hq). split; auto. exists q'; auto.
      - intros (q & Hq & Nq). apply (Nr i q Hq) in Nq as [A B']. split; auto. }
    destruct M as [|k [|k' M]]; [congruence| |].
    + left. destruct (proj1 (NM k)) as (q & Hq & Nq); [left; auto|].
      exists k, q. cbn. repeat split; auto.
      intros k' q' Hk' Nk'. destruct (proj2 (NM k')) as [|[]]; [eauto|auto].
    + right; left. destruct (proj1 (NM k)) as (q & Hq & Nq); [left; auto|].
      destruct (proj1 (NM k')) as (q' & Hq' & Nq'); [right; left; auto|].
      exists k, k', q, q'. cbn. repeat split; auto.
      inversion MSo as [|? ? _ F]; subst. inversion F; subst. lia.
  - right; right. split.
    + intros q I N. apply In_nth_error in I as [i Hi]. apply (Nr i q Hi) in N as [I' (q' & Hq' & Nq)].
      apply (MS i q'); auto.
    + eexists; split; [rewrite <- Ec; reflexivity|exact New].
Qed.

(* have in two dimensions *)
Lemma have_spec2 m tol pts p : 0 <= tol -> length p = 2%nat -> Holds m 2 tol pts ->
  have m p = true <-> exists q, In q pts /\ near tol q p.
Proof.
  intros T Lp (Em & Ec & LD & FL & R). subst tol.
  unfold have. destruct (some_empty (mtol m) (coords m) p) eqn:SE.
  { split; [discriminate|]. intros (q & I & N). exfalso.
    eapply some_empty_spec; eauto; rewrite LD; auto. }
  destruct (coords m) as [|c0 [|c1 [|]]]; try discriminate.
  destruct p as [|x [|y [|]]]; try discriminate.
  cbn in R. destruct R as (R1 & R2 & _).
  destruct (dimIDs_spec (mtol m) c0 _ x T R1) as [DS0 DI0].
  destruct (dimIDs_spec (mtol m) c1 _ y T R2) as [DS1 DI1].
  assert (E : have_dims (mtol m) [c1] [y] (dimIDs (mtol m) c0 x) = true <->
              set_inter (dimIDs (mtol m) c0 x) (dimIDs (mtol m) c1 y) <> []).
  { cbn. destruct (set_inter _ _); split; congruence. }
  rewrite E. split.
  - intros Ne. destruct (set_inter _ _) as [|i r] eqn:Es; [congruence|].
    assert (I : In i (set_inter (dimIDs (mtol m) c0 x) (dimIDs (mtol m) c1 y))) by (rewrite Es; left; auto).
    apply set_inter_in in I as [I0 I1]; auto.
    apply DI0 in I0 as (a & Ha & La). apply DI1 in I1 as (b & Hb & Lb).
    destruct (nth_error_ex pts i) as [q Hq].
    { apply nth_error_lt in Ha. rewrite map_length in Ha; auto. }
    rewrite (map_nth_error (hd 0) i pts Hq) in Ha.
    rewrite (map_nth_error (hd 0) i _ (map_nth_error (@tl Z) i pts Hq)) in Hb.
    exists q. split; [eapply nth_error_In; eauto|].
    rewrite Forall_forall in FL. apply nth_error_In, FL in Hq.
    destruct q as [|u [|v [|]]]; try discriminate. cbn in *.
    inversion Ha; inversion Hb; subst. repeat constructor; auto.
  - intros (q & I & N). apply In_nth_error in I as [i Hi].
    inversion N as [|u ? q' ? Nu N']; subst. inversion N' as [|v ? q'' ? Nv N'']; subst.
    inversion N''; subst.
    intros Es. assert (J : In i (set_inter (dimIDs (mtol m) c0 x) (dimIDs (mtol m) c1 y))).
    { apply set_inter_in; auto. split.
      - apply DI0. exists u. split; auto. apply (map_nth_error (hd 0)) in Hi. exact Hi.
      - apply DI1. exists v. split; auto. apply (map_nth_error (@tl Z)) in Hi.
        apply (map_nth_error (hd 0)) in Hi. exact Hi. }
    rewrite Es in J; contradiction.
Qed.

(* have never denies a point that is there, in any dimension *)
Lemma have_dims_complete tol cs pts p M i q :
  0 <= tol -> length p = length cs -> RepAll cs pts -> Forall (fun q => length q = length cs) pts ->
  StronglySorted lt M -> In i M -> nth_error pts i = Some q -> near tol q p ->
  have_dims tol cs p M = true.
Proof.
  intros T. revert pts p q; induction cs as [|c cs IH]; intros pts p q L R FL S Im Hi N.
  - destruct p; reflexivity.
  - destruct p as [|x p]; [reflexivity|]. destruct R as [R1 R2].
    destruct (dimIDs_spec tol c _ x T R1) as [DS DI].
    inversion N as [|y ? q' ? Ny N']; subst.
    cbn [have_dims]. destruct (set_inter M (dimIDs tol c x)) eqn:E.
    + assert (J : In i (set_inter M (dimIDs tol c x))).
      { apply set_inter_in; auto. split; auto. apply DI. exists y; split; auto.
        apply (map_nth_error (hd 0)) in Hi. exact Hi. }
      rewrite E in J; contradiction.
    + apply (IH (map (@tl Z) pts) p q'); auto.
      * rewrite Forall_forall in *. intros q1 I'. apply in_map_iff in I' as (q0 & <- & I').
        apply FL in I'. destruct q0; cbn in *; lia.
      * apply (map_nth_error (@tl Z)) in Hi. exact Hi.
Qed.

Lemma have_complete m D tol pts p q : 0 <= tol -> length p = D -> Holds m D tol pts ->
  In q pts -> near tol q p -> have m p = true.
Proof.
  intros T Lp (Em & Ec & LD & FL & R) I N. subst tol. destruct LD.
  unfold have. destruct (some_empty (mtol m) (coords m) p) eqn:SE.
  { exfalso. exact (some_empty_spec _ _ pts p T Lp R FL SE q I N). }
  destruct (coords m) as [|c cs]; [reflexivity|]. destruct p as [|x p]; [reflexivity|].
  destruct R as [R1 R2]. destruct (dimIDs_spec (mtol m) c _ x T R1) as [DS DI].
  apply In_nth_error in I as [i Hi]. inversion N as [|y ? q' ? Ny N']; subst.
  eapply (have_dims_complete _ _ (map (@tl Z) pts) p _ i q'); cbn in *; auto.
  - rewrite Forall_forall in *. intros q1 I'. apply in_map_iff in I' as (q0 & <- & I').
    apply FL in I'. destruct q0; cbn in *; lia.
  - apply DI. exists y; split; auto. apply (map_nth_error (hd 0)) in Hi. exact Hi.
  - apply (map_nth_error (@tl Z)) in Hi. exact Hi.
Qed.
