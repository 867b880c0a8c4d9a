(* Sorting, counting and intersecting by key. *)
From Verif Require Import Base BaseFacts SerializeModel MeshModel CollModel SerialDistProofs CheckModel CheckSpec.
From Coq Require Import Sorted Lia Permutation.

Lemma lexeq_ok a : forall b, lexeq a b = true <-> a = b.
Proof.
  induction a as [|x a IH]; intros [|y b]; cbn; try (split; congruence). rewrite andb_true_iff, Z.eqb_eq, IH. split; [intros [-> ->]; auto|intros [= -> ->]; auto].
Qed.
Lemma lexlt_irrefl a : lexlt a a = false.
Proof. induction a as [|x a IH]; auto. cbn. rewrite Z.ltb_irrefl, Z.eqb_refl. auto. Qed.
Lemma lexlt_trans a : forall b c, lexlt a b = true -> lexlt b c = true -> lexlt a c = true.
Proof.
  induction a as [|x a IH]; intros [|y b] [|z c]; cbn; try congruence; auto.
  destruct (Z.ltb_spec x y), (Z.eqb_spec x y), (Z.ltb_spec y z), (Z.eqb_spec y z), (Z.ltb_spec x z), (Z.eqb_spec x z); try lia; try congruence; intros; eauto; subst; eauto.
Qed.
Lemma lexlt_total a : forall b, lexlt a b = false -> lexlt b a = false -> a = b.
Proof.
  induction a as [|x a IH]; intros [|y b]; cbn; try congruence; auto.
  destruct (Z.ltb_spec x y), (Z.eqb_spec x y), (Z.ltb_spec y x), (Z.eqb_spec y x); try lia; try congruence. intros. subst. f_equal. auto.
Qed.
Definition lexle (a b : list Z) : Prop := lexlt b a = false.
Lemma lexle_trans a b c : lexle a b -> lexle b c -> lexle a c.
Proof.
  unfold lexle. intros H1 H2. destruct (lexlt c a) eqn:E; auto. exfalso. destruct (lexlt a b) eqn:E2.
  - rewrite (lexlt_trans c a b E E2) in H2. discriminate.
  - pose proof (lexlt_total a b E2 H1). subst. congruence.
Qed.
Lemma lexle_refl a : lexle a a.
Proof. apply lexlt_irrefl. Qed.
Lemma lexlt_le a b : lexlt a b = true -> lexle a b.
Proof. unfold lexle. intros H. destruct (lexlt b a) eqn:E; auto. pose proof (lexlt_trans a b a H E) as F. rewrite lexlt_irrefl in F. discriminate. Qed.
Lemma lexle_anti a b : lexle a b -> lexle b a -> a = b.
Proof. intros H1 H2. apply lexlt_total; auto. Qed.

Local Notation sortK := (sortb lexlt).
Lemma insb_perm {A} (lt : A -> A -> bool) a l : Permutation (insb lt a l) (a :: l).
Proof. induction l as [|b l IH]; cbn; auto. destruct (lt b a); auto. rewrite IH. apply perm_swap. Qed.
Lemma sortb_perm {A} (lt : A -> A -> bool) l : Permutation (sortb lt l) l.
Proof. induction l as [|a l IH]; cbn; auto. rewrite insb_perm. auto. Qed.
Lemma insb_sorted a l : StronglySorted lexle l -> StronglySorted lexle (insb lexlt a l).
Proof.
  induction 1 as [|b l S0 IH F]; cbn; [repeat constructor|]. destruct (lexlt b a) eqn:E.
  - constructor; auto. rewrite Forall_forall in *. intros x I. apply (Permutation_in _ (insb_perm lexlt a l)) in I as [<-|I]; auto. apply lexlt_le. auto.
  - constructor; [constructor; auto|]. constructor; auto. rewrite Forall_forall in *. intros x I. apply (lexle_trans _ b); auto.
Qed.
Lemma sortK_sorted l : StronglySorted lexle (sortK l).
Proof. induction l as [|a l IH]; cbn; [constructor|apply insb_sorted; auto]. Qed.
Lemma sorted_perm l : forall l', StronglySorted lexle l -> StronglySorted lexle l' -> Permutation l l' -> l = l'.
Proof.
  induction l as [|a l IH]; intros l' S1 S2 P; [apply Permutation_nil in P; auto|]. destruct l' as [|b l']; [apply Permutation_sym, Permutation_nil in P; discriminate|].
  inversion S1 as [|? ? S1' F1]; subst. inversion S2 as [|? ? S2' F2]; subst. rewrite Forall_forall in *.
  assert (a = b). { assert (Ia : In a (b :: l')) by (apply (Permutation_in _ P); left; auto). assert (Ib : In b (a :: l)) by (apply (Permutation_in _ (Permutation_sym P)); left; auto). destruct Ia as [->|Ia]; auto. destruct Ib as [->|Ib]; auto. apply lexle_anti; auto. }
  subst b. f_equal. apply IH; auto. apply Permutation_cons_inv in P. auto.
Qed.
Lemma times_perm l l' : Permutation l l' <-> forall c, times c l = times c l'.
Proof. apply (Permutation_count_occ (list_eq_dec Z.eq_dec)). Qed.
Lemma times_cons c a l : times c (a :: l) = (if list_eq_dec Z.eq_dec a c then S (times c l) else times c l).
Proof. reflexivity. Qed.
Lemma times_0 c l : ~ In c l -> times c l = 0.
Proof. apply count_occ_not_In. Qed.
Lemma times_in c l : In c l <-> 0 < times c l.
Proof. apply (count_occ_In (list_eq_dec Z.eq_dec)). Qed.
Lemma inter_times c l1 : forall l2, StronglySorted lexle l1 -> StronglySorted lexle l2 -> times c (interb lexlt l1 l2) = Nat.min (times c l1) (times c l2).
Proof.
  induction l1 as [|a t1 IH1]; intros l2 S1 S2; [auto|]. induction l2 as [|b t2 IH2]; [cbn; destruct (list_eq_dec Z.eq_dec a c); lia|].
  inversion S1 as [|? ? S1' F1]; subst. inversion S2 as [|? ? S2' F2]; subst. rewrite Forall_forall in F1, F2. cbn [interb]. destruct (lexlt a b) eqn:E1; [|destruct (lexlt b a) eqn:E2].
  - rewrite IH1 by auto. rewrite (times_cons c a). destruct (list_eq_dec Z.eq_dec a c) as [<-|]; auto. rewrite (times_0 a (b :: t2)); [lia|]. intros [->|I]; [rewrite lexlt_irrefl in E1; discriminate|]. pose proof (F2 a I) as F. unfold lexle in F. congruence.
  - specialize (IH2 S2'). cbn [interb] in IH2. rewrite IH2. rewrite (times_cons c b). destruct (list_eq_dec Z.eq_dec b c) as [<-|]; auto. rewrite (times_0 b (a :: t1)); [lia|]. intros [->|I]; [rewrite lexlt_irrefl in E2; discriminate|]. pose proof (F1 b I) as F. unfold lexle in F. congruence.
  - pose proof (lexlt_total a b E1 E2). subst b. rewrite !times_cons. rewrite IH1 by auto. destruct (list_eq_dec Z.eq_dec a c); lia.
Qed.
Lemma inter_sorted l1 : forall l2, StronglySorted lexle l1 -> StronglySorted lexle l2 -> StronglySorted lexle (interb lexlt l1 l2).
Proof.
  induction l1 as [|a t1 IH1]; intros l2 S1 S2; [constructor|]. induction l2 as [|b t2 IH2]; [constructor|].
  inversion S1 as [|? ? S1' F1]; subst. inversion S2 as [|? ? S2' F2]; subst. cbn [interb]. destruct (lexlt a b) eqn:E1; [apply IH1; auto|destruct (lexlt b a) eqn:E2; [apply IH2; auto|]].
  constructor; [apply IH1; auto|]. rewrite Forall_forall in *. intros x I. apply times_in in I. rewrite inter_times in I by auto. apply F1. apply times_in. lia.
Qed.

Section Key.
  Context {A : Type} (key : A -> list Z).
  Local Notation ltp := (fun a b => lexlt (key a) (key b)).
  Lemma sortb_map l : map key (sortb ltp l) = sortK (map key l).
  Proof.
    induction l as [|a l IH]; auto. cbn [sortb map]. rewrite <- IH. generalize (sortb ltp l). clear. induction l as [|b l IH]; auto. cbn. destruct (lexlt (key b) (key a)); cbn; auto. rewrite IH. auto.
  Qed.
  Lemma interb_map l1 : forall l2, map key (interb ltp l1 l2) = interb lexlt (map key l1) (map key l2).
  Proof.
    induction l1 as [|a t1 IH1]; intros l2; auto. induction l2 as [|b t2 IH2]; auto. cbn [interb map] in *. destruct (lexlt (key a) (key b)) eqn:E1; [apply (IH1 (b :: t2))|]. destruct (lexlt (key b) (key a)); auto. cbn [map]. rewrite IH1. auto.
  Qed.
  Lemma same_keys l1 : forall l2, (length l1 =? length l2) && forallb (fun '(a, b) => lexeq (key a) (key b)) (combine l1 l2) = true <-> map key l1 = map key l2.
  Proof.
    induction l1 as [|a l1 IH]; intros [|b l2]; cbn; try (split; congruence). specialize (IH l2). destruct (length l1 =? length l2) eqn:E; cbn in *.
    - rewrite andb_true_iff, lexeq_ok, IH. split; [intros [-> ->]; auto|intros [= -> ->]; auto].
    - split; [discriminate|]. intros [= H1 H2]. apply Nat.eqb_neq in E. apply (f_equal (@length _)) in H2. rewrite !map_length in H2. lia.
  Qed.
End Key.

Lemma find_index l v : (forall i, findIndex l v = Some i -> nth_error l i = Some v) /\ (findIndex l v = None <-> ~ In v l).
Proof.
  induction l as [|x l [IH1 IH2]]; cbn [findIndex]; [split; [discriminate|split; auto]|]. destruct (Nat.eqb_spec x v) as [->|N].
  - split; [intros i [= <-]; auto|split; [discriminate|intros H; exfalso; apply H; left; auto]].
  - destruct (findIndex l v) as [i|]; cbn in *; split; try discriminate.
    + intros j [= <-]. cbn. apply IH1; auto.
    + split; [discriminate|]. intros H. assert (Q : Some i = None) by (apply IH2; auto). discriminate.
    + split; auto. intros _ [E|I]; [congruence|]. revert I. apply IH2. auto.
Qed.
Lemma sortedb_ok l : StronglySorted lt l -> sortedb l = true.
Proof.
  induction 1 as [|a l S0 IH F]; auto. cbn [sortedb]. destruct l as [|b l]; auto. rewrite IH, andb_true_r. inversion F; subst. apply Nat.leb_le. lia.
Qed.
Lemma search_ok l v : StronglySorted lt l -> exists b, binary_search l v = Ok b /\ (b = true <-> In v l).
Proof.
  intros S0. unfold binary_search. rewrite (sortedb_ok l S0). eexists. split; [reflexivity|]. rewrite existsb_exists. split; [intros (x & I & E); apply Nat.eqb_eq in E; subst; auto|intros I; exists v; split; auto; apply Nat.eqb_refl].
Qed.

(* ---- running together ---- *)
Lemma together_bind {A B} n (ps : nat -> cprog A) b (k : nat -> A -> cprog B) a : Together n ps (fun r => Ok (b r)) -> Together n (fun r => k r (b r)) a -> Together n (fun r => cbind (ps r) (k r)) a.
Proof.
  intros H T. remember (fun r => Ok (b r)) as b' eqn:Eb. revert Eb. induction H as [ps a0 H|ps root cnt v q a0 L H C T0 IH|ps v q a0 m H M1 M2 T0 IH]; intros ->.
  - eapply together_ext; [|exact T]. intros r Lr. rewrite (H r Lr). reflexivity.
  - eapply t_bcast with (v := v) (k := fun r x => cbind (q r x) (k r)); [exact L| |exact C|apply IH; auto]. intros r Lr. rewrite (H r Lr). reflexivity.
  - eapply t_min with (v := v) (k := fun r x => cbind (q r x) (k r)); [|exact M1|exact M2|apply IH; auto]. intros r Lr. rewrite (H r Lr). reflexivity.
Qed.

(* the lowest rank with a message *)
Definition Lowest {A} (n : nat) (x : nat -> list A) (y : list A) : Prop :=
  (y = [] /\ forall r, r < n -> x r = []) \/ (exists r, r < n /\ x r <> [] /\ y = x r /\ forall s, s < r -> x s = []).
Lemma lowest_ex {A} n (x : nat -> list A) : exists y, Lowest n x y.
Proof.
  induction n as [|n IH]; [exists []; left; split; auto; intros; lia|]. destruct IH as [y [[-> H]|(r & L & N & E & H)]].
  - destruct (x n) as [|a l] eqn:E; [exists []; left; split; auto; intros r L; destruct (Nat.eq_dec r n) as [->|]; auto; apply H; lia|]. exists (a :: l). right. exists n. split; [lia|]. split; [congruence|]. split; [auto|]. intros; apply H; auto.
  - exists y. right. exists r. split; [lia|]. auto.
Qed.
Lemma lowest_nil {A} n (x : nat -> list A) y : Lowest n x y -> (y = [] <-> forall r, r < n -> x r = []).
Proof. intros [[-> H]|(r & L & N & -> & H)]; split; auto; intros G; exfalso; auto. Qed.
Lemma reduce_ok n x y : 0 < n -> (forall r, r < n -> (Z.of_nat (length (x r)) < 2 ^ 32)%Z) -> Lowest n x y -> Together n (fun r => reduceToMaxString (x r) r n) (fun _ => Ok y).
Proof.
  intros Np B [[-> H]|(q & L & N & -> & H)]; unfold reduceToMaxString.
  - eapply (t_min n _ (fun r => if isnil (x r) then n else r) _ _ n); [intros r Lr; reflexivity|exists 0; split; auto; rewrite H by auto; auto|intros r Lr; rewrite H by auto; auto|]. cbn beta. rewrite Nat.eqb_refl. apply t_ret. intros r Lr. rewrite H; auto.
  - eapply (t_min n _ (fun r => if isnil (x r) then n else r) _ _ q); [intros r Lr; reflexivity|exists q; split; auto; destruct (x q); [congruence|auto]| |].
    + intros r Lr. cbn beta. destruct (Nat.lt_ge_cases r q) as [Lq|Lq]; [rewrite (H r Lq); cbn; lia|]. destruct (x r); cbn; lia.
    + cbn beta. replace (q =? n) with false by (symmetry; apply Nat.eqb_neq; lia). pose proof (B q L) as Bq.
      eapply t_bcast; [exact L|intros r Lr; reflexivity|reflexivity|]. cbn beta match. rewrite (SerializeProofs.usize_small (x q)) by lia. assert (P : (0 < length (x q))) by (destruct (x q); [congruence|cbn; lia]). replace (0 <? Z.of_nat (length (x q)))%Z with true by (symmetry; apply Z.ltb_lt; lia). cbn [assert clift]. rewrite Nat2Z.id.
      eapply t_bcast; [exact L|intros r Lr; reflexivity|cbn beta; rewrite resize_same; auto|]. cbn beta. apply t_ret. intros r Lr. rewrite resize_same. auto.
Qed.
