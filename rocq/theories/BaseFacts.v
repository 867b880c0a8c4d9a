(* General lemmas on the vocabulary of Base.v and on lists. *)
From Verif Require Export Base.

Lemma bind_ok {A B} (m : res A) (f : A -> res B) b :
  bind m f = Ok b <-> exists a, m = Ok a /\ f a = Ok b.
Proof.
  destruct m as [a| | |]; cbn; split; intros H; try discriminate H;
    try (destruct H as (a' & E & H); congruence).
  exists a; auto.
Qed.

Lemma assert_ok b u : assert b = Ok u <-> b = true.
Proof. destruct b, u; cbn; split; congruence. Qed.

Lemma get_ok {A} (l : list A) i a : get l i = Ok a <-> nth_error l i = Some a.
Proof. unfold get; destruct (nth_error l i); split; congruence. Qed.

Lemma get_lt {A} (l : list A) i : i < length l -> exists a, get l i = Ok a.
Proof.
  intros H; unfold get; destruct (nth_error l i) eqn:E; eauto.
  apply nth_error_None in E; lia.
Qed.

Lemma nth_error_lt {A} (l : list A) i a : nth_error l i = Some a -> i < length l.
Proof. intros H; apply nth_error_Some; congruence. Qed.

Lemma nth_error_ex {A} (l : list A) i : i < length l -> exists a, nth_error l i = Some a.
Proof.
  intros H; destruct (nth_error l i) eqn:E; eauto. apply nth_error_None in E; lia.
Qed.

Lemma upd_length {A} (l : list A) i a : length (upd l i a) = length l.
Proof. revert i; induction l; destruct i; cbn; auto. Qed.

Lemma upd_same {A} (l : list A) i a : i < length l -> nth_error (upd l i a) i = Some a.
Proof. revert i; induction l; destruct i; cbn; intros; try lia; auto. apply IHl; lia. Qed.

Lemma upd_other {A} (l : list A) i j a : i <> j -> nth_error (upd l i a) j = nth_error l j.
Proof.
  revert i j; induction l; destruct i, j; cbn; intros; try congruence; auto.
Qed.

Lemma upd_nth {A} (l : list A) i j a :
  nth_error (upd l i a) j = if (i =? j) && (j <? length l) then Some a else nth_error l j.
Proof.
  destruct (Nat.eqb_spec i j) as [->|N]; cbn [andb].
  - destruct (Nat.ltb_spec j (length l)).
    + apply upd_same; auto.
    + transitivity (@None A).
      * apply nth_error_None; rewrite upd_length; lia.
      * symmetry; apply nth_error_None; lia.
  - apply upd_other; auto.
Qed.

Lemma set_ok {A} (l : list A) i a l' : set l i a = Ok l' <-> i < length l /\ l' = upd l i a.
Proof.
  unfold set; destruct (Nat.ltb_spec i (length l)); split; intros; try discriminate.
  - split; congruence.
  - destruct H0; congruence.
  - destruct H0; lia.
Qed.

Lemma upd_app {A} (l1 l2 : list A) x a :
  upd (l1 ++ x :: l2) (length l1) a = l1 ++ a :: l2.
Proof. induction l1; cbn; congruence. Qed.

Lemma nth_error_ext {A} (l l' : list A) :
  (forall i, nth_error l i = nth_error l' i) -> l = l'.
Proof.
  revert l'; induction l as [|a l IH]; intros [|b l'] H.
  - reflexivity.
  - specialize (H 0); discriminate.
  - specialize (H 0); discriminate.
  - pose proof (H 0) as H0; cbn in H0; f_equal; [congruence|].
    apply IH; intros i; exact (H (S i)).
Qed.

Lemma mfold_app {A S} (f : S -> A -> res S) l1 l2 s :
  mfold f (l1 ++ l2) s = do s' <- mfold f l1 s; mfold f l2 s'.
Proof.
  revert s; induction l1 as [|a l1 IH]; intros s; cbn; [reflexivity|].
  destruct (f s a); cbn; auto.
Qed.

Lemma mmap_ok {A B} (f : A -> res B) (g : A -> B) l :
  (forall a, In a l -> f a = Ok (g a)) -> mmap f l = Ok (map g l).
Proof.
  induction l as [|a l IH]; intros H; cbn; [reflexivity|].
  rewrite (H a (or_introl eq_refl)); cbn. rewrite IH; [reflexivity|].
  intros; apply H; right; auto.
Qed.

Lemma mmap_inv {A B} (f : A -> res B) l bs :
  mmap f l = Ok bs -> Forall2 (fun a b => f a = Ok b) l bs.
Proof.
  revert bs; induction l as [|a l IH]; intros bs H; cbn in H.
  - injection H as <-; constructor.
  - apply bind_ok in H as (b & Eb & H). apply bind_ok in H as (bs' & Ebs & H).
    injection H as <-. constructor; auto.
Qed.

Lemma positiveID_nonneg x : (0 <= positiveID x)%Z.
Proof. unfold positiveID, Z.lnot; destruct (Z.leb_spec 0 x); lia. Qed.

Lemma positiveID_pos x : (0 <= x)%Z -> positiveID x = x.
Proof. unfold positiveID; destruct (Z.leb_spec 0 x); lia. Qed.

Lemma positiveID_neg x : (x < 0)%Z -> positiveID x = Z.lnot x.
Proof. unfold positiveID; destruct (Z.leb_spec 0 x); lia. Qed.

Lemma positiveID_lnot x : positiveID (Z.lnot x) = positiveID x.
Proof.
  unfold positiveID, Z.lnot; destruct (Z.leb_spec 0 x), (Z.leb_spec 0 (Z.pred (-x))); lia.
Qed.

Lemma pid_of_nat n : pid (Z.of_nat n) = n.
Proof. unfold pid; rewrite positiveID_pos by lia; lia. Qed.

Lemma pid_lnot_of_nat n : pid (Z.lnot (Z.of_nat n)) = n.
Proof. unfold pid; rewrite positiveID_lnot, positiveID_pos by lia; lia. Qed.

Lemma skipn_skipn {A} x y (l : list A) : skipn x (skipn y l) = skipn (x + y) l.
Proof.
  revert l; induction y as [|y IH]; intros l; [rewrite Nat.add_0_r; reflexivity|].
  rewrite Nat.add_succ_r. destruct l; [rewrite !skipn_nil; reflexivity|apply IH].
Qed.

(* for (i = 0; i != n; ++i): invariant rule *)
Lemma mfold_seq {S} (f : S -> nat -> res S) (P : nat -> S -> Prop) n s0 :
  P 0 s0 ->
  (forall k s, k < n -> P k s -> exists s', f s k = Ok s' /\ P (k + 1) s') ->
  exists s, mfold f (seq 0 n) s0 = Ok s /\ P n s.
Proof.
  intros H0 Hs. induction n as [|n IH].
  - exists s0; split; auto.
  - destruct IH as (s & E & H). { intros; apply Hs; auto. }
    rewrite seq_S, mfold_app, E. cbn [bind mfold Nat.add].
    destruct (Hs n s) as (s' & E' & H'); auto. rewrite E'. cbn [bind].
    exists s'; split; auto. rewrite <- Nat.add_1_r; auto.
Qed.

(* for (x : l): invariant rule; the invariant sees the part already processed *)
Lemma mfold_inv {A S} (f : S -> A -> res S) (P : list A -> S -> Prop) l s0 :
  P [] s0 ->
  (forall l1 a l2 s, l = l1 ++ a :: l2 -> P l1 s -> exists s', f s a = Ok s' /\ P (l1 ++ [a]) s') ->
  exists s, mfold f l s0 = Ok s /\ P l s.
Proof.
  intros H0 Hs.
  enough (G : forall l2 l1 s, l = l1 ++ l2 -> P l1 s -> exists s', mfold f l2 s = Ok s' /\ P l s').
  { apply (G l [] s0); auto. }
  induction l2 as [|a l2 IH]; intros l1 s E H.
  - rewrite app_nil_r in E; subst. exists s; auto.
  - cbn [mfold]. destruct (Hs l1 a l2 s E H) as (s' & Ef & H'). rewrite Ef. cbn [bind].
    apply (IH (l1 ++ [a])); [rewrite <- app_assoc; auto|auto].
Qed.

Lemma mmap_forall2 {A B} (f : A -> res B) (R : A -> B -> Prop) l :
  (forall a, In a l -> exists b, f a = Ok b /\ R a b) ->
  exists bs, mmap f l = Ok bs /\ Forall2 R l bs.
Proof.
  induction l as [|a l IH]; intros H; cbn [mmap].
  - exists []; split; constructor.
  - destruct (H a) as (b & E & Hb); [left; auto|]. rewrite E. cbn [bind].
    destruct IH as (bs & E' & F). { intros; apply H; right; auto. }
    rewrite E'. cbn [bind]. exists (b :: bs); split; [auto|constructor; auto].
Qed.

Lemma set_lt {A} (l : list A) i a : i < length l -> set l i a = Ok (upd l i a).
Proof. intros H. apply set_ok; auto. Qed.

Lemma nth_error_repeat {A} (a : A) n i : i < n -> nth_error (repeat a n) i = Some a.
Proof.
  revert i; induction n; intros [|i] H; cbn; auto; try lia. apply IHn; lia.
Qed.

Lemma Forall2_nth {A B} (R : A -> B -> Prop) l l' i a : Forall2 R l l' -> nth_error l i = Some a ->
  exists b, nth_error l' i = Some b /\ R a b.
Proof.
  intros F; revert i; induction F; intros [|i] H1; cbn in *; try discriminate.
  - inversion H1; subst; eauto.
  - eauto.
Qed.
Lemma Forall2_nth_r {A B} (R : A -> B -> Prop) l l' i b : Forall2 R l l' -> nth_error l' i = Some b ->
  exists a, nth_error l i = Some a /\ R a b.
Proof.
  intros F; revert i; induction F; intros [|i] H1; cbn in *; try discriminate.
  - inversion H1; subst; eauto.
  - eauto.
Qed.
Lemma Forall2_in_l {A B} (R : A -> B -> Prop) l l' a : Forall2 R l l' -> In a l ->
  exists b, In b l' /\ R a b.
Proof.
  induction 1; intros []; [subst|].
  - eexists; split; [left; eauto|auto].
  - destruct IHForall2 as (b & I & Rb); auto. exists b; split; [right; auto|auto].
Qed.
Lemma Forall2_in_r {A B} (R : A -> B -> Prop) l l' b : Forall2 R l l' -> In b l' ->
  exists a, In a l /\ R a b.
Proof.
  induction 1; intros []; [subst|].
  - eexists; split; [left; eauto|auto].
  - destruct IHForall2 as (a & I & Ra); auto. exists a; split; [right; auto|auto].
Qed.

Lemma mfold_ext {A S} (f g : S -> A -> res S) l s :
  (forall s a, f s a = g s a) -> mfold f l s = mfold g l s.
Proof.
  intros H; revert s; induction l as [|a l IH]; intros s; cbn [mfold]; [auto|].
  rewrite H. destruct (g s a); cbn [bind]; auto.
Qed.

Lemma Forall2_len {A B} (R : A -> B -> Prop) l l' : Forall2 R l l' -> length l = length l'.
Proof. induction 1; cbn; lia. Qed.
