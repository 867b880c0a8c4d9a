(* Programs that post all their sends before they receive. *)
From Verif Require Import Base MpiModel MpiProofs MpiSpec.
From Coq Require Import Lia.

Section Mpi.
  Context {M A : Type}.
  Notation config := (config M A).
  Notation prog := (prog M A).

  Fixpoint sends (l : list (nat * nat * M)) (k : prog) : prog :=
    match l with [] => k | (d, t, m) :: l => Send d t m (sends l k) end.
  Lemma sends_app l l' k : sends (l ++ l') k = sends l (sends l' k).
  Proof. induction l as [|[[d t] m] l IH]; cbn; [auto|rewrite IH; auto]. Qed.
  (* the messages of l for destination d with tag t *)
  Definition to_ (d t : nat) (l : list (nat * nat * M)) : list M := map snd (filter (fun e => (fst (fst e) =? d) && (snd (fst e) =? t)) l).
  Lemma to_cons d t d' t' m l : to_ d t ((d', t', m) :: l) = (if (d' =? d) && (t' =? t) then [m] else []) ++ to_ d t l.
  Proof. unfold to_. cbn. destruct ((d' =? d) && (t' =? t)); auto. Qed.
  Lemma to_app d t l l' : to_ d t (l ++ l') = to_ d t l ++ to_ d t l'.
  Proof. unfold to_. rewrite filter_app, map_app. auto. Qed.

  (* a rank that only receives, fed from its inbox *)
  Inductive gets : nat -> (nat -> nat -> list M) -> prog -> res A -> Prop :=
  | gets_ret box a : gets 0 box (Ret a) a
  | gets_recv n box s t m rest k a :
      box s t = m :: rest -> gets n (fun x z => if (x =? s) && (z =? t) then rest else box x z) (k m) a -> gets (S n) box (Recv s t k) a.
  Lemma gets_ext n : forall box box' p a, (forall x z, box x z = box' x z) -> gets n box p a -> gets n box' p a.
  Proof.
    induction n as [|n IH]; intros box box' p a E H; inversion H; subst; [constructor|]. apply gets_recv with m rest; [rewrite <- E; auto|].
    match goal with G : gets n _ _ _ |- _ => refine (IH _ _ _ _ _ G) end. intros x z. cbn. destruct ((x =? s) && (z =? t)); auto.
  Qed.

  Lemma run_sends r l : forall k (c : config), proc c r = sends l k -> exists c', steps (length l) c c' /\ proc c' r = k /\ (forall q, q <> r -> proc c' q = proc c q) /\
    forall x y z, chan c' x y z = if x =? r then chan c x y z ++ to_ y z l else chan c x y z.
  Proof.
    induction l as [|[[d t] m] l IH]; intros k c H; cbn [sends length] in *.
    - exists c. split; [constructor; auto|]. split; auto. split; auto. intros x y z. destruct (x =? r); auto. unfold to_. cbn. rewrite app_nil_r. auto.
    - set (c1 := mkConfig (updp (proc c) r (sends l k)) (updc (chan c) r d t (chan c r d t ++ [m]))).
      destruct (IH k c1) as (c' & S1 & P1 & P2 & C1); [cbn; unfold updp; rewrite Nat.eqb_refl; auto|]. exists c'.
      split; [apply steps_S with c1; auto; apply (step_send c c1 r d t m (sends l k)); auto; cbn; unfold updp, updc|].
      + rewrite Nat.eqb_refl. auto.
      + intros q N. destruct (Nat.eqb_spec q r); congruence.
      + rewrite key3_t. auto.
      + intros x y z N. rewrite key3_f; auto.
      + split; auto. split.
        * intros q N. rewrite P2 by auto. cbn. unfold updp. destruct (Nat.eqb_spec q r); congruence.
        * intros x y z. rewrite C1. cbn [chan c1]. unfold updc. destruct (Nat.eqb_spec x r) as [->|N].
          -- rewrite to_cons. unfold key3. rewrite Nat.eqb_refl. cbn [andb]. rewrite (Nat.eqb_sym d y), (Nat.eqb_sym t z). destruct (Nat.eqb_spec y d) as [->|]; [destruct (Nat.eqb_spec z t) as [->|]|]; cbn [andb app]; auto. rewrite <- app_assoc. auto.
          -- rewrite key3_f by congruence. auto.
  Qed.
  Lemma run_gets r n : forall p a (c : config), proc c r = p -> gets n (fun s t => chan c s r t) p a -> exists c', steps n c c' /\ proc c' r = Ret a /\ (forall q, q <> r -> proc c' q = proc c q) /\
    forall x y z, y <> r -> chan c' x y z = chan c x y z.
  Proof.
    induction n as [|n IH]; intros p a c E H; inversion H; subst.
    - exists c. split; [constructor; auto|]. auto.
    - set (c1 := mkConfig (updp (proc c) r (k m)) (updc (chan c) s r t rest)).
      destruct (IH (k m) a c1) as (c' & S1 & P1 & P2 & C1); [cbn; unfold updp; rewrite Nat.eqb_refl; auto| |].
      + match goal with G : gets n _ _ _ |- _ => refine (gets_ext _ _ _ _ _ _ G) end. intros x z. cbn. unfold updc, key3. rewrite Nat.eqb_refl, andb_true_r. auto.
      + exists c'. split; [apply steps_S with c1; auto; apply (step_recv c c1 r s t m k rest); auto; cbn; unfold updp, updc|].
        * rewrite Nat.eqb_refl. auto.
        * intros q N. destruct (Nat.eqb_spec q r); congruence.
        * rewrite key3_t. auto.
        * intros x y z N. rewrite key3_f; auto.
        * split; auto. split; [intros q N; rewrite P2 by auto; cbn; unfold updp; destruct (Nat.eqb_spec q r); congruence|].
          intros x y z N. rewrite C1 by auto. cbn. unfold updc. rewrite key3_f by congruence. auto.
  Qed.

  Theorem sends_then_gets n (ps : nat -> prog) (out : nat -> list (nat * nat * M)) (rp : nat -> prog) (cnt : nat -> nat) (a : nat -> res A) :
    (forall r, r < n -> ps r = sends (out r) (rp r)) -> (forall r, n <= r -> exists b, ps r = Ret b) ->
    (forall r, r < n -> gets (cnt r) (fun s t => if s <? n then to_ r t (out s) else []) (rp r) (a r)) ->
    Finishes n ps a.
  Proof.
    intros Hs Ho Hg.
    assert (P1 : forall k, k <= n -> exists N c, steps N (start ps) c /\ (forall q, proc c q = if q <? k then rp q else ps q) /\ forall x y z, chan c x y z = if x <? k then to_ y z (out x) else []).
    { induction k as [|k IH]; intros L.
      - exists 0, (start ps). split; [constructor; auto|]. split; auto.
      - destruct IH as (N & c & S1 & P & C); [lia|]. destruct (run_sends k (out k) (rp k) c) as (c' & S2 & P1 & P2 & C2); [rewrite P; destruct (Nat.ltb_spec k k); [lia|]; apply Hs; lia|].
        exists (N + length (out k)), c'. split; [eapply steps_trans; eauto|]. split.
        + intros q. destruct (Nat.eq_dec q k) as [->|Nq]; [destruct (Nat.ltb_spec k (S k)); [auto|lia]|]. rewrite P2, P by auto. destruct (Nat.ltb_spec q k), (Nat.ltb_spec q (S k)); auto; lia.
        + intros x y z. rewrite C2, C. destruct (Nat.eqb_spec x k) as [->|Nq]; [destruct (Nat.ltb_spec k k); [lia|]; destruct (Nat.ltb_spec k (S k)); [auto|lia]|]. destruct (Nat.ltb_spec x k), (Nat.ltb_spec x (S k)); auto; lia. }
    destruct (P1 n (le_n n)) as (N1 & c1 & S1 & Q1 & C1). clear P1.
    assert (P2 : forall k, k <= n -> exists N c, steps N c1 c /\ (forall q, proc c q = if q <? k then Ret (a q) else if q <? n then rp q else ps q) /\ forall x y z, k <= y -> chan c x y z = if x <? n then to_ y z (out x) else []).
    { induction k as [|k IH]; intros L.
      - exists 0, c1. split; [constructor; auto|]. split; auto.
      - destruct IH as (N & c & S2 & P & C); [lia|]. destruct (run_gets k (cnt k) (rp k) (a k) c) as (c' & S3 & P3 & P4 & C3).
        + rewrite P. destruct (Nat.ltb_spec k k); [lia|]. destruct (Nat.ltb_spec k n); [auto|lia].
        + refine (gets_ext _ _ _ _ _ _ (Hg k ltac:(lia))). intros x z. cbn. rewrite C by lia. auto.
        + exists (N + cnt k), c'. split; [eapply steps_trans; eauto|]. split.
          * intros q. destruct (Nat.eq_dec q k) as [->|Nq]; [destruct (Nat.ltb_spec k (S k)); [auto|lia]|]. rewrite P4, P by auto. destruct (Nat.ltb_spec q k), (Nat.ltb_spec q (S k)); auto; lia.
          * intros x y z Ly. rewrite C3 by lia. apply C. lia. }
    destruct (P2 n (le_n n)) as (N2 & c2 & S2 & Q2 & _). clear P2.
    assert (F : finished c2). { intros r. rewrite Q2. destruct (Nat.ltb_spec r n); [eauto|apply Ho; auto]. }
    pose proof (steps_trans _ _ _ _ _ S1 S2) as Run. exists (N1 + N2). intros m e He. destruct (schedules _ _ _ Run F m e He) as [L R]. split; auto. split.
    - intros Lt. inversion R; subst; [lia|]. eauto.
    - intros ->. rewrite Nat.sub_diag in R. inversion R; subst. intros r Hr. rewrite H, Q2. destruct (Nat.ltb_spec r n); [auto|lia].
  Qed.
End Mpi.
