(* Whatever the order in which the ranks run, they end in the same state. *)
From Verif Require Import Base MpiModel.
From Coq Require Import Lia.

Section Mpi.
  Context {M A : Type}.
  Notation config := (config M A).
  Definition same (c d : config) : Prop := (forall q, proc c q = proc d q) /\ (forall x y z, chan c x y z = chan d x y z).
  Lemma same_refl c : same c c. Proof. split; auto. Qed.
  Lemma same_sym c d : same c d -> same d c. Proof. intros [A1 A2]. split; congruence. Qed.
  Lemma same_trans c d e : same c d -> same d e -> same c e. Proof. intros [A1 A2] [B1 B2]. split; intros; [rewrite A1; auto|rewrite A2; auto]. Qed.
  Lemma step_same c d c' d' : same c c' -> same d d' -> step c d -> step c' d'.
  Proof.
    intros [P C] [P' C'] [r k t m q H1 H2 H3 H4 H5|r s t m k rest H1 H2 H3 H4 H5 H6].
    - eapply (step_send c' d' r k t m q); try (rewrite <- ?P, <- ?P', <- ?C, <- ?C'; auto; fail).
      + intros x N. rewrite <- P, <- P'. auto.
      + intros x y z N. rewrite <- C, <- C'. auto.
    - eapply (step_recv c' d' r s t m k rest); try (rewrite <- ?P, <- ?P', <- ?C, <- ?C'; auto; fail).
      + intros x N. rewrite <- P, <- P'. auto.
      + intros x y z N. rewrite <- C, <- C'. auto.
  Qed.
  Lemma steps_same n : forall (c d c' d' : config), same c c' -> same d d' -> steps n c d -> steps n c' d'.
  Proof.
    induction n as [|n IH]; intros c d c' d' S1 S2 H; inversion H; subst.
    - destruct (same_trans c' c d' (same_sym _ _ S1) (same_trans c d d' (conj H0 H1) S2)). constructor; auto.
    - apply steps_S with d0; [apply (step_same c d0); auto using same_refl|apply (IH d0 d); auto using same_refl].
  Qed.
  Lemma steps_trans n : forall m (c d e : config), steps n c d -> steps m d e -> steps (n + m) c e.
  Proof.
    induction n as [|n IH]; intros m c d e H1 H2; inversion H1; subst; cbn.
    - apply (steps_same m d e); auto using same_refl. apply same_sym. split; auto.
    - eapply steps_S; eauto.
  Qed.

  (* the rank that takes a step *)
  Definition by_rank (r : nat) (c c' : config) : Prop :=
    (forall q, q <> r -> proc c' q = proc c q) /\
    ((exists d t m k, proc c r = Send d t m k /\ proc c' r = k /\ chan c' r d t = chan c r d t ++ [m] /\ (forall x y z, (x, y, z) <> (r, d, t) -> chan c' x y z = chan c x y z)) \/
     (exists s t m k rest, proc c r = Recv s t k /\ chan c s r t = m :: rest /\ proc c' r = k m /\ chan c' s r t = rest /\ (forall x y z, (x, y, z) <> (s, r, t) -> chan c' x y z = chan c x y z))).
  Lemma step_by c c' : step c c' <-> exists r, by_rank r c c'.
  Proof.
    split.
    - intros [r d t m k H1 H2 H3 H4 H5|r s t m k rest H1 H2 H3 H4 H5 H6]; exists r; (split; [auto|]); [left; exists d, t, m, k|right; exists s, t, m, k, rest]; auto 10.
    - intros (r & H & [(d & t & m & k & H1 & H2 & H3 & H4)|(s & t & m & k & rest & H1 & H2 & H3 & H4 & H5)]); [eapply (step_send c c' r); eauto|eapply (step_recv c c' r); eauto].
  Qed.
  Lemma by_det r c d e : by_rank r c d -> by_rank r c e -> same d e.
  Proof.
    intros [P H] [P' H']. split.
    - intros q. destruct (Nat.eq_dec q r) as [->|N]; [|rewrite P, P'; auto].
      destruct H as [(a & t & m & k & H1 & H2 & _)|(s & t & m & k & rest & H1 & H2 & H3 & _)], H' as [(a' & t' & m' & k' & H1' & H2' & _)|(s' & t' & m' & k' & rest' & H1' & H2' & H3' & _)]; congruence.
    - intros x y z. destruct H as [(a & t & m & k & H1 & H2 & H3 & H4)|(s & t & m & k & rest & H1 & H2 & H3 & H4 & H5)], H' as [(a' & t' & m' & k' & H1' & H2' & H3' & H4')|(s' & t' & m' & k' & rest' & H1' & H2' & H3' & H4' & H5')]; try congruence.
      + rewrite H1 in H1'. injection H1' as <- <- <- <-. destruct (Nat.eq_dec x r) as [->|N]; [|rewrite H4, H4' by congruence; auto]. destruct (Nat.eq_dec y a) as [->|N]; [|rewrite H4, H4' by congruence; auto]. destruct (Nat.eq_dec z t) as [->|N]; [congruence|rewrite H4, H4' by congruence; auto].
      + rewrite H1 in H1'. injection H1' as <- <- <-. destruct (Nat.eq_dec x s) as [->|N]; [|rewrite H5, H5' by congruence; auto]. destruct (Nat.eq_dec y r) as [->|N]; [|rewrite H5, H5' by congruence; auto]. destruct (Nat.eq_dec z t) as [->|N]; [congruence|rewrite H5, H5' by congruence; auto].
  Qed.
  Definition updp (f : nat -> prog M A) r v : nat -> prog M A := fun q => if q =? r then v else f q.
  Definition key3 (x y z a b c : nat) : bool := (x =? a) && (y =? b) && (z =? c).
  Definition updc (f : nat -> nat -> nat -> list M) a b c v : nat -> nat -> nat -> list M := fun x y z => if key3 x y z a b c then v else f x y z.
  Lemma key3_t a b c : key3 a b c a b c = true.
  Proof. unfold key3. rewrite !Nat.eqb_refl. auto. Qed.
  Lemma key3_f x y z a b c : (x, y, z) <> (a, b, c) -> key3 x y z a b c = false.
  Proof. intros N. unfold key3. destruct (Nat.eqb_spec x a), (Nat.eqb_spec y b), (Nat.eqb_spec z c); auto. subst. congruence. Qed.
  Lemma key3_iff x y z a b c : key3 x y z a b c = true <-> (x, y, z) = (a, b, c).
  Proof. split; [|intros [= -> -> ->]; apply key3_t]. destruct (key3 x y z a b c) eqn:E; [|discriminate]. unfold key3 in E. apply andb_true_iff in E as [E E3]. apply andb_true_iff in E as [E1 E2]. apply Nat.eqb_eq in E1, E2, E3. congruence. Qed.
  (* steps of different ranks commute *)
  Lemma by_commute r q c d e : r <> q -> by_rank r c d -> by_rank q c e -> exists f, by_rank q d f /\ by_rank r e f.
  Proof.
    intros N [P H] [P' H'].
    assert (Er : proc e r = proc c r) by (apply P'; auto). assert (Dq : proc d q = proc c q) by (apply P; auto).
    destruct H as [(a & t & m & k & H1 & H2 & H3 & H4)|(s & t & m & k & rest & H1 & H2 & H3 & H4 & H5)], H' as [(a' & t' & m' & k' & H1' & H2' & H3' & H4')|(s' & t' & m' & k' & rest' & H1' & H2' & H3' & H4' & H5')].
    - (* two sends: different channels *)
      assert (K : (q, a', t') <> (r, a, t)) by congruence.
      exists (mkConfig (updp (proc d) q k') (updc (chan d) q a' t' (chan d q a' t' ++ [m']))). split; (split; cbn [proc chan]).
      + intros x Nx. unfold updp. destruct (Nat.eqb_spec x q); congruence.
      + left. exists a', t', m', k'. split; [congruence|]. unfold updp, updc. rewrite Nat.eqb_refl, key3_t. split; auto. split; auto. intros x y z Nx. rewrite key3_f; auto.
      + intros x Nx. unfold updp. destruct (Nat.eqb_spec x q) as [->|]; [congruence|]. rewrite P by auto. symmetry. apply P'. auto.
      + left. exists a, t, m, k. split; [congruence|]. unfold updp, updc. destruct (Nat.eqb_spec r q); [congruence|]. split; auto. split.
        * rewrite key3_f by congruence. rewrite H3, H4' by congruence. auto.
        * intros x y z Nx. destruct (key3 x y z q a' t') eqn:Ek; [apply key3_iff in Ek; injection Ek as -> -> ->; rewrite H4 by congruence; auto|]. rewrite H4 by auto. symmetry. apply H4'. intros C. injection C as -> -> ->. rewrite key3_t in Ek. discriminate.
    - (* r sends, q receives *)
      destruct (key3 s' q t' r a t) eqn:Ek.
      + (* the same channel: q reads the head, r appends at the end *)
        apply key3_iff in Ek. injection Ek as -> -> ->.
        exists (mkConfig (updp (proc d) a (k' m')) (updc (chan d) r a t (rest' ++ [m]))). split; (split; cbn [proc chan]).
        * intros x Nx. unfold updp. destruct (Nat.eqb_spec x a); congruence.
        * right. exists r, t, m', k', (rest' ++ [m]). split; [congruence|]. split; [rewrite H3, H2'; auto|]. unfold updp, updc. rewrite Nat.eqb_refl, key3_t. split; auto. split; auto. intros x y z Nx. rewrite key3_f; auto.
        * intros x Nx. unfold updp. destruct (Nat.eqb_spec x a) as [->|]; [congruence|]. rewrite P by auto. symmetry. apply P'. auto.
        * left. exists a, t, m, k. split; [congruence|]. unfold updp, updc. destruct (Nat.eqb_spec r a); [congruence|]. split; auto. rewrite key3_t. split; [congruence|]. intros x y z Nx. rewrite key3_f by auto. rewrite H4 by auto. symmetry. apply H5'. auto.
      + assert (K : (s', q, t') <> (r, a, t)) by (intros C; apply key3_iff in C; congruence).
        exists (mkConfig (updp (proc d) q (k' m')) (updc (chan d) s' q t' rest')). split; (split; cbn [proc chan]).
        * intros x Nx. unfold updp. destruct (Nat.eqb_spec x q); congruence.
        * right. exists s', t', m', k', rest'. split; [congruence|]. split; [rewrite H4; auto|]. unfold updp, updc. rewrite Nat.eqb_refl, key3_t. split; auto. split; auto. intros x y z Nx. rewrite key3_f; auto.
        * intros x Nx. unfold updp. destruct (Nat.eqb_spec x q) as [->|]; [congruence|]. rewrite P by auto. symmetry. apply P'. auto.
        * left. exists a, t, m, k. split; [congruence|]. unfold updp, updc. destruct (Nat.eqb_spec r q); [congruence|]. split; auto. split.
          -- rewrite key3_f by congruence. rewrite H3. rewrite H5' by congruence. auto.
          -- intros x y z Nx. destruct (key3 x y z s' q t') eqn:E2; [apply key3_iff in E2; injection E2 as -> -> ->; auto|]. rewrite H4 by auto. symmetry. apply H5'. intros C. injection C as -> -> ->. rewrite key3_t in E2. discriminate.
    - (* r receives, q sends *)
      destruct (key3 q a' t' s r t) eqn:Ek.
      + apply key3_iff in Ek. injection Ek as -> -> ->.
        exists (mkConfig (updp (proc d) s k') (updc (chan d) s r t (rest ++ [m']))). split; (split; cbn [proc chan]).
        * intros x Nx. unfold updp. destruct (Nat.eqb_spec x s); congruence.
        * left. exists r, t, m', k'. split; [congruence|]. unfold updp, updc. rewrite Nat.eqb_refl, key3_t. split; auto. split; [congruence|]. intros x y z Nx. rewrite key3_f; auto.
        * intros x Nx. unfold updp. destruct (Nat.eqb_spec x s) as [->|]; [congruence|]. rewrite P by auto. symmetry. apply P'. auto.
        * right. exists s, t, m, k, (rest ++ [m']). split; [congruence|]. split; [rewrite H3', H2; auto|]. unfold updp, updc. destruct (Nat.eqb_spec r s); [congruence|]. split; auto. rewrite key3_t. split; auto. intros x y z Nx. rewrite key3_f by auto. rewrite H5 by auto. symmetry. apply H4'. auto.
      + assert (K : (q, a', t') <> (s, r, t)) by (intros C; apply key3_iff in C; congruence).
        exists (mkConfig (updp (proc d) q k') (updc (chan d) q a' t' (chan d q a' t' ++ [m']))). split; (split; cbn [proc chan]).
        * intros x Nx. unfold updp. destruct (Nat.eqb_spec x q); congruence.
        * left. exists a', t', m', k'. split; [congruence|]. unfold updp, updc. rewrite Nat.eqb_refl, key3_t. split; auto. split; auto. intros x y z Nx. rewrite key3_f; auto.
        * intros x Nx. unfold updp. destruct (Nat.eqb_spec x q) as [->|]; [congruence|]. rewrite P by auto. symmetry. apply P'. auto.
        * right. exists s, t, m, k, rest. split; [congruence|]. split; [rewrite H4'; auto|]. unfold updp, updc. destruct (Nat.eqb_spec r q); [congruence|]. split; auto. split.
          -- rewrite key3_f by congruence. auto.
          -- intros x y z Nx. destruct (key3 x y z q a' t') eqn:E2; [apply key3_iff in E2; injection E2 as -> -> ->; rewrite H5 by auto; auto|]. rewrite H5 by auto. symmetry. apply H4'. intros C. injection C as -> -> ->. rewrite key3_t in E2. discriminate.
    - (* two receives: different channels *)
      assert (K : (s', q, t') <> (s, r, t)) by congruence.
      exists (mkConfig (updp (proc d) q (k' m')) (updc (chan d) s' q t' rest')). split; (split; cbn [proc chan]).
      + intros x Nx. unfold updp. destruct (Nat.eqb_spec x q); congruence.
      + right. exists s', t', m', k', rest'. split; [congruence|]. split; [rewrite H5; auto|]. unfold updp, updc. rewrite Nat.eqb_refl, key3_t. split; auto. split; auto. intros x y z Nx. rewrite key3_f; auto.
      + intros x Nx. unfold updp. destruct (Nat.eqb_spec x q) as [->|]; [congruence|]. rewrite P by auto. symmetry. apply P'. auto.
      + right. exists s, t, m, k, rest. split; [congruence|]. split; [rewrite H5' by congruence; auto|]. unfold updp, updc. destruct (Nat.eqb_spec r q); [congruence|]. split; auto. split.
        * rewrite key3_f by congruence. auto.
        * intros x y z Nx. destruct (key3 x y z s' q t') eqn:E2; [apply key3_iff in E2; injection E2 as -> -> ->; auto|]. rewrite H5 by auto. symmetry. apply H5'. intros C. injection C as -> -> ->. rewrite key3_t in E2. discriminate.
  Qed.
  Lemma diamond (c d e : config) : step c d -> step c e -> same d e \/ exists f, step d f /\ step e f.
  Proof.
    intros H H'. apply step_by in H as [r H]. apply step_by in H' as [q H']. destruct (Nat.eq_dec r q) as [->|N]; [left; eapply by_det; eauto|].
    right. destruct (by_commute r q c d e N H H') as (f & F1 & F2). exists f. split; apply step_by; eauto.
  Qed.
  Lemma finished_stuck (c d : config) : finished c -> ~ step c d.
  Proof. intros F [r a t m k H _ _ _ _|r s t m k rest H _ _ _ _ _]; destruct (F r) as [x E]; congruence. Qed.
  Lemma finished_same c d : same c d -> finished c -> finished d.
  Proof. intros [P _] F r. destruct (F r) as [a E]. exists a. congruence. Qed.
  (* from one complete execution of n steps: every other first step is the beginning of a
     complete execution of n steps with the same end *)
  Lemma strip n : forall (c d e : config), steps n c d -> finished d -> step c e -> exists m, n = S m /\ steps m e d.
  Proof.
    induction n as [|n IH]; intros c d e H F S1; inversion H; subst.
    - exfalso. apply (finished_stuck c e); auto. apply (finished_same d c); auto. split; auto.
    - exists n. split; auto. destruct (diamond c d0 e H1 S1) as [S2|(f & F1 & F2)].
      + apply (steps_same n d0 d); auto using same_refl.
      + destruct (IH d0 d f H2 F F1) as (m & -> & Hm). eapply steps_S; eauto.
  Qed.
  Lemma schedules n (c d : config) : steps n c d -> finished d -> forall m e, steps m c e -> m <= n /\ steps (n - m) e d.
  Proof.
    intros H F m. revert n c H. induction m as [|m IH]; intros n c H e H'; inversion H'; subst.
    - split; [lia|]. rewrite Nat.sub_0_r. apply (steps_same n c d); auto using same_refl. split; auto.
    - destruct (strip n c d d0 H F H1) as (k & -> & Hk). destruct (IH k d0 Hk e H2) as [L R]. split; [lia|]. exact R.
  Qed.
End Mpi.
