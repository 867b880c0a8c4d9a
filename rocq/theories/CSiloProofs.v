(* Proofs about the C interface to the Silo files. *)
From Coq Require Import String Sorted QArith Permutation.
From Verif Require Import Base BaseFacts HullModel VoroModel CSiloModel CSiloSpec.
Local Open Scope nat_scope.

Lemma compare_refl s : String.compare s s = Eq.
Proof. destruct (String.compare s s) eqn:E; auto; pose proof (String.compare_antisym s s) as A; rewrite E in A; discriminate. Qed.

(* the keys are in order *)
Fixpoint above {A} (k : string) (m : cmap A) : Prop :=
  match m with [] => True | (k', _) :: m' => String.compare k k' = Lt /\ above k m' end.
Fixpoint ordered {A} (m : cmap A) : Prop :=
  match m with [] => True | (k, _) :: m' => above k m' /\ ordered m' end.

Lemma ascii_trans a b c : Ascii.compare a b = Lt -> Ascii.compare b c = Lt -> Ascii.compare a c = Lt.
Proof. unfold Ascii.compare. rewrite !N.compare_lt_iff. lia. Qed.
Lemma ascii_eq a b : Ascii.compare a b = Eq -> a = b.
Proof. unfold Ascii.compare. rewrite N.compare_eq_iff. intro H. rewrite <- (Ascii.ascii_N_embedding a), <- (Ascii.ascii_N_embedding b). congruence. Qed.
Lemma compare_trans a : forall b c, String.compare a b = Lt -> String.compare b c = Lt -> String.compare a c = Lt.
Proof.
  induction a as [|x a IH]; intros [|y b] [|z c]; simpl; try discriminate; auto.
  destruct (Ascii.compare x y) eqn:E1; try discriminate; destruct (Ascii.compare y z) eqn:E2; try discriminate; intros H1 H2.
  - apply ascii_eq in E1. apply ascii_eq in E2. subst. replace (Ascii.compare z z) with Eq by (symmetry; unfold Ascii.compare; apply N.compare_refl). eauto.
  - apply ascii_eq in E1. subst. rewrite E2. auto.
  - apply ascii_eq in E2. subst. rewrite E1. auto.
  - rewrite (ascii_trans _ _ _ E1 E2). auto.
Qed.
Lemma above_trans {A} k k' (m : cmap A) : String.compare k k' = Lt -> above k' m -> above k m.
Proof. intro H. induction m as [|[x v] m IH]; simpl; auto. intros [H1 H2]. split; auto. eapply compare_trans; eauto. Qed.
Lemma above_not {A} k (m : cmap A) v : above k m -> ~ In (k, v) m.
Proof. induction m as [|[x w] m IH]; simpl; auto. intros [H1 H2] [E|E]; [|tauto]. injection E as -> ->. rewrite compare_refl in H1. discriminate. Qed.
Lemma above_in {A} k (m : cmap A) k' v : above k m -> In (k', v) m -> String.compare k k' = Lt.
Proof. induction m as [|[x w] m IH]; simpl; [tauto|]. intros [H1 H2] [E|E]; auto. injection E as -> ->. auto. Qed.

Lemma put_above {A} k0 k (v : A) m : above k0 m -> String.compare k0 k = Lt -> above k0 (put m k v).
Proof.
  induction m as [|[x w] m IH]; simpl; auto. intros [H1 H2] H. destruct (String.compare k x) eqn:E; simpl; auto.
Qed.
Lemma put_ordered {A} k (v : A) m : ordered m -> ordered (put m k v).
Proof.
  induction m as [|[x w] m IH]; simpl; auto. intros [H1 H2]. destruct (String.compare k x) eqn:E; simpl; auto.
  - repeat split; auto. eapply above_trans; eauto.
  - split; auto. apply put_above; auto. rewrite String.compare_antisym, E. reflexivity.
Qed.
Lemma put_in {A} k (v : A) m k' v' : ordered m -> In (k', v') (put m k v) <-> (k' = k /\ v' = v) \/ (k' <> k /\ In (k', v') m).
Proof.
  induction m as [|[x w] m IH]; simpl.
  - intros _. split; [intros [E|[]]; injection E as -> ->; auto|intros [[-> ->]|[_ []]]; auto].
  - intros [H1 H2]. destruct (String.compare k x) eqn:E; simpl.
    + apply String.compare_eq_iff in E. subst x. split.
      * intros [E|E]; [injection E as -> ->; auto|]. right. split; auto. intros ->. apply (above_not _ _ _ H1 E).
      * intros [[-> ->]|[N [E|E]]]; auto. injection E as -> ->. tauto.
    + split.
      * intros [E1|[E1|E1]]; [injection E1 as -> ->; auto| |]; right; (split; [|auto]); intros ->.
        -- injection E1 as -> ->. rewrite compare_refl in E. discriminate.
        -- pose proof (compare_trans _ _ _ E (above_in _ _ _ _ H1 E1)) as C. rewrite compare_refl in C. discriminate.
      * intros [[-> ->]|[N E1]]; auto.
    + rewrite IH by auto. split.
      * intros [E1|[E1|E1]]; [|tauto|tauto]. right. split; auto. intros ->. injection E1 as -> ->. rewrite compare_refl in E. discriminate.
      * tauto.
Qed.
Lemma ordered_nodup {A} (m : cmap A) : ordered m -> NoDup (map fst m).
Proof.
  induction m as [|[k v] m IH]; simpl; [constructor|]. intros [H1 H2]. constructor; auto.
  intro I. apply in_map_iff in I. destruct I as [[x w] [E I]]. simpl in E. subst x. apply (above_not _ _ _ H1 I).
Qed.

(* filling a map from arrays *)
Lemma entry_step {A} n names (vals : nat -> option A) k0 v0 (m : cmap A) :
  nth_error names n = Some k0 -> vals n = Some v0 -> ordered m ->
  (forall k v, In (k, v) m <-> entry n names vals k v) ->
  forall k v, In (k, v) (put m k0 v0) <-> entry (S n) names vals k v.
Proof.
  intros Hk Hv O M k v. rewrite put_in by auto. split.
  - intros [[-> ->]|[N I]].
    + exists n. repeat split; auto. intros. lia.
    + apply M in I. destruct I as (i & L & I1 & I2 & I3). exists i. repeat split; auto. intros j J1 J2.
      destruct (Nat.eq_dec j n) as [->|]; [congruence|]. apply I3; lia.
  - intros (i & L & I1 & I2 & I3). destruct (Nat.eq_dec i n) as [->|D]; [left; split; congruence|]. right.
    split.
    + intros ->. apply (I3 n); auto. lia.
    + apply M. exists i. repeat split; auto. lia.
Qed.

Lemma fill_fields_ok {P} (a : c_args P) : nf a <= length (fnames a) -> nf a <= length (fptrs a) ->
  exists m, fill_fields a = Ok m /\ map_of m (nf a) (fnames a) (nth_error (fptrs a)).
Proof.
  intros L1 L2. unfold fill_fields.
  enough (H : forall n, n <= nf a -> exists m, mfold (fun m i => do k <- get (fnames a) i; do p <- get (fptrs a) i; Ok (put m k p)) (seq 0 n) [] = Ok m
            /\ ordered m /\ forall k v, In (k, v) m <-> entry n (fnames a) (nth_error (fptrs a)) k v).
  { destruct (H (nf a)) as (m & E & O & M); [lia|]. exists m. split; auto. split; auto. apply ordered_nodup; auto. }
  induction n as [|n IH]; intro L.
  - exists []. repeat split; simpl; auto; try tauto. intros (i & I & _). lia.
  - destruct IH as (m & E & O & M); [lia|]. rewrite seq_S, mfold_app, E. simpl.
    destruct (nth_error_ex (fnames a) n) as [k K]; [lia|]. destruct (nth_error_ex (fptrs a) n) as [p Hp]; [lia|].
    unfold get. rewrite K, Hp. simpl. exists (put m k p). repeat split.
    + apply put_ordered; auto.
    + apply (entry_step n (fnames a) (nth_error (fptrs a)) k p m); auto.
    + apply (entry_step n (fnames a) (nth_error (fptrs a)) k p m); auto.
Qed.

Lemma mmap_map {A B C} (f : B -> res C) (g : A -> B) l : mmap f (map g l) = mmap (fun x => f (g x)) l.
Proof. induction l as [|x l IH]; simpl; auto. rewrite IH. reflexivity. Qed.
Lemma take_ok {A} (l : list A) n : n <= length l -> mmap (fun j => get l j) (seq 0 n) = Ok (firstn n l).
Proof.
  revert l. induction n as [|n IH]; intros [|x l] L; simpl in *; auto; try lia.
  rewrite <- seq_shift, mmap_map. specialize (IH l). unfold get in *. simpl in *.
  rewrite IH by lia. reflexivity.
Qed.

(* the tags: new vectors for all, the map leads to the last of each name *)
Lemma fill_tags_ok {P} (a : c_args P) h : passed a ->
  exists vs m, fill_tags a h = Ok (h ++ map Some vs, m) /\ length vs = nt a
    /\ (forall i, i < nt a -> tag a i = nth_error vs i) /\ ordered m
    /\ forall k p, In (k, p) m <-> entry (nt a) (tnames a) (fun i => Some (length h + i)) k p.
Proof.
  intros (_ & _ & L1 & L2 & L3 & L4). unfold fill_tags.
  match goal with |- context [mfold ?f _ _] => set (F := f) end.
  enough (H : forall n, n <= nt a -> exists vs m, mfold F (seq 0 n) (h, []) = Ok (h ++ map Some vs, m) /\ length vs = n
    /\ (forall i, i < n -> tag a i = nth_error vs i) /\ ordered m
    /\ forall k p, In (k, p) m <-> entry n (tnames a) (fun i => Some (length h + i)) k p).
  { apply H. lia. }
  induction n as [|n IH]; intro L.
  - exists [], []. simpl. rewrite app_nil_r. repeat split; simpl; auto; try tauto; try lia. intros (i & I & _). lia.
  - destruct IH as (vs & m & E & Lv & T & O & M); [lia|]. rewrite seq_S, mfold_app, E. simpl.
    destruct (nth_error_ex (tnames a) n) as [k K]; [lia|]. destruct (nth_error_ex (tsizes a) n) as [s S']; [lia|].
    destruct (nth_error_ex (tarrays a) n) as [l Hl]; [lia|].
    unfold get at 1 2 4. rewrite K, S', Hl. simpl. rewrite take_ok by (eapply L4; eauto). simpl.
    exists (vs ++ [firstn s l]), (put m k (length (h ++ map Some vs))).
    split; [rewrite map_app, app_assoc; reflexivity|]. split; [rewrite app_length; simpl; lia|].
    split; [|split; [apply put_ordered; auto|]].
    + intros i I. destruct (Nat.eq_dec i n) as [->|D].
      * rewrite nth_error_app2, Lv, Nat.sub_diag by lia. simpl. unfold tag. rewrite S', Hl. reflexivity.
      * rewrite nth_error_app1 by lia. apply T. lia.
    + apply entry_step; auto. rewrite app_length, map_length. f_equal. lia.
Qed.

(* cleaning up *)
Lemma clean_ok : forall (ps : list nat) (h : vectors), NoDup ps -> (forall p, In p ps -> exists v, nth_error h p = Some (Some v)) ->
  exists h', mfold del ps h = Ok h' /\ length h' = length h
    /\ forall p, nth_error h' p = if in_dec Nat.eq_dec p ps then Some None else nth_error h p.
Proof.
  induction ps as [|q ps IH]; intros h N A.
  - exists h. repeat split.
  - inversion N as [|? ? N1 N2]; subst. destruct (A q) as [v Hv]; [left; auto|]. simpl. unfold del at 1. rewrite Hv. simpl.
    pose proof (nth_error_lt _ _ _ Hv) as Lq.
    destruct (IH (upd h q None)) as (h' & E & L & H); auto.
    + intros p I. destruct (A p) as [w Hw]; [right; auto|]. exists w. rewrite upd_other; auto. intros ->. tauto.
    + exists h'. split; auto. split; [rewrite L; apply upd_length|]. intro p. rewrite H.
      destruct (in_dec Nat.eq_dec p ps) as [I|I]; destruct (Nat.eq_dec q p) as [->|D]; simpl; auto.
      * apply upd_same. auto.
      * rewrite upd_other by auto. destruct (in_dec Nat.eq_dec p ps); tauto.
Qed.

Lemma seen_ok h (m : cmap nat) : (forall k p, In (k, p) m -> exists v, nth_error h p = Some (Some v)) ->
  exists w, seen h m = Ok w /\ map fst w = map fst m
    /\ forall k v, In (k, v) w <-> exists p, In (k, p) m /\ nth_error h p = Some (Some v).
Proof.
  induction m as [|[k p] m IH]; intro A.
  - exists []. repeat split; simpl; auto; try tauto. intros (p & [] & _).
  - destruct (A k p) as [v Hv]; [left; auto|]. destruct IH as (w & E & F & I); [intros; eapply A; right; eauto|].
    exists ((k, v) :: w). unfold seen in *. simpl. rewrite Hv. simpl. rewrite E. simpl. split; auto. split; [congruence|].
    intros k' v'. rewrite I. split.
    + intros [X|(q & Q1 & Q2)]; [injection X as -> ->; eauto|eauto].
    + intros (q & [X|Q1] & Q2); [injection X as -> ->; left; congruence|eauto].
Qed.

Lemma nodup_map_in {A B} (f : A -> B) l : NoDup l -> (forall x y, In x l -> In y l -> f x = f y -> x = y) -> NoDup (map f l).
Proof.
  induction 1 as [|x l N1 N2 IH]; intro I; simpl; constructor.
  - intro H. apply in_map_iff in H. destruct H as (y & E & Y). apply N1. replace x with y; auto. apply I; simpl; auto.
  - apply IH. intros. apply I; simpl; auto.
Qed.

(* the map of one kind of element after filling: what is needed of it *)
Definition filled {P} (a : c_args P) (o : nat) (m : cmap nat) (h : vectors) : Prop :=
  ordered m
  /\ (forall k p, In (k, p) m <-> entry (nt a) (tnames a) (fun i => Some (o + i)) k p)
  /\ forall i, i < nt a -> exists v, tag a i = Some v /\ nth_error h (o + i) = Some (Some v).

Lemma filled_range {P} (a : c_args P) o m h k p : filled a o m h -> In (k, p) m -> o <= p < o + nt a.
Proof. intros (_ & M & _) I. apply M in I. destruct I as (i & L & _ & E & _). injection E as <-. lia. Qed.
Lemma filled_range' {P} (a : c_args P) o m h p : filled a o m h -> In p (map snd m) -> o <= p < o + nt a.
Proof. intros F I. apply in_map_iff in I. destruct I as ([k q] & E & I). simpl in E. subst q. eapply filled_range; eauto. Qed.
Lemma filled_live {P} (a : c_args P) o m h k p : filled a o m h -> In (k, p) m -> exists v, nth_error h p = Some (Some v).
Proof. intros (_ & M & V) I. apply M in I. destruct I as (i & L & _ & E & _). injection E as <-. destruct (V i L) as (v & _ & H). eauto. Qed.
Lemma filled_nodup {P} (a : c_args P) o m h : filled a o m h -> NoDup (map snd m).
Proof.
  intros (O & M & _). apply nodup_map_in; [eapply NoDup_map_inv, ordered_nodup; eauto|].
  intros [k p] [k' p'] I1 I2 E. simpl in E. subst p'. apply M in I1. apply M in I2.
  destruct I1 as (i & L & K & E & _), I2 as (i' & L' & K' & E' & _). injection E as E. injection E' as E'.
  assert (i = i') by lia. subst i'. congruence.
Qed.
Lemma filled_seen {P} (a : c_args P) o m h : filled a o m h ->
  exists w, seen h m = Ok w /\ map_of w (nt a) (tnames a) (tag a).
Proof.
  intros F. destruct (seen_ok h m) as (w & E & Fs & I); [intros; eapply filled_live; eauto|].
  destruct F as (O & M & V). exists w. split; auto. split; [rewrite Fs; apply ordered_nodup; auto|].
  intros k v. rewrite I. split.
  - intros (p & Ip & Hp). apply M in Ip. destruct Ip as (i & L & K & E' & J). injection E' as <-.
    destruct (V i L) as (v' & T & H). exists i. repeat split; auto. congruence.
  - intros (i & L & K & T & J). destruct (V i L) as (v' & T' & H). exists (o + i). split; [|congruence].
    apply M. exists i. auto.
Qed.
Lemma filled_clean {P} (a : c_args P) o m h h0 : filled a o m h0 ->
  (forall p, o <= p < o + nt a -> nth_error h p = nth_error h0 p) ->
  exists h', clean h m = Ok h' /\ length h' = length h
    /\ forall p, nth_error h' p = if in_dec Nat.eq_dec p (map snd m) then Some None else nth_error h p.
Proof.
  intros F A. apply clean_ok; [eapply filled_nodup; eauto|]. intros p I. rewrite A by (eapply filled_range'; eauto).
  apply in_map_iff in I. destruct I as ([k q] & E & I). simpl in E. subst q. eapply filled_live; eauto.
Qed.
(* all vectors of a kind are reached exactly when no name is there twice *)
Lemma filled_all {P} (a : c_args P) o m h : filled a o m h -> nt a <= length (tnames a) ->
  (forall i, i < nt a -> In (o + i) (map snd m)) <-> distinct_tags a.
Proof.
  intros (O & M & _) Ln. unfold distinct_tags.
  assert (FN : forall i, i < nt a -> nth_error (firstn (nt a) (tnames a)) i = nth_error (tnames a) i).
  { intros i I. rewrite <- (firstn_skipn (nt a) (tnames a)) at 2. symmetry. apply nth_error_app1. rewrite firstn_length. lia. }
  rewrite NoDup_nth_error. rewrite firstn_length, Nat.min_l by lia. split.
  - intros A i j I E. destruct (Nat.lt_ge_cases j (nt a)) as [J|J].
    + rewrite !FN in E by auto.
      assert (X : forall i j, i < j -> j < nt a -> nth_error (tnames a) i = nth_error (tnames a) j -> False).
      { clear i j I E J. intros i j I J E. specialize (A i ltac:(lia)). apply in_map_iff in A. destruct A as ([k p] & Ep & A). simpl in Ep. subst p.
        apply M in A. destruct A as (i' & L & K & E' & N). injection E' as E'. assert (i' = i) by lia. subst i'.
        apply (N j); auto. congruence. }
      destruct (Nat.lt_trichotomy i j) as [H|[H|H]]; auto; exfalso; eauto.
    + rewrite (proj2 (nth_error_None _ j)), FN in E by (try rewrite firstn_length; lia). apply nth_error_None in E. lia.
  - intros N i I. destruct (nth_error_ex (tnames a) i) as [k K]; [lia|].
    apply in_map_iff. exists (k, o + i). split; auto. apply M. exists i. repeat split; auto.
    intros j J1 J2 E. rewrite <- K in E. rewrite <- !FN in E by lia. apply N in E; auto. lia.
Qed.

Lemma fill_filled {P} (a : c_args P) h : passed a -> exists vs m, fill_tags a h = Ok (h ++ map Some vs, m) /\ length vs = nt a
    /\ forall h', filled a (length h) m ((h ++ map Some vs) ++ h').
Proof.
  intro H. destruct (fill_tags_ok a h H) as (vs & m & E & L & T & O & M). exists vs, m. split; auto. split; auto. intro h'.
  split; auto. split; auto. intros i I. rewrite T by auto. destruct (nth_error_ex vs i) as [v Hv]; [lia|].
  exists v. split; auto. rewrite <- app_assoc, nth_error_app2 by lia. rewrite nth_error_app1 by (rewrite map_length; lia).
  replace (length h + i - length h) with i by lia. apply map_nth_error. auto.
Qed.

Lemma write_ok {P} dim (n e f c : c_args P) : dim = 2 \/ dim = 3 -> passed n -> passed e -> passed f -> passed c ->
  exists on oe of oc h, write_silo_with_tags dim n e f c = Ok (on, oe, of, oc, h)
    /\ hands_over n on /\ hands_over e oe /\ hands_over f of /\ hands_over c oc
    /\ length h = nt n + nt e + nt f + nt c
    /\ ((forall p v, nth_error h p <> Some (Some v)) <-> distinct_tags n /\ distinct_tags e /\ distinct_tags f /\ distinct_tags c).
Proof.
  intros D Pn Pe Pf Pc.
  destruct (fill_fields_ok n) as (f1 & F1 & M1); [apply Pn|apply Pn|].
  destruct (fill_fields_ok e) as (f2 & F2 & M2); [apply Pe|apply Pe|].
  destruct (fill_fields_ok f) as (f3 & F3 & M3); [apply Pf|apply Pf|].
  destruct (fill_fields_ok c) as (f4 & F4 & M4); [apply Pc|apply Pc|].
  destruct (fill_filled n [] Pn) as (v1 & t1 & T1 & L1 & G1). simpl app in *.
  destruct (fill_filled e (map Some v1) Pe) as (v2 & t2 & T2 & L2 & G2).
  destruct (fill_filled f (map Some v1 ++ map Some v2) Pf) as (v3 & t3 & T3 & L3 & G3).
  destruct (fill_filled c ((map Some v1 ++ map Some v2) ++ map Some v3) Pc) as (v4 & t4 & T4 & L4 & G4).
  remember (((map Some v1 ++ map Some v2) ++ map Some v3) ++ map Some v4) as h eqn:Eh.
  assert (H1 : filled n 0 t1 h) by (specialize (G1 (map Some v2 ++ map Some v3 ++ map Some v4)); rewrite Eh, <- !app_assoc; auto).
  assert (H2 : filled e (nt n) t2 h).
  { specialize (G2 (map Some v3 ++ map Some v4)). rewrite map_length, L1 in G2. rewrite Eh, <- (app_assoc _ (map Some v3)). auto. }
  assert (H3 : filled f (nt n + nt e) t3 h).
  { specialize (G3 (map Some v4)). rewrite app_length, !map_length, L1, L2 in G3. rewrite Eh. auto. }
  assert (H4 : filled c (nt n + nt e + nt f) t4 h).
  { specialize (G4 []). rewrite !app_length, !map_length, L1, L2, L3 in G4. rewrite app_nil_r in G4. auto. }
  assert (Lh : length h = nt n + nt e + nt f + nt c) by (rewrite Eh, !app_length, !map_length; lia).
  destruct (filled_seen _ _ _ _ H1) as (w1 & S1 & W1). destruct (filled_seen _ _ _ _ H2) as (w2 & S2 & W2).
  destruct (filled_seen _ _ _ _ H3) as (w3 & S3 & W3). destruct (filled_seen _ _ _ _ H4) as (w4 & S4 & W4).
  destruct (filled_clean _ _ _ h h H1) as (h1 & C1 & N1 & K1); [auto|].
  destruct (filled_clean _ _ _ h1 h H2) as (h2 & C2 & N2 & K2).
  { intros p R. rewrite K1. destruct (in_dec _ _ _) as [I|]; auto. apply (filled_range' _ _ _ _ _ H1) in I. lia. }
  destruct (filled_clean _ _ _ h2 h H3) as (h3 & C3 & N3 & K3).
  { intros p R. rewrite K2. destruct (in_dec _ _ _) as [I|]; [apply (filled_range' _ _ _ _ _ H2) in I; lia|].
    rewrite K1. destruct (in_dec _ _ (map snd t1)) as [I|]; auto. apply (filled_range' _ _ _ _ _ H1) in I. lia. }
  destruct (filled_clean _ _ _ h3 h H4) as (h4 & C4 & N4 & K4).
  { intros p R. rewrite K3. destruct (in_dec _ _ _) as [I|]; [apply (filled_range' _ _ _ _ _ H3) in I; lia|].
    rewrite K2. destruct (in_dec _ _ (map snd t2)) as [I|]; [apply (filled_range' _ _ _ _ _ H2) in I; lia|].
    rewrite K1. destruct (in_dec _ _ (map snd t1)) as [I|]; auto. apply (filled_range' _ _ _ _ _ H1) in I. lia. }
  exists (f1, w1), (f2, w2), (f3, w3), (f4, w4), h4. split.
  { unfold write_silo_with_tags. rewrite F1, F2, F3, F4. simpl. rewrite T1. simpl. rewrite T2. simpl. rewrite T3. simpl. rewrite T4. simpl.
    replace ((dim =? 2) || (dim =? 3)) with true by (destruct D as [-> | ->]; reflexivity). simpl.
    rewrite S1, S2, S3, S4. simpl. rewrite C1. simpl. rewrite C2. simpl. rewrite C3. simpl. rewrite C4. reflexivity. }
  split; [split; auto|]. split; [split; auto|]. split; [split; auto|]. split; [split; auto|]. split; [lia|].
  rewrite <- (filled_all _ _ _ _ H1), <- (filled_all _ _ _ _ H2), <- (filled_all _ _ _ _ H3), <- (filled_all _ _ _ _ H4)
    by (apply Pn || apply Pe || apply Pf || apply Pc).
  assert (Live : forall p, p < length h -> exists v, nth_error h p = Some (Some v)).
  { intros p Lp. rewrite Eh, <- !map_app in *. rewrite map_length in Lp. destruct (nth_error_ex _ _ Lp) as [v Hv]. exists v. apply map_nth_error. auto. }
  assert (R : forall p, In p (map snd t1) \/ In p (map snd t2) \/ In p (map snd t3) \/ In p (map snd t4) -> forall v, nth_error h4 p <> Some (Some v)).
  { intros p I v. rewrite K4, K3, K2, K1.
    repeat match goal with |- context [in_dec ?a ?b ?c] => destruct (in_dec a b c) end; try discriminate. tauto. }
  assert (R' : forall p, p < length h -> (forall v, nth_error h4 p <> Some (Some v)) -> In p (map snd t1) \/ In p (map snd t2) \/ In p (map snd t3) \/ In p (map snd t4)).
  { intros p Lp Dp. destruct (Live p Lp) as [v Hv]. specialize (Dp v). rewrite K4, K3, K2, K1 in Dp.
    repeat match type of Dp with context [in_dec ?a ?b ?c] => destruct (in_dec a b c) end; tauto. }
  split.
  - intro Dead. repeat split; intros i I; (match goal with |- In ?p _ => destruct (R' p) as [X|[X|[X|X]]] end; auto; [lia|..]; exfalso;
      first [apply (filled_range' _ _ _ _ _ H1) in X|apply (filled_range' _ _ _ _ _ H2) in X|apply (filled_range' _ _ _ _ _ H3) in X|apply (filled_range' _ _ _ _ _ H4) in X]; lia).
  - intros (A1 & A2 & A3 & A4) p v. destruct (Nat.lt_ge_cases p (length h)) as [Lp|Lp].
    + apply R. destruct (Nat.lt_ge_cases p (nt n)) as [B1|B1]; [left; apply (A1 p B1)|].
      destruct (Nat.lt_ge_cases p (nt n + nt e)) as [B2|B2]; [right; left; replace p with (nt n + (p - nt n)) by lia; apply A2; lia|].
      destruct (Nat.lt_ge_cases p (nt n + nt e + nt f)) as [B3|B3]; [right; right; left; replace p with (nt n + nt e + (p - nt n - nt e)) by lia; apply A3; lia|].
      right; right; right. replace p with (nt n + nt e + nt f + (p - nt n - nt e - nt f)) by lia. apply A4. lia.
    + rewrite (proj2 (nth_error_None h4 p)) by lia. discriminate.
Qed.
