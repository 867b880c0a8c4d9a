From Verif Require Import Base BaseFacts Rank ArrayModel.
From Coq Require Import Sorted.

(* ------------------------------------------------------------ removeElements *)
Definition mem (l : list nat) (k : nat) : bool := existsb (Nat.eqb k) l.
Lemma mem_in l k : mem l k = true <-> In k l.
Proof.
  unfold mem; rewrite existsb_exists; split.
  - intros (x & H & E); apply Nat.eqb_eq in E; subst; auto.
  - intros H; exists k; rewrite Nat.eqb_refl; auto.
Qed.

Definition keepf (els : list nat) (k : nat) : bool := negb (mem els k).

Lemma strictly_sorted_spec l : strictly_sorted l = true <-> StronglySorted lt l.
Proof.
  induction l as [|a l IH]; [split; [constructor|reflexivity]|].
  destruct l as [|b t].
  - split; [repeat constructor|reflexivity].
  - change (strictly_sorted (a :: b :: t)) with ((a <? b) && strictly_sorted (b :: t)).
    rewrite andb_true_iff, IH, Nat.ltb_lt. split.
    + intros [L S]. constructor; auto. inversion S; subst. constructor; auto.
      eapply Forall_impl; [|eassumption]. cbn; intros; lia.
    + intros S. inversion S as [|? ? S' F]; subst. inversion F; subst. auto.
Qed.

Lemma last_In {A} (l : list A) d : l <> [] -> In (last l d) l.
Proof.
  intros H. destruct (exists_last H) as (l' & a & ->). rewrite last_last.
  apply in_or_app; right; left; auto.
Qed.

Lemma last_max l d x : StronglySorted lt l -> In x l -> x <= last l d.
Proof.
  induction l as [|a l IH]; intros S; [intros []|intros [->|I]].
  - destruct l as [|b t]; [cbn; lia|].
    inversion S as [|? ? S' F]; subst. rewrite Forall_forall in F.
    change (last (x :: b :: t) d) with (last (b :: t) d).
    assert (In (last (b :: t) d) (b :: t)) by (apply last_In; congruence).
    apply F in H; lia.
  - inversion S as [|? ? S' F]; subst. destruct l as [|b t]; [contradiction|].
    change (last (a :: b :: t) d) with (last (b :: t) d). auto.
Qed.

Section RE.
  Context {V : Type} (orig : list V) (els : list nat).
  Notation n := (length orig).
  Notation keep := (keepf els).

  (* loop invariant of the compaction *)
  Record LInv (del : list nat) (i j : nat) (vec : list V) (o2n : list Z) : Prop := {
    li_i : i = rank keep j;
    li_ij : i < j; li_jn : j <= n;
    li_vec : length vec = n;
    li_o2n : length o2n = n;
    li_del : forall k, In k del <-> In k els /\ j <= k;
    li_sorted : StronglySorted lt del;
    li_low : forall k, k < j -> keep k = true -> nth_error vec (rank keep k) = nth_error orig k;
    li_high : forall k, j <= k -> nth_error vec k = nth_error orig k;
    li_map : forall k, k < j -> nth_error o2n k =
               Some (if keep k then Z.of_nat (rank keep k) else (-1)%Z);
    li_map_high : forall k, j <= k < n -> nth_error o2n k = Some (-1)%Z }.

  Lemma rank_lt_self j k : ~ keep k = true -> k < j -> rank keep j < j.
  Proof.
    intros Hk L. induction j as [|j IH]; [lia|].
    rewrite rank_S. destruct (Nat.eq_dec k j) as [->|N].
    - destruct (keep j); [congruence|]. pose proof (rank_bound keep j); lia.
    - assert (k < j) by lia. destruct (keep j); [|]; specialize (IH H); lia.
  Qed.

  Lemma re_loop_inv fuel del i j vec o2n :
    LInv del i j vec o2n -> n - j <= fuel ->
    exists del' i' j' vec' o2n',
      re_loop fuel n del i j vec o2n = Ok (i', j', vec', o2n') /\
      LInv del' i' j' vec' o2n' /\ (del' = [] \/ j' = n).
  Proof.
    revert del i j vec o2n; induction fuel as [|fuel IH]; intros del i j vec o2n I F.
    - pose proof (li_jn _ _ _ _ _ I). assert (j = n) by lia. subst j.
      exists del, i, n, vec, o2n. destruct del; cbn.
      + split; [reflexivity|split; [auto|auto]].
      + rewrite Nat.eqb_refl. split; [reflexivity|split; [auto|auto]].
    - destruct del as [|d del'].
      { exists [], i, j, vec, o2n. split; [reflexivity|split; [auto|auto]]. }
      cbn [re_loop]. destruct (Nat.eqb_spec j n) as [->|Nj].
      { exists (d :: del'), i, n, vec, o2n. split; [reflexivity|split; [auto|auto]]. }
      destruct I as [Ei Lij Ljn Lv Lo Del S Low High Map MapH].
      destruct (Nat.eqb_spec j d) as [->|Nd].
      + apply IH; [|lia].
        assert (Kd : keep d = false).
        { unfold keepf. apply negb_false_iff, mem_in. apply (Del d); left; auto. }
        constructor; auto; try lia.
        * rewrite rank_S, Kd; lia.
        * intros k; split.
          -- intros Hk. inversion S as [|? ? S' FA]; subst. rewrite Forall_forall in FA.
             pose proof (FA k Hk). split; [|lia]. apply Del; right; auto.
          -- intros [Hk Lk]. assert (Hk' : In k (d :: del')) by (apply Del; split; auto; lia).
             destruct Hk' as [->|]; [lia|auto].
        * inversion S; auto.
        * intros k Lk Kk. apply Low; auto.
          destruct (Nat.eq_dec k d) as [->|]; [congruence|lia].
        * intros k Lk. apply High; lia.
        * intros k Lk. destruct (Nat.eq_dec k d) as [->|]; [|apply Map; lia].
          rewrite Kd. apply MapH; lia.
        * intros k Lk. apply MapH; lia.
      + assert (Kj : keep j = true).
        { unfold keepf. apply negb_true_iff. destruct (mem els j) eqn:M; [|reflexivity].
          exfalso. apply mem_in in M. assert (Hj : In j (d :: del')) by (apply Del; split; auto).
          destruct Hj as [->|Hj]; [lia|].
          inversion S as [|? ? S' FA]; subst. rewrite Forall_forall in FA. pose proof (FA j Hj).
          assert (X : In d (d :: del')) by (left; auto). apply Del in X. lia. }
        unfold set at 1. destruct (Nat.ltb_spec j (length o2n)); [|lia]. cbn [bind].
        destruct (get_lt vec j) as [x Hx]; [lia|]. rewrite Hx. cbn [bind].
        apply get_ok in Hx.
        unfold set. destruct (Nat.ltb_spec i (length vec)); [|lia]. cbn [bind].
        apply IH; [|lia].
        constructor; rewrite ?upd_length; auto; try lia.
        * rewrite rank_S, Kj; lia.
        * intros k. rewrite Del. split; intros [A B]; split; auto; try lia.
          destruct (Nat.eq_dec k j) as [->|]; [|lia].
          exfalso. apply mem_in in A. unfold keepf in Kj. rewrite A in Kj; discriminate.
        * intros k Lk Kk. destruct (Nat.eq_dec k j) as [->|Nk].
          -- rewrite <- Ei, upd_same by auto. rewrite <- High by lia. auto.
          -- rewrite upd_other; [apply Low; auto; lia|].
             assert (L' : k < j) by lia. pose proof (rank_lt keep _ _ L' Kk). lia.
        * intros k Lk. rewrite upd_other by lia. apply High; lia.
        * intros k Lk. destruct (Nat.eq_dec k j) as [->|Nk].
          -- rewrite upd_same by auto. rewrite Kj, Ei; reflexivity.
          -- rewrite upd_other by auto. apply Map; lia.
        * intros k Lk. rewrite upd_other by lia. apply MapH; lia.
  Qed.

  Lemma rank_all_kept j m : j <= m -> (forall k, j <= k < m -> keep k = true) ->
    rank keep m = rank keep j + (m - j).
  Proof.
    intros L H. induction m as [|m IH]; [assert (j = 0) by lia; subst; lia|].
    destruct (Nat.eq_dec j (S m)) as [->|N]; [lia|].
    rewrite rank_S, IH by (try lia; intros; apply H; lia). rewrite H by lia. lia.
  Qed.

  Lemma rank_card l m : StronglySorted lt l -> (forall k, In k l <-> In k els /\ k < m) ->
    rank keep m + length l = m.
  Proof.
    intros S H. revert l S H; induction m as [|m IH]; intros l S H.
    - destruct l as [|a l]; [reflexivity|].
      assert (X : In a (a :: l)) by (left; auto). apply H in X; lia.
    - rewrite rank_S. destruct (keep m) eqn:K.
      + assert (E : forall k, In k l <-> In k els /\ k < m).
        { intros k; rewrite H. split; intros [A B]; split; auto; try lia.
          destruct (Nat.eq_dec k m) as [->|]; [|lia].
          apply mem_in in A. unfold keepf in K; rewrite A in K; discriminate. }
        specialize (IH l S E). lia.
      + assert (Hm : In m l).
        { apply H; split; [|lia]. unfold keepf in K. apply negb_false_iff, mem_in in K; auto. }
        (* m is the last element *)
        assert (exists l', l = l' ++ [m]) as [l' ->].
        { destruct (exists_last (l:=l)) as (l' & a & ->); [intros ->; contradiction|].
          exists l'. f_equal. f_equal.
          assert (In a (l' ++ [a])) by (apply in_or_app; right; left; auto).
          apply H in H0. pose proof (last_max _ 0 m S Hm) as M. rewrite last_last in M. lia. }
        rewrite app_length; cbn.
        assert (S' : StronglySorted lt l').
        { clear -S. induction l' as [|a l' IH]; [constructor|].
          cbn in S. inversion S; subst. constructor; auto.
          rewrite Forall_app in *. tauto. }
        assert (E : forall k, In k l' <-> In k els /\ k < m).
        { intros k; split.
          - intros I. assert (In k (l' ++ [m])) by (apply in_or_app; auto).
            apply H in H0 as [A B]; split; auto.
            assert (k < m); [|lia]. clear -S I.
            induction l' as [|a l' IH]; [contradiction|].
            cbn in S. inversion S as [|? ? S' F]; subst.
            destruct I as [->|I]; [|auto]. rewrite Forall_forall in F. apply F.
            apply in_or_app; right; left; auto.
          - intros [A B]. assert (X : In k (l' ++ [m])) by (apply H; split; auto; lia).
            apply in_app_or in X as [X|[->|[]]]; [auto|lia]. }
        specialize (IH l' S' E). lia.
  Qed.

  Lemma removeElements_ok :
    StronglySorted lt els -> (forall e, In e els -> e < n) ->
    exists vec' o2n,
      removeElements orig els = Ok (vec', o2n) /\
      length vec' = rank keep n /\ rank keep n + length els = n /\ length o2n = n /\
      (forall k, k < n -> keep k = true -> nth_error vec' (rank keep k) = nth_error orig k) /\
      (forall k, k < n -> nth_error o2n k =
           Some (if keep k then Z.of_nat (rank keep k) else (-1)%Z)).
  Proof.
    intros S B.
    assert (RC : rank keep n + length els = n).
    { apply rank_card; auto. intros k; split; [auto|tauto]. }
    unfold removeElements. destruct els as [|e0 rest] eqn:E0; rewrite <- E0 in *.
    - exists orig, (map Z.of_nat (seq 0 n)).
      assert (K : forall k, keep k = true) by (intros; rewrite E0; reflexivity).
      assert (R : forall k, rank keep k = k).
      { intros k. rewrite (rank_all_kept 0 k); [rewrite rank_0; lia|lia|intros; apply K]. }
      split; [reflexivity|]. split; [rewrite R; auto|]. split; [auto|].
      split; [rewrite map_length, seq_length; auto|]. split.
      + intros k L _. rewrite R; auto.
      + intros k L. rewrite K, R.
        rewrite (map_nth_error Z.of_nat k (seq 0 n) (d:=k)); [auto|].
        rewrite nth_error_nth' with (d:=0) by (rewrite seq_length; auto).
        rewrite seq_nth; auto.
    - assert (Hs : strictly_sorted els = true) by (apply strictly_sorted_spec; auto).
      rewrite Hs. cbn [assert bind].
      assert (Hl : last els 0 < n) by (apply B, last_In; rewrite E0; congruence).
      apply Nat.ltb_lt in Hl. rewrite Hl. cbn [assert bind].
      assert (He0 : e0 < n) by (apply B; rewrite E0; left; auto).
      assert (Low0 : forall k, k < e0 -> keep k = true).
      { intros k L. unfold keepf. apply negb_true_iff. destruct (mem els k) eqn:M; [|auto].
        apply mem_in in M. rewrite E0 in M, S. inversion S as [|? ? S' FA]; subst.
        rewrite Forall_forall in FA. destruct M as [->|M]; [lia|]. apply FA in M; lia. }
      assert (Re0 : forall k, k <= e0 -> rank keep k = k).
      { intros k L. rewrite (rank_all_kept 0 k); [rewrite rank_0; lia|lia|].
        intros; apply Low0; lia. }
      assert (Ke0 : keep e0 = false).
      { unfold keepf. apply negb_false_iff, mem_in. rewrite E0; left; auto. }
      assert (I : LInv rest e0 (Datatypes.S e0) orig
                   (map Z.of_nat (seq 0 e0) ++ repeat (-1)%Z (n - e0))).
      { constructor; auto; try lia.
        - rewrite rank_S, Ke0, Re0 by lia. lia.
        - rewrite app_length, map_length, seq_length, repeat_length. lia.
        - intros k. rewrite E0. rewrite E0 in S. inversion S as [|? ? S' FA]; subst.
          rewrite Forall_forall in FA. split.
          + intros Hk; split; [right; auto|apply FA; auto].
          + intros [[->|Hk] L]; [lia|auto].
        - rewrite E0 in S; inversion S; auto.
        - intros k L Hk. rewrite Re0; [auto|].
          destruct (Nat.eq_dec k e0) as [->|]; [congruence|lia].
        - intros k L. destruct (Nat.eq_dec k e0) as [->|N].
          + rewrite Ke0. rewrite nth_error_app2; rewrite map_length, seq_length; [|lia].
            rewrite Nat.sub_diag. destruct (n - e0) eqn:X; [lia|reflexivity].
          + rewrite Low0, Re0 by lia.
            rewrite nth_error_app1 by (rewrite map_length, seq_length; lia).
            rewrite (map_nth_error Z.of_nat k (seq 0 e0) (d:=k)); [auto|].
            rewrite nth_error_nth' with (d:=0) by (rewrite seq_length; lia).
            rewrite seq_nth; [auto|lia].
        - intros k L. rewrite nth_error_app2; rewrite map_length, seq_length; [|lia].
          rewrite (nth_error_nth' _ (-1)%Z) by (rewrite repeat_length; lia).
          f_equal. apply nth_repeat. }
      destruct (re_loop_inv n _ _ _ _ _ I ltac:(lia)) as (del' & i & j & v & o & -> & I' & Done).
      cbn [bind]. destruct I' as [Ei Lij Ljn Lv Lo Del' S' Low High Map MapH].
      assert (Tail : forall k, j <= k < n -> keep k = true).
      { intros k L. destruct Done as [->| ->]; [|lia].
        unfold keepf. apply negb_true_iff. destruct (mem els k) eqn:M; [|auto].
        apply mem_in in M. assert (In k []) by (apply Del'; split; auto; lia). contradiction. }
      assert (Rn : forall k, j <= k <= n -> rank keep k = i + (k - j)).
      { intros k L. rewrite (rank_all_kept j k) by (try lia; intros; apply Tail; lia). lia. }
      set (v2 := firstn i v ++ skipn j v ++ skipn (i + (n - j)) v).
      assert (Ev2 : forall k, k < n -> keep k = true -> nth_error v2 (rank keep k) = nth_error orig k).
      { intros k L Kk. unfold v2. destruct (Nat.lt_ge_cases k j) as [Lj|Lj].
        - assert (R : rank keep k < i) by (rewrite Ei; apply rank_lt; auto).
          rewrite nth_error_app1 by (rewrite firstn_length; lia).
          rewrite <- (Low k Lj Kk). rewrite <- (firstn_skipn i v) at 2.
          rewrite nth_error_app1 by (rewrite firstn_length; lia). reflexivity.
        - rewrite Rn by lia. rewrite nth_error_app2 by (rewrite firstn_length; lia).
          rewrite firstn_length, Nat.min_l by lia.
          rewrite nth_error_app1 by (rewrite skipn_length; lia).
          replace (i + (k - j) - i) with (k - j) by lia.
          rewrite <- (High k Lj). rewrite <- (firstn_skipn j v) at 2.
          rewrite nth_error_app2; rewrite firstn_length, Nat.min_l by lia; [reflexivity|lia]. }
      assert (Lv2 : length v2 = n).
      { unfold v2. rewrite !app_length, firstn_length, !skipn_length. lia. }
      set (o2 := firstn j o ++ map Z.of_nat (seq i (n - j))).
      assert (Lo2 : length o2 = n).
      { unfold o2. rewrite app_length, firstn_length, map_length, seq_length. lia. }
      assert (Eo2 : forall k, k < n -> nth_error o2 k = Some (if keep k then Z.of_nat (rank keep k) else (-1)%Z)).
      { intros k L. unfold o2. destruct (Nat.lt_ge_cases k j) as [Lj|Lj].
        - rewrite nth_error_app1 by (rewrite firstn_length; lia).
          rewrite <- (Map k Lj). rewrite <- (firstn_skipn j o) at 2.
          rewrite nth_error_app1 by (rewrite firstn_length; lia). reflexivity.
        - rewrite nth_error_app2 by (rewrite firstn_length; lia).
          rewrite firstn_length, Nat.min_l by lia.
          rewrite Tail, Rn by lia.
          rewrite (map_nth_error Z.of_nat (k - j) (seq i (n - j)) (d:=i + (k - j))); [auto|].
          rewrite nth_error_nth' with (d:=0) by (rewrite seq_length; lia).
          rewrite seq_nth by lia. reflexivity. }
      assert (Et : exists vt ot, re_tail n i j v o = (vt, ot) /\
                     firstn (n - length els) vt = firstn (n - length els) v2 /\
                     length vt = n /\ length ot = n /\
                     forall k, k < n -> nth_error ot k = nth_error o2 k).
      { unfold re_tail. destruct (Nat.eqb_spec j n) as [->|N].
        - exists v, o. split; [reflexivity|]. repeat split; auto.
          + replace (n - length els) with i by (rewrite Ei; lia).
            unfold v2. rewrite firstn_app, firstn_firstn, firstn_length.
            rewrite Nat.min_id, Nat.min_l, Nat.sub_diag, firstn_O, app_nil_r by lia. reflexivity.
          + intros k L. rewrite Map, Eo2 by auto. reflexivity.
        - exists v2, o2. split; [reflexivity|]. repeat split; auto. }
      destruct Et as (vt & ot & -> & Ef & Lvt & Lot & Eot).
      rewrite Ef. rewrite firstn_length, Lv2, Nat.min_l, Nat.eqb_refl by lia. cbn [assert bind].
      rewrite Lot, Nat.eqb_refl. cbn [assert bind].
      eexists; eexists; split; [reflexivity|].
      repeat split; auto.
      + rewrite firstn_length, Lv2. lia.
      + intros k L Kk. rewrite <- Ev2 by auto.
        rewrite <- (firstn_skipn (n - length els) v2) at 2.
        rewrite nth_error_app1; [reflexivity|].
        rewrite firstn_length, Lv2. pose proof (rank_lt keep _ _ L Kk). lia.
      + intros k L. rewrite Eot by auto. auto.
  Qed.
End RE.

Lemma removeElements_bad {V} (vec : list V) els : els <> [] ->
  ~ (StronglySorted lt els /\ forall e, In e els -> e < length vec) ->
  removeElements vec els = Abort.
Proof.
  intros Ne H. unfold removeElements. destruct els as [|e0 rest] eqn:E0; [congruence|].
  rewrite <- E0 in *. destruct (strictly_sorted els) eqn:S; [|reflexivity]. cbn [assert bind].
  destruct (Nat.ltb_spec (last els 0) (length vec)); [|reflexivity].
  exfalso; apply H. apply strictly_sorted_spec in S. split; auto.
  intros e He. pose proof (last_max _ 0 e S He). lia.
Qed.

(* -------------------------------------------------------------- bisectSearch *)
Local Open Scope Z_scope.

Definition tnth (t : list Z) (k : Z) : Z := nth (Z.to_nat k) t 0.

Lemma getz_ok t k : 0 <= k < Z.of_nat (length t) -> getz t k = Ok (tnth t k).
Proof.
  intros H. unfold getz, tnth. destruct (Z.ltb_spec k 0); [lia|].
  apply get_ok. apply nth_error_nth'. lia.
Qed.

Definition ascending (t : list Z) : Prop := StronglySorted Z.le t.

Lemma sorted_nth (R : Z -> Z -> Prop) t i j :
  StronglySorted R t -> (forall a, R a a) ->
  0 <= i <= j -> j < Z.of_nat (length t) -> R (tnth t i) (tnth t j).
Proof.
  intros S Rr. unfold tnth. intros L1 L2.
  assert (L : (Z.to_nat i <= Z.to_nat j < length t)%nat) by lia.
  revert L. generalize (Z.to_nat i) (Z.to_nat j); clear L1 L2 i j.
  induction S as [|a t S IH F]; intros i j L; cbn in *; [lia|].
  destruct i as [|i], j as [|j]; try lia.
  - auto.
  - rewrite Forall_forall in F. apply F. apply nth_In; lia.
  - apply IH; lia.
Qed.

Lemma quot2 a b : -1 <= a -> b - a > 1 -> Z.quot (b + a) 2 = (b + a) / 2.
Proof. intros; apply Z.quot_div_nonneg; lia. Qed.

(* loop invariant for a monotone test *)
Lemma bs_loop_ok asc t val fuel jl ju :
  -1 <= jl -> jl < ju -> ju <= Z.of_nat (length t) ->
  (Z.to_nat (ju - jl) <= fuel)%nat ->
  (jl <> -1 -> Bool.eqb (val >=? tnth t jl) asc = true) ->
  (ju <> Z.of_nat (length t) -> Bool.eqb (val >=? tnth t ju) asc = false) ->
  exists j, bs_loop fuel asc t val jl ju = Ok (j, j + 1) /\ -1 <= j < Z.of_nat (length t) /\
    (j <> -1 -> Bool.eqb (val >=? tnth t j) asc = true) /\
    (j + 1 <> Z.of_nat (length t) -> Bool.eqb (val >=? tnth t (j + 1)) asc = false).
Proof.
  revert jl ju; induction fuel as [|fuel IH]; intros jl ju H1 H2 H3 HF HL HU; [lia|].
  cbn [bs_loop]. rewrite Z.gtb_ltb. destruct (Z.ltb_spec 1 (ju - jl)) as [L|L].
  - rewrite quot2 by lia.
    set (jm := (ju + jl) / 2).
    assert (B : jl < jm < ju). { unfold jm; clear -L H1; Z.div_mod_to_equations; lia. }
    rewrite getz_ok by lia. cbn [bind].
    destruct (Bool.eqb (val >=? tnth t jm) asc) eqn:E.
    + apply IH; try lia; auto.
    + apply IH; try lia; auto.
  - exists jl. assert (ju = jl + 1) by lia. subst ju. repeat split; auto; lia.
Qed.

Lemma bisect_ascending t val : t <> [] -> ascending t ->
  exists j, bisectSearch t val = Ok j /\ -1 <= j < Z.of_nat (length t) /\
    (0 <= j -> tnth t j <= val) /\
    (j + 1 < Z.of_nat (length t) -> val < tnth t (j + 1)).
Proof.
  intros Ne S. set (n := Z.of_nat (length t)).
  assert (N : 0 < n) by (destruct t; [congruence|unfold n; cbn; lia]).
  assert (A : tnth t 0 <= tnth t (n - 1)).
  { apply (sorted_nth Z.le); auto; unfold n in *; lia. }
  unfold bisectSearch. fold n.
  rewrite (getz_ok t (n - 1)) by (unfold n in *; lia). cbn [bind].
  rewrite (getz_ok t 0) by (unfold n in *; lia). cbn [bind].
  assert (Ea : (tnth t (n - 1) >=? tnth t 0) = true) by lia. rewrite Ea.
  destruct (bs_loop_ok true t val (length t + 1) (-1) n) as (j & -> & B & HL & HU);
    try (unfold n in *; lia).
  cbn [bind]. replace (j + 1 - j =? 1) with true by lia. cbn [assert bind].
  assert (HL' : 0 <= j -> tnth t j <= val).
  { intros P. assert (Q : j <> -1) by lia. specialize (HL Q).
    destruct (val >=? tnth t j) eqn:X; cbn in HL; [lia|discriminate]. }
  assert (HU' : j + 1 < n -> val < tnth t (j + 1)).
  { intros P. unfold n in *. assert (Q : j + 1 <> Z.of_nat (length t)) by lia. specialize (HU Q).
    destruct (val >=? tnth t (j + 1)) eqn:X; cbn in HU; [discriminate|lia]. }
  exists j. split; [|unfold n in *; repeat split; auto; lia].
  destruct (Z.eqb_spec j (-1)) as [->|Nj]; cbn [andb].
  - assert (V : val < tnth t 0) by (apply HU'; lia).
    destruct (Z.leb_spec val (tnth t 0)); [reflexivity|lia].
  - destruct (Z.eqb_spec j (n - 1)) as [->|Nn]; cbn [andb].
    + assert (V := HL' ltac:(lia)).
      replace (val >=? tnth t (n - 1)) with true by lia. reflexivity.
    + rewrite getz_ok by (unfold n in *; lia). cbn [bind].
      assert (V := HL' ltac:(lia)). replace (val >=? tnth t j) with true by lia. cbn.
      rewrite getz_ok by (unfold n in *; lia). cbn [bind].
      assert (V2 := HU' ltac:(unfold n in *; lia)).
      replace (val <=? tnth t (j + 1)) with true by lia. reflexivity.
Qed.

(* strictly descending tables, value not in the table *)
Lemma bisect_descending t val : (1 < length t)%nat ->
  StronglySorted Z.gt t -> (forall x, In x t -> x <> val) ->
  exists j, bisectSearch t val = Ok j /\ -1 <= j < Z.of_nat (length t) /\
    (0 <= j -> val < tnth t j) /\
    (j + 1 < Z.of_nat (length t) -> tnth t (j + 1) < val).
Proof.
  intros Ne S NI. set (n := Z.of_nat (length t)).
  assert (N : 1 < n) by (unfold n; lia).
  assert (A : tnth t (n - 1) < tnth t 0).
  { unfold tnth. destruct t as [|a t]; [cbn in Ne; lia|].
    inversion S as [|? ? S' F]; subst. rewrite Forall_forall in F.
    cbn [Z.to_nat nth]. assert (E : Z.to_nat (n - 1) = Datatypes.S (length t - 1)).
    { unfold n; cbn [length] in *; lia. }
    rewrite E. cbn [nth]. enough (a > nth (length t - 1) t 0) by lia.
    apply F, nth_In. cbn in Ne; lia. }
  assert (NI' : forall k, 0 <= k < n -> tnth t k <> val).
  { intros k L. apply NI. apply nth_In. unfold n in *; lia. }
  unfold bisectSearch. fold n.
  rewrite (getz_ok t (n - 1)) by (unfold n in *; lia). cbn [bind].
  rewrite (getz_ok t 0) by (unfold n in *; lia). cbn [bind].
  assert (Ea : (tnth t (n - 1) >=? tnth t 0) = false) by lia. rewrite Ea.
  destruct (bs_loop_ok false t val (length t + 1) (-1) n) as (j & -> & B & HL & HU);
    try (unfold n in *; lia).
  cbn [bind]. replace (j + 1 - j =? 1) with true by lia. cbn [assert bind].
  fold n in B, HU.
  assert (HL' : 0 <= j -> val < tnth t j).
  { intros P. assert (Q : j <> -1) by lia. specialize (HL Q).
    destruct (val >=? tnth t j) eqn:X; cbn in HL; [discriminate|lia]. }
  assert (HU' : j + 1 < n -> tnth t (j + 1) < val).
  { intros P. assert (Q : j + 1 <> n) by lia. specialize (HU Q).
    destruct (val >=? tnth t (j + 1)) eqn:X; cbn in HU; [|discriminate].
    pose proof (NI' (j + 1) ltac:(lia)). lia. }
  exists j. split; [|repeat split; auto; lia].
  destruct (Z.eqb_spec j (-1)) as [->|Nj]; cbn [andb].
  - assert (V : tnth t 0 < val) by (apply HU'; lia).
    replace (val <=? tnth t 0) with false by lia. reflexivity.
  - destruct (Z.eqb_spec j (n - 1)) as [->|Nn]; cbn [andb].
    + assert (V := HL' ltac:(lia)).
      replace (val >=? tnth t (n - 1)) with false by lia. reflexivity.
    + rewrite getz_ok by (unfold n in *; lia). cbn [bind].
      assert (V := HL' ltac:(lia)). replace (val >=? tnth t j) with false by lia. cbn.
      rewrite getz_ok by (unfold n in *; lia). cbn [bind].
      assert (V2 := HU' ltac:(lia)).
      replace (val <=? tnth t (j + 1)) with false by lia. reflexivity.
Qed.
