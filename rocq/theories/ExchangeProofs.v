(* The pieces of the exchange of shared node positions. *)
From Verif Require Import Base BaseFacts MpiModel MpiProofs MpiSpec MpiProofs2 ExchangeModel ExchangeSpec.
From Coq Require Import Lia.

Section Pieces.
  Context {V : Type} (D : nat) (Dpos : 0 < D).

  Lemma pos_ext (c c' : list V) i i' : (forall k, k < D -> nth_error c (D * i + k) = nth_error c' (D * i' + k)) -> position D c i = position D c' i'.
  Proof.
    intros H. unfold position. apply nth_error_ext. intros k. destruct (Nat.lt_ge_cases k D) as [L|L].
    - assert (G : forall (c : list V) m, nth_error (firstn D (skipn m c)) k = nth_error c (m + k)).
      { clear H. intros d m. revert d. induction m as [|m IH]; intros d.
        - cbn [skipn Nat.add]. revert d k L. clear. induction D as [|D' IH]; intros d k L; [lia|]. destruct d; [cbn; destruct k; auto|]. destruct k; cbn; auto. apply IH. lia.
        - destruct d; [rewrite skipn_nil; cbn; destruct k; cbn; rewrite ?firstn_nil; cbn; auto; destruct D; auto|]. cbn [skipn Nat.add nth_error]. apply IH. }
      rewrite !G. auto.
    - rewrite (proj2 (nth_error_None _ _)), (proj2 (nth_error_None _ _)); auto; rewrite firstn_length; lia.
  Qed.
  Lemma pos_nth (c : list V) i k : k < D -> nth_error (position D c i) k = nth_error c (D * i + k).
  Proof.
    intros L. unfold position. generalize (D * i) as m. intros m. revert c. induction m as [|m IH]; intros c.
    - cbn [skipn Nat.add]. revert c k L. clear. induction D as [|D' IH]; intros d k L; [lia|]. destruct d; [cbn; destruct k; auto|]. destruct k; cbn; auto. apply IH. lia.
    - destruct c; [rewrite skipn_nil; destruct k; cbn; rewrite ?firstn_nil; cbn; auto; destruct D; auto|]. cbn [skipn Nat.add nth_error]. apply IH.
  Qed.
  Lemma pos_len (c : list V) i : D * i + D <= length c -> length (position D c i) = D.
  Proof. intros L. unfold position. rewrite firstn_length, skipn_length. lia. Qed.
  Lemma fits (c : list V) m i : length c = D * m -> i < m -> D * i + D <= length c.
  Proof. intros -> L. nia. Qed.

  (* ---- extractCoords ---- *)
  Lemma extract_ok (ns : list V) idx : (forall i, In i idx -> D * i + D <= length ns) -> extractCoords D ns idx = Ok (flat_map (position D ns) idx).
  Proof.
    intros H. unfold extractCoords.
    enough (G : forall idx acc, (forall i, In i idx -> D * i + D <= length ns) ->
      mfold (fun acc i => do _ <- assert (i <? length ns / D); mfold (fun acc k => do v <- get ns (D * i + k); Ok (acc ++ [v])) (seq 0 D) acc) idx acc = Ok (acc ++ flat_map (position D ns) idx)) by (rewrite G; auto).
    clear idx H. induction idx as [|i idx IH]; intros acc H; cbn [mfold flat_map]; [rewrite app_nil_r; auto|].
    assert (L : D * i + D <= length ns) by (apply H; left; auto).
    replace (i <? length ns / D) with true by (symmetry; apply Nat.ltb_lt; apply Nat.lt_le_trans with ((D * i + D) / D); [replace (D * i + D) with ((i + 1) * D) by lia; rewrite Nat.div_mul by lia; lia|apply Nat.div_le_mono; lia]).
    cbn [assert bind].
    destruct (mfold_seq (fun acc k => do v <- get ns (D * i + k); Ok (acc ++ [v])) (fun k s => s = acc ++ firstn k (position D ns i)) D acc) as (s & E & ->).
    - cbn. rewrite app_nil_r. auto.
    - intros k s Lk ->. destruct (get_lt ns (D * i + k)) as [v E]; [lia|]. rewrite E. cbn [bind]. eexists. split; [reflexivity|]. rewrite <- app_assoc. f_equal.
      apply (proj1 (get_ok _ _ _)) in E. rewrite <- (pos_nth ns i k Lk) in E. clear - E. revert E. generalize (position D ns i). intros p. revert k. induction p as [|x p IH]; intros [|k] E; try discriminate; cbn in *; [congruence|]. f_equal. apply IH. auto.
    - rewrite E. cbn [bind]. rewrite firstn_all2 by (rewrite pos_len; auto). rewrite IH by (intros; apply H; right; auto). rewrite <- app_assoc. auto.
  Qed.
  Lemma flat_len (ns : list V) idx : (forall i, In i idx -> D * i + D <= length ns) -> length (flat_map (position D ns) idx) = D * length idx.
  Proof. induction idx as [|i idx IH]; intros H; cbn [flat_map length]; [lia|]. rewrite app_length, pos_len, IH; [lia|intros; apply H; right; auto|apply H; left; auto]. Qed.
  Lemma flat_nth (ns : list V) idx : (forall i, In i idx -> D * i + D <= length ns) -> forall j i k, nth_error idx j = Some i -> k < D -> nth_error (flat_map (position D ns) idx) (D * j + k) = nth_error ns (D * i + k).
  Proof.
    induction idx as [|i0 idx IH]; intros H j i k E L; [destruct j; discriminate|]. cbn [flat_map]. assert (L0 : length (position D ns i0) = D) by (apply pos_len, H; left; auto).
    destruct j as [|j]; cbn in E.
    - injection E as <-. rewrite nth_error_app1 by lia. rewrite Nat.mul_0_r. apply pos_nth. auto.
    - rewrite nth_error_app2 by lia. rewrite L0. replace (D * S j + k - D) with (D * j + k) by lia. apply IH; auto. intros; apply H; right; auto.
  Qed.

  (* ---- unpack ---- *)
  Lemma unpack_ok (ns : list V) idx c : (forall i, In i idx -> D * i + D <= length ns) -> length c = D * length idx ->
    exists ns', unpack D ns idx c = Ok ns' /\ length ns' = length ns /\
      (forall i k, k < D -> ~ In i idx -> nth_error ns' (D * i + k) = nth_error ns (D * i + k)) /\
      (forall i, In i idx -> exists j, nth_error idx j = Some i /\ forall k, k < D -> nth_error ns' (D * i + k) = nth_error c (D * j + k)).
  Proof.
    intros H Lc. unfold unpack.
    destruct (mfold_seq (fun ns j => do i <- get idx j; mfold (fun ns k => do v <- get c (D * j + k); set ns (D * i + k) v) (seq 0 D) ns)
      (fun m s => length s = length ns /\ (forall i k, k < D -> ~ In i (firstn m idx) -> nth_error s (D * i + k) = nth_error ns (D * i + k)) /\
        (forall i, In i (firstn m idx) -> exists j, j < m /\ nth_error idx j = Some i /\ forall k, k < D -> nth_error s (D * i + k) = nth_error c (D * j + k))) (length idx) ns) as (s & E & L & A & B).
    - split; auto. split; auto. intros i [].
    - intros j s Lj (L & A & B). destruct (get_lt idx j Lj) as [i Ei]. rewrite Ei. cbn [bind]. apply (proj1 (get_ok _ _ _)) in Ei. assert (Li : D * i + D <= length ns) by (apply H; eapply nth_error_In; eauto).
      destruct (mfold_seq (fun ns k => do v <- get c (D * j + k); set ns (D * i + k) v) (fun m s' => length s' = length ns /\ (forall p, (p < D * i \/ D * i + m <= p) -> nth_error s' p = nth_error s p) /\ forall k, k < m -> nth_error s' (D * i + k) = nth_error c (D * j + k)) D s) as (s' & E' & L' & A' & B').
      + split; auto. split; auto. intros; lia.
      + intros k s' Lk (L' & A' & B'). destruct (get_lt c (D * j + k)) as [v Ev]; [rewrite Lc; nia|]. rewrite Ev. cbn [bind]. rewrite set_lt by lia. eexists. split; [reflexivity|]. apply (proj1 (get_ok _ _ _)) in Ev. split; [rewrite upd_length; auto|]. split.
        * intros p Hp. rewrite upd_other by lia. apply A'. lia.
        * intros k' Lk'. destruct (Nat.eq_dec k' k) as [->|N]; [rewrite upd_same by lia; auto|]. rewrite upd_other by lia. apply B'. lia.
      + exists s'. split; auto. split; auto.
        assert (F : firstn (j + 1) idx = firstn j idx ++ [i]). { clear - Ei. revert j Ei. induction idx as [|x l IH]; intros [|j] E; try discriminate; cbn in *; [congruence|]. f_equal. apply IH. auto. }
        rewrite F. split.
        * intros i' k Lk N. rewrite in_app_iff in N. assert (Ni : i' <> i) by (intros ->; apply N; right; left; auto). rewrite A' by nia. apply A; auto.
        * intros i' I. destruct (Nat.eq_dec i' i) as [->|Ni]; [exists j; split; [lia|]; split; auto|]. apply in_app_iff in I as [I|[<-|[]]]; [|congruence]. destruct (B i' I) as (j' & Lj' & Ej' & Hj'). exists j'. split; [lia|]. split; auto. intros k Lk. rewrite A' by nia. auto.
    - exists s. split; auto. split; auto. rewrite firstn_all in A, B. split; auto. intros i I. destruct (B i I) as (j & _ & Ej & Hj). eauto.
  Qed.

  (* ---- splitNodes ---- *)
  Definition mine (own : list nat) (me x : nat) : bool := nth x own 0 =? me.
  Definition theirs (own : list nat) (me other x : nat) : bool := negb (nth x own 0 =? me) && (nth x own 0 =? other).
  Lemma split_ok me own other l : (forall x, In x l -> exists o, nth_error own x = Some o /\ o <= me) -> splitNodes me own other l = Ok (filter (mine own me) l, filter (theirs own me other) l).
  Proof.
    intros H. unfold splitNodes.
    enough (G : forall l s r, (forall x, In x l -> exists o, nth_error own x = Some o /\ o <= me) ->
      mfold (fun '(s, r) x => do o <- get own x; do _ <- assert (o <=? me); Ok (if o =? me then (s ++ [x], r) else if o =? other then (s, r ++ [x]) else (s, r))) l (s, r) = Ok (s ++ filter (mine own me) l, r ++ filter (theirs own me other) l)) by (rewrite G; auto).
    clear l H. induction l as [|x l IH]; intros s r H; cbn [mfold filter]; [rewrite !app_nil_r; auto|].
    destruct (H x) as (o & E & Lo); [left; auto|]. rewrite (proj2 (get_ok own x o) E). cbn [bind]. replace (o <=? me) with true by (symmetry; apply Nat.leb_le; auto). cbn [assert bind].
    replace (mine own me x) with (o =? me) by (unfold mine; rewrite (nth_error_nth own x 0 E); auto). replace (theirs own me other x) with (negb (o =? me) && (o =? other)) by (unfold theirs; rewrite (nth_error_nth own x 0 E); auto).
    destruct (Nat.eqb_spec o me); [|destruct (Nat.eqb_spec o other)]; cbn [negb andb]; rewrite IH by (intros; apply H; right; auto); rewrite <- ?app_assoc; auto.
  Qed.

  (* ---- posts ---- *)
  Section Posts.
    Variables (me : nat) (own : list nat) (ns : list V) (nd : list nat) (sn : list (list nat)).
    Definition other_of i := nth i nd 0.
    Definition list_of i := nth i sn [].
    Definition out_of i : list (nat * nat * msg V) :=
      let s := filter (mine own me) (list_of i) in
      (other_of i, 9, MSize (D * length s)) :: match s with [] => [] | _ => [(other_of i, 10, MCoords (flat_map (position D ns) s))] end.
    Definition todo_of i : nat * list nat := (other_of i, filter (theirs own me (other_of i)) (list_of i)).
    Lemma posts_ok is : (forall i, In i is -> i < length nd /\ i < length sn) ->
      (forall i x, In i is -> In x (list_of i) -> (exists o, nth_error own x = Some o /\ o <= me) /\ D * x + D <= length ns) ->
      forall acc k, posts D me own ns nd sn is acc k = sends (flat_map out_of is) (k (acc ++ map todo_of is)).
    Proof.
      intros Hi Hx. induction is as [|i is IH]; intros acc k; cbn [posts flat_map map]; [rewrite app_nil_r; auto|].
      destruct (Hi i) as [L1 L2]; [left; auto|].
      assert (E1 : get nd i = Ok (other_of i)). { unfold other_of. destruct (nth_error_ex nd i L1) as [a E]. rewrite (nth_error_nth nd i 0 E). apply get_ok. auto. }
      assert (E2 : get sn i = Ok (list_of i)). { unfold list_of. destruct (nth_error_ex sn i L2) as [a E]. rewrite (nth_error_nth sn i [] E). apply get_ok. auto. }
      rewrite E1, E2. cbn [lift]. rewrite split_ok by (intros x I; apply (Hx i x); [left; auto|auto]). cbn [lift]. rewrite sends_app. unfold out_of at 1.
      assert (IH' : posts D me own ns nd sn is (acc ++ [todo_of i]) k = sends (flat_map out_of is) (k (acc ++ todo_of i :: map todo_of is))).
      { rewrite IH; [rewrite <- app_assoc; auto|intros; apply Hi; right; auto|intros; apply (Hx i0); [right; auto|auto]]. }
      cbn [sends]. f_equal. destruct (filter (mine own me) (list_of i)) as [|y s] eqn:Es; [exact IH'|].
      assert (F : forall x, In x (y :: s) -> D * x + D <= length ns). { intros x I. rewrite <- Es in I. apply filter_In in I as [I _]. apply (Hx i x); [left; auto|auto]. }
      rewrite extract_ok by auto. cbn [lift]. rewrite flat_len by auto. rewrite Nat.eqb_refl. cbn [assert lift sends]. f_equal. exact IH'.
    Qed.
  End Posts.

  (* ---- receives ---- *)
  Lemma receives_ok todo : NoDup (map fst todo) -> forall (box : nat -> nat -> list (msg V)) (c : nat -> list V) ns,
    (forall o r, In (o, r) todo -> box o 9 = [MSize (D * length r)] /\ (r <> [] -> box o 10 = [MCoords (c o)]) /\ length (c o) = D * length r /\ forall i, In i r -> D * i + D <= length ns) ->
    exists cnt ns', gets cnt box (receives D todo ns) (Ok ns') /\ length ns' = length ns /\
      (forall i k, k < D -> (forall o r, In (o, r) todo -> ~ In i r) -> nth_error ns' (D * i + k) = nth_error ns (D * i + k)) /\
      (forall i, (exists o r, In (o, r) todo /\ In i r) -> exists o r j, In (o, r) todo /\ nth_error r j = Some i /\ forall k, k < D -> nth_error ns' (D * i + k) = nth_error (c o) (D * j + k)).
  Proof.
    induction todo as [|[o r] todo IH]; intros N box c ns H; cbn [receives].
    - exists 0, ns. split; [constructor|]. split; auto. split; auto. intros i (o & r & [] & _).
    - cbn in N. inversion N as [|? ? N1 N2]; subst. destruct (H o r) as (B9 & B10 & Lc & Fit); [left; auto|].
      set (b1 := fun x z => if (x =? o) && (z =? 9) then [] else box x z).
      assert (No : forall o' r', In (o', r') todo -> o' <> o). { intros o' r' I ->. apply N1. apply in_map_iff. exists (o, r'). auto. }
      destruct r as [|x0 r0].
      + destruct (IH N2 b1 c ns) as (cnt & ns' & G & L & A & B).
        { intros o' r' I. destruct (H o' r') as (H1 & H2 & H3 & H4); [right; auto|]. unfold b1. destruct (Nat.eqb_spec o' o); [exfalso; eapply No; eauto|]. cbn [andb]. auto. }
        exists (S cnt), ns'. split; [|split; [auto|split]].
        * apply gets_recv with (MSize (D * 0)) []; [exact B9|]. cbn [length]. rewrite Nat.eqb_refl. cbn [assert lift]. exact G.
        * intros i k Lk Hn. apply A; auto. intros o' r' I. apply (Hn o'). right. auto.
        * intros i (o' & r' & [[= <- <-]|I] & Ii); [destruct Ii|]. destruct (B i) as (o2 & r2 & j & I2 & E2 & K2); [eauto|]. exists o2, r2, j. split; [right; auto|auto].
      + set (r := x0 :: r0) in *. destruct (unpack_ok ns r (c o)) as (ns1 & U & L1 & A1 & B1); auto.
        set (b2 := fun x z => if (x =? o) && (z =? 10) then [] else b1 x z).
        destruct (IH N2 b2 c ns1) as (cnt & ns' & G & L & A & B).
        { intros o' r' I. destruct (H o' r') as (H1 & H2 & H3 & H4); [right; auto|]. unfold b2, b1. destruct (Nat.eqb_spec o' o); [exfalso; eapply No; eauto|]. cbn [andb]. split; auto. split; auto. split; auto. intros i Ii. rewrite L1. auto. }
        exists (S (S cnt)), ns'. split; [|split; [lia|split]].
        * apply gets_recv with (MSize (D * length r)) []; [exact B9|]. rewrite Nat.eqb_refl. cbn [assert lift]. unfold r at 1.
          apply gets_recv with (MCoords (c o)) []; [rewrite <- B10 by discriminate; destruct (Nat.eqb_spec o o); [cbn; auto|congruence]|]. fold r. rewrite (proj2 (Nat.eqb_eq _ _) Lc). rewrite U. cbn [lift]. exact G.
        * intros i k Lk Hn. rewrite A; [apply A1; auto; apply (Hn o); left; auto|auto|]. intros o' r' I. apply (Hn o'). right. auto.
        * intros i Hi. destruct (in_dec Nat.eq_dec i (concat (map snd todo))) as [It|It].
          -- destruct (B i) as (o2 & r2 & j & I2 & E2 & K2). { apply in_concat in It as (r' & I1 & I2). apply in_map_iff in I1 as ([o' r2] & <- & I1). eauto. } exists o2, r2, j. split; [right; auto|auto].
          -- assert (Nt : forall o' r', In (o', r') todo -> ~ In i r'). { intros o' r' I I2. apply It. apply in_concat. exists r'. split; auto. apply in_map_iff. exists (o', r'). auto. }
             destruct Hi as (o' & r' & [[= <- <-]|I] & Ii); [|exfalso; eapply Nt; eauto]. destruct (B1 i Ii) as (j & Ej & Kj). exists o, r, j. split; [left; auto|]. split; auto. intros k Lk. rewrite A; auto.
  Qed.
End Pieces.
