(* The exchange of shared node positions, all ranks together. *)
From Verif Require Import Base BaseFacts MpiModel MpiProofs MpiSpec MpiProofs2 ExchangeModel ExchangeSpec ExchangeProofs.
From Coq Require Import Lia.

Lemma choose {X} (d : X) (P : nat -> X -> Prop) n : (forall r, r < n -> exists x, P r x) -> exists f : nat -> X, forall r, r < n -> P r (f r).
Proof.
  induction n as [|n IH]; intros H; [exists (fun _ => d); intros; lia|]. destruct IH as [f Hf]; [intros; apply H; lia|]. destruct (H n) as [x Hx]; [lia|].
  exists (fun r => if r =? n then x else f r). intros r L. destruct (Nat.eqb_spec r n) as [->|]; auto. apply Hf. lia.
Qed.
Lemma nodup_nth {X} (l : list X) i j x : NoDup l -> nth_error l i = Some x -> nth_error l j = Some x -> i = j.
Proof. intros N A B. apply (proj1 (NoDup_nth_error l) N); [eapply nth_error_lt; eauto|congruence]. Qed.
Lemma to_flat {M} r t (out : nat -> list (nat * nat * M)) is i' : NoDup is -> In i' is -> (forall i, In i is -> i <> i' -> to_ r t (out i) = []) -> to_ r t (flat_map out is) = to_ r t (out i').
Proof.
  intros N I H. assert (E : forall is, (forall i, In i is -> to_ r t (out i) = []) -> to_ r t (flat_map out is) = []).
  { clear. induction is as [|i is IH]; intros H; auto. cbn [flat_map]. rewrite to_app, (H i), IH by auto with datatypes. auto. }
  induction is as [|i is IH]; [destruct I|]. inversion N as [|? ? N1 N2]; subst. cbn [flat_map]. rewrite to_app. destruct I as [->|I].
  - rewrite E, app_nil_r; auto. intros j Ij. apply H; [right; auto|intros ->; auto].
  - rewrite (H i); [|left; auto|intros ->; auto]. cbn. apply IH; auto. intros j Ij. apply H. right. auto.
Qed.
Lemma filter_forall2 {X Y} (R : X -> Y -> Prop) p q l l' : Forall2 (fun x y => R x y /\ p x = q y) l l' -> Forall2 R (filter p l) (filter q l').
Proof. induction 1 as [|x y l l' [A B] F IH]; cbn; auto. rewrite B. destruct (q y); auto. Qed.

Section Owners.
  Context {V : Type} (D : nat) (Dpos : 0 < D).

  Lemma own_ok me m nd sn : length sn = length nd -> (forall i l x, nth_error sn i = Some l -> In x l -> x < m) ->
    exists own, ownNodes me m nd sn = Ok own /\ length own = m /\ forall x o, nth_error own x = Some o ->
      o <= me /\ (o = me \/ exists i l, nth_error nd i = Some o /\ nth_error sn i = Some l /\ In x l) /\
      forall i l s, nth_error nd i = Some s -> nth_error sn i = Some l -> In x l -> o <= s.
  Proof.
    intros Ls Hm. unfold ownNodes.
    destruct (mfold_seq (fun own i => do other <- get nd i; do l <- get sn i; mfold (fun own x => do _ <- assert (x <? m); do o <- get own x; set own x (Nat.min o other)) l own)
      (fun k own => length own = m /\ forall x o, nth_error own x = Some o -> o <= me /\ (o = me \/ exists i l, nth_error nd i = Some o /\ nth_error sn i = Some l /\ In x l) /\
        forall i l s, i < k -> nth_error nd i = Some s -> nth_error sn i = Some l -> In x l -> o <= s) (length nd) (repeat me m)) as (own & E & L & H).
    - split; [apply repeat_length|]. intros x o E. assert (o = me). { apply nth_error_In in E. apply repeat_spec in E. auto. } subst. split; auto. split; auto. intros; lia.
    - intros k own Lk (L & H). destruct (get_lt nd k Lk) as [s Es]. destruct (get_lt sn k) as [l El]; [lia|]. rewrite Es, El. cbn [bind]. apply (proj1 (get_ok _ _ _)) in Es. apply (proj1 (get_ok _ _ _)) in El.
      destruct (mfold_inv (fun own x => do _ <- assert (x <? m); do o <- get own x; set own x (Nat.min o s))
        (fun l1 own' => length own' = m /\ forall x o, nth_error own' x = Some o -> exists o1, nth_error own x = Some o1 /\ ((In x l1 /\ o = Nat.min o1 s) \/ (~ In x l1 /\ o = o1))) l own) as (own' & E' & L' & H').
      + split; auto. intros x o E. exists o. split; auto.
      + intros l1 x l2 o' El12 (L' & H'). assert (Lx : x < m) by (apply (Hm k l); auto; rewrite El12; apply in_app_iff; right; left; auto).
        replace (x <? m) with true by (symmetry; apply Nat.ltb_lt; auto). cbn [assert bind]. destruct (get_lt o' x) as [o Eo]; [lia|]. rewrite Eo. cbn [bind]. apply (proj1 (get_ok _ _ _)) in Eo. rewrite set_lt by lia. eexists. split; [reflexivity|]. split; [rewrite upd_length; auto|].
        intros y oy Ey. destruct (Nat.eq_dec y x) as [->|N].
        * rewrite upd_same in Ey by lia. injection Ey as <-. destruct (H' x o Eo) as (o1 & E1 & [[I ->]|[I ->]]); exists o1; (split; [auto|]); left; (split; [apply in_app_iff; right; left; auto|lia]).
        * rewrite upd_other in Ey by auto. destruct (H' y oy Ey) as (o1 & E1 & [[I ->]|[I ->]]); exists o1; (split; [auto|]); [left|right]; rewrite in_app_iff; (split; [|auto]); [auto|intros [?|[?|[]]]; auto].
      + exists own'. split; auto. split; auto. intros x o E. destruct (H' x o E) as (o1 & E1 & [[I ->]|[I ->]]); destruct (H x o1 E1) as (H1 & H2 & H3).
        * split; [lia|]. split.
          -- destruct (Nat.min_spec o1 s) as [[_ ->]|[_ ->]]; auto. right. eauto.
          -- intros i l0 s0 Li A B C. destruct (Nat.eq_dec i k) as [->|N]; [|assert (o1 <= s0) by (apply (H3 i l0); auto; lia); lia]. assert (s0 = s) by congruence. lia.
        * split; auto. split; auto. intros i l0 s0 Li A B C. destruct (Nat.eq_dec i k) as [->|N]; [|apply (H3 i l0); auto; lia]. exfalso. apply I. congruence.
    - exists own. split; auto. split; auto. intros x o Eo. destruct (H x o Eo) as (H1 & H2 & H3). split; auto. split; auto. intros i l s A. apply H3; auto. eapply nth_error_lt; eauto.
  Qed.

  Variables (n : nat) (P : nat -> part V) (C : Consistent D n P).

  Lemma lowest_unique x o o' : Lowest n P x o -> Lowest n P x o' -> o = o'.
  Proof. intros (A & B & F) (A' & B' & F'). specialize (F _ A' B'). specialize (F' _ A B). lia. Qed.
  Lemma listed_held r i s l x : r < n -> nth_error (neighbors (P r)) i = Some s -> nth_error (shared (P r)) i = Some l -> In x l -> exists y, nth_error (names (P r)) x = Some y /\ Holds (P s) y.
  Proof.
    intros L A B I. destruct (co_lists D n P C r i s l L A B) as (i' & l' & _ & _ & xs & F1 & F2).
    destruct (Forall2_in_l _ _ _ x F1 I) as (y & Iy & Ey). exists y. split; auto. destruct (Forall2_in_r _ _ _ y F2 Iy) as (j & _ & Ej). eapply nth_error_In; eauto.
  Qed.
  Lemma owners r : r < n -> exists own, ownNodes r (length (coords (P r)) / D) (neighbors (P r)) (shared (P r)) = Ok own /\ length own = length (names (P r)) /\
    forall i x, nth_error (names (P r)) i = Some x -> exists o, nth_error own i = Some o /\ Lowest n P x o.
  Proof.
    intros L. destruct (co_sizes D n P C r L) as [S1 S2]. rewrite S1. rewrite Nat.mul_comm, Nat.div_mul by lia.
    destruct (own_ok r (length (names (P r))) (neighbors (P r)) (shared (P r))) as (own & E & Lo & H); auto.
    - intros i l x El I. destruct (nth_error_ex (neighbors (P r)) i) as [s Es]; [rewrite <- S2; eapply nth_error_lt; eauto|]. destruct (listed_held r i s l x L Es El I) as (y & Ey & _). eapply nth_error_lt; eauto.
    - exists own. split; auto. split; auto. intros i x Ex. destruct (nth_error_ex own i) as [o Eo]; [rewrite Lo; eapply nth_error_lt; eauto|]. exists o. split; auto. destruct (H i o Eo) as (H1 & H2 & H3). split; [lia|]. split.
      + destruct H2 as [->|(i' & l & A & B & I)]; [eapply nth_error_In; eauto|]. destruct (listed_held r i' o l i L A B I) as (y & Ey & Hy). congruence.
      + intros s Ls Hs. destruct (Nat.eq_dec s r) as [->|N]; auto. destruct (co_complete D n P C r s x) as (i' & l & j & A & B & I & Ej); auto; [eapply nth_error_In; eauto|].
        assert (j = i) by (apply (nodup_nth _ _ _ _ (co_names D n P C r L) Ej Ex)). subst. eapply H3; eauto.
  Qed.

  Definition inbox (out : nat -> list (nat * nat * msg V)) r := fun s t => if s <? n then to_ r t (out s) else [].
  Definition coords_of (l : list (msg V)) : list V := match l with [MCoords c] => c | _ => [] end.

  Section Round.
    Variables (own : nat -> list nat).
    Hypothesis Own : forall r, r < n -> ownNodes r (length (coords (P r)) / D) (neighbors (P r)) (shared (P r)) = Ok (own r) /\ length (own r) = length (names (P r)) /\
      forall i x, nth_error (names (P r)) i = Some x -> exists o, nth_error (own r) i = Some o /\ Lowest n P x o.
    Let outs r := flat_map (out_of D r (own r) (coords (P r)) (neighbors (P r)) (shared (P r))) (seq 0 (length (neighbors (P r)))).
    Let todo r := map (todo_of r (own r) (neighbors (P r)) (shared (P r))) (seq 0 (length (neighbors (P r)))).

    Lemma nbr_nth r i : i < length (neighbors (P r)) -> nth_error (neighbors (P r)) i = Some (other_of (neighbors (P r)) i).
    Proof. intros L. destruct (nth_error_ex _ _ L) as [s E]. unfold other_of. rewrite (nth_error_nth _ _ 0 E). auto. Qed.
    Lemma list_nth r i : r < n -> i < length (neighbors (P r)) -> nth_error (shared (P r)) i = Some (list_of (shared (P r)) i).
    Proof. intros L Li. destruct (co_sizes D n P C r L) as [_ S2]. rewrite <- S2 in Li. destruct (nth_error_ex _ _ Li) as [s E]. unfold list_of. rewrite (nth_error_nth _ _ [] E). auto. Qed.
    Lemma listed r i x : r < n -> i < length (neighbors (P r)) -> In x (list_of (shared (P r)) i) -> exists y o, nth_error (names (P r)) x = Some y /\ nth_error (own r) x = Some o /\ Lowest n P y o /\ o <= r /\ D * x + D <= length (coords (P r)).
    Proof.
      intros L Li I. destruct (listed_held r i _ _ x L (nbr_nth r i Li) (list_nth r i L Li) I) as (y & Ey & _). destruct (Own r L) as (_ & _ & H). destruct (H x y Ey) as (o & Eo & Lo). exists y, o. split; auto. split; auto. split; auto. split.
      - destruct Lo as (_ & _ & F). apply F; auto. eapply nth_error_In; eauto.
      - destruct (co_sizes D n P C r L) as [S1 _]. apply (fits D Dpos (coords (P r)) (length (names (P r)))); auto. eapply nth_error_lt; eauto.
    Qed.
    Lemma exchange_shape r : r < n -> exchange D r (coords (P r)) (neighbors (P r)) (shared (P r)) = sends (outs r) (receives D (todo r) (coords (P r))).
    Proof.
      intros L. unfold exchange. destruct (Own r L) as (E & _). rewrite E. cbn [lift]. rewrite posts_ok; auto.
      - intros i I. apply in_seq in I. destruct (co_sizes D n P C r L). lia.
      - intros i x I Ix. apply in_seq in I. destruct (listed r i x L) as (y & o & _ & Eo & _ & Lo & F); auto; [lia|]. eauto.
    Qed.
    (* what r receives from its i-th neighbor *)
    Lemma box_ok r i : r < n -> i < length (neighbors (P r)) -> let s := other_of (neighbors (P r)) i in
      exists sl, inbox outs r s 9 = [MSize (D * length sl)] /\ (sl <> [] -> inbox outs r s 10 = [MCoords (flat_map (position D (coords (P s))) sl)]) /\ (sl = [] -> inbox outs r s 10 = []) /\
        (forall j, In j sl -> D * j + D <= length (coords (P s))) /\
        Forall2 (fun a b => exists x, nth_error (names (P r)) a = Some x /\ nth_error (names (P s)) b = Some x) (filter (theirs (own r) r s) (list_of (shared (P r)) i)) sl.
    Proof.
      intros L Li s. pose proof (nbr_nth r i Li) as En. fold s in En. pose proof (list_nth r i L Li) as El. destruct (co_neighbors D n P C r L) as [_ Nb]. destruct (Nb s) as [Ls Ns]; [eapply nth_error_In; eauto|].
      destruct (co_lists D n P C r i s _ L En El) as (i' & l' & A & B & xs & F1 & F2). pose proof (nth_error_lt _ _ _ A) as Li'.
      pose proof (nbr_nth s i' Li') as A'. rewrite A in A'. injection A' as A'. pose proof (list_nth s i' Ls Li') as B'. rewrite B in B'. injection B' as B'.
      set (sl := filter (mine (own s) s) l'). exists sl.
      assert (T : forall t, inbox outs r s t = to_ r t (out_of D s (own s) (coords (P s)) (neighbors (P s)) (shared (P s)) i')).
      { intros t. unfold inbox. destruct (Nat.ltb_spec s n); [|lia]. unfold outs. apply to_flat; [apply seq_NoDup|apply in_seq; lia|].
        intros i0 I0 N. apply in_seq in I0. assert (N' : other_of (neighbors (P s)) i0 <> r). { intros E. apply N. destruct (co_neighbors D n P C s Ls) as [ND _]. apply (nodup_nth _ _ _ r ND); auto. rewrite <- E. apply nbr_nth. lia. }
        unfold out_of. cbv zeta. rewrite to_cons. destruct (Nat.eqb_spec (other_of (neighbors (P s)) i0) r); [congruence|]. cbn [andb app]. destruct (filter (mine (own s) s) (list_of (shared (P s)) i0)); auto. rewrite to_cons. destruct (Nat.eqb_spec (other_of (neighbors (P s)) i0) r); [congruence|]. auto. }
      rewrite !T. unfold out_of. cbv zeta. rewrite <- A', <- B'. fold sl.
      split; [|split; [|split; [|split]]].
      - rewrite to_cons, Nat.eqb_refl. cbn [andb Nat.eqb app]. destruct sl; auto. rewrite to_cons, Nat.eqb_refl. auto.
      - intros N. destruct sl as [|a sl'] eqn:Es; [congruence|]. rewrite !to_cons, Nat.eqb_refl. cbn [andb Nat.eqb app]. auto.
      - intros ->. rewrite to_cons, Nat.eqb_refl. auto.
      - intros j I. apply filter_In in I as [I _]. rewrite B' in I. destruct (listed s i' j Ls Li' I) as (y & o & _ & _ & _ & _ & F). auto.
      - unfold sl. apply filter_forall2.
        assert (G : Forall2 (fun a b => exists x, nth_error (names (P r)) a = Some x /\ nth_error (names (P s)) b = Some x) (list_of (shared (P r)) i) l').
        { clear - F1 F2. revert l' F2. induction F1 as [|? ? ? ? ? ? IH]; intros ll FF; inversion FF; subst; constructor; eauto. }
        clear - G Own L Ls Ns Dpos C. induction G as [|a b la lb (x & Ea & Eb) G IH]; constructor; auto. split; [eauto|].
        destruct (Own r L) as (_ & _ & Hr). destruct (Own s Ls) as (_ & _ & Hs). destruct (Hr a x Ea) as (o & Eo & Lo). destruct (Hs b x Eb) as (o' & Eo' & Lo'). pose proof (lowest_unique _ _ _ Lo Lo'). subst o'.
        unfold theirs, mine. rewrite (nth_error_nth _ _ 0 Eo), (nth_error_nth _ _ 0 Eo'). destruct (Nat.eqb_spec o r), (Nat.eqb_spec o s); cbn; auto. congruence.
    Qed.
    Lemma rank_ok r : r < n -> exists cnt f, gets cnt (inbox outs r) (receives D (todo r) (coords (P r))) (Ok f) /\ length f = length (coords (P r)) /\
      forall i x o j, nth_error (names (P r)) i = Some x -> Lowest n P x o -> nth_error (names (P o)) j = Some x -> position D f i = position D (coords (P o)) j.
    Proof.
      intros L. destruct (co_neighbors D n P C r L) as [ND Nb].
      assert (In_todo : forall o rl, In (o, rl) (todo r) -> exists i, i < length (neighbors (P r)) /\ o = other_of (neighbors (P r)) i /\ rl = filter (theirs (own r) r o) (list_of (shared (P r)) i)).
      { intros o rl I. apply in_map_iff in I as (i & [= <- <-] & Ii). apply in_seq in Ii. exists i. split; [lia|auto]. }
      destruct (@receives_ok V D Dpos (todo r)) with (box := inbox outs r) (c := fun o => coords_of (inbox outs r o 10)) (ns := coords (P r)) as (cnt & f & G & Lf & A & B).
      - unfold todo. rewrite map_map. cbn [fst todo_of]. assert (Em : neighbors (P r) = map (fun x : nat => other_of (neighbors (P r)) x) (seq 0 (length (neighbors (P r))))); [|rewrite <- Em; auto].
        apply nth_error_ext. intros i. destruct (Nat.lt_ge_cases i (length (neighbors (P r)))) as [Li|Li].
        + rewrite (nbr_nth r i Li). symmetry. rewrite nth_error_map. replace (nth_error (seq 0 (length (neighbors (P r)))) i) with (Some i); auto. symmetry. rewrite nth_error_nth' with (d := 0) by (rewrite seq_length; auto). rewrite seq_nth; auto.
        + rewrite (proj2 (nth_error_None _ _)), (proj2 (nth_error_None _ _)); auto. rewrite map_length, seq_length. auto.
      - intros o rl I. destruct (In_todo o rl I) as (i & Li & -> & ->). destruct (box_ok r i L Li) as (sl & B9 & B10 & B0 & Fit & F). set (s := other_of (neighbors (P r)) i) in *. pose proof (Forall2_len _ _ _ F) as Lsl. rewrite Lsl. split; auto.
        split; [|split].
        + intros N. assert (N' : sl <> []) by (intros ->; apply N; destruct (filter (theirs (own r) r s) (list_of (shared (P r)) i)); auto; discriminate). rewrite B10 by auto. auto.
        + destruct sl as [|a sl]; [rewrite B0 by auto; cbn; lia|]. rewrite B10 by discriminate. cbn [coords_of]. apply flat_len; auto.
        + intros a Ia. apply filter_In in Ia as [Ia _]. destruct (listed r i a L Li Ia) as (_ & _ & _ & _ & _ & _ & Fi). auto.
      - exists cnt, f. split; auto. split; auto. intros i x o j Ei Lo Ej. destruct (Own r L) as (_ & _ & Hr). destruct (Hr i x Ei) as (o' & Eo & Lo'). pose proof (lowest_unique _ _ _ Lo Lo'). subst o'.
        assert (Oi : nth i (own r) 0 = o) by (apply nth_error_nth; auto).
        apply (pos_ext D Dpos). intros k Lk. destruct (Nat.eq_dec o r) as [->|N].
        + assert (j = i) by (apply (nodup_nth _ _ _ _ (co_names D n P C r L) Ej Ei)). subst j. apply A; auto. intros o rl I Ii. destruct (In_todo o rl I) as (i0 & _ & _ & ->). apply filter_In in Ii as [_ T]. unfold theirs in T. rewrite Oi, Nat.eqb_refl in T. discriminate.
        + destruct (B i) as (o2 & r2 & m & I2 & E2 & K2).
          * destruct Lo as (Lon & Ho & _). destruct (co_complete D n P C r o x) as (i' & l & a & Ea & El & Ia & Na); auto; [eapply nth_error_In; eauto|]. assert (a = i) by (apply (nodup_nth _ _ _ _ (co_names D n P C r L) Na Ei)). subst a.
            pose proof (nth_error_lt _ _ _ Ea) as Li'. pose proof (nbr_nth r i' Li') as Q. rewrite Ea in Q. injection Q as Q. pose proof (list_nth r i' L Li') as Q'. rewrite El in Q'. injection Q' as Q'.
            exists o, (filter (theirs (own r) r o) l). split; [|apply filter_In; split; auto; unfold theirs; rewrite Oi, Nat.eqb_refl; destruct (Nat.eqb_spec o r); [congruence|auto]]. apply in_map_iff. exists i'. split; [unfold todo_of; rewrite <- Q, <- Q'; auto|apply in_seq; lia].
          * rewrite K2 by auto. destruct (In_todo o2 r2 I2) as (i' & Li' & E' & Er). subst o2 r2.
            assert (Os : o = other_of (neighbors (P r)) i'). { apply nth_error_In in E2. apply filter_In in E2 as [_ T]. unfold theirs in T. rewrite Oi in T. apply andb_prop in T as [_ T]. apply Nat.eqb_eq in T. auto. }
            rewrite Os in Ej, Lo |- *.
            destruct (box_ok r i' L Li') as (sl & _ & B10 & B0 & Fit & F). set (s := other_of (neighbors (P r)) i') in *.
            destruct (Forall2_nth _ _ _ m i F E2) as (b & Eb & x' & X1 & X2). assert (x' = x) by congruence. subst x'. destruct Lo as (Ls & _). assert (b = j) by (apply (nodup_nth _ _ _ _ (co_names D n P C s Ls) X2 Ej)). subst b.
            rewrite B10 by (intros ->; destruct m; discriminate). cbn [coords_of]. apply (flat_nth D Dpos); auto.
    Qed.
  End Round.

  Theorem exchange_all : exists f : nat -> list V,
    Finishes n (fun r => if r <? n then exchange D r (coords (P r)) (neighbors (P r)) (shared (P r)) else Ret (Ok [])) (fun r => Ok (f r)) /\
    forall r, r < n -> length (f r) = length (coords (P r)) /\
      forall i x o j, nth_error (names (P r)) i = Some x -> Lowest n P x o -> nth_error (names (P o)) j = Some x -> position D (f r) i = position D (coords (P o)) j.
  Proof.
    destruct (choose [] _ n (fun r L => owners r L)) as [own Own].
    destruct (choose (0, []) (fun r p => gets (fst p) (inbox (fun r => flat_map (out_of D r (own r) (coords (P r)) (neighbors (P r)) (shared (P r))) (seq 0 (length (neighbors (P r))))) r)
      (receives D (map (todo_of r (own r) (neighbors (P r)) (shared (P r))) (seq 0 (length (neighbors (P r))))) (coords (P r))) (Ok (snd p)) /\ length (snd p) = length (coords (P r)) /\
      forall i x o j, nth_error (names (P r)) i = Some x -> Lowest n P x o -> nth_error (names (P o)) j = Some x -> position D (snd p) i = position D (coords (P o)) j) n) as [f F].
    { intros r L. destruct (rank_ok own Own r L) as (cnt & g & G). exists (cnt, g). exact G. }
    exists (fun r => snd (f r)). split.
    - refine (sends_then_gets n _ _ _ (fun r => fst (f r)) _ _ _ _).
      + intros r L. destruct (Nat.ltb_spec r n); [|lia]. apply (exchange_shape own Own r L).
      + intros r L. destruct (Nat.ltb_spec r n); [lia|]. eauto.
      + intros r L. apply (F r L).
    - intros r L. apply (F r L).
  Qed.
End Owners.
