(* Proofs for C22: reading out vertex loops. *)
From Verif Require Import Base BaseFacts KeyMapModel PointMapModel MeshEditorModel MeshEditorProofs2 QuantMeshModel QuantMeshSpec.
From Coq Require Import Permutation QArith.
Local Open Scope nat_scope.

Fixpoint first (cl : pt -> pt -> bool) (ns : list pt) (p : pt) : option nat :=
  match ns with
  | [] => None
  | q :: t => if cl q p then Some 0 else option_map S (first cl t p)
  end.
Definition snapf cl ns p := match first cl ns p with Some j => nth j ns p | None => p end.

Lemma first_some cl ns p j : first cl ns p = Some j -> exists q, nth_error ns j = Some q /\ cl q p = true.
Proof.
  revert j; induction ns as [|q t IH]; intros j H; cbn in H; [discriminate|].
  destruct (cl q p) eqn:C.
  - inversion H; subst. exists q; auto.
  - destruct (first cl t p) as [k|]; inversion H; subst. destruct (IH k eq_refl) as (r & Hr & Cr). exists r; auto.
Qed.
Lemma first_none cl ns p q : first cl ns p = None -> In q ns -> cl q p = false.
Proof.
  induction ns as [|r t IH]; intros H I; [destruct I|]. cbn in H. destruct (cl r p) eqn:C; [discriminate|].
  destruct (first cl t p); [discriminate|]. destruct I as [->|I]; auto.
Qed.
Lemma first_app cl ns l p j : first cl ns p = Some j -> first cl (ns ++ l) p = Some j.
Proof.
  revert j; induction ns as [|q t IH]; intros j H; cbn in *; [discriminate|].
  destruct (cl q p); auto. destruct (first cl t p) as [k|]; inversion H; subst. rewrite (IH k); auto.
Qed.
Lemma first_intro cl ns p j q : nth_error ns j = Some q -> cl q p = true ->
  (forall i r, nth_error ns i = Some r -> cl r p = true -> i = j) -> first cl ns p = Some j.
Proof.
  intros Hj C U. destruct (first cl ns p) as [k|] eqn:F.
  - destruct (first_some _ _ _ _ F) as (r & Hr & Cr). f_equal. eauto.
  - rewrite (first_none _ _ _ q F) in C; [discriminate|]. eapply nth_error_In; eauto.
Qed.
Lemma snapf_app cl ns l p j : first cl ns p = Some j -> snapf cl (ns ++ l) p = snapf cl ns p.
Proof.
  intros F. unfold snapf. rewrite (first_app _ _ _ _ _ F), F. apply app_nth1.
  destruct (first_some _ _ _ _ F) as (q & H & _). eapply nth_error_lt; eauto.
Qed.
Lemma snapf_nth cl ns p j : first cl ns p = Some j -> nth_error ns j = Some (snapf cl ns p).
Proof.
  intros F. unfold snapf. rewrite F. destruct (first_some _ _ _ _ F) as (q & H & _). rewrite H. f_equal.
  symmetry. apply nth_error_nth. auto.
Qed.

Lemma oriented_app {P} (ns l : list P) es l' z r : oriented_ends ns es z = Some r ->
  oriented_ends (ns ++ l) (es ++ l') z = Some r.
Proof.
  unfold oriented_ends. intros H. destruct (nth_error es (pid z)) as [[a b]|] eqn:E; [|discriminate].
  rewrite nth_error_app1 by (eapply nth_error_lt; eauto). rewrite E.
  destruct (0 <=? z)%Z.
  - destruct (nth_error ns a) eqn:A; [|discriminate]. destruct (nth_error ns b) eqn:B; [|discriminate].
    rewrite !nth_error_app1 by (eapply nth_error_lt; eauto). rewrite A, B. auto.
  - destruct (nth_error ns b) eqn:B; [|discriminate]. destruct (nth_error ns a) eqn:A; [|discriminate].
    rewrite !nth_error_app1 by (eapply nth_error_lt; eauto). rewrite A, B. auto.
Qed.

Lemma pt_eqb_iff p q : pt_eqb p q = true <-> p = q.
Proof.
  destruct p, q; unfold pt_eqb; cbn [fst snd]. rewrite andb_true_iff, !Z.eqb_eq. split; [intros []; subst; auto|intros E; inversion E; auto].
Qed.

Lemma snapped_snoc {P} eqb (sn : P -> P) l s :
  snapped eqb sn (l ++ [s]) = snapped eqb sn l ++ (if eqb (sn (fst s)) (sn (snd s)) then [] else [(sn (fst s), sn (snd s))]).
Proof.
  unfold snapped. rewrite map_app, filter_app. cbn. destruct (eqb _ _); auto.
Qed.
Lemma snapped_ext {P} eqb (sn sn' : P -> P) l :
  (forall s, In s l -> sn (fst s) = sn' (fst s) /\ sn (snd s) = sn' (snd s)) -> snapped eqb sn l = snapped eqb sn' l.
Proof.
  intros H. unfold snapped. f_equal. apply map_ext_in. intros s I. destruct (H s I) as [-> ->]. auto.
Qed.

Section Generic.
  Context {M : Type} (add_node : M * list pt -> pt -> res (nat * (M * list pt))).
  Context (cl : pt -> pt -> bool) (NI : M -> list pt -> Prop) (Good : pt -> Prop).
  Hypothesis cl_refl : forall p, cl p p = true.
  Hypothesis cl_sym : forall p q, cl p q = cl q p.
  Hypothesis HA : forall m ns p j m' ns', NI m ns -> Good p -> add_node (m, ns) p = Ok (j, (m', ns')) ->
    NI m' ns' /\ first cl ns' p = Some j /\ (ns' = ns \/ (ns' = ns ++ [p] /\ first cl ns p = None)).

  Definition apart (ns : list pt) : Prop := forall i j p q, nth_error ns i = Some p -> nth_error ns j = Some q -> cl p q = true -> i = j.
  Definition endp (W : list (pt * pt)) (p : pt) : Prop := exists s, In s W /\ (p = fst s \/ p = snd s).

  Record Inv (W : list (pt * pt)) (T : nat -> list (pt * pt)) (ng : nat) (st : quant M) : Prop := {
    iv_map : NI (qmap st) (qnodes st);
    iv_pts : forall p, endp W p -> exists j, first cl (qnodes st) p = Some j;
    iv_nodes : forall q, In q (qnodes st) -> endp W q;
    iv_apart : apart (qnodes st);
    iv_pos : positional (qe2id st);
    iv_edges : map fst (qe2id st) = qedges st;
    iv_order : forall a b, In (a, b) (qedges st) -> a < b /\ b < length (qnodes st);
    iv_used : forall a b, In (a, b) (qedges st) -> exists s, In s W /\
       ((nth_error (qnodes st) a = Some (snapf cl (qnodes st) (fst s)) /\ nth_error (qnodes st) b = Some (snapf cl (qnodes st) (snd s))) \/
        (nth_error (qnodes st) a = Some (snapf cl (qnodes st) (snd s)) /\ nth_error (qnodes st) b = Some (snapf cl (qnodes st) (fst s))));
    iv_nc : length (qcells st) = ng;
    iv_sub : forall i s, In s (T i) -> In s W;
    iv_cells : forall i c, nth_error (qcells st) i = Some c ->
      map (oriented_ends (qnodes st) (qedges st)) c = map Some (snapped pt_eqb (snapf cl (qnodes st)) (T i)) }.

  Lemma inv_ext W T T' ng st : (forall i, T' i = T i) -> Inv W T ng st -> Inv W T' ng st.
  Proof using.
    intros E [? ? ? ? ? ? ? ? ? Sub C]. constructor; auto.
    - intros i s. rewrite E. apply Sub.
    - intros i c H. rewrite E. auto.
  Qed.

  Lemma apart_snoc ns p : apart ns -> first cl ns p = None -> apart (ns ++ [p]).
  Proof.
    intros A F i j x y Hi Hj C.
    assert (K : forall k z, nth_error (ns ++ [p]) k = Some z -> (k < length ns /\ nth_error ns k = Some z) \/ (k = length ns /\ z = p)).
    { intros k z H. destruct (Nat.lt_ge_cases k (length ns)).
      - rewrite nth_error_app1 in H by auto. auto.
      - rewrite nth_error_app2 in H by auto. destruct (k - length ns) as [|u] eqn:U; cbn in H.
        + inversion H; subst. right; split; auto; lia.
        + destruct u; discriminate. }
    destruct (K _ _ Hi) as [[Li Ni]|[-> ->]], (K _ _ Hj) as [[Lj Nj]|[-> ->]]; auto.
    - eapply A; eauto.
    - rewrite (first_none _ _ _ x F) in C; [discriminate|]. eapply nth_error_In; eauto.
    - rewrite cl_sym in C. rewrite (first_none _ _ _ y F) in C; [discriminate|]. eapply nth_error_In; eauto.
  Qed.

  Definition GoodS (s : pt * pt) : Prop := Good (fst s) /\ Good (snd s).

  (* two vertices inserted one after the other *)
  Lemma add_two m ns p q j0 n0 j1 m' ns' : NI m ns -> apart ns -> Good p -> Good q ->
    add_node (m, ns) p = Ok (j0, n0) -> add_node n0 q = Ok (j1, (m', ns')) ->
    NI m' ns' /\ apart ns' /\ first cl ns' p = Some j0 /\ first cl ns' q = Some j1 /\
    (exists l, ns' = ns ++ l /\ forall x, In x l -> x = p \/ x = q).
  Proof.
    intros N A Gp Gq E0 E1. destruct n0 as [m0 ns0].
    destruct (HA _ _ _ _ _ _ N Gp E0) as (N0 & F0 & D0). destruct (HA _ _ _ _ _ _ N0 Gq E1) as (N1 & F1 & D1).
    assert (A0 : apart ns0) by (destruct D0 as [->|[-> ?]]; [auto|apply apart_snoc; auto]).
    assert (A1 : apart ns') by (destruct D1 as [->|[-> ?]]; [auto|apply apart_snoc; auto]).
    repeat split; auto.
    - destruct D1 as [->|[-> ?]]; [auto|apply first_app; auto].
    - destruct D0 as [->|[-> ?]], D1 as [->|[-> ?]].
      + exists []. rewrite app_nil_r. split; auto. intros ? [].
      + exists [q]. split; auto. intros ? [<-|[]]; auto.
      + exists [p]. split; auto. intros ? [<-|[]]; auto.
      + exists [p; q]. rewrite <- app_assoc. split; auto. intros ? [<-|[<-|[]]]; auto.
  Qed.

  Lemma visit_inv W T ng st i s st' : GoodS s -> Inv W T ng st -> visit add_node i st s = Ok st' ->
    Inv (W ++ [s]) (fun j => if j =? i then T i ++ [s] else T j) ng st'.
  Proof.
    intros [Gp Gq] I E. unfold visit in E.
    apply bind_ok in E as ([j0 n0] & E0 & E). apply bind_ok in E as ([j1 [m' ns']] & E1 & E).
    destruct (add_two _ _ _ _ _ _ _ _ _ (iv_map _ _ _ _ I) (iv_apart _ _ _ _ I) Gp Gq E0 E1) as (N' & A' & F0 & F1 & l & El & Hl).
    assert (SubW : forall p, endp W p -> endp (W ++ [s]) p).
    { intros p (x & Ix & Hx). exists x. split; auto. apply in_or_app; auto. }
    assert (Pts : forall p, endp (W ++ [s]) p -> exists j, first cl ns' p = Some j).
    { intros p (x & Ix & Hx). apply in_app_or in Ix as [Ix|[<-|[]]].
      - destruct (iv_pts _ _ _ _ I p) as [j F]; [exists x; auto|]. exists j. rewrite El. apply first_app; auto.
      - destruct Hx as [->| ->]; eauto. }
    assert (Nds : forall q, In q ns' -> endp (W ++ [s]) q).
    { intros q Iq. rewrite El in Iq. apply in_app_or in Iq as [Iq|Iq].
      - apply SubW. apply (iv_nodes _ _ _ _ I). auto.
      - exists s. split; [apply in_or_app; right; left; auto|auto]. }
    assert (SnE : forall x, In x W -> snapf cl ns' (fst x) = snapf cl (qnodes st) (fst x) /\
                                      snapf cl ns' (snd x) = snapf cl (qnodes st) (snd x)).
    { intros x Ix. destruct (iv_pts _ _ _ _ I (fst x)) as [a Fa]; [exists x; auto|].
      destruct (iv_pts _ _ _ _ I (snd x)) as [b Fb]; [exists x; auto|]. rewrite El.
      split; [exact (snapf_app cl _ l _ a Fa)|exact (snapf_app cl _ l _ b Fb)]. }
    assert (UsedOld : forall a b, In (a, b) (qedges st) -> exists s0, In s0 (W ++ [s]) /\
       ((nth_error ns' a = Some (snapf cl ns' (fst s0)) /\ nth_error ns' b = Some (snapf cl ns' (snd s0))) \/
        (nth_error ns' a = Some (snapf cl ns' (snd s0)) /\ nth_error ns' b = Some (snapf cl ns' (fst s0))))).
    { intros a b Iab. destruct (iv_used _ _ _ _ I a b Iab) as (x & Ix & Hx). exists x.
      split; [apply in_or_app; auto|]. destruct (SnE x Ix) as [-> ->].
      destruct (iv_order _ _ _ _ I a b Iab). rewrite El, !nth_error_app1 by lia. auto. }
    assert (OrdOld : forall a b, In (a, b) (qedges st) -> a < b /\ b < length ns').
    { intros a b Iab. destruct (iv_order _ _ _ _ I a b Iab). rewrite El, app_length. lia. }
    assert (Sub' : forall k x, In x (if k =? i then T i ++ [s] else T k) -> In x (W ++ [s])).
    { intros k x. destruct (k =? i).
      - intros Ix. apply in_app_or in Ix as [Ix|Ix]; apply in_or_app; [left; eapply iv_sub; eauto|auto].
      - intros Ix. apply in_or_app; left; eapply iv_sub; eauto. }
    assert (CellOld : forall k c l', nth_error (qcells st) k = Some c ->
        map (oriented_ends ns' (qedges st ++ l')) c = map Some (snapped pt_eqb (snapf cl ns') (T k))).
    { intros k c l' Hc. pose proof (iv_cells _ _ _ _ I k c Hc) as C.
      rewrite (snapped_ext pt_eqb (snapf cl ns') (snapf cl (qnodes st))) by (intros x Ix; apply SnE; eapply iv_sub; eauto).
      rewrite <- C. apply map_ext_in. intros z Iz. rewrite El.
      assert (Q : In (oriented_ends (qnodes st) (qedges st) z) (map Some (snapped pt_eqb (snapf cl (qnodes st)) (T k)))).
      { rewrite <- C. apply in_map. auto. }
      apply in_map_iff in Q as (r & Er & _). rewrite <- Er. symmetry in Er. apply oriented_app with (1 := Er). }
    pose proof (snapf_nth _ _ _ _ F0) as S0. pose proof (snapf_nth _ _ _ _ F1) as S1.
    destruct (Nat.eqb_spec j0 j1) as [Ej|Nj].
    - inversion E; subst st'. cbn. subst j1. constructor; cbn [qmap qnodes qe2id qedges qcells]; auto; try apply I.
      intros k c Hc. destruct (Nat.eqb_spec k i) as [->|Nk].
      + rewrite snapped_snoc. rewrite S0 in S1. injection S1 as S2. rewrite (proj2 (pt_eqb_iff _ _) S2), app_nil_r.
        specialize (CellOld i c [] Hc). rewrite app_nil_r in CellOld. auto.
      + specialize (CellOld k c [] Hc). rewrite app_nil_r in CellOld. auto.
    - destruct (addKeyToMap nedge_lt (edge_key j0 j1) (qe2id st)) as [e1 e2id] eqn:EK.
      destruct (add_pos _ _ _ _ (iv_pos _ _ _ _ I) EK) as (P' & K & D).
      apply bind_ok in E as (edges & Ee & E). apply bind_ok in E as (c0 & Ec & E).
      apply bind_ok in E as (cs & Es & E). inversion E; subst st'. clear E.
      apply (proj1 (get_ok _ _ _)) in Ec. apply set_ok in Es as [Li ->].
      assert (Hedges : edges = map fst e2id /\ exists l', edges = qedges st ++ l').
      { pose proof (iv_edges _ _ _ _ I) as IE. destruct D as [[-> Lt]|[-> [-> NIn]]].
        - destruct (Nat.eqb_spec e1 (length (qe2id st))); [lia|]. inversion Ee; subst.
          split; auto. exists []. rewrite app_nil_r; auto.
        - rewrite Nat.eqb_refl in Ee. apply bind_ok in Ee as ([] & _ & Ee). inversion Ee; subst.
          rewrite map_app, IE. split; [reflexivity|eauto]. }
      destruct Hedges as [Hed (l' & Hl')]. rewrite <- Hed in K.
      assert (NewE : forall a b, In (a, b) edges -> In (a, b) (qedges st) \/ (a, b) = edge_key j0 j1).
      { intros a b Iab. rewrite Hed in Iab. rewrite <- (iv_edges _ _ _ _ I). destruct D as [[-> _]|[-> _]]; auto.
        rewrite map_app in Iab. apply in_app_or in Iab as [?|[?|[]]]; auto. }
      assert (B0 : j0 < length ns') by (eapply nth_error_lt; eauto).
      assert (B1 : j1 < length ns') by (eapply nth_error_lt; eauto).
      assert (Order : forall a b, In (a, b) edges -> a < b /\ b < length ns').
      { intros a b Iab. destruct (NewE a b Iab) as [?|Ek]; [auto|].
        unfold edge_key in Ek. destruct (Nat.ltb_spec j0 j1); inversion Ek; subst; lia. }
      assert (Hz : oriented_ends ns' edges (if fst (edge_key j0 j1) =? j0 then Z.of_nat e1 else Z.lnot (Z.of_nat e1))
                   = Some (snapf cl ns' (fst s), snapf cl ns' (snd s))).
      { unfold oriented_ends, edge_key in *. destruct (Nat.ltb_spec j0 j1); cbn [fst].
        - rewrite Nat.eqb_refl, pid_of_nat, K. destruct (Z.leb_spec 0 (Z.of_nat e1)); [|lia]. rewrite S0, S1; auto.
        - destruct (Nat.eqb_spec j1 j0); [lia|]. rewrite pid_lnot_of_nat, K.
          destruct (Z.leb_spec 0 (Z.lnot (Z.of_nat e1))) as [B|]; [unfold Z.lnot in B; lia|]. rewrite S0, S1; auto. }
      constructor; cbn [qmap qnodes qe2id qedges qcells]; auto; try apply I.
      + intros a b Iab. destruct (NewE a b Iab) as [?|Ek]; [auto|]. exists s.
        split; [apply in_or_app; right; left; auto|].
        unfold edge_key in Ek. destruct (Nat.ltb_spec j0 j1); inversion Ek; subst; auto.
      + rewrite upd_length. apply I.
      + intros k c Hc. rewrite upd_nth in Hc. rewrite Hl'. rewrite Hl' in Hz.
        destruct (Nat.eqb_spec k i) as [->|Nk].
        * rewrite Nat.eqb_refl in Hc. destruct (Nat.ltb_spec i (length (qcells st))); [|lia]. cbn [andb] in Hc.
          inversion Hc; subst c. rewrite map_app, (CellOld i c0 l' Ec), snapped_snoc, map_app.
          f_equal. cbn [map]. rewrite Hz.
          assert (Ns : pt_eqb (snapf cl ns' (fst s)) (snapf cl ns' (snd s)) = false).
          { apply not_true_is_false. intros C. apply pt_eqb_iff in C. apply Nj.
            rewrite <- C in S1. exact (A' _ _ _ _ S0 S1 (cl_refl _)). }
          rewrite Ns. reflexivity.
        * apply CellOld. destruct (Nat.eqb_spec i k); [congruence|]. auto.
  Qed.

  Lemma visit_all W T ng i segs st st' : Forall GoodS segs -> Inv W T ng st -> mfold (visit add_node i) segs st = Ok st' ->
    Inv (W ++ segs) (fun j => if j =? i then T i ++ segs else T j) ng st'.
  Proof.
    intros G. revert W T st. induction G as [|s segs Gs G IH]; intros W T st I E; cbn in E.
    - inversion E; subst. rewrite app_nil_r. eapply inv_ext; [|exact I]. intros j. cbn.
      destruct (Nat.eqb_spec j i); [subst; apply app_nil_r|auto].
    - apply bind_ok in E as (st1 & E1 & E). apply (visit_inv _ _ _ _ _ _ _ Gs I) in E1.
      apply (IH _ _ _ E1) in E. rewrite <- app_assoc in E. cbn [app] in E.
      eapply inv_ext; [|exact E]. intros j. cbn. rewrite Nat.eqb_refl, <- app_assoc. cbn [app].
      destruct (Nat.eqb_spec j i); auto.
  Qed.

  Definition step (T : nat -> list (pt * pt)) (e : event) : nat -> list (pt * pt) :=
    fun j => let '(i, clear, segs) := e in if i =? j then (if clear : bool then segs else T j ++ segs) else T j.

  Lemma read_cell_inv W T ng st e st' : Forall GoodS (snd e) -> Inv W T ng st -> read_cell add_node st e = Ok st' ->
    Inv (W ++ snd e) (step T e) ng st'.
  Proof.
    destruct e as [[i clear] segs]. cbn [snd]. intros G I E. unfold read_cell in E. apply bind_ok in E as (st1 & E1 & E).
    destruct clear.
    - apply bind_ok in E1 as (cs & Es & E1). inversion E1; subst st1. apply set_ok in Es as [Li ->].
      assert (I1 : Inv W (fun j => if j =? i then [] else T j) ng
                       (mkQuant (qmap st) (qnodes st) (qe2id st) (qedges st) (upd (qcells st) i []))).
      { destruct I as [? ? ? ? ? ? ? ? Nc Sub C]. constructor; cbn [qmap qnodes qe2id qedges qcells]; auto.
        - rewrite upd_length. auto.
        - intros j s. destruct (j =? i); [intros []|apply Sub].
        - intros j c H. rewrite upd_nth in H. destruct (Nat.eqb_spec j i) as [->|Nj].
          + rewrite Nat.eqb_refl in H. destruct (Nat.ltb_spec i (length (qcells st))); [|lia].
            cbn [andb] in H. inversion H; subst. reflexivity.
          + destruct (Nat.eqb_spec i j); [congruence|]. cbn [andb] in H. auto. }
      apply (visit_all _ _ _ _ _ _ _ G I1) in E. eapply inv_ext; [|exact E].
      intros j. cbn. rewrite Nat.eqb_refl. rewrite (Nat.eqb_sym i j). destruct (j =? i); auto.
    - inversion E1; subst st1. apply (visit_all _ _ _ _ _ _ _ G I) in E. eapply inv_ext; [|exact E].
      intros j. cbn. rewrite (Nat.eqb_sym i j). destruct (Nat.eqb_spec j i); subst; auto.
  Qed.

  Lemma read_all W T ng evs st st' : (forall e, In e evs -> Forall GoodS (snd e)) -> Inv W T ng st -> mfold (read_cell add_node) evs st = Ok st' ->
    Inv (W ++ walked evs) (fun j => fold_left (fun acc e => let '(i, clear, segs) := e in
       if i =? j then (if clear : bool then segs else acc ++ segs) else acc) evs (T j)) ng st'.
  Proof.
    intros G. revert W T st G. induction evs as [|e evs IH]; intros W T st G I E; cbn in E.
    - inversion E; subst. unfold walked; cbn. rewrite app_nil_r. auto.
    - apply bind_ok in E as (st1 & E1 & E). apply (read_cell_inv _ _ _ _ _ _ (G e (or_introl eq_refl)) I) in E1.
      apply (IH _ _ _ (fun e' i => G e' (or_intror i)) E1) in E. unfold walked in *. cbn [flat_map]. rewrite <- app_assoc in E.
      eapply inv_ext; [|exact E]. intros j. destruct e as [[i clear] segs]. reflexivity.
  Qed.

  Lemma inv_init m0 ng : NI m0 [] -> Inv [] (fun _ => []) ng (mkQuant m0 [] [] [] (repeat [] ng)).
  Proof.
    intros N. constructor; cbn [qmap qnodes qe2id qedges qcells]; auto.
    - intros p (s & [] & _).
    - intros q [].
    - intros i j p q H. destruct i; discriminate.
    - split; [intros [|i]; discriminate|constructor].
    - intros a b [].
    - intros a b [].
    - apply repeat_length.
    - intros i c H. assert (c = []) as ->; [|reflexivity].
      apply nth_error_In, repeat_spec in H. auto.
  Qed.

  Lemma read_out_inv m0 ng evs st : (forall e, In e evs -> Forall GoodS (snd e)) -> NI m0 [] -> read_out add_node m0 ng evs = Ok st ->
    Inv (walked evs) (fun i => wanted i evs) ng st.
  Proof.
    intros G N E. unfold read_out in E.
    pose proof (inv_init m0 ng N) as I0.
    apply (read_all _ _ _ _ _ _ G I0 E).
  Qed.

  Lemma read_out_spec (close : pt -> pt -> Prop) m0 ng evs st : (forall p q, close p q <-> cl p q = true) ->
    (forall e, In e evs -> Forall GoodS (snd e)) -> NI m0 [] -> read_out add_node m0 ng evs = Ok st ->
    ReadOut close ng evs (snapf cl (qnodes st)) (qnodes st) (qedges st) (qcells st).
  Proof.
    intros CL G N E. pose proof (read_out_inv _ _ _ _ G N E) as I. constructor.
    - intros s p Is Hp. destruct (iv_pts _ _ _ _ I p) as [j F]; [exists s; auto|].
      pose proof (snapf_nth _ _ _ _ F) as H. destruct (first_some _ _ _ _ F) as (q & Hq & C).
      rewrite Hq in H. inversion H; subst. split; [apply CL; auto|eapply nth_error_In; eauto].
    - intros q Iq. split; [|apply (iv_nodes _ _ _ _ I q Iq)].
      apply In_nth_error in Iq as [j Hj]. assert (F : first cl (qnodes st) q = Some j).
      { apply first_intro with q; auto. intros i r Hi C. exact (iv_apart _ _ _ _ I _ _ _ _ Hi Hj C). }
      apply snapf_nth in F. rewrite Hj in F. injection F as F. auto.
    - intros i j p q Hi Hj C. apply CL in C. exact (iv_apart _ _ _ _ I _ _ _ _ Hi Hj C).
    - rewrite <- (iv_edges _ _ _ _ I). apply (iv_pos _ _ _ _ I).
    - exact (iv_order _ _ _ _ I).
    - intros a b H. destruct (iv_used _ _ _ _ I a b H) as (s & Is & Hs). exists s; auto.
    - exact (iv_nc _ _ _ _ I).
    - exact (iv_cells _ _ _ _ I).
  Qed.

  (* success: nothing fails when node insertion never fails and every cell exists *)
  Hypothesis HT : forall m ns p, NI m ns -> Good p -> exists r, add_node (m, ns) p = Ok r.

  Lemma visit_total W T ng st i s : i < ng -> GoodS s -> Inv W T ng st -> exists st', visit add_node i st s = Ok st'.
  Proof.
    intros L [Gp Gq] I. unfold visit. destruct (HT _ _ (fst s) (iv_map _ _ _ _ I) Gp) as [[j0 [m0 ns0]] E0].
    rewrite E0. cbn [bind]. destruct (HA _ _ _ _ _ _ (iv_map _ _ _ _ I) Gp E0) as (N0 & _ & _).
    destruct (HT _ _ (snd s) N0 Gq) as [[j1 [m1 ns1]] E1]. rewrite E1. cbn [bind].
    destruct (j0 =? j1); [eauto|].
    destruct (addKeyToMap nedge_lt (edge_key j0 j1) (qe2id st)) as [e1 e2id] eqn:EK.
    assert (Le : length (qe2id st) = length (qedges st)) by (rewrite <- (iv_edges _ _ _ _ I), map_length; auto).
    assert (X : exists edges, (if e1 =? length (qe2id st)
                 then do _ <- assert (e1 =? length (qedges st)); Ok (qedges st ++ [edge_key j0 j1])
                 else Ok (qedges st)) = Ok edges).
    { destruct (Nat.eqb_spec e1 (length (qe2id st))) as [->|]; [|eauto]. rewrite Le, Nat.eqb_refl. cbn. eauto. }
    destruct X as [edges ->]. cbn [bind]. rewrite <- (iv_nc _ _ _ _ I) in L.
    destruct (get_lt _ _ L) as [c ->]. cbn [bind]. rewrite set_lt by auto. cbn [bind]. eauto.
  Qed.

  Lemma visits_total W T ng i segs st : i < ng -> Forall GoodS segs -> Inv W T ng st -> exists st', mfold (visit add_node i) segs st = Ok st'.
  Proof.
    intros L G. revert W T st. induction G as [|s segs Gs G IH]; intros W T st I; cbn; [eauto|].
    destruct (visit_total _ _ _ _ i s L Gs I) as [st1 E1]. rewrite E1. cbn [bind].
    eapply IH. eapply visit_inv; eauto.
  Qed.

  Lemma read_total_gen W T ng evs st : (forall e, In e evs -> fst (fst e) < ng /\ Forall GoodS (snd e)) -> Inv W T ng st ->
    exists st', mfold (read_cell add_node) evs st = Ok st'.
  Proof.
    revert W T st. induction evs as [|e evs IH]; intros W T st B I; cbn; [eauto|].
    assert (X : exists st1, read_cell add_node st e = Ok st1).
    { destruct (B e (or_introl eq_refl)) as [L G]. destruct e as [[i clear] segs]. cbn [fst snd] in L, G. unfold read_cell.
      destruct clear.
      - rewrite set_lt by (rewrite (iv_nc _ _ _ _ I); auto). cbn [bind].
        apply visits_total with (W := W) (T := step T (i, true, [])) (ng := ng); auto.
        assert (R : read_cell add_node st (i, true, []) =
          Ok (mkQuant (qmap st) (qnodes st) (qe2id st) (qedges st) (upd (qcells st) i []))).
        { unfold read_cell. rewrite set_lt by (rewrite (iv_nc _ _ _ _ I); auto). reflexivity. }
        apply (read_cell_inv W T ng st (i, true, []) _ (Forall_nil _) I) in R. cbn [snd] in R. rewrite app_nil_r in R. exact R.
      - cbn [bind]. eapply visits_total; eauto. }
    destruct X as [st1 E1]. rewrite E1. cbn [bind]. eapply IH; [intros; apply B; right; auto|].
    eapply read_cell_inv; eauto. apply B; left; auto.
  Qed.

  Lemma read_out_total m0 ng evs : NI m0 [] -> (forall e, In e evs -> fst (fst e) < ng /\ Forall GoodS (snd e)) ->
    exists st, read_out add_node m0 ng evs = Ok st.
  Proof.
    intros N B. unfold read_out. apply read_total_gen with (W := []) (T := fun _ => []) (ng := ng); auto.
    apply inv_init; auto.
  Qed.
End Generic.
