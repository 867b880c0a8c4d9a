(* The loops of cleanEdges that pick the edges to collapse. *)
From Verif Require Import Base BaseFacts StdAlg Rank SerializeModel MeshModel MeshSpec MeshProofs MeshProofs2
  KeyMapModel MeshEditorModel MeshEditorSpec MeshEditorProofs MeshEditorProofs2 MeshEditorProofs3.
From Coq Require Import Lia Sorted QArith Lqa.
Local Open Scope nat_scope.

(* ------------------------------------------------------------ longest edge around each edge *)
Section Max.
  Context (lens : list Q) (c2e : list (list nat)).
  Hypothesis In_range : forall ids e, In ids c2e -> In e ids -> e < length lens.
  Let len e := nth e lens 0%Q.

  Lemma get_len e : e < length lens -> get lens e = Ok (len e).
  Proof. intros L. apply get_ok, nth_error_nth'; auto. Qed.

  Lemma big_ok ids : (forall e, In e ids -> e < length lens) ->
    exists big, mfold (fun a e => do x <- get lens e; Ok (Qmax2 a x)) ids 0%Q = Ok big /\
      (0 <= big)%Q /\ (forall e, In e ids -> (len e <= big)%Q) /\ (big = 0%Q \/ exists e, In e ids /\ big = len e).
  Proof.
    intros R. apply (mfold_inv (fun a e => do x <- get lens e; Ok (Qmax2 a x))
      (fun l a => (0 <= a)%Q /\ (forall e, In e l -> (len e <= a)%Q) /\ (a = 0%Q \/ exists e, In e l /\ a = len e))).
    - split; [lra|]. split; [intros e []|auto].
    - intros l1 e l2 a E (A & B & C). rewrite get_len by (apply R; rewrite E, in_app_iff; right; left; auto).
      cbn [bind]. eexists; split; [reflexivity|]. pose proof (Qmax2_ge_l a (len e)). pose proof (Qmax2_ge_r a (len e)).
      split; [lra|]. split.
      + intros x I. apply in_app_iff in I as [I|[<-|[]]]; auto. specialize (B x I). lra.
      + destruct (Qmax2_or a (len e)) as [-> | ->].
        * destruct C as [?|(x & I & ?)]; auto. right; exists x. rewrite in_app_iff. auto.
        * right. exists e. rewrite in_app_iff; cbn; auto.
  Qed.

  (* what is known about maxs[e] after the cells in l *)
  Definition max_inv (l : list (list nat)) (mx : list Q) : Prop :=
    length mx = length lens /\ forall e x, nth_error mx e = Some x ->
      (forall ids e', In ids l -> In e ids -> In e' ids -> (len e' <= x)%Q) /\
      (x = 0%Q \/ exists ids e', In ids l /\ In e ids /\ In e' ids /\ x = len e').

  Lemma max_lengths_ok : exists mx, max_lengths lens c2e = Ok mx /\ max_inv c2e mx.
  Proof.
    unfold max_lengths. apply (mfold_inv _ max_inv).
    - split; [apply repeat_length|]. intros e x H. split; [intros ids e' []|]. left.
      apply nth_error_In, repeat_spec in H. auto.
    - intros l1 ids l2 mx E (L & H).
      assert (R : forall e, In e ids -> e < length lens).
      { intros e I. apply (In_range ids); auto. rewrite E, in_app_iff; right; left; auto. }
      destruct (big_ok ids R) as (big & -> & B0 & B1 & B2). cbn [bind].
      destruct (mfold_inv (fun mx e => do x <- get mx e; set mx e (Qmax2 x big))
        (fun l mx' => length mx' = length lens /\ forall e x, nth_error mx e = Some x ->
            (In e l -> exists y, nth_error mx' e = Some y /\ (x <= y)%Q /\ (big <= y)%Q /\ (y = x \/ y = big)) /\
            (~ In e l -> nth_error mx' e = Some x)) ids mx) as (mx' & -> & L' & H').
      + split; auto. intros e x Hx. split; [intros []|auto].
      + intros k1 e k2 s Ek (Ls & Hs).
        assert (Le : e < length lens) by (apply R; rewrite Ek, in_app_iff; right; left; auto).
        destruct (nth_error_ex s e ltac:(lia)) as [v Hv]. rewrite (proj2 (get_ok _ _ _) Hv). cbn [bind].
        rewrite set_lt by lia. eexists; split; [reflexivity|]. split; [rewrite upd_length; auto|].
        intros e2 x Hx. destruct (Hs e2 x Hx) as (A & B).
        pose proof (Qmax2_ge_l v big). pose proof (Qmax2_ge_r v big).
        destruct (Nat.eq_dec e2 e) as [->|N].
        * split.
          -- intros _. rewrite upd_same by lia. exists (Qmax2 v big). split; auto.
             destruct (in_dec Nat.eq_dec e k1) as [I|NI].
             ++ destruct (A I) as (y & Hy & C1 & C2 & C3). rewrite Hv in Hy; inversion Hy; subst y.
                split; [lra|]. split; auto. destruct (Qmax2_or v big) as [-> | ->]; auto.
             ++ rewrite (B NI) in Hv. inversion Hv; subst v. split; auto. split; auto.
                apply Qmax2_or.
          -- intros NI. exfalso; apply NI. rewrite in_app_iff; right; left; auto.
        * rewrite upd_other by auto. rewrite in_app_iff. split.
          -- intros [I|[?|[]]]; [auto|congruence].
          -- intros NI. apply B. tauto.
      + eexists; split; [reflexivity|]. split; auto. intros e y Hy.
        assert (Le : e < length mx) by (rewrite L, <- L'; eapply nth_error_lt; eauto).
        destruct (nth_error_ex mx e Le) as [x Hx]. destruct (H e x Hx) as (H1 & H2).
        destruct (H' e x Hx) as (A & B).
        destruct (in_dec Nat.eq_dec e ids) as [I|NI].
        * destruct (A I) as (y' & Hy' & C1 & C2 & C3). rewrite Hy in Hy'; inversion Hy'; subst y'. split.
          -- intros ids' e' I1 I2 I3. apply in_app_iff in I1 as [I1|[<-|[]]].
             ++ specialize (H1 ids' e' I1 I2 I3). lra.
             ++ specialize (B1 e' I3). lra.
          -- destruct C3 as [-> | ->].
             ++ destruct H2 as [?|(ids' & e' & I1 & I2 & I3 & ->)]; auto. right. exists ids', e'. rewrite in_app_iff; auto.
             ++ destruct B2 as [?|(e' & I' & ->)]; auto. right. exists ids, e'. rewrite in_app_iff; cbn; auto.
        * rewrite (B NI) in Hy. inversion Hy; subst y. split.
          -- intros ids' e' I1 I2 I3. apply in_app_iff in I1 as [I1|[<-|[]]]; [|contradiction]. eauto.
          -- destruct H2 as [?|(ids' & e' & I1 & I2 & I3 & ->)]; auto. right. exists ids', e'. rewrite in_app_iff; auto.
  Qed.

  (* an edge is short when some edge of a cell it belongs to is much longer *)
  Lemma short_iff tol mx e x : max_inv c2e mx -> nth_error mx e = Some x -> (forall e, 0 <= len e)%Q ->
    Qlt_bool (len e) (tol * tol * x) = true <->
    exists ids e', In ids c2e /\ In e ids /\ In e' ids /\ (len e < tol * tol * len e')%Q.
  Proof.
    intros (L & H) Hx NN. destruct (H e x Hx) as (H1 & H2). rewrite Qlt_bool_iff. split.
    - intros Lt. destruct H2 as [-> |(ids & e' & I1 & I2 & I3 & ->)].
      + specialize (NN e). lra.
      + exists ids, e'. auto.
    - intros (ids & e' & I1 & I2 & I3 & Lt). specialize (H1 ids e' I1 I2 I3).
      assert (0 <= tol * tol)%Q by (clear; nra). nra.
  Qed.
End Max.

(* ------------------------------------------------------------ choosing the collapses *)
Definition ends (pairs : list (nat * nat)) : list nat := flat_map (fun p => [fst p; snd p]) pairs.

Lemma ends_in pairs n : In n (ends pairs) <-> exists k d, In (k, d) pairs /\ (n = k \/ n = d).
Proof.
  unfold ends. rewrite in_flat_map. split.
  - intros ([k d] & I & [H|[H|[]]]); cbn in H; exists k, d; auto.
  - intros (k & d & I & [-> | ->]); exists (k, d); cbn; auto.
Qed.

Lemma edge_key_lt a b x y : a <> b -> edge_key a b = (x, y) -> x < y.
Proof. unfold edge_key. destruct (Nat.ltb_spec a b); intros N E; inversion E; subst; lia. Qed.

Section Flag.
  Context (tol : Q) (keys : list (nat * nat)) (lens maxs : list Q) (border corner : list nat) (nn : nat).
  Hypothesis Knd : NoDup keys.
  Hypothesis Kin : forall i a b, nth_error keys i = Some (a, b) -> a < b /\ a < nn /\ b < nn.
  Hypothesis Llen : length lens = length keys.
  Hypothesis Lmax : length maxs = length keys.

  Definition sh (i : nat) : Prop := exists le mx, nth_error lens i = Some le /\ nth_error maxs i = Some mx /\
    Qlt_bool le (tol * tol * mx) = true.

  Record FInv (done : nat) (pairs : list (nat * nat)) (em nm col : list nat) (clean : bool) : Prop := {
    fi_once : NoDup (ends pairs);
    fi_chosen : forall k d, In (k, d) pairs -> exists i, i < done /\ nth_error keys i = Some (edge_key k d) /\ sh i /\
       k <> d /\ ~ In k corner /\ ~ In d corner /\ (In d border -> In k border);
    fi_max : forall i a b, i < done -> nth_error keys i = Some (a, b) -> sh i -> ~ In a corner -> ~ In b corner ->
       In a (ends pairs) \/ In b (ends pairs);
    fi_lem : length em = length keys;
    fi_lnm : length nm = nn;
    fi_lcol : length col = nn;
    fi_em : forall i v, nth_error em i = Some v ->
       (v = 0 /\ exists k d, In (k, d) pairs /\ nth_error keys i = Some (edge_key k d)) \/
       (v = 1 /\ ~ exists k d, In (k, d) pairs /\ nth_error keys i = Some (edge_key k d));
    fi_nm : forall n v, nth_error nm n = Some v ->
       (v = 0 /\ removed pairs n) \/ (v = 2 /\ exists d, In (n, d) pairs) \/ (v = 1 /\ ~ In n (ends pairs));
    fi_col : forall n v, nth_error col n = Some v -> In (v, n) pairs \/ (v = n /\ ~ removed pairs n);
    fi_clean : clean = true <-> pairs = [] }.

  Lemma flag_edge_ok done pairs em nm col clean : FInv done pairs em nm col clean -> done < length keys ->
    exists em' nm' col' clean' pairs',
      flag_edge tol keys lens maxs border corner (em, nm, col, clean) done = Ok (em', nm', col', clean') /\
      FInv (S done) pairs' em' nm' col' clean'.
  Proof.
    intros I Ld. destruct I as [Once Chosen Max Lem Lnm Lcol Em Nm Col Clean].
    destruct (nth_error_ex keys done Ld) as [[a b] Hk]. destruct (Kin _ _ _ Hk) as (Lab & La & Lb).
    destruct (nth_error_ex lens done ltac:(lia)) as [le Hle]. destruct (nth_error_ex maxs done ltac:(lia)) as [mx Hmx].
    destruct (nth_error_ex nm a ltac:(lia)) as [k0 Hk0]. destruct (nth_error_ex nm b ltac:(lia)) as [k1 Hk1].
    unfold flag_edge. rewrite (proj2 (get_ok _ _ _) Hk). cbn [bind]. rewrite (proj2 (get_ok _ _ _) Hle). cbn [bind].
    rewrite (proj2 (get_ok _ _ _) Hmx). cbn [bind]. rewrite (proj2 (get_ok _ _ _) Hk0). cbn [bind].
    rewrite (proj2 (get_ok _ _ _) Hk1). cbn [bind].
    assert (Shd : sh done <-> Qlt_bool le (tol * tol * mx) = true).
    { split; [|intros; exists le, mx; auto]. intros (le' & mx' & E1 & E2 & E3).
      rewrite Hle in E1; rewrite Hmx in E2; inversion E1; inversion E2; subst; auto. }
    destruct (Qlt_bool le (tol * tol * mx) && (k0 =? 1) && (k1 =? 1) && negb (mem a corner || mem b corner)) eqn:C.
    - apply andb_true_iff in C as [C C4]. apply andb_true_iff in C as [C C3]. apply andb_true_iff in C as [C1 C2].
      apply Nat.eqb_eq in C2, C3. subst k0 k1. apply negb_true_iff, orb_false_iff in C4 as [C4 C5].
      assert (Ca : ~ In a corner) by (intros X; apply mem_in in X; congruence).
      assert (Cb : ~ In b corner) by (intros X; apply mem_in in X; congruence).
      assert (Na : ~ In a (ends pairs)) by (destruct (Nm _ _ Hk0) as [[? _]|[[? _]|[_ ?]]]; [discriminate..|auto]).
      assert (Nb : ~ In b (ends pairs)) by (destruct (Nm _ _ Hk1) as [[? _]|[[? _]|[_ ?]]]; [discriminate..|auto]).
      rewrite set_lt by lia. cbn [bind].
      set (keep1 := mem b corner || (mem b border && negb (mem a border))).
      set (k := if keep1 then b else a). set (d := if keep1 then a else b).
      assert (KD : edge_key k d = (a, b)).
      { unfold k, d, edge_key. destruct keep1; destruct (Nat.ltb_spec b a), (Nat.ltb_spec a b); auto; lia. }
      assert (Nk : ~ In k (ends pairs)) by (unfold k; destruct keep1; auto).
      assert (Nd : ~ In d (ends pairs)) by (unfold d; destruct keep1; auto).
      assert (Lk : k < nn) by (unfold k; destruct keep1; auto).
      assert (Ldd : d < nn) by (unfold d; destruct keep1; auto).
      assert (Nkd : k <> d) by (unfold k, d; destruct keep1; lia).
      rewrite (set_lt nm) by lia. cbn [bind]. rewrite set_lt by (rewrite upd_length; lia). cbn [bind].
      rewrite set_lt by lia. cbn [bind].
      eexists _, _, _, _, (pairs ++ [(k, d)]). split; [reflexivity|].
      assert (Ends : forall n, In n (ends (pairs ++ [(k, d)])) <-> In n (ends pairs) \/ n = k \/ n = d).
      { intros n. unfold ends. rewrite flat_map_app, in_app_iff. cbn. intuition. }
      assert (Rem : forall n, removed (pairs ++ [(k, d)]) n <-> removed pairs n \/ n = d).
      { intros n. unfold removed. split.
        - intros (x & Ix). apply in_app_iff in Ix as [Ix|[Ix|[]]]; [left; eauto|inversion Ix; auto].
        - intros [(x & Ix)|Hn]; [exists x; rewrite in_app_iff; auto|subst n; exists k; rewrite in_app_iff; cbn; auto]. }
      assert (RemEnds : forall n, removed pairs n -> In n (ends pairs)).
      { intros n (x & Ix). apply ends_in. eauto. }
      constructor.
      + unfold ends. rewrite flat_map_app. apply NoDup_app_disj; auto.
        * cbn. constructor; [intros [?|[]]; congruence|]. constructor; [intros []|constructor].
        * intros x I1 I2. cbn in I2. destruct I2 as [<-|[<-|[]]]; auto.
      + intros k' d' I. apply in_app_iff in I as [I|[I|[]]].
        * destruct (Chosen _ _ I) as (i & Li & R). exists i. split; [lia|auto].
        * assert (k' = k /\ d' = d) as [-> ->] by (inversion I; auto). exists done. split; [lia|].
          rewrite KD. split; auto. split; [apply Shd; auto|]. split; auto.
          split; [unfold k; destruct keep1; auto|]. split; [unfold d; destruct keep1; auto|].
          unfold k, d. destruct keep1 eqn:K1; unfold keep1 in K1.
          -- intros _. rewrite C5 in K1. cbn in K1. apply andb_true_iff in K1 as [K1 _]. apply mem_in; auto.
          -- intros Ib. apply mem_in in Ib. rewrite Ib in K1. apply orb_false_iff in K1 as [_ K1].
             cbn in K1. apply negb_false_iff in K1. apply mem_in; auto.
      + intros i x y Li Hi S Cx Cy. rewrite !Ends. destruct (Nat.eq_dec i done) as [->|Ni].
        * rewrite Hk in Hi; inversion Hi; subst x y. left. right. unfold k, d; destruct keep1; auto.
        * destruct (Max i x y ltac:(lia) Hi S Cx Cy); auto.
      + rewrite upd_length; auto.
      + rewrite !upd_length; auto.
      + rewrite upd_length; auto.
      + intros i v Hv. destruct (Nat.eq_dec i done) as [->|Ni].
        * rewrite upd_same in Hv by lia. inversion Hv; subst v. left. split; auto. exists k, d.
          rewrite in_app_iff, KD. cbn; auto.
        * rewrite upd_other in Hv by auto. destruct (Em i v Hv) as [(-> & k' & d' & I & Hi)|(-> & N)].
          -- left; split; auto. exists k', d'. rewrite in_app_iff; auto.
          -- right; split; auto. intros (k' & d' & I & Hi). apply in_app_iff in I as [I|[I|[]]].
             ++ apply N; eauto.
             ++ assert (k' = k /\ d' = d) as [-> ->] by (inversion I; auto). rewrite KD in Hi.
                apply Ni. apply (proj1 (NoDup_nth_error keys) Knd i done); [eapply nth_error_lt; eauto|congruence].
      + intros n v Hv. rewrite Ends, Rem.
        destruct (Nat.eq_dec n d) as [->|N1].
        * rewrite upd_same in Hv by (rewrite upd_length; lia). inversion Hv. left; auto.
        * rewrite upd_other in Hv by auto. destruct (Nat.eq_dec n k) as [->|N2].
          -- rewrite upd_same in Hv by lia. inversion Hv. right; left. split; auto. exists d.
             rewrite in_app_iff; cbn; auto.
          -- rewrite upd_other in Hv by auto. destruct (Nm n v Hv) as [[-> R]|[(-> & x & Ix)|[-> R]]]; auto.
             ++ right; left; split; auto. exists x. rewrite in_app_iff; auto.
             ++ right; right; split; auto. tauto.
      + intros n v Hv. destruct (Nat.eq_dec n d) as [->|N1].
        * rewrite upd_same in Hv by lia. left. assert (v = k) as -> by congruence. rewrite in_app_iff; cbn; auto.
        * rewrite upd_other in Hv by auto. destruct (Col n v Hv) as [I|[-> R]].
          -- left. rewrite in_app_iff; auto.
          -- right; split; auto. rewrite Rem. intros [?|?]; auto.
      + split; [discriminate|]. intros X. apply app_eq_nil in X as [_ X]. discriminate.
    - exists em, nm, col, clean, pairs. split; [reflexivity|]. constructor; auto.
      + intros k d I. destruct (Chosen _ _ I) as (i & Li & R). exists i. split; [lia|auto].
      + intros i x y Li Hi S Cx Cy. destruct (Nat.eq_dec i done) as [->|Ni]; [|apply (Max i); auto; lia].
        rewrite Hk in Hi; inversion Hi; subst x y. apply Shd in S. rewrite S in C. cbn [andb] in C.
        assert (mem a corner || mem b corner = false) as X.
        { apply orb_false_iff. split; [destruct (mem a corner) eqn:M|destruct (mem b corner) eqn:M]; auto;
            apply mem_in in M; contradiction. }
        rewrite X in C. cbn [negb] in C. rewrite andb_true_r in C.
        apply andb_false_iff in C as [C|C]; apply Nat.eqb_neq in C.
        * left. destruct (Nm _ _ Hk0) as [[_ (x & Ix)]|[(_ & x & Ix)|[? _]]]; [| |congruence]; apply ends_in; eauto.
        * right. destruct (Nm _ _ Hk1) as [[_ (x & Ix)]|[(_ & x & Ix)|[? _]]]; [| |congruence]; apply ends_in; eauto.
  Qed.

  Lemma flag_ok : exists em nm col clean pairs,
    mfold (flag_edge tol keys lens maxs border corner) (seq 0 (length keys))
      (repeat 1 (length keys), repeat 1 nn, seq 0 nn, true) = Ok (em, nm, col, clean) /\
    FInv (length keys) pairs em nm col clean.
  Proof.
    destruct (mfold_inv (flag_edge tol keys lens maxs border corner)
      (fun l s => exists pairs, let '(em, nm, col, clean) := s in FInv (length l) pairs em nm col clean)
      (seq 0 (length keys)) (repeat 1 (length keys), repeat 1 nn, seq 0 nn, true)) as ([[[em nm] col] clean] & E & pairs & I).
    - exists []. constructor; cbn.
      + constructor.
      + intros k d [].
      + intros; lia.
      + apply repeat_length.
      + apply repeat_length.
      + apply seq_length.
      + intros i v Hv. apply nth_error_In, repeat_spec in Hv. right. split; auto. intros (k & d & [] & _).
      + intros n v Hv. apply nth_error_In, repeat_spec in Hv. auto.
      + intros n v Hv. right. split; [|intros (k & [])]. pose proof (nth_error_lt _ _ _ Hv) as L. rewrite seq_length in L.
        rewrite (nth_error_nth' _ 0), seq_nth in Hv by (rewrite ?seq_length; auto). inversion Hv; auto.
      + tauto.
    - intros l1 i l2 [[[em nm] col] clean] El (pairs & I).
      assert (Li : i = length l1 /\ length l1 < length keys).
      { assert (H : nth_error (seq 0 (length keys)) (length l1) = Some i).
        { rewrite El, nth_error_app2, Nat.sub_diag by auto. reflexivity. }
        pose proof (nth_error_lt _ _ _ H) as L. rewrite seq_length in L.
        rewrite (nth_error_nth' _ 0), seq_nth in H by (rewrite ?seq_length; auto). inversion H; auto. }
      destruct Li as [-> Ll]. destruct (flag_edge_ok _ _ _ _ _ _ I Ll) as (em' & nm' & col' & clean' & pairs' & -> & I').
      eexists; split; [reflexivity|]. exists pairs'. rewrite app_length, Nat.add_1_r. exact I'.
    - rewrite seq_length in I. exists em, nm, col, clean, pairs. auto.
  Qed.
End Flag.
