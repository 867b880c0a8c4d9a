(* Proofs about computeSortedFaceNodes *)
From Verif Require Import Base BaseFacts StdAlg KeyMapModel FaceSortModel FaceSortSpec FaceSortProofs FaceSortProofs2 FaceSortProofs3.
From Coq Require Import Sorted Permutation.

Notation idE := (fun e : Z * Z => e).

Lemma edge_lt_spec a b : edge_lt a b = true <-> (fst a < fst b)%Z \/ fst a = fst b /\ (snd a < snd b)%Z.
Proof. unfold edge_lt. lia. Qed.
Lemma edge_irr a : edge_lt a a = false.
Proof. apply not_true_is_false. rewrite edge_lt_spec. lia. Qed.
Lemma edge_tra a b c : edge_lt a b = true -> edge_lt b c = true -> edge_lt a c = true.
Proof. rewrite !edge_lt_spec. lia. Qed.
Lemma edge_tot a b : edge_lt a b = false -> edge_lt b a = false -> a = b.
Proof.
  intros H1 H2. assert (~ edge_lt a b = true) as N1 by congruence. assert (~ edge_lt b a = true) as N2 by congruence.
  rewrite edge_lt_spec in N1, N2. destruct a, b; cbn in *. f_equal; lia.
Qed.

Lemma cycle_from_node es e v : cycle idE es -> In e es -> inc idE e v ->
  exists b t ns, Permutation es (e :: t) /\ joins idE e v b /\ route idE b t ns /\
    last ns b = v /\ NoDup (b :: ns).
Proof.
  intros Cy Ie Hv. destruct (cycle_from idE es e Cy Ie) as (t & ns & P & R & L & N).
  destruct e as [x y]; cbn [fst snd] in *. destruct Hv as [<-|<-]; cbn [fst snd] in *.
  - exists y, t, ns. repeat split; auto. left; auto.
  - exists x, (rev t), (rev (removelast (y :: ns))). split.
    { rewrite P. constructor. apply Permutation_rev. }
    split; [right; auto|]. apply route_rev in R. rewrite L in R. split; auto. split.
    { rewrite <- L. apply last_rev_removelast. }
    eapply Permutation_NoDup; [|exact N].
    etransitivity; [apply (removelast_perm ns y)|]. rewrite L.
    etransitivity; [apply Permutation_app_comm|]. constructor. apply Permutation_rev.
Qed.

(* the node shared by two consecutive edges *)
Definition shared_node (ordered : list (Z * Z)) (n i : nat) : res Z :=
  do ei <- get ordered i;
  do ej <- get ordered ((i + 1) mod n);
  do _ <- assert ((fst ei =? fst ej)%Z || (fst ei =? snd ej)%Z
               || (snd ei =? fst ej)%Z || (snd ei =? snd ej)%Z);
  Ok (if (fst ei =? fst ej)%Z || (fst ei =? snd ej)%Z then fst ei else snd ei).

Lemma shared_ok ordered n i ei ej x y z :
  nth_error ordered i = Some ei -> nth_error ordered ((i + 1) mod n) = Some ej ->
  joins idE ei x y -> joins idE ej y z -> x <> y -> x <> z -> shared_node ordered n i = Ok y.
Proof.
  intros H1 H2 J1 J2 N1 N2. unfold shared_node.
  rewrite (proj2 (get_ok _ _ _) H1), (proj2 (get_ok _ _ _) H2). cbn [bind].
  assert (((fst ei =? fst ej)%Z || (fst ei =? snd ej)%Z
               || (snd ei =? fst ej)%Z || (snd ei =? snd ej)%Z) = true) as ->.
  { destruct J1 as [->| ->], J2 as [->| ->]; cbn; rewrite Z.eqb_refl, ?orb_true_r; reflexivity. }
  cbn [assert bind]. f_equal.
  destruct J1 as [->| ->], J2 as [->| ->]; cbn; rewrite ?Z.eqb_refl, ?orb_true_r; auto;
    destruct (Z.eqb_spec x y), (Z.eqb_spec x z); cbn; congruence.
Qed.

Lemma route_nth {E} (ends : E -> Z * Z) es : forall a ns i e, route ends a es ns -> nth_error es i = Some e ->
  exists x y, nth_error (a :: ns) i = Some x /\ nth_error ns i = Some y /\ joins ends e x y.
Proof.
  induction es as [|e0 es IH]; intros a [|b ns] i e; cbn [route]; try tauto; intros R H;
    destruct i as [|i]; cbn in H; try discriminate.
  - inversion H; subst. destruct R as [J _]. exists a, b. cbn. auto.
  - destruct R as [_ R]. exact (IH b ns i e R H).
Qed.

Lemma mmap_nth {A B} (f : A -> res B) l bs :
  length l = length bs -> (forall i a, nth_error l i = Some a -> exists b, nth_error bs i = Some b /\ f a = Ok b) ->
  mmap f l = Ok bs.
Proof.
  revert bs; induction l as [|a l IH]; intros [|b bs] L H; cbn in L; try lia; [reflexivity|].
  cbn [mmap]. destruct (H 0 a eq_refl) as (b' & E & F). inversion E; subst b'. rewrite F. cbn [bind].
  rewrite (IH bs); [reflexivity|lia|]. intros i x Hi. exact (H (S i) x Hi).
Qed.
Lemma nth_error_seq s n i : i < n -> nth_error (seq s n) i = Some (s + i).
Proof.
  revert s i; induction n as [|n IH]; intros s [|i] H; cbn; try lia; [f_equal; lia|].
  rewrite IH by lia. f_equal; lia.
Qed.
Lemma nodup_nth_neq (l : list Z) i j x y : NoDup l -> nth_error l i = Some x -> nth_error l j = Some y ->
  i <> j -> x <> y.
Proof.
  intros N Hi Hj D ->. apply D. eapply NoDup_nth_error; eauto; [eapply nth_error_lt; eauto|congruence].
Qed.

(* the hanging loop *)
Definition nhit (edges : list (Z * Z)) (e : Z * Z) : bool :=
  ((use_count edges (fst e) =? 1) && (use_count edges (snd e) =? 2))
  || ((use_count edges (fst e) =? 2) && (use_count edges (snd e) =? 1)).
Definition nloop (edges : list (Z * Z)) : list (Z * Z) * n2e * bool -> Z * Z -> res (list (Z * Z) * n2e * bool) :=
  fun '(ordered, m, hang) e =>
    let '(a, b) := e in
    if ((use_count edges a =? 1) && (use_count edges b =? 2))
    || ((use_count edges a =? 2) && (use_count edges b =? 1)) then
      Ok (ordered ++ [e], del_edge edge_lt idE m e, true)
    else Ok (ordered, m, hang).
Lemma nloop_ok edges l : forall o m h,
  mfold (nloop edges) l (o, m, h) =
    Ok (o ++ filter (nhit edges) l, fold_left (del_edge edge_lt idE) (filter (nhit edges) l) m,
        h || negb (length (filter (nhit edges) l) =? 0)).
Proof.
  induction l as [|e l IH]; intros o m h.
  - cbn. rewrite app_nil_r, orb_false_r. reflexivity.
  - cbn [mfold filter]. unfold nloop at 1. destruct e as [a b].
    change (((use_count edges a =? 1) && (use_count edges b =? 2))
         || ((use_count edges a =? 2) && (use_count edges b =? 1))) with (nhit edges (a, b)).
    destruct (nhit edges (a, b)) eqn:H; cbn [bind fold_left]; rewrite IH.
    + rewrite <- app_assoc. cbn [length Nat.eqb negb]. rewrite orb_true_r. reflexivity.
    + reflexivity.
Qed.

Definition covers (edges : list (Z * Z)) (r : list Z) : Prop :=
  NoDup r /\ (forall k, In k r <-> exists e, In e edges /\ (fst e = k \/ snd e = k)).

Lemma route_nodes {E} (ends : E -> Z * Z) es a ns k : route ends a es ns -> es <> [] ->
  (In k (a :: ns) <-> exists e, In e es /\ inc ends e k).
Proof.
  intros R Ne. split.
  - revert a ns R. induction es as [|e es IH]; [congruence|]. intros a [|b ns] R; [destruct R|]. destruct R as [J R].
    intros [->|I].
    + exists e. split; [left; auto|]. apply (joins_inc _ _ _ _ _ J); auto.
    + destruct es as [|e1 es].
      * destruct ns; [|destruct R]. destruct I as [->|[]]. exists e. split; [left; auto|].
        apply (joins_inc _ _ _ _ _ J); auto.
      * destruct (IH ltac:(discriminate) b ns R I) as (x & Ix & Hx). exists x; split; auto. right; auto.
  - intros (e & Ie & Hk). eapply route_inc; eauto.
Qed.

(* for a sorted edge list the walk starts along the first edge *)
Lemma nodes_closed_from edges : (exists es, Permutation es edges /\ cycle idE es) -> 3 <= length edges ->
  exists r, computeSortedFaceNodes edges = Ok r /\ covers edges r /\
    (forall i x y, nth_error r i = Some x -> nth_error r ((i + 1) mod length r) = Some y ->
      exists e, In e edges /\ joins idE e x y) /\ length r = length edges /\
    (forall e0 t, edges = e0 :: t -> StronglySorted (fun a b => edge_lt a b = true) edges ->
      nth_error r 0 = Some (snd e0) /\ nth_error r (length r - 1) = Some (fst e0)).
Proof.
  intros (es & P & Cy) L3.
  destruct edges as [|e0 edges0] eqn:Ee; [cbn in L3; lia|]. rewrite <- Ee in *.
  set (v := fst e0).
  pose proof (build_inv edge_lt idE edge_tra edge_tot edges) as I0.
  set (m0 := fold_left (add_edge edge_lt idE) edges []) in *.
  destruct (I0 v) as [Sv Hv].
  assert (I00 : In e0 (at_node m0 v)).
  { apply Hv. split; [rewrite Ee; left; auto|]. left; reflexivity. }
  destruct (at_node m0 v) as [|e s] eqn:A; [destruct I00|].
  destruct (proj1 (Hv e) (or_introl eq_refl)) as [Ie He].
  destruct (cycle_from_node es e v Cy) as (b & t & ns & Pt & J & R & C & N); auto.
  { rewrite P; auto. }
  assert (PF : Permutation (e :: t) edges) by (rewrite <- Pt; auto).
  assert (RF : route idE v (e :: t) (b :: ns)) by (cbn; auto).
  assert (CF : last (b :: ns) v = v) by (rewrite last_cons; auto).
  assert (Lt : length (e :: t) = length edges) by (rewrite PF; auto).
  assert (Ln : length (b :: ns) = length edges) by (rewrite <- Lt; symmetry; eapply route_length; eauto).
  assert (ND : NoDup (e :: t)). { eapply cycle_nodup; eauto; lia. }
  assert (Use : forall k, use_count edges k <> 1).
  { intros k. rewrite (use_cycle idE (e :: t) edges v (b :: ns) k); auto.
    - destruct (in_dec _ _ _); lia.
    - rewrite map_id; auto. }
  unfold computeSortedFaceNodes.
  rewrite (proj2 (Nat.ltb_lt 1 (length edges))) by lia. fold m0.
  fold (nloop edges). rewrite (nloop_ok edges).
  assert (filter (nhit edges) edges = []) as ->.
  { clear - Use. set (l := edges) at 2. induction l as [|i l IH]; cbn; auto.
    unfold nhit at 1. rewrite !(proj2 (Nat.eqb_neq _ 1)) by apply Use.
    rewrite andb_false_r. exact IH. }
  cbn [app fold_left bind length Nat.eqb orb assert negb].
  assert (get edges 0 = Ok e0) as -> by (rewrite Ee; reflexivity). cbn [bind]. fold v.
  assert (W : walk edge_lt idE (length edges - 0) m0 v [] = Ok (e :: t)).
  { rewrite Nat.sub_0_r. rewrite <- Lt at 1. cbn [length].
    rewrite (walk_step edge_lt idE edge_irr edge_tra edge_tot _ m0 _ v [] e b I0); auto.
    2:{ intros x Lx Hx. assert (Ix : In x (e :: s)) by (apply Hv; auto).
        destruct Ix as [->|Ix]; auto. right. inversion Sv; subst. rewrite Forall_forall in H2. auto. }
    rewrite (walk_nice edge_lt idE edge_irr edge_tra edge_tot t b _ (fun x => In x edges /\ x <> e)).
    - reflexivity.
    - apply del_inv; auto using edge_irr, edge_tot.
    - intros x. rewrite <- PF. apply NoDup_cons_iff in ND as [N0 _]. cbn. split.
      + intros [[<-|I] Hx]; [congruence|auto].
      + intros I. split; [right; auto|]. intros ->; contradiction.
    - eapply route_nice; eauto.
    - inversion ND; auto. }
  rewrite W. cbn [bind]. rewrite Nat.sub_0_r.
  fold (shared_node (e :: t) (length edges)).
  assert (M : mmap (shared_node (e :: t) (length edges)) (seq 0 (length edges)) = Ok (b :: ns)).
  { apply mmap_nth; [rewrite seq_length; auto|]. intros i k Hk.
    pose proof (nth_error_lt _ _ _ Hk) as Li. rewrite seq_length in Li.
    rewrite nth_error_seq in Hk by auto. inversion Hk; subst k. cbn [Nat.add].
    assert (Mj : (i + 1) mod length edges < length edges) by (apply Nat.mod_upper_bound; lia).
    destruct (nth_error_ex (e :: t) i) as [ei Hei]; [lia|].
    destruct (nth_error_ex (e :: t) ((i + 1) mod length edges)) as [ej Hej]; [lia|].
    destruct (route_nth idE _ _ _ _ _ RF Hei) as (x & y & Hx & Hy & Ji).
    destruct (route_nth idE _ _ _ _ _ RF Hej) as (y' & z & Hy' & Hz & Jj).
    (* x as a member of the node list *)
    assert (Hx' : nth_error (b :: ns) ((i + (length edges - 1)) mod length edges) = Some x).
    { destruct i as [|i].
      - cbn in Hx. inversion Hx; subst x. rewrite Nat.add_0_l, Nat.mod_small by lia.
        rewrite <- Ln. rewrite (nth_error_last (b :: ns) v) by discriminate. congruence.
      - replace (S i + (length edges - 1)) with (i + 1 * length edges) by lia.
        rewrite Nat.mod_add by lia. rewrite Nat.mod_small by lia. exact Hx. }
    assert (y' = y).
    { destruct (Nat.eq_dec (i + 1) (length edges)) as [q|q].
      - rewrite q, Nat.mod_same in Hy' by lia. cbn in Hy'. inversion Hy'; subst y'.
        replace i with (length (b :: ns) - 1) in Hy by lia.
        rewrite (nth_error_last (b :: ns) v) in Hy by discriminate. congruence.
      - rewrite Nat.mod_small in Hy' by lia. replace (i + 1) with (S i) in Hy' by lia.
        cbn in Hy', Hy. congruence. }
    subst y'. exists y. split; auto.
    assert (D1 : (i + (length edges - 1)) mod length edges <> i).
    { destruct i as [|i]; [rewrite Nat.add_0_l, Nat.mod_small by lia; lia|].
      replace (S i + (length edges - 1)) with (i + 1 * length edges) by lia.
      rewrite Nat.mod_add by lia. rewrite Nat.mod_small by lia. lia. }
    assert (D2 : (i + (length edges - 1)) mod length edges <> (i + 1) mod length edges).
    { destruct i as [|i].
      - rewrite Nat.add_0_l, !Nat.mod_small by lia; lia.
      - replace (S i + (length edges - 1)) with (i + 1 * length edges) by lia.
        rewrite Nat.mod_add by lia. rewrite Nat.mod_small by lia.
        destruct (Nat.eq_dec (S i + 1) (length edges)) as [q|q].
        + rewrite q, Nat.mod_same by lia. lia.
        + rewrite Nat.mod_small by lia. lia. }
    eapply (shared_ok _ _ _ ei ej x y z); eauto.
    - eapply nodup_nth_neq; [exact N|exact Hx'|exact Hy|auto].
    - eapply nodup_nth_neq; [exact N|exact Hx'|exact Hz|auto]. }
  rewrite M. cbn [bind app]. rewrite Ln, Nat.eqb_refl. cbn [negb andb orb assert bind].
  exists (b :: ns). split; auto. split; [split; auto|split; [|split; [auto|]]].
  - intros k. assert (X : In k (b :: ns) <-> In k (v :: b :: ns)).
    { split; [right; auto|]. intros [<-|I]; auto. rewrite <- CF, last_cons. apply last_in. }
    rewrite X, (route_nodes idE (e :: t) v (b :: ns) k RF) by discriminate.
    split; intros (x & Ix & Hx); exists x; (split; [|exact Hx]); [rewrite <- PF|rewrite PF]; auto.
  - intros i x y Hi Hj. rewrite Ln in Hj. pose proof (nth_error_lt _ _ _ Hi) as Li.
    destruct (nth_error_ex (e :: t) ((i + 1) mod length edges)) as [ej Hej].
    { rewrite Lt. apply Nat.mod_upper_bound; lia. }
    destruct (route_nth idE _ _ _ _ _ RF Hej) as (x' & y' & Hx' & Hy' & Jj).
    exists ej. split; [rewrite <- PF; eapply nth_error_In; eauto|].
    rewrite Hj in Hy'. inversion Hy'; subst y'.
    assert (x' = x); [|subst; auto].
    destruct (Nat.eq_dec (i + 1) (length edges)) as [q|q].
    + rewrite q, Nat.mod_same in Hx' by lia. cbn in Hx'.
      replace i with (length (b :: ns) - 1) in Hi by lia.
      rewrite (nth_error_last (b :: ns) v) in Hi by discriminate. congruence.
    + rewrite Nat.mod_small in Hx' by lia. replace (i + 1) with (S i) in Hx' by lia.
      cbn in Hx', Hi. congruence.
  - intros e0' t' Et St. rewrite Ee in Et. injection Et as <- <-.
    assert (Q : e = e0).
    { destruct I00 as [<-|I1]; auto. inversion Sv; subst. rewrite Forall_forall in H2. specialize (H2 _ I1).
      destruct Ie as [<-|Ie']; auto. inversion St; subst. rewrite Forall_forall in H4. specialize (H4 _ Ie').
      pose proof (edge_tra _ _ _ H2 H4) as X. rewrite edge_irr in X. discriminate. }
    split.
    + cbn. f_equal. destruct J as [J|J]; rewrite <- Q; unfold v in J; rewrite <- Q in J; cbn beta in J; destruct e; injection J; cbn; congruence.
    + rewrite (nth_error_last (b :: ns) v) by discriminate. f_equal. exact CF.
Qed.
Lemma nodes_closed edges : (exists es, Permutation es edges /\ cycle idE es) -> 3 <= length edges ->
  exists r, computeSortedFaceNodes edges = Ok r /\ covers edges r /\
    forall i x y, nth_error r i = Some x -> nth_error r ((i + 1) mod length r) = Some y ->
      exists e, In e edges /\ joins idE e x y.
Proof.
  intros H L. destruct (nodes_closed_from edges H L) as (r & E & C & A & _). exists r. auto.
Qed.
