(* Proofs about computeSortedFaceEdges *)
From Verif Require Import Base BaseFacts KeyMapModel FaceSortModel FaceSortSpec FaceSortProofs.
From Coq Require Import Sorted Permutation.

Lemma natlt_irr a : Nat.ltb a a = false. Proof. apply Nat.ltb_irrefl. Qed.
Lemma natlt_tra a b c : Nat.ltb a b = true -> Nat.ltb b c = true -> Nat.ltb a c = true.
Proof. rewrite !Nat.ltb_lt; lia. Qed.
Lemma natlt_tot a b : Nat.ltb a b = false -> Nat.ltb b a = false -> a = b.
Proof. rewrite !Nat.ltb_ge; lia. Qed.

Section Edges.
  Context (edges : list (Z * Z)).
  Notation ends := (edge_at edges).

  Fixpoint droute (a : Z) (rs : list Z) (ns : list Z) : Prop :=
    match rs, ns with
    | [], [] => True
    | z :: rs, b :: ns => start_of edges z = a /\ end_of edges z = b /\ droute b rs ns
    | _, _ => False
    end.

  Lemma orient_route es : forall a ns, route ends a es ns ->
    exists rs, orient edges a es = Ok rs /\ droute a rs ns /\ map pid rs = es.
  Proof.
    induction es as [|e es IH]; intros a [|b ns]; cbn [route]; try tauto.
    - intros _. exists []. cbn. auto.
    - intros [J R]. destruct (IH b ns R) as (rs & E & Dr & M). cbn [orient].
      assert (Nx := joins_next ends e a b J).
      destruct (Z.eqb_spec (fst (ends e)) a) as [F|F].
      + cbn [orb assert bind]. rewrite Nx, E. cbn [bind]. eexists; split; [reflexivity|].
        cbn [droute map]. rewrite pid_of_nat, M. split; [|auto].
        unfold start_of, end_of. replace (0 <=? Z.of_nat e)%Z with true by lia.
        rewrite pid_of_nat. auto.
      + assert (S : snd (ends e) = a).
        { destruct J as [J|J]; rewrite J in *; cbn in *; congruence. }
        rewrite S, Z.eqb_refl. cbn [orb assert bind]. rewrite Nx, E. cbn [bind].
        eexists; split; [reflexivity|]. cbn [droute map]. rewrite pid_lnot_of_nat, M. split; [|auto].
        unfold start_of, end_of. replace (0 <=? Z.lnot (Z.of_nat e))%Z with false by (unfold Z.lnot; lia).
        rewrite pid_lnot_of_nat. auto.
  Qed.

  Lemma droute_nth rs : forall a ns i z, droute a rs ns -> nth_error rs i = Some z ->
    nth_error (a :: ns) i = Some (start_of edges z) /\ nth_error ns i = Some (end_of edges z).
  Proof.
    induction rs as [|z0 rs IH]; intros a [|b ns] i z; cbn [droute]; try tauto;
      intros D H; destruct i as [|i]; cbn in H; try discriminate.
    - inversion H; subst. destruct D as (S & En & _). cbn. split; congruence.
    - destruct D as (_ & _ & D). apply (IH _ _ _ _ D) in H. exact H.
  Qed.
  Lemma droute_length rs : forall a ns, droute a rs ns -> length rs = length ns.
  Proof.
    induction rs as [|z rs IH]; intros a [|b ns]; cbn; try tauto.
    intros (_ & _ & D). erewrite IH; eauto.
  Qed.
  Lemma nth_error_last {A} (l : list A) a : l <> [] -> nth_error l (length l - 1) = Some (last l a).
  Proof.
    revert a; induction l as [|b l IH]; intros a H; [congruence|]. rewrite last_cons.
    destruct l as [|c l]; [reflexivity|]. specialize (IH b ltac:(discriminate)).
    cbn [length] in *. replace (S (S (length l)) - 1) with (S (S (length l) - 1)) by lia. exact IH.
  Qed.
  Lemma droute_chain a rs ns i z z' : droute a rs ns -> last ns a = a ->
    nth_error rs i = Some z -> nth_error rs ((i + 1) mod length rs) = Some z' ->
    end_of edges z = start_of edges z'.
  Proof.
    intros D C Hi Hj. pose proof (droute_length _ _ _ D) as L.
    pose proof (nth_error_lt _ _ _ Hi) as Li.
    destruct (droute_nth _ _ _ _ _ D Hi) as [_ Ei].
    destruct (droute_nth _ _ _ _ _ D Hj) as [Sj _].
    destruct (Nat.eq_dec (i + 1) (length rs)) as [e|n].
    - rewrite e, Nat.mod_same in Sj by lia. cbn in Sj.
      assert (nth_error ns (length ns - 1) = Some (last ns a)) as Hl.
      { apply nth_error_last. destruct ns; cbn in L; [lia|discriminate]. }
      replace (length ns - 1) with i in Hl by lia. congruence.
    - rewrite Nat.mod_small in Sj by lia. replace (i + 1) with (S i) in Sj by lia. cbn in Sj. congruence.
  Qed.

  Lemma sedge_ends z : fst (sedge edges z) = start_of edges z /\ snd (sedge edges z) = end_of edges z.
  Proof. unfold sedge, start_of, end_of, edge_at. destruct (0 <=? z)%Z; auto. Qed.

  (* the contract at the end of the routine *)
  Definition post (rs : list Z) : res unit :=
    mfold (fun _ i =>
      do ii <- get rs i;
      do jj <- get rs ((i + 1) mod length edges);
      do _ <- assert (pid ii <? length edges);
      do _ <- assert (pid jj <? length edges);
      assert (end_of edges ii =? start_of edges jj)%Z) (seq 0 (length edges)) tt.

  Lemma post_ok a rs ns : droute a rs ns -> last ns a = a -> length rs = length edges ->
    (forall i, In i (map pid rs) -> i < length edges) -> post rs = Ok tt.
  Proof.
    intros D C L Hr. unfold post.
    destruct (mfold_seq (fun (_ : unit) i =>
      do ii <- get rs i;
      do jj <- get rs ((i + 1) mod length edges);
      do _ <- assert (pid ii <? length edges);
      do _ <- assert (pid jj <? length edges);
      assert (end_of edges ii =? start_of edges jj)%Z) (fun _ _ => True) (length edges) tt)
      as ([] & E & _); auto.
    intros k [] Hk _. exists tt. split; auto.
    destruct (nth_error_ex rs k) as [z Hz]; [lia|].
    assert (M : (k + 1) mod length edges < length edges) by (apply Nat.mod_upper_bound; lia).
    destruct (nth_error_ex rs ((k + 1) mod length edges)) as [z' Hz']; [lia|].
    rewrite (proj2 (get_ok _ _ _) Hz), (proj2 (get_ok _ _ _) Hz'). cbn [bind].
    rewrite !(proj2 (Nat.ltb_lt _ _)); cbn [assert bind];
      try (apply Hr, in_map; eapply nth_error_In; eauto).
    rewrite (droute_chain a rs ns k z z'); auto; [|rewrite L; auto]. rewrite Z.eqb_refl. reflexivity.
  Qed.

  (* the hanging-node loop, lines 197-208 *)
  Definition hit (i : nat) : bool :=
    (use_count edges (fst (ends i)) =? 1) || (use_count edges (snd (ends i)) =? 1).
  Definition hang (i : nat) : Z :=
    if use_count edges (fst (ends i)) =? 1 then fst (ends i) else snd (ends i).
  Definition hloop : list nat * n2e * list Z -> nat -> res (list nat * n2e * list Z) :=
    fun '(result, m, hanging) i =>
      let '(a, b) := edge_at edges i in
      if (use_count edges a =? 1) || (use_count edges b =? 1) then
        do _ <- assert (((use_count edges a =? 1) && (use_count edges b =? 2))
                     || ((use_count edges a =? 2) && (use_count edges b =? 1)));
        Ok (result ++ [i], del_edge Nat.ltb (edge_at edges) m i,
            hanging ++ [if use_count edges a =? 1 then a else b])
      else Ok (result, m, hanging).

  Lemma hloop_ok l : forall r m h,
    (forall i, In i l -> hit i = true ->
      ((use_count edges (fst (ends i)) =? 1) && (use_count edges (snd (ends i)) =? 2)) ||
      ((use_count edges (fst (ends i)) =? 2) && (use_count edges (snd (ends i)) =? 1)) = true) ->
    mfold hloop l (r, m, h) =
      Ok (r ++ filter hit l, fold_left (del_edge Nat.ltb ends) (filter hit l) m, h ++ map hang (filter hit l)).
  Proof.
    induction l as [|i l IH]; intros r m h H.
    - cbn. rewrite !app_nil_r. reflexivity.
    - cbn [mfold filter]. pose proof (H i (or_introl eq_refl)) as Hi.
      unfold hloop at 1. destruct (ends i) as [a b] eqn:E.
      assert (Eh : hit i = (use_count edges a =? 1) || (use_count edges b =? 1)) by (unfold hit; rewrite E; reflexivity).
      rewrite <- Eh. cbn [fst snd] in Hi. destruct (hit i) eqn:Hh.
      + rewrite Hi by auto. cbn [assert bind fold_left map].
        rewrite IH by (intros; apply H; [right|]; auto).
        rewrite <- !app_assoc. cbn [app]. unfold hang at 2. rewrite E. reflexivity.
      + cbn [bind]. apply IH. intros; apply H; [right|]; auto.
  Qed.
End Edges.

Lemma perm_ends es edges : Permutation es (seq 0 (length edges)) ->
  Permutation (map (edge_at edges) es) edges.
Proof.
  intros P. rewrite (Permutation_map _ P).
  replace (map (edge_at edges) (seq 0 (length edges))) with edges; [reflexivity|].
  symmetry. apply map_nth_seq.
Qed.

Lemma closed_ok edges : ClosedFace edges -> 3 <= length edges ->
  exists rs, computeSortedFaceEdges edges = Ok (false, edges, rs) /\
    Permutation (map pid rs) (seq 0 (length edges)) /\ head_to_tail edges rs.
Proof.
  intros (es & P & Cy) L3.
  assert (Ien : In 0 es). { rewrite P. apply in_seq. lia. }
  destruct (cycle_from (edge_at edges) es 0 Cy Ien) as (t & ns & Pt & R & C & N).
  set (v0 := fst (edge_at edges 0)) in *. set (v1 := snd (edge_at edges 0)) in *.
  assert (P0 : Permutation (0 :: t) (seq 0 (length edges))) by (rewrite <- Pt; auto).
  assert (ND : NoDup (0 :: t)). { rewrite P0. apply seq_NoDup. }
  assert (Lt : length (0 :: t) = length edges). { rewrite P0. apply seq_length. }
  assert (J0 : joins (edge_at edges) 0 v0 v1) by (left; unfold v0, v1; destruct (edge_at edges 0); auto).
  assert (RF : route (edge_at edges) v0 (0 :: t) (v1 :: ns)) by (cbn; auto).
  assert (CF : last (v1 :: ns) v0 = v0) by (rewrite last_cons; auto).
  assert (Use : forall k, use_count edges k <> 1).
  { intros k. rewrite (use_cycle (edge_at edges) (0 :: t) edges v0 (v1 :: ns) k); auto.
    - destruct (in_dec _ _ _); lia.
    - apply perm_ends; auto. }
  unfold computeSortedFaceEdges.
  rewrite (proj2 (Nat.leb_le 2 (length edges))) by lia. cbn [assert bind].
  set (m0 := fold_left _ _ _).
  fold (hloop edges). rewrite (hloop_ok edges).
  2:{ intros i _ Hh. unfold hit in Hh. apply orb_true_iff in Hh as [Hh|Hh]; apply Nat.eqb_eq in Hh;
      exfalso; eapply Use; eauto. }
  assert (filter (hit edges) (seq 0 (length edges)) = []) as ->.
  { clear - Use. induction (seq 0 (length edges)) as [|i l IH]; cbn; auto.
    unfold hit at 1. rewrite !(proj2 (Nat.eqb_neq _ 1)) by apply Use. exact IH. }
  cbn [app fold_left map bind length Nat.eqb orb assert].
  pose proof (build_inv Nat.ltb (edge_at edges) natlt_tra natlt_tot (seq 0 (length edges))) as I0.
  fold m0 in I0. fold v0.
  assert (W : walk Nat.ltb (edge_at edges) (length edges - 0) m0 v0 [] = Ok (0 :: t)).
  { rewrite Nat.sub_0_r. rewrite <- Lt at 1. cbn [length].
    rewrite (walk_step Nat.ltb (edge_at edges) natlt_irr natlt_tra natlt_tot _ m0 _ v0 [] 0 v1 I0); auto.
    2:{ apply in_seq; lia. }
    2:{ intros x _ _. destruct x; [left; auto|right; reflexivity]. }
    rewrite (walk_nice Nat.ltb (edge_at edges) natlt_irr natlt_tra natlt_tot t v1 _
             (fun x => In x (seq 0 (length edges)) /\ x <> 0)).
    - reflexivity.
    - apply del_inv; auto using natlt_irr, natlt_tot.
    - intros x. rewrite <- P0. apply NoDup_cons_iff in ND as [N0 _]. cbn. split.
      + intros [[<-|I] Hx]; [congruence|auto].
      + intros I. split; [right; auto|]. intros ->; contradiction.
    - eapply route_nice; eauto.
    - inversion ND; auto. }
  rewrite W.
  cbn [app bind]. destruct t as [|e1 t]; [cbn in Lt; lia|].
  destruct ns as [|v2 ns]; [cbn in R; destruct R|].
  cbn [get nth_error bind tl].
  (* line 249 *)
  assert (First : (fst (edge_at edges 0) =? fst (edge_at edges e1))%Z = false).
  { apply Z.eqb_neq. intros X. destruct R as [J1 R].
    assert (inc (edge_at edges) e1 v0) as Hi by (left; unfold v0; auto).
    apply (joins_inc _ _ _ _ _ J1) in Hi. inversion N; subst. inversion H2; subst.
    rewrite last_cons in C.
    destruct Hi as [Hi|Hi].
    - apply H1. rewrite <- Hi, <- C. apply last_in.
    - rewrite Hi in C. destruct ns as [|v3 ns]; [destruct t; [cbn in Lt; lia|destruct R]|].
      rewrite last_cons in C. apply H3. rewrite <- C at 1. apply last_in. }
  rewrite First. fold v1.
  destruct (orient_route edges (e1 :: t) v1 (v2 :: ns) R) as (rs & E & Dr & M).
  rewrite E. cbn [bind].
  assert (DF : droute edges v0 (Z.of_nat 0 :: rs) (v1 :: v2 :: ns)).
  { cbn [droute]. split; [reflexivity|]. split; [reflexivity|auto]. }
  assert (Lr : length (Z.of_nat 0 :: rs) = length edges).
  { rewrite <- Lt. apply (f_equal (@length nat)) in M. rewrite map_length in M. cbn [length] in *. lia. }
  cbn [length] in *. rewrite Lr, Nat.eqb_refl. cbn [assert bind].
  assert (MP : map pid (Z.of_nat 0 :: rs) = 0 :: e1 :: t) by (cbn [map]; rewrite M; reflexivity).
  fold (post edges (Z.of_nat 0 :: rs)).
  rewrite (post_ok edges v0 (Z.of_nat 0 :: rs) (v1 :: v2 :: ns)); auto.
  2:{ intros i. rewrite MP, P0, in_seq. lia. }
  cbn [bind negb]. exists (Z.of_nat 0 :: rs). split; auto. split; [rewrite MP; auto|].
  intros i z z' Hi Hj. rewrite (proj2 (sedge_ends edges z)), (proj1 (sedge_ends edges z')).
  eapply (droute_chain edges v0); eauto.
Qed.
