(* cleanEdges: the edge tables, border, corners and maximal lengths *)
From Verif Require Import Base BaseFacts StdAlg Rank SerializeModel MeshModel MeshSpec MeshProofs
  KeyMapModel MeshEditorModel MeshEditorSpec MeshEditorProofs.
From Coq Require Import Sorted Permutation QArith Qminmax.
Local Open Scope nat_scope.

(* ------------------------------------------------------------ rationals *)
Lemma Qlt_bool_iff a b : Qlt_bool a b = true <-> (a < b)%Q.
Proof.
  unfold Qlt_bool. rewrite negb_true_iff. split; intros H.
  - apply Qnot_le_lt. intros X. apply Qle_bool_iff in X. congruence.
  - destruct (Qle_bool b a) eqn:E; auto. apply Qle_bool_iff in E. exfalso. eapply Qlt_not_le; eauto.
Qed.
Lemma Qlt_bool_not a b : Qlt_bool a b = false <-> (b <= a)%Q.
Proof.
  split; intros H.
  - apply Qnot_lt_le. intros X. apply Qlt_bool_iff in X. congruence.
  - destruct (Qlt_bool a b) eqn:E; auto. apply Qlt_bool_iff in E. exfalso. eapply Qlt_not_le; eauto.
Qed.
Lemma Qlt_bool_comp a b c d : (a == c)%Q -> (b == d)%Q -> Qlt_bool a b = Qlt_bool c d.
Proof.
  intros E1 E2. destruct (Qlt_bool c d) eqn:E.
  - apply Qlt_bool_iff in E. apply Qlt_bool_iff. rewrite E1, E2; auto.
  - apply Qlt_bool_not in E. apply Qlt_bool_not. rewrite E1, E2; auto.
Qed.
Lemma Qmax2_ge_l a b : (a <= Qmax2 a b)%Q.
Proof. unfold Qmax2. destruct (Qlt_bool a b) eqn:E; [apply Qlt_bool_iff in E; apply Qlt_le_weak; auto|apply Qle_refl]. Qed.
Lemma Qmax2_ge_r a b : (b <= Qmax2 a b)%Q.
Proof. unfold Qmax2. destruct (Qlt_bool a b) eqn:E; [apply Qle_refl|apply Qlt_bool_not in E; auto]. Qed.
Lemma Qmax2_or a b : Qmax2 a b = a \/ Qmax2 a b = b.
Proof. unfold Qmax2. destruct (Qlt_bool a b); auto. Qed.

Lemma vdot_comm a b : (vdot a b == vdot b a)%Q.
Proof. revert b; induction a as [|x a IH]; intros [|y b]; cbn; try reflexivity. rewrite IH. ring. Qed.
Lemma vdot_self_nonneg a : (0 <= vdot a a)%Q.
Proof.
  induction a as [|x a IH]; cbn; [apply Qle_refl|].
  apply (Qplus_le_compat 0 (x * x) 0 (vdot a a)); auto.
  destruct x as [n d]. unfold Qle, Qmult; cbn. nia.
Qed.
Lemma dist2_comm a b : (dist2 a b == dist2 b a)%Q.
Proof.
  unfold dist2. revert b; induction a as [|x a IH]; intros [|y b]; cbn; try reflexivity.
  rewrite IH. ring.
Qed.
Lemma dist2_nonneg a b : (0 <= dist2 a b)%Q.
Proof. apply vdot_self_nonneg. Qed.

Lemma collinear_comm a b c : collinear a b c = collinear a c b.
Proof.
  unfold collinear. rewrite orb_comm.
  destruct (Qlt_bool (vdot (vsub c a) (vsub c a)) ctol || Qlt_bool (vdot (vsub b a) (vsub b a)) ctol); auto.
  apply Qlt_bool_comp.
  - ring.
  - rewrite (vdot_comm (vsub b a)). reflexivity.
Qed.
Lemma collinear_same a b : collinear a b b = true.
Proof.
  unfold collinear. destruct (Qlt_bool (vdot (vsub b a) (vsub b a)) ctol) eqn:E; [reflexivity|].
  cbn [orb]. apply Qlt_bool_not in E. apply Qlt_bool_iff.
  set (x := vdot (vsub b a) (vsub b a)) in *.
  assert (P : (0 < x * x)%Q).
  { assert (0 < x)%Q. { eapply Qlt_le_trans; [|exact E]. reflexivity. }
    rewrite <- (Qmult_0_l x). apply Qmult_lt_r; auto. }
  assert (P1 : ((1 - ctol) * (1 - ctol) < 1)%Q) by reflexivity.
  apply (Qmult_lt_r _ _ (x * x) P) in P1. rewrite Qmult_1_l in P1. exact P1.
Qed.

(* ------------------------------------------------------------ edge keys *)
Lemma nedge_eq a b : keyeq nedge_lt a b = true <-> a = b.
Proof.
  destruct a as [a1 a2], b as [b1 b2]. unfold keyeq, nedge_lt; cbn [fst snd]. split; intros H.
  - destruct (Nat.ltb_spec a1 b1), (Nat.eqb_spec a1 b1), (Nat.ltb_spec a2 b2), (Nat.ltb_spec b1 a1),
      (Nat.eqb_spec b1 a1), (Nat.ltb_spec b2 a2); cbn in H; try discriminate; try lia; f_equal; lia.
  - inversion H; subst. rewrite !Nat.ltb_irrefl, !Nat.eqb_refl. reflexivity.
Qed.
Lemma edge_key_sym a b : edge_key a b = edge_key b a.
Proof. unfold edge_key. destruct (Nat.ltb_spec a b), (Nat.ltb_spec b a); auto; try lia. assert (a = b) by lia. subst; auto. Qed.
Lemma edge_key_eq a b c d : edge_key a b = edge_key c d <-> (a = c /\ b = d) \/ (a = d /\ b = c).
Proof.
  split.
  - unfold edge_key. destruct (Nat.ltb_spec a b), (Nat.ltb_spec c d); intros E; inversion E; subst; auto; lia.
  - intros [[-> ->]|[-> ->]]; [auto|apply edge_key_sym].
Qed.
Lemma edge_key_or a b : (edge_key a b = (a, b) \/ edge_key a b = (b, a)).
Proof. unfold edge_key. destruct (a <? b); auto. Qed.

Lemma NoDup_app_snoc {A} (l : list A) a : NoDup l -> ~ In a l -> NoDup (l ++ [a]).
Proof.
  intros N I. apply (Permutation_NoDup (l := a :: l)); [apply Permutation_cons_append|].
  constructor; auto.
Qed.

(* entry i of the map has id i, keys are distinct *)
Definition positional (m : keymap (K := nat * nat)) : Prop :=
  (forall i p, nth_error m i = Some p -> snd p = i) /\ NoDup (map fst m).

Lemma find_pos m k i : positional m -> (find nedge_lt k m = Some i <-> nth_error (map fst m) i = Some k).
Proof.
  intros [P N]. split.
  - intros F. assert (G : forall (l : keymap) o, (forall j p, nth_error l j = Some p -> snd p = o + j) ->
      forall i, find nedge_lt k l = Some i -> o <= i /\ nth_error (map fst l) (i - o) = Some k).
    { clear. induction l as [|[k' i'] l IH]; intros o P i F; cbn [find] in F; [discriminate|].
      pose proof (P 0 (k', i') eq_refl) as P0. cbn in P0.
      destruct (keyeq nedge_lt k k') eqn:E.
      - apply nedge_eq in E. inversion F; subst. split; [lia|]. replace (o + 0 - o) with 0 by lia. reflexivity.
      - destruct (IH (S o)) with (i := i) as [L H]; auto.
        { intros j p Hj. rewrite (P (S j) p) by auto. lia. }
        split; [lia|]. replace (i - o) with (S (i - S o)) by lia. exact H. }
    destruct (G m 0 ltac:(intros; cbn; auto) i F) as [_ H]. rewrite Nat.sub_0_r in H. auto.
  - revert N. assert (G : forall (l : keymap) o i, (forall j p, nth_error l j = Some p -> snd p = o + j) ->
      NoDup (map fst l) -> nth_error (map fst l) i = Some k -> find nedge_lt k l = Some (o + i)).
    { clear. induction l as [|[k' i'] l IH]; intros o [|i] P N H; cbn in H; try discriminate.
      - inversion H; subst. pose proof (P 0 _ eq_refl) as P0. cbn in P0. cbn [find].
        rewrite (proj2 (nedge_eq k k) eq_refl). f_equal. auto.
      - cbn [find]. apply NoDup_cons_iff in N as [N1 N2].
        destruct (keyeq nedge_lt k k') eqn:E.
        + apply nedge_eq in E. subst. exfalso. apply N1. eapply nth_error_In; eauto.
        + rewrite (IH (S o) i); auto; [f_equal; lia|].
          intros j p Hj. rewrite (P (S j) p) by auto. lia. }
    intros N H. rewrite (G m 0 i); auto.
Qed.
Lemma find_none_pos m k : positional m -> find nedge_lt k m = None -> ~ In k (map fst m).
Proof.
  intros P F I. apply In_nth_error in I as [i Hi]. apply (find_pos m k i P) in Hi. congruence.
Qed.

Lemma add_pos m k i m' : positional m -> addKeyToMap nedge_lt k m = (i, m') ->
  positional m' /\ nth_error (map fst m') i = Some k /\
  ((m' = m /\ i < length m) \/ (m' = m ++ [(k, length m)] /\ i = length m /\ ~ In k (map fst m))).
Proof.
  intros P E. unfold addKeyToMap in E. destruct (find nedge_lt k m) as [j|] eqn:F.
  - inversion E; subst. split; auto. apply (find_pos m' k i P) in F. split; auto. left; split; auto.
    apply nth_error_lt in F. rewrite map_length in F. auto.
  - inversion E; subst. pose proof (find_none_pos _ _ P F) as N. destruct P as [P Nd]. split; [split|].
    + intros i p H. destruct (Nat.lt_ge_cases i (length m)).
      * rewrite nth_error_app1 in H by auto. auto.
      * rewrite nth_error_app2 in H by auto. destruct (i - length m) as [|x] eqn:X; cbn in H.
        -- inversion H; subst; cbn. lia.
        -- destruct x; discriminate.
    + rewrite map_app. cbn. apply NoDup_app_snoc; auto.
    + split; [|right; auto]. rewrite map_app, nth_error_app2 by (rewrite map_length; auto).
      rewrite map_length, Nat.sub_diag. reflexivity.
Qed.

(* ------------------------------------------------------------ collect *)
Section Collect.
  Context (m : mesh Q).
  Hypothesis WF : WellFormed 2 m.
  Hypothesis PL : Planar m.
  Let nn := numNodes 2 m.

  Definition keys (st : estate) : list (nat * nat) := map fst (e2i st).

  Record EInv (st : estate) : Prop := {
    ei_pos : positional (e2i st);
    ei_len : length (elen st) = length (e2i st);
    ei_key : forall i a b, nth_error (keys st) i = Some (a, b) -> a <> b /\ a < nn /\ b < nn /\
        exists x, nth_error (elen st) i = Some x /\ (x == len2 m a b)%Q }.

  Definition ext (st st' : estate) : Prop := exists l, keys st' = keys st ++ l.
  Lemma ext_refl st : ext st st. Proof. exists []. rewrite app_nil_r; auto. Qed.
  Lemma ext_trans a b c : ext a b -> ext b c -> ext a c.
  Proof. intros [x E] [y F]. exists (x ++ y). rewrite F, E, app_assoc. auto. Qed.
  Lemma ext_nth st st' i k : ext st st' -> nth_error (keys st) i = Some k -> nth_error (keys st') i = Some k.
  Proof. intros [l E] H. rewrite E, nth_error_app1; auto. eapply nth_error_lt; eauto. Qed.

  Lemma coords_ok n : n < nn -> coords_at 2 (2 * n) (nodes m) = Ok (pos m n).
  Proof.
    intros L. apply (node_lt 2 m ltac:(lia) WF) in L. unfold coords_at.
    destruct (Nat.leb_spec (2 * n + 2) (length (nodes m))); [reflexivity|lia].
  Qed.

  (* the two ends of a face *)
  Lemma face_ends f : f < length (faces m) -> exists a b, nth_error (faces m) f = Some [a; b] /\ a <> b /\ a < nn /\ b < nn.
  Proof.
    intros L. destruct (nth_error_ex _ _ L) as [ns H]. destruct (pl_face _ PL _ _ H) as (a & b & -> & N).
    exists a, b. split; auto. split; auto.
    split; apply (node_lt 2 m ltac:(lia) WF); eapply (wf_faces _ _ WF); eauto; cbn; auto.
  Qed.

  Lemma visit_edge_ok st ids a b : EInv st -> a <> b -> a < nn -> b < nn ->
    exists st' id, visit_edge 2 m (st, ids) (a, b) = Ok (st', ids ++ [id]) /\ EInv st' /\ ext st st' /\
      nth_error (keys st') id = Some (edge_key a b) /\ bpush st' = bpush st /\
      (forall k, In k (keys st') -> In k (keys st) \/ k = edge_key a b).
  Proof.
    intros I N La Lb. unfold visit_edge. fold nn.
    destruct (Nat.eqb_spec a b); [contradiction|]. cbn [negb assert bind].
    destruct (Nat.ltb_spec a nn); [|lia]. destruct (Nat.ltb_spec b nn); [|lia]. cbn [andb assert bind].
    destruct (addKeyToMap nedge_lt (edge_key a b) (e2i st)) as [id e2i'] eqn:E.
    destruct (add_pos _ _ _ _ (ei_pos _ I) E) as (P & Hid & C).
    destruct C as [[-> L]|(-> & -> & NI)].
    - destruct (Nat.eqb_spec id (length (e2i st))); [lia|]. cbn [bind].
      eexists _, id. split; [reflexivity|]. split; [|split; [|split; [|split]]]; auto.
      + destruct I as [I1 I2 I3]. split; auto.
      + exists []. rewrite app_nil_r. reflexivity.
    - rewrite Nat.eqb_refl. rewrite !coords_ok by auto. cbn [bind].
      eexists _, _. split; [reflexivity|]. split; [|split; [|split; [|split]]]; auto.
      + destruct I as [I1 I2 I3]. split; cbn [e2i elen]; auto.
        * rewrite !app_length. cbn. lia.
        * intros i x y Hi. unfold keys in Hi; cbn [e2i] in Hi.
          destruct (Nat.lt_ge_cases i (length (e2i st))) as [Li|Li].
          -- rewrite map_app, nth_error_app1 in Hi by (rewrite map_length; auto).
             destruct (I3 i x y Hi) as (A & B & C & q & D & F). repeat split; auto. exists q; split; auto.
             rewrite nth_error_app1 by lia. auto.
          -- rewrite map_app, nth_error_app2 in Hi by (rewrite map_length; auto). rewrite map_length in Hi.
             destruct (i - length (e2i st)) as [|j] eqn:Ej; cbn in Hi; [|destruct j; discriminate].
             inversion Hi as [Hk].
             rewrite nth_error_app2 by lia. rewrite I2, Ej. cbn [nth_error].
             destruct (edge_key_or a b) as [K|K]; rewrite K in Hk; inversion Hk; subst x y;
               repeat split; auto; eexists; split; try reflexivity.
             apply dist2_comm.
      + exists [edge_key a b]. unfold keys; cbn [e2i]. rewrite map_app. reflexivity.
      + intros k Ik. unfold keys in Ik; cbn [e2i] in Ik. rewrite map_app, in_app_iff in Ik.
        destruct Ik as [?|[<-|[]]]; auto.
  Qed.

  (* an edge id names the segment of face entry z *)
  Definition nameF (st : estate) (z : Z) (id : nat) : Prop :=
    exists a b, nth_error (faces m) (pid z) = Some [a; b] /\ nth_error (keys st) id = Some (edge_key a b).

  Definition is_border (f : nat) : bool :=
    match nth_error (faceCells m) f with Some fc => length fc =? 1 | None => false end.
  Definition bpushes (z : Z) : list (nat * nat) :=
    if is_border (pid z) then match nth_error (faces m) (pid z) with
                              | Some ns => map (fun n => (n, pid z)) ns | None => [] end
    else [].

  Lemma visit_face_ok st ids i c z : EInv st -> nth_error (cells m) i = Some c -> In z c ->
    exists st' id, visit_face 2 m (st, ids) z = Ok (st', ids ++ [id]) /\ EInv st' /\ ext st st' /\
      nameF st' z id /\ bpush st' = bpush st ++ bpushes z /\
      (forall k, In k (keys st') -> In k (keys st) \/
         exists a b, nth_error (faces m) (pid z) = Some [a; b] /\ k = edge_key a b).
  Proof.
    intros I Hc Iz. assert (Lz := wf_cells _ _ WF _ _ _ Hc Iz).
    destruct (face_ends _ Lz) as (a & b & Hf & N & La & Lb).
    unfold visit_face. destruct (Nat.ltb_spec (pid z) (length (faces m))); [|lia]. cbn [assert bind].
    rewrite (proj2 (get_ok _ _ _) Hf). cbn [bind length Nat.leb assert].
    assert (Lfc : pid z < length (faceCells m)) by (rewrite (wf_fcs _ _ WF); auto).
    destruct (nth_error_ex _ _ Lfc) as [fc Hfc]. rewrite (proj2 (get_ok _ _ _) Hfc). cbn [bind].
    assert (((length fc =? 1) || (length fc =? 2)) = true) as ->.
    { destruct (wf_fc _ _ WF _ _ Hfc) as [-> | ->]; reflexivity. }
    cbn [assert bind]. change (face_edges [a; b]) with [(a, b)]. cbn [mfold].
    match goal with |- context [visit_edge 2 m (?s, ids) (a, b)] => set (st1 := s) end.
    assert (I1 : EInv st1) by (destruct I as [? ? ?]; split; auto).
    destruct (visit_edge_ok st1 ids a b I1 N La Lb) as (st' & id & -> & I' & X & Hid & Hb & Hk).
    cbn [bind]. exists st', id. split; [reflexivity|]. split; auto. split; [exact X|]. split.
    { exists a, b. auto. }
    split.
    { rewrite Hb. unfold st1, bpushes, is_border. cbn [bpush]. rewrite Hf, Hfc.
      destruct (length fc =? 1); [reflexivity|rewrite app_nil_r; reflexivity]. }
    intros k Ik. destruct (Hk k Ik) as [? | ->]; [left; auto|right; exists a, b; auto].
  Qed.

  Lemma visit_cell_ok st i c : EInv st -> nth_error (cells m) i = Some c ->
    exists st' ids, mfold (visit_face 2 m) c (st, []) = Ok (st', ids) /\ EInv st' /\ ext st st' /\
      Forall2 (nameF st') c ids /\ bpush st' = bpush st ++ flat_map bpushes c /\
      (forall k, In k (keys st') -> In k (keys st) \/
         exists z a b, In z c /\ nth_error (faces m) (pid z) = Some [a; b] /\ k = edge_key a b).
  Proof.
    intros I Hc.
    destruct (mfold_inv (visit_face 2 m) (fun l s => EInv (fst s) /\ ext st (fst s) /\
       Forall2 (nameF (fst s)) l (snd s) /\ bpush (fst s) = bpush st ++ flat_map bpushes l /\
       (forall k, In k (keys (fst s)) -> In k (keys st) \/
         exists z a b, In z l /\ nth_error (faces m) (pid z) = Some [a; b] /\ k = edge_key a b)) c (st, []))
      as ([st' ids] & E & A & B & C & F & G).
    - cbn. split; auto. split; [apply ext_refl|]. split; [constructor|]. rewrite app_nil_r. auto.
    - intros l1 z l2 [s ids] -> (A & B & C & F & G). cbn [fst snd] in *.
      assert (Iz : In z (l1 ++ z :: l2)) by (apply in_or_app; right; left; auto).
      destruct (visit_face_ok s ids i _ z A Hc Iz) as (st' & id & -> & A' & X & Nm & Bp & K).
      eexists; split; [reflexivity|]. cbn [fst snd]. split; auto. split; [eapply ext_trans; eauto|]. split.
      + apply Forall2_app; [|repeat constructor; auto].
        revert C. clear - X. intros C. induction C; constructor; auto.
        destruct H as (a & b & H1 & H2). exists a, b. split; auto. eapply ext_nth; eauto.
      + split.
        * rewrite Bp, F, flat_map_app. cbn. rewrite app_nil_r, app_assoc. auto.
        * intros k Ik. destruct (K k Ik) as [Ik'|(a & b & H1 & H2)].
          -- destruct (G k Ik') as [?|(z' & a & b & I1 & H1 & H2)]; auto. right. exists z', a, b.
             rewrite in_app_iff. auto.
          -- right. exists z, a, b. rewrite in_app_iff. cbn. auto.
    - exists st', ids. cbn [fst snd] in *. auto 10.
  Qed.

  Definition named_cell (st : estate) (c : list Z) (ids : list nat) : Prop := Forall2 (nameF st) c ids.

  Lemma collect_ok : exists st c2e, collect 2 m = Ok (st, c2e) /\ EInv st /\
    Forall2 (named_cell st) (cells m) c2e /\ bpush st = flat_map bpushes (concat (cells m)) /\
    (forall k, In k (keys st) -> exists c z a b, In c (cells m) /\ In z c /\
        nth_error (faces m) (pid z) = Some [a; b] /\ k = edge_key a b).
  Proof.
    unfold collect.
    destruct (mfold_inv (fun '(st, c2e) c =>
           do (st', ids) <- mfold (visit_face 2 m) c (st, []);
           Ok (st', c2e ++ [ids]))
      (fun l s => EInv (fst s) /\ Forall2 (named_cell (fst s)) l (snd s) /\
         bpush (fst s) = flat_map bpushes (concat l) /\
         (forall k, In k (keys (fst s)) -> exists c z a b, In c l /\ In z c /\
            nth_error (faces m) (pid z) = Some [a; b] /\ k = edge_key a b))
      (cells m) (mkEstate [] [] [], [])) as ([st c2e] & E & A & B & C & F).
    - cbn. split; [|split; [constructor|split; [auto|intros k []]]].
      split; cbn; auto.
      + split; [intros [|]; discriminate|constructor].
      + intros [|i]; discriminate.
    - intros l1 c l2 [s c2e] Ec (A & B & C & F). cbn [fst snd] in *.
      assert (Hc : nth_error (cells m) (length l1) = Some c).
      { rewrite Ec, nth_error_app2, Nat.sub_diag by auto. reflexivity. }
      destruct (visit_cell_ok s _ c A Hc) as (st' & ids & -> & A' & X & Nm & Bp & K). cbn [bind].
      eexists; split; [reflexivity|]. cbn [fst snd]. split; auto. split.
      + apply Forall2_app; [|repeat constructor; auto].
        revert B. clear - X. intros B. induction B; constructor; auto.
        unfold named_cell in *. clear - X H. induction H; constructor; auto.
        destruct H as (a & b & H1 & H2). exists a, b. split; auto. eapply ext_nth; eauto.
      + split.
        * rewrite Bp, C, concat_app, flat_map_app. cbn. rewrite app_nil_r. auto.
        * intros k Ik. destruct (K k Ik) as [Ik'|(z & a & b & I1 & H1 & H2)].
          -- destruct (F k Ik') as (c' & z & a & b & I1 & I2 & H1 & H2). exists c', z, a, b.
             rewrite in_app_iff. auto.
          -- exists c, z, a, b. rewrite in_app_iff. cbn. auto.
    - exists st, c2e. cbn [fst snd] in *. auto 10.
  Qed.
End Collect.
