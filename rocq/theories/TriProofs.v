(* The first loop of the read-out: what is known about the triangles. *)
From Coq Require Import QArith.
From Verif Require Import Base BaseFacts StdAlg KeyMapModel KeyMapProofs FaceSortModel FaceSortSpec FaceSortProofs FaceSortProofs4 SerializeModel MeshEditorModel QuantMeshModel BoxModel PLCSpec Plane AreaModel TriModel TriSpec.
Local Open Scope nat_scope.

Lemma mfold_index {A S} (f : S -> nat * A -> res S) (P : nat -> S -> Prop) (l : list A) s0 : P 0 s0 ->
  (forall k a s, nth_error l k = Some a -> P k s -> exists s', f s (k, a) = Ok s' /\ P (k + 1) s') ->
  exists s, mfold f (combine (seq 0 (length l)) l) s0 = Ok s /\ P (length l) s.
Proof.
  intros H0 Hs.
  assert (G : forall l2 l1 s, l = l1 ++ l2 -> P (length l1) s ->
    exists s', mfold f (combine (seq (length l1) (length l2)) l2) s = Ok s' /\ P (length l) s').
  { induction l2 as [|a l2 IH]; intros l1 s E Hp.
    - exists s. cbn. split; auto. rewrite E, app_nil_r. auto.
    - destruct (Hs (length l1) a s) as (s' & E1 & P1); auto.
      { rewrite E, nth_error_app2, Nat.sub_diag by lia. reflexivity. }
      cbn [seq length combine mfold]. rewrite E1. cbn [bind].
      destruct (IH (l1 ++ [a]) s') as (s'' & E2 & P2).
      + rewrite E, <- app_assoc. auto.
      + rewrite app_length. auto.
      + exists s''. split; auto. rewrite app_length in E2. cbn [length] in E2. rewrite Nat.add_1_r in E2. auto. }
  apply (G l [] s0); auto.
Qed.

Definition zkey (a b : nat) : Z * Z := if a <? b then (Z.of_nat a, Z.of_nat b) else (Z.of_nat b, Z.of_nat a).
Lemma zkey_sym a b : zkey a b = zkey b a.
Proof. unfold zkey. destruct (Nat.ltb_spec a b), (Nat.ltb_spec b a); try lia; auto. f_equal; f_equal; lia. Qed.
Lemma zkey_inj a b c d : zkey a b = zkey c d -> (a = c /\ b = d) \/ (a = d /\ b = c).
Proof. unfold zkey. destruct (Nat.ltb_spec a b), (Nat.ltb_spec c d); intros E; injection E; lia. Qed.
Lemma nhash_ok a b : a <> b -> nhash a b = Ok (zkey a b).
Proof.
  intros N. unfold nhash, hashEdge, zkey. rewrite (proj2 (Z.eqb_neq _ _)) by lia. cbn [negb assert bind].
  destruct (Z.ltb_spec (Z.of_nat a) (Z.of_nat b)), (Nat.ltb_spec a b); try lia; auto.
Qed.
Definition edge_dec (a b : Z * Z) : {a = b} + {a <> b}.
Proof. decide equality; apply Z.eq_dec. Defined.
Lemma keyeq_dec a b : keyeq edge_lt a b = if edge_dec a b then true else false.
Proof.
  destruct (edge_dec a b) as [E|N].
  - apply keyeq_edge. auto.
  - apply not_true_is_false. intros H. apply N. apply keyeq_edge. auto.
Qed.

Lemma around_push m e i e' : around (push_tri m e i) e' = if edge_dec e' e then around m e' ++ [i] else around m e'.
Proof.
  induction m as [|[k l] m IH]; cbn [push_tri around].
  - rewrite keyeq_dec. destruct (edge_dec e' e); auto.
  - rewrite keyeq_dec. destruct (edge_dec e k) as [->|N]; cbn [around]; rewrite keyeq_dec.
    + destruct (edge_dec e' k); auto.
    + rewrite IH. destruct (edge_dec e' k) as [->|N']; destruct (edge_dec _ e); congruence || auto.
Qed.
(* keys are distinct, so an entry is what its key reads *)
Lemma push_keys m e i : map fst (push_tri m e i) = if in_dec edge_dec e (map fst m) then map fst m else map fst m ++ [e].
Proof.
  induction m as [|[k l] m IH]; cbn [push_tri map fst]; auto. rewrite keyeq_dec. destruct (edge_dec e k) as [->|N].
  - cbn [map fst]. destruct (in_dec edge_dec k (k :: map fst m)) as [_|C]; auto. destruct C; left; auto.
  - cbn [map fst]. rewrite IH. destruct (in_dec edge_dec e (map fst m)) as [I|I], (in_dec edge_dec e (k :: map fst m)) as [I'|I']; auto.
    + destruct I'; right; auto.
    + destruct I' as [->|I']; contradiction.
Qed.
Lemma push_nodup m e i : NoDup (map fst m) -> NoDup (map fst (push_tri m e i)).
Proof.
  intros N. rewrite push_keys. destruct (in_dec edge_dec e (map fst m)) as [I|I]; auto.
  apply NoDup_rev in N. rewrite <- (rev_involutive (map fst m ++ [e])). apply NoDup_rev. rewrite rev_app_distr. cbn.
  constructor; auto. rewrite <- in_rev. auto.
Qed.
Lemma around_entry m k l : NoDup (map fst m) -> In (k, l) m -> around m k = l.
Proof.
  induction m as [|[k' l'] m IH]; cbn [map fst around]; intros N I; [destruct I|]. inversion N; subst. rewrite keyeq_dec.
  destruct I as [E|I].
  - injection E as -> ->. destruct (edge_dec k k); congruence.
  - destruct (edge_dec k k') as [->|]; auto. destruct H1. apply in_map_iff. exists (k', l). auto.
Qed.
Lemma push_full m e i : (forall kv, In kv m -> snd kv <> []) -> forall kv, In kv (push_tri m e i) -> snd kv <> [].
Proof.
  induction m as [|[k l] m IH]; cbn [push_tri]; intros H kv I.
  - destruct I as [<-|[]]. discriminate.
  - destruct (keyeq edge_lt e k).
    + destruct I as [<-|I]; [destruct l; discriminate|apply H; right; auto].
    + destruct I as [<-|I]; [apply (H (k, l)); left; auto|]. apply IH; auto. intros; apply H; right; auto.
Qed.

Lemma oinsert_last i l : (forall x, In x l -> x < i) -> oinsert Nat.ltb i l = l ++ [i].
Proof.
  induction l as [|x l IH]; intros H; cbn [oinsert app]; auto.
  assert (x < i) by (apply H; left; auto). rewrite (proj2 (Nat.ltb_ge i x)) by lia. rewrite (proj2 (Nat.ltb_lt x i)) by lia.
  rewrite IH; auto. intros; apply H; right; auto.
Qed.

Lemma filter_snoc {A} (f : A -> bool) l a : filter f (l ++ [a]) = filter f l ++ if f a then [a] else [].
Proof. rewrite filter_app. cbn. destruct (f a); auto. Qed.
Lemma seq_snoc m : seq 0 (m + 1) = seq 0 m ++ [m].
Proof. rewrite Nat.add_1_r, seq_S. auto. Qed.

Section Read.
  Context (f : frame) (pts : list p2) (ngen : nat) (tris : list tri).
  Definition realb (i : nat) : bool := match nth_error tris i with Some t => real ngen t | None => false end.
  Definition hasb (p i : nat) : bool :=
    match nth_error tris i with Some (a, b, c) => (p =? a) || (p =? b) || (p =? c) | None => false end.
  Definition edgb (e : Z * Z) (i : nat) : bool :=
    match nth_error tris i with
    | Some (a, b, c) => (if edge_dec e (zkey a b) then true else false) || (if edge_dec e (zkey a c) then true else false)
                        || (if edge_dec e (zkey b c) then true else false)
    | None => false end.

  (* what reading one triangle needs *)
  Definition Readable (t : tri) : Prop :=
    let '(a, b, c) := t in a <> b /\ a <> c /\ b <> c /\
    exists A B C x y z, nth_error pts a = Some A /\ nth_error pts b = Some B /\ nth_error pts c = Some C /\
      Qlt_bool 0 (orient A B C) = true /\ to_grid f A = Ok x /\ to_grid f B = Ok y /\ to_grid f C = Ok z /\
      x <> y /\ y <> z /\ x <> z /\ (real ngen t = true -> exists v, to_grid f (circumcenter A B C) = Ok v).
  (* the node of triangle i *)
  Definition NodeFor (v : pt) (i : nat) : Prop :=
    exists a b c A B C, nth_error tris i = Some (a, b, c) /\ nth_error pts a = Some A /\ nth_error pts b = Some B /\
      nth_error pts c = Some C /\ to_grid f (circumcenter A B C) = Ok v.

  Record RI (m : nat) (st : stars) : Prop := {
    ri_nodes : Forall2 NodeFor (s_nodes st) (filter realb (seq 0 m));
    ri_ng : length (s_gen2tri st) = length pts;
    ri_g2t : forall p, p < length pts -> nth_error (s_gen2tri st) p = Some (filter (fun i => realb i && hasb p i) (seq 0 m));
    ri_nt : length (s_tri2gens st) = length tris;
    ri_t2g : forall i a b c, i < m -> nth_error tris i = Some (a, b, c) -> realb i = true -> nth_error (s_tri2gens st) i = Some [a; b; c];
    ri_keys : NoDup (map fst (s_dedge st));
    ri_full : forall kv, In kv (s_dedge st) -> snd kv <> [];
    ri_edge : forall e, around (s_dedge st) e = filter (fun i => realb i && edgb e i) (seq 0 m);
    ri_ni : length (s_tri2id st) = length tris;
    ri_id : forall k i, nth_error (filter realb (seq 0 m)) k = Some i -> nth_error (s_tri2id st) i = Some (Z.of_nat k) }.

  Lemma pt_eq_neq (p q : pt) : p <> q -> pt_eq p q = false.
  Proof.
    intros N. unfold pt_eq. destruct p as [a b], q as [c d]. cbn [fst snd].
    destruct (Z.eqb_spec a c), (Z.eqb_spec b d); auto. subst. congruence.
  Qed.

  Lemma insert_tri_ok g p i s : nth_error g p = Some s -> (forall x, In x s -> x < i) -> insert_tri g p i = Ok (upd g p (s ++ [i])).
  Proof.
    intros H B. unfold insert_tri. rewrite (proj2 (get_ok _ _ _) H). cbn [bind].
    rewrite oinsert_last by auto. apply set_lt. eapply nth_error_lt; eauto.
  Qed.

  Lemma below m h x : In x (filter h (seq 0 m)) -> x < m.
  Proof. intros I. apply filter_In in I as [I _]. apply in_seq in I. lia. Qed.

  Lemma read_tri_ok m t st : nth_error tris m = Some t -> Readable t -> RI m st ->
    exists st', read_tri f pts ngen st (m, t) = Ok st' /\ RI (m + 1) st'.
  Proof.
    intros Ht Rd I. destruct t as [[p q] r].
    destruct Rd as (N1 & N2 & N3 & A & B & C & x & y & z & HA & HB & HC & Or & Gx & Gy & Gz & D1 & D2 & D3 & Hv).
    assert (Lm : m < length tris) by (eapply nth_error_lt; eauto).
    assert (Lp : p < length pts) by (eapply nth_error_lt; eauto).
    assert (Lq : q < length pts) by (eapply nth_error_lt; eauto).
    assert (Lr : r < length pts) by (eapply nth_error_lt; eauto).
    unfold read_tri.
    rewrite (proj2 (Nat.eqb_neq p q)), (proj2 (Nat.eqb_neq p r)), (proj2 (Nat.eqb_neq q r)) by auto. cbn [negb andb assert bind].
    rewrite (proj2 (get_ok _ _ _) HA). cbn [bind]. rewrite (proj2 (get_ok _ _ _) HB). cbn [bind]. rewrite (proj2 (get_ok _ _ _) HC). cbn [bind].
    rewrite Or. cbn [assert bind]. rewrite Gx. cbn [bind]. rewrite Gy. cbn [bind]. rewrite Gz. cbn [bind].
    rewrite (pt_eq_neq x y), (pt_eq_neq y z), (pt_eq_neq x z) by auto. cbn [negb andb]. rewrite andb_true_r.
    change ((p <? ngen) || (q <? ngen) || (r <? ngen)) with (real ngen (p, q, r)).
    assert (Rm : realb m = real ngen (p, q, r)) by (unfold realb; rewrite Ht; auto).
    destruct (real ngen (p, q, r)) eqn:R.
    - destruct (Hv eq_refl) as [v Ev]. rewrite Ev. cbn [bind]. rewrite !nhash_ok by auto. cbn [bind].
      pose proof (ri_g2t _ _ I p Lp) as Gp. pose proof (ri_g2t _ _ I q Lq) as Gq. pose proof (ri_g2t _ _ I r Lr) as Gr.
      rewrite (insert_tri_ok _ _ m _ Gp) by apply below. cbn [bind].
      rewrite (insert_tri_ok _ q m (filter (fun i => realb i && hasb q i) (seq 0 m))); [|rewrite upd_other; auto|apply below]. cbn [bind].
      rewrite (insert_tri_ok _ r m (filter (fun i => realb i && hasb r i) (seq 0 m))); [|rewrite !upd_other; auto|apply below]. cbn [bind].
      rewrite set_lt by (rewrite (ri_nt _ _ I); auto). cbn [bind]. rewrite set_lt by (rewrite (ri_ni _ _ I); auto). cbn [bind].
      eexists. split; [reflexivity|]. constructor; cbn [s_nodes s_gen2tri s_tri2gens s_dedge s_tri2id].
      + rewrite seq_snoc, filter_snoc, Rm. apply Forall2_app; [apply (ri_nodes _ _ I)|]. constructor; [|constructor].
        exists p, q, r, A, B, C. auto 10.
      + rewrite !upd_length. apply (ri_ng _ _ I).
      + intros g Lg. rewrite seq_snoc, filter_snoc, Rm. cbn [andb].
        assert (Hg : hasb g m = (g =? p) || (g =? q) || (g =? r)) by (unfold hasb; rewrite Ht; auto). rewrite Hg.
        destruct (Nat.eqb_spec g r) as [->|Nr].
        { rewrite orb_true_r. apply upd_same. rewrite !upd_length, (ri_ng _ _ I). auto. }
        rewrite upd_other by auto. destruct (Nat.eqb_spec g q) as [->|Nq].
        { rewrite orb_true_r. apply upd_same. rewrite !upd_length, (ri_ng _ _ I). auto. }
        rewrite upd_other by auto. destruct (Nat.eqb_spec g p) as [->|Np].
        { apply upd_same. rewrite (ri_ng _ _ I). auto. }
        rewrite upd_other by auto. cbn [orb]. rewrite app_nil_r. apply (ri_g2t _ _ I); auto.
      + rewrite upd_length. apply (ri_nt _ _ I).
      + intros i a b c Li Hi Ri. destruct (Nat.eq_dec i m) as [->|Ni].
        * rewrite Ht in Hi. injection Hi as <- <- <-. apply upd_same. rewrite (ri_nt _ _ I). auto.
        * rewrite upd_other by auto. apply (ri_t2g _ _ I); auto. lia.
      + repeat apply push_nodup. apply (ri_keys _ _ I).
      + repeat apply push_full. apply (ri_full _ _ I).
      + intros e. rewrite !around_push, (ri_edge _ _ I), seq_snoc, filter_snoc, Rm. cbn [andb].
        assert (Eg : edgb e m = (if edge_dec e (zkey p q) then true else false) || (if edge_dec e (zkey p r) then true else false)
                        || (if edge_dec e (zkey q r) then true else false)) by (unfold edgb; rewrite Ht; auto). rewrite Eg.
        destruct (edge_dec e (zkey p q)) as [E1|E1], (edge_dec e (zkey p r)) as [E2|E2], (edge_dec e (zkey q r)) as [E3|E3];
          cbn [orb]; rewrite ?app_nil_r; auto; exfalso; subst e;
          repeat match goal with H : zkey _ _ = zkey _ _ |- _ => apply zkey_inj in H end; lia.
      + rewrite upd_length. apply (ri_ni _ _ I).
      + intros k i. rewrite seq_snoc, filter_snoc, Rm. pose proof (Forall2_len _ _ _ (ri_nodes _ _ I)) as Ln.
        destruct (Nat.lt_ge_cases k (length (filter realb (seq 0 m)))) as [L|L].
        * rewrite nth_error_app1 by auto. intros H. rewrite upd_other; [apply (ri_id _ _ I); auto|].
          intros <-. apply nth_error_In in H. apply below in H. lia.
        * rewrite nth_error_app2 by auto. intros H. destruct (k - length (filter realb (seq 0 m))) as [|j] eqn:Ek; [|destruct j; discriminate].
          injection H as <-. rewrite upd_same by (rewrite (ri_ni _ _ I); auto). f_equal. f_equal. lia.
    - eexists. split; [reflexivity|].
      constructor; try (rewrite ?seq_snoc, ?filter_snoc, ?Rm; cbn [andb]; rewrite ?app_nil_r; apply I).
      + intros g Lg. rewrite seq_snoc, filter_snoc, Rm. cbn [andb]. rewrite app_nil_r. apply (ri_g2t _ _ I); auto.
      + intros i a b c Li Hi Ri. apply (ri_t2g _ _ I); auto. assert (i <> m) by congruence. lia.
      + intros e. rewrite seq_snoc, filter_snoc, Rm. cbn [andb]. rewrite app_nil_r. apply (ri_edge _ _ I).
  Qed.

  Lemma read_tris_ok : (forall t, In t tris -> Readable t) -> exists st, read_tris f pts ngen tris = Ok st /\ RI (length tris) st.
  Proof.
    intros H. unfold read_tris. apply mfold_index.
    - constructor; cbn [s_nodes s_gen2tri s_tri2gens s_dedge s_tri2id seq filter map]; auto using repeat_length.
      + intros p Lp. apply nth_error_repeat. auto.
      + intros; lia.
      + constructor.
      + intros [|k] i; discriminate.
    - intros k t s Hk Hs. apply read_tri_ok; auto. apply H. eapply nth_error_In; eauto.
  Qed.
End Read.
