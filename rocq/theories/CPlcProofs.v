From Verif Require Import Base BaseFacts SerializeModel CPlcModel CPlcSpec.
From Coq Require Import Lia.

Definition table {A} (n : nat) (g : Z -> A) : list A := map (fun i => g (Z.of_nat i)) (seq 0 n).
Lemma table_length {A} n (g : Z -> A) : length (table n g) = n.
Proof. unfold table. rewrite map_length, seq_length. auto. Qed.
Lemma table_snoc {A} n (g : Z -> A) : table (S n) g = table n g ++ [g (Z.of_nat n)].
Proof. unfold table. rewrite seq_S, map_app. auto. Qed.
Lemma table_ext {A} n (g g' : Z -> A) : (forall i, below i n -> g i = g' i) -> table n g = table n g'.
Proof. intros H. apply map_ext_in. intros i I. apply in_seq in I. apply H. unfold below. lia. Qed.
Lemma table_nth {A} n (g : Z -> A) i : i < n -> nth_error (table n g) i = Some (g (Z.of_nat i)).
Proof.
  intros L. unfold table. rewrite nth_error_map. rewrite (nth_error_nth' _ 0) by (rewrite seq_length; auto). rewrite seq_nth by auto. auto.
Qed.
Definition big (n : nat) : Prop := (Z.of_nat n < 2 ^ 31)%Z.
Lemma size_t_pos i n : below i n -> big n -> size_t i = i.
Proof. unfold below, big, size_t. intros H B. apply Z.mod_small. lia. Qed.
Lemma size_t_out i n : isInt i -> ~ below i n -> big n -> (Z.of_nat n <= size_t i)%Z.
Proof.
  unfold isInt, below, big, size_t. intros I H B. destruct (Z_lt_le_dec i 0) as [N|N].
  - assert ((i mod 2 ^ 64 = i + 2 ^ 64)%Z) as ->; [|lia]. rewrite <- (Z.mod_add i 1) by lia. apply Z.mod_small. lia.
  - rewrite Z.mod_small by lia. lia.
Qed.
Lemma at_in {A} n (g : Z -> A) i : big n -> below i n -> at_ (table n g) i = Ok (g i).
Proof.
  intros B H. unfold at_. rewrite (size_t_pos i n), table_length by auto. unfold below in H.
  assert ((i <? Z.of_nat n)%Z = true) as -> by (apply Z.ltb_lt; lia). cbn [assert bind].
  unfold get. rewrite table_nth by lia. rewrite Z2Nat.id by lia. auto.
Qed.
Lemma at_out {A} n (g : Z -> A) i : big n -> isInt i -> ~ below i n -> at_ (table n g) i = Abort.
Proof.
  intros B I H. unfold at_. pose proof (size_t_out i n I H B). rewrite table_length.
  assert ((size_t i <? Z.of_nat n)%Z = false) as -> by (apply Z.ltb_ge; lia). reflexivity.
Qed.
Lemma table_upd {A} n (g g' : Z -> A) i x : i < n -> (forall j, j <> Z.of_nat i -> g' j = g j) -> g' (Z.of_nat i) = x -> upd (table n g) i x = table n g'.
Proof.
  intros L O E. apply nth_error_ext. intros j. rewrite upd_nth, table_length.
  destruct (Nat.eqb_spec i j) as [->|N]; cbn [andb].
  - destruct (Nat.ltb_spec j n); [|lia]. rewrite table_nth by auto. congruence.
  - destruct (lt_dec j n) as [J|J]; [|rewrite !(proj2 (nth_error_None _ _)); rewrite ?table_length; auto; lia].
    rewrite !table_nth by auto. rewrite O by lia. auto.
Qed.
Lemma set_in {A} n (g g' : Z -> A) i x : big n -> below i n -> (forall j, j <> i -> g' j = g j) -> g' i = x -> set (table n g) (Z.to_nat (size_t i)) x = Ok (table n g').
Proof.
  intros B H O E. rewrite (size_t_pos i n) by auto. unfold below in H. rewrite set_lt by (rewrite table_length; lia). f_equal.
  apply table_upd; rewrite ?Z2Nat.id by lia; auto. lia.
Qed.

(* the histories *)
Lemma since_snoc cs c : since (cs ++ [c]) = match c with Clear => [] | _ => since cs ++ [c] end.
Proof. unfold since. rewrite fold_left_app. cbn. destruct c; auto. Qed.
Lemma since_len cs : length (since cs) <= length cs.
Proof. induction cs as [|c cs IH] using rev_ind; auto. rewrite since_snoc, app_length. cbn. destruct c; cbn; try rewrite app_length; cbn; lia. Qed.
Lemma filter_len {A} (p : A -> bool) l : length (filter p l) <= length l.
Proof. induction l as [|a l IH]; cbn; auto. destruct (p a); cbn; lia. Qed.
Lemma facet_count_len cs : facet_count cs <= length cs.
Proof. unfold facet_count. eapply Nat.le_trans; [apply filter_len|apply since_len]. Qed.
Lemma hole_count_len cs : hole_count cs <= length cs.
Proof. unfold hole_count. eapply Nat.le_trans; [apply filter_len|apply since_len]. Qed.
Lemma hole_facet_count_len cs k : hole_facet_count cs k <= length cs.
Proof. unfold hole_facet_count. eapply Nat.le_trans; [apply filter_len|apply since_len]. Qed.

Lemma facet_count_snoc cs c : facet_count (cs ++ [c]) = match c with Clear => 0 | AddFacet => S (facet_count cs) | _ => facet_count cs end.
Proof. unfold facet_count. rewrite since_snoc. destruct c; auto; rewrite filter_app, app_length; cbn; lia. Qed.
Lemma hole_count_snoc cs c : hole_count (cs ++ [c]) = match c with Clear => 0 | AddHole => S (hole_count cs) | _ => hole_count cs end.
Proof. unfold hole_count. rewrite since_snoc. destruct c; auto; rewrite filter_app, app_length; cbn; lia. Qed.
Lemma hole_facet_count_snoc cs c k : hole_facet_count (cs ++ [c]) k =
  match c with Clear => 0 | AddHoleFacet j => if Z.eqb j k then S (hole_facet_count cs k) else hole_facet_count cs k | _ => hole_facet_count cs k end.
Proof. unfold hole_facet_count. rewrite since_snoc. destruct c; auto; rewrite filter_app, app_length; cbn; try lia. destruct (Z.eqb hole k); cbn; lia. Qed.
Lemma nodes_of_snoc cs c f : nodes_of (cs ++ [c]) f =
  match c with Clear => [] | AddFacetNode g n => nodes_of cs f ++ (if Z.eqb g f then [n] else []) | _ => nodes_of cs f end.
Proof. unfold nodes_of. rewrite since_snoc. destruct c; auto; rewrite flat_map_app; cbn; rewrite ?app_nil_r; auto. Qed.
Lemma hole_nodes_of_snoc cs c k f : hole_nodes_of (cs ++ [c]) k f =
  match c with Clear => [] | AddHoleFacetNode j g n => hole_nodes_of cs k f ++ (if Z.eqb j k && Z.eqb g f then [n] else []) | _ => hole_nodes_of cs k f end.
Proof. unfold hole_nodes_of. rewrite since_snoc. destruct c; auto; rewrite flat_map_app; cbn; rewrite ?app_nil_r; auto. Qed.

Lemma snoc_inj {A} (l l' : list A) a a' : l ++ [a] = l' ++ [a'] -> l = l' /\ a = a'.
Proof. apply app_inj_tail. Qed.
Lemma legal_inv cs c : Legal (cs ++ [c]) -> Legal cs /\ Names cs c.
Proof. intros H. inversion H as [E|cs' c' L N E]; [destruct cs; discriminate|]. apply snoc_inj in E as [-> ->]. auto. Qed.

(* in a legal history nothing was put into what is not there yet *)
Lemma nothing_yet cs : Legal cs ->
  (forall f, ~ below f (facet_count cs) -> nodes_of cs f = []) /\
  (forall k, ~ below k (hole_count cs) -> hole_facet_count cs k = 0) /\
  (forall k f, ~ below f (hole_facet_count cs k) -> hole_nodes_of cs k f = []).
Proof.
  induction cs as [|c cs IH] using rev_ind; intros L; [repeat split; auto|]. apply legal_inv in L as [L N]. destruct (IH L) as (A & B & C). clear IH.
  split; [|split].
  - intros f H. rewrite nodes_of_snoc. rewrite facet_count_snoc in H. destruct c; auto; cbn in N.
    + apply A. unfold below in *. lia.
    + rewrite (A f) by auto. destruct (Z.eqb_spec facet f) as [->|]; auto. tauto.
  - intros k H. rewrite hole_facet_count_snoc. rewrite hole_count_snoc in H. destruct c; auto; cbn in N.
    + apply B. unfold below in *. lia.
    + rewrite (B k) by auto. destruct (Z.eqb_spec hole k) as [->|]; auto. tauto.
  - intros k f H. rewrite hole_nodes_of_snoc. rewrite hole_facet_count_snoc in H. destruct c; auto; cbn in N.
    + apply C. destruct (Z.eqb hole k); auto. unfold below in *. lia.
    + rewrite (C k f) by auto. destruct (Z.eqb_spec hole k) as [->|]; auto. destruct (Z.eqb_spec facet f) as [->|]; cbn; auto. tauto.
Qed.

(* the PLC a history leads to *)
Definition built (cs : list call) : plc :=
  mkPLC (table (facet_count cs) (nodes_of cs))
        (table (hole_count cs) (fun k => table (hole_facet_count cs k) (hole_nodes_of cs k))).
Definition handleOf (D : Z) (p : plc) : handle := if (D =? 2)%Z then mkHandle (Some p) None else mkHandle None (Some p).
Lemma chosen_of D p : chosen (handleOf D p) = Ok p.
Proof. unfold handleOf, chosen. destruct (D =? 2)%Z; auto. Qed.
Lemma store_of D p q : store (handleOf D p) q = handleOf D q.
Proof. unfold handleOf, store. destruct (D =? 2)%Z; auto. Qed.

Lemma below_dec i n : below i n \/ ~ below i n.
Proof. unfold below. lia. Qed.
Lemma big_le n m : big m -> n <= m -> big n.
Proof. unfold big. lia. Qed.

Section Step.
  Variables (D : Z) (cs : list call).
  Hypotheses (L : Legal cs) (B : big (length cs)).
  Let BF : big (facet_count cs). Proof. apply (big_le _ (length cs) B), facet_count_len. Qed.
  Let BH : big (hole_count cs). Proof. apply (big_le _ (length cs) B), hole_count_len. Qed.
  Let BK k : big (hole_facet_count cs k). Proof. apply (big_le _ (length cs) B), hole_facet_count_len. Qed.

  Lemma addFacet_ok : addFacet (handleOf D (built cs)) = Ok (handleOf D (built (cs ++ [AddFacet])), Z.of_nat (facet_count cs)).
  Proof.
    unfold addFacet. rewrite chosen_of. cbn [bind facets built]. cbv zeta. rewrite store_of, app_length, table_length. f_equal. f_equal; [|cbn; lia].
    f_equal. unfold built. rewrite facet_count_snoc, hole_count_snoc, table_snoc. f_equal.
    - f_equal; [apply table_ext; intros i _; rewrite nodes_of_snoc; auto|]. rewrite nodes_of_snoc. rewrite (proj1 (nothing_yet cs L)); auto. unfold below. lia.
    - cbn [holes]. apply table_ext. intros k _. rewrite hole_facet_count_snoc. apply table_ext. intros f _. rewrite hole_nodes_of_snoc. auto.
  Qed.
  Lemma addFacetNode_ok f n : below f (facet_count cs) -> addFacetNode (handleOf D (built cs)) f n = Ok (handleOf D (built (cs ++ [AddFacetNode f n]))).
  Proof.
    intros H. unfold addFacetNode. rewrite chosen_of. cbn [bind facets built]. unfold at_upd. rewrite at_in by auto. cbn [bind].
    rewrite (set_in _ _ (nodes_of (cs ++ [AddFacetNode f n]))); auto.
    - cbn [bind]. rewrite store_of. unfold built. rewrite facet_count_snoc, hole_count_snoc. f_equal. f_equal. f_equal. cbn [holes].
      apply table_ext. intros k _. rewrite hole_facet_count_snoc. apply table_ext. intros g _. rewrite hole_nodes_of_snoc. auto.
    - intros j J. rewrite nodes_of_snoc. destruct (Z.eqb_spec f j); [congruence|]. apply app_nil_r.
    - rewrite nodes_of_snoc, Z.eqb_refl. auto.
  Qed.
  Lemma addFacetNode_bad f n : isInt f -> ~ below f (facet_count cs) -> addFacetNode (handleOf D (built cs)) f n = Abort.
  Proof. intros I H. unfold addFacetNode. rewrite chosen_of. cbn [bind facets built]. unfold at_upd. rewrite at_out by auto. reflexivity. Qed.
  Lemma addHole_ok : addHole (handleOf D (built cs)) = Ok (handleOf D (built (cs ++ [AddHole])), Z.of_nat (hole_count cs)).
  Proof.
    unfold addHole. rewrite chosen_of. cbn [bind holes built]. cbv zeta. rewrite store_of, app_length, table_length. f_equal. f_equal; [|cbn; lia].
    f_equal. unfold built. rewrite facet_count_snoc, hole_count_snoc, table_snoc. f_equal; [apply table_ext; intros; rewrite nodes_of_snoc; auto|]. f_equal.
    - apply table_ext. intros k _. rewrite hole_facet_count_snoc. apply table_ext. intros f _. rewrite hole_nodes_of_snoc. auto.
    - rewrite hole_facet_count_snoc. rewrite (proj1 (proj2 (nothing_yet cs L))); auto. unfold below. lia.
  Qed.
  Lemma addHoleFacet_ok k : below k (hole_count cs) -> addHoleFacet (handleOf D (built cs)) k = Ok (handleOf D (built (cs ++ [AddHoleFacet k])), Z.of_nat (hole_facet_count cs k)).
  Proof.
    intros H. unfold addHoleFacet. rewrite chosen_of. cbn [bind holes built]. unfold at_upd. rewrite at_in by auto. cbn [bind].
    set (G := fun j => table (hole_facet_count (cs ++ [AddHoleFacet k]) j) (hole_nodes_of (cs ++ [AddHoleFacet k]) j)).
    assert (Gk : G k = table (hole_facet_count cs k) (hole_nodes_of cs k) ++ [[]]).
    { unfold G. rewrite hole_facet_count_snoc, Z.eqb_refl, table_snoc. f_equal.
      - apply table_ext. intros. rewrite hole_nodes_of_snoc. auto.
      - rewrite hole_nodes_of_snoc. rewrite (proj2 (proj2 (nothing_yet cs L))); auto. unfold below. lia. }
    rewrite (set_in _ _ G); auto.
    - cbn [bind]. rewrite (size_t_pos k (hole_count cs)) by auto. unfold get. unfold below in H. rewrite table_nth by lia. cbn [bind].
      rewrite Z2Nat.id by lia. rewrite Gk, app_length, table_length, store_of. f_equal. f_equal; [|cbn; lia]. f_equal.
      unfold built. rewrite facet_count_snoc, hole_count_snoc. fold G. f_equal. cbn [facets]. apply table_ext. intros. rewrite nodes_of_snoc. auto.
    - intros j J. unfold G. rewrite hole_facet_count_snoc. destruct (Z.eqb_spec k j); [congruence|]. apply table_ext. intros. rewrite hole_nodes_of_snoc. auto.
  Qed.
  Lemma addHoleFacet_bad k : isInt k -> ~ below k (hole_count cs) -> addHoleFacet (handleOf D (built cs)) k = Abort.
  Proof. intros I H. unfold addHoleFacet. rewrite chosen_of. cbn [bind holes built]. unfold at_upd. rewrite at_out by auto. reflexivity. Qed.
  Lemma addHoleFacetNode_ok k f n : below k (hole_count cs) -> below f (hole_facet_count cs k) ->
    addHoleFacetNode (handleOf D (built cs)) k f n = Ok (handleOf D (built (cs ++ [AddHoleFacetNode k f n]))).
  Proof.
    intros H F. unfold addHoleFacetNode. rewrite chosen_of. cbn [bind holes built]. rewrite at_in by auto. cbn [bind]. unfold at_upd. rewrite at_in by auto. cbn [bind].
    set (c := AddHoleFacetNode k f n). rewrite (set_in _ _ (hole_nodes_of (cs ++ [c]) k)); auto.
    - cbn [bind]. rewrite (set_in _ _ (fun j => table (hole_facet_count (cs ++ [c]) j) (hole_nodes_of (cs ++ [c]) j))); auto.
      + cbn [bind]. rewrite store_of. unfold built. rewrite facet_count_snoc, hole_count_snoc. unfold c at 1 3. f_equal. f_equal. f_equal. cbn [facets].
        apply table_ext. intros. rewrite nodes_of_snoc. auto.
      + intros j J. rewrite hole_facet_count_snoc. apply table_ext. intros g _. rewrite hole_nodes_of_snoc. cbn. destruct (Z.eqb_spec k j); [congruence|]. apply app_nil_r.
      + rewrite hole_facet_count_snoc. auto.
    - intros g G. rewrite hole_nodes_of_snoc. cbn. rewrite Z.eqb_refl. destruct (Z.eqb_spec f g); [congruence|]. apply app_nil_r.
    - rewrite hole_nodes_of_snoc. cbn. rewrite !Z.eqb_refl. auto.
  Qed.
  Lemma addHoleFacetNode_bad k f n : isInt k -> isInt f -> ~ (below k (hole_count cs) /\ below f (hole_facet_count cs k)) ->
    addHoleFacetNode (handleOf D (built cs)) k f n = Abort.
  Proof.
    intros I J H. unfold addHoleFacetNode. rewrite chosen_of. cbn [bind holes built]. destruct (below_dec k (hole_count cs)) as [K|K].
    - rewrite at_in by auto. cbn [bind]. unfold at_upd. rewrite at_out; auto.
    - rewrite at_out by auto. reflexivity.
  Qed.
  Lemma clear_ok : plcClear (handleOf D (built cs)) = Ok (handleOf D (built (cs ++ [Clear]))).
  Proof. unfold built at 2. rewrite facet_count_snoc, hole_count_snoc. unfold handleOf, plcClear. destruct (D =? 2)%Z; auto. Qed.
  Lemma do_call_ok c : Names cs c -> do_call (handleOf D (built cs)) c = Ok (handleOf D (built (cs ++ [c]))).
  Proof.
    intros N. destruct c; cbn [do_call Names] in *.
    - rewrite addFacet_ok. auto.
    - apply addFacetNode_ok; auto.
    - rewrite addHole_ok; auto.
    - rewrite addHoleFacet_ok; auto.
    - apply addHoleFacetNode_ok; tauto.
    - apply clear_ok.
  Qed.
  Lemma do_call_bad c : Ints c -> ~ Names cs c -> do_call (handleOf D (built cs)) c = Abort.
  Proof.
    intros I N. destruct c; cbn [do_call Names Ints] in *; try tauto.
    - apply addFacetNode_bad; tauto.
    - rewrite addHoleFacet_bad; auto.
    - apply addHoleFacetNode_bad; tauto.
  Qed.
  (* queries *)
  Lemma numFacetNodes_ok f : below f (facet_count cs) -> numFacetNodes (handleOf D (built cs)) f = Ok (Z.of_nat (length (nodes_of cs f))).
  Proof. intros H. unfold numFacetNodes. rewrite chosen_of. cbn [bind facets built]. rewrite at_in; auto. Qed.
  Lemma getFacetNodes_ok f buf : below f (facet_count cs) -> length (nodes_of cs f) <= length buf ->
    getFacetNodes (handleOf D (built cs)) f buf = Ok (nodes_of cs f ++ skipn (length (nodes_of cs f)) buf).
  Proof. intros H K. unfold getFacetNodes. rewrite chosen_of. cbn [bind facets built]. rewrite at_in by auto. cbn [bind]. unfold copy_to. apply Nat.leb_le in K. rewrite K. auto. Qed.
  Lemma numHoleFacets_ok k : below k (hole_count cs) -> numHoleFacets (handleOf D (built cs)) k = Ok (Z.of_nat (hole_facet_count cs k)).
  Proof. intros H. unfold numHoleFacets. rewrite chosen_of. cbn [bind holes built]. rewrite at_in by auto. cbn [bind]. rewrite table_length. auto. Qed.
  Lemma numHoleFacetNodes_ok k f : below k (hole_count cs) -> below f (hole_facet_count cs k) ->
    numHoleFacetNodes (handleOf D (built cs)) k f = Ok (Z.of_nat (length (hole_nodes_of cs k f))).
  Proof. intros H F. unfold numHoleFacetNodes. rewrite chosen_of. cbn [bind holes built]. rewrite at_in by auto. cbn [bind]. rewrite at_in by auto. auto. Qed.
  Lemma getHoleFacetNodes_ok k f buf : below k (hole_count cs) -> below f (hole_facet_count cs k) -> length (hole_nodes_of cs k f) <= length buf ->
    getHoleFacetNodes (handleOf D (built cs)) k f buf = Ok (hole_nodes_of cs k f ++ skipn (length (hole_nodes_of cs k f)) buf).
  Proof.
    intros H F K. unfold getHoleFacetNodes. rewrite chosen_of. cbn [bind holes built]. rewrite at_in by auto. cbn [bind]. rewrite at_in by auto. cbn [bind].
    unfold copy_to. apply Nat.leb_le in K. rewrite K. auto.
  Qed.
End Step.

Lemma history_ok D cs : (D = 2 \/ D = 3)%Z -> Legal cs -> big (length cs) -> history D cs = Ok (handleOf D (built cs)).
Proof.
  intros HD. unfold history. assert (plcNew D = Ok (handleOf D (built []))) as ->. { destruct HD as [-> | ->]; reflexivity. }
  cbn [bind]. induction cs as [|c cs IH] using rev_ind; intros L B; [reflexivity|]. apply legal_inv in L as [L N].
  rewrite app_length in B. cbn in B. rewrite mfold_app, IH; auto; [|unfold big in *; lia]. cbn [bind mfold].
  rewrite do_call_ok; auto. unfold big in *. lia.
Qed.
Lemma history_bad D cs : (D = 2 \/ D = 3)%Z -> ~ Legal cs -> Forall Ints cs -> big (length cs) -> history D cs = Abort.
Proof.
  intros HD N I B. induction cs as [|c cs IH] using rev_ind; [destruct N; constructor|].
  apply Forall_app in I as [I I1]. inversion I1; subst. rewrite app_length in B. cbn in B.
  assert (B' : big (length cs)) by (unfold big in *; lia). unfold history in *.
  assert (ND : Legal cs \/ ~ Legal cs).
  { clear -B'. induction cs as [|c cs IH] using rev_ind; [left; constructor|]. rewrite app_length in B'. cbn in B'.
    destruct IH as [L|L]; [unfold big in *; lia| |right; intros Q; apply legal_inv in Q; tauto].
    assert (Names cs c \/ ~ Names cs c) as [Q|Q]; [|left; constructor; auto|right; intros R; apply legal_inv in R; tauto].
    destruct c; cbn; auto using below_dec. destruct (below_dec hole (hole_count cs)), (below_dec facet (hole_facet_count cs hole)); tauto. }
  destruct ND as [L|L].
  - pose proof (history_ok D cs HD L B') as H0. unfold history in H0. destruct (plcNew D) as [h| | |]; try discriminate. cbn [bind] in *.
    rewrite mfold_app, H0. cbn [bind mfold]. rewrite do_call_bad; auto. intros Q. apply N. constructor; auto.
  - specialize (IH L I B'). destruct (plcNew D) as [h| | |]; try discriminate; auto. cbn [bind] in *. rewrite mfold_app, IH. auto.
Qed.

Lemma forallb_table {A} (p : A -> bool) n g : forallb p (table n g) = true <-> forall i, below i n -> p (g i) = true.
Proof.
  rewrite forallb_forall. unfold table. split.
  - intros H i I. apply H. apply in_map_iff. exists (Z.to_nat i). unfold below in I. rewrite Z2Nat.id by lia. split; auto. apply in_seq. lia.
  - intros H x I. apply in_map_iff in I as (i & <- & I). apply in_seq in I. apply H. unfold below. lia.
Qed.
