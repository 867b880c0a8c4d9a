(* Exchanging edge masks: choosing the nodes that go, and the ranks together. *)
From Verif Require Import Base BaseFacts StdAlg SerializeModel MeshModel KeyMapModel MeshEditorModel MeshEditorSpec MeshEditorProofs MeshEditorProofs2 MeshEditorProofs4 MeshEditorProofs5 MpiModel MpiSpec ExchangeModel ExchangeProofs2 CheckModel CheckProofs DistModel DistProofs SerialDistProofs2 EdgeMaskModel EdgeMaskSpec EdgeMaskProofs EdgeMaskProofs2.
From Coq Require Import Lia.

Definition stayGo (l : list nat) (a b : nat) : nat * nat :=
  match findIndex l a, findIndex l b with
  | Some p, Some q => if q <? p then (b, a) else (a, b)
  | None, Some _ => (b, a)
  | _, _ => (a, b)
  end.
Lemma stayGo_ok l a b k d : NoDup l -> a <> b -> (StayGo l a b k d <-> stayGo l a b = (k, d)).
Proof.
  intros ND N. assert (Pl : forall x p, nth_error l p = Some x <-> findIndex l x = Some p) by (intros; apply place; auto). assert (No : forall x, findIndex l x = None <-> ~ In x l) by (intros; apply no_place).
  unfold stayGo, StayGo. destruct (findIndex l a) as [p|] eqn:Ea, (findIndex l b) as [q|] eqn:Eb.
  - assert (Ia : In a l) by (apply (nth_error_In l p), Pl; auto). assert (Ib : In b l) by (apply (nth_error_In l q), Pl; auto). apply Pl in Ea, Eb. assert (p <> q) by congruence. split.
    + intros (C & S1 & _). destruct C as [[-> ->]|[-> ->]].
      * destruct (S1 Ib) as (u & v & L & Hu & Hv). rewrite (nodup_nth l u p _ ND Hu Ea), (nodup_nth l v q _ ND Hv Eb) in L. destruct (Nat.ltb_spec q p); [lia|auto].
      * destruct (S1 Ia) as (u & v & L & Hu & Hv). rewrite (nodup_nth l u q _ ND Hu Eb), (nodup_nth l v p _ ND Hv Ea) in L. destruct (Nat.ltb_spec q p); [auto|lia].
    + intros E. destruct (Nat.ltb_spec q p); injection E as <- <-; (split; [auto|split; [|tauto]]); intros _; [exists q, p|exists p, q]; repeat split; auto; lia.
  - assert (Ia : In a l) by (apply (nth_error_In l p), Pl; auto). apply No in Eb. split.
    + intros (C & S1 & _). destruct C as [[-> ->]|[-> ->]]; auto. exfalso. destruct (S1 Ia) as (u & v & _ & Hu & _). apply Eb. eapply nth_error_In; eauto.
    + intros [= <- <-]. split; [auto|]. split; [contradiction|auto].
  - assert (Ib : In b l) by (apply (nth_error_In l q), Pl; auto). apply No in Ea. split.
    + intros (C & S1 & _). destruct C as [[-> ->]|[-> ->]]; auto. exfalso. destruct (S1 Ib) as (u & v & _ & Hu & _). apply Ea. eapply nth_error_In; eauto.
    + intros [= <- <-]. split; [auto|]. split; [contradiction|tauto].
  - apply No in Ea, Eb. split.
    + intros (C & _ & S2). destruct C as [[-> ->]|[-> ->]]; auto. exfalso. apply N. symmetry. auto.
    + intros [= <- <-]. split; [auto|]. split; [contradiction|auto].
Qed.
Lemma mem_find l x : mem x l = match findIndex l x with Some _ => true | None => false end.
Proof.
  destruct (findIndex l x) as [p|] eqn:E.
  - apply mem_in. apply (nth_error_In l p). apply (proj1 (find_index l x)). auto.
  - apply (proj1 (proj2 (find_index l x))) in E. destruct (mem x l) eqn:M; auto. apply mem_in in M. contradiction.
Qed.
Lemma orient_ok nd sn a b : length nd <= 1 -> length sn = length nd -> orient nd sn (a, b) = Ok (stayGo (hd [] sn) a b).
Proof.
  intros L1 L2. destruct nd as [|s [|]]; [| |cbn in L1; lia].
  - destruct sn; [|discriminate]. reflexivity.
  - destruct sn as [|l [|]]; try discriminate. unfold orient, edgeSharers, nodeSharers, stayGo. cbn [length seq filter nth_error hd fst snd]. rewrite !mem_find. destruct (findIndex l a) as [p|] eqn:Ea, (findIndex l b) as [q|] eqn:Eb; cbn; try reflexivity. rewrite Ea, Eb. reflexivity.
Qed.

Section Choose.
  Context (nn : nat) (E : list (nat * nat)) (nd : list nat) (sn : list (list nat)) (em : list nat).
  Hypothesis Ein : forall a b, In (a, b) E -> a < b /\ b < nn.
  Hypothesis L1 : length nd <= 1.
  Hypothesis L2 : length sn = length nd.
  Hypothesis Nl : NoDup (hd [] sn).
  Hypothesis Lem : length em = length E.
  Definition goers (n : nat) : list (nat * nat) := flat_map (fun i => match nth_error em i, nth_error E i with Some 0, Some (a, b) => [stayGo (hd [] sn) a b] | _, _ => [] end) (seq 0 n).
  Lemma goers_S n : goers (n + 1) = goers n ++ match nth_error em n, nth_error E n with Some 0, Some (a, b) => [stayGo (hd [] sn) a b] | _, _ => [] end.
  Proof. unfold goers. rewrite seq_app, flat_map_app. cbn. rewrite app_nil_r. auto. Qed.
  Lemma stayGo_range a b k d : In (a, b) E -> stayGo (hd [] sn) a b = (k, d) -> k < nn /\ d < nn.
  Proof. intros I H. pose proof (Ein _ _ I). unfold stayGo in H. destruct (findIndex _ a), (findIndex _ b); try destruct (_ <? _); injection H as <- <-; lia. Qed.
  Lemma choose_ok : exists nm col, chooseNodes nn (table E) nd sn em = Ok (nm, col) /\ length nm = nn /\ length col = nn /\
    (forall x v, nth_error nm x = Some v -> (v = 0 /\ removed (goers (length E)) x) \/ (v = 1 /\ ~ removed (goers (length E)) x)) /\
    (forall x v, nth_error col x = Some v -> In (v, x) (goers (length E)) \/ (v = x /\ ~ removed (goers (length E)) x)).
  Proof.
    unfold chooseNodes. rewrite table_fst, table_len.
    match goal with |- context [mfold ?f _ _] => destruct (mfold_seq f (fun n '(nm, col) => length nm = nn /\ length col = nn /\
      (forall x v, nth_error nm x = Some v -> (v = 0 /\ removed (goers n) x) \/ (v = 1 /\ ~ removed (goers n) x)) /\
      (forall x v, nth_error col x = Some v -> In (v, x) (goers n) \/ (v = x /\ ~ removed (goers n) x))) (length E) (repeat 1 nn, seq 0 nn)) as ([nm col] & -> & H) end; [| |eauto 10].
    - split; [apply repeat_length|]. split; [apply seq_length|]. split.
      + intros x v H. apply nth_error_In, repeat_spec in H. right. split; auto. intros [k []].
      + intros x v H. right. pose proof (nth_error_lt _ _ _ H) as L. rewrite seq_length in L. rewrite (nth_error_nth' _ 0), seq_nth in H by (rewrite ?seq_length; auto). injection H as <-. split; auto. intros [k []].
    - intros n [nm col] Ln (A1 & A2 & A3 & A4). destruct (nth_error_ex E n Ln) as [[a b] He]. destruct (nth_error_ex em n) as [v Hv]; [lia|]. rewrite (get_nth _ _ _ He), (get_nth _ _ _ Hv). cbn [bind]. rewrite goers_S, Hv, He. destruct v as [|v]; cbn [Nat.eqb].
      + rewrite orient_ok by auto. destruct (stayGo (hd [] sn) a b) as [k d] eqn:Eg. cbn [bind]. destruct (stayGo_range a b k d (nth_error_In _ _ He) Eg) as [Lk Ld]. rewrite set_lt by lia. cbn [bind]. rewrite set_lt by lia. cbn [bind]. eexists. split; [reflexivity|]. cbn beta iota. rewrite !upd_length. split; auto. split; auto.
        assert (R : forall x, removed (goers n ++ [(k, d)]) x <-> removed (goers n) x \/ x = d). { intros x. unfold removed. split; [intros (y & I); apply in_app_iff in I as [I|[I|[]]]; [left; eauto|injection I; auto]|intros [(y & I)|Hx]; [exists y; apply in_app_iff; auto|subst x; exists k; apply in_app_iff; cbn; auto]]. }
        split.
        * intros x w H. rewrite R. destruct (Nat.eq_dec x d) as [->|N]; [rewrite upd_same in H by lia; injection H as <-; auto|]. rewrite upd_other in H by auto. destruct (A3 x w H) as [[-> Rx]|[-> Rx]]; [auto|right; tauto].
        * intros x w H. rewrite R. destruct (Nat.eq_dec x d) as [->|N]; [rewrite upd_same in H by lia; left; apply in_app_iff; right; left; congruence|]. rewrite upd_other in H by auto. destruct (A4 x w H) as [I|[-> Rx]]; [left; apply in_app_iff; auto|right; tauto].
      + eexists. split; [reflexivity|]. cbn beta iota. rewrite app_nil_r. auto.
  Qed.
  Lemma goers_in k d : In (k, d) (goers (length E)) <-> exists i a b, nth_error E i = Some (a, b) /\ nth_error em i = Some 0 /\ StayGo (hd [] sn) a b k d.
  Proof.
    unfold goers. rewrite in_flat_map. split.
    - intros (i & _ & H). destruct (nth_error em i) as [[|]|] eqn:Em; try destruct H. destruct (nth_error E i) as [[a b]|] eqn:Ee; [|destruct H]. destruct H as [H|[]]. exists i, a, b. split; auto. split; auto. apply stayGo_ok; auto. pose proof (Ein _ _ (nth_error_In _ _ Ee)). lia.
    - intros (i & a & b & He & Hm & S). exists i. split; [apply in_seq; pose proof (nth_error_lt _ _ _ He); lia|]. rewrite Hm, He. left. apply stayGo_ok; auto. pose proof (Ein _ _ (nth_error_In _ _ He)). lia.
  Qed.
End Choose.

Lemma total_full em : (forall v, In v em -> v = 0 \/ v = 1) -> (total em = length em <-> ~ In 0 em).
Proof.
  intros B. assert (Le : forall l, (forall v, In v l -> v = 0 \/ v = 1) -> total l <= length l) by (clear; unfold total; induction l as [|v l IH]; intros B; cbn; auto; specialize (IH ltac:(intros; apply B; right; auto)); destruct (B v ltac:(left; auto)); lia).
  induction em as [|v l IH]; [split; auto|]. assert (B' : forall w, In w l -> w = 0 \/ w = 1) by (intros; apply B; right; auto). specialize (IH B'). specialize (Le l B'). cbn [total fold_right length In] in *. unfold total in *. destruct (B v ltac:(left; auto)) as [-> | ->].
  - split; [intros H; exfalso; cbn in H; lia|]. intros N. exfalso. apply N. auto.
  - split; [intros H [X|I]; [discriminate|apply IH; auto; lia]|]. intros N. assert (fold_right Nat.add 0 l = length l) by (apply IH; auto). lia.
Qed.

Section Settle.
  Context (nn : nat) (E : list (nat * nat)) (nd : list nat) (sn : list (list nat)) (em col : list nat) (clean : bool).
  Hypothesis End_ : NoDup E.
  Hypothesis Ein : forall a b, In (a, b) E -> a < b /\ b < nn.
  Hypothesis L1 : length nd <= 1.
  Hypothesis L2 : length sn = length nd.
  Hypothesis Nl : NoDup (hd [] sn).
  Hypothesis Lem : length em = length E.
  Hypothesis Bem : forall v, In v em -> v = 0 \/ v = 1.
  Hypothesis Cl : clean = true -> ~ In 0 em.
  Lemma settle_ok ess theirs em' : mergeMasks nn (table E) nd sn ess theirs em = Ok em' -> length em' = length E -> (forall v, In v em' -> v = 0 \/ v = 1) -> (~ In 0 em -> ~ In 0 em') ->
    exists nm' col' clean' pairs, settle nn (table E) nd sn em col clean ess theirs = Ok (em', nm', col', clean') /\ Settled (mkPiece nn E em nd sn) (hd [] sn) em' nm' col' clean' pairs.
  Proof.
    intros Em Lm Bm Up. unfold settle. rewrite Em. cbn [bind]. cbv zeta. rewrite table_len, <- Lm. 
    assert (GI : forall k d, In (k, d) (goers E sn em' (length E)) <-> exists i a b, nth_error E i = Some (a, b) /\ nth_error em' i = Some 0 /\ StayGo (hd [] sn) a b k d) by (intros; eapply goers_in; eauto).
    assert (Z : clean || (total em' =? length em') = true <-> ~ In 0 em'). { rewrite orb_true_iff, Nat.eqb_eq, total_full by auto. split; [intros [H|H]; auto|auto]. }
    assert (P0 : goers E sn em' (length E) = [] <-> ~ In 0 em'). { split.
      - intros G I. apply In_nth_error in I as [i Hi]. destruct (nth_error_ex E i) as [[a b] He]; [rewrite <- Lm; eapply nth_error_lt; eauto|]. destruct (stayGo (hd [] sn) a b) as [k d] eqn:Eg. assert (In (k, d) (goers E sn em' (length E))); [|rewrite G in *; auto]. apply GI. exists i, a, b. split; auto. split; auto. apply stayGo_ok; auto. pose proof (Ein _ _ (nth_error_In _ _ He)). lia.
      - intros N. destruct (goers E sn em' (length E)) as [|[k d] t] eqn:G; auto. exfalso. assert (I : In (k, d) ((k, d) :: t)) by (left; auto). apply GI in I as (i & a & b & _ & H & _). apply N. eapply nth_error_In; eauto. }
    destruct (clean || (total em' =? length em')) eqn:C.
    - pose proof (proj1 Z eq_refl) as N. apply P0 in N. exists (repeat 1 nn), col, true, []. split; [reflexivity|]. constructor; cbn [pedges pnodes].
      + intros k d. rewrite <- GI, N. reflexivity.
      + auto.
      + tauto.
      + split; [apply repeat_length|]. intros x v H. apply nth_error_In, repeat_spec in H. right. split; auto. intros [k []].
      + discriminate.
    - destruct (choose_ok nn E nd sn em' Ein L1 L2 ltac:(lia)) as (nm' & col' & -> & A1 & A2 & A3 & A4). cbn [bind]. exists nm', col', false, (goers E sn em' (length E)). split; [reflexivity|]. constructor; cbn [pedges pnodes]; auto.
      + split; [discriminate|]. intros G. apply P0, Z in G. discriminate.
  Qed.
End Settle.
