From Verif Require Import Base BaseFacts SerializeModel MeshModel OffModel OffSpec.
From Coq Require Import Lia.

Section Proofs.
  Context {V : Type}.
  Lemma reals_map (l : list V) : reals (map WReal l) = Some l.
  Proof. induction l as [|v l IH]; cbn; [|rewrite IH]; auto. Qed.
  Lemma nums_map (l : list Z) : nums (V := V) (map WNum l) = Some l.
  Proof. induction l as [|v l IH]; cbn; [|rewrite IH]; auto. Qed.
  Lemma facet_back (f : list Z) : facet (V := V) (WNum (Z.of_nat (length f)) :: map WNum f) = Some f.
  Proof. unfold facet. cbn [nums]. rewrite nums_map, Z.eqb_refl. auto. Qed.
  Lemma entries_app {X} (parse : list (word V) -> option X) ls xs rest : Forall2 (fun l x => parse l = Some x) ls xs -> entries parse (length xs) (ls ++ rest) = Some (xs, rest).
  Proof. induction 1 as [|l x ls xs H F IH]; cbn; [destruct rest; auto|]. rewrite H, IH. auto. Qed.
  (* the points *)
  Definition chunk (D : nat) (coords : list V) (i : nat) : list V := firstn D (skipn (D * i) coords).
  Lemma slice_ok (l : list V) D : forall k, k + D <= length l -> mmap (fun j => do x <- get l (k + j); Ok (WReal x)) (seq 0 D) = Ok (map WReal (firstn D (skipn k l))).
  Proof.
    intros k L. assert (G : forall n, n <= D -> mmap (fun j => do x <- get l (k + j); Ok (WReal x)) (seq (D - n) n) = Ok (map WReal (firstn n (skipn (k + (D - n)) l)))).
    { induction n as [|n IH]; intros N; [reflexivity|]. cbn [seq mmap].
      destruct (nth_error_ex l (k + (D - S n))) as (x & X); [lia|].
      assert (SK : skipn (k + (D - S n)) l = x :: skipn (S (k + (D - S n))) l).
      { clear -X. revert X. generalize (k + (D - S n)). intros q. revert l. induction q as [|q IH]; intros [|y l]; cbn; try discriminate; intros H; [congruence|]. apply IH; auto. }
      rewrite (proj2 (get_ok _ _ _) X). cbn [bind]. replace (S (D - S n)) with (D - n) by lia. rewrite IH by lia.
      rewrite SK. cbn [firstn map bind]. replace (S (k + (D - S n))) with (k + (D - n)) by lia. auto. }
    specialize (G D (le_n D)). rewrite Nat.sub_diag, Nat.add_0_r in G. auto.
  Qed.
  Lemma point_lines_ok D (coords : list V) : 0 < D -> length coords mod D = 0 ->
    point_lines D coords = Ok (map (fun i => map WReal (chunk D coords i)) (seq 0 (length coords / D))).
  Proof.
    intros P M. unfold point_lines. apply mmap_ok. intros i I. apply in_seq in I. apply slice_ok.
    pose proof (Nat.div_mod (length coords) D ltac:(lia)). nia.
  Qed.
  Lemma chunks_concat D (coords : list V) : forall n, length coords = D * n -> concat (map (chunk D coords) (seq 0 n)) = coords.
  Proof.
    intros n. revert coords. induction n as [|n IH]; intros coords L.
    { destruct coords; cbn in *; auto. lia. }
    cbn [seq map concat]. rewrite <- seq_shift, map_map. rewrite (map_ext _ (chunk D (skipn D coords))).
    { rewrite IH; [|rewrite skipn_length; lia]. unfold chunk. rewrite Nat.mul_0_r. cbn [skipn]. apply firstn_skipn. }
    intros a. unfold chunk. rewrite skipn_skipn. f_equal. f_equal. lia.
  Qed.
  Lemma facet_lines_ok D fs ls : mmap (facet_line (V := V) D) fs = Ok ls ->
    ls = map (fun f => WNum (Z.of_nat (length f)) :: map WNum f) fs /\ (D = 2 -> Forall (fun f => length f = 2) fs).
  Proof.
    intros H. apply mmap_inv in H. induction H as [|f l fs ls H F IH]; [cbn; auto|].
    unfold facet_line in H. apply bind_ok in H as (u & A & H). apply assert_ok in A. injection H as <-.
    destruct IH as [-> G]. split; [reflexivity|]. intros ->. constructor; auto. cbn [Nat.eqb] in A. apply Nat.eqb_eq; auto.
  Qed.
  Lemma facet_lines_total D fs : (D = 2 -> Forall (fun f => length f = 2) fs) ->
    mmap (facet_line (V := V) D) fs = Ok (map (fun f => WNum (Z.of_nat (length f)) :: map WNum f) fs).
  Proof.
    intros H. apply mmap_ok. intros f I. unfold facet_line. destruct (Nat.eqb_spec D 2) as [E|E]; [|reflexivity].
    specialize (H E). rewrite Forall_forall in H. rewrite (H _ I). reflexivity.
  Qed.
  (* the edges *)
  Definition two (f : list Z) : Prop := exists a b, f = [a; b] /\ a <> b.
  Lemma edge_step es f : two f ->
    match f with [a; b] => do e <- hash_edge a b; Ok (if in_dec zpair_dec e es then es else es ++ [e]) | _ => Abort end
    = Ok (match f with [a; b] => let e := if (a <? b)%Z then (a, b) else (b, a) in if in_dec zpair_dec e es then es else es ++ [e] | _ => es end).
  Proof. intros (a & b & -> & N). unfold hash_edge. apply Z.eqb_neq in N. rewrite N. reflexivity. Qed.
  Lemma edge_set_two fs : forall es0 es, mfold (fun es f => match f with [a; b] => do e <- hash_edge a b; Ok (if in_dec zpair_dec e es then es else es ++ [e]) | _ => Abort end) fs es0 = Ok es ->
    Forall two fs.
  Proof.
    induction fs as [|f fs IH]; intros es0 es H; [constructor|]. cbn [mfold] in H. apply bind_ok in H as (es1 & E & H).
    constructor; [|eapply IH; eauto]. destruct f as [|a [|b [|]]]; try discriminate. exists a, b. split; auto.
    apply bind_ok in E as (e & E & _). unfold hash_edge in E. apply bind_ok in E as (u & E & _). apply assert_ok in E.
    apply Bool.negb_true_iff, Z.eqb_neq in E. auto.
  Qed.
  Definition EC (fs : list (list Z)) (es : list (Z * Z)) : Prop := NoDup es /\
    (forall a b, In (a, b) es -> (a <= b)%Z /\ (In [a; b] fs \/ In [b; a] fs)) /\
    (forall a b, In [a; b] fs -> In (a, b) es \/ In (b, a) es).
  Lemma edge_set_ok fs : Forall two fs -> exists es, edge_set fs = Ok es /\ EC fs es.
  Proof.
    unfold edge_set. induction fs as [|f fs IH] using rev_ind; intros T.
    { exists []. split; [reflexivity|]. split; [constructor|]. split; cbn; tauto. }
    apply Forall_app in T as [T T1]. inversion T1 as [|? ? T2 _]; subst. destruct (IH T) as (es & E & N & IN & OUT). clear IH.
    rewrite mfold_app, E. cbn [bind mfold]. rewrite edge_step by auto. cbn [bind]. destruct T2 as (a & b & -> & AB). cbv zeta.
    eexists. split; [reflexivity|]. set (e := if (a <? b)%Z then (a, b) else (b, a)).
    assert (EE : e = (a, b) /\ (a < b)%Z \/ e = (b, a) /\ (b < a)%Z). { unfold e. destruct (Z.ltb_spec a b); [left|right]; split; auto; lia. }
    clearbody e. assert (IN' : forall c d, In (c, d) es -> (c <= d)%Z /\ (In [c; d] (fs ++ [[a; b]]) \/ In [d; c] (fs ++ [[a; b]]))).
    { intros c d I. destruct (IN _ _ I) as [G Q]. split; auto. rewrite !in_app_iff. tauto. }
    destruct (in_dec zpair_dec e es) as [I|I].
    - split; auto. split; auto. intros c d J. apply in_app_iff in J as [J|[J|[]]]; [auto|]. injection J as -> ->.
      destruct EE as [[-> _] | [-> _]]; auto.
    - split; [|split].
      + apply NoDup_rev in N. rewrite <- (rev_involutive (es ++ [e])). apply NoDup_rev. rewrite rev_app_distr. cbn. constructor; auto. intros J. apply I, in_rev; auto.
      + intros c d J. apply in_app_iff in J as [J|[J|[]]]; [auto|]. destruct EE as [[E1 L] | [E1 L]]; rewrite E1 in J; injection J as -> ->;
          (split; [lia|]); rewrite !in_app_iff; cbn; tauto.
      + intros c d J. rewrite !in_app_iff. apply in_app_iff in J as [J|[J|[]]]; [destruct (OUT _ _ J); auto|]. injection J as -> ->.
        destruct EE as [[-> _] | [-> _]]; cbn; tauto.
  Qed.
End Proofs.
