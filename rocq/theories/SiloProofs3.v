(* Proofs about the names in a parallel run. *)
From Coq Require Import String Ascii DecimalString Decimal DecimalNat.
From Verif Require Import Base BaseFacts SerializeModel MeshModel HullProofs3 SiloModel SiloSpec.
Local Open Scope string_scope.
Local Open Scope nat_scope.

Lemma dec_inj a b : dec a = dec b -> a = b.
Proof.
  unfold dec. intros H. apply (f_equal NilEmpty.uint_of_string) in H. rewrite !NilEmpty.usu in H. injection H as H.
  rewrite <- (Unsigned.of_to a), <- (Unsigned.of_to b), H. auto.
Qed.
Lemma sapp_assoc (a b c : string) : ((a ++ b) ++ c = a ++ b ++ c)%string.
Proof. induction a; cbn; congruence. Qed.
Lemma sapp_len (a b : string) : String.length (a ++ b) = String.length a + String.length b.
Proof. induction a; cbn; congruence. Qed.
Lemma sapp_inj_l (a b c : string) : (a ++ b = a ++ c)%string -> b = c.
Proof. induction a; cbn; intros H; auto. injection H as H. auto. Qed.
Lemma sapp_inj_r (a b c : string) : (a ++ c = b ++ c)%string -> a = b.
Proof.
  assert (forall a b c d, String.length a = String.length b -> (a ++ c = b ++ d)%string -> a = b) as G.
  { intros x. induction x as [|k x IH]; intros [|k' y] c' d L E; try discriminate; auto. cbn in *. injection E as -> E. f_equal. eauto. }
  intros H. apply (G _ _ c c); auto. apply (f_equal String.length) in H. rewrite !sapp_len in H. lia.
Qed.
Lemma substring_all n s : String.length s <= n -> substring 0 n s = s.
Proof. revert n. induction s as [|a s IH]; intros [|n] L; cbn in *; auto; [lia|]. f_equal. apply IH. lia. Qed.
Lemma fmt_id s : String.length s < 1024 -> fmt s = s.
Proof. intros. apply substring_all. lia. Qed.

(* ---- groups ---- *)
Section Groups.
  Context (nproc nf : nat) (F0 : 0 < nf) (Fn : nf <= nproc).
  Lemma size_pos : 0 < nproc / nf.
  Proof. apply Nat.div_str_pos; lia. Qed.
  Lemma split_le : split_at nproc nf <= nproc.
  Proof. unfold split_at. pose proof (Nat.div_mod nproc nf ltac:(lia)). pose proof (Nat.mod_upper_bound nproc nf ltac:(lia)). nia. Qed.
  Lemma rest_eq : nproc = split_at nproc nf + (nf - nproc mod nf) * (nproc / nf).
  Proof. unfold split_at. pose proof (Nat.div_mod nproc nf ltac:(lia)). pose proof (Nat.mod_upper_bound nproc nf ltac:(lia)). nia. Qed.
  Lemma group_lt r : r < nproc -> groupRank nproc nf r < nf /\ rankInGroup nproc nf r < nproc.
  Proof.
    intros R. pose proof size_pos as P. pose proof rest_eq as Q. pose proof (Nat.mod_upper_bound nproc nf ltac:(lia)) as M. unfold groupRank, rankInGroup. destruct (Nat.ltb_spec r (split_at nproc nf)) as [S|S].
    - split.
      + assert (r / (nproc / nf + 1) < nproc mod nf) by (apply Nat.div_lt_upper_bound; [lia|]; unfold split_at in S; nia). lia.
      + pose proof (Nat.mod_le r (nproc / nf + 1) ltac:(lia)). lia.
    - split.
      + assert ((r - split_at nproc nf) / (nproc / nf) < nf - nproc mod nf) by (apply Nat.div_lt_upper_bound; nia). lia.
      + pose proof (Nat.mod_le (r - split_at nproc nf) (nproc / nf) ltac:(lia)). lia.
  Qed.
  Lemma group_inj r r' : r < nproc -> r' < nproc -> groupRank nproc nf r = groupRank nproc nf r' -> rankInGroup nproc nf r = rankInGroup nproc nf r' -> r = r'.
  Proof.
    intros R R'. pose proof size_pos as P. unfold groupRank, rankInGroup.
    pose proof (Nat.div_mod r (nproc / nf + 1) ltac:(lia)). pose proof (Nat.div_mod r' (nproc / nf + 1) ltac:(lia)).
    pose proof (Nat.div_mod (r - split_at nproc nf) (nproc / nf) ltac:(lia)). pose proof (Nat.div_mod (r' - split_at nproc nf) (nproc / nf) ltac:(lia)).
    assert (L : forall q, q < split_at nproc nf -> q / (nproc / nf + 1) < nproc mod nf) by (intros q Q; apply Nat.div_lt_upper_bound; [lia|]; unfold split_at in Q; nia).
    destruct (Nat.ltb_spec r (split_at nproc nf)) as [S|S], (Nat.ltb_spec r' (split_at nproc nf)) as [S'|S']; intros G I.
    - congruence.
    - apply L in S. rewrite G in S. destruct (Nat.lt_irrefl (nproc mod nf)). exact (Nat.le_lt_trans _ _ _ (Nat.le_add_r _ _) S).
    - apply L in S'. rewrite <- G in S'. destruct (Nat.lt_irrefl (nproc mod nf)). exact (Nat.le_lt_trans _ _ _ (Nat.le_add_r _ _) S').
    - assert ((r - split_at nproc nf) / (nproc / nf) = (r' - split_at nproc nf) / (nproc / nf)) by exact (proj1 (Nat.add_cancel_l _ _ _) G). assert (r - split_at nproc nf = r' - split_at nproc nf) by congruence. lia.
  Qed.
  Lemma group_even r : nproc mod nf = 0 -> groupRank nproc nf r = r / (nproc / nf) /\ rankInGroup nproc nf r = r mod (nproc / nf).
  Proof. intros E. unfold groupRank, rankInGroup, split_at. rewrite E. cbn [Nat.mul Nat.add]. rewrite Nat.sub_0_r. destruct (Nat.ltb_spec r 0); [lia|auto]. Qed.
End Groups.

(* ---- lists by rank ---- *)
Lemma nth_flat {A} (g : nat -> nat -> A) k : 0 < k -> forall n s r, r < n * k -> nth_error (flat_map (fun i => map (g i) (seq 0 k)) (seq s n)) r = Some (g (s + r / k) (r mod k)).
Proof.
  intros K. induction n as [|n IH]; intros s r R; [lia|]. cbn [seq flat_map]. destruct (Nat.lt_ge_cases r k).
  - rewrite nth_error_app1 by (rewrite map_length, seq_length; auto). rewrite nth_error_map, (nth_error_nth' _ 0), seq_nth by (rewrite ?seq_length; auto). cbn. rewrite Nat.div_small, Nat.mod_small, Nat.add_0_r; auto.
  - rewrite nth_error_app2 by (rewrite map_length, seq_length; auto). rewrite map_length, seq_length, IH by nia.
    assert (r = r - k + 1 * k) as E by lia. rewrite E at 3 4. rewrite Nat.div_add, Nat.mod_add by lia. f_equal. f_equal. lia.
Qed.
Lemma flat_len {A} (g : nat -> nat -> A) k n s : length (flat_map (fun i => map (g i) (seq 0 k)) (seq s n)) = n * k.
Proof. revert s. induction n as [|n IH]; intros s; cbn; auto. rewrite app_length, map_length, seq_length, IH. auto. Qed.

Section Vars.
  Lemma append_ok (name : string -> string) fields : forall k vs, k + length fields <= length vs ->
    exists vs', appendFieldNames name (k, vs) fields = Ok (k + length fields, vs') /\ length vs' = length vs /\
      forall i l, nth_error vs i = Some l -> nth_error vs' i = Some (l ++ match (if i <? k then None else nth_error fields (i - k)) with Some f => [name f] | None => [] end)%list.
  Proof.
    induction fields as [|f t IH]; intros k vs L; cbn [appendFieldNames mfold].
    - exists vs. rewrite Nat.add_0_r. split; auto. split; auto. intros i l H. destruct (i <? k); [rewrite app_nil_r; auto|]. destruct (i - k); cbn; rewrite app_nil_r; auto.
    - cbn [length] in L. cbn [fst snd]. destruct (nth_error_ex vs k) as [l0 H0]; [lia|]. rewrite (proj2 (get_ok _ _ _) H0). cbn [bind]. rewrite set_lt by lia. cbn [bind].
      destruct (IH (S k) (upd vs k (l0 ++ [name f])%list)) as (vs' & E & L' & H'); [rewrite upd_length; lia|]. unfold appendFieldNames in E. rewrite E. exists vs'. split; [cbn [length]; do 2 f_equal; lia|]. split; [rewrite L', upd_length; auto|].
      intros i l H. destruct (Nat.eq_dec i k) as [->|N].
      + assert (l = l0) by congruence. subst l. rewrite (H' k (l0 ++ [name f])%list) by (apply upd_same; lia). destruct (Nat.ltb_spec k (S k)); [|lia]. destruct (Nat.ltb_spec k k); [lia|]. rewrite Nat.sub_diag, app_nil_r. auto.
      + rewrite (H' i l) by (rewrite upd_other; auto). destruct (Nat.ltb_spec i k), (Nat.ltb_spec i (S k)); try lia; auto. replace (i - k) with (S (i - S k)) by lia. auto.
  Qed.
  Lemma append_all (name : string -> string) maps : forall k vs, k + length (List.concat maps) <= length vs ->
    exists vs', mfold (appendFieldNames name) maps (k, vs) = Ok (k + length (List.concat maps), vs') /\ length vs' = length vs /\
      forall i l, nth_error vs i = Some l -> nth_error vs' i = Some (l ++ match (if i <? k then None else nth_error (List.concat maps) (i - k)) with Some f => [name f] | None => [] end)%list.
  Proof.
    induction maps as [|fs t IH]; intros k vs L; cbn [List.concat mfold].
    - exists vs. rewrite Nat.add_0_r. split; auto. split; auto. intros i l H. destruct (i <? k); [rewrite app_nil_r; auto|]. destruct (i - k); cbn; rewrite app_nil_r; auto.
    - cbn [List.concat] in L. rewrite app_length in *. destruct (append_ok name fs k vs) as (v1 & E1 & L1 & H1); [lia|]. rewrite E1. cbn [bind].
      destruct (IH (k + length fs) v1) as (v2 & E2 & L2 & H2); [lia|]. rewrite E2. exists v2. split; [do 2 f_equal; lia|]. split; [lia|].
      intros i l H. apply H1 in H. apply H2 in H. rewrite H. f_equal. rewrite <- app_assoc. f_equal. destruct (Nat.ltb_spec i k), (Nat.ltb_spec i (k + length fs)); try lia; auto.
      + rewrite nth_error_app1 by lia. rewrite app_nil_r. auto.
      + rewrite (proj2 (nth_error_None fs _)) by lia. rewrite nth_error_app2 by lia. cbn. replace (i - k - length fs) with (i - (k + length fs)) by lia. auto.
  Qed.
  Lemma varNames_ok names maps : exists vs, varNames names maps = Ok vs /\ length vs = length (List.concat maps) /\
    forall i f, nth_error (List.concat maps) i = Some f -> nth_error vs i = Some (map (fun name => name f) names).
  Proof.
    unfold varNames. destruct (mfold_inv (fun vs name => do st <- mfold (appendFieldNames name) maps (0, vs); Ok (snd st))
      (fun done vs => length vs = length (List.concat maps) /\ forall i f, nth_error (List.concat maps) i = Some f -> nth_error vs i = Some (map (fun name => name f) done)) names (repeat [] (length (List.concat maps)))) as (vs & E & H).
    - split; [apply repeat_length|]. intros i f H. apply nth_error_repeat. eapply nth_error_lt; eauto.
    - intros l1 name l2 vs _ [L H]. destruct (append_all name maps 0 vs) as (v & E & Lv & Hv); [lia|]. rewrite E. cbn [bind snd]. exists v. split; auto. split; [lia|].
      intros i f Hf. rewrite (Hv i _ (H i f Hf)). destruct (Nat.ltb_spec i 0); [lia|]. rewrite Nat.sub_0_r, Hf, map_app. auto.
    - exists vs. tauto.
  Qed.
  Lemma put_ok names fields : forall k out, k + length fields <= length names -> 
    exists out', putMultivar names (k, out) fields = Ok (k + length fields, out ++ out')%list /\ length out' = length fields /\
      forall i f l, nth_error fields i = Some f -> nth_error names (k + i) = Some l -> nth_error out' i = Some (f, l).
  Proof.
    induction fields as [|f t IH]; intros k out L; cbn [putMultivar mfold].
    - exists []. rewrite Nat.add_0_r, app_nil_r. split; auto. split; auto. intros [|i]; discriminate.
    - cbn [length] in L. cbn [fst snd]. destruct (nth_error_ex names k) as [l0 H0]; [lia|]. rewrite (proj2 (get_ok _ _ _) H0). cbn [bind].
      destruct (IH (S k) (out ++ [(f, l0)])%list) as (o & E & Lo & Ho); [lia|]. unfold putMultivar in E. rewrite E. exists ((f, l0) :: o). split; [rewrite <- app_assoc; cbn; do 2 f_equal; lia|]. split; [cbn; lia|].
      intros [|i] f' l Hf Hl; [rewrite Nat.add_0_r in Hl; cbn in *; congruence|]. cbn [nth_error] in Hf |- *. apply Ho; auto. replace (S k + i) with (k + S i) by lia. auto.
  Qed.
  Lemma put_all names maps : forall k out, k + length (List.concat maps) <= length names -> 
    exists out', mfold (putMultivar names) maps (k, out) = Ok (k + length (List.concat maps), out ++ out')%list /\ length out' = length (List.concat maps) /\
      forall i f l, nth_error (List.concat maps) i = Some f -> nth_error names (k + i) = Some l -> nth_error out' i = Some (f, l).
  Proof.
    induction maps as [|fs t IH]; intros k out L; cbn [List.concat mfold].
    - exists []. rewrite Nat.add_0_r, app_nil_r. split; auto. split; auto. intros [|i]; discriminate.
    - cbn [List.concat] in L. rewrite app_length in *. destruct (put_ok names fs k out) as (o1 & E1 & L1 & H1); [lia|]. rewrite E1. cbn [bind].
      destruct (IH (k + length fs) (out ++ o1)%list) as (o2 & E2 & L2 & H2); [lia|]. rewrite E2. exists (o1 ++ o2)%list. rewrite app_assoc. split; [do 2 f_equal; lia|]. split; [rewrite app_length; lia|].
      intros i f l Hf Hl. destruct (Nat.lt_ge_cases i (length fs)).
      + rewrite nth_error_app1 in Hf by auto. rewrite nth_error_app1 by lia. auto.
      + rewrite nth_error_app2 in Hf by auto. rewrite nth_error_app2 by lia. rewrite L1. apply H2; auto. replace (k + length fs + (i - length fs)) with (k + i) by lia. auto.
  Qed.
  Lemma multivars_ok names maps : multivars names maps = Ok (map (fun f => (f, map (fun name => name f) names)) (List.concat maps)).
  Proof.
    unfold multivars. destruct (varNames_ok names maps) as (vs & -> & L & H). cbn [bind]. destruct (put_all vs maps 0 []) as (o & -> & Lo & Ho); [lia|]. cbn [bind snd app]. f_equal.
    apply nth_error_ext. intros i. rewrite nth_error_map. destruct (nth_error (List.concat maps) i) as [f|] eqn:E; cbn.
    - apply (Ho i f); auto.
    - apply nth_error_None. apply nth_error_None in E. lia.
  Qed.
End Vars.

Section Files.
  Context (directory filePrefix : string) (cycle : Z) (nproc nf : nat) (F0 : 0 < nf) (Fn : nf <= nproc).
  Context (field : string) (Ft : Fits directory filePrefix cycle nproc field).
  Lemma fits_parts i c : i < nproc -> c < nproc ->
    masterDir directory filePrefix nproc = (if string_dec directory "" then filePrefix ++ "-" ++ dec nproc else directory)%string /\
    groupDir directory filePrefix nproc i = (masterDir directory filePrefix nproc ++ "/" ++ dec i)%string /\
    fmt (groupDir directory filePrefix nproc i ++ "/" ++ strip filePrefix ++ ending cycle) = (masterDir directory filePrefix nproc ++ "/" ++ dec i ++ "/" ++ strip filePrefix ++ ending cycle)%string /\
    fmt ("domain_" ++ dec c) = ("domain_" ++ dec c)%string /\
    masterVar filePrefix cycle i c field = (dec i ++ "/" ++ strip filePrefix ++ ending cycle ++ ":/domain_" ++ dec c ++ "/" ++ field)%string /\
    groupVar c field = ("domain_" ++ dec c ++ "/" ++ field)%string.
  Proof.
    intros I C. specialize (Ft i c I C).
    assert (masterDir directory filePrefix nproc = (if string_dec directory "" then filePrefix ++ "-" ++ dec nproc else directory)%string) as M.
    { unfold masterDir. destruct (string_dec directory ""); auto. apply fmt_id. rewrite !sapp_len in *. lia. }
    rewrite <- M in Ft. split; auto.
    assert (groupDir directory filePrefix nproc i = (masterDir directory filePrefix nproc ++ "/" ++ dec i)%string) as G by (apply fmt_id; rewrite !sapp_len in *; lia).
    split; auto. rewrite G. split; [rewrite !sapp_assoc; apply fmt_id; rewrite !sapp_len in *; lia|].
    rewrite !sapp_len in Ft. change (String.length ":/domain_") with 9 in Ft. split; [|split]; apply fmt_id; rewrite !sapp_len; change (String.length ":/domain_") with 9; change (String.length "domain_") with 7; lia.
  Qed.
  Lemma names_ok r : r < nproc -> Names directory filePrefix cycle nproc nf r field (masterVar filePrefix cycle (groupRank nproc nf r) (rankInGroup nproc nf r) field).
  Proof.
    intros R. destruct (group_lt nproc nf F0 Fn r R) as [G I]. destruct (fits_parts (groupRank nproc nf r) (rankInGroup nproc nf r)) as (_ & _ & E1 & E2 & E3 & _); [lia|lia|].
    unfold Names, fileOf, blockOf. rewrite E1, E2, E3. rewrite !sapp_assoc. cbn. auto.
  Qed.
  Lemma blocks_differ r r' : r < nproc -> r' < nproc -> fileOf directory filePrefix cycle nproc nf r = fileOf directory filePrefix cycle nproc nf r' -> blockOf nproc nf r = blockOf nproc nf r' -> r = r'.
  Proof.
    intros R R'. destruct (group_lt nproc nf F0 Fn r R) as [G I]. destruct (group_lt nproc nf F0 Fn r' R') as [G' I'].
    destruct (fits_parts (groupRank nproc nf r) (rankInGroup nproc nf r)) as (_ & _ & E1 & E2 & _ & _); [lia|lia|]. destruct (fits_parts (groupRank nproc nf r') (rankInGroup nproc nf r')) as (_ & _ & E1' & E2' & _ & _); [lia|lia|].
    unfold fileOf, blockOf. rewrite E1, E2, E1', E2'. intros A B. apply sapp_inj_l in A. apply (sapp_inj_l "/") in A. apply sapp_inj_r in A. apply sapp_inj_l in B. apply dec_inj in A. apply dec_inj in B. apply (group_inj nproc nf); auto.
  Qed.
End Files.
