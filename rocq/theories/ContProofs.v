(* Lemmas for ContProps.v. *)
From Verif Require Import Base BaseFacts Plane MeshEditorModel VoroModel CutProofs2 HullModel ContModel ContSpec.
From Coq Require Import QArith Qabs Qround Lqa Psatz Permutation.
Local Open Scope nat_scope.

Lemma step_mod_is a b : (0 < b)%Z -> step_mod a b = (a mod b)%Z.
Proof.
  intros B. unfold step_mod. destruct (Z.leb_spec 0 a) as [A|A]; [apply Z.rem_mod_nonneg; lia|]. rewrite Z.rem_mod_nonneg by lia.
  pose proof (Z.mod_pos_bound a b B) as H. pose proof (Z.div_mod a b ltac:(lia)) as D.
  rewrite <- (Z.mod_unique (b - 1 - a) b (- (a / b)) (b - 1 - a mod b)); [lia|left; lia|]. nia.
Qed.
Lemma step_div_is a b : (0 < b)%Z -> step_div a b = (a / b)%Z.
Proof.
  intros B. unfold step_div. destruct (Z.leb_spec 0 a) as [A|A]; [apply Z.quot_div_nonneg; lia|].
  replace (a + 1)%Z with (- (- a - 1))%Z by lia. rewrite Z.quot_opp_l by lia. rewrite Z.quot_div_nonneg by lia.
  pose proof (Z.div_mod (- a - 1) b ltac:(lia)) as D. pose proof (Z.mod_pos_bound (- a - 1) b B) as M.
  apply (Z.div_unique a b _ (b - 1 - (- a - 1) mod b)); [left; lia|]. nia.
Qed.
Lemma trunc_neg q : (q < 0)%Q -> (trunc q <= 0)%Z /\ (q <= inject_Z (trunc q))%Q /\ (inject_Z (trunc q) < q + 1)%Q.
Proof.
  intros H. assert (E : trunc q = Qceiling q). { unfold trunc. destruct (Qle_bool 0 q) eqn:C; auto. apply Qle_bool_iff in C. lra. }
  rewrite E. pose proof (Qle_ceiling q) as B. pose proof (Qceiling_lt q) as B2. unfold Z.sub in B2. rewrite inject_Z_plus in B2. change (inject_Z (- (1))) with (- (1))%Q in B2. split; [|split; [auto|lra]].
  change 0%Z with (Qceiling 0). apply Qceiling_resp_le. lra.
Qed.
Lemma tr_spec q : (0 <= q)%Q -> (inject_Z (trunc q) <= q < inject_Z (trunc q) + 1)%Q /\ (0 <= trunc q)%Z.
Proof.
  intros H. assert (E : trunc q = Qfloor q) by (unfold trunc; rewrite (proj2 (Qle_bool_iff _ _) H); auto). rewrite E. pose proof (Qfloor_le q) as A. pose proof (Qlt_floor q) as B. rewrite inject_Z_plus in B. change (inject_Z 1) with 1%Q in B.
  split; [split; auto|]. change 0%Z with (Qfloor 0). apply Qfloor_resp_le. auto.
Qed.
Lemma tr_range p a b : (inject_Z a <= p <= inject_Z b)%Q -> (a <= 0 <= b)%Z -> (a <= trunc p <= b)%Z.
Proof.
  intros [A B] R. destruct (Qlt_le_dec p 0) as [N|P].
  - destruct (trunc_neg p N) as (T1 & T2 & T3). split; [|lia]. rewrite Zle_Qle. lra.
  - destruct (tr_spec p P) as [[T1 T2] T3]. split; [lia|]. rewrite Zle_Qle. lra.
Qed.
(* the block number of a position *)
Lemma step_int_ok a : (Qabs a < inject_Z (2 ^ 31 - 1))%Q -> exists i, step_int a = Ok i /\ (inject_Z i <= a)%Q /\ (a <= inject_Z i + 1)%Q /\ ((0 <= a)%Q -> (a < inject_Z i + 1)%Q /\ (0 <= i)%Z) /\ ((a < 0)%Q -> (i < 0)%Z) .
Proof.
  intros R. apply Qabs_Qlt_condition in R. destruct R as [R1 R2].
  assert (RT : (- (2 ^ 31 - 1) <= trunc a <= 2 ^ 31 - 1)%Z) by (apply tr_range; [rewrite inject_Z_opp; split; lra|lia]).
  unfold step_int, as_int. assert (RB : ((- 2 ^ 31 <=? trunc a) && (trunc a <? 2 ^ 31))%Z = true) by (apply andb_true_intro; split; [apply Z.leb_le|apply Z.ltb_lt]; lia). rewrite RB. cbn [bind].
  destruct (Qlt_bool a 0) eqn:C.
  - apply qlt_t in C. destruct (trunc_neg a C) as (T1 & T2 & T3). rewrite (proj2 (Z.eqb_neq _ _)) by lia. exists (trunc a - 1)%Z. split; auto. unfold Z.sub. rewrite inject_Z_plus. change (inject_Z (- (1))) with (- (1))%Q. split; [lra|]. split; [lra|]. split; [intros; lra|]. intros _. lia.
  - apply qlt_f in C. destruct (tr_spec a C) as [[T1 T2] T3]. exists (trunc a). split; auto. split; auto. split; [lra|]. split; auto. intros; lra.
Qed.

Section Axis.
  Variable (lo hi : Q) (n : nat).
  Hypothesis LH : (lo < hi)%Q.
  Hypothesis N0 : 0 < n.
  Let nq := inject_Z (Z.of_nat n).
  Let box := ((hi - lo) / nq)%Q.
  Lemma nq_pos : (0 < nq)%Q.
  Proof. unfold nq. change 0%Q with (inject_Z 0). rewrite <- Zlt_Qlt. lia. Qed.
  Lemma box_pos : (0 < box)%Q.
  Proof. unfold box. apply Qlt_shift_div_l; [apply nq_pos|lra]. Qed.
  Lemma box_n : (box * nq == hi - lo)%Q.
  Proof. unfold box. pose proof nq_pos. field. lra. Qed.
  Lemma locate_ok per x : (Qabs ((x - lo) * (1 / box)) < inject_Z (2 ^ 31 - 1))%Q ->
    (locate per lo hi n x = Ok None /\ per = false /\ ~ (lo <= x < hi)%Q) \/
    exists i x', locate per lo hi n x = Ok (Some (i, x')) /\ i < n /\ (edge lo hi n i <= x')%Q /\ (x' <= edge lo hi n (S i))%Q /\
      (per = false -> (x' < edge lo hi n (S i))%Q /\ x' = x /\ (lo <= x < hi)%Q) /\ ((lo <= x < hi)%Q -> (x' == x)%Q /\ (x' < edge lo hi n (S i))%Q) /\ exists k : Z, (x' == x + inject_Z k * (hi - lo))%Q /\ (per = false -> k = 0%Z).
  Proof.
    intros R. pose proof box_pos as B. pose proof box_n as BN. pose proof nq_pos as NP. set (a := ((x - lo) * (1 / box))%Q) in *. assert (EX : (x == lo + a * box)%Q) by (unfold a; field; lra).
    destruct (step_int_ok a R) as (i & E & I1 & I2 & I3 & I4). unfold locate. fold nq. fold box. fold a. rewrite E. cbn [bind].
    assert (ED : forall j : nat, (edge lo hi n j == lo + inject_Z (Z.of_nat j) * box)%Q) by (intros j; unfold edge, box, nq; reflexivity).
    assert (ZS : forall j : nat, (inject_Z (Z.of_nat (S j)) == inject_Z (Z.of_nat j) + 1)%Q) by (intros j; rewrite Nat2Z.inj_succ; unfold Z.succ; rewrite inject_Z_plus; reflexivity).
    assert (IN : (lo <= x < hi)%Q <-> (0 <= i < Z.of_nat n)%Z).
    { split.
      - intros [X1 X2]. assert (A0 : (0 <= a)%Q) by (apply Qnot_lt_le; intros K; nra). destruct (I3 A0) as [I3a I3b]. split; auto. rewrite Zlt_Qlt. fold nq. assert (a < nq)%Q by (apply Qnot_le_lt; intros K; nra). lra.
      - intros [Z1 Z2]. assert (A0 : (0 <= a)%Q) by (apply Qnot_lt_le; intros K; specialize (I4 K); lia). destruct (I3 A0) as [I3a _]. assert (Z3 : (i + 1 <= Z.of_nat n)%Z) by lia. rewrite Zle_Qle, inject_Z_plus in Z3. fold nq in Z3. change (inject_Z 1) with 1%Q in Z3. split; nra. }
    assert (P1 : (0 <= box * (a - inject_Z i))%Q) by (apply Qmult_le_0_compat; lra). assert (P2 : (0 <= box * (inject_Z i + 1 - a))%Q) by (apply Qmult_le_0_compat; lra).
    assert (P3 : (0 <= a)%Q -> (0 < box * (inject_Z i + 1 - a))%Q) by (intros A0; destruct (I3 A0) as [I3a _]; apply Qmult_lt_0_compat; lra).
    destruct per.
    - right. rewrite step_mod_is by lia. pose proof (Z.mod_pos_bound i (Z.of_nat n) ltac:(lia)) as M. pose proof (Z.div_mod i (Z.of_nat n) ltac:(lia)) as D.
      assert (SM : (0 <= i < Z.of_nat n)%Z -> (i mod Z.of_nat n = i)%Z) by apply Z.mod_small.
      remember (i mod Z.of_nat n)%Z as m eqn:Em. remember (i / Z.of_nat n)%Z as d eqn:Ed. remember (m - i)%Z as w eqn:Ew. clear Em Ed.
      assert (EM : (inject_Z w == inject_Z m - inject_Z i)%Q) by (rewrite Ew; unfold Z.sub; rewrite inject_Z_plus, inject_Z_opp; reflexivity).
      assert (XE : (x + box * inject_Z w == lo + inject_Z m * box + box * (a - inject_Z i))%Q) by (rewrite EM, EX; ring).
      assert (E0 : (edge lo hi n (Z.to_nat m) == lo + inject_Z m * box)%Q) by (rewrite ED, Z2Nat.id by lia; reflexivity).
      assert (E1 : (edge lo hi n (S (Z.to_nat m)) == lo + (inject_Z m + 1) * box)%Q) by (rewrite ED, ZS, Z2Nat.id by lia; reflexivity).
      exists (Z.to_nat m), (x + box * inject_Z w)%Q. split; auto. split; [lia|]. split; [rewrite E0, XE; lra|]. split; [rewrite E1, XE; lra|]. split; [discriminate|]. split.
      + intros X. pose proof (proj1 IN X) as I. specialize (SM I). assert (W0 : w = 0%Z) by lia. assert (A0 : (0 <= a)%Q) by (apply Qnot_lt_le; intros K; specialize (I4 K); lia). specialize (P3 A0). split; [rewrite W0; change (inject_Z 0) with 0%Q; ring|rewrite E1, XE; lra].
      + exists (- d)%Z. split; [|discriminate]. rewrite inject_Z_opp. rewrite <- BN. assert (W1 : (w = - (Z.of_nat n * d))%Z) by lia. rewrite W1, inject_Z_opp, inject_Z_mult. fold nq. ring.
    - destruct ((i <? 0) || (Z.of_nat n <=? i))%Z eqn:C.
      + left. split; auto. split; auto. rewrite IN. apply orb_true_iff in C. rewrite Z.ltb_lt, Z.leb_le in C. lia.
      + right. apply orb_false_iff in C. rewrite Z.ltb_ge, Z.leb_gt in C. assert (A0 : (0 <= a)%Q) by (apply Qnot_lt_le; intros K; specialize (I4 K); lia). destruct (I3 A0) as [I3a _].
        exists (Z.to_nat i), x. split; auto. split; [lia|]. rewrite !ED, ZS, Z2Nat.id by lia. specialize (P3 A0). split; [lra|]. split; [lra|]. split; [intros _; split; [lra|split; auto; apply IN; lia]|]. split; [intros _; split; [reflexivity|lra]|]. exists 0%Z. split; auto. change (inject_Z 0) with 0%Q. ring.
  Qed.
End Axis.

(* the loop *)
Section Loop.
  Variable (c : cont).
  Hypothesis NX : 0 < c_nx c.
  Hypothesis NY : 0 < c_ny c.
  Hypothesis LB : length (c_blocks c) = c_nx c * c_ny c.
  Definition Good (st : nat * nat * nat) := let '(i, j, ij) := st in i < c_nx c /\ j < c_ny c /\ ij = i + c_nx c * j.
  Lemma good_lt st : Good st -> snd st < length (c_blocks c).
  Proof. destruct st as [[i j] ij]. intros (A & B & ->). cbn. rewrite LB. nia. Qed.
  Lemma next_ok st : Good st -> (next_block c st = None /\ S (snd st) = length (c_blocks c)) \/ exists st', next_block c st = Some st' /\ Good st' /\ snd st' = S (snd st).
  Proof.
    destruct st as [[i j] ij]. intros (A & B & ->). cbn [next_block snd]. destruct (Nat.eqb_spec (S i) (c_nx c)) as [E|E]; [destruct (Nat.eqb_spec (S j) (c_ny c)) as [F|F]|].
    - left. split; auto. rewrite LB, <- F. nia.
    - right. eexists. split; [reflexivity|]. split; auto. cbn. repeat split; lia.
    - right. eexists. split; [reflexivity|]. split; auto. cbn. repeat split; lia.
  Qed.
  Lemma skipn_get {A} (l : list A) i b : nth_error l i = Some b -> skipn i l = b :: skipn (S i) l.
  Proof. revert i. induction l as [|a l IH]; intros [|i] H; cbn in *; try discriminate; [congruence|]. rewrite (IH i H). destruct l; auto. Qed.
  Lemma find_ok fuel : forall st, Good st -> length (c_blocks c) <= fuel + snd st -> 
    (find_block c fuel st = Ok None /\ concat (skipn (snd st) (c_blocks c)) = []) \/
    exists st' b, find_block c fuel st = Ok (Some st') /\ Good st' /\ nth_error (c_blocks c) (snd st') = Some b /\ 0 < length b /\ concat (skipn (snd st) (c_blocks c)) = concat (skipn (snd st') (c_blocks c)).
  Proof.
    induction fuel as [|fuel IH]; intros st G L; pose proof (good_lt st G) as K; [lia|]. destruct (nth_error_ex _ _ K) as (b & Hb). cbn [find_block]. rewrite (proj2 (get_ok _ _ _) Hb). cbn [bind].
    destruct (Nat.eqb_spec (length b) 0) as [E|E]; [|right; exists st, b; repeat split; auto; lia]. destruct b; [|discriminate]. rewrite (skipn_get _ _ _ Hb). cbn [concat app].
    destruct (next_ok st G) as [[N S1]|(st' & N & G' & S1)]; rewrite N.
    - left. split; auto. rewrite S1, skipn_all. auto.
    - rewrite <- S1. apply IH; auto. lia.
  Qed.
  Lemma visit_ok fuel : forall st q b, Good st -> nth_error (c_blocks c) (snd st) = Some b -> q < length b -> length (skipn q b ++ concat (skipn (S (snd st)) (c_blocks c))) <= fuel ->
    visit c fuel st q = Ok (skipn q b ++ concat (skipn (S (snd st)) (c_blocks c))).
  Proof.
    induction fuel as [|fuel IH]; intros st q b G Hb Q L; destruct (nth_error_ex _ _ Q) as (p & Hp); rewrite (skipn_get _ _ _ Hp) in L |- *; [cbn in L; lia|].
    cbn [visit]. rewrite (proj2 (get_ok _ _ _) Hb). cbn [bind]. rewrite (proj2 (get_ok _ _ _) Hp). cbn [bind]. cbn [app length] in *. destruct (Nat.leb_spec (length b) (S q)) as [E|E].
    - rewrite (skipn_all2 b) in * by auto. cbn [app] in *. destruct (next_ok st G) as [[N S1]|(st' & N & G' & S1)]; rewrite N.
      + rewrite S1, skipn_all. auto.
      + destruct (find_ok (length (c_blocks c)) st' G' ltac:(lia)) as [[F C]|(st2 & b2 & F & G2 & H2 & L2 & C)]; rewrite F; cbn [bind]; rewrite <- S1, C; auto.
        rewrite (skipn_get _ _ _ H2). cbn [concat]. rewrite <- S1, C, (skipn_get _ _ _ H2) in L. cbn [concat] in L. rewrite (IH st2 0 b2); auto; cbn [skipn]; auto. apply le_S_n. exact L.
    - rewrite (IH st (S q) b); auto. apply le_S_n. exact L.
  Qed.
  Lemma total_is : total_particles c = length (concat (c_blocks c)).
  Proof.
    unfold total_particles. assert (H : forall l k, fold_left (fun t (b : list particle) => t + length b) l k = k + length (concat l)) by (induction l as [|b l IH]; intros k; cbn; [lia|]; rewrite IH, app_length; lia). rewrite H. auto.
  Qed.
  Lemma visit_all_is : visit_all c = Ok (concat (c_blocks c)).
  Proof.
    unfold visit_all. assert (G : Good (0, 0, 0)) by (cbn; lia). destruct (find_ok (length (c_blocks c)) (0, 0, 0) G ltac:(cbn; lia)) as [[F C]|(st & b & F & G' & H & L & C)]; rewrite F; cbn [bind snd skipn] in *; [congruence|].
    rewrite C, (skipn_get _ _ _ H). cbn [concat]. rewrite (visit_ok _ st 0 b); auto. rewrite total_is, C, (skipn_get _ _ _ H). cbn [concat skipn]. lia.
  Qed.
End Loop.
Lemma concat_upd {A} (l : list (list A)) i b x : nth_error l i = Some b -> Permutation (concat (upd l i (b ++ [x]))) (concat l ++ [x]).
Proof.
  revert i. induction l as [|a l IH]; intros [|i] H; cbn in *; try discriminate.
  - injection H as ->. rewrite <- !app_assoc. apply Permutation_app_head. apply (Permutation_app_comm [x]).
  - rewrite <- app_assoc. apply Permutation_app_head. auto.
Qed.
