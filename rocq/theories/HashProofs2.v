From Verif Require Import Base BaseFacts PLCSpec PLCProofs PLCProofs2 BoxModel BoxProofs HashModel HashSpec HashProofs.
From Coq Require Import QArith Qround Lqa.
Local Open Scope Z_scope.

(* ---- unhashing ---- *)
Definition used (li hi lo ho : list Q) (v : Z) : list Q * list Q := if 2 ^ 63 <=? v mod 2 ^ 64 then (lo, ho) else (li, hi).
Lemma unhash_ok k D li hi lo ho v tol (q : nat -> Z) : D = 2%nat \/ D = 3%nat -> Nested D li hi lo ho ->
  (forall j, (j < D)%nat -> qval k D v j = Ok (q j)) ->
  exists p, unhashPosition k D li hi lo ho v tol = Ok p /\ length p = D /\
    Inside D (fst (used li hi lo ho v)) (snd (used li hi lo ho v)) p /\
    forall j, (j < D)%nat -> let xl := coord (fst (used li hi lo ho v)) j in let xh := coord (snd (used li hi lo ho v)) j in
      coord p j = qmax xl (qmin xh (xl + (inject_Z (q j) + (1 # 2)) * hstep k D xl xh tol)).
Proof.
  intros HD N Hq. unfold unhashPosition. rewrite (proj2 (boxes_ok_spec D li hi lo ho HD) N). cbn [assert bind].
  fold (used li hi lo ho v).
  assert (W : forall j, (j < D)%nat -> (coord (fst (used li hi lo ho v)) j <= coord (snd (used li hi lo ho v)) j)%Q).
  { intros j Hj. pose proof (ne_lo _ _ _ _ _ N j Hj). pose proof (ne_hi _ _ _ _ _ N j Hj). pose proof (ne_in _ _ _ _ _ N j Hj).
    unfold used. destruct (2 ^ 63 <=? v mod 2 ^ 64); cbn [fst snd]; lra. }
  destruct (used li hi lo ho v) as [xl xh]. cbn [fst snd] in *.
  set (g := fun j => qmax (at_ xl j) (qmin (at_ xh j) (at_ xl j + (inject_Z (q j) + (1 # 2)) * hstep k D (at_ xl j) (at_ xh j) tol))).
  rewrite (mmap_ok _ g).
  2:{ intros j I. apply in_seq in I. rewrite Hq by lia. reflexivity. }
  cbn [bind].
  assert (G : forall j, (j < D)%nat -> coord (map g (seq 0 D)) j = g j).
  { intros j Hj. unfold coord. rewrite (nth_indep _ 0%Q (g 0%nat)) by (rewrite map_length, seq_length; auto).
    rewrite map_nth, seq_nth; auto. }
  assert (I : Inside D xl xh (map g (seq 0 D))).
  { intros j Hj. rewrite G by auto. specialize (W j Hj). unfold g. unfold at_, coord in *. fold (coord xl j) in *.
    match goal with |- context [qmin ?a ?b] => destruct (qmin_le a b) as (A & B & _); set (m := qmin a b) in * end.
    match goal with |- context [qmax ?a ?b] => destruct (qmax_le a b) as (A' & B' & [C|C]); rewrite C in * end; split; auto; lra. }
  rewrite (proj2 (inside_spec D xl xh _) I). cbn [assert bind].
  exists (map g (seq 0 D)). split; auto. split; [rewrite map_length, seq_length; auto|]. split; auto.
Qed.

(* ---- merging by any hash ---- *)
Section Merge.
  Context (k : keyty) (D : nat) (points xmin xmax : list Q) (tol : Q) (h : nat -> Z).
  Notation n := (length points / D)%nat.
  Context (HD : (0 < D)%nat) (Hm : (length points mod D = 0)%nat).
  Context (Hh : forall i, (i < n)%nat -> hashPosition k D (vertex D points i) xmin xmax xmin xmax tol = Ok (h i)).
  Context (Hu : forall i, (i < n)%nat -> exists p, unhashPosition k D xmin xmax xmin xmax (h i) tol = Ok p).

  Record inv (c : nat) (st : list (Z * nat) * list Q * list nat) (firsts : list nat) : Prop := {
    iv_m : forall a i, nth_error firsts a = Some i -> nth_error (fst (fst st)) a = Some (h i, a);
    iv_len : length (fst (fst st)) = length firsts;
    iv_ups : snd (fst st) = concat (map (vertex D points) firsts);
    iv_imap : length (snd st) = c;
    iv_rep : forall i, (i < c)%nat -> exists a f, nth_error (snd st) i = Some a /\ nth_error firsts a = Some f /\ h f = h i;
    iv_first : forall a f, nth_error firsts a = Some f -> (f < c)%nat /\ nth_error (snd st) f = Some a /\
       forall j l, (j < f)%nat -> nth_error (snd st) j = Some l -> (l < a)%nat;
    iv_nodup : NoDup (map h firsts) }.

  Lemma vlen i : (i < n)%nat -> length (vertex D points i) = D.
  Proof.
    intros H. apply vertex_length. pose proof (Nat.div_mod (length points) D). nia.
  Qed.

  Lemma step_inv c st firsts : (c < n)%nat -> inv c st firsts ->
    exists st' firsts', unique_step k D points xmin xmax tol st c = Ok st' /\ inv (c + 1) st' firsts'.
  Proof.
    intros Hc V. destruct st as [[m ups] imap]. unfold unique_step. rewrite Hh by auto. cbn [bind].
    destruct V as [Vm Vl Vu Vi Vr Vf Vn]. cbn [fst snd] in *.
    unfold zfind. destruct (List.find (fun e => fst e =? h c) m) as [[g a]|] eqn:E; cbn [option_map snd].
    - apply find_some in E as [I E]. cbn in E. apply Z.eqb_eq in E. subst g.
      apply In_nth_error in I as [a' Ha']. destruct (nth_error_ex firsts a') as [f Hf]; [rewrite <- Vl; eapply nth_error_lt; eauto|].
      pose proof (Vm _ _ Hf) as X. rewrite Ha' in X. injection X as X <-.
      eexists _, firsts. split; [reflexivity|]. constructor; cbn [fst snd]; auto.
      + rewrite app_length. cbn. lia.
      + intros i Hi. destruct (Nat.eq_dec i c) as [->|Ne].
        * exists a, f. split; [rewrite nth_error_app2 by lia; rewrite Vi, Nat.sub_diag; reflexivity|]. split; auto.
        * destruct (Vr i) as (b & f' & B1 & B2 & B3); [lia|]. exists b, f'. split; auto. rewrite nth_error_app1; auto. lia.
      + intros b f' Hb. destruct (Vf _ _ Hb) as (F1 & F2 & F3). split; [lia|]. split.
        * rewrite nth_error_app1 by lia. auto.
        * intros j l Hj Hl. rewrite nth_error_app1 in Hl by lia. eauto.
    - pose proof (find_none _ _ E) as None_.
      destruct (Hu c Hc) as [p Ep]. rewrite Ep. cbn [bind]. eexists _, (firsts ++ [c]). split; [reflexivity|].
      constructor; cbn [fst snd].
      + intros a i Ha. destruct (Nat.lt_ge_cases a (length firsts)) as [L|L].
        * rewrite nth_error_app1 in Ha by lia. rewrite nth_error_app1 by lia. auto.
        * rewrite nth_error_app2 in Ha by lia. destruct (a - length firsts)%nat as [|d] eqn:Q; [|destruct d; discriminate].
          injection Ha as <-. assert (a = length m) as -> by lia. rewrite nth_error_app2, Nat.sub_diag by lia. reflexivity.
      + rewrite !app_length. cbn. lia.
      + rewrite map_app, concat_app, Vu. cbn. rewrite app_nil_r. reflexivity.
      + rewrite app_length. cbn. lia.
      + intros i Hi. destruct (Nat.eq_dec i c) as [->|Ne].
        * exists (length m), c. split; [rewrite nth_error_app2 by lia; rewrite Vi, Nat.sub_diag; reflexivity|]. split; auto.
          rewrite nth_error_app2 by lia. rewrite Vl, Nat.sub_diag. reflexivity.
        * destruct (Vr i) as (b & f' & B1 & B2 & B3); [lia|]. exists b, f'. rewrite !nth_error_app1; auto; [|lia].
          eapply nth_error_lt; eauto.
      + intros a f Ha. destruct (Nat.lt_ge_cases a (length firsts)) as [L|L].
        * rewrite nth_error_app1 in Ha by lia. destruct (Vf _ _ Ha) as (F1 & F2 & F3). split; [lia|]. split.
          -- rewrite nth_error_app1 by lia. auto.
          -- intros j l Hj Hl. rewrite nth_error_app1 in Hl by lia. eauto.
        * rewrite nth_error_app2 in Ha by lia. destruct (a - length firsts)%nat as [|d] eqn:Q; [|destruct d; discriminate].
          injection Ha as <-. assert (a = length m) as -> by lia. split; [lia|]. split.
          -- rewrite nth_error_app2 by lia. rewrite Vi, Nat.sub_diag. reflexivity.
          -- intros j l Hj Hl. rewrite nth_error_app1 in Hl by lia. destruct (Vr j Hj) as (b & f & B1 & B2 & _).
             rewrite B1 in Hl. injection Hl as <-. rewrite Vl. eapply nth_error_lt; eauto.
      + rewrite map_app. cbn. apply NoDup_rev in Vn. rewrite <- (rev_involutive (map h firsts ++ [h c])), rev_app_distr. cbn.
        change (NoDup (rev (h c :: rev (map h firsts)))). apply NoDup_rev. constructor; auto. rewrite <- in_rev. intros C.
        apply in_map_iff in C as (f & Ef & If). apply In_nth_error in If as [a Ha]. pose proof (Vm _ _ Ha) as X.
        specialize (None_ _ (nth_error_In _ _ X)). cbn in None_. apply Z.eqb_neq in None_. congruence.
  Qed.

  Lemma unique_merges : exists ups imap, uniquePoints k D points xmin xmax tol = Ok (ups, imap) /\
    MergedBy D points (fun i j => h i = h j) ups imap.
  Proof.
    destruct (mfold_seq (unique_step k D points xmin xmax tol) (fun c st => (c <= n)%nat -> exists firsts, inv c st firsts) n ([], [], [])) as (st & E & V).
    - intros _. exists []. constructor; cbn; auto; try (intros [|?]; discriminate); try lia. constructor.
    - intros c st Hc V. destruct (V ltac:(lia)) as [firsts V']. destruct (step_inv c st firsts Hc V') as (st' & firsts' & E & V2).
      exists st'. split; auto. intros _. eauto.
    - destruct (V (le_n _)) as [firsts V']. destruct st as [[m ups] imap]. destruct V' as [Vm Vl Vu Vi Vr Vf Vn]. cbn [fst snd] in *.
      unfold uniquePoints. rewrite Hm. cbn [Nat.eqb assert bind]. rewrite E. cbn [bind].
      assert (Lf : length ups = (D * length firsts)%nat).
      { rewrite Vu. assert (G : forall l, (forall f, In f l -> (f < n)%nat) -> length (concat (map (vertex D points) l)) = (D * length l)%nat).
        { induction l as [|f l IH]; intros G; cbn [map concat length]; [lia|]. rewrite app_length, vlen, IH by (auto using in_eq; intros; apply G; right; auto). lia. }
        apply G. intros f If. apply In_nth_error in If as [a Ha]. destruct (Vf _ _ Ha) as [F _]. exact F. }
      assert (Ln : (length firsts <= n)%nat).
      { assert (L : (length (map h firsts) <= length (map h (seq 0 n)))%nat).
        { apply NoDup_incl_length; auto. intros x Ix. apply in_map_iff in Ix as (f & <- & If). apply in_map. apply in_seq.
          apply In_nth_error in If as [a Ha]. destruct (Vf _ _ Ha) as [F _]. lia. }
        rewrite !map_length, seq_length in L. exact L. }
      pose proof (Nat.div_mod (length points) D ltac:(lia)) as DM.
      rewrite Lf. rewrite (Nat.mul_comm D), Nat.mod_mul by lia. cbn [Nat.eqb assert bind].
      replace (length firsts * D <=? length points)%nat with true by (symmetry; apply Nat.leb_le; nia). cbn [assert bind].
      rewrite Vi, Nat.eqb_refl. cbn [assert bind]. exists ups, imap. split; auto.
      constructor; auto.
      + intros i a Ha. destruct (Vr i) as (a' & f & H1 & H2 & _); [rewrite <- Vi; eapply nth_error_lt; eauto|].
        rewrite Ha in H1. injection H1 as <-. pose proof (nth_error_lt _ _ _ H2). nia.
      + intros i j a l Ha Hl. destruct (Vr i) as (a' & f & H1 & H2 & H3); [rewrite <- Vi; eapply nth_error_lt; eauto|].
        destruct (Vr j) as (l' & f' & H1' & H2' & H3'); [rewrite <- Vi; eapply nth_error_lt; eauto|].
        rewrite Ha in H1. injection H1 as <-. rewrite Hl in H1'. injection H1' as <-. split.
        * intros <-. congruence.
        * intros Eh. apply (proj1 (NoDup_nth_error (map h firsts)) Vn).
          -- rewrite map_length. eapply nth_error_lt; eauto.
          -- rewrite !nth_error_map, H2, H2'. cbn. congruence.
      + intros a Ha. destruct (nth_error_ex firsts a) as [f Hf]; [nia|]. destruct (Vf _ _ Hf) as (F1 & F2 & F3).
        exists f. split; auto. split; [|exact F3].
        rewrite Vu. apply vertex_concat; [|apply map_nth_error; auto].
        apply Forall_forall. intros l Il. apply in_map_iff in Il as (g & <- & Ig). apply In_nth_error in Ig as [b Hb].
        apply vlen. apply (Vf _ _ Hb).
  Qed.
End Merge.

(* ---- Morton keys ---- *)
(* bits of x below i, spread to even positions *)
Definition bit (x i : Z) : Z := if Z.testbit x i then 1 else 0.
Lemma bit_range x i : 0 <= bit x i <= 1.
Proof. unfold bit. destruct (Z.testbit x i); lia. Qed.
Fixpoint spread (x : Z) (n : nat) : Z := match n with O => 0 | S m => spread x m + bit x (Z.of_nat m) * 4 ^ Z.of_nat m end.
Lemma spread_range x n : 0 <= 3 * spread x n < 4 ^ Z.of_nat n.
Proof.
  induction n as [|n IH]; [cbn; lia|]. cbn [spread]. rewrite Nat2Z.inj_succ, Z.pow_succ_r by lia. pose proof (bit_range x (Z.of_nat n)). nia.
Qed.
Lemma land_bit x i : 0 <= i -> Z.land x (2 ^ i) = bit x i * 2 ^ i.
Proof.
  intros H. apply Z.bits_inj'. intros j Hj. rewrite Z.land_spec. unfold bit.
  destruct (Z.eq_dec j i) as [->|Ne].
  - rewrite Z.pow2_bits_true by lia. destruct (Z.testbit x i).
    + rewrite Z.mul_1_l, Z.pow2_bits_true by lia. reflexivity.
    + rewrite Z.bits_0. reflexivity.
  - rewrite Z.pow2_bits_false by lia. rewrite andb_false_r. destruct (Z.testbit x i).
    + rewrite Z.mul_1_l, Z.pow2_bits_false by lia. reflexivity.
    + rewrite Z.bits_0. reflexivity.
Qed.
Lemma spread_inj n x y : spread x n = spread y n -> forall i, 0 <= i < Z.of_nat n -> Z.testbit x i = Z.testbit y i.
Proof.
  induction n as [|n IH]; intros E i Hi; [lia|]. cbn [spread] in E.
  pose proof (spread_range x n). pose proof (spread_range y n). pose proof (bit_range x (Z.of_nat n)). pose proof (bit_range y (Z.of_nat n)).
  assert (B : bit x (Z.of_nat n) = bit y (Z.of_nat n)) by nia.
  rewrite B in E. assert (E' : spread x n = spread y n) by lia.
  destruct (Z.eq_dec i (Z.of_nat n)) as [->|Ne]; [|apply IH; auto; lia].
  unfold bit in B. destruct (Z.testbit x (Z.of_nat n)), (Z.testbit y (Z.of_nat n)); congruence.
Qed.

(* the bits of the key *)
Lemma spread_bits x n i : Z.testbit (spread x n) (2 * Z.of_nat i) = (if (i <? n)%nat then Z.testbit x (Z.of_nat i) else false) /\
  Z.testbit (spread x n) (2 * Z.of_nat i + 1) = false.
Proof.
  induction n as [|n IH]; cbn [spread]; [rewrite !Z.bits_0; auto|].
  pose proof (spread_range x n) as R.
  assert (E : spread x n + bit x (Z.of_nat n) * 4 ^ Z.of_nat n = Z.lor (spread x n) (Z.shiftl (bit x (Z.of_nat n)) (2 * Z.of_nat n))).
  { assert (L : Z.land (spread x n) (Z.shiftl (bit x (Z.of_nat n)) (2 * Z.of_nat n)) = 0).
    { apply Z.bits_inj'. intros j Hj. rewrite Z.land_spec, Z.bits_0. destruct (Z_lt_le_dec j (2 * Z.of_nat n)) as [L|L].
      - rewrite Z.shiftl_spec_low by lia. apply andb_false_r.
      - destruct (Z.eq_dec (spread x n) 0) as [Ez|Nz]; [rewrite Ez, Z.bits_0; reflexivity|]. rewrite Z.bits_above_log2; [reflexivity|lia|].
        apply Z.log2_lt_pow2; [lia|]. apply Z.lt_le_trans with (2 ^ (2 * Z.of_nat n)); [rewrite Z.pow_mul_r by lia; change (2 ^ 2) with 4; lia|].
        apply Z.pow_le_mono_r; lia. }
    rewrite <- (Z.lxor_lor _ _ L), <- (Z.add_nocarry_lxor _ _ L). rewrite Z.shiftl_mul_pow2 by lia. rewrite Z.pow_mul_r by lia. reflexivity. }
  rewrite E, !Z.lor_spec. destruct IH as [IH1 IH2]. rewrite IH1, IH2. split.
  - destruct (Nat.lt_ge_cases i n) as [L|L].
    + rewrite (proj2 (Nat.ltb_lt i n)), (proj2 (Nat.ltb_lt i (S n))) by lia. rewrite Z.shiftl_spec_low by lia. apply orb_false_r.
    + rewrite (proj2 (Nat.ltb_ge i n)) by lia. cbn [orb]. rewrite Z.shiftl_spec by lia. destruct (Nat.eq_dec i n) as [->|Ne].
      * rewrite Z.sub_diag. rewrite (proj2 (Nat.ltb_lt n (S n))) by lia. unfold bit. destruct (Z.testbit x (Z.of_nat n)); reflexivity.
      * rewrite (proj2 (Nat.ltb_ge i (S n))) by lia. unfold bit. destruct (Z.testbit x (Z.of_nat n)); [|apply Z.bits_0].
        change 1 with (2 ^ 0). apply Z.pow2_bits_false. lia.
  - cbn [orb]. destruct (Nat.lt_ge_cases i n) as [L|L].
    + rewrite Z.shiftl_spec_low by lia. reflexivity.
    + rewrite Z.shiftl_spec by lia. unfold bit. destruct (Z.testbit x (Z.of_nat n)); [|apply Z.bits_0].
      change 1 with (2 ^ 0) at 1. apply Z.pow2_bits_false. lia.
Qed.

Section Morton.
  Context (T : traits).
  Notation k := (key T).
  Notation nb := (Z.of_nat (numbits1d T)).

  (* the value range available without wrapping *)
  Definition valbits : Z := if signed k then width k - 1 else width k.
  Context (W : 0 < width k) (Hb : 2 * nb <= valbits) (Hb1 : nb < valbits).

  Lemma normv v : 0 <= v < 2 ^ valbits -> norm k v = v.
  Proof. intros H. apply norm_id; auto. unfold valbits, kmin, kmax in *. destruct (signed k); lia. Qed.

  Lemma morton_ok x y : 0 <= x <= maxKey1d T -> 0 <= y <= maxKey1d T -> 2 ^ (2 * nb) - 1 <= maxKey T ->
    morton T [x; y] = Ok (spread x (numbits1d T) + 2 * spread y (numbits1d T)).
  Proof.
    intros X Y M. unfold morton.
    replace (forallb (fun x => x <=? maxKey1d T) [x; y]) with true
      by (symmetry; cbn; rewrite andb_true_r; apply andb_true_intro; split; apply Z.leb_le; lia).
    cbn [assert bind].
    match goal with |- context [mfold ?f _ _] => set (step := f) end.
    destruct (mfold_seq step (fun c st => st = (spread x c + 2 * spread y c, 2 ^ Z.of_nat c)) (numbits1d T) (0, 1)) as (st & E & ->).
    - reflexivity.
    - intros c st Hc ->. unfold step. cbn [interleave_terms].
      assert (Hv : valbits <= width k) by (unfold valbits; destruct (signed k); lia).
      unfold shl. replace (Z.of_nat c <? width k) with true by (symmetry; apply Z.ltb_lt; lia).
      replace (Z.of_nat c + 1 <? width k) with true by (symmetry; apply Z.ltb_lt; lia).
      replace (1 <? width k) with true by (symmetry; apply Z.ltb_lt; lia).
      cbn [bind]. rewrite !land_bit by lia.
      pose proof (bit_range x (Z.of_nat c)). pose proof (bit_range y (Z.of_nat c)).
      pose proof (spread_range x c). pose proof (spread_range y c).
      assert (P : 2 ^ Z.of_nat c * 2 ^ Z.of_nat c = 4 ^ Z.of_nat c) by (rewrite <- Z.pow_mul_l; reflexivity).
      assert (P1 : 2 ^ (Z.of_nat c + 1) = 2 * 2 ^ Z.of_nat c) by (rewrite Z.pow_add_r by lia; lia).
      assert (PV : 4 * 4 ^ Z.of_nat c <= 2 ^ valbits).
      { rewrite <- Z.pow_succ_r by lia. change 4 with (2 ^ 2). rewrite <- Z.pow_mul_r by lia. apply Z.pow_le_mono_r; lia. }
      assert (P0 : 0 < 2 ^ Z.of_nat c) by lia. assert (P4 : 0 < 4 ^ Z.of_nat c) by lia.
      rewrite P1. unfold kadd.
      replace (bit x (Z.of_nat c) * 2 ^ Z.of_nat c * 2 ^ Z.of_nat c) with (bit x (Z.of_nat c) * 4 ^ Z.of_nat c) by (rewrite <- P; ring).
      replace (bit y (Z.of_nat c) * 2 ^ Z.of_nat c * (2 * 2 ^ Z.of_nat c)) with (2 * bit y (Z.of_nat c) * 4 ^ Z.of_nat c) by (rewrite <- P; ring).
      rewrite (normv (2 * _ * _)) by nia. rewrite (normv (bit x _ * _)) by nia.
      replace (2 * bit y (Z.of_nat c) * 4 ^ Z.of_nat c + 0) with (2 * bit y (Z.of_nat c) * 4 ^ Z.of_nat c) by ring.
      rewrite (normv (2 * bit y _ * _)) by nia. rewrite (normv (bit x _ * _ + _)) by nia.
      rewrite (normv (spread x c + _ + _)) by nia.
      assert (N2 : norm k (2 ^ Z.of_nat c * 2 ^ 1) = 2 ^ Z.of_nat (c + 1)).
      { rewrite normv; [rewrite <- Z.pow_add_r by lia; f_equal; lia|]. split; [nia|]. rewrite <- Z.pow_add_r by lia.
        apply Z.pow_lt_mono_r; lia. }
      rewrite N2. eexists. split; [reflexivity|]. f_equal. replace (c + 1)%nat with (S c) by lia. cbn [spread]. ring.
    - rewrite E. cbn [bind]. pose proof (spread_range x (numbits1d T)). pose proof (spread_range y (numbits1d T)).
      assert (P4 : 4 ^ nb = 2 ^ (2 * nb)) by (rewrite Z.pow_mul_r by lia; reflexivity).
      replace (spread x (numbits1d T) + 2 * spread y (numbits1d T) <=? maxKey T) with true by (symmetry; apply Z.leb_le; lia).
      reflexivity.
  Qed.

End Morton.
