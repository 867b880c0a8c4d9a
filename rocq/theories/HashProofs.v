From Verif Require Import Base BaseFacts PLCSpec BoxModel BoxProofs HashModel HashSpec.
From Coq Require Import QArith Qround Lqa.
Local Open Scope Z_scope.

Lemma norm_id k v : 0 < width k -> kmin k <= v <= kmax k -> norm k v = v.
Proof.
  intros W H. unfold norm. rewrite Z.mod_small; [lia|]. unfold kmin, kmax in *. destruct (signed k); [|lia].
  replace (2 ^ width k) with (2 * 2 ^ (width k - 1)); [lia|]. rewrite <- Z.pow_succ_r by lia. f_equal. lia.
Qed.

(* the two key types hold the cell numbers *)
Definition Fits (k : keyty) (D : nat) : Prop :=
  hcoordMax k D = cells1d D - 1 /\ kmin k <= 0 /\ cells1d D - 1 <= kmax k.
Lemma fits_int D : D = 2%nat \/ D = 3%nat -> Fits int_key D.
Proof. intros [-> | ->]; repeat split; vm_compute; congruence. Qed.
Lemma fits_u64 D : D = 2%nat \/ D = 3%nat -> Fits uint64_key D.
Proof. intros [-> | ->]; repeat split; vm_compute; congruence. Qed.

Lemma cells_pos D : 1 < cells1d D.
Proof. unfold cells1d. destruct D as [|[|[|D]]]; reflexivity. Qed.

Lemma hstep_spec k D lo hi tol : Fits k D -> GridStep D lo hi tol (hstep k D lo hi tol).
Proof.
  intros (F & _). unfold hstep. rewrite F. set (a := ((hi - lo) / inject_Z (cells1d D - 1))%Q).
  destruct (qmax_le a (qmax tol eps)) as (A & B & C). destruct (qmax_le tol eps) as (A' & B' & C').
  constructor.
  - exact A.
  - lra.
  - change (1 # 2 ^ 52)%Q with eps. lra.
  - fold a. change (1 # 2 ^ 52)%Q with eps. destruct C as [C|C]; [left; rewrite C; reflexivity|right].
    destruct C' as [C'|C']; rewrite C, C'; [left|right]; reflexivity.
Qed.
Lemma step_pos D lo hi tol s : GridStep D lo hi tol s -> (0 < s)%Q.
Proof. intros [_ _ E _]. assert (0 < 1 # 2 ^ 52)%Q by reflexivity. lra. Qed.
Lemma step_unique D lo hi tol s s' : GridStep D lo hi tol s -> GridStep D lo hi tol s' -> (s == s')%Q.
Proof. intros [A B C E] [A' B' C' E']. destruct E as [E|[E|E]]; destruct E' as [E'|[E'|E']]; lra. Qed.

Lemma floor_unique (lo s x : Q) (z z' : Z) : (0 < s)%Q ->
  (lo + inject_Z z * s <= x < lo + (inject_Z z + 1) * s)%Q ->
  (lo + inject_Z z' * s <= x < lo + (inject_Z z' + 1) * s)%Q -> z = z'.
Proof.
  intros P [A B] [C E].
  assert (L : forall a b : Z, (lo + inject_Z a * s <= x)%Q -> (x < lo + (inject_Z b + 1) * s)%Q -> a <= b).
  { intros a b Ha Hb. destruct (Z_lt_le_dec b a) as [H|H]; [|lia]. exfalso.
    assert (inject_Z b + 1 <= inject_Z a)%Q. { change 1%Q with (inject_Z 1). rewrite <- inject_Z_plus, <- Zle_Qle. lia. }
    nra. }
  pose proof (L _ _ A E). pose proof (L _ _ C B). lia.
Qed.

Lemma cell_unique D lo hi tol p zs zs' : InCell D lo hi tol p zs -> InCell D lo hi tol p zs' -> zs = zs'.
Proof.
  intros [L H] [L' H']. apply nth_error_ext. intros j.
  destruct (nth_error zs j) as [z|] eqn:E.
  - destruct (nth_error_ex zs' j) as [z' E']; [rewrite L', <- L; eapply nth_error_lt; eauto|]. rewrite E'. f_equal.
    destruct (H _ _ E) as (_ & s & G & I). destruct (H' _ _ E') as (_ & s' & G' & I').
    pose proof (step_unique _ _ _ _ _ _ G G') as Q. apply (floor_unique (coord lo j) s (coord p j)); auto.
    + eapply step_pos; eauto.
    + rewrite Q. exact I'.
  - symmetry. apply nth_error_None in E. apply nth_error_None. lia.
Qed.

Lemma hcell_ok k D lo hi tol x : Fits k D -> (lo <= x <= hi)%Q ->
  exists z, hcell k D lo hi tol x = Ok z /\ 0 <= z < cells1d D /\
    (lo + inject_Z z * hstep k D lo hi tol <= x < lo + (inject_Z z + 1) * hstep k D lo hi tol)%Q.
Proof.
  intros F [A B]. pose proof (hstep_spec k D lo hi tol F) as G. pose proof (step_pos _ _ _ _ _ G) as P.
  destruct F as (Fc & Fm & FM). pose proof (cells_pos D) as Cp.
  set (s := hstep k D lo hi tol) in *. unfold hcell. fold s.
  assert (E : (qmax 0 (x - lo) / s == (x - lo) / s)%Q).
  { assert (qmax 0 (x - lo) == x - lo)%Q by (unfold qmax; destruct (Qlt_le_dec 0 (x - lo)); lra). rewrite H. reflexivity. }
  set (q := (qmax 0 (x - lo) / s)%Q) in *.
  assert (Q1 : (q * s == x - lo)%Q). { rewrite E. field. lra. }
  assert (Q0 : (0 <= q)%Q). { rewrite E. apply Qle_shift_div_l; lra. }
  set (M := inject_Z (cells1d D - 1)) in *.
  assert (M0 : (0 < M)%Q). { unfold M. change 0%Q with (inject_Z 0). rewrite <- Zlt_Qlt. lia. }
  assert (Q2 : (q <= M)%Q).
  { rewrite E. apply Qle_shift_div_r; auto. pose proof (gs_res _ _ _ _ _ G) as R. fold M in R.
    assert ((hi - lo) / M * M == hi - lo)%Q by (field; lra). nra. }
  destruct (trunc_spec q Q0) as [[T1 T2] T3].
  assert (T4 : trunc q <= cells1d D - 1). { rewrite Zle_Qle. fold M. lra. }
  unfold to_key. cbv zeta.
  replace ((kmin k <=? trunc q) && (trunc q <=? kmax k)) with true
    by (symmetry; apply andb_true_intro; split; apply Z.leb_le; lia).
  cbn [bind]. exists (trunc q). rewrite Fc, Z.min_r by lia. repeat split; try lia; nra.
Qed.

(* booleans *)
Lemma forallb_seq (f : nat -> bool) n : forallb f (seq 0 n) = true <-> forall j, (j < n)%nat -> f j = true.
Proof. rewrite forallb_forall. split; intros H j; [intros; apply H, in_seq; lia|intros I; apply in_seq in I; apply H; lia]. Qed.
Lemma qlt_iff a b : qlt a b = true <-> (a < b)%Q.
Proof.
  unfold qlt. rewrite Bool.negb_true_iff. split; intros H.
  - apply Qnot_le_lt. intros C. apply Qle_bool_iff in C. congruence.
  - destruct (Qle_bool b a) eqn:E; auto. apply Qle_bool_iff in E. lra.
Qed.

Lemma boxes_ok_spec D li hi lo ho : D = 2%nat \/ D = 3%nat -> (boxes_ok D li hi lo ho = true <-> Nested D li hi lo ho).
Proof.
  intros HD. unfold boxes_ok. rewrite !Bool.andb_true_iff, !forallb_seq. split.
  - intros [[A B] C]. constructor; intros.
    + apply Qle_bool_iff, A; auto.
    + apply Qle_bool_iff, B; auto.
    + specialize (C j H). destruct HD as [-> | ->]; [apply Qle_bool_iff; auto|]. apply qlt_iff in C. unfold at_ in C. apply Qlt_le_weak. exact C.
    + subst D. specialize (C j H0). apply qlt_iff in C. exact C.
  - intros [A B C E]. repeat split; intros j Hj.
    + apply Qle_bool_iff, A; auto.
    + apply Qle_bool_iff, B; auto.
    + destruct HD as [-> | ->]; [apply Qle_bool_iff, C; auto|]. apply qlt_iff, E; auto.
Qed.
Lemma inside_spec D lo hi p : forallb (fun j => Qle_bool (at_ lo j) (at_ p j) && Qle_bool (at_ p j) (at_ hi j)) (seq 0 D) = true <-> Inside D lo hi p.
Proof.
  rewrite forallb_seq. split; intros H j Hj; specialize (H j Hj).
  - apply andb_prop in H as [A B]. split; apply Qle_bool_iff; auto.
  - apply andb_true_intro. split; apply Qle_bool_iff; apply H.
Qed.
Lemma outside_spec D p li hi : outside D p li hi = false <-> Inside D li hi p.
Proof.
  unfold outside. split.
  - intros H j Hj. split.
    + apply Qnot_lt_le. intros C. apply qlt_iff in C. assert (X : existsb (fun j => qlt (at_ p j) (at_ li j) || qlt (at_ hi j) (at_ p j)) (seq 0 D) = true); [|congruence].
      apply existsb_exists. exists j. split; [apply in_seq; lia|]. unfold at_, coord in *. rewrite C. auto.
    + apply Qnot_lt_le. intros C. apply qlt_iff in C. assert (X : existsb (fun j => qlt (at_ p j) (at_ li j) || qlt (at_ hi j) (at_ p j)) (seq 0 D) = true); [|congruence].
      apply existsb_exists. exists j. split; [apply in_seq; lia|]. unfold at_, coord in *. rewrite C, orb_comm. auto.
  - intros H. destruct (existsb _ _) eqn:E; auto. apply existsb_exists in E as (j & I & O). apply in_seq in I.
    specialize (H j ltac:(lia)). apply Bool.orb_true_iff in O as [O|O]; apply qlt_iff in O; unfold at_, coord in *; lra.
Qed.

(* everything up to combining the cell numbers *)
Lemma hashPosition_cells k D p li hi lo ho tol : D = 2%nat \/ D = 3%nat -> Fits k D ->
  Nested D li hi lo ho -> Inside D lo ho p ->
  exists zs, (if outside D p li hi then InCell D lo ho tol p zs else InCell D li hi tol p zs) /\
    hashPosition k D p li hi lo ho tol =
      do h <- hash k D zs; Ok (kadd k (if outside D p li hi then norm k (2 ^ 63) else 0) h).
Proof.
  intros HD F N I. unfold hashPosition. rewrite (proj2 (boxes_ok_spec D li hi lo ho HD) N). cbn [assert bind].
  rewrite (proj2 (inside_spec D lo ho p) I). cbn [assert bind].
  assert (G : forall xl xh, Inside D xl xh p -> exists zs, InCell D xl xh tol p zs /\
     mmap (fun j => hcell k D (at_ xl j) (at_ xh j) tol (at_ p j)) (seq 0 D) = Ok zs).
  { intros xl xh J.
    destruct (mmap_forall2 (fun j => hcell k D (at_ xl j) (at_ xh j) tol (at_ p j)) (fun j z => 0 <= z < cells1d D /\
       (at_ xl j + inject_Z z * hstep k D (at_ xl j) (at_ xh j) tol <= at_ p j < at_ xl j + (inject_Z z + 1) * hstep k D (at_ xl j) (at_ xh j) tol)%Q) (seq 0 D)) as (zs & E & R).
    - intros j Ij. apply in_seq in Ij. destruct (hcell_ok k D (at_ xl j) (at_ xh j) tol (at_ p j) F) as (z & Ez & Hz); [apply J; lia|]. eauto.
    - exists zs. split; auto. split.
      + rewrite <- (Forall2_len _ _ _ R). apply seq_length.
      + intros j z Hz. assert (Hj : (j < D)%nat). { rewrite <- (seq_length D 0). rewrite (Forall2_len _ _ _ R). eapply nth_error_lt; eauto. }
        destruct (Forall2_nth_r _ _ _ _ _ R Hz) as (j' & Hj' & R1 & R2).
        assert (j' = j) as ->. { pose proof (nth_error_nth _ _ 0%nat Hj'). rewrite seq_nth in H by lia. lia. }
        split; auto. exists (hstep k D (at_ xl j) (at_ xh j) tol). split; [apply hstep_spec; auto|]. exact R2. }
  destruct (outside D p li hi) eqn:O.
  - destruct (G lo ho I) as (zs & C & E). exists zs. split; auto. rewrite E. reflexivity.
  - apply outside_spec in O. destruct (G li hi O) as (zs & C & E). exists zs. split; auto. rewrite E. reflexivity.
Qed.

(* ---- the 64 bit key ---- *)
Lemma norm64 v : 0 <= v < 2 ^ 64 -> norm uint64_key v = v.
Proof. intros H. apply norm_id; unfold kmin, kmax; cbn [width signed uint64_key]; lia. Qed.
Lemma hash64_2 x y : 0 <= x < 2 ^ 31 -> 0 <= y < 2 ^ 31 -> hash uint64_key 2 [x; y] = Ok (x + 2 ^ 31 * y).
Proof.
  intros X Y. unfold hash. cbn [hash_from]. unfold shl, kadd. cbn [width uint64_key num1dbits].
  change (0 * 31 <? 64) with true. change ((0 + 1) * 31 <? 64) with true. change (2 ^ (0 * 31)) with 1. change (2 ^ ((0 + 1) * 31)) with (2 ^ 31). cbn [bind].
  rewrite (norm64 (x * 1)), (norm64 (y * 2 ^ 31)) by lia. rewrite (norm64 (0 + x * 1)) by lia. rewrite norm64 by lia. f_equal. lia.
Qed.
Lemma hash64_3 x y z : 0 <= x < 2 ^ 21 -> 0 <= y < 2 ^ 21 -> 0 <= z < 2 ^ 21 ->
  hash uint64_key 3 [x; y; z] = Ok (x + 2 ^ 21 * y + 2 ^ 42 * z).
Proof.
  intros X Y W. unfold hash. cbn [hash_from]. unfold shl, kadd. cbn [width uint64_key num1dbits].
  change (0 * 21 <? 64) with true. change ((0 + 1) * 21 <? 64) with true. change ((0 + 1 + 1) * 21 <? 64) with true. change (2 ^ (0 * 21)) with 1. change (2 ^ ((0 + 1) * 21)) with (2 ^ 21). change (2 ^ ((0 + 1 + 1) * 21)) with (2 ^ 42). cbn [bind].
  rewrite (norm64 (x * 1)), (norm64 (y * 2 ^ 21)), (norm64 (z * 2 ^ 42)) by lia. rewrite (norm64 (0 + x * 1)) by lia.
  rewrite (norm64 (0 + x * 1 + _)) by lia. rewrite norm64 by lia. f_equal. lia.
Qed.
Ltac consts :=
  change (Z.of_nat 0 * num1dbits 2) with 0; change (Z.of_nat 1 * num1dbits 2) with 31; change (num1dbits 2) with 31;
  change (Z.of_nat 0 * num1dbits 3) with 0; change (Z.of_nat 1 * num1dbits 3) with 21; change (Z.of_nat 2 * num1dbits 3) with 42;
  change (num1dbits 3) with 21; lia.
Lemma hash64 D zs : D = 2%nat \/ D = 3%nat -> length zs = D -> Forall (fun z => 0 <= z < cells1d D) zs ->
  exists h, hash uint64_key D zs = Ok h /\ 0 <= h < 2 ^ 63 /\
    forall j z, nth_error zs j = Some z -> qval uint64_key D h j = Ok z /\ qval uint64_key D (2 ^ 63 + h) j = Ok z.
Proof.
  intros HD L F.
  assert (QV : forall v j M r, (Z.of_nat j * num1dbits D <? 64) = true -> hcoordMax uint64_key D = 2 ^ num1dbits D - 1 -> 0 <= M ->
     0 <= r < 2 ^ (Z.of_nat j * num1dbits D) -> 0 <= v < 2 ^ num1dbits D -> (2 ^ num1dbits D - 1) * 2 ^ (Z.of_nat j * num1dbits D) < 2 ^ 64 ->
     qval uint64_key D (r + 2 ^ (Z.of_nat j * num1dbits D) * (v + 2 ^ num1dbits D * M)) j = Ok v).
  { intros v j M r W HM PM Hr Hv Hb. unfold qval, shl, shr. cbn [width uint64_key]. rewrite W, HM. cbn [bind].
    set (b := num1dbits D) in *. assert (b0 : 0 <= b) by (unfold b, num1dbits; destruct HD as [-> | ->]; lia).
    set (c := Z.of_nat j * b) in *. assert (0 <= c) by (unfold c; lia).
    rewrite norm_id; [|cbn; lia|unfold kmin, kmax; cbn [signed width uint64_key]; assert (0 < 2 ^ b) by lia; assert (0 < 2 ^ c) by lia; nia].
    f_equal. rewrite Z.shiftr_land. rewrite <- (Z.shiftl_mul_pow2 (2 ^ b - 1)) by auto. rewrite Z.shiftr_shiftl_l by lia.
    rewrite Z.sub_diag, Z.shiftl_0_r. replace (2 ^ b - 1) with (Z.ones b) by (rewrite Z.ones_equiv; lia).
    rewrite Z.land_ones by auto. rewrite Z.shiftr_div_pow2 by auto.
    rewrite (Z.mul_comm (2 ^ c)), Z.div_add by lia. rewrite (Z.div_small r) by lia.
    replace (0 + (v + 2 ^ b * M)) with (v + M * 2 ^ b) by ring. rewrite Z.mod_add by lia. apply Z.mod_small. lia. }
  destruct HD as [-> | ->].
  - destruct zs as [|x [|y [|? ?]]]; try discriminate.
    pose proof (Forall_inv F) as X. pose proof (Forall_inv (Forall_inv_tail F)) as Y. cbn [cells1d] in X, Y.
    exists (x + 2 ^ 31 * y). split; [apply hash64_2; auto|]. split; [lia|].
    intros [|[|j]] z Hz; cbn in Hz; try (destruct j; discriminate); injection Hz as <-; split.
    + replace (x + 2 ^ 31 * y) with (0 + 2 ^ (Z.of_nat 0 * num1dbits 2) * (x + 2 ^ num1dbits 2 * y)) by consts.
      apply QV; consts || reflexivity.
    + replace (2 ^ 63 + (x + 2 ^ 31 * y)) with (0 + 2 ^ (Z.of_nat 0 * num1dbits 2) * (x + 2 ^ num1dbits 2 * (y + 2 ^ 32))) by consts.
      apply QV; consts || reflexivity.
    + replace (x + 2 ^ 31 * y) with (x + 2 ^ (Z.of_nat 1 * num1dbits 2) * (y + 2 ^ num1dbits 2 * 0)) by consts.
      apply QV; consts || reflexivity.
    + replace (2 ^ 63 + (x + 2 ^ 31 * y)) with (x + 2 ^ (Z.of_nat 1 * num1dbits 2) * (y + 2 ^ num1dbits 2 * 2)) by consts.
      apply QV; consts || reflexivity.
  - destruct zs as [|x [|y [|w [|? ?]]]]; try discriminate.
    pose proof (Forall_inv F) as X. pose proof (Forall_inv (Forall_inv_tail F)) as Y.
    pose proof (Forall_inv (Forall_inv_tail (Forall_inv_tail F))) as W. cbn [cells1d] in X, Y, W.
    exists (x + 2 ^ 21 * y + 2 ^ 42 * w). split; [apply hash64_3; auto|]. split; [lia|].
    intros [|[|[|j]]] z Hz; cbn in Hz; try (destruct j; discriminate); injection Hz as <-; split.
    + replace (x + 2 ^ 21 * y + 2 ^ 42 * w) with (0 + 2 ^ (Z.of_nat 0 * num1dbits 3) * (x + 2 ^ num1dbits 3 * (y + 2 ^ 21 * w))) by consts.
      apply QV; consts || reflexivity.
    + replace (2 ^ 63 + (x + 2 ^ 21 * y + 2 ^ 42 * w)) with (0 + 2 ^ (Z.of_nat 0 * num1dbits 3) * (x + 2 ^ num1dbits 3 * (y + 2 ^ 21 * w + 2 ^ 42))) by consts.
      apply QV; consts || reflexivity.
    + replace (x + 2 ^ 21 * y + 2 ^ 42 * w) with (x + 2 ^ (Z.of_nat 1 * num1dbits 3) * (y + 2 ^ num1dbits 3 * w)) by consts.
      apply QV; consts || reflexivity.
    + replace (2 ^ 63 + (x + 2 ^ 21 * y + 2 ^ 42 * w)) with (x + 2 ^ (Z.of_nat 1 * num1dbits 3) * (y + 2 ^ num1dbits 3 * (w + 2 ^ 21))) by consts.
      apply QV; consts || reflexivity.
    + replace (x + 2 ^ 21 * y + 2 ^ 42 * w) with (x + 2 ^ 21 * y + 2 ^ (Z.of_nat 2 * num1dbits 3) * (w + 2 ^ num1dbits 3 * 0)) by consts.
      apply QV; consts || reflexivity.
    + replace (2 ^ 63 + (x + 2 ^ 21 * y + 2 ^ 42 * w)) with (x + 2 ^ 21 * y + 2 ^ (Z.of_nat 2 * num1dbits 3) * (w + 2 ^ num1dbits 3 * 1)) by consts.
      apply QV; consts || reflexivity.
Qed.

Lemma cell_bounds D lo hi tol p zs : InCell D lo hi tol p zs -> Forall (fun z => 0 <= z < cells1d D) zs.
Proof. intros [_ H]. apply Forall_forall. intros z I. apply In_nth_error in I as [j E]. apply (H j z E). Qed.

Lemma hash64_inj D zs zs' h : D = 2%nat \/ D = 3%nat -> length zs = D -> length zs' = D ->
  Forall (fun z => 0 <= z < cells1d D) zs -> Forall (fun z => 0 <= z < cells1d D) zs' ->
  hash uint64_key D zs = Ok h -> hash uint64_key D zs' = Ok h -> zs = zs'.
Proof.
  intros HD L L' F F' E E'. destruct (hash64 D zs HD L F) as (g & G & _ & V). destruct (hash64 D zs' HD L' F') as (g' & G' & _ & V').
  assert (g = h) by congruence. assert (g' = h) by congruence. subst g g'.
  apply nth_error_ext. intros j. destruct (nth_error zs j) as [z|] eqn:Ez.
  - destruct (nth_error_ex zs' j) as [z' Ez']; [rewrite L', <- L; eapply nth_error_lt; eauto|]. rewrite Ez'. f_equal.
    destruct (V _ _ Ez). destruct (V' _ _ Ez'). congruence.
  - symmetry. apply nth_error_None in Ez. apply nth_error_None. lia.
Qed.

Lemma kadd64 r h : (r = 0 \/ r = 2 ^ 63) -> 0 <= h < 2 ^ 63 -> kadd uint64_key r h = r + h.
Proof. intros R H. unfold kadd. apply norm_id; unfold kmin, kmax; cbn [width signed uint64_key]; lia. Qed.

(* ---- the int key ---- *)
Lemma hash32_2 x y : 0 <= x < 2 ^ 31 -> 0 <= y < 2 ^ 31 -> hash int_key 2 [x; y] = Ok (x - 2 ^ 31 * (y mod 2)).
Proof.
  intros X Y. unfold hash. cbn [hash_from]. unfold shl, kadd. cbn [width int_key num1dbits].
  change (0 * 31 <? 32) with true. change ((0 + 1) * 31 <? 32) with true. cbn [bind].
  rewrite (norm_id _ (x * 2 ^ (0 * 31))) by (unfold kmin, kmax; cbn [width signed int_key]; lia).
  rewrite (norm_id _ (0 + _)) by (unfold kmin, kmax; cbn [width signed int_key]; lia).
  f_equal. assert (E : norm int_key (y * 2 ^ ((0 + 1) * 31)) = - 2 ^ 31 * (y mod 2)).
  { unfold norm, kmin. cbn [width signed int_key]. change (2 ^ ((0 + 1) * 31)) with (2 ^ 31).
    pose proof (Z.div_mod y 2 ltac:(lia)) as Q. pose proof (Z.mod_pos_bound y 2 ltac:(lia)).
    assert (C : y mod 2 = 0 \/ y mod 2 = 1) by lia. destruct C as [C|C]; rewrite C in *.
    - replace (y * 2 ^ 31 - - 2 ^ (32 - 1)) with (2 ^ 31 + (y / 2) * 2 ^ 32) by lia. rewrite Z.mod_add by lia. reflexivity.
    - replace (y * 2 ^ 31 - - 2 ^ (32 - 1)) with (0 + (y / 2 + 1) * 2 ^ 32) by lia. rewrite Z.mod_add by lia. reflexivity. }
  rewrite E. pose proof (Z.mod_pos_bound y 2 ltac:(lia)). rewrite norm_id by (unfold kmin, kmax; cbn [width signed int_key]; lia). lia.
Qed.
