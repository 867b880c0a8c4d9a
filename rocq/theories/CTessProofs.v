From Verif Require Import Base BaseFacts SerializeModel MeshModel CTessModel CTessSpec.
From Coq Require Import Lia.

(* compressed rows *)
Lemma repeat_S {A} (x : A) n : repeat x (S n) = x :: repeat x n.
Proof. reflexivity. Qed.
Lemma set_app {A} (l1 l2 : list A) x a : set (l1 ++ x :: l2) (length l1) a = Ok (l1 ++ a :: l2).
Proof. rewrite set_lt; [rewrite upd_app; auto|]. rewrite app_length. cbn. lia. Qed.
Lemma crs_inner {A} (row : list A) : forall done n, length row <= n ->
  mfold (fun (st : nat * list (option A)) x => do ds <- set (snd st) (fst st) (Some x); Ok (S (fst st), ds)) row (length done, done ++ repeat None n)
  = Ok (length done + length row, done ++ map Some row ++ repeat None (n - length row)).
Proof.
  induction row as [|x row IH]; intros done n L; cbn [length] in L.
  { cbn. rewrite Nat.add_0_r, Nat.sub_0_r. auto. }
  destruct n as [|n]; [lia|]. cbn [mfold fst snd]. rewrite repeat_S, set_app. cbn [bind].
  replace (done ++ Some x :: repeat None n) with ((done ++ [Some x]) ++ repeat None n) by (rewrite <- app_assoc; auto).
  replace (S (length done)) with (length (done ++ [Some x])) by (rewrite app_length; cbn; lia).
  rewrite IH by lia. rewrite app_length. cbn [length map]. f_equal. f_equal; [lia|]. rewrite <- app_assoc. cbn. auto.
Qed.
Definition offset {A} (rows : list (list A)) (i : nat) : nat := length (concat (firstn i rows)).
Lemma sum_concat {A} (rows : list (list A)) : list_sum (map (@length A) rows) = length (concat rows).
Proof. induction rows as [|r rows IH]; auto. cbn [map list_sum concat fold_right]. rewrite app_length, <- IH. auto. Qed.
Lemma crs_ok {A} (rows : list (list A)) : crs (length rows) rows =
  Ok (map (fun i => Some (Z.of_nat (offset rows i))) (seq 0 (length rows + 1)), map Some (concat rows) ++ [None]).
Proof.
  unfold crs. rewrite sum_concat. set (n := length rows). set (sz := length (concat rows)).
  set (body := fun st row => _). 
  assert (G : forall r1 r2, rows = r1 ++ r2 ->
    mfold body r1 (0, 0, repeat None (n + 1), repeat None (sz + 1)) =
    Ok (length r1, length (concat r1), map (fun i => Some (Z.of_nat (offset rows i))) (seq 0 (length r1)) ++ repeat None (n + 1 - length r1),
        map Some (concat r1) ++ repeat None (sz + 1 - length (concat r1)))).
  { induction r1 as [|row r1 IH] using rev_ind; intros r2 E.
    { cbn. rewrite !Nat.sub_0_r. auto. }
    assert (N : length r1 < n). { unfold n. rewrite E, !app_length. cbn. lia. }
    assert (S1 : length (concat r1) + length row <= sz). { unfold sz. rewrite E, !concat_app, !app_length. cbn. rewrite app_nil_r. lia. }
    rewrite mfold_app, (IH (row :: r2)) by (rewrite E, <- app_assoc; auto). cbn [bind mfold]. unfold body at 1.
    replace (n + 1 - length r1) with (S (n - length r1)) by lia. rewrite repeat_S.
    set (os := map (fun i => Some (Z.of_nat (offset rows i))) (seq 0 (length r1))).
    assert (LO : length os = length r1) by (unfold os; rewrite map_length, seq_length; auto).
    rewrite <- LO at 2. rewrite set_app. cbn [bind].
    replace (length (concat r1)) with (length (map Some (concat r1))) at 1 by apply map_length.
    rewrite crs_inner by lia. cbn [bind fst snd]. rewrite map_length. f_equal. f_equal; [f_equal; [f_equal|]|].
    - rewrite app_length. cbn. lia.
    - rewrite concat_app, app_length. cbn. rewrite app_nil_r. lia.
    - rewrite app_length. cbn [length]. rewrite Nat.add_1_r, seq_S, map_app. fold os. rewrite <- app_assoc. cbn [map app Nat.add]. f_equal. f_equal.
      + f_equal. f_equal. unfold offset. rewrite E, <- app_assoc, firstn_app, firstn_all, Nat.sub_diag. cbn. rewrite app_nil_r. auto.
      + f_equal. lia.
    - rewrite concat_app, map_app, <- app_assoc, app_length. cbn. rewrite app_nil_r. f_equal. f_equal. f_equal. lia. }
  rewrite (G rows []) by (rewrite app_nil_r; auto). cbn [bind]. fold n. fold sz. replace (n + 1 - n) with 1 by lia. replace (sz + 1 - sz) with 1 by lia.
  set (os := map (fun i => Some (Z.of_nat (offset rows i))) (seq 0 n)).
  assert (LO : length os = n) by (unfold os; rewrite map_length, seq_length; auto).
  rewrite <- LO at 1. cbn [repeat]. rewrite set_app. cbn [bind]. f_equal. f_equal. rewrite Nat.add_1_r, seq_S, map_app. fold os. f_equal. cbn.
  unfold offset. rewrite firstn_all2 by (unfold n; lia). auto.
Qed.
Lemma offset_row {A} (rows : list (list A)) i row : nth_error rows i = Some row -> offset rows (S i) = offset rows i + length row.
Proof.
  unfold offset. revert rows. induction i as [|i IH]; intros [|r rows] H; try discriminate; cbn in H.
  - injection H as ->. cbn. rewrite app_nil_r. auto.
  - rewrite !firstn_cons. cbn [concat]. rewrite !app_length. specialize (IH _ H). rewrite IH. lia.
Qed.
Lemma concat_nth {A} (rows : list (list A)) i row j : nth_error rows i = Some row -> j < length row ->
  nth_error (concat rows) (offset rows i + j) = nth_error row j.
Proof.
  unfold offset. revert rows. induction i as [|i IH]; intros [|r rows] H J; try discriminate; cbn in H.
  - injection H as ->. cbn. rewrite nth_error_app1; auto.
  - rewrite firstn_cons. cbn [concat]. rewrite app_length, nth_error_app2 by lia. replace (length r + length (concat (firstn i rows)) + j - length r) with (length (concat (firstn i rows)) + j) by lia. apply IH; auto.
Qed.
Lemma copyTo_all {A} (l : list A) : copyTo l (length l) = Ok (map Some l).
Proof. unfold copyTo. rewrite Nat.leb_refl, Nat.sub_diag. cbn. rewrite app_nil_r. auto. Qed.

(* the cells of the faces *)
Definition second (fc : list Z) : Z := match fc with [_; d] => d | _ => (-1)%Z end.
Definition first (fc : list Z) : Z := match fc with c :: _ => c | [] => 0%Z end.
Definition pairs (fcs : list (list Z)) : list (option Z) := flat_map (fun fc => [Some (first fc); Some (second fc)]) fcs.
Lemma pairs_length fcs : length (pairs fcs) = 2 * length fcs.
Proof. unfold pairs. induction fcs; cbn in *; auto. lia. Qed.
Lemma faceCellArray_ok fcs : (forall fc, In fc fcs -> length fc = 1 \/ length fc = 2) -> faceCellArray (length fcs) fcs = Ok (pairs fcs).
Proof.
  intros H. unfold faceCellArray. set (body := fun l f => _).
  assert (G : forall k, k <= length fcs -> mfold body (seq 0 k) (repeat None (2 * length fcs)) = Ok (pairs (firstn k fcs) ++ repeat None (2 * length fcs - 2 * k))).
  { induction k as [|k IH]; intros K; [cbn [seq mfold firstn pairs flat_map app]; rewrite Nat.mul_0_r, Nat.sub_0_r; auto|].
    rewrite seq_S, mfold_app, IH by lia. cbn [bind mfold Nat.add]. unfold body at 1.
    destruct (nth_error_ex fcs k) as (fc & F); [lia|]. rewrite (proj2 (get_ok _ _ _) F). cbn [bind].
    assert (FK : firstn (S k) fcs = firstn k fcs ++ [fc]).
    { clear -F. revert fcs F. induction k as [|k IH]; intros [|x l] F; try discriminate; cbn in F; [injection F as ->; auto|]. rewrite firstn_cons, IH by auto. auto. }
    destruct (H fc (nth_error_In _ _ F)) as [L|L].
    - destruct fc as [|c [|]]; try discriminate. unfold get at 1. cbn [nth_error bind length Nat.eqb].
      replace (2 * length fcs - 2 * k) with (S (S (2 * length fcs - 2 * S k))) by lia. rewrite !repeat_S.
      assert (LP : length (pairs (firstn k fcs)) = 2 * k) by (rewrite pairs_length, firstn_length; lia).
      rewrite <- LP at 1. rewrite set_app. cbn [bind].
      replace (2 * k + 1) with (length (pairs (firstn k fcs) ++ [Some c])) by (rewrite app_length, LP; cbn; lia).
      replace (pairs (firstn k fcs) ++ Some c :: None :: repeat None (2 * length fcs - 2 * S k)) with ((pairs (firstn k fcs) ++ [Some c]) ++ None :: repeat None (2 * length fcs - 2 * S k)) by (rewrite <- app_assoc; auto).
      rewrite set_app. cbn [bind]. rewrite FK. unfold pairs. rewrite flat_map_app. cbn [flat_map app first second]. rewrite <- !app_assoc. auto.
    - destruct fc as [|c [|d [|]]]; try discriminate. unfold get. cbn [nth_error bind length Nat.eqb].
      replace (2 * length fcs - 2 * k) with (S (S (2 * length fcs - 2 * S k))) by lia. rewrite !repeat_S.
      assert (LP : length (pairs (firstn k fcs)) = 2 * k) by (rewrite pairs_length, firstn_length; lia).
      rewrite <- LP at 1. rewrite set_app. cbn [bind].
      replace (2 * k + 1) with (length (pairs (firstn k fcs) ++ [Some c])) by (rewrite app_length, LP; cbn; lia).
      replace (pairs (firstn k fcs) ++ Some c :: None :: repeat None (2 * length fcs - 2 * S k)) with ((pairs (firstn k fcs) ++ [Some c]) ++ None :: repeat None (2 * length fcs - 2 * S k)) by (rewrite <- app_assoc; auto).
      rewrite set_app. cbn [bind]. rewrite FK. unfold pairs. rewrite flat_map_app. cbn [flat_map app first second]. rewrite <- !app_assoc. auto. }
  rewrite (G (length fcs)) by lia. rewrite firstn_all, Nat.sub_diag. cbn. rewrite app_nil_r. auto.
Qed.
Lemma pairs_nth fcs i fc : nth_error fcs i = Some fc -> nth_error (pairs fcs) (2 * i) = Some (Some (first fc)) /\ nth_error (pairs fcs) (2 * i + 1) = Some (Some (second fc)).
Proof.
  revert fcs. induction i as [|i IH]; intros [|x l] H; try discriminate; cbn in H.
  - injection H as ->. cbn. auto.
  - replace (2 * S i) with (S (S (2 * i))) by lia. cbn. apply IH; auto.
Qed.

(* ownership of memory *)
Section Own.
  Context {V : Type}.
  Definition liveb (h : heap V) (a : nat) : bool := match nth_error h a with Some (Some _) => true | _ => false end.
  Definition Own (h : heap V) (L : list nat) : Prop := forall a, count_occ Nat.eq_dec L a = if liveb h a then 1 else 0.
  Definition addrs (p : ptr) : list nat := match p with Ptr a => [a] | _ => [] end.
  Definition Grows (h h' : heap V) : Prop := exists t, h' = h ++ t.
  Definition Holds (h : heap V) (p : ptr) (size0 : bool) (b : block V) : Prop :=
    (p = Null /\ size0 = true) \/ exists a, p = Ptr a /\ nth_error h a = Some (Some b).
  Lemma grows_refl h : Grows h h.
  Proof. exists []. rewrite app_nil_r. auto. Qed.
  Lemma grows_trans h h' h'' : Grows h h' -> Grows h' h'' -> Grows h h''.
  Proof. intros (t & ->) (t' & ->). exists (t ++ t'). rewrite app_assoc. auto. Qed.
  Lemma grows_nth h h' a x : Grows h h' -> nth_error h a = Some x -> nth_error h' a = Some x.
  Proof. intros (t & ->) H. rewrite nth_error_app1; auto. apply nth_error_Some. congruence. Qed.
  Lemma holds_grows h h' p s b : Grows h h' -> Holds h p s b -> Holds h' p s b.
  Proof. intros G [H|(a & -> & H)]; [left; auto|right]. exists a. split; auto. eapply grows_nth; eauto. Qed.
  Lemma own_app h b L : Own h L -> Own (h ++ [Some b]) (length h :: L).
  Proof.
    intros O a. cbn [count_occ]. specialize (O a). unfold liveb in *. destruct (Nat.eq_dec (length h) a) as [<-|N].
    - rewrite nth_error_app2, Nat.sub_diag by auto. cbn. rewrite O. rewrite (proj2 (nth_error_None h (length h))) by auto. auto.
    - rewrite O. destruct (lt_dec a (length h)) as [J|J]; [rewrite nth_error_app1; auto|].
      rewrite !(proj2 (nth_error_None _ _)); auto; rewrite ?app_length; cbn; lia.
  Qed.
  Lemma own_ext h L L' : Own h L -> (forall a, count_occ Nat.eq_dec L' a = count_occ Nat.eq_dec L a) -> Own h L'.
  Proof. intros O E a. rewrite E. apply O. Qed.
  Lemma free_own h a L : Own h (a :: L) -> exists h', free h (Ptr a) = Ok h' /\ Own h' L /\ h' = upd h a None.
  Proof.
    intros O. pose proof (O a) as Q. cbn [count_occ] in Q. destruct (Nat.eq_dec a a) as [_|N]; [|tauto].
    unfold liveb in Q. cbn [free]. destruct (nth_error h a) as [[b|]|] eqn:E; try discriminate. eexists. split; [reflexivity|]. split; auto.
    intros c. pose proof (O c) as R. cbn [count_occ] in R. unfold liveb in *. rewrite upd_nth.
    assert (a < length h) by (apply nth_error_Some; congruence).
    destruct (Nat.eq_dec a c) as [<-|M].
    - rewrite Nat.eqb_refl. destruct (Nat.ltb_spec a (length h)); [|lia]. cbn. rewrite E in R. lia.
    - destruct (Nat.eqb_spec a c); [congruence|]. cbn. auto.
  Qed.
  Lemma freep_own h p L : p <> Undef -> Own h (addrs p ++ L) -> exists h', free h p = Ok h' /\ Own h' L /\ length h' = length h /\
    (forall a b, nth_error h a = Some (Some b) -> ~ In a (addrs p) -> nth_error h' a = Some (Some b)).
  Proof.
    intros N O. destruct p as [| |a]; [tauto| |].
    - exists h. cbn in *. auto.
    - destruct (free_own h a L O) as (h' & E & O' & ->). exists (upd h a None). repeat split; auto; [apply upd_length|].
      intros c b H I. rewrite upd_other; auto. intros ->. apply I. cbn. auto.
  Qed.
  Lemma free_dead h a L : Own h L -> ~ In a L -> free h (Ptr a) = UB.
  Proof.
    intros O N. specialize (O a). rewrite (proj1 (count_occ_not_In Nat.eq_dec L a) N) in O. unfold liveb in O. cbn [free].
    destruct (nth_error h a) as [[b|]|]; auto. discriminate.
  Qed.
  Lemma own_released h : Own h [] <-> Released h.
  Proof.
    unfold Own, Released, liveb. split.
    - intros O a b E. specialize (O a). rewrite E in O. discriminate.
    - intros R a. specialize (R a). cbn. destruct (nth_error h a) as [[b|]|]; auto. destruct (R b); auto.
  Qed.
  Lemma own_not_released h a L : Own h (a :: L) -> ~ Released h.
  Proof.
    intros O R. specialize (O a). cbn [count_occ] in O. destruct (Nat.eq_dec a a); [|tauto]. unfold liveb in O.
    destruct (nth_error h a) as [[b|]|] eqn:E; try discriminate. destruct (R a b); auto.
  Qed.
  Lemma mallocTo_step zn (w : world V) f s b L : Own (mem w) L ->
    exists h p, mallocTo zn w f s b = setp (setm w h) f p /\ Own h (addrs p ++ L) /\ Grows (mem w) h /\ Holds h p s b /\ p <> Undef /\
      (s = false -> exists a, p = Ptr a).
  Proof.
    intros O. unfold mallocTo, malloc. destruct (s && zn) eqn:E; cbn [fst snd].
    - apply Bool.andb_true_iff in E as [-> _]. exists (mem w), Null. cbn. repeat split; auto using grows_refl; try discriminate. left. auto.
    - exists (mem w ++ [Some b]), (Ptr (length (mem w))). cbn. repeat split; try discriminate; eauto.
      + apply own_app; auto.
      + exists [Some b]. auto.
      + right. eexists. split; [reflexivity|]. rewrite nth_error_app2, Nat.sub_diag by auto. auto.
  Qed.
End Own.
