(* Theorems about hashing positions (C29), merging duplicate points (C30) and Morton keys (C31). *)
From Verif Require Import Base BaseFacts PLCSpec PLCProofs BoxModel BoxProofs BoxProps HashModel HashSpec HashProofs HashProofs2.
From Coq Require Import QArith Qround Lqa.
Local Open Scope Z_scope.

(* ------------------------------------------------------------ C29 *)
(* With a 64 bit unsigned key, the type the comments of the code assume, hashing never fails on
   positions in the outer box and separates exactly the cells.  Partial: KeyTraits::Key is int. *)
Theorem hash_same_cell_partial : forall D p p' li hi lo ho tol, D = 2%nat \/ D = 3%nat ->
  Nested D li hi lo ho -> Inside D lo ho p -> Inside D lo ho p' ->
  exists h h', hashPosition uint64_key D p li hi lo ho tol = Ok h /\ hashPosition uint64_key D p' li hi lo ho tol = Ok h' /\
    (h = h' <-> SameCell2 D li hi lo ho tol p p').
Proof.
  intros D p p' li hi lo ho tol HD N I I'. pose proof (fits_u64 D HD) as F.
  destruct (hashPosition_cells uint64_key D p li hi lo ho tol HD F N I) as (zs & C & E).
  destruct (hashPosition_cells uint64_key D p' li hi lo ho tol HD F N I') as (zs' & C' & E').
  assert (L : length zs = D /\ Forall (fun z => 0 <= z < cells1d D) zs).
  { destruct (outside D p li hi); split; try apply C; eapply cell_bounds; eauto. }
  assert (L' : length zs' = D /\ Forall (fun z => 0 <= z < cells1d D) zs').
  { destruct (outside D p' li hi); split; try apply C'; eapply cell_bounds; eauto. }
  destruct L as [L B], L' as [L' B'].
  destruct (hash64 D zs HD L B) as (g & G & R & _). destruct (hash64 D zs' HD L' B') as (g' & G' & R' & _).
  rewrite E, E', G, G'. cbn [bind]. change (norm uint64_key (2 ^ 63)) with (2 ^ 63).
  eexists _, _. split; [reflexivity|]. split; [reflexivity|].
  assert (RR : forall b : bool, (if b then 2 ^ 63 else 0) = 0 \/ (if b then 2 ^ 63 else 0) = 2 ^ 63) by (intros []; auto).
  rewrite !kadd64 by auto.
  assert (J : g = g' -> zs = zs') by (intros <-; eapply hash64_inj; eauto).
  assert (J' : zs = zs' -> g = g') by (intros <-; congruence).
  pose proof (outside_spec D p li hi) as O. pose proof (outside_spec D p' li hi) as O'.
  unfold SameCell2, SameCell.
  destruct (outside D p li hi), (outside D p' li hi).
  - split.
    + intros Eq. right. split; [intros X; apply O in X; discriminate|]. split; [intros X; apply O' in X; discriminate|].
      exists zs. split; auto. rewrite J; auto. lia.
    + intros [(X & _)|(_ & _ & ws & W & W')]; [apply O in X; discriminate|].
      rewrite (cell_unique _ _ _ _ _ _ _ C W), (cell_unique _ _ _ _ _ _ _ C' W') in J'. rewrite J'; auto.
  - split; [intros Eq; exfalso; lia|]. intros [(X & _)|(_ & X & _)]; [apply O in X; discriminate|]. destruct X. apply O'. auto.
  - split; [intros Eq; exfalso; lia|]. intros [(_ & X & _)|(X & _)]; [apply O' in X; discriminate|]. destruct X. apply O. auto.
  - split.
    + intros Eq. left. split; [apply O; auto|]. split; [apply O'; auto|]. exists zs. split; auto. rewrite J; auto.
    + intros [(_ & _ & ws & W & W')|(X & _)]; [|destruct X; apply O; auto].
      rewrite (cell_unique _ _ _ _ _ _ _ C W), (cell_unique _ _ _ _ _ _ _ C' W') in J'. rewrite J'; auto.
Qed.
Print Assumptions hash_same_cell_partial.

Lemma half_cell (xl xh s x : Q) (z : Z) : (0 < s)%Q -> (xl <= x <= xh)%Q ->
  0 <= z -> (xl + inject_Z z * s <= x < xl + (inject_Z z + 1) * s)%Q ->
  let y := qmax xl (qmin xh (xl + (inject_Z z + (1 # 2)) * s)) in
  (xl + inject_Z z * s <= y < xl + (inject_Z z + 1) * s)%Q.
Proof.
  intros P [A B] Hz [C D]. assert (Z0 : (0 <= inject_Z z)%Q). { change 0%Q with (inject_Z 0). rewrite <- Zle_Qle. auto. }
  assert (ZS : (0 <= inject_Z z * s)%Q) by nra. unfold qmax, qmin.
  destruct (Qlt_le_dec (xl + (inject_Z z + (1 # 2)) * s) xh).
  - destruct (Qlt_le_dec xl (xl + (inject_Z z + (1 # 2)) * s)); cbv zeta; split; nra.
  - destruct (Qlt_le_dec xl xh); cbv zeta; split; nra.
Qed.

(* Unhashing a hash gives a position in the same box and the same cell. *)
Theorem unhash_in_cell_partial : forall D p li hi lo ho tol h, D = 2%nat \/ D = 3%nat ->
  Nested D li hi lo ho -> Inside D lo ho p -> hashPosition uint64_key D p li hi lo ho tol = Ok h ->
  exists p', unhashPosition uint64_key D li hi lo ho h tol = Ok p' /\
    ((Inside D li hi p /\ Inside D li hi p' /\ SameCell D li hi tol p p') \/
     (~ Inside D li hi p /\ Inside D lo ho p' /\ SameCell D lo ho tol p p')).
Proof.
  intros D p li hi lo ho tol h HD N I Eh. pose proof (fits_u64 D HD) as F.
  destruct (hashPosition_cells uint64_key D p li hi lo ho tol HD F N I) as (zs & C & E).
  assert (L : length zs = D /\ Forall (fun z => 0 <= z < cells1d D) zs).
  { destruct (outside D p li hi); split; try apply C; eapply cell_bounds; eauto. }
  destruct L as [L B]. destruct (hash64 D zs HD L B) as (g & G & R & V).
  rewrite E, G in Eh. cbn [bind] in Eh. change (norm uint64_key (2 ^ 63)) with (2 ^ 63) in Eh.
  pose proof (outside_spec D p li hi) as O.
  assert (K : exists out, outside D p li hi = out /\ h = (if out then 2 ^ 63 else 0) + g).
  { exists (outside D p li hi). split; auto. rewrite kadd64 in Eh; auto; [congruence|]. destruct (outside D p li hi); auto. }
  destruct K as (out & Eo & Eh'). rewrite Eo in *.
  destruct (unhash_ok uint64_key D li hi lo ho h tol (fun j => nth j zs 0) HD N) as (p' & U & L' & Ins & Co).
  { intros j Hj. destruct (nth_error_ex zs j) as [z Hz]; [lia|]. rewrite (nth_error_nth _ _ 0 Hz). destruct (V _ _ Hz) as [V1 V2].
    rewrite Eh'. destruct out; auto. }
  assert (Us : used li hi lo ho h = if out then (lo, ho) else (li, hi)).
  { unfold used. rewrite Eh'. destruct out.
    - rewrite Z.mod_small by lia. replace (2 ^ 63 <=? 2 ^ 63 + g) with true by (symmetry; apply Z.leb_le; lia). auto.
    - rewrite Z.mod_small by lia. replace (2 ^ 63 <=? 0 + g) with false by (symmetry; apply Z.leb_gt; lia). auto. }
  rewrite Us in Ins, Co. exists p'. split; auto.
  assert (SC : forall xl xh, Inside D xl xh p -> InCell D xl xh tol p zs ->
     (forall j, (j < D)%nat -> coord p' j = qmax (coord xl j) (qmin (coord xh j) (coord xl j + (inject_Z (nth j zs 0%Z) + (1 # 2)) * hstep uint64_key D (coord xl j) (coord xh j) tol))%Q) ->
     SameCell D xl xh tol p p').
  { intros xl xh J Cz Cp. exists zs. split; auto. split; auto. intros j z Hz.
    destruct (proj2 Cz j z Hz) as (Bz & s & Gs & Hs). split; auto.
    exists (hstep uint64_key D (coord xl j) (coord xh j) tol). split; [apply hstep_spec; auto|].
    assert (Hj : (j < D)%nat) by (rewrite <- L; eapply nth_error_lt; eauto).
    rewrite (Cp j Hj). rewrite (nth_error_nth _ _ 0 Hz).
    pose proof (hstep_spec uint64_key D (coord xl j) (coord xh j) tol F) as Gs'.
    apply (half_cell _ _ _ (coord p j)); [eapply step_pos; eauto|apply J; auto|lia|].
    rewrite (step_unique _ _ _ _ _ _ Gs' Gs). auto. }
  destruct out; cbn [fst snd] in *.
  - right. split; [intros X; apply O in X; discriminate|]. split; auto.
  - left. assert (Ip : Inside D li hi p) by (apply O; auto). split; auto.
Qed.
Print Assumptions unhash_in_cell_partial.

(* With the key type of the code, int, a planar hash holds the column of the cell and only the
   parity of its row, and does not tell the inner from the outer box. *)
Theorem hash_int_partial : forall p p' li hi lo ho tol,
  Nested 2 li hi lo ho -> Inside 2 lo ho p -> Inside 2 lo ho p' ->
  exists h h' x y x' y', hashPosition int_key 2 p li hi lo ho tol = Ok h /\ hashPosition int_key 2 p' li hi lo ho tol = Ok h' /\
    ((Inside 2 li hi p /\ InCell 2 li hi tol p [x; y]) \/ (~ Inside 2 li hi p /\ InCell 2 lo ho tol p [x; y])) /\
    ((Inside 2 li hi p' /\ InCell 2 li hi tol p' [x'; y']) \/ (~ Inside 2 li hi p' /\ InCell 2 lo ho tol p' [x'; y'])) /\
    (h = h' <-> x = x' /\ Z.even (y - y') = true).
Proof.
  intros p p' li hi lo ho tol N I I'. assert (HD : 2%nat = 2%nat \/ 2%nat = 3%nat) by auto. pose proof (fits_int 2 HD) as F.
  assert (K : forall q, Inside 2 lo ho q -> exists x y, 0 <= x < 2 ^ 31 /\ 0 <= y < 2 ^ 31 /\
     hashPosition int_key 2 q li hi lo ho tol = Ok (x - 2 ^ 31 * (y mod 2)) /\
     ((Inside 2 li hi q /\ InCell 2 li hi tol q [x; y]) \/ (~ Inside 2 li hi q /\ InCell 2 lo ho tol q [x; y]))).
  { intros q Iq. destruct (hashPosition_cells int_key 2 q li hi lo ho tol HD F N Iq) as (zs & C & E).
    assert (L : length zs = 2%nat /\ Forall (fun z => 0 <= z < cells1d 2) zs).
    { destruct (outside 2 q li hi); split; try apply C; eapply cell_bounds; eauto. }
    destruct L as [L B]. destruct zs as [|x [|y [|? ?]]]; try discriminate.
    pose proof (Forall_inv B) as X. pose proof (Forall_inv (Forall_inv_tail B)) as Y. cbn [cells1d] in X, Y.
    exists x, y. repeat split; try lia.
    - rewrite E, hash32_2 by auto. cbn [bind]. f_equal. change (norm int_key (2 ^ 63)) with 0.
      replace (if outside 2 q li hi then 0 else 0) with 0 by (destruct (outside 2 q li hi); auto).
      pose proof (Z.mod_pos_bound y 2 ltac:(lia)). unfold kadd. apply norm_id; unfold kmin, kmax; cbn [width signed int_key]; lia.
    - pose proof (outside_spec 2 q li hi) as O. destruct (outside 2 q li hi).
      + right. split; auto. intros Z. apply O in Z. discriminate.
      + left. split; auto. apply O; auto. }
  destruct (K p I) as (x & y & X & Y & E & C). destruct (K p' I') as (x' & y' & X' & Y' & E' & C').
  exists (x - 2 ^ 31 * (y mod 2)), (x' - 2 ^ 31 * (y' mod 2)), x, y, x', y'. repeat split; auto.
  - pose proof (Z.mod_pos_bound y 2 ltac:(lia)). pose proof (Z.mod_pos_bound y' 2 ltac:(lia)). lia.
  - pose proof (Z.mod_pos_bound y 2 ltac:(lia)). pose proof (Z.mod_pos_bound y' 2 ltac:(lia)).
    assert (M : y mod 2 = y' mod 2) by lia. rewrite Z.even_sub, <- !Z.negb_odd, <- !Zmod_odd_bool || rewrite Z.even_sub.
    rewrite !Zeven_mod. rewrite M. apply Bool.eqb_reflx.
  - intros [-> Ev]. rewrite Z.even_sub in Ev. apply Bool.eqb_prop in Ev. rewrite !Zeven_mod in Ev.
    pose proof (Z.mod_pos_bound y 2 ltac:(lia)). pose proof (Z.mod_pos_bound y' 2 ltac:(lia)).
    assert (y mod 2 = y' mod 2); [|congruence].
    destruct (Zeq_bool (y mod 2) 0) eqn:A, (Zeq_bool (y' mod 2) 0) eqn:B; try discriminate.
    + apply Zeq_bool_eq in A, B. congruence.
    + apply Zeq_bool_neq in A, B. lia.
Qed.
Print Assumptions hash_int_partial.

(* So with int two positions far apart share a hash: the lower left corner of a square of
   2^31 - 1 units and the point 2^30 units above it. *)
Theorem hash_int_refuted : exists p p' lo hi h,
  Nested 2 lo hi lo hi /\ Inside 2 lo hi p /\ Inside 2 lo hi p' /\
  ~ SameCell2 2 lo hi lo hi 0 p p' /\
  hashPosition int_key 2 p lo hi lo hi 0 = Ok h /\ hashPosition int_key 2 p' lo hi lo hi 0 = Ok h.
Proof.
  exists [0%Q; 0%Q], [0%Q; inject_Z (2 ^ 30)], [0%Q; 0%Q], [inject_Z (2 ^ 31 - 1); inject_Z (2 ^ 31 - 1)], 0.
  split; [|split; [|split; [|split; [|split]]]].
  - constructor; [| | |discriminate]; intros [|[|j]] H; try lia; cbn; unfold Qle; cbn; lia.
  - intros [|[|j]] H; try lia; cbn; unfold Qle; cbn; lia.
  - intros [|[|j]] H; try lia; cbn; unfold Qle; cbn; lia.
  - assert (NC : ~ SameCell 2 [0%Q; 0%Q] [inject_Z (2 ^ 31 - 1); inject_Z (2 ^ 31 - 1)] 0 [0%Q; 0%Q] [0%Q; inject_Z (2 ^ 30)]).
    { intros (zs & [L C] & [_ C']). destruct (nth_error_ex zs 1) as [z Hz]; [lia|].
      destruct (C _ _ Hz) as (B & s & G & H1 & H2). destruct (C' _ _ Hz) as (_ & s' & G' & H3 & H4).
      pose proof (step_unique _ _ _ _ _ _ G G') as Es. rewrite <- Es in *.
      assert (S1 : (s == 1)%Q).
      { destruct G as [A1 A2 A3 A4]. cbn [coord nth cells1d] in *.
        assert (One : ((inject_Z (2 ^ 31 - 1) - 0) / inject_Z (2 ^ 31 - 1) == 1)%Q) by reflexivity.
        rewrite One in *. assert ((1 # 2 ^ 52) < 1)%Q by reflexivity. destruct A4 as [A4|[A4|A4]]; lra. }
      rewrite S1 in *. cbn [coord nth] in *.
      assert (Z0 : (0 <= inject_Z z)%Q). { change 0%Q with (inject_Z 0). rewrite <- Zle_Qle. lia. }
      assert (2 < inject_Z (2 ^ 30))%Q by reflexivity. lra. }
    intros [(_ & _ & S)|(_ & _ & S)]; auto.
  - vm_compute. reflexivity.
  - vm_compute. reflexivity.
Qed.
Print Assumptions hash_int_refuted.

(* In 3D with int the shift by 42 is undefined, for every position. *)
Theorem hash_int_3d_refuted : forall p li hi lo ho tol, Nested 3 li hi lo ho -> Inside 3 lo ho p ->
  hashPosition int_key 3 p li hi lo ho tol = UB.
Proof.
  intros p li hi lo ho tol N I. assert (HD : 3%nat = 2%nat \/ 3%nat = 3%nat) by auto. pose proof (fits_int 3 HD) as F.
  destruct (hashPosition_cells int_key 3 p li hi lo ho tol HD F N I) as (zs & C & E).
  assert (L : length zs = 3%nat) by (destruct (outside 3 p li hi); apply C).
  destruct zs as [|x [|y [|z [|? ?]]]]; try discriminate. rewrite E. reflexivity.
Qed.
Print Assumptions hash_int_3d_refuted.

(* and unhashing a planar int hash loses the row: the position comes back in the first row *)
Theorem unhash_int_refuted : exists p p' lo hi h,
  Nested 2 lo hi lo hi /\ Inside 2 lo hi p /\
  hashPosition int_key 2 p lo hi lo hi 0 = Ok h /\ unhashPosition int_key 2 lo hi lo hi h 0 = Ok p' /\
  (coord p 1 - coord p' 1 == inject_Z (2 ^ 30) - (1 # 2))%Q.
Proof.
  exists [0%Q; inject_Z (2 ^ 30)], [Qmake 2147483647 4294967294; Qmake 2147483647 4294967294], [0%Q; 0%Q], [inject_Z (2 ^ 31 - 1); inject_Z (2 ^ 31 - 1)], 0.
  split; [|split; [|split; [|split]]].
  - constructor; [| | |discriminate]; intros [|[|j]] H; try lia; cbn; unfold Qle; cbn; lia.
  - intros [|[|j]] H; try lia; cbn; unfold Qle; cbn; lia.
  - vm_compute. reflexivity.
  - vm_compute. reflexivity.
  - vm_compute. reflexivity.
Qed.
Print Assumptions unhash_int_refuted.

(* ------------------------------------------------------------ C30 *)
Lemma merged_iff D pts (same same' : nat -> nat -> Prop) ups imap : MergedBy D pts same ups imap ->
  (forall i j, (i < length pts / D)%nat -> (j < length pts / D)%nat -> same i j <-> same' i j) -> MergedBy D pts same' ups imap.
Proof.
  intros [A B C E] H. constructor; auto. intros i j k l Hi Hj. rewrite (C i j k l Hi Hj). apply H; rewrite <- A; eapply nth_error_lt; eauto.
Qed.

(* With a 64 bit key: coincident grid positions are merged and no others. *)
Theorem unique_points_partial : forall D points lo hi tol, D = 2%nat \/ D = 3%nat ->
  (length points mod D = 0)%nat -> Nested D lo hi lo hi ->
  (forall i, (i < length points / D)%nat -> Inside D lo hi (vertex D points i)) ->
  exists ups imap, uniquePoints uint64_key D points lo hi tol = Ok (ups, imap) /\
    MergedBy D points (fun i j => SameCell D lo hi tol (vertex D points i) (vertex D points j)) ups imap.
Proof.
  intros D points lo hi tol HD M N I.
  set (h := fun i => match hashPosition uint64_key D (vertex D points i) lo hi lo hi tol with Ok v => v | _ => 0 end).
  assert (Hh : forall i, (i < length points / D)%nat -> hashPosition uint64_key D (vertex D points i) lo hi lo hi tol = Ok (h i)).
  { intros i Hi. destruct (hash_same_cell_partial D (vertex D points i) (vertex D points i) lo hi lo hi tol HD N (I i Hi) (I i Hi)) as (v & _ & E & _).
    unfold h. rewrite E. reflexivity. }
  destruct (unique_merges uint64_key D points lo hi tol h) as (ups & imap & E & R); auto.
  - destruct HD; lia.
  - intros i Hi. destruct (unhash_in_cell_partial D (vertex D points i) lo hi lo hi tol (h i) HD N (I i Hi) (Hh i Hi)) as (p & E & _). eauto.
  - exists ups, imap. split; auto. apply (merged_iff _ _ _ _ _ _ R). intros i j Hi Hj.
    destruct (hash_same_cell_partial D (vertex D points i) (vertex D points j) lo hi lo hi tol HD N (I i Hi) (I j Hj)) as (v & v' & E1 & E2 & Q).
    rewrite (Hh i Hi) in E1. injection E1 as <-. rewrite (Hh j Hj) in E2. injection E2 as <-. rewrite Q.
    split; [intros [(_ & _ & X)|(X & _)]; [auto|destruct X; auto]|]. intros X. left. auto.
Qed.
Print Assumptions unique_points_partial.

(* the column and the parity of the row *)
Definition SameColumn (lo hi : list Q) (tol : Q) (p p' : list Q) : Prop :=
  exists x y y', InCell 2 lo hi tol p [x; y] /\ InCell 2 lo hi tol p' [x; y'] /\ Z.even (y - y') = true.
(* With int: coincident grid positions are still always merged, but so is every second cell of
   a column. *)
Theorem unique_points_int_partial : forall points lo hi tol,
  (length points mod 2 = 0)%nat -> Nested 2 lo hi lo hi ->
  (forall i, (i < length points / 2)%nat -> Inside 2 lo hi (vertex 2 points i)) ->
  exists ups imap, uniquePoints int_key 2 points lo hi tol = Ok (ups, imap) /\
    MergedBy 2 points (fun i j => SameColumn lo hi tol (vertex 2 points i) (vertex 2 points j)) ups imap.
Proof.
  intros points lo hi tol M N I.
  set (h := fun i => match hashPosition int_key 2 (vertex 2 points i) lo hi lo hi tol with Ok v => v | _ => 0 end).
  assert (Hh : forall i, (i < length points / 2)%nat -> hashPosition int_key 2 (vertex 2 points i) lo hi lo hi tol = Ok (h i)).
  { intros i Hi. destruct (hash_int_partial (vertex 2 points i) (vertex 2 points i) lo hi lo hi tol N (I i Hi) (I i Hi)) as (v & _ & _ & _ & _ & _ & E & _).
    unfold h. rewrite E. reflexivity. }
  destruct (unique_merges int_key 2 points lo hi tol h) as (ups & imap & E & R); auto.
  - intros i Hi. destruct (unhash_ok int_key 2 lo hi lo hi (h i) tol
      (fun j => match qval int_key 2 (h i) j with Ok v => v | _ => 0 end)) as (p & E & _); eauto.
    intros [|[|j]] Hj; [reflexivity|reflexivity|lia].
  - exists ups, imap. split; auto. apply (merged_iff _ _ _ _ _ _ R). intros i j Hi Hj.
    destruct (hash_int_partial (vertex 2 points i) (vertex 2 points j) lo hi lo hi tol N (I i Hi) (I j Hj)) as (v & v' & x & y & x' & y' & E1 & E2 & C & C' & Q).
    rewrite (Hh i Hi) in E1. injection E1 as <-. rewrite (Hh j Hj) in E2. injection E2 as <-. rewrite Q.
    assert (C1 : InCell 2 lo hi tol (vertex 2 points i) [x; y]) by (destruct C as [[_ C]|[_ C]]; auto).
    assert (C2 : InCell 2 lo hi tol (vertex 2 points j) [x'; y']) by (destruct C' as [[_ C']|[_ C']]; auto).
    split.
    + intros [-> Ev]. exists x', y, y'. auto.
    + intros (x0 & y0 & y0' & D1 & D2 & Ev). pose proof (cell_unique _ _ _ _ _ _ _ C1 D1) as K1. pose proof (cell_unique _ _ _ _ _ _ _ C2 D2) as K2.
      injection K1 as -> ->. injection K2 as -> ->. auto.
Qed.
Print Assumptions unique_points_int_partial.

Theorem unique_coincident_merged : forall points lo hi tol i j,
  (length points mod 2 = 0)%nat -> Nested 2 lo hi lo hi ->
  (forall i, (i < length points / 2)%nat -> Inside 2 lo hi (vertex 2 points i)) ->
  (i < length points / 2)%nat -> (j < length points / 2)%nat -> SameCell 2 lo hi tol (vertex 2 points i) (vertex 2 points j) ->
  exists ups imap k, uniquePoints int_key 2 points lo hi tol = Ok (ups, imap) /\ nth_error imap i = Some k /\ nth_error imap j = Some k.
Proof.
  intros points lo hi tol i j M N I Hi Hj (zs & C & C').
  destruct (unique_points_int_partial points lo hi tol M N I) as (ups & imap & E & R).
  destruct (nth_error_ex imap i) as [k Hk]; [rewrite (mb_len _ _ _ _ _ R); auto|].
  destruct (nth_error_ex imap j) as [l Hl]; [rewrite (mb_len _ _ _ _ _ R); auto|].
  exists ups, imap, k. repeat split; auto. rewrite Hl. f_equal. symmetry. apply (mb_same _ _ _ _ _ R i j k l Hk Hl).
  destruct zs as [|x [|y [|? ?]]]; try (destruct C; discriminate). exists x, y, y. rewrite Z.sub_diag. auto.
Qed.
Print Assumptions unique_coincident_merged.

(* Distinct points merged: two opposite sides of a square; in 3D every call is undefined. *)
Theorem unique_points_refuted : exists points lo hi,
  Nested 2 lo hi lo hi /\ (forall i, (i < length points / 2)%nat -> Inside 2 lo hi (vertex 2 points i)) /\
  uniquePoints int_key 2 points lo hi 0 = Ok (vertex 2 points 0, [0; 0]%nat) /\
  (coord (vertex 2 points 1) 1 - coord (vertex 2 points 0) 1 == inject_Z (2 ^ 30))%Q.
Proof.
  exists [0; 0; 0; inject_Z (2 ^ 30)]%Q, [0%Q; 0%Q], [inject_Z (2 ^ 31 - 1); inject_Z (2 ^ 31 - 1)].
  split; [|split; [|split]].
  - constructor; [| | |discriminate]; intros [|[|j]] H; try lia; cbn; unfold Qle; cbn; lia.
  - intros [|[|i]] Hi; try (cbn in Hi; lia); intros [|[|j]] H; try lia; cbn; unfold Qle; cbn; lia.
  - vm_compute. reflexivity.
  - vm_compute. reflexivity.
Qed.
Print Assumptions unique_points_refuted.

Theorem unique_points_3d_refuted : forall points lo hi tol, (0 < length points)%nat -> (length points mod 3 = 0)%nat ->
  Nested 3 lo hi lo hi -> Inside 3 lo hi (vertex 3 points 0) -> uniquePoints int_key 3 points lo hi tol = UB.
Proof.
  intros points lo hi tol P M N I. unfold uniquePoints. rewrite M. cbn [Nat.eqb assert bind].
  assert (L : exists n, (length points / 3)%nat = S n).
  { pose proof (Nat.div_mod (length points) 3 ltac:(lia)). destruct (length points / 3)%nat; [lia|eauto]. }
  destruct L as [n ->]. cbn [seq mfold]. unfold unique_step at 1. rewrite hash_int_3d_refuted by auto. reflexivity.
Qed.
Print Assumptions unique_points_3d_refuted.

(* tessellateDegenerate tessellates the merged generators and returns the map to them (64 bit
   key).  In 3D the bounding box must not be flat. *)
Theorem tessellate_degenerate_partial : forall M D big (tess : list Q -> res M) points tol, D = 2%nat \/ D = 3%nat ->
  (0 < length points)%nat -> (length points mod D = 0)%nat -> (forall x, In x points -> (- big <= x <= big)%Q) ->
  (D = 3%nat -> forall j, (j < D)%nat -> exists i i', (i < length points / D)%nat /\ (i' < length points / D)%nat /\
      (coord (vertex D points i) j < coord (vertex D points i') j)%Q) ->
  exists lo hi ups imap, TightBox D (points_of D points) (lo, hi) /\
    MergedBy D points (fun i j => SameCell D lo hi tol (vertex D points i) (vertex D points j)) ups imap /\
    tessellateDegenerate uint64_key D big tess points points tol = (do mesh <- tess ups; Ok (mesh, imap)).
Proof.
  intros M D big tess points tol HD P Hm B Flat.
  destruct (bounding_box_tight D big points P Hm B) as ([lo hi] & E & T).
  assert (I : forall i, (i < length points / D)%nat -> Inside D lo hi (vertex D points i)).
  { intros i Hi j Hj. assert (Ip : In (vertex D points i) (points_of D points)) by (unfold points_of; apply in_map, in_seq; lia).
    assert (Lv : length (vertex D points i) = D) by (eapply points_len; eauto).
    destruct (nth_error_ex (vertex D points i) j) as [x Hx]; [lia|].
    destruct (nth_error_ex lo j) as [l Hl]; [pose proof (tb_lo _ _ _ T) as TL; cbn in TL; lia|].
    destruct (nth_error_ex hi j) as [u Hu]; [pose proof (tb_hi _ _ _ T) as TL; cbn in TL; lia|].
    unfold coord. rewrite (nth_error_nth _ _ 0%Q Hx), (nth_error_nth _ _ 0%Q Hl), (nth_error_nth _ _ 0%Q Hu).
    apply (tb_in _ _ _ T _ _ _ _ _ Ip Hx Hl Hu). }
  assert (Pn : (0 < length points / D)%nat).
  { pose proof (Nat.div_mod (length points) D ltac:(destruct HD; lia)). destruct (length points / D)%nat; lia. }
  assert (N : Nested D lo hi lo hi).
  { constructor; intros; try lra.
    - destruct (I 0%nat Pn j H). lra.
    - destruct (Flat H j H0) as (i & i' & Hi & Hi' & L). pose proof (I i Hi j H0). pose proof (I i' Hi' j H0). lra. }
  destruct (unique_points_partial D points lo hi tol HD Hm N I) as (ups & imap & E' & R).
  exists lo, hi, ups, imap. split; auto. split; auto. unfold tessellateDegenerate. rewrite E. cbn [bind]. rewrite E'. reflexivity.
Qed.
Print Assumptions tessellate_degenerate_partial.

(* A generator outside the bounding box of the boundary aborts the bounded form. *)
Theorem degenerate_outside_aborts : forall k M (tess : list Q -> res M) points low high tol,
  Nested 2 low high low high -> (0 < length points)%nat -> (length points mod 2 = 0)%nat ->
  ~ Inside 2 low high (vertex 2 points 0) -> tessellateDegenerateBox k 2 tess points low high tol = Abort.
Proof.
  intros k M tess points low high tol N P Hm O. unfold tessellateDegenerateBox, uniquePoints. rewrite Hm. cbn [Nat.eqb assert bind].
  assert (L : exists n, (length points / 2)%nat = S n).
  { pose proof (Nat.div_mod (length points) 2 ltac:(lia)). destruct (length points / 2)%nat; [lia|eauto]. }
  destruct L as [n ->]. cbn [seq mfold]. unfold unique_step at 1. unfold hashPosition at 1.
  rewrite (proj2 (boxes_ok_spec 2 low high low high (or_introl eq_refl)) N). cbn [assert bind].
  destruct (forallb _ (seq 0 2)) eqn:X; [apply inside_spec in X; contradiction|]. reflexivity.
Qed.
Print Assumptions degenerate_outside_aborts.

Example merges : uniquePoints uint64_key 2 [0; 0; 1; 1; 0; 0; 0; 1; 1; 1]%Q [0; 0]%Q [1; 1]%Q (1 # 10) =
  Ok ([0; 0; 1; 1; 0; 1]%Q, [0; 1; 0; 2; 1]%nat).
Proof. vm_compute. reflexivity. Qed.

(* ------------------------------------------------------------ C31 *)
(* the bits of key v are those of x and y in turn, x first; n bits each *)
Definition Interleaves (n : nat) (x y v : Z) : Prop :=
  0 <= v < 2 ^ (2 * Z.of_nat n) /\
  forall i, (i < n)%nat -> Z.testbit v (2 * Z.of_nat i) = Z.testbit x (Z.of_nat i) /\ Z.testbit v (2 * Z.of_nat i + 1) = Z.testbit y (Z.of_nat i).
(* a key type with room for two coordinates of numbits1d bits *)
Record Roomy (T : traits) : Prop := {
  ro_width : 0 < width (key T);
  ro_two : 2 * Z.of_nat (numbits1d T) <= (if signed (key T) then width (key T) - 1 else width (key T));
  ro_one : Z.of_nat (numbits1d T) < (if signed (key T) then width (key T) - 1 else width (key T));
  ro_max : 2 ^ (2 * Z.of_nat (numbits1d T)) - 1 <= maxKey T }.

(* If the key type had that room, mortonOrderIndices would return one interleaved key per point,
   in the order of the points.  Partial: the code's own KeyTraits is not roomy, see below. *)
Theorem morton_interleaves_partial : forall T pts, Roomy T ->
  (forall p, In p pts -> exists x y, p = [x; y] /\ 0 <= x <= maxKey1d T /\ 0 <= y <= maxKey1d T) ->
  exists keys, mortonOrderIndices T pts = Ok keys /\
    Forall2 (fun p v => exists x y, p = [x; y] /\ Interleaves (numbits1d T) x y v) pts keys.
Proof.
  intros T pts [W R1 R2 R3] H.
  destruct (mmap_forall2 (morton T) (fun p v => exists x y, p = [x; y] /\ Interleaves (numbits1d T) x y v) pts) as (keys & E & F).
  - intros p Ip. destruct (H p Ip) as (x & y & -> & X & Y). rewrite morton_ok; auto. eexists. split; [reflexivity|].
    exists x, y. split; auto. set (n := numbits1d T) in *.
    pose proof (spread_range x n). pose proof (spread_range y n).
    assert (P4 : 4 ^ Z.of_nat n = 2 ^ (2 * Z.of_nat n)) by (rewrite Z.pow_mul_r by lia; reflexivity).
    split; [lia|]. intros i Hi.
    assert (DB0 : forall m, Z.testbit (2 * spread y n) (2 * Z.of_nat m) = false).
    { intros m. rewrite Z.double_bits. destruct m as [|m]; [reflexivity|].
      replace (Z.pred (2 * Z.of_nat (S m))) with (2 * Z.of_nat m + 1) by lia. apply spread_bits. }
    assert (DB1 : forall m, Z.testbit (2 * spread y n) (2 * Z.of_nat m + 1) = Z.testbit (spread y n) (2 * Z.of_nat m)).
    { intros m. rewrite Z.double_bits. f_equal. lia. }
    assert (L : Z.land (spread x n) (2 * spread y n) = 0).
    { apply Z.bits_inj'. intros j Hj. rewrite Z.land_spec, Z.bits_0.
      assert (C : exists m, j = 2 * Z.of_nat m \/ j = 2 * Z.of_nat m + 1).
      { exists (Z.to_nat (j / 2)). rewrite Z2Nat.id by (apply Z.div_pos; lia). pose proof (Z.div_mod j 2 ltac:(lia)). pose proof (Z.mod_pos_bound j 2 ltac:(lia)). lia. }
      destruct C as (m & [-> | ->]).
      - rewrite DB0. apply andb_false_r.
      - rewrite (proj2 (spread_bits x n m)). reflexivity. }
    rewrite (Z.add_nocarry_lxor _ _ L), !Z.lxor_spec.
    rewrite (proj1 (spread_bits x n i)), (proj2 (spread_bits x n i)), (proj2 (Nat.ltb_lt i n) Hi). split.
    + rewrite DB0. apply xorb_false_r.
    + rewrite DB1, (proj1 (spread_bits y n i)), (proj2 (Nat.ltb_lt i n) Hi). apply xorb_false_l.
  - exists keys. unfold mortonOrderIndices. rewrite E. cbn [bind]. rewrite <- (Forall2_len _ _ _ F), Nat.eqb_refl. split; auto.
Qed.
Print Assumptions morton_interleaves_partial.

(* distinct points have distinct keys *)
Theorem morton_distinct_partial : forall n x y x' y' v, Interleaves n x y v -> Interleaves n x' y' v ->
  0 <= x < 2 ^ Z.of_nat n -> 0 <= y < 2 ^ Z.of_nat n -> 0 <= x' < 2 ^ Z.of_nat n -> 0 <= y' < 2 ^ Z.of_nat n ->
  x = x' /\ y = y'.
Proof.
  intros n x y x' y' v [_ A] [_ B] X Y X' Y'.
  assert (G : forall a b, 0 <= a < 2 ^ Z.of_nat n -> 0 <= b < 2 ^ Z.of_nat n -> (forall i, (i < n)%nat -> Z.testbit a (Z.of_nat i) = Z.testbit b (Z.of_nat i)) -> a = b).
  { intros a b Ha Hb H. apply Z.bits_inj'. intros j Hj. destruct (Z_lt_le_dec j (Z.of_nat n)) as [L|L].
    - specialize (H (Z.to_nat j) ltac:(lia)). rewrite Z2Nat.id in H by lia. auto.
    - assert (Z0 : forall c, 0 <= c < 2 ^ Z.of_nat n -> Z.testbit c j = false).
      { intros c Hc. destruct (Z.eq_dec c 0) as [->|]; [apply Z.bits_0|]. apply Z.bits_above_log2; [lia|].
        apply Z.log2_lt_pow2; [lia|]. apply Z.lt_le_trans with (2 ^ Z.of_nat n); [lia|]. apply Z.pow_le_mono_r; lia. }
      rewrite !Z0; auto. }
  split; apply G; auto; intros i Hi; destruct (A i Hi), (B i Hi); congruence.
Qed.
Print Assumptions morton_distinct_partial.

Example roomy : Roomy (mkTraits uint64_key 32 (2 ^ 32 - 1) (2 ^ 64 - 1)).
Proof. constructor; vm_compute; congruence. Qed.
Example morton_case : mortonOrderIndices (mkTraits uint64_key 32 (2 ^ 32 - 1) (2 ^ 64 - 1)) [[3; 5]; [2 ^ 32 - 1; 0]] =
  Ok [39; 6148914691236517205].
Proof. vm_compute. reflexivity. Qed.

Lemma round_ok T xs c r m : Z.of_nat c + Z.of_nat (length xs) <= width (key T) -> 1 < width (key T) ->
  exists s, (do s <- interleave_terms (key T) xs m (Z.of_nat c); do mask' <- shl (key T) m 1; Ok (kadd (key T) r s, mask')) = Ok s.
Proof.
  intros H H1. assert (G : forall ys i, i + Z.of_nat (length ys) <= width (key T) -> exists s, interleave_terms (key T) ys m i = Ok s).
  { induction ys as [|y ys IH]; intros i Hi; cbn [interleave_terms]; [eauto|]. cbn [length] in Hi. rewrite Nat2Z.inj_succ in Hi.
    unfold shl. replace (i <? width (key T)) with true by (symmetry; apply Z.ltb_lt; lia). cbn [bind].
    destruct (IH (i + 1)) as [s ->]; [lia|]. cbn [bind]. eauto. }
  destruct (G xs _ H) as [s ->]. cbn [bind]. unfold shl. replace (1 <? width (key T)) with true by (symmetry; apply Z.ltb_lt; lia).
  cbn [bind]. eauto.
Qed.

(* With the code's own constants every call shifts an int by 32 or more: undefined behaviour for
   every point, planar or spatial. *)
Theorem morton_int_refuted : forall pts x y, (forall v, In v [x; y] -> v <= maxKey1d int_traits) ->
  mortonOrderIndices int_traits ([x; y] :: pts) = UB.
Proof.
  intros pts x y H. unfold mortonOrderIndices. cbn [mmap].
  assert (E : morton int_traits [x; y] = UB); [|rewrite E; reflexivity].
  unfold morton. replace (forallb (fun x => x <=? maxKey1d int_traits) [x; y]) with true
    by (symmetry; apply forallb_forall; intros v I; apply Z.leb_le; auto).
  cbn [assert bind]. change (numbits1d int_traits) with (31 + 1)%nat. rewrite seq_app, mfold_app.
  match goal with |- context [mfold ?f (seq 0 31) ?s0] => set (step := f) in *;
    destruct (mfold_seq step (fun _ _ => True) 31 s0 I) as ([r m] & -> & _) end.
  - intros c [r m] Hc _. destruct (round_ok int_traits [x; y] c r m) as [s Es]; [cbn; lia|reflexivity|]. exists s. split; auto.
  - cbn [bind seq mfold]. unfold step. cbn [interleave_terms].
    unfold shl at 1. change (Z.of_nat (0 + 31) <? width (key int_traits)) with true. cbn [bind]. reflexivity.
Qed.
Print Assumptions morton_int_refuted.

Theorem morton_int_3d_refuted : forall pts x y z, (forall v, In v [x; y; z] -> v <= maxKey1d int_traits) ->
  mortonOrderIndices int_traits ([x; y; z] :: pts) = UB.
Proof.
  intros pts x y z H. unfold mortonOrderIndices. cbn [mmap].
  assert (E : morton int_traits [x; y; z] = UB); [|rewrite E; reflexivity].
  unfold morton. replace (forallb (fun x => x <=? maxKey1d int_traits) [x; y; z]) with true
    by (symmetry; apply forallb_forall; intros v I; apply Z.leb_le; auto).
  cbn [assert bind]. change (numbits1d int_traits) with (30 + 2)%nat. rewrite seq_app, mfold_app.
  match goal with |- context [mfold ?f (seq 0 30) ?s0] => set (step := f) in *;
    destruct (mfold_seq step (fun _ _ => True) 30 s0 I) as ([r m] & -> & _) end.
  - intros c [r m] Hc _. destruct (round_ok int_traits [x; y; z] c r m) as [s Es]; [cbn; lia|reflexivity|]. exists s. split; auto.
  - cbn [bind seq mfold]. unfold step. cbn [interleave_terms].
    unfold shl at 1. change (Z.of_nat (0 + 30) <? width (key int_traits)) with true. cbn [bind].
    unfold shl at 1. change (Z.of_nat (0 + 30) + 1 <? width (key int_traits)) with true. cbn [bind]. reflexivity.
Qed.
Print Assumptions morton_int_3d_refuted.

(* In 3D even a wide key does not separate points: the coordinates are shifted by i, i+1 and
   i+2 instead of 2i, 2i+1 and 2i+2. *)
Theorem morton_3d_collides_refuted : exists T keys, Roomy T /\ 3 * Z.of_nat (numbits1d T) <= width (key T) /\
  mortonOrderIndices T [[2; 0; 0]; [0; 0; 1]] = Ok keys /\ nth_error keys 0 = nth_error keys 1.
Proof.
  exists (mkTraits uint64_key 21 (2 ^ 21 - 1) (2 ^ 64 - 1)), [4; 4]. split; [constructor; vm_compute; congruence|].
  split; [vm_compute; congruence|]. split; vm_compute; reflexivity.
Qed.
Print Assumptions morton_3d_collides_refuted.
