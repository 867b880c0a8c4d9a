From Verif Require Import Base BaseFacts SerializeModel SerializeSpec.
Local Open Scope Z_scope.

(* ------------------------------------------------------------------ scalars *)
Lemma le_bytes_length w z : length (le_bytes w z) = w.
Proof. revert z; induction w; intros; cbn; auto. Qed.

Lemma le_val_bytes w z : 0 <= z < 2 ^ (8 * Z.of_nat w) -> le_val (le_bytes w z) = z.
Proof.
  revert z; induction w as [|w IH]; intros z H.
  - cbn in *; lia.
  - cbn [le_bytes le_val]. rewrite IH.
    + pose proof (Z.div_mod z 256 ltac:(lia)); lia.
    + assert (E : 2 ^ (8 * Z.of_nat (S w)) = 256 * 2 ^ (8 * Z.of_nat w)).
      { replace (8 * Z.of_nat (S w)) with (8 + 8 * Z.of_nat w) by lia.
        rewrite Z.pow_add_r by lia. reflexivity. }
      rewrite E in H. split; [apply Z.div_pos; lia|].
      apply Z.div_lt_upper_bound; lia.
Qed.

Lemma le_bytes_mod w z : le_bytes w (z mod 2 ^ (8 * Z.of_nat w)) = le_bytes w z.
Proof.
  revert z; induction w as [|w IH]; intros z; [reflexivity|].
  assert (E : 2 ^ (8 * Z.of_nat (S w)) = 256 * 2 ^ (8 * Z.of_nat w)).
  { replace (8 * Z.of_nat (S w)) with (8 + 8 * Z.of_nat w) by lia.
    rewrite Z.pow_add_r by lia. reflexivity. }
  assert (P : 0 < 2 ^ (8 * Z.of_nat w)) by (apply Z.pow_pos_nonneg; lia).
  cbn [le_bytes]. rewrite E. f_equal.
  - rewrite Z.rem_mul_r by lia.
    rewrite Z.mul_comm, Z.add_mod, Z.mod_mul, Z.add_0_r by lia.
    rewrite !Z.mod_mod by lia. reflexivity.
  - rewrite Z.rem_mul_r by lia.
    rewrite Z.mul_comm, Z.div_add, Z.mod_div, Z.add_0_l by lia.
    apply IH.
Qed.

Lemma le_val_bytes_mod w z : le_val (le_bytes w z) = z mod 2 ^ (8 * Z.of_nat w).
Proof.
  rewrite <- le_bytes_mod. apply le_val_bytes. apply Z.mod_pos_bound.
  apply Z.pow_pos_nonneg; lia.
Qed.

Definition good {A} (enc : A -> list Z) (dec : bool -> list Z -> res (A * list Z)) (P : A -> Prop) :=
  (forall dbg a rest, P a -> dec dbg (enc a ++ rest) = Ok (a, rest)) /\
  (forall dbg a k, P a -> (k < length (enc a))%nat -> dec dbg (firstn k (enc a)) = short_read dbg).

Lemma scalar_good w s : (0 < w)%nat ->
  good (scalar_enc w) (scalar_dec w s) (fits_scalar w s).
Proof.
  intros Hw. split.
  - intros dbg z rest F. unfold scalar_dec, scalar_enc.
    rewrite app_length, le_bytes_length.
    destruct (Nat.ltb_spec (w + length rest) w); [lia|].
    assert (L := le_bytes_length w z).
    rewrite firstn_app, L, Nat.sub_diag, firstn_O, app_nil_r.
    rewrite skipn_app, L, Nat.sub_diag. cbn [skipn].
    rewrite (firstn_all2 (n:=w)) by lia.
    rewrite (skipn_all2 (n:=w)) by lia. cbn [app].
    rewrite le_val_bytes_mod.
    do 2 f_equal.
    assert (E : 2 ^ (8 * Z.of_nat w) = 2 * 2 ^ (8 * Z.of_nat w - 1)).
    { rewrite <- Z.pow_succ_r by lia. f_equal; lia. }
    unfold fits_scalar in F. destruct s; cbn [andb].
    + rewrite E. destruct (Z.leb_spec (2 ^ (8 * Z.of_nat w - 1)) (z mod (2 * 2 ^ (8 * Z.of_nat w - 1)))) as [G|G].
      * destruct (Z_lt_le_dec z 0).
        -- assert (z mod (2 * 2 ^ (8 * Z.of_nat w - 1)) = z + 2 * 2 ^ (8 * Z.of_nat w - 1)).
           { symmetry; apply Z.mod_unique with (-1); lia. } lia.
        -- rewrite Z.mod_small in * by lia. lia.
      * destruct (Z_lt_le_dec z 0).
        -- assert (z mod (2 * 2 ^ (8 * Z.of_nat w - 1)) = z + 2 * 2 ^ (8 * Z.of_nat w - 1)).
           { symmetry; apply Z.mod_unique with (-1); lia. } lia.
        -- apply Z.mod_small; lia.
    + apply Z.mod_small; lia.
  - intros dbg z k F K. unfold scalar_dec, scalar_enc in *.
    rewrite le_bytes_length in K.
    destruct (Nat.ltb_spec (length (firstn k (le_bytes w z))) w) as [G|G].
    + reflexivity.
    + rewrite firstn_length, le_bytes_length in G. lia.
Qed.

Lemma usize_small {A} (l : list A) : Z.of_nat (length l) < 2 ^ 32 -> usize l = Z.of_nat (length l).
Proof. intros; unfold usize; apply Z.mod_small; lia. Qed.

(* Cutting the concatenation of two encodings. *)
Lemma cut {A} (k : nat) (x y : list A) : (k < length (x ++ y))%nat ->
  ((k < length x)%nat /\ firstn k (x ++ y) = firstn k x) \/
  (exists k', firstn k (x ++ y) = x ++ firstn k' y /\ (k' < length y)%nat).
Proof.
  intros H. rewrite app_length in H. rewrite firstn_app.
  destruct (Nat.lt_ge_cases k (length x)) as [L|L].
  - left; split; auto. replace (k - length x)%nat with 0%nat by lia.
    rewrite firstn_O, app_nil_r; reflexivity.
  - right. exists (k - length x)%nat. rewrite firstn_all2 by lia. split; [reflexivity|lia].
Qed.

Lemma bind_short {A B} dbg (f : A -> res B) : bind (short_read dbg) f = short_read dbg.
Proof. destruct dbg; reflexivity. Qed.

Lemma loop_rt {A} (enc : A -> list Z) dec P dbg l rest :
  good enc dec P -> Forall P l ->
  dec_loop (dec dbg) (length l) (flat_map enc l ++ rest) = Ok (l, rest).
Proof.
  intros [RT _]; induction l as [|a l IH]; intros F; cbn; [reflexivity|].
  inversion F; subst. rewrite <- app_assoc, RT by auto. cbn.
  rewrite IH by auto. reflexivity.
Qed.

Lemma loop_short {A} (enc : A -> list Z) dec P dbg l k :
  good enc dec P -> Forall P l -> (k < length (flat_map enc l))%nat ->
  dec_loop (dec dbg) (length l) (firstn k (flat_map enc l)) = short_read dbg.
Proof.
  intros G; revert k; induction l as [|a l IH]; intros k F K; [cbn in K; lia|].
  inversion F as [|? ? Pa Fl]; subst. cbn [flat_map length dec_loop] in *.
  destruct G as [RT SH].
  destruct (cut _ _ _ K) as [[L ->]|(k' & -> & L)].
  - rewrite SH by auto. apply bind_short.
  - rewrite RT by auto. cbn [bind]. rewrite IH by auto. apply bind_short.
Qed.

Lemma vec_good {A} (enc : A -> list Z) dec P :
  good enc dec P ->
  good (vec_enc enc) (fun dbg => vec_dec (dec dbg) dbg []) (fits_vec P).
Proof.
  intros G. destruct (scalar_good 4 false ltac:(lia)) as [RT4 SH4].
  split.
  - intros dbg l rest [L F]. unfold vec_dec, vec_enc. rewrite usize_small by auto.
    rewrite <- app_assoc, RT4 by (unfold fits_scalar; lia). cbn [bind].
    change (usize (@nil A)) with 0. 
    destruct (Z.leb_spec (2 ^ 32) (0 + Z.of_nat (length l))); [lia|].
    rewrite Nat2Z.id, firstn_all. rewrite (loop_rt enc dec P) by auto. reflexivity.
  - intros dbg l k [L F] K. unfold vec_dec, vec_enc in *. rewrite usize_small in * by auto.
    rewrite Nat2Z.id, firstn_all in *.
    destruct (cut _ _ _ K) as [[L' ->]|(k' & -> & L')].
    + rewrite SH4; [apply bind_short| |exact L']. unfold fits_scalar; lia.
    + rewrite RT4 by (unfold fits_scalar; lia). cbn [bind].
      change (usize (@nil A)) with 0.
      destruct (Z.leb_spec (2 ^ 32) (0 + Z.of_nat (length l))); [lia|].
      rewrite Nat2Z.id, (loop_short enc dec P) by auto. apply bind_short.
Qed.

(* General append semantics. *)
Lemma vec_append {A} (enc : A -> list Z) dec P dbg old l rest :
  good enc dec P -> fits_vec P l -> Z.of_nat (length old + length l) < 2 ^ 32 ->
  vec_dec (dec dbg) dbg old (vec_enc enc l ++ rest) = Ok (old ++ l, rest).
Proof.
  intros G [L F] S. destruct (scalar_good 4 false ltac:(lia)) as [RT4 _].
  unfold vec_dec, vec_enc. rewrite !usize_small by lia.
  rewrite <- app_assoc, RT4 by (unfold fits_scalar; lia). cbn [bind].
  destruct (Z.leb_spec (2 ^ 32) (Z.of_nat (length old) + Z.of_nat (length l))); [lia|].
  rewrite Nat2Z.id, firstn_all, (loop_rt enc dec P) by auto. reflexivity.
Qed.

Lemma int_good : good int_enc int_dec (fits_scalar 4 true).
Proof. apply scalar_good; lia. Qed.
Lemma ints_good : good ints_enc (fun dbg => ints_dec dbg []) fits_ints.
Proof. apply (vec_good _ int_dec), int_good. Qed.
Lemma facets_good : good (vec_enc ints_enc) (fun dbg => facets_dec dbg []) (fits_vec fits_ints).
Proof. apply (vec_good _ (fun dbg => ints_dec dbg [])), ints_good. Qed.
Lemma holes_good :
  good (vec_enc (vec_enc ints_enc)) (fun dbg => holes_dec dbg []) (fits_vec (fits_vec fits_ints)).
Proof. apply (vec_good _ (fun dbg => facets_dec dbg [])), facets_good. Qed.

(* Decoding the facets of a ReducedPLC into given slots. *)
Lemma into_rt dbg olds l rest :
  length olds = length l -> Forall fits_ints l ->
  Forall2 (fun o x => Z.of_nat (length o + length x) < 2 ^ 32) olds l ->
  dec_into (ints_dec dbg) olds (flat_map ints_enc l ++ rest)
    = Ok (map (fun p => fst p ++ snd p) (combine olds l), rest).
Proof.
  revert olds; induction l as [|x l IH]; intros [|o olds] L F S; cbn in L; try lia.
  - reflexivity.
  - inversion F; inversion S; subst. cbn [dec_into flat_map combine map fst snd].
    rewrite <- app_assoc. unfold ints_dec at 1, ints_enc at 1.
    rewrite (vec_append int_enc int_dec (fits_scalar 4 true)) by (auto using int_good).
    cbn [bind]. rewrite IH by auto. reflexivity.
Qed.

Lemma into_repeat_eq dbg n buf :
  dec_into (ints_dec dbg) (repeat [] n) buf = dec_loop (ints_dec dbg []) n buf.
Proof.
  revert buf; induction n as [|n IH]; intros buf; cbn; [reflexivity|].
  destruct (ints_dec dbg [] buf) as [[a b]| | |]; cbn; auto. rewrite IH; reflexivity.
Qed.

Lemma resize_nil {A} (d : A) n : resize d n [] = repeat d n.
Proof. unfold resize; rewrite firstn_nil; cbn. f_equal; lia. Qed.

Lemma deserialize_good t :
  good (serialize t) (fun dbg => deserialize t dbg (fresh t)) (fits t).
Proof.
  induction t as [w s|t IH|t IH|t IH| |t IH].
  - split.
    + intros dbg a rest [Hw F]. apply scalar_good; auto.
    + intros dbg a k [Hw F] K. apply scalar_good; auto.
  - apply (vec_good (serialize t) (fun dbg => deserialize t dbg (fresh t)) (fits t) IH).
  - destruct (scalar_good 4 false ltac:(lia)) as [RT4 SH4]. destruct IH as [RT SH].
    split.
    + intros dbg [x y i] rest (Hx & Hy & Hi). cbn [serialize deserialize fresh p2x p2y p2i] in *.
      rewrite <- !app_assoc, RT by auto. cbn [bind]. rewrite RT by auto. cbn [bind].
      rewrite RT4 by auto. reflexivity.
    + intros dbg [x y i] k (Hx & Hy & Hi) K. cbn [serialize deserialize fresh p2x p2y p2i] in *.
      destruct (cut _ _ _ K) as [[L ->]|(k1 & -> & L)].
      * rewrite SH by auto. apply bind_short.
      * rewrite RT by auto. cbn [bind].
        destruct (cut _ _ _ L) as [[L2 ->]|(k2 & -> & L2)].
        -- rewrite SH by auto. apply bind_short.
        -- rewrite RT by auto. cbn [bind]. rewrite SH4 by auto. apply bind_short.
  - destruct (scalar_good 4 false ltac:(lia)) as [RT4 SH4]. destruct IH as [RT SH].
    split.
    + intros dbg [x y z i] rest (Hx & Hy & Hz & Hi).
      cbn [serialize deserialize fresh p3x p3y p3z p3i] in *.
      rewrite <- !app_assoc, RT by auto. cbn [bind]. rewrite RT by auto. cbn [bind].
      rewrite RT by auto. cbn [bind].
      rewrite RT4 by auto. reflexivity.
    + intros dbg [x y z i] k (Hx & Hy & Hz & Hi) K.
      cbn [serialize deserialize fresh p3x p3y p3z p3i] in *.
      destruct (cut _ _ _ K) as [[L ->]|(k1 & -> & L)].
      * rewrite SH by auto. apply bind_short.
      * rewrite RT by auto. cbn [bind].
        destruct (cut _ _ _ L) as [[L2 ->]|(k2 & -> & L2)].
        -- rewrite SH by auto. apply bind_short.
        -- rewrite RT by auto. cbn [bind].
           destruct (cut _ _ _ L2) as [[L3 ->]|(k3 & -> & L3)].
           ++ rewrite SH by auto. apply bind_short.
           ++ rewrite RT by auto. cbn [bind]. rewrite SH4 by auto. apply bind_short.
  - destruct facets_good as [RTf SHf]. destruct holes_good as [RTh SHh].
    split.
    + intros dbg [f h] rest (Hf & Hh). cbn [serialize deserialize fresh facets holes] in *.
      rewrite <- app_assoc, RTf by auto. cbn [bind]. rewrite RTh by auto. reflexivity.
    + intros dbg [f h] k (Hf & Hh) K. cbn [serialize deserialize fresh facets holes] in *.
      destruct (cut _ _ _ K) as [[L ->]|(k1 & -> & L)].
      * rewrite SHf by auto. apply bind_short.
      * rewrite RTf by auto. cbn [bind]. rewrite SHh by auto. apply bind_short.
  - destruct (scalar_good 4 false ltac:(lia)) as [RT4 SH4].
    destruct holes_good as [RTh SHh].
    destruct (vec_good (serialize t) (fun dbg => deserialize t dbg (fresh t)) (fits t) IH) as [RTp SHp].
    pose proof ints_good as Gi.
    split.
    + intros dbg [f h p] rest ((Lf & Hf) & Hh & Hp).
      cbn [serialize deserialize fresh rfacets rholes rpoints] in *.
      rewrite usize_small by auto. rewrite Nat2Z.id, firstn_all.
      rewrite <- !app_assoc, RT4 by (unfold fits_scalar; lia). cbn [bind].
      rewrite Nat2Z.id, resize_nil, into_repeat_eq.
      rewrite (loop_rt ints_enc (fun dbg => ints_dec dbg []) fits_ints dbg f _ Gi Hf). cbn [bind].
      rewrite RTh by auto. cbn [bind]. rewrite RTp by auto. reflexivity.
    + intros dbg [f h p] k ((Lf & Hf) & Hh & Hp) K.
      cbn [serialize deserialize fresh rfacets rholes rpoints] in *.
      rewrite usize_small in * by auto. rewrite Nat2Z.id, firstn_all in *.
      destruct (cut _ _ _ K) as [[L ->]|(k1 & -> & L)].
      * rewrite SH4; [apply bind_short|unfold fits_scalar; lia|exact L].
      * rewrite RT4 by (unfold fits_scalar; lia). cbn [bind].
        rewrite Nat2Z.id, resize_nil, into_repeat_eq.
        destruct (cut _ _ _ L) as [[L2 ->]|(k2 & -> & L2)].
        -- rewrite (loop_short ints_enc (fun dbg => ints_dec dbg []) fits_ints) by auto.
           apply bind_short.
        -- rewrite (loop_rt ints_enc (fun dbg => ints_dec dbg []) fits_ints) by auto. cbn [bind].
           destruct (cut _ _ _ L2) as [[L3 ->]|(k3 & -> & L3)].
           ++ rewrite SHh by auto. apply bind_short.
           ++ rewrite RTh by auto. cbn [bind]. rewrite SHp by auto. apply bind_short.
Qed.

Lemma roundtrip t dbg v rest : fits t v ->
  deserialize t dbg (fresh t) (serialize t v ++ rest) = Ok (v, rest).
Proof. apply deserialize_good. Qed.

Lemma all_roundtrip t dbg vs rest : Forall (fits t) vs ->
  deserialize_all t dbg (length vs) (serialize_all t vs ++ rest) = Ok (vs, rest).
Proof.
  induction vs as [|v vs IH]; intros F; cbn; [reflexivity|].
  inversion F; subst. unfold serialize_all in *. cbn [flat_map].
  rewrite <- app_assoc, roundtrip by auto. cbn [bind]. rewrite IH by auto. reflexivity.
Qed.

Lemma prefix_free t v1 v2 r1 r2 : fits t v1 -> fits t v2 ->
  serialize t v1 ++ r1 = serialize t v2 ++ r2 -> v1 = v2 /\ r1 = r2.
Proof.
  intros F1 F2 E. pose proof (roundtrip t true v1 r1 F1) as R.
  rewrite E, (roundtrip t true v2 r2 F2) in R. split; congruence.
Qed.

Lemma truncated t dbg v k : fits t v -> (k < length (serialize t v))%nat ->
  deserialize t dbg (fresh t) (firstn k (serialize t v)) = if dbg then Abort else UB.
Proof. apply deserialize_good. Qed.

Lemma append t dbg old l rest : fits (TVec t) l -> Z.of_nat (length old + length l) < 2 ^ 32 ->
  deserialize (TVec t) dbg old (serialize (TVec t) l ++ rest) = Ok (old ++ l, rest).
Proof.
  apply (vec_append (serialize t) (fun dbg => deserialize t dbg (fresh t)) (fits t)).
  apply deserialize_good.
Qed.

(* A ReducedPLC target: each old facet stays in front of the new one. *)
Lemma resize_length (olds : list (list Z)) n : length (resize [] n olds) = n.
Proof.
  unfold resize. rewrite app_length, firstn_length, repeat_length. lia.
Qed.

Lemma rplc_append t dbg old v rest :
  fits (TReducedPLC t) v ->
  Forall2 (fun o x => Z.of_nat (length o + length x) < 2 ^ 32)
          (resize [] (length (rfacets v)) (rfacets old)) (rfacets v) ->
  Z.of_nat (length (rholes old) + length (rholes v)) < 2 ^ 32 ->
  Z.of_nat (length (rpoints old) + length (rpoints v)) < 2 ^ 32 ->
  deserialize (TReducedPLC t) dbg old (serialize (TReducedPLC t) v ++ rest)
  = Ok (mkRPLC (map (fun p => fst p ++ snd p)
                    (combine (resize [] (length (rfacets v)) (rfacets old)) (rfacets v)))
               (rholes old ++ rholes v) (rpoints old ++ rpoints v), rest).
Proof.
  intros ((Lf & Hf) & Hh & Hp) S1 S2 S3.
  destruct (scalar_good 4 false ltac:(lia)) as [RT4 _].
  cbn [deserialize serialize denote] in *. destruct v as [f h p], old as [f0 h0 p0].
  cbn [rfacets rholes rpoints] in *.
  rewrite usize_small by auto. rewrite Nat2Z.id, firstn_all.
  rewrite <- !app_assoc, RT4 by (unfold fits_scalar; lia). cbn [bind].
  rewrite Nat2Z.id. rewrite into_rt; auto.
  2:{ apply resize_length. }
  cbn [bind]. unfold holes_dec.
  rewrite (vec_append _ (fun dbg => facets_dec dbg []) _ dbg h0 h _ facets_good) by auto.
  cbn [bind].
  rewrite (vec_append _ (fun dbg => deserialize t dbg (fresh t)) (fits t) dbg p0 p _ (deserialize_good t)) by auto.
  reflexivity.
Qed.

(* 2^32 elements or more cannot be transported. *)
Lemma enc_len_count {A} (enc : A -> list Z) l :
  length (vec_enc enc l) = (4 + length (flat_map enc (firstn (Z.to_nat (usize l)) l)))%nat.
Proof. unfold vec_enc, scalar_enc. rewrite app_length, le_bytes_length. reflexivity. Qed.

Lemma dec_loop_length {A} (dec : list Z -> res (A * list Z)) n buf l rest :
  dec_loop dec n buf = Ok (l, rest) -> length l = n.
Proof.
  revert buf l rest; induction n as [|n IH]; intros buf l rest H; cbn in H.
  - injection H as <- _; reflexivity.
  - apply bind_ok in H as ([a b1] & _ & H). apply bind_ok in H as ([l' b2] & E & H).
    injection H as <- _. cbn; f_equal; eauto.
Qed.

Lemma too_long t dbg (l : list (denote t)) rest r :
  2 ^ 32 <= Z.of_nat (length l) ->
  deserialize (TVec t) dbg [] (serialize (TVec t) l ++ rest) <> Ok (l, r).
Proof.
  intros L H. destruct (scalar_good 4 false ltac:(lia)) as [RT4 _].
  cbn [deserialize serialize denote] in H. unfold vec_dec, vec_enc in H.
  assert (B : 0 <= usize l < 2 ^ 32) by (apply Z.mod_pos_bound; lia).
  rewrite <- app_assoc, RT4 in H by exact B.
  cbn [bind] in H.
  match type of H with (if ?b then _ else _) = _ => destruct b; [discriminate H|] end.
  apply bind_ok in H as ([l' b] & E & H). apply dec_loop_length in E.
  injection H as H _. cbn in H. subst l'. lia.
Qed.
