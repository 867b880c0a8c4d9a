(* Theorems about bounding boxes (C27) and quantization (C28). *)
From Verif Require Import Base BaseFacts SerializeModel MeshModel QuantMeshModel PLCSpec BoxModel BoxProofs.
From Coq Require Import QArith Qround Qabs Lqa.
Local Open Scope nat_scope.

(* ------------------------------------------------------------ C27 *)
(* (lo, hi) contains the points and every bound is attained *)
Record TightBox (D : nat) (ps : list (list Q)) (b : list Q * list Q) : Prop := {
  tb_lo : length (fst b) = D;
  tb_hi : length (snd b) = D;
  tb_in : forall p j x l h, In p ps -> nth_error p j = Some x -> nth_error (fst b) j = Some l -> nth_error (snd b) j = Some h ->
     (l <= x <= h)%Q;
  tb_lo_met : forall j l, nth_error (fst b) j = Some l -> exists p x, In p ps /\ nth_error p j = Some x /\ (x == l)%Q;
  tb_hi_met : forall j h, nth_error (snd b) j = Some h -> exists p x, In p ps /\ nth_error p j = Some x /\ (x == h)%Q }.

(* big stands for numeric_limits::max(): every coordinate is within it *)
Theorem bounding_box_tight : forall D big pos, 0 < length pos -> length pos mod D = 0 ->
  (forall x, In x pos -> (- big <= x <= big)%Q) ->
  exists b, local_box D big pos = Ok b /\ TightBox D (points_of D pos) b.
Proof.
  intros D big pos N M B. destruct (local_box_spec D big pos M B) as (b & E & [L1 L2] & H). exists b. split; auto.
  assert (Ne : exists p, In p (points_of D pos)).
  { assert (D <> 0) by (intros ->; cbn in M; lia). exists (vertex D pos 0). unfold points_of. apply in_map. apply in_seq.
    pose proof (Nat.div_mod (length pos) D). destruct (length pos / D) eqn:X; lia. }
  destruct Ne as [p0 Ip0].
  constructor; auto.
  - intros p j x l h Ip Hx Hl Hh. destruct (H j) as (l' & h' & Hl' & Hh' & _ & _ & I & _); [rewrite <- L1; eapply nth_error_lt; eauto|].
    rewrite Hl in Hl'. injection Hl' as <-. rewrite Hh in Hh'. injection Hh' as <-. eauto.
  - intros j l Hl. assert (Lj : j < D) by (rewrite <- L1; eapply nth_error_lt; eauto).
    destruct (H j Lj) as (l' & h' & Hl' & _ & _ & _ & I & [A|(p & Ip & Hp)] & _); rewrite Hl in Hl'; injection Hl' as <-.
    + destruct (nth_error_ex p0 j) as [x Hx]; [rewrite (points_len D pos p0); auto|].
      exists p0, x. repeat split; auto. pose proof (I p0 x Ip0 Hx). pose proof (B x (points_in _ _ _ _ Ip0 (nth_error_In _ _ Hx))).
      subst l. lra.
    + exists p, l. repeat split; auto; reflexivity.
  - intros j h Hh. assert (Lj : j < D) by (rewrite <- L2; eapply nth_error_lt; eauto).
    destruct (H j Lj) as (l' & h' & _ & Hh' & _ & _ & I & _ & [A|(p & Ip & Hp)]); rewrite Hh in Hh'; injection Hh' as <-.
    + destruct (nth_error_ex p0 j) as [x Hx]; [rewrite (points_len D pos p0); auto|].
      exists p0, x. repeat split; auto. pose proof (I p0 x Ip0 Hx). pose proof (B x (points_in _ _ _ _ Ip0 (nth_error_In _ _ Hx))).
      subst h. lra.
    + exists p, h. repeat split; auto; reflexivity.
Qed.
Print Assumptions bounding_box_tight.

(* With the global reduction, every rank gets the tight box of the points of all ranks, also
   when some ranks have none. *)
Theorem global_box_tight : forall D big ranks,
  (forall pos, In pos ranks -> length pos mod D = 0) -> (exists pos, In pos ranks /\ 0 < length pos) ->
  (forall pos x, In pos ranks -> In x pos -> (- big <= x <= big)%Q) ->
  exists b, global_box D big ranks = Ok b /\ TightBox D (flat_map (points_of D) ranks) b.
Proof.
  intros D big ranks M (pos0 & I0 & N0) B.
  (* the local boxes *)
  assert (L : exists boxes, mmap (local_box D big) ranks = Ok boxes /\ Forall2 (fun pos b => lens D b /\
     forall j, j < D -> exists l h, nth_error (fst b) j = Some l /\ nth_error (snd b) j = Some h /\ (l <= big)%Q /\ (- big <= h)%Q /\
      (forall p x, In p (points_of D pos) -> nth_error p j = Some x -> (l <= x <= h)%Q) /\
      (l = big \/ exists p, In p (points_of D pos) /\ nth_error p j = Some l) /\
      (h = (- big)%Q \/ exists p, In p (points_of D pos) /\ nth_error p j = Some h)) ranks boxes).
  { clear I0 N0. induction ranks as [|pos ranks IH]; [exists []; split; auto|].
    destruct (local_box_spec D big pos) as (b & E & Lb & Hb); [apply M; left; auto|intros x; apply B; left; auto|].
    destruct IH as (bs & Es & F); [intros; apply M; right; auto|intros q x Iq; apply B; right; auto|].
    exists (b :: bs). cbn [mmap]. rewrite E. cbn [bind]. rewrite Es. cbn [bind]. split; auto. }
  destruct L as (boxes & E & F). unfold global_box. rewrite E. cbn [bind]. eexists. split; [reflexivity|].
  destruct F as [|pos1 b1 ranks boxes H1 F]; [destruct I0|]. cbn [all_reduce].
  assert (LF : Forall (lens D) boxes).
  { clear - F. induction F as [|? ? ? ? [H _] F IH]; constructor; auto. }
  destruct (fold_box D boxes b1 (proj1 H1) LF) as [[L1 L2] H]. cbn zeta in *.
  set (b := fold_left join boxes b1) in *. change (TightBox D (flat_map (points_of D) (pos1 :: ranks)) b).
  (* every rank, paired with its box *)
  assert (A : forall pos, In pos (pos1 :: ranks) -> exists c, In c (b1 :: boxes) /\ lens D c /\
     forall j, j < D -> exists l h, nth_error (fst c) j = Some l /\ nth_error (snd c) j = Some h /\ (l <= big)%Q /\ (- big <= h)%Q /\
      (forall p x, In p (points_of D pos) -> nth_error p j = Some x -> (l <= x <= h)%Q)).
  { intros pos [<-|I].
    - exists b1. split; [left; auto|]. split; [apply H1|]. intros j Lj. destruct (proj2 H1 j Lj) as (l & h & X). exists l, h. intuition.
    - destruct (Forall2_in_l _ _ _ _ F I) as (c & Ic & Lc & Hc). exists c. split; [right; auto|]. split; auto.
      intros j Lj. destruct (Hc j Lj) as (l & h & X). exists l, h. intuition. }
  assert (A' : forall c, In c (b1 :: boxes) -> exists pos, In pos (pos1 :: ranks) /\
     forall j, j < D -> exists l h, nth_error (fst c) j = Some l /\ nth_error (snd c) j = Some h /\
      (l = big \/ exists p, In p (points_of D pos) /\ nth_error p j = Some l) /\
      (h = (- big)%Q \/ exists p, In p (points_of D pos) /\ nth_error p j = Some h)).
  { intros c [<-|I].
    - exists pos1. split; [left; auto|]. intros j Lj. destruct (proj2 H1 j Lj) as (l & h & X). exists l, h. intuition.
    - destruct (Forall2_in_r _ _ _ _ F I) as (pos & Ip & Lc & Hc). exists pos. split; [right; auto|].
      intros j Lj. destruct (Hc j Lj) as (l & h & X). exists l, h. intuition. }
  assert (K : forall j, j < D -> exists l h, nth_error (fst b) j = Some l /\ nth_error (snd b) j = Some h /\
     (forall p x, In p (flat_map (points_of D) (pos1 :: ranks)) -> nth_error p j = Some x -> (l <= x <= h)%Q) /\
     (l = big \/ exists p, In p (flat_map (points_of D) (pos1 :: ranks)) /\ nth_error p j = Some l) /\
     (h = (- big)%Q \/ exists p, In p (flat_map (points_of D) (pos1 :: ranks)) /\ nth_error p j = Some h)).
  { intros j Lj. destruct H1 as [[Lf Ls] H1]. destruct (nth_error_ex (fst b1) j) as [l1 Hl1]; [lia|].
    destruct (nth_error_ex (snd b1) j) as [h1 Hh1]; [lia|].
    destruct (H j l1 h1 Hl1 Hh1) as (l & h & Hl & Hh & LE1 & LE2 & J1 & J2 & M1 & M2). exists l, h. split; auto. split; auto.
    assert (LE1' : forall c x, In c (b1 :: boxes) -> nth_error (fst c) j = Some x -> (l <= x)%Q).
    { intros c x [<-|I] Hx; [rewrite Hl1 in Hx; injection Hx as <-; auto|eauto]. }
    assert (LE2' : forall c x, In c (b1 :: boxes) -> nth_error (snd c) j = Some x -> (x <= h)%Q).
    { intros c x [<-|I] Hx; [rewrite Hh1 in Hx; injection Hx as <-; auto|eauto]. }
    split; [|split].
    - intros p x Ip Hx. apply in_flat_map in Ip as (pos & Ipos & Ip). destruct (A pos Ipos) as (c & Ic & _ & Hc).
      destruct (Hc j Lj) as (lc & hc & Hlc & Hhc & _ & _ & X). pose proof (X p x Ip Hx).
      pose proof (LE1' c lc Ic Hlc). pose proof (LE2' c hc Ic Hhc). lra.
    - assert (Q : exists c, In c (b1 :: boxes) /\ nth_error (fst c) j = Some l).
      { destruct M1 as [-> | (c & I & Hc)]; [exists b1; split; [left|]; auto|exists c; split; [right|]; auto]. }
      destruct Q as (c & Ic & Hc). destruct (A' c Ic) as (pos & Ipos & X). destruct (X j Lj) as (lc & hc & Y & _ & Z & _).
      rewrite Hc in Y. injection Y as <-. destruct Z as [|(p & Ip & Hp)]; auto. right. exists p. split; auto. apply in_flat_map. eauto.
    - assert (Q : exists c, In c (b1 :: boxes) /\ nth_error (snd c) j = Some h).
      { destruct M2 as [-> | (c & I & Hc)]; [exists b1; split; [left|]; auto|exists c; split; [right|]; auto]. }
      destruct Q as (c & Ic & Hc). destruct (A' c Ic) as (pos & Ipos & X). destruct (X j Lj) as (lc & hc & _ & Y & _ & Z).
      rewrite Hc in Y. injection Y as <-. destruct Z as [|(p & Ip & Hp)]; auto. right. exists p. split; auto. apply in_flat_map. eauto. }
  (* some point *)
  assert (Ne : exists p, In p (flat_map (points_of D) (pos1 :: ranks))).
  { assert (D <> 0) by (intros ->; specialize (M pos0 I0); cbn in M; lia). exists (vertex D pos0 0).
    apply in_flat_map. exists pos0. split; auto. unfold points_of. apply in_map. apply in_seq.
    specialize (M pos0 I0). pose proof (Nat.div_mod (length pos0) D). destruct (length pos0 / D) eqn:X; lia. }
  destruct Ne as [p0 Ip0]. assert (Bp : forall x, In x p0 -> (- big <= x <= big)%Q /\ length p0 = D).
  { intros x Ix. apply in_flat_map in Ip0 as (pos & Ipos & Ip). split; [apply (B pos x Ipos), (points_in D pos p0); auto|eapply points_len; eauto]. }
  assert (Lp0 : length p0 = D). { apply in_flat_map in Ip0 as (pos & Ipos & Ip). eapply points_len; eauto. }
  constructor; auto.
  - intros p j x l h Ip Hx Hl Hh. destruct (K j) as (l' & h' & Hl' & Hh' & I & _); [rewrite <- L1; eapply nth_error_lt; eauto|].
    rewrite Hl in Hl'. injection Hl' as <-. rewrite Hh in Hh'. injection Hh' as <-. eauto.
  - intros j l Hl. assert (Lj : j < D) by (rewrite <- L1; eapply nth_error_lt; eauto).
    destruct (K j Lj) as (l' & h' & Hl' & _ & I & [X|(p & Ip & Hp)] & _); rewrite Hl in Hl'; injection Hl' as <-.
    + destruct (nth_error_ex p0 j) as [x Hx]; [lia|]. exists p0, x. repeat split; auto.
      pose proof (I p0 x Ip0 Hx). destruct (Bp x (nth_error_In _ _ Hx)). subst l. lra.
    + exists p, l. repeat split; auto; reflexivity.
  - intros j h Hh. assert (Lj : j < D) by (rewrite <- L2; eapply nth_error_lt; eauto).
    destruct (K j Lj) as (l' & h' & _ & Hh' & I & _ & [X|(p & Ip & Hp)]); rewrite Hh in Hh'; injection Hh' as <-.
    + destruct (nth_error_ex p0 j) as [x Hx]; [lia|]. exists p0, x. repeat split; auto.
      pose proof (I p0 x Ip0 Hx). destruct (Bp x (nth_error_In _ _ Hx)). subst h. lra.
    + exists p, h. repeat split; auto; reflexivity.
Qed.
Print Assumptions global_box_tight.

(* Expanding a box: the smallest box containing the old box and the points.  (a, c) is any
   coordinate-wise box containing both. *)
Theorem expand_box_smallest : forall D big pos lo hi, 0 < length pos -> length pos mod D = 0 ->
  (forall x, In x pos -> (- big <= x <= big)%Q) -> length lo = D -> length hi = D ->
  exists lo' hi', expand_box D big pos (lo, hi) = Ok (lo', hi') /\ length lo' = D /\ length hi' = D /\
    forall j l0 h0, nth_error lo j = Some l0 -> nth_error hi j = Some h0 ->
    exists l h, nth_error lo' j = Some l /\ nth_error hi' j = Some h /\ (l <= l0)%Q /\ (h0 <= h)%Q /\
      (forall p x, In p (points_of D pos) -> nth_error p j = Some x -> (l <= x <= h)%Q) /\
      (forall a, (a <= l0)%Q -> (forall p x, In p (points_of D pos) -> nth_error p j = Some x -> (a <= x)%Q) -> (a <= l)%Q) /\
      (forall c, (h0 <= c)%Q -> (forall p x, In p (points_of D pos) -> nth_error p j = Some x -> (x <= c)%Q) -> (h <= c)%Q).
Proof.
  intros D big pos lo hi N M B Ll Lh. destruct (bounding_box_tight D big pos N M B) as ([low high] & E & T).
  unfold expand_box. rewrite E. cbn [bind].
  assert (X : fold_left (fun '(lo, hi) (_ : nat) => (zip qmin lo low, zip qmax hi high)) (seq 0 (length pos / D)) (lo, hi)
     = fold_left join (map (fun _ => (low, high)) (seq 0 (length pos / D))) (lo, hi)).
  { clear. generalize (lo, hi). induction (seq 0 (length pos / D)) as [|i l IH]; intros [a b]; cbn [fold_left map]; auto. }
  rewrite X. assert (Ln : lens D (low, high)) by (split; [apply (tb_lo _ _ _ T)|apply (tb_hi _ _ _ T)]).
  destruct (fold_box D (map (fun _ => (low, high)) (seq 0 (length pos / D))) (lo, hi)) as [[L1 L2] H];
    [split; auto|apply Forall_forall; intros c I; apply in_map_iff in I as (i & <- & _); auto|].
  cbn zeta in *. destruct (fold_left join _ (lo, hi)) as [lo' hi'] eqn:Y. exists lo', hi'. split; auto. split; auto. split; auto.
  intros j l0 h0 H1 H2. destruct (H j l0 h0 H1 H2) as (l & h & Hl & Hh & A1 & A2 & I1 & I2 & M1 & M2).
  exists l, h. split; auto. split; auto. split; auto. split; auto.
  assert (Lj : j < D) by (rewrite <- Ll; eapply nth_error_lt; eauto).
  destruct (nth_error_ex low j) as [lj Hlj]; [destruct Ln; cbn in *; lia|]. destruct (nth_error_ex high j) as [hj Hhj]; [destruct Ln; cbn in *; lia|].
  assert (Ic : In (low, high) (map (fun _ => (low, high)) (seq 0 (length pos / D)))).
  { assert (D <> 0) by lia. apply (in_map (fun _ => (low, high)) _ 0). apply in_seq. pose proof (Nat.div_mod (length pos) D).
    destruct (length pos / D) eqn:Z; lia. }
  split; [|split].
  - intros p x Ip Hx. pose proof (tb_in _ _ _ T p j x lj hj Ip Hx Hlj Hhj). pose proof (I1 _ lj Ic Hlj). pose proof (I2 _ hj Ic Hhj). lra.
  - intros a Ha Ap. destruct M1 as [-> | (c & I & Hc)]; auto. apply in_map_iff in I as (i & <- & _). cbn in Hc.
    destruct (tb_lo_met _ _ _ T j l Hc) as (p & x & Ip & Hx & Ex). pose proof (Ap p x Ip Hx). lra.
  - intros c Hc Cp. destruct M2 as [-> | (d & I & Hd)]; auto. apply in_map_iff in I as (i & <- & _). cbn in Hd.
    destruct (tb_hi_met _ _ _ T j h Hd) as (p & x & Ip & Hx & Ex). pose proof (Cp p x Ip Hx). lra.
Qed.
Print Assumptions expand_box_smallest.

Example box_example : local_box 2 1000 [1; 5; 3; 2; -4; 3]%Q = Ok ([-4; 2], [3; 5])%Q.
Proof. reflexivity. Qed.
Example global_example : global_box 2 1000 [[1; 5]; []; [3; 2; -4; 3]]%Q = Ok ([-4; 2], [3; 5])%Q.
Proof. reflexivity. Qed.
Example expand_example : expand_box 2 1000 [1; 5; 3; 2]%Q ([2; 3], [7; 4])%Q = Ok ([1; 2], [7; 5])%Q.
Proof. reflexivity. Qed.

(* ------------------------------------------------------------ C28 *)
Local Open Scope Q_scope.
(* grid spacing of a frame *)
Definition spacing (f : frame) : Q := flen f / inject_Z (cmax f - cmin f).
Definition proper (f : frame) : Prop := (cmin f < cmax f)%Z /\ 0 < flen f.
(* the square of the frame *)
Definition in_frame (f : frame) (p : Q * Q) : Prop :=
  fx f <= fst p <= fx f + flen f /\ fy f <= snd p <= fy f + flen f.

Lemma range_pos f : proper f -> 0 < inject_Z (cmax f - cmin f).
Proof. intros [H _]. unfold Qlt, inject_Z. cbn. lia. Qed.
Lemma spacing_pos f : proper f -> 0 < spacing f.
Proof. intros P. unfold spacing. apply Qlt_shift_div_l; [apply range_pos; auto|]. destruct P. lra. Qed.
Lemma spacing_total f : proper f -> inject_Z (cmax f - cmin f) * spacing f == flen f.
Proof. intros P. unfold spacing. field. pose proof (range_pos f P). lra. Qed.

(* one coordinate *)
Lemma quantize1_spec f x0 x : proper f -> x0 <= x ->
  let q := quantize1 (cmin f) (cmax f) x0 (flen f) x in
  (cmin f <= q)%Z /\ x0 + inject_Z (q - cmin f) * spacing f <= x < x0 + inject_Z (q - cmin f) * spacing f + spacing f /\
  (x <= x0 + flen f -> (q <= cmax f)%Z).
Proof.
  intros P L. unfold quantize1. fold (spacing f). cbn zeta. pose proof (spacing_pos f P) as S.
  assert (N : 0 <= (x - x0) / spacing f) by (apply Qle_shift_div_l; auto; lra).
  destruct (trunc_spec _ N) as [[T1 T2] T3]. set (t := trunc _) in *. split; [lia|]. split.
  - replace (cmin f + t - cmin f)%Z with t by lia.
    assert (E : (x - x0) / spacing f * spacing f == x - x0) by (field; lra).
    split; nra.
  - intros U. assert (V : (x - x0) / spacing f <= inject_Z (cmax f - cmin f)).
    { apply Qle_shift_div_r; auto. rewrite (spacing_total f P). lra. }
    assert (inject_Z t <= inject_Z (cmax f - cmin f)) by lra. rewrite <- Zle_Qle in H. lia.
Qed.

Theorem quantize_in_range : forall f p, proper f -> in_frame f p ->
  (cmin f <= fst (quantize f p) <= cmax f)%Z /\ (cmin f <= snd (quantize f p) <= cmax f)%Z.
Proof.
  intros f [x y] P [[X1 X2] [Y1 Y2]]. cbn [fst snd] in *. unfold quantize. cbn [fst snd].
  destruct (quantize1_spec f _ _ P X1) as (A & _ & B). destruct (quantize1_spec f _ _ P Y1) as (C & _ & D). auto.
Qed.
Print Assumptions quantize_in_range.

Theorem dequantize_error : forall f p, proper f -> in_frame f p ->
  exists x y, dequantize f (quantize f p) = [x; y] /\
    x <= fst p < x + spacing f /\ y <= snd p < y + spacing f.
Proof.
  intros f [x y] P [[X1 X2] [Y1 Y2]]. cbn [fst snd] in *.
  destruct (quantize1_spec f _ _ P X1) as (_ & A & _). destruct (quantize1_spec f _ _ P Y1) as (_ & B & _).
  unfold dequantize, quantize, dequantize1. cbn [fst snd]. eexists _, _. split; [reflexivity|]. unfold spacing in *. lra.
Qed.
Print Assumptions dequantize_error.

Theorem quantize_monotone : forall f p q, proper f -> in_frame f p -> in_frame f q ->
  (fst p <= fst q -> (fst (quantize f p) <= fst (quantize f q))%Z) /\
  (snd p <= snd q -> (snd (quantize f p) <= snd (quantize f q))%Z).
Proof.
  intros f [x y] [x' y'] P [[X1 _] [Y1 _]] _. cbn [fst snd] in *. pose proof (spacing_pos f P) as S.
  unfold quantize, quantize1. cbn [fst snd]. fold (spacing f). split; intros L; apply Zplus_le_compat_l, trunc_mono.
  - apply Qle_shift_div_l; auto; lra.
  - apply Qmult_le_compat_r; [lra|]. apply Qlt_le_weak, Qinv_lt_0_compat; auto.
  - apply Qle_shift_div_l; auto; lra.
  - apply Qmult_le_compat_r; [lra|]. apply Qlt_le_weak, Qinv_lt_0_compat; auto.
Qed.
Print Assumptions quantize_monotone.

(* grid points are fixed: quantizing a dequantized point gives the point back *)
Theorem quantize_dequantize : forall f i j, proper f -> (cmin f <= i <= cmax f)%Z -> (cmin f <= j <= cmax f)%Z ->
  exists x y, dequantize f (i, j) = [x; y] /\ quantize f (x, y) = (i, j) /\ in_frame f (x, y).
Proof.
  intros f i j P Bi Bj. pose proof (spacing_pos f P) as S. pose proof (range_pos f P) as R. pose proof (spacing_total f P) as T.
  unfold dequantize, dequantize1. cbn [fst snd]. fold (spacing f). eexists _, _. split; [reflexivity|].
  assert (G : forall x0 i, (cmin f <= i <= cmax f)%Z -> quantize1 (cmin f) (cmax f) x0 (flen f) (x0 + inject_Z (i - cmin f) * spacing f) = i).
  { intros x0 k B. unfold quantize1. fold (spacing f).
    rewrite (trunc_int _ (k - cmin f)); [lia| |lia]. field. lra. }
  split.
  - unfold quantize. cbn [fst snd]. rewrite !G by auto. reflexivity.
  - assert (B : forall i, (cmin f <= i <= cmax f)%Z -> 0 <= inject_Z (i - cmin f) * spacing f <= flen f).
    { intros k B. assert (0 <= inject_Z (k - cmin f)) by (unfold Qle, inject_Z; cbn; lia).
      assert (inject_Z (k - cmin f) <= inject_Z (cmax f - cmin f)) by (rewrite <- Zle_Qle; lia). split; nra. }
    unfold in_frame. cbn [fst snd]. pose proof (B i Bi). pose proof (B j Bj). lra.
Qed.
Print Assumptions quantize_dequantize.

(* points at least a grid spacing apart in a coordinate stay apart *)
Theorem quantize_separates : forall f p q, proper f -> in_frame f p -> in_frame f q ->
  spacing f <= fst q - fst p \/ spacing f <= snd q - snd p -> quantize f p <> quantize f q.
Proof.
  intros f [x y] [x' y'] P [[X1 _] [Y1 _]] [[X1' _] [Y1' _]] Sep E. cbn [fst snd] in *.
  unfold quantize in E. cbn [fst snd] in E. injection E as E1 E2.
  destruct (quantize1_spec f _ _ P X1) as (_ & A & _). destruct (quantize1_spec f _ _ P X1') as (_ & A' & _).
  destruct (quantize1_spec f _ _ P Y1) as (_ & B & _). destruct (quantize1_spec f _ _ P Y1') as (_ & B' & _).
  cbn zeta in *. rewrite E1 in A. rewrite E2 in B. lra.
Qed.
Print Assumptions quantize_separates.

(* The coordinate range of int, and the difference used as divisor fits in an int. *)
Theorem coord_range : coordMin = (- 2 ^ 30)%Z /\ coordMax = (2 ^ 30 - 1)%Z /\ (coordMax - coordMin <= 2 ^ 31 - 1)%Z.
Proof. repeat split. vm_compute. discriminate. Qed.
Print Assumptions coord_range.

(* The frame put around boundary points holds everything up to two box sizes away from them. *)
Theorem boundary_frame_holds : forall big pos, (0 < length pos)%nat -> (length pos mod 2 = 0)%nat ->
  (forall x, In x pos -> - big <= x <= big) ->
  exists f xl yl xh yh, boundary_frame big pos = Ok f /\ TightBox 2 (points_of 2 pos) ([xl; yl], [xh; yh]) /\
    let L := qmax (xh - xl) (yh - yl) in
    (0 < L -> proper f) /\
    (forall p, xl - 2 * L <= fst p <= xl + 3 * L -> yl - 2 * L <= snd p <= yl + 3 * L -> in_frame f p) /\
    (forall p, xl <= fst p <= xh -> yl <= snd p <= yh -> in_frame f p).
Proof.
  intros big pos N M B. destruct (bounding_box_tight 2 big pos N M B) as ([lo hi] & E & T).
  pose proof (tb_lo _ _ _ T) as Ll. pose proof (tb_hi _ _ _ T) as Lh. cbn [fst snd] in Ll, Lh.
  destruct lo as [|xl [|yl [|]]]; try discriminate. destruct hi as [|xh [|yh [|]]]; try discriminate.
  unfold boundary_frame. rewrite E. cbn [bind]. eexists _, xl, yl, xh, yh. split; [reflexivity|]. split; auto. cbn zeta.
  destruct (qmax_le (xh - xl) (yh - yl)) as (A1 & A2 & _). set (L := qmax _ _) in *.
  (* the box is not inverted *)
  destruct (tb_lo_met _ _ _ T 0 xl eq_refl) as (p & x & Ip & Hx & Ex).
  pose proof (tb_in _ _ _ T p 0 x xl xh Ip Hx eq_refl eq_refl).
  split; [|split].
  - intros H0. split; cbn; [vm_compute; reflexivity|lra].
  - intros q H1 H2. unfold in_frame. cbn. lra.
  - intros q H1 H2. unfold in_frame. cbn. lra.
Qed.
Print Assumptions boundary_frame_holds.

Theorem box_frame_holds : forall xl yl xh yh, xl < xh -> yl < yh ->
  proper (box_frame xl yl xh yh) /\
  forall p, xl <= fst p <= xh -> yl <= snd p <= yh -> in_frame (box_frame xl yl xh yh) p.
Proof.
  intros xl yl xh yh X Y. destruct (qmax_le (xh - xl) (yh - yl)) as (A1 & A2 & _). unfold box_frame, proper, in_frame. cbn. split.
  - split; [vm_compute; reflexivity|lra].
  - intros p [] []. lra.
Qed.
Print Assumptions box_frame_holds.

(* Generators keep their order and index; guards get the following indices, and all of them
   lie on the border of the coordinate square. *)
Theorem construct_correct : forall f pts gens gs, construct f pts = Ok (gens, gs) ->
  length pts = (2 * length gens)%nat /\
  (forall i x y, (i < length gens)%nat -> vertex 2 pts i = [x; y] -> nth_error gens i = Some (quantize f (x, y), i)) /\
  map snd gs = seq (length gens) 12 /\
  forall p k, In (p, k) gs ->
    (coordMin <= fst p <= coordMax)%Z /\ (coordMin <= snd p <= coordMax)%Z /\
    (fst p = coordMin \/ fst p = coordMax \/ snd p = coordMin \/ snd p = coordMax).
Proof.
  intros f pts gens gs E. unfold construct in E.
  destruct (Nat.eqb_spec (length pts mod 2) 0) as [M|]; [|discriminate]. cbn [assert bind] in E.
  pose proof (Nat.div_mod (length pts) 2) as DM. remember (length pts / 2)%nat as n. cbn zeta in E.
  assert (E1 : gens = map (fun i => (match vertex 2 pts i with [x; y] => quantize f (x, y) | _ => (0, 0)%Z end, i)) (seq 0 n)) by congruence.
  assert (E2 : gs = guards n) by congruence. clear E. subst gens gs.
  rewrite map_length, seq_length. split; [lia|]. split; [|split].
  - intros i x y Li V.
    assert (S : forall n o k, (k < n)%nat -> nth_error (seq o n) k = Some (o + k)%nat).
    { clear. induction n as [|n IH]; intros o [|k] H; try lia; cbn; [f_equal; lia|]. rewrite IH by lia. f_equal. lia. }
    rewrite (map_nth_error _ i (seq 0 n) (S _ 0%nat i Li)). cbn [Nat.add]. rewrite V. reflexivity.
  - cbn. rewrite ?Nat.add_0_r. repeat (apply f_equal2; [lia|]). reflexivity.
  - intros p k I. cbn in I.
    repeat (destruct I as [E|I]; [injection E as <- _; vm_compute; intuition congruence|]). destruct I.
Qed.
Print Assumptions construct_correct.

(* The guards are not pairwise distinct: the lower left corner is produced twice. *)
Theorem guards_distinct_refuted : forall n, ~ NoDup (map fst (guards n)).
Proof. intros n N. cbn in N. inversion N as [|? ? H _]; subst. apply H. right. left. vm_compute. reflexivity. Qed.
Print Assumptions guards_distinct_refuted.

Example quantize_example : let f := mkFrame 0 100 0 0 10 in
  proper f /\ in_frame f (33 # 10, 10) /\ quantize f (33 # 10, 10) = (33, 100)%Z.
Proof. cbn zeta. repeat split; vm_compute; try reflexivity; discriminate. Qed.
Example frame_example : boundary_frame 1000 [1; 2; 3; 7; 2; 4] = Ok (mkFrame coordMin coordMax (-9) (-8) 25).
Proof. reflexivity. Qed.
