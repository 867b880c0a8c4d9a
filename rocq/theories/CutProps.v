(* C109: the cells of planar Voro++ are cut to the points nearest to their particle. *)
From Verif Require Import Base BaseFacts Plane PLCSpec MeshEditorModel CutModel CutSpec CutProofs2 CutProofs4 CutProofs5 CutProofs6 CutProofs7.
From Coq Require Import QArith Lqa Psatz Permutation.
Local Open Scope nat_scope.

Lemma far_clear x y rsq s vs : FarFrom x y rsq s -> CellOf s vs -> Forall (Clear x y rsq) vs.
Proof.
  intros F (c & _ & AL & _ & H). assert (K : forall i, In i c -> i < vp s) by (intros i; apply AL). clear AL. induction H as [|i v c vs H T IH]; constructor; [|apply IH; intros j J; apply K; right; auto].
  unfold Clear, vpos. apply (F i v); auto. apply K. left. auto.
Qed.

(* One cut, by a line no corner is within the tolerance of.  The cell is any convex polygon.  The
   cut says that nothing is left exactly if every corner is beyond the line; otherwise the cell is
   again a convex polygon, of those points of the old one that are not beyond the line.  Missing for
   the whole property: corners that are within the tolerance (see cut_corner_refuted). *)
Theorem cut_region_partial : forall x y rsq p_id s vs,
  CellOf s vs -> StrictlyConvex (map fst vs) -> 3 <= length vs -> FarFrom x y rsq s ->
  exists b s', nplane x y rsq p_id s = Ok (b, s') /\
    (b = false <-> Forall (fun v => rsq < x * fst (fst v) + y * snd (fst v))%Q vs) /\ (b = false -> s' = s) /\
    (b = true -> exists vs', CellOf s' vs' /\ StrictlyConvex (map fst vs') /\ 3 <= length vs' /\
      forall q, Within (map fst vs') q <-> Within (map fst vs) q /\ (x * fst q + y * snd q <= rsq)%Q).
Proof.
  intros x y rsq p_id s vs C SC L F. pose proof tol_pos as T0. pose proof (far_clear _ _ _ _ _ F C) as Cl. destruct (step_ok x y rsq p_id s vs C SC L Cl) as [[Fo E]|((v & Iv & Uv) & s' & vs' & E & C' & SC' & L' & R & _)].
  - exists false, s. split; auto. split; [|split; auto; discriminate]. split; auto. intros _. revert Fo. apply Forall_impl. intros v. unfold vpos. lra.
  - exists true, s'. split; auto. split; [|split; [discriminate|]].
    + split; [discriminate|]. intros Fo. rewrite Forall_forall in Fo. specialize (Fo v Iv). unfold vpos in Uv. cbv beta in Fo. lra.
    + intros _. exists vs'. split; auto. split; auto. split; auto. intros q. rewrite R. unfold uu. split; intros [A B]; split; auto; lra.
Qed.
Print Assumptions cut_region_partial.

Lemma same_trans a b c d e f : SameLine a b c d -> SameLine c d e f -> SameLine a b e f.
Proof. intros A B X Y Z H K. destruct (A X Y Z H K). auto. Qed.
Definition rr (d : p2) : Q := (fst d * fst d + snd d * snd d)%Q.
Lemma cuts_ok ds : forall s vs, CellOf s vs -> StrictlyConvex (map fst vs) -> 3 <= length vs -> FarFromAll ds s -> Within (map fst vs) (0, 0)%Q -> Forall (fun di => 0 < rr (fst di))%Q ds ->
  exists s' vs', cuts ds s = Ok (true, s') /\ CellOf s' vs' /\ StrictlyConvex (map fst vs') /\ 3 <= length vs' /\
    (forall q, Within (map fst vs') q <-> Within (map fst vs) q /\ forall d i, In (d, i) ds -> (uu (fst d) (snd d) (rr d) q <= 0)%Q) /\
    (forall a b, In (a, b) (ring vs') -> (exists d, In (d, snd a) ds /\ (uu (fst d) (snd d) (rr d) (fst a) == 0)%Q /\ (uu (fst d) (snd d) (rr d) (fst b) == 0)%Q) \/
      exists a0 b0, In (a0, b0) (ring vs) /\ snd a = snd a0 /\ SameLine (fst a0) (fst b0) (fst a) (fst b)).
Proof.
  induction ds as [|[d i] ds IH]; intros s vs C SC L F W0 P.
  - exists s, vs. split; auto. split; auto. split; auto. split; auto. split; [intros q; split; [intros; split; auto; intros d i []|tauto]|]. intros a b R. right. exists a, b. split; auto. split; auto. intros X Y Z; auto.
  - cbn [FarFromAll] in F. destruct F as [F1 F2]. inversion P as [|? ? P1 P2]; subst. cbn [fst] in P1. pose proof tol_pos as T0. pose proof (far_clear _ _ _ _ _ F1 C) as Cl. fold (rr d) in Cl.
    destruct (step_ok (fst d) (snd d) (rr d) i s vs C SC L Cl) as [[Fo E]|(_ & s1 & vs1 & E & C1 & SC1 & L1 & R1 & S1)].
    + exfalso. assert (K : (0 <= uu (fst d) (snd d) (rr d) (0, 0))%Q). { apply (region_out (map fst vs)); auto; [rewrite map_length; auto|]. apply Forall_map. revert Fo. apply Forall_impl. intros v. unfold vpos, uu. lra. } unfold uu in K. cbn [fst snd] in K. lra.
    + assert (EN : nplane_to d i s = Ok (true, s1)) by exact E. destruct (IH s1 vs1) as (s' & vs' & E' & C' & SC' & L' & R' & S'); auto.
      { apply R1. split; auto. unfold uu. cbn [fst snd]. lra. }
      exists s', vs'. split; [cbn [cuts]; rewrite EN; exact E'|]. split; auto. split; auto. split; auto. split.
      * intros q. rewrite R', R1. split.
        -- intros [[A B] D]. split; auto. intros d' i' [H|H]; [injection H as <- <-; auto|apply (D d' i'); auto].
        -- intros [A D]. split; [split; auto; apply (D d i); left; auto|]. intros d' i' H. apply (D d' i'). right. auto.
      * intros a b R. destruct (S' a b R) as [(d' & I' & A & B)|(a1 & b1 & I1 & Ea & SL)]; [left; exists d'; split; [right; auto|auto]|].
        destruct (S1 a1 b1 I1) as [(Ei & Ua & Ub)|(a0 & b0 & I0 & Ea0 & SL0)].
        -- left. exists d. split; [left; congruence|]. destruct (SL (fst d) (snd d) (- rr d)%Q) as [Ka Kb]; [exact Ua|exact Ub|]. split; [exact Ka|exact Kb].
        -- right. exists a0, b0. split; auto. split; [congruence|]. apply (same_trans _ _ _ _ _ _ SL0 SL).
Qed.

Section Rect.
  Variable (xmin xmax ymin ymax : Q).
  Definition rect : list corner := [((2 * xmin, 2 * ymin)%Q, -3); ((2 * xmax, 2 * ymin)%Q, -2); ((2 * xmax, 2 * ymax)%Q, -4); ((2 * xmin, 2 * ymax)%Q, -1)]%Z.
  Lemma rect_cell : CellOf (vinit xmin xmax ymin ymax) rect.
  Proof.
    exists [0; 1; 2; 3]. split; [repeat constructor; cbn; intuition discriminate|]. split; [intros i; cbn; lia|]. split; [cbn; auto 20|]. repeat constructor.
  Qed.
  Lemma rect_convex : (xmin < xmax)%Q -> (ymin < ymax)%Q -> StrictlyConvex (map fst rect).
  Proof.
    intros X Y i j k a b c O A B C. pose proof (nth_error_lt _ _ _ C) as L. cbn in L.
    assert (D : (i = 0 /\ j = 1 /\ k = 2) \/ (i = 0 /\ j = 1 /\ k = 3) \/ (i = 0 /\ j = 2 /\ k = 3) \/ (i = 1 /\ j = 2 /\ k = 3)) by lia.
    destruct D as [(-> & -> & ->)|[(-> & -> & ->)|[(-> & -> & ->)|(-> & -> & ->)]]]; cbn in A, B, C; injection A as <-; injection B as <-; injection C as <-; unfold orient; cbn [fst snd]; nra.
  Qed.
  Lemma rect_within q : (xmin < xmax)%Q -> (ymin < ymax)%Q -> Within (map fst rect) q <-> (2 * xmin <= fst q <= 2 * xmax)%Q /\ (2 * ymin <= snd q <= 2 * ymax)%Q.
  Proof.
    intros X Y. split.
    - intros W. pose proof (W _ _ (or_introl eq_refl)) as W1. pose proof (W _ _ (or_intror (or_introl eq_refl))) as W2. pose proof (W _ _ (or_intror (or_intror (or_introl eq_refl)))) as W3. pose proof (W _ _ (or_intror (or_intror (or_intror (or_introl eq_refl))))) as W4.
      unfold orient in *. cbn [fst snd] in *. split; split; apply Qnot_lt_le; intros K; nra.
    - intros [[A B] [C D]] a b R. cbn in R. unfold orient. destruct R as [R|[R|[R|[R|[]]]]]; injection R as <- <-; cbn [fst snd]; nra.
  Qed.
  Lemma rect_side a b : In (a, b) (ring rect) -> exists X Y Z, (X * fst (fst a) + Y * snd (fst a) + Z == 0)%Q /\ (X * fst (fst b) + Y * snd (fst b) + Z == 0)%Q /\
    forall p, (X * fst p + Y * snd p + Z == 0)%Q -> SideOf xmin xmax ymin ymax [] (snd a) (half p).
  Proof.
    intros R. unfold rect in R. cbn in R. destruct R as [R|[R|[R|[R|[]]]]]; injection R as <- <-; cbn [fst snd];
      [exists 0%Q, 1%Q, (- (2 * ymin))%Q|exists 1%Q, 0%Q, (- (2 * xmax))%Q|exists 0%Q, 1%Q, (- (2 * ymax))%Q|exists 1%Q, 0%Q, (- (2 * xmin))%Q]; (split; [ring|]; split; [ring|]; intros p H; unfold SideOf, half; cbn [fst snd]); [right; right; left|right; left|right; right; right; left|left]; (split; [reflexivity|lra]).
  Qed.
End Rect.

(* A cell that begins as a rectangle around its particle and is cut once for each of the others: it
   is not deleted, and its corners are those of a convex polygon whose points are exactly those of the
   rectangle that are at least as near to this particle as to every other.  (Positions are relative to
   the particle and may be in any order; other particles are anywhere but on it.)  Each side has the
   label of what it lies on.  Missing for the whole property: corners within the tolerance. *)
Theorem cell_is_nearest_partial : forall xmin xmax ymin ymax ds,
  (xmin < 0 < xmax)%Q -> (ymin < 0 < ymax)%Q -> (forall d i, In (d, i) ds -> 0 < apart d (0, 0))%Q -> FarFromAll ds (vinit xmin xmax ymin ymax) ->
  exists s' vs', cuts ds (vinit xmin xmax ymin ymax) = Ok (true, s') /\ CellOf s' vs' /\ StrictlyConvex (map fst vs') /\ 3 <= length vs' /\
    (forall q, Within (map fst vs') (twice q) <->
       (xmin <= fst q <= xmax)%Q /\ (ymin <= snd q <= ymax)%Q /\ forall d i, In (d, i) ds -> (apart q (0, 0) <= apart q d)%Q) /\
    (forall a b, In (a, b) (ring vs') -> SideOf xmin xmax ymin ymax ds (snd a) (half (fst a)) /\ SideOf xmin xmax ymin ymax ds (snd a) (half (fst b))) /\
    exists ws, Permutation ws vs' /\ vvertices s' = Ok (map (fun v => half (fst v)) ws) /\ vneighbors s' = Ok (map snd ws).
Proof.
  intros xmin xmax ymin ymax ds [X1 X2] [Y1 Y2] P F.
  destruct (cuts_ok ds (vinit xmin xmax ymin ymax) (rect xmin xmax ymin ymax)) as (s' & vs' & E & C & SC & L & R & S); auto using rect_cell.
  - apply rect_convex; lra.
  - cbn. lia.
  - apply rect_within; cbn [fst snd]; lra.
  - rewrite Forall_forall. intros [d i] H. specialize (P d i H). unfold rr, apart in *. cbn [fst snd] in *. lra.
  - exists s', vs'. split; auto. split; auto. split; auto. split; auto. split; [|split].
    + intros q. rewrite R, rect_within by lra. unfold twice. cbn [fst snd].
      assert (N : forall d, (uu (fst d) (snd d) (rr d) (2 * fst q, 2 * snd q) <= 0)%Q <-> (apart q (0, 0) <= apart q d)%Q) by (intros d; unfold uu, rr, apart; cbn [fst snd]; split; intros; lra).
      split; [intros [[A B] D]|intros (A & B & D)]; [split; [lra|split; [lra|]]|split; [split; lra|]]; intros d i H; apply N; apply (D d i H).
    + intros a b I. destruct (S a b I) as [(d & Id & Ua & Ub)|(a0 & b0 & I0 & Ea & SL)].
      * assert (N : forall p, (uu (fst d) (snd d) (rr d) p == 0)%Q -> SideOf xmin xmax ymin ymax ds (snd a) (half p)) by (intros p H; right; right; right; right; exists d; split; auto; unfold uu, rr, apart, half in *; cbn [fst snd]; lra). auto.
      * destruct (rect_side _ _ _ _ _ _ I0) as (X & Y & Z & Ha & Hb & N). destruct (SL X Y Z Ha Hb) as [Ka Kb].
        assert (M : forall p, SideOf xmin xmax ymin ymax [] (snd a0) p -> SideOf xmin xmax ymin ymax ds (snd a) p) by (intros p; rewrite Ea; unfold SideOf; intros [H|[H|[H|[H|(d & [] & _)]]]]; auto). auto.
    + apply stored_ok. exact C.
Qed.
Print Assumptions cell_is_nearest_partial.

(* A rectangle cut by three particles: below right, above, and far away. *)
Definition three : list (p2 * Z) := [((3 # 2, - (1)), 10%Z); ((1 # 3, 1), 11%Z); ((8, 8), 12%Z)]%Q.
Ltac far := let i := fresh in let v := fresh in let L := fresh in let H := fresh in intros i v L H;
  do 8 (destruct i as [|i]; [first [exfalso; vm_compute in L; lia|vm_compute in H; injection H as <-; first [left; reflexivity|right; reflexivity]]|]); exfalso; vm_compute in L; lia.
Example three_far : FarFromAll three (vinit (-1) 1 (-1) 1).
Proof.
  cbn [FarFromAll three]. split; [far|]. intros s1 E1. remember (nplane_to _ _ _) as r eqn:Er in E1. rewrite E1 in Er. clear E1 r.
  apply (f_equal (fun r => match r with Ok (_, s) => s | _ => vinit 0 0 0 0 end)) in Er. subst s1.
  split; [far|]. intros s2 E2. remember (nplane_to _ _ _) as r eqn:Er in E2. rewrite E2 in Er. clear E2 r.
  apply (f_equal (fun r => match r with Ok (_, s) => s | _ => vinit 0 0 0 0 end)) in Er. subst s2. split; [far|]. auto.
Qed.
Example three_cell : exists s vs, cuts three (vinit (-1) 1 (-1) 1) = Ok (true, s) /\ CellOf s vs /\
  (forall q, Within (map fst vs) (twice q) <-> (-1 <= fst q <= 1)%Q /\ (-1 <= snd q <= 1)%Q /\ forall d i, In (d, i) three -> (apart q (0, 0) <= apart q d)%Q).
Proof.
  destruct (cell_is_nearest_partial (-1) 1 (-1) 1 three) as (s & vs & E & C & _ & _ & R & _); [split; reflexivity|split; reflexivity| |exact three_far|eauto].
  intros d i [H|[H|[H|[]]]]; injection H as <- <-; reflexivity.
Qed.
Example three_labels : (do (b, s) <- cuts three (vinit (-1) 1 (-1) 1); vneighbors s) = Ok [-3; 10; 11; -1; -2]%Z.
Proof. vm_compute. reflexivity. Qed.
Example gone_cut : exists s, nplane 1 0 (-9) 5 (vinit (-1) 1 (-1) 1) = Ok (false, s).
Proof. eexists. vm_compute. reflexivity. Qed.

(* A cut that goes through a corner of the cell: a second corner is stored at the same place. *)
Theorem cut_corner_refuted : exists d l i j p q,
  (do (b, s) <- nplane_to d 7 (vinit (-1) 1 (-1) 1); if b : bool then vvertices s else Abort) = Ok l /\
  i <> j /\ nth_error l i = Some p /\ nth_error l j = Some q /\ (fst p == fst q)%Q /\ (snd p == snd q)%Q.
Proof.
  exists (2 # 5, - (4 # 5))%Q. eexists. exists 0, 1. do 2 eexists. split; [vm_compute; reflexivity|]. split; [discriminate|]. split; [reflexivity|]. split; [reflexivity|]. split; reflexivity.
Qed.
Print Assumptions cut_corner_refuted.
