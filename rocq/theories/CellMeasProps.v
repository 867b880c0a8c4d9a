(* C110: what a planar cell of Voro++ answers about itself. *)
From Verif Require Import Base BaseFacts Plane PLCSpec MeshEditorModel CutModel CutSpec CutProofs CutProofs2 CutProofs4 CutProofs5 CutProofs7 CutProps CellMeasModel CellMeasSpec CellMeasProofs.
From Coq Require Import QArith Lqa Psatz Permutation.
Local Open Scope nat_scope.

(* plane_intersects is true exactly if a corner is beyond the line by at least the tolerance; no shape
   of the cell is assumed. *)
Theorem plane_intersects_exact : forall x y rsq s vs, CellOf s vs -> 3 <= length vs ->
  exists b, plane_intersects x y rsq s = Ok b /\ (b = true <-> exists v, In v vs /\ (rsq + cut_tol <= x * fst (fst v) + y * snd (fst v))%Q).
Proof.
  intros x y rsq s vs C L. destruct (probe_ok x y rsq (Ok false) (fun _ _ => Ok true) s vs C L) as [[E F]|(up & v & A & Lu & T & E)].
  - exists false. split; [exact E|]. split; [discriminate|]. intros (v & I & K). rewrite Forall_forall in F. specialize (F v I). unfold vpos in F. lra.
  - exists true. split; [exact E|]. split; auto. intros _. exists v. destruct C as (c & _ & AL & _ & HE). split; [apply (at_in s c vs up v); auto; apply AL; auto|]. unfold vpos in T. lra.
Qed.
Print Assumptions plane_intersects_exact.

(* max_radius_squared is four times the largest squared distance of a corner from the particle. *)
Theorem radius_exact : forall s vs, CellOf s vs -> 1 <= length vs ->
  exists r, max_radius_squared s = Ok r /\ (forall v, In v vs -> 4 * apart (half (fst v)) (0, 0) <= r)%Q /\ exists v, In v vs /\ (4 * apart (half (fst v)) (0, 0) == r)%Q.
Proof.
  intros s vs C L. pose proof C as C0. destruct C0 as (c & ND & AL & _ & HE). pose proof (cell_len _ _ _ ND AL HE) as Len. pose proof (Forall2_len _ _ _ HE) as Len2.
  set (n2 := fun v : corner => (fst (fst v) * fst (fst v) + snd (fst v) * snd (fst v))%Q). assert (Q4 : forall v, (4 * apart (half (fst v)) (0, 0) == n2 v)%Q) by (intros v; unfold apart, half, n2; cbn [fst snd]; ring).
  assert (St : forall i, i < vp s -> exists v, vx s i = Some v /\ In v vs). { intros i Hi. apply AL in Hi. clear - HE Hi. induction HE as [|j v c vs H T IH]; [destruct Hi|]. destruct Hi as [->|Hi]; [exists v; split; auto; left; auto|]. destruct (IH Hi) as (w & A & B). exists w. split; auto. right. auto. }
  assert (Co : forall v, In v vs -> exists i, i < vp s /\ vx s i = Some v). { intros v Iv. assert (K : exists i, In i c /\ vx s i = Some v). { clear - HE Iv. induction HE as [|j w c vs H T IH]; [destruct Iv|]. destruct Iv as [->|Iv]; [exists j; split; auto; left; auto|]. destruct (IH Iv) as (i & A & B). exists i. split; auto. right; auto. } destruct K as (i & A & B). exists i. split; auto. apply AL. auto. }
  destruct (St 0 ltac:(lia)) as (v0 & E0 & I0). unfold max_radius_squared, peek. rewrite E0. cbn [bind]. fold (n2 v0).
  assert (G : forall m k r, k + m <= vp s -> exists r', mfold (fun r i => do w <- match vx s i with Some a => Ok a | None => UB end; let q := (fst (fst w) * fst (fst w) + snd (fst w) * snd (fst w))%Q in Ok (if Qlt_bool r q then q else r)) (seq k m) r = Ok r' /\
    (r <= r')%Q /\ (forall i v, k <= i < k + m -> vx s i = Some v -> (n2 v <= r')%Q) /\ ((r' == r)%Q \/ exists v, In v vs /\ (n2 v == r')%Q)).
  { induction m as [|m IH]; intros k r Hk; [exists r; split; auto; split; [lra|]; split; [intros; lia|left; lra]|]. cbn [seq mfold]. destruct (St k ltac:(lia)) as (w & Ew & Iw). rewrite Ew. cbn [bind]. fold (n2 w).
    destruct (IH (S k) (if Qlt_bool r (n2 w) then n2 w else r) ltac:(lia)) as (r' & E & A & B & D). exists r'. split; [exact E|].
    destruct (Qlt_bool r (n2 w)) eqn:Cw; [apply qlt_t in Cw|apply qlt_f in Cw]; (split; [lra|]; split; [intros i v Hi Ev; destruct (Nat.eq_dec i k) as [->|Ni]; [assert (v = w) by congruence; subst; lra|apply (B i v); auto; lia]|]).
    - destruct D as [D|D]; auto. right. exists w. split; auto. lra.
    - auto. }
  destruct (G (vp s - 1) 1 (n2 v0) ltac:(lia)) as (r & E & A & B & D). exists r. split; [exact E|]. split.
  - intros v Iv. rewrite Q4. destruct (Co v Iv) as (i & Li & Ei). destruct (Nat.eq_dec i 0) as [->|Ni]; [assert (v = v0) by congruence; subst; auto|]. apply (B i v); auto. lia.
  - destruct D as [D|(v & Iv & D)]; [exists v0|exists v]; (split; auto; rewrite Q4; lra).
Qed.
Print Assumptions radius_exact.

(* A particle at least twice as far as the farthest corner does not change the cell: computing a cell
   can stop there. *)
Theorem radius_enough : forall s vs r d i, CellOf s vs -> 3 <= length vs -> max_radius_squared s = Ok r -> (r <= apart d (0, 0))%Q ->
  nplane_to d i s = Ok (true, s).
Proof.
  intros s vs r d i C L E H. destruct (radius_exact s vs C ltac:(lia)) as (r' & E' & B & _). assert (r' = r) by congruence. subst r'.
  apply (none_ok _ _ _ _ s vs); auto. rewrite Forall_forall. intros v Iv. specialize (B v Iv). pose proof tol_pos as T0. unfold vpos.
  assert (K : (fst d * fst (fst v) + snd d * snd (fst v) <= fst d * fst d + snd d * snd d)%Q); [|lra].
  unfold apart, half in *. cbn [fst snd] in *.
  assert (Sq : forall t : Q, (0 <= t * t)%Q) by (intros t; nra).
  pose proof (Sq (fst d - fst (fst v))%Q). pose proof (Sq (snd d - snd (fst v))%Q). nra.
Qed.
Print Assumptions radius_enough.

(* area and centroid are those of the polygon, and for a convex one the area is positive and the
   centroid is within it. *)
Theorem area_centroid_exact : forall s vs, CellOf s vs -> 3 <= length vs -> let ps := map half (map fst vs) in
  (exists a, cell_area s = Ok a /\ (2 * a == area2 ps)%Q /\ (StrictlyConvex (map fst vs) -> 0 < a)%Q) /\
  (~ (area2 ps == 0)%Q -> exists g, cell_centroid s = Ok g /\ (3 * area2 ps * fst g == moment_x ps)%Q /\ (3 * area2 ps * snd g == moment_y ps)%Q /\
     (StrictlyConvex (map fst vs) -> Within (map fst vs) (twice g))).
Proof.
  intros s vs C L ps. destruct (fan_of_ok s vs C L) as (o & vt & a & cx & cy & E & T & Lt & (Ea & Ex & Ey) & Ec & El).
  assert (P0 : vp s <> 0). { destruct C as (c & ND & AL & _ & HE). pose proof (cell_len _ _ _ ND AL HE). pose proof (Forall2_len _ _ _ HE). lia. }
  assert (HA : (area2 ps == (1 # 4) * a)%Q) by (unfold area2, ps; rewrite (sum_half cross (1 # 4)); [rewrite Ea; reflexivity|intros; unfold cross, half; cbn [fst snd]; ring]).
  assert (HX : (moment_x ps == (1 # 8) * moment_x (map fst vs))%Q) by (unfold moment_x, ps; rewrite (sum_half _ (1 # 8)); [reflexivity|intros; unfold cross, half; cbn [fst snd]; ring]).
  assert (HY : (moment_y ps == (1 # 8) * moment_y (map fst vs))%Q) by (unfold moment_y, ps; rewrite (sum_half _ (1 # 8)); [reflexivity|intros; unfold cross, half; cbn [fst snd]; ring]).
  assert (Tri : forall p q, (cross (minus o p) (minus o q) == orient o p q)%Q) by (intros p q; unfold cross, minus, orient; cbn [fst snd]; ring).
  destruct vt as [|p1 l]; [cbn in Lt; lia|]. cbn [hd tl] in *.
  assert (Pos : StrictlyConvex (map fst vs) -> forall i p q, nth_error (p1 :: l) i = Some p -> nth_error (p1 :: l) (S i) = Some q -> (0 < cross (minus o p) (minus o q))%Q).
  { intros SC i p q A B. rewrite Tri. apply (turn_sc _ _ T SC 0 (S i) (S (S i))); auto. lia. }
  assert (PA : StrictlyConvex (map fst vs) -> (0 < a)%Q) by (intros SC; rewrite Ec; apply chain_pos; [apply (Pos SC)|destruct l; [cbn in Lt; lia|discriminate]]).
  split.
  - exists ((1 # 8) * a)%Q. split; [unfold cell_area; rewrite (proj2 (Nat.eqb_neq _ _) P0), E; reflexivity|]. split; [rewrite HA; ring|]. intros SC. specialize (PA SC). lra.
  - intros NA. assert (NA' : ~ (a == 0)%Q) by (intros K; apply NA; rewrite HA, K; ring). unfold cell_centroid. rewrite (proj2 (Nat.eqb_neq _ _) P0), E. cbn [bind]. destruct (Qeq_bool a 0) eqn:Ez; [apply Qeq_bool_iff in Ez; contradiction|].
    eexists. split; [reflexivity|]. cbn [fst snd]. split; [rewrite HA, HX, <- Ex; field; auto|]. split; [rewrite HA, HY, <- Ey; field; auto|].
    intros SC u v R. specialize (PA SC). pose proof (sc_within (map fst vs)) as SW.
    set (X := (- (snd v - snd u))%Q). set (Y := (fst v - fst u)%Q). set (Z := (- (Y * snd u) - X * fst u)%Q). assert (OL : forall p, (orient u v p == X * fst p + Y * snd p + Z)%Q) by (intros p; unfold orient, Z, X, Y; ring).
    assert (NN : (0 <= X * (cx + 3 * fst o * a) + Y * (cy + 3 * snd o * a) + 3 * Z * a)%Q).
    { rewrite El. apply chain_nonneg. intros p q Ip Iq (i & A & B). pose proof (Pos SC i p q A B) as Pp. rewrite <- !OL.
      assert (W : forall w, In w (o :: p1 :: l) -> (0 <= orient u v w)%Q) by (intros w Iw; apply (SW w SC); auto; apply (turn_in _ _ w T); auto).
      pose proof (W o (or_introl eq_refl)). pose proof (W p (or_intror Ip)). pose proof (W q (or_intror Iq)). apply Qmult_le_0_compat; lra. }
    rewrite OL. unfold twice. cbn [fst snd].
    assert (I : (X * (2 * ((1 # 2) * (fst o + cx * ((1 # 3) / a)))) + Y * (2 * ((1 # 2) * (snd o + cy * ((1 # 3) / a)))) + Z == (X * (cx + 3 * fst o * a) + Y * (cy + 3 * snd o * a) + 3 * Z * a) * (1 / (3 * a)))%Q) by (field; auto).
    rewrite I. apply Qmult_le_0_compat; auto. apply Qlt_le_weak, Qlt_shift_div_l; lra.
Qed.
Print Assumptions area_centroid_exact.

(* A rectangle of 2 by 3. *)
Example rect_measures : cell_area (vinit 0 2 (-1) 2) = Ok (48 # 8)%Q /\ (exists g, cell_centroid (vinit 0 2 (-1) 2) = Ok g /\ fst g == 1 /\ snd g == 1 # 2)%Q /\
  (exists r, max_radius_squared (vinit 0 2 (-1) 2) = Ok r /\ r == 32)%Q /\ plane_intersects 1 0 3 (vinit 0 2 (-1) 2) = Ok true /\ plane_intersects 1 0 5 (vinit 0 2 (-1) 2) = Ok false.
Proof.
  split; [vm_compute; reflexivity|]. split; [eexists; split; [vm_compute; reflexivity|split; reflexivity]|]. split; [eexists; split; [vm_compute; reflexivity|reflexivity]|]. split; vm_compute; reflexivity.
Qed.
Example rect_meets : CellOf (vinit 0 2 (-1) 2) (rect 0 2 (-1) 2) /\ StrictlyConvex (map fst (rect 0 2 (-1) 2)) /\ 3 <= length (rect 0 2 (-1) 2).
Proof. split; [apply rect_cell|]. split; [apply rect_convex; reflexivity|cbn; lia]. Qed.
Example rect_far : nplane_to (6, 0)%Q 3 (vinit 0 2 (-1) 2) = Ok (true, vinit 0 2 (-1) 2).
Proof. refine (radius_enough _ (rect 0 2 (-1) 2) _ _ _ (rect_cell _ _ _ _) _ _ _); [cbn; lia|vm_compute; reflexivity|discriminate]. Qed.
