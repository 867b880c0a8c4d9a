(* C38: segments, rays and boxes; C59: counting crossings; C60: betweenness and clouds. *)
From Verif Require Import Base BaseFacts SerializeModel Plane PlaneFacts MeshEditorModel AreaProofs WithinSpec HullSpec RayModel RaySpec RayProofs RayProofs2.
From Coq Require Import QArith Qabs ZArith Lia Lqa.
Import RayModel.
Local Open Scope Q_scope.

(* ---- segments ---- *)
Theorem segments_meet : forall a b c d tol,
  (exists r, segmentIntersection2D a b c d tol = Some r) <-> Touch tol a b c d.
Proof. intros. apply seg_iff. Qed.
Print Assumptions segments_meet.
(* the answer is the common point, or an end of a segment whose distance to it is at most tol
   times the length of that segment *)
Theorem segments_point : forall a b c d tol r, 0 <= tol -> segmentIntersection2D a b c d tol = Some r ->
  MeetsAt tol a b c d r.
Proof.
  intros a b c d tol r T H. destruct (seg_point a b c d tol r H) as (s & u & M & S1 & U & C & _). exists s, u. split; auto. split; auto. split; auto.
  assert (Sq : forall x : Q, - tol <= x -> x <= tol -> x * x <= tol * tol) by (intros x A B; nra).
  assert (D : forall e f : p2, 0 <= dist2 e f) by (intros e f; unfold dist2; pose proof (sqq (fst e - fst f)); pose proof (sqq (snd e - snd f)); lra).
  assert (St : forall (e f : p2) x, x * x <= tol * tol -> x * x * dist2 e f <= tol * tol * dist2 e f). { intros e f x L. pose proof (D e f). assert (0 <= (tol * tol - x * x) * dist2 e f) by (apply Qmult_le_0_compat; lra). lra. }
  destruct C as [[[W1 W2] ->]|[[[W1 W2] ->]|[[[W1 W2] ->]|[[[W1 W2] ->]|[E1 E2]]]]].
  - left. setoid_replace (dist2 a (along a b s)) with (s * s * dist2 a b) by (unfold dist2, along; cbn [fst snd]; ring). apply St, Sq; auto.
  - left. setoid_replace (dist2 b (along a b s)) with ((s - 1) * (s - 1) * dist2 a b) by (unfold dist2, along; cbn [fst snd]; ring). apply St, Sq; lra.
  - right. setoid_replace (dist2 c (along c d u)) with (u * u * dist2 c d) by (unfold dist2, along; cbn [fst snd]; ring). apply St, Sq; auto.
  - right. setoid_replace (dist2 d (along c d u)) with ((u - 1) * (u - 1) * dist2 c d) by (unfold dist2, along; cbn [fst snd]; ring). apply St, Sq; lra.
  - right. pose proof (D c d). setoid_replace (dist2 r (along c d u)) with 0 by (unfold dist2; rewrite E1, E2; ring). pose proof (sqq tol). apply Qmult_le_0_compat; auto.
Qed.
Print Assumptions segments_point.
(* segments that cross properly are found, and away from the ends the point is exact *)
Theorem segments_cross : forall a b c d tol, 0 <= tol -> ProperCrossing a b c d ->
  exists r s u, segmentIntersection2D a b c d tol = Some r /\ Meet a b c d s u /\ 0 < s /\ s < 1 /\ 0 < u /\ u < 1 /\
    (tol <= s -> s <= 1 - tol -> tol <= u -> u <= 1 - tol -> eq2 r (along a b s) /\ eq2 r (along c d u)).
Proof.
  intros a b c d tol T P. destruct (proper_hit _ _ _ _ P) as (N & s & u & M & [S1 S2] & [U1 U2] & N1 & N2 & N3 & N4).
  destruct (proj2 (seg_iff a b c d tol)) as [r H]; [split; auto; exists s, u; split; auto; split; split; lra|]. exists r, s, u. split; auto. split; auto.
  destruct (seg_point a b c d tol r H) as (s' & u' & M' & _ & _ & _ & K).
  assert (Nd : ~ cross2 (sub2 b a) (sub2 d c) == 0) by (rewrite den_parallel; auto). apply meet_iff in M as [Es Eu]; auto. apply meet_iff in M' as [Es' Eu']; auto. rewrite <- Es in Es'. rewrite <- Eu in Eu'.
  assert (L : forall x y : Q, x <= y -> ~ x == y -> x < y) by (intros x y A B; apply Qle_lteq in A as [A|A]; [auto|contradiction]).
  split; [apply L; auto; intros Z; apply N1; lra|]. split; [apply L; auto|]. split; [apply L; auto; intros Z; apply N3; lra|]. split; [apply L; auto|].
  intros A B C D. destruct K as [[K1 K2] [K3 K4]]; try lra. unfold eq2, along in *. cbn [fst snd] in *. rewrite K1, K2. rewrite Es' in *. rewrite Eu' in *. split; split; try reflexivity; lra.
Qed.
Print Assumptions segments_cross.
Example segments_case : ProperCrossing (0, 0) (4, 4) (0, 4) (4, 0) /\ segmentIntersection2D (0, 0) (4, 4) (0, 4) (4, 0) seg_tol = Some (64 # 32, 64 # 32) /\
  segmentIntersection2D (0, 0) (4, 4) (0, 4) (1, 3) seg_tol = None /\ segmentIntersection2D (0, 0) (4, 0) (2, 0) (6, 0) seg_tol = None /\ segmentIntersection2D (0, 0) (4, 0) (4, 0) (4, 4) seg_tol = Some (4, 0).
Proof. split; [split; vm_compute; auto|]. split; [vm_compute; auto|]. split; [vm_compute; auto|]. split; vm_compute; auto. Qed.

(* ---- rays and planes ---- *)
(* a ray at an angle to the plane: exactly the common point *)
Theorem ray_plane_partial : forall p n q m tol, 0 < tol -> tol <= Qabs (inner n m) ->
  (forall r, rayPlaneIntersection p n q m tol = Some r -> OnRay p n r /\ OnPlane q m r) /\
  (forall r, OnRay p n r -> OnPlane q m r -> exists r', rayPlaneIntersection p n q m tol = Some r' /\ eq3 r' r).
Proof. intros p n q m tol T L. split; [apply plane_hit; auto|intros r R P; apply plane_complete; auto]. Qed.
Print Assumptions ray_plane_partial.
(* a ray parallel to the plane: one off the plane can be accepted and one in it refused *)
Theorem ray_plane_parallel_refuted :
  (exists p n q m tol r, 0 < tol /\ rayPlaneIntersection p n q m tol = Some r /\ ~ OnPlane q m r) /\
  (exists p n q m tol, 0 < tol /\ (forall t, OnPlane q m (ray_at p n t)) /\ rayPlaneIntersection p n q m tol = None).
Proof.
  split.
  - exists (0, 0, 0), (1, 0, 0), (0, 0, 5), (0, 0, 1), (1 # 100), (0, 0, 0). split; [lra|]. split; [vm_compute; auto|]. intros H. vm_compute in H. discriminate.
  - exists (1, 0, 0), (1, 0, 0), (3, 0, 0), (0, 0, 1), (1 # 100). split; [lra|]. split; [intros t; unfold OnPlane, inner, sub3, ray_at, X3, Y3, Z3; ring|vm_compute; auto].
Qed.
Print Assumptions ray_plane_parallel_refuted.
Example ray_plane_case : 0 < 1 # 100 /\ 1 # 100 <= Qabs (inner (0, 0, - 1) (0, 0, 1)) /\ OnRay (1, 2, 3) (0, 0, - 1) (1, 2, 1) /\ OnPlane (0, 0, 1) (0, 0, 1) (1, 2, 1).
Proof. split; [reflexivity|]. split; [vm_compute; discriminate|]. split; [exists 2; split; [lra|vm_compute; auto]|reflexivity]. Qed.

(* ---- rays and boxes ---- *)
Theorem ray_box_partial : forall p n lo hi tol, 0 < tol -> InBox lo hi p -> Clear p n lo hi tol X3 -> Clear p n lo hi tol Y3 -> Clear p n lo hi tol Z3 ->
  tol <= Qabs (X3 n) \/ tol <= Qabs (Y3 n) \/ tol <= Qabs (Z3 n) ->
  exists id r, rayBoxIntersection p n lo hi tol = Some (id, r) /\ OnRay p n r /\ OnSide lo hi id r.
Proof. intros. apply box_ok; auto. Qed.
Print Assumptions ray_box_partial.
(* from outside the answer need not be on the box; from inside, along an axis, neither *)
Theorem ray_box_refuted :
  (exists p n lo hi tol id r, 0 < tol /\ ~ InBox lo hi p /\ (exists t, 0 <= t /\ InBox lo hi (ray_at p n t)) /\ tol <= Qabs (X3 n) /\ tol <= Qabs (Y3 n) /\ tol <= Qabs (Z3 n) /\ rayBoxIntersection p n lo hi tol = Some (id, r) /\ ~ InBox lo hi r) /\
  (exists p n lo hi tol id r, 0 < tol /\ InBox lo hi p /\ tol <= Qabs (X3 n) /\ rayBoxIntersection p n lo hi tol = Some (id, r) /\ ~ OnSide lo hi id r).
Proof.
  split.
  - exists (-3, -2, 0), (1, 1, 1 # 10), (-1, -1, -1), (1, 1, 1), (1 # 100). eexists _, _. split; [lra|]. split; [intros (H & _); unfold Within, X3 in H; lra|]. split; [exists 2; split; [lra|vm_compute; repeat split; discriminate]|].
    split; [vm_compute; discriminate|]. split; [vm_compute; discriminate|]. split; [vm_compute; discriminate|].
    split; [vm_compute; reflexivity|]. intros ((H & _) & _). apply H. vm_compute. reflexivity.
  - exists (0, 0, 0), (1, 0, 0), (-1, -1, -1), (1, 1, 1), (1 # 100). eexists _, _. split; [lra|]. split; [unfold InBox, Within, X3, Y3, Z3; lra|]. split; [vm_compute; discriminate|]. split; [vm_compute; reflexivity|]. intros (_ & H). vm_compute in H. discriminate.
Qed.
Print Assumptions ray_box_refuted.
Example ray_box_case : InBox (0, 0, 0) (4, 4, 4) (1, 2, 3) /\ (forall c, c = X3 \/ c = Y3 \/ c = Z3 -> Clear (1, 2, 3) (1, 0, 0) (0, 0, 0) (4, 4, 4) (1 # 100) c) /\
  exists r, rayBoxIntersection (1, 2, 3) (1, 0, 0) (0, 0, 0) (4, 4, 4) (1 # 100) = Some (1%Z, r) /\ eq3 r (4, 2, 3).
Proof.
  split; [unfold InBox, Within, X3, Y3, Z3; lra|]. split; [|eexists; split; [vm_compute; reflexivity|vm_compute; auto]].
  intros c [-> |[-> | ->]]; [left; vm_compute; discriminate|right|right]; (split; [reflexivity|split; vm_compute; discriminate]).
Qed.

(* ---- C59: betweenness ---- *)
(* what is reported as between is near an end of the segment or near a point of it; and every point
   of a segment longer than the tolerance is reported *)
Theorem between_partial : forall a b c tol, length a = length b -> length a = length c -> 0 < tol ->
  (between a b c tol = true -> sq_dist a c <= tol * sq_dist a b \/ sq_dist b c <= tol * sq_dist a b \/ exists t, 0 < t /\ t <= 1 /\ sq_dist c (pos_at a b t) < tol) /\
  (forall t, tol < sq_dist a b -> 0 <= t -> t <= 1 -> samepos c (pos_at a b t) -> between a b c tol = true).
Proof.
  intros a b c tol L L' T. split.
  - intros H. apply between_sound; auto. lra.
  - intros t Lg T0 T1 S0. apply (between_complete a b c t tol); auto. clear - S0. revert S0. generalize (pos_at a b t). intros p H. induction H as [|x y l l' E F IH]; [reflexivity|]. rewrite sq_dist_cons, IH, E. ring.
Qed.
Print Assumptions between_partial.
(* the middle of a short segment is refused *)
Theorem between_short_refuted : exists a b c tol, length a = 2%nat /\ length b = 2%nat /\ length c = 2%nat /\ tol == 1 # 100000000 /\ samepos c (pos_at a b (1 # 2)) /\ 0 < sq_dist a b /\ between a b c tol = false.
Proof. exists [0; 0], [1 # 100000; 0], [1 # 200000; 0], (1 # 100000000). repeat (split; [reflexivity|]). split; [constructor; [reflexivity|constructor; [reflexivity|constructor]]|]. split; reflexivity. Qed.
Print Assumptions between_short_refuted.
Example between_case : samepos [1; 2; 3] (pos_at [0; 0; 0] [2; 4; 6] (1 # 2)) /\ between [0; 0; 0] [2; 4; 6] [1; 2; 3] (1 # 100000000) = true /\ between [0; 0; 0] [2; 4; 6] [1; 2; 4] (1 # 100000000) = false /\ between [0; 0; 0] [2; 4; 6] [3; 6; 9] (1 # 100000000) = false.
Proof. split; [repeat constructor|]. repeat split; reflexivity. Qed.

(* ---- C59: clouds ---- *)
(* in the plane: every point is compared with the first two *)
Theorem cloud_partial : forall (pts : list (list Q)) tol, 0 < tol -> tol <= 1 -> (forall p, In p pts -> length p = 2%nat) ->
  ((forall a b c, nth_error pts 0 = Some a -> nth_error pts 1 = Some b -> In c pts -> exists s, samepos c (pos_at a b s)) -> collinear_cloud 2 pts tol = Ok true) /\
  (forall a b c, nth_error pts 0 = Some a -> nth_error pts 1 = Some b -> In c pts -> tol <= sq_dist a b -> tol <= sq_dist a c ->
    dotl (zipsub b a) (zipsub c a) * dotl (zipsub b a) (zipsub c a) <= (1 - tol) * (1 - tol) * (sq_dist a b * sq_dist a c) -> collinear_cloud 2 pts tol = Ok false).
Proof.
  intros pts tol T T1 Len. split.
  - intros H. destruct pts as [|a [|b pts]]; [reflexivity|reflexivity|]. rewrite (cloud2 _ tol a b) by reflexivity. f_equal. apply forallb_forall. intros c I. cbn [skipn] in I.
    destruct (H a b c eq_refl eq_refl) as [s S0]; [right; right; auto|]. apply (collinear_line a b c s); auto.
    + rewrite !Len; cbn; auto.
    + rewrite !Len; cbn; auto.
    + clear - S0. revert S0. generalize (pos_at a b s). intros p K. induction K as [|x y l l' E F IH]; [reflexivity|]. rewrite sq_dist_cons, IH, E. ring.
  - intros a b c A B I D1 D2 D. rewrite (cloud2 _ tol a b) by auto. f_equal. destruct pts as [|a' [|b' pts]]; try discriminate. cbn in A, B. injection A as ->. injection B as ->. cbn [skipn].
    assert (I' : In c pts).
    { destruct I as [<-|[<-|I]]; auto; exfalso.
      - assert (sq_dist a a == 0). { unfold sq_dist. clear. induction a as [|x a IH]; [reflexivity|]. cbn [combine]. rewrite sumf_cons, IH. cbn [fst snd]. ring. } lra.
      - assert (L : length a = length b) by (rewrite !Len; cbn; auto). rewrite (sub_dist a b L) in D. set (w := sq_dist a b) in *. assert (0 < w * w) by (apply Qmult_lt_0_compat; lra). assert (0 < tol * (2 - tol)) by nra. assert (0 < tol * (2 - tol) * (w * w)) by (apply Qmult_lt_0_compat; auto). lra. }
    apply not_true_is_false. intros F. rewrite forallb_forall in F. specialize (F c I'). rewrite (collinear_bent a b c tol) in F; auto; [discriminate| |]; rewrite !Len; cbn; auto.
Qed.
Print Assumptions cloud_partial.
(* in space the third point is never looked at, and two points run past the array *)
Theorem cloud_space_refuted : (exists pts, (forall p, In p pts -> length p = 3%nat) /\ pts = [[0; 0; 0]; [1; 0; 0]; [0; 1; 0]] /\ collinear_cloud 3 pts (1 # 10000000000) = Ok true) /\
  (exists pts, (forall p, In p pts -> length p = 3%nat) /\ length pts = 2%nat /\ collinear_cloud 3 pts (1 # 10000000000) = UB).
Proof. split; [eexists; split; [|split; [reflexivity|reflexivity]]|exists [[0; 0; 0]; [1; 0; 0]]; split; [|split; reflexivity]]; intros p I; repeat (destruct I as [<-|I]; [reflexivity|]); destruct I. Qed.
Print Assumptions cloud_space_refuted.
Example cloud_case : collinear_cloud 2 [[0; 0]; [1; 1]; [2; 2]; [- (3); - (3)]] (1 # 10000000000) = Ok true /\ collinear_cloud 2 [[0; 0]; [1; 1]; [2; 2]; [3; 4]] (1 # 10000000000) = Ok false.
Proof. split; reflexivity. Qed.

(* ---- C60: crossings of a boundary ---- *)
Lemma pt_at_vertex vs z p : pt_at vs z p -> vertex2 vs z = Ok p.
Proof. intros (Z0 & A & B). unfold vertex2. destruct (Z.ltb_spec z 0); [lia|]. unfold get. rewrite A, B. cbn [bind]. destruct p; auto. Qed.
Lemma vertex_pt_at vs z p : vertex2 vs z = Ok p -> pt_at vs z p.
Proof.
  unfold vertex2. destruct (Z.ltb_spec z 0); [discriminate|]. destruct (get vs (2 * Z.to_nat z)) as [x| | |] eqn:A; try discriminate. cbn [bind]. destruct (get vs (2 * Z.to_nat z + 1)) as [y| | |] eqn:B; try discriminate. cbn [bind]. intros [= <-].
  apply (proj1 (get_ok _ _ _)) in A, B. split; auto.
Qed.
Lemma facets_total q1 q2 vs fs : EdgesStored vs fs -> forall st, (fst st <> 0%nat -> snd st <> []) -> exists st', mfold (intersect_facet q1 q2 vs) fs st = Ok st' /\ (fst st' <> 0%nat -> snd st' <> []).
Proof.
  induction fs as [|f fs IH]; intros E [k r] N; [exists (k, r); auto|]. cbn [mfold]. destruct (E f) as (i & j & a & b & -> & A & B); [left; auto|].
  assert (S0 : exists st', intersect_facet q1 q2 vs (k, r) [i; j] = Ok st' /\ (fst st' <> 0%nat -> snd st' <> [])).
  { cbn [intersect_facet]. rewrite (pt_at_vertex _ _ _ A), (pt_at_vertex _ _ _ B). cbn [bind]. destruct (segmentIntersection2D q1 q2 a b seg_tol) as [p|]; [|eauto]. destruct (Nat.eqb_spec k 0) as [->|Nk].
    - cbn [bind]. eexists. split; [reflexivity|]. cbn. intros _. destruct r; discriminate.
    - destruct (get_lt r (length r - 1)) as [l ->]; [specialize (N Nk); cbn in N; destruct r; [congruence|cbn; lia]|]. cbn [bind]. destruct (negb _ && negb _); eexists; (split; [reflexivity|]); cbn; auto. intros _. destruct r; discriminate. }
  destruct S0 as (st' & -> & N'). cbn [bind]. apply IH; auto. intros g I. apply E. right. auto.
Qed.
Theorem crossings_partial : forall q1 q2 vs g, EdgesStored vs (facets g ++ concat (holes g)) ->
  exists k r, intersect q1 q2 vs g [] = Ok (k, r) /\ k = length r /\
    (forall p, In p r -> exists a b, EdgeIn vs (facets g ++ concat (holes g)) a b /\ Touch seg_tol q1 q2 a b /\ MeetsAt seg_tol q1 q2 a b p) /\
    (k = 0%nat <-> forall a b, EdgeIn vs (facets g ++ concat (holes g)) a b -> ~ Touch seg_tol q1 q2 a b).
Proof.
  intros q1 q2 vs g E.
  assert (T : exists st, intersect q1 q2 vs g [] = Ok st).
  { unfold intersect, intersect_facets. destruct (facets_total q1 q2 vs (facets g)) with (st := (0%nat, @nil p2)) as (st & -> & _); [intros f I; apply E, in_or_app; auto|intros Z0; exfalso; apply Z0; reflexivity|]. cbn [bind].
    assert (Eh : EdgesStored vs (concat (holes g))) by (intros f I; apply E, in_or_app; auto). clear E. revert st. induction (holes g) as [|h hs IH]; intros [k r]; [eexists; reflexivity|]. cbn [mfold snd fst].
    destruct (facets_total q1 q2 vs h) with (st := (0%nat, r)) as ([k' r'] & -> & _); [intros f I; apply Eh; cbn; apply in_or_app; auto|intros Z0; exfalso; apply Z0; reflexivity|]. cbn [bind]. apply IH. intros f I. apply Eh. cbn. apply in_or_app. auto. }
  destruct T as [[k r] H]. exists k, r. split; auto. destruct (intersect_sound _ _ _ _ _ _ H) as (K & S1 & S2). fold (all_facets g). split; auto. split.
  - intros p I. destruct (S1 p I) as (f & If & i & j & a & b & -> & A & B & P). exists a, b. split; [exists i, j; split; auto; split; apply vertex_pt_at; auto|]. split; [apply segments_meet; eauto|apply segments_point; auto; discriminate].
  - rewrite S2. split.
    + intros N a b (i & j & I & A & B) To. apply segments_meet in To as [p P]. apply (N [i; j] p I). exists i, j, a, b. auto using pt_at_vertex.
    + intros N f p I (i & j & a & b & -> & A & B & P). apply (N a b); [exists i, j; auto using vertex_pt_at|]. apply segments_meet. eauto.
Qed.
Print Assumptions crossings_partial.
(* the number is not the number of points where the segment meets the boundary: a level segment
   through a square is reported to meet it once *)
Theorem crossings_count_refuted : exists q1 q2 vs g k r, EdgesStored vs (facets g ++ concat (holes g)) /\ intersect q1 q2 vs g [] = Ok (k, r) /\ k = 1%nat /\
  (exists a b c d, EdgeIn vs (facets g) a b /\ EdgeIn vs (facets g) c d /\ ProperCrossing q1 q2 a b /\ ProperCrossing q1 q2 c d /\ forall s u s' u', Meet q1 q2 a b s u -> Meet q1 q2 c d s' u' -> ~ eq2 (along q1 q2 s) (along q1 q2 s')).
Proof.
  exists (-1, 2), (5, 2), [0; 0; 4; 0; 4; 4; 0; 4], (mkPLC [[0; 1]; [1; 2]; [2; 3]; [3; 0]]%Z []), 1%nat. eexists. split; [|split; [vm_compute; reflexivity|split; [reflexivity|]]].
  - intros f I. cbn in I. assert (P : forall i p, In (i, p) [(0%Z, (0, 0)); (1%Z, (4, 0)); (2%Z, (4, 4)); (3%Z, (0, 4))] -> pt_at [0; 0; 4; 0; 4; 4; 0; 4] i p). { intros i p J. repeat (destruct J as [[= <- <-]|J]; [split; [lia|split; reflexivity]|]). destruct J. }
    repeat (destruct I as [<-|I]; [eexists _, _, _, _; split; [reflexivity|split; apply P; cbn; auto 10]|]). destruct I.
  - exists (4, 0), (4, 4), (0, 4), (0, 0). split; [exists 1%Z, 2%Z; split; [cbn; auto|split; (split; [lia|split; reflexivity])]|]. split; [exists 3%Z, 0%Z; split; [cbn; auto|split; (split; [lia|split; reflexivity])]|].
    split; [split; reflexivity|]. split; [split; reflexivity|]. unfold Meet, eq2, along. cbn [fst snd]. intros s u s' u' [A _] [B _] [C _]. lra.
Qed.
Print Assumptions crossings_count_refuted.
