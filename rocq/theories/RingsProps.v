(* C108: boundaries and cells as rings of points. *)
From Verif Require Import Base BaseFacts SerializeModel Plane PLCSpec MeshModel HullModel VoroModel PointModel PointProps RingsModel RingsSpec.
From Coq Require Import QArith Qabs Lqa.
Local Open Scope nat_scope.

Lemma point_at_ok {P} (pts : list P) z p : (0 <= z)%Z -> nth_error pts (Z.to_nat z) = Some p -> point_at pts z = Ok p.
Proof. intros Z H. unfold point_at. rewrite (proj2 (Z.ltb_ge z 0)) by auto. apply get_ok. auto. Qed.
Lemma append_fold pts fs es acc : Forall2 (@Facet point2 pts) fs es ->
  mfold (fun acc f => do _ <- assert (length f =? 2); do i <- get f 1; do p <- point_at pts i; Ok (acc ++ [p])) fs acc = Ok (acc ++ map snd es).
Proof.
  intros H. revert acc. induction H as [|f e fs es (i & j & -> & I & J & A & B) H IH]; intros acc; [cbn; rewrite app_nil_r; auto|].
  cbn [mfold length Nat.eqb assert bind get nth_error]. rewrite (point_at_ok _ _ _ J B). cbn [bind]. rewrite IH. cbn [map]. rewrite <- app_assoc. auto.
Qed.
Lemma ring_ends {A} (a : A) t : map snd (ring (a :: t)) = t ++ [a] /\ length (ring (a :: t)) = length (a :: t).
Proof.
  cbn [ring]. assert (G : forall (l m : list A), length l = length m -> map snd (combine l m) = m /\ length (combine l m) = length l).
  { induction l as [|x l IH]; intros [|y m] H; try discriminate; auto. cbn in *. destruct (IH m) as [E F]; [lia|]. rewrite E, F. auto. }
  apply (G (a :: t) (t ++ [a])). rewrite app_length. cbn. lia.
Qed.
Lemma eq_refl_p a : p2_eq a a = true.
Proof. unfold p2_eq. rewrite !Z.eqb_refl. auto. Qed.
Lemma shut_looped ps : ps <> [] -> shut (looped ps) = Ok true.
Proof. destruct ps as [|a t]; [congruence|]. intros _. unfold looped. cbn [firstn app shut]. rewrite last_last, eq_refl_p. auto. Qed.
Lemma append_round pts fs ps : GoesRound pts fs ps -> append_ring pts fs = Ok (looped ps).
Proof.
  intros [L F]. destruct ps as [|a t]; [cbn in L; lia|]. destruct (ring_ends a t) as [E1 E2]. pose proof (Forall2_len _ _ _ F) as Len. rewrite E2 in Len.
  unfold append_ring. pose proof (append_fold pts fs _ [a] F) as FO. rewrite E1 in FO.
  assert (H0 : exists i j fs', fs = [i; j] :: fs' /\ point_at pts i = Ok a). { inversion F as [|f e fs' es (i & j & -> & I & J & A & B) F2 Ef Ee]; [destruct t; discriminate|]. subst. exists i, j, fs'. split; auto. apply point_at_ok; auto. assert (fst e = a) by (clear -Ee; destruct t; cbn in Ee; injection Ee; intros; subst; auto). congruence. }
  destruct H0 as (i & j & fs' & Ef & H0). assert (G0 : get fs 0 = Ok [i; j]) by (rewrite Ef; auto). rewrite G0. cbn [bind]. change (get [i; j] 0) with (Ok i). cbn [bind]. rewrite H0. cbn [bind]. rewrite FO. cbn [bind].
  change ([a] ++ t ++ [a]) with (looped (a :: t)). assert (LL : length (looped (a :: t)) = length fs + 1) by (rewrite Len; unfold looped; rewrite app_length; reflexivity). rewrite LL, Nat.eqb_refl. cbn [assert bind]. rewrite shut_looped by discriminate. reflexivity.
Qed.

(* C108. A boundary whose facets go round one after the other gives the closed ring of its points,
   in their order, and each of its holes too. *)
Theorem boundary_rings_partial : forall pts g ps hs, GoesRound pts (facets g) ps -> Forall2 (GoesRound pts) (holes g) hs ->
  constructBoostBoundary pts g = Ok (looped ps, map looped hs).
Proof.
  intros pts g ps hs H K. unfold constructBoostBoundary. rewrite (append_round _ _ _ H). cbn [bind].
  assert (E : mmap (append_ring pts) (holes g) = Ok (map looped hs)). { induction K as [|h p hl ps' A K IH]; [auto|]. cbn [mmap]. rewrite (append_round _ _ _ A). cbn [bind]. rewrite IH. auto. }
  rewrite E. cbn [bind]. rewrite map_length, (Forall2_len _ _ _ K), Nat.eqb_refl. reflexivity.
Qed.
Print Assumptions boundary_rings_partial.
Lemma last_any {A} (x : A) l d d' : last (x :: l) d = last (x :: l) d'.
Proof. revert x. induction l as [|y l IH]; intros x; auto. change (last (y :: l) d = last (y :: l) d'). apply IH. Qed.
(* A boundary whose last facet does not end where the first one starts stops the program. *)
Theorem boundary_open_stops : forall pts g e es, Forall2 (Facet pts) (facets g) (e :: es) ->
  p2_eq (fst e) (snd (last es e)) = false -> constructBoostBoundary pts g = Abort.
Proof.
  intros pts g e es F N. unfold constructBoostBoundary, append_ring. destruct (facets g) as [|f fs] eqn:EG; [inversion F|].
  assert (H0 : exists i j, f = [i; j] /\ point_at pts i = Ok (fst e)) by (inversion F as [|? ? ? ? (i & j & Ef & I & J & A & B) F2]; subst; exists i, j; split; auto; apply point_at_ok; auto).
  destruct H0 as (i & j & Ef & H0). change (get (f :: fs) 0) with (Ok f). cbn [bind]. rewrite Ef at 1. change (get [i; j] 0) with (Ok i). cbn [bind]. rewrite H0. cbn [bind].
  rewrite (append_fold pts _ _ [fst e] F). cbn [bind]. assert (L : length ([fst e] ++ map snd (e :: es)) = length (f :: fs) + 1) by (rewrite app_length, map_length, (Forall2_len _ _ _ F); cbn [length]; lia).
  rewrite L, Nat.eqb_refl. cbn [assert bind app map shut]. assert (E : last (snd e :: map snd es) (fst e) = snd (last es e)).
  { clear. revert e. induction es as [|x es IH]; intros e; [auto|]. cbn [map]. specialize (IH x). change (last (snd e :: snd x :: map snd es) (fst e)) with (last (snd x :: map snd es) (fst e)). rewrite <- (last_any (snd x) (map snd es) (fst x) (fst e)), IH. destruct es as [|y es]; auto. change (last (x :: y :: es) e) with (last (y :: es) e). rewrite (last_any y es x e). auto. }
  rewrite E, N. reflexivity.
Qed.
Print Assumptions boundary_open_stops.
(* The facets of a square in another order: the ring goes over points in a wrong order, and the
   facets are not its sides. *)
Theorem boundary_order_refuted : exists pts g r, pts = [mkP2 0 0 0; mkP2 2 0 0; mkP2 2 2 0; mkP2 0 2 0] /\
  facets g = [[0; 1]; [2; 3]; [1; 2]; [3; 0]]%Z /\ holes g = [] /\ constructBoostBoundary pts g = Ok (r, []) /\
  exists a b, In (a, b) (combine r (tl r)) /\ a = mkP2 2 0 0 /\ b = mkP2 0 2 0.
Proof.
  eexists _, (mkPLC [[0; 1]; [2; 3]; [1; 2]; [3; 0]]%Z []), _. split; [reflexivity|]. split; [reflexivity|]. split; [reflexivity|]. split; [vm_compute; reflexivity|]. eexists _, _. split; [right; left; reflexivity|]. split; reflexivity.
Qed.
Print Assumptions boundary_order_refuted.

Lemma trunc_in q : (0 <= q)%Q -> (q < inject_Z (2 ^ 31))%Q -> (- 2 ^ 31 <= trunc q < 2 ^ 31)%Z.
Proof.
  intros H K. destruct (trunc_near q H) as [A B]. split.
  - assert (C : (inject_Z (-1) < inject_Z (trunc q))%Q) by (change (inject_Z (-1)) with (-1)%Q; lra). apply Zlt_Qlt in C || (rewrite <- Zlt_Qlt in C). lia.
  - assert (C : (inject_Z (trunc q) < inject_Z (2 ^ 31))%Q) by lra. rewrite <- Zlt_Qlt in C. lia.
Qed.
Lemma grid_in low dx q : (0 < dx)%Q -> InGrid low dx q -> exists p, grid2 (fst q) (snd q) (fst low) (snd low) dx 0 = Ok p /\ Placed low dx q p.
Proof.
  intros D (A & B & C & E). assert (G : forall x lo, (lo <= x)%Q -> ((x - lo) / dx < inject_Z (2 ^ 31 - 1))%Q -> as_int ((x - lo) / dx + (1 # 2))%Q = Ok (trunc ((x - lo) / dx + (1 # 2))%Q)).
  { intros x lo L U. assert (P : (0 <= (x - lo) / dx)%Q) by (apply Qle_shift_div_l; auto; lra). apply as_int_in, trunc_in; [lra|]. change (inject_Z (2 ^ 31 - 1)) with (2147483647 # 1)%Q in U. change (inject_Z (2 ^ 31)) with (2147483648 # 1)%Q. lra. }
  eexists. split.
  - unfold grid2. assert (NZ : Qeq_bool dx 0 = false) by (apply not_true_iff_false; intros K; apply Qeq_bool_eq in K; lra). rewrite NZ, (G _ _ A C), (G _ _ B E). cbn [bind]. reflexivity.
  - split; cbn [px py]; apply back; auto.
Qed.
Lemma ring_shut gs r : 3 <= length gs -> RingOf gs r -> shut r = Ok true.
Proof.
  intros L (c & C & T). assert (E : exists a t b, c = a :: t ++ [b] /\ p2_eq a b = true).
  { destruct C as [E | [E C]]; subst c; [|exact C]. destruct gs as [|a t]; [cbn in L; lia|]. exists a, t, a. split; [reflexivity|apply eq_refl_p]. }
  destruct E as (a & t & b & -> & E). destruct T as [E2 | E2]; rewrite E2; cbn [shut].
  - rewrite last_last. rewrite E. auto.
  - change (a :: t ++ [b]) with ((a :: t) ++ [b]). rewrite rev_unit. cbn [rev shut]. rewrite last_last. f_equal. unfold p2_eq in *. rewrite (Z.eqb_sym (px b)), (Z.eqb_sym (py b)). auto.
Qed.
(* Each cell of a planar mesh gives the ring of the places of its nodes on the grid, in the order and
   direction of its faces, closed and possibly turned round, each place within half a spacing of its
   node; provided that no such ring meets itself. *)
Theorem cell_rings_partial : forall lib m low dx, CorrectsRings (ring_correct lib) -> (0 < dx)%Q -> cells m <> [] -> length (faceCells m) = length (faces m) ->
  (forall c, In c (cells m) -> 3 <= length c /\ forall z, In z c -> exists q, StartsAt m z q /\ InGrid low dx q) ->
  (forall c qs gs, In c (cells m) -> Forall2 (StartsAt m) c qs -> Forall2 (Placed low dx) qs gs -> ring_crosses lib (ring_correct lib gs) = false) ->
  exists rs, convertTessellationToRings lib m low dx = Ok rs /\
    Forall2 (fun c r => exists qs gs, Forall2 (StartsAt m) c qs /\ Forall2 (Placed low dx) qs gs /\ RingOf gs r) (cells m) rs.
Proof.
  intros lib m low dx CR D NE FC W SI.
  assert (N : forall z q, StartsAt m z q -> InGrid low dx q -> exists p, ring_node m low dx z = Ok p /\ Placed low dx q p).
  { intros z q (a & b & F & X & Y) G. destruct (grid_in low dx q D G) as (p & E & P). exists p. split; auto. unfold ring_node. rewrite FC, (proj2 (Nat.ltb_lt _ _) (nth_error_lt _ _ _ F)). cbn [assert bind]. rewrite (proj2 (get_ok _ _ _) F). cbn [bind length Nat.eqb assert].
    destruct (z <? 0)%Z; cbn [get nth_error bind] in *; rewrite (proj2 (get_ok _ _ _) X); cbn [bind]; rewrite (proj2 (get_ok _ _ _) Y); cbn [bind]; auto. }
  assert (C : forall c, In c (cells m) -> exists r, cell_ring lib m low dx c = Ok r /\ exists qs gs, Forall2 (StartsAt m) c qs /\ Forall2 (Placed low dx) qs gs /\ RingOf gs r).
  { intros c Hc. destruct (W c Hc) as [L3 H].
    assert (M : exists qs gs, mmap (ring_node m low dx) c = Ok gs /\ Forall2 (StartsAt m) c qs /\ Forall2 (Placed low dx) qs gs).
    { clear L3 Hc. induction c as [|z c IH]; [exists [], []; repeat constructor|]. destruct (H z (or_introl eq_refl)) as (q & S & G). destruct (N z q S G) as (p & E & P). destruct IH as (qs & gs & E' & F1 & F2); [intros; apply H; right; auto|].
      exists (q :: qs), (p :: gs). split; [cbn [mmap]; rewrite E; cbn [bind]; rewrite E'; auto|]. split; constructor; auto. }
    destruct M as (qs & gs & E & F1 & F2). assert (L : 3 <= length gs) by (rewrite <- (Forall2_len _ _ _ F2), <- (Forall2_len _ _ _ F1); auto).
    pose proof (CR gs L) as R. exists (ring_correct lib gs). split; [|exists qs, gs; auto]. unfold cell_ring. rewrite E. cbn [bind]. rewrite (ring_shut gs _ L R). cbn [bind assert]. rewrite (SI c qs gs Hc F1 F2). reflexivity. }
  destruct (mmap_forall2 (cell_ring lib m low dx) (fun c r => exists qs gs, Forall2 (StartsAt m) c qs /\ Forall2 (Placed low dx) qs gs /\ RingOf gs r) (cells m)) as (rs & E & F); auto.
  exists rs. split; auto. unfold convertTessellationToRings.
  destruct (cells m) as [|c0 cs] eqn:EC; [congruence|]. destruct (W c0 (or_introl eq_refl)) as [L3 H]. destruct c0 as [|z c0]; [cbn in L3; lia|]. destruct (H z (or_introl eq_refl)) as (q & (a & b & F0 & X & Y) & _).
  destruct (faces m) eqn:EF; [destruct (pid z); discriminate|]. destruct (nodes m) eqn:EN; [destruct (2 * (if (z <? 0)%Z then b else a)); discriminate|]. cbn [isnil negb assert bind].
  assert (NZ : Qeq_bool dx 0 = false) by (apply not_true_iff_false; intros K; apply Qeq_bool_eq in K; lra). rewrite NZ. cbn [negb assert bind]. rewrite E. cbn [bind]. rewrite (Forall2_len _ _ _ F), Nat.eqb_refl. reflexivity.
Qed.
Print Assumptions cell_rings_partial.

(* Concrete cases: a triangular boundary with a triangular hole; a mesh of one triangle whose second
   face is walked backwards; and the same mesh with a node below the corner of the grid, which gets a
   place more than half a spacing away. *)
Example holed : constructBoostBoundary [mkP2 0 0 0; mkP2 9 0 0; mkP2 0 9 0; mkP2 1 1 0; mkP2 2 1 0; mkP2 1 2 0]
    (mkPLC [[0; 1]; [1; 2]; [2; 0]]%Z [[[3; 5]; [5; 4]; [4; 3]]%Z]) =
  Ok ([mkP2 0 0 0; mkP2 9 0 0; mkP2 0 9 0; mkP2 0 0 0], [[mkP2 1 1 0; mkP2 1 2 0; mkP2 2 1 0; mkP2 1 1 0]]).
Proof.
  apply (boundary_rings_partial _ _ [mkP2 0 0 0; mkP2 9 0 0; mkP2 0 9 0] [[mkP2 1 1 0; mkP2 1 2 0; mkP2 2 1 0]]).
  - split; [cbn; lia|]. repeat constructor; eexists _, _; repeat split; lia.
  - repeat constructor; eexists _, _; repeat split; lia.
Qed.
Example open_boundary : constructBoostBoundary [mkP2 0 0 0; mkP2 9 0 0; mkP2 0 9 0] (mkPLC [[0; 1]; [1; 2]]%Z []) = Abort.
Proof.
  apply (boundary_open_stops _ _ (mkP2 0 0 0, mkP2 9 0 0) [(mkP2 9 0 0, mkP2 0 9 0)]); auto.
  repeat constructor; eexists _, _; repeat split; lia.
Qed.
Definition one_triangle : mesh Q := mkMesh [1; 1; 3; 1; 1; 3]%Q [[0; (-2); 2]]%Z [[0; 1]; [2; 1]; [2; 0]] [] [] [[0]; [-1]; [0]]%Z (mkPLC [] []) [] [] [].
Definition plain_library : ring_library := mkRingLib looped (fun _ => false).
Lemma plain_corrects : CorrectsRings (ring_correct plain_library).
Proof. intros gs _. exists (looped gs). auto. Qed.
Example triangle_ring : exists rs, convertTessellationToRings plain_library one_triangle (0, 0)%Q (1 # 2) = Ok rs /\ rs = [[mkP2 2 2 0; mkP2 6 2 0; mkP2 2 6 0; mkP2 2 2 0]] /\
  Forall2 (fun c r => exists qs gs, Forall2 (StartsAt one_triangle) c qs /\ Forall2 (Placed (0, 0)%Q (1 # 2)) qs gs /\ RingOf gs r) (cells one_triangle) rs.
Proof.
  destruct (cell_rings_partial plain_library one_triangle (0, 0)%Q (1 # 2)) as (rs & E & F); auto using plain_corrects; try reflexivity; try discriminate.
  - intros c [H|[]]. subst c. split; [cbn; lia|]. intros z [H|[H|[H|[]]]]; subst z; cbn.
    + exists (1, 1)%Q. split; [eexists _, _; repeat split|repeat split; vm_compute; congruence].
    + exists (3, 1)%Q. split; [eexists _, _; repeat split|repeat split; vm_compute; congruence].
    + exists (1, 3)%Q. split; [eexists _, _; repeat split|repeat split; vm_compute; congruence].
  - exists rs. split; auto. split; auto. vm_compute in E. congruence.
Qed.
Theorem cell_below_refuted : exists m low p, (exists q, StartsAt m 0 q /\ fst low - fst q == 9 # 10 /\ ~ Placed low 1 q p)%Q /\
  exists t, convertTessellationToRings plain_library m low 1 = Ok [p :: t].
Proof.
  exists one_triangle, (19 # 10, 0)%Q, (mkP2 0 1 0). split.
  - exists (1, 1)%Q. split; [eexists _, _; repeat split|]. split; [reflexivity|]. intros [A _]. vm_compute in A. congruence.
  - eexists. vm_compute. reflexivity.
Qed.
Print Assumptions cell_below_refuted.
