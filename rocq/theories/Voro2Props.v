(* C102: the planar mesh made with Voro++. *)
From Verif Require Import Base BaseFacts PLCSpec MeshModel MeshSpec SerializeModel Plane MeshEditorModel WithinProofs HullModel HullSpec HullProofs3 VoroModel VoroSpec VoroProofs VoroProofs2 VoroProofs3 VoroProofs4 Voro2Model Voro2Spec Voro2Proofs Voro2Proofs2 Voro2Proofs3.
From Verif Require VoroProps.
From Coq Require Import Lia QArith Qround Qabs Lqa.
Local Open Scope nat_scope.

Definition none : mesh Q := mkMesh [] [] [] [] [] [] (mkPLC [] []) [] [] [].
(* the points, relative to the low corner of the box and in units of its largest side *)
Definition scaled2 (s : Q) (lo p : p2) : p2 := ((fst p - fst lo) / s, (snd p - snd lo) / s)%Q.
Definition inside2 (lo hi p : p2) : Prop := (fst lo <= fst p <= fst hi /\ snd lo <= snd p <= snd hi)%Q.
Definition longest2 (lo hi : p2) (s : Q) : Prop :=
  (fst hi - fst lo <= s /\ snd hi - snd lo <= s)%Q /\ (s = fst hi - fst lo \/ s = snd hi - snd lo)%Q.
Definition flat2 (ps : list p2) : list Q := flat_map (fun p => [fst p; snd p]) ps.
Definition largest2 (lo hi : p2) : Q := qmax2 (fst hi - fst lo) (snd hi - snd lo).

Lemma pairs_flat ps : pairs2 (flat2 ps) = ps.
Proof. induction ps as [|[x y] t IH]; [reflexivity|]. change (flat2 ((x, y) :: t)) with (x :: y :: flat2 t). cbn [pairs2]. rewrite IH. reflexivity. Qed.
Lemma flat2_len ps : length (flat2 ps) = 2 * length ps.
Proof. apply flat_len2. reflexivity. Qed.
Lemma longest2_is lo hi s : longest2 lo hi s -> (largest2 lo hi == s)%Q.
Proof.
  intros [[A B] E]. destruct (VoroProps.qmax2_is (fst hi - fst lo) (snd hi - snd lo)) as [[P1 P2] P3]. fold (largest2 lo hi) in P1, P2, P3.
  apply Qle_antisym; [destruct P3 as [-> | ->]; assumption|]. destruct E as [E | E]; rewrite E; assumption.
Qed.

Lemma tess2_is lib fill dx ps lo hi : (fst lo < fst hi)%Q -> (snd lo < snd hi)%Q -> Forall (inside2 lo hi) ps ->
  let s := largest2 lo hi in let gens := map (scaled2 s lo) ps in v2_total lib gens = length ps ->
  tessellate2 lib fill dx (flat2 ps) lo hi none =
  (do st <- mfold (read_vcell2 fill dx) (v2_cells lib gens) ([], mkV (repeat [] (length ps)) [] []);
   let '(ns, m) := st in
   Ok (mkMesh (flat_map (fun p => let '(x, y, _) := p in [inject_Z x * (dx * s) + fst lo; inject_Z y * (dx * s) + snd lo]%Q) ns)
       (v_cells m) (v_faces m) [] [] (v_fcells m) (mkPLC [] []) [] [] [])).
Proof.
  intros HX HY IN s gens TOT. unfold tessellate2. rewrite pairs_flat, flat2_len. fold (largest2 lo hi). fold s.
  destruct (VoroProps.qmax2_is (fst hi - fst lo) (snd hi - snd lo)) as [[P1 P2] _]. fold (largest2 lo hi) in P1, P2. fold s in P1, P2.
  assert (S0 : (0 < s)%Q) by lra.
  assert (LT : forall a b, (a < b)%Q -> Qlt_bool a b = true) by (intros a b H; destruct (qltb_spec a b); auto).
  cbv zeta. rewrite (Nat.mul_comm 2), Nat.mod_mul by lia. cbn [Nat.eqb assert bind].
  assert (B1 : forallb (in_box2 lo hi) ps = true).
  { apply forallb_forall. intros p P. rewrite Forall_forall in IN. destruct (IN p P) as ([A B] & [C D]). unfold in_box2.
    rewrite !(proj2 (Qle_bool_iff _ _)) by assumption. reflexivity. }
  rewrite B1. cbn [assert bind nodes cells faces faceCells none isnil andb].
  rewrite !LT by assumption. cbn [andb assert bind].
  change (map (fun p => ((fst p - fst lo) / s, (snd p - snd lo) / s)%Q) ps) with gens.
  assert (B2 : forallb (in_box2 (0, 0)%Q (1, 1)%Q) gens = true).
  { apply forallb_forall. intros q Q. apply in_map_iff in Q as (p & <- & P). rewrite Forall_forall in IN. destruct (IN p P) as (A & B).
    pose proof (VoroProps.unit_in _ _ _ s S0 A ltac:(lra)) as UX. pose proof (VoroProps.unit_in _ _ _ s S0 B ltac:(lra)) as UY.
    apply andb_true_iff in UX, UY. destruct UX as [X1 X2], UY as [Y1 Y2]. unfold in_box2, scaled2. cbn [fst snd]. rewrite X1, X2, Y1, Y2. reflexivity. }
  rewrite B2. cbn [assert bind]. rewrite TOT. unfold gens at 1. rewrite map_length, Nat.eqb_refl. cbn [assert bind]. reflexivity.
Qed.

(* The mesh is the read-out of the cells of the library: well formed, every cell the convex polygon of
   its vertices, walked counterclockwise, every edge shared by the two cells that have it. *)
Theorem voro2_readout_partial : forall (lib : voro2) fill dx ps lo hi s,
  (forall hs, set_fill hs [] (fill hs)) ->
  (fst lo < fst hi)%Q -> (snd lo < snd hi)%Q -> longest2 lo hi s -> Forall (inside2 lo hi) ps ->
  let gens := map (scaled2 (largest2 lo hi) lo) ps in
  v2_total lib gens = length ps -> Readable2 dx (length ps) (v2_cells lib gens) ->
  exists m, tessellate2 lib fill dx (flat2 ps) lo hi none = Ok m /\ ReadOut2 dx s lo (length ps) (v2_cells lib gens) m.
Proof.
  intros lib fill dx ps lo hi s FILL HX HY LG IN gens TOT RD.
  rewrite (tess2_is lib fill dx ps lo hi HX HY IN TOT). fold gens.
  destruct (cells2_ok fill dx (length ps) (v2_cells lib gens) RD FILL) as (hs & ns & m & done & E & EH & HF & KN & L). rewrite E. cbn [bind]. eexists. split; [reflexivity|].
  apply (readout2 dx s lo (length ps) (v2_cells lib gens) hs ns m done); try assumption.
  pose proof (longest2_is lo hi s LG) as ES. intros x y z. eexists _, _. split; [reflexivity|]. rewrite ES. split; ring.
Qed.
Print Assumptions voro2_readout_partial.

Definition close2 (e : Q) (a b : p2) : Prop := (Qabs (fst a - fst b) <= e /\ Qabs (snd a - snd b) <= e)%Q.
Definition to_box2 (s : Q) (lo p : p2) : p2 := (fst lo + s * fst p, snd lo + s * snd p)%Q.
Definition node2 (m : mesh Q) (i : nat) (p : p2) : Prop := firstn 2 (skipn (2 * i) (nodes m)) = [fst p; snd p].
(* not cut off at the largest integer *)
Definition unclamped (dx v : Q) : Prop := (0 <= v / dx + (1 # 2) /\ v / dx + (1 # 2) < inject_Z (2 ^ 31 - 1))%Q.
Definition zero2 (p : p2) : Prop := (fst p == 0 /\ snd p == 0)%Q.
Lemma snap1_in dx v : unclamped dx v -> snap1 dx v = Qfloor (v / dx + (1 # 2)).
Proof.
  intros [A B]. unfold snap1. assert (L : (0 <= Qfloor (v / dx + (1 # 2)))%Z) by (change 0%Z with (Qfloor 0); apply Qfloor_resp_le; exact A).
  assert (U : (Qfloor (v / dx + (1 # 2)) < 2 ^ 31 - 1)%Z).
  { rewrite Zlt_Qlt. apply Qle_lt_trans with (v / dx + (1 # 2))%Q; [apply Qfloor_le | exact B]. }
  lia.
Qed.
Lemma nodes2_at (f : Z * Z -> p2) ns i : i < length ns -> exists z, nth_error ns i = Some z /\ firstn 2 (skipn (2 * i) (flat_map (fun q => [fst (f q); snd (f q)]) ns)) = [fst (f z); snd (f z)].
Proof.
  revert i. induction ns as [|q t IH]; intros [|i] H; cbn [length] in H; try lia.
  - exists q. split; reflexivity.
  - replace (2 * S i) with (S (S (2 * i))) by lia. cbn [flat_map app skipn]. apply IH. lia.
Qed.

(* Every node is within half a step of where the program puts a vertex of a cell, which is where it is
   when the generator is the centroid of its cell. *)
Theorem voro2_place_partial : forall (lib : voro2) fill dx ps lo hi s,
  (forall hs, set_fill hs [] (fill hs)) ->
  (fst lo < fst hi)%Q -> (snd lo < snd hi)%Q -> longest2 lo hi s -> Forall (inside2 lo hi) ps ->
  let gens := map (scaled2 (largest2 lo hi) lo) ps in
  v2_total lib gens = length ps -> Readable2 dx (length ps) (v2_cells lib gens) ->
  (forall c q, In c (v2_cells lib gens) -> In q (c2_pts c) -> unclamped dx (fst (placed2 c q)) /\ unclamped dx (snd (placed2 c q))) ->
  exists m, tessellate2 lib fill dx (flat2 ps) lo hi none = Ok m /\
    forall i, 2 * i < length (nodes m) -> exists p c q, node2 m i p /\ In c (v2_cells lib gens) /\ In q (c2_pts c) /\
      close2 (dx * s * (1 # 2)) p (to_box2 s lo (placed2 c q)) /\ (zero2 (c2_centroid c) -> close2 (dx * s * (1 # 2)) p (to_box2 s lo (truly2 c q))).
Proof.
  intros lib fill dx ps lo hi s FILL HX HY LG IN gens TOT RD UN.
  destruct (voro2_readout_partial lib fill dx ps lo hi s FILL HX HY LG IN TOT RD) as (m & E & RO). exists m. split; [exact E|]. intros i LI. fold gens in RO.
  destruct (o2_body _ _ _ _ _ _ RO) as (ns & _ & NO & _ & _ & FROM).
  set (f := fun z : Z * Z => (fst lo + inject_Z (fst z) * dx * s, snd lo + inject_Z (snd z) * dx * s)%Q : p2).
  assert (NF : Forall2 Qeq (nodes m) (flat_map (fun q => [fst (f q); snd (f q)]) ns)) by exact NO.
  assert (LN : i < length ns). { rewrite (Forall2_len _ _ _ NF), flat_len2 in LI by reflexivity. lia. }
  destruct (nodes2_at f ns i LN) as (z & NZ & FZ).
  pose proof (VoroProps.forall2_firstn _ _ _ (VoroProps.forall2_skipn _ _ _ NF (2 * i)) 2) as F2. rewrite FZ in F2.
  destruct (firstn 2 (skipn (2 * i) (nodes m))) as [|x [|y [|w r]]] eqn:EQ; try (exfalso; inversion F2 as [|? ? ? ? ? G1]; subst; inversion G1 as [|? ? ? ? ? G2]; subst; inversion G2; fail); try (inversion F2; fail).
  inversion F2 as [|? ? ? ? EX G1]; subst. inversion G1 as [|? ? ? ? EY _]; subst. clear F2 G1.
  destruct (FROM z (nth_error_In _ _ NZ)) as (c & a & b & IC & (IA & IB & _) & ZZ).
  assert (IZ : In z (spots2 dx c)) by (destruct ZZ as [-> | ->]; assumption). unfold spots2 in IZ. apply in_map_iff in IZ as (q & EZ & IQ).
  destruct (UN c q IC IQ) as [U1 U2]. rewrite !snap1_in in EZ by assumption.
  assert (S0 : (0 <= s)%Q) by (destruct LG as [[A _] _]; lra). pose proof (r2_dx _ _ _ RD) as D0.
  assert (C1 : close2 (dx * s * (1 # 2)) (x, y) (to_box2 s lo (placed2 c q))).
  { pose proof (VoroProps.snap_close dx s (fst (placed2 c q)) D0 S0) as KX. pose proof (VoroProps.snap_close dx s (snd (placed2 c q)) D0 S0) as KY.
    rewrite <- EZ in EX, EY. unfold f in EX, EY. cbn [fst snd] in EX, EY. unfold close2, to_box2. cbn [fst snd].
    split; [eapply Qle_trans; [|exact KX] | eapply Qle_trans; [|exact KY]]; apply Qle_lteq; right; apply Qabs_wd; [rewrite EX | rewrite EY]; ring. }
  exists (x, y), c, q. split; [exact EQ|]. split; [exact IC|]. split; [exact IQ|]. split; [exact C1|]. intros (CX & CY).
  destruct C1 as (K1 & K2). unfold close2, to_box2, placed2, truly2 in *. cbn [fst snd] in *. rewrite CX in K1. rewrite CY in K2.
  split; [eapply Qle_trans; [|exact K1] | eapply Qle_trans; [|exact K2]]; apply Qle_lteq; right; apply Qabs_wd; ring.
Qed.
Print Assumptions voro2_place_partial.

(* ---- what is not so ---- *)
Lemma cell_read lib fill dx points lo hi mesh0 m c : tessellate2 lib fill dx points lo hi mesh0 = Ok m ->
  In c (v2_cells lib (map (scaled2 (largest2 lo hi) lo) (pairs2 points))) -> exists s1 s2, read_vcell2 fill dx s1 c = Ok s2.
Proof.
  intros H IC. unfold tessellate2 in H. cbv zeta in H.
  do 6 (apply bind_ok in H as (? & _ & H)). apply bind_ok in H as (st & H & _).
  apply (VoroProps.mfold_each_ok _ _ _ _ H c IC).
Qed.
Lemma zs_is dx c :
  map (fun q => (clamp dx (fst (c2_centroid c) + fst (c2_pos c) + (1 # 2) * fst q)%Q, clamp dx (snd (c2_centroid c) + snd (c2_pos c) + (1 # 2) * snd q)%Q)) (c2_pts c) = spots2 dx c.
Proof. unfold spots2. apply map_ext. intros q. rewrite !clamp_snap. f_equal; apply snap1_eq; unfold placed2; cbn [fst snd]; ring. Qed.

(* A single cell whose first vertex sees no two others at a right angle, and no mesh is made: with a
   tolerance of one step the hull takes anything else for a line. *)
Theorem voro2_angle_refuted : forall (lib : voro2) fill dx points lo hi mesh0 m,
  (exists c, In c (v2_cells lib (map (scaled2 (largest2 lo hi) lo) (pairs2 points))) /\ NoRight (spots2 dx c)) ->
  tessellate2 lib fill dx points lo hi mesh0 <> Ok m.
Proof.
  intros lib fill dx points lo hi mesh0 m (c & IC & NR) H. destruct (cell_read _ _ _ _ _ _ _ _ c H IC) as ([ns v] & s2 & R). unfold read_vcell2 in R. cbv zeta in R. rewrite zs_is in R.
  apply bind_ok in R as (? & A & R). apply assert_ok, Nat.leb_le in A. apply bind_ok in R as (fs & F & R).
  destruct (flat_hull fill (spots2 dx c) fs) as (a & b & ->); [unfold spots2; rewrite map_length; exact A | exact NR | exact F|].
  apply bind_ok in R as (? & _ & R). apply bind_ok in R as (hv & HV & R). apply mmap_inv in HV. pose proof (Forall2_len _ _ _ HV) as LH. cbn [length] in LH. rewrite <- LH in R.
  apply bind_ok in R as ([ns' ids] & _ & R). cbn [seq mfold] in R. apply bind_ok in R as (m' & M & _). apply bind_ok in M as (m'' & M & _).
  apply bind_ok in M as (i & I & M). apply bind_ok in M as (j & J & M). change ((0 + 1) mod 1) with 0 in J. rewrite I in J. injection J as <-.
  apply bind_ok in M as (? & _ & M). apply bind_ok in M as (? & _ & M). apply bind_ok in M as (? & X & _). rewrite Nat.eqb_refl in X. discriminate X.
Qed.
Print Assumptions voro2_angle_refuted.

(* A cell whose first two vertices are 46341 steps apart or more, and the square of their distance leaves
   the integers: no mesh is made. *)
Theorem voro2_overflow_refuted : forall (lib : voro2) fill dx points lo hi mesh0 m,
  (exists c a b, In c (v2_cells lib (map (scaled2 (largest2 lo hi) lo) (pairs2 points))) /\
     nth_error (spots2 dx c) 0 = Some a /\ nth_error (spots2 dx c) 1 = Some b /\ (2 ^ 31 <= dotz a b b)%Z) ->
  tessellate2 lib fill dx points lo hi mesh0 <> Ok m.
Proof.
  intros lib fill dx points lo hi mesh0 m (c & a & b & IC & A & B & D) H. destruct (cell_read _ _ _ _ _ _ _ _ c H IC) as ([ns v] & s2 & R). unfold read_vcell2 in R. cbv zeta in R. rewrite zs_is in R.
  apply bind_ok in R as (? & L & R). apply assert_ok, Nat.leb_le in L. apply bind_ok in R as (fs & F & _). unfold int_hull in F. apply bind_ok in F as (? & F & _).
  assert (LZ : 3 <= length (spots2 dx c)) by (unfold spots2; rewrite map_length; exact L).
  destruct (spots2 dx c) as [|z0 [|z1 t]]; try discriminate. cbn in A, B. injection A as ->. injection B as ->.
  rewrite (proj2 (Nat.leb_gt _ 2)) in F by lia. rewrite distances_far in F by exact D. discriminate F.
Qed.
Print Assumptions voro2_overflow_refuted.

Lemma snap1_cut v : (22 # 10000 <= v)%Q -> snap1 (1 # 1000000000000) v = (2 ^ 31 - 2)%Z.
Proof.
  intros H. unfold snap1. assert (F : (2 ^ 31 - 2 <= Qfloor (v / (1 # 1000000000000) + (1 # 2)))%Z).
  { rewrite <- (Qfloor_Z (2 ^ 31 - 2)). apply Qfloor_resp_le. assert (K : (inject_Z (2 ^ 31 - 2) <= v / (1 # 1000000000000))%Q); [|lra].
    apply Qle_shift_div_l; [reflexivity|]. apply Qle_trans with (22 # 10000); [vm_compute; discriminate | exact H]. }
  rewrite Z.min_l by exact F. reflexivity.
Qed.
(* With the degeneracy the constructor has by default, 1e-12, a cell that keeps off the low sides of the
   box by 0.22 per cent becomes one point, and no mesh is made. *)
Theorem voro2_default_refuted : forall (lib : voro2) fill points lo hi mesh0 m,
  (exists c, In c (v2_cells lib (map (scaled2 (largest2 lo hi) lo) (pairs2 points))) /\
     forall q, In q (c2_pts c) -> (22 # 10000 <= fst (placed2 c q))%Q /\ (22 # 10000 <= snd (placed2 c q))%Q) ->
  tessellate2 lib fill (1 # 1000000000000) points lo hi mesh0 <> Ok m.
Proof.
  intros lib fill points lo hi mesh0 m (c & IC & FAR). apply voro2_angle_refuted. exists c. split; [exact IC|].
  assert (ONE : forall z, In z (spots2 (1 # 1000000000000) c) -> z = (2 ^ 31 - 2, 2 ^ 31 - 2)%Z).
  { intros z Z. apply in_map_iff in Z as (q & <- & Q). destruct (FAR q Q) as [A B]. rewrite !snap1_cut by assumption. reflexivity. }
  intros z0 a b Z0 IA _ NE _. exfalso. apply NE. rewrite (ONE a IA), (ONE z0 (nth_error_In _ _ Z0)). reflexivity.
Qed.
Print Assumptions voro2_default_refuted.

(* ---- the cases ---- *)
Definition fill1 (hs : list hpt) : list hpt := lin_fill hs [].
Lemma fill1_ok : forall hs, set_fill hs [] (fill1 hs).
Proof. intros hs. apply lin_fill_ok. Qed.
(* the cell of a generator g that is the rectangle between l and h, as the library gives it *)
Definition rect_cell (id : nat) (l h g : p2) : vcell2 :=
  let at_ (x y : Q) : p2 := (2 * (x - fst g), 2 * (y - snd g))%Q in
  mkVcell2 id g ((1 # 2) * (fst l + fst h) - fst g, (1 # 2) * (snd l + snd h) - snd g)%Q
    [at_ (fst l) (snd l); at_ (fst h) (snd l); at_ (fst h) (snd h); at_ (fst l) (snd h)].
(* two generators, each the centroid of its half of the square *)
Definition two : list p2 := [(1 # 4, 1 # 2); (3 # 4, 1 # 2)]%Q.
Definition two_cells : list vcell2 := [rect_cell 1 (1 # 2, 0)%Q (1, 1)%Q (3 # 4, 1 # 2)%Q; rect_cell 0 (0, 0)%Q (1 # 2, 1)%Q (1 # 4, 1 # 2)%Q].
Definition lib_two : voro2 := mkVoro2 (@length p2) (fun _ => two_cells).
Definition two_spots : list (list (Z * Z)) := [[(50, 0); (100, 0); (100, 100); (50, 100)]; [(0, 0); (50, 0); (50, 100); (0, 100)]]%Z.
Lemma two_spots_is : map (spots2 (1 # 100)) two_cells = two_spots.
Proof. vm_compute. reflexivity. Qed.
Definition memz (zs : list (Z * Z)) (a : Z * Z) : bool := existsb (fun z => (fst z =? fst a)%Z && (snd z =? snd a)%Z) zs.
Lemma memz_ok zs a : In a zs -> memz zs a = true.
Proof. intros H. apply existsb_exists. exists a. rewrite !Z.eqb_refl. auto. Qed.
Definition edgeb (zs : list (Z * Z)) (e : (Z * Z) * (Z * Z)) : bool := memz zs (fst e) && memz zs (snd e) && forallb (fun z => (0 <=? turn (fst e) (snd e) z)%Z) zs && negb ((fst (fst e) =? fst (snd e))%Z && (snd (fst e) =? snd (snd e))%Z).
Definition bothb (zs ws : list (Z * Z)) : bool := existsb (fun e => edgeb zs e && edgeb ws e) (list_prod zs zs).
Lemma edgeb_ok zs a b : EdgeOf zs a b -> edgeb zs (a, b) = true.
Proof.
  intros (MA & MB & N & H). unfold edgeb. cbn [fst snd]. rewrite (memz_ok _ _ MA), (memz_ok _ _ MB), (proj2 (forallb_forall _ _)) by (intros z Z; apply Z.leb_le; auto). cbn [andb].
  destruct (Z.eqb_spec (fst a) (fst b)), (Z.eqb_spec (snd a) (snd b)); cbn; auto. exfalso. apply N. destruct a, b. cbn in *. congruence.
Qed.
Lemma bothb_ok zs ws a b : bothb zs ws = false -> EdgeOf zs a b -> EdgeOf ws a b -> False.
Proof.
  intros H E1 E2. assert (T : bothb zs ws = true); [|congruence]. apply existsb_exists. exists (a, b). rewrite (edgeb_ok _ _ _ E1), (edgeb_ok _ _ _ E2).
  split; [apply in_prod; apply E1 | reflexivity].
Qed.
Definition apart2b (p q : Z * Z) : bool := ((fst p =? fst q) && (snd p =? snd q) || (1 <? Z.abs (fst p - fst q)) || (1 <? Z.abs (snd p - snd q)))%Z.
Lemma apart2b_ok p q : apart2b p q = true -> apart2 p q.
Proof.
  unfold apart2b, apart2. rewrite !orb_true_iff, andb_true_iff, !Z.eqb_eq, !Z.ltb_lt. intros [[[A B] | A] | A]; auto. left. destruct p, q. cbn in *. congruence.
Qed.
Lemma two_readable : Readable2 (1 # 100) 2 two_cells.
Proof.
  assert (SP : forall c p, In c two_cells -> In p (spots2 (1 # 100) c) -> In p (concat two_spots)) by (intros c p C P; rewrite <- two_spots_is; apply in_concat; exists (spots2 (1 # 100) c); split; [apply in_map; exact C | exact P]).
  assert (S1 : spots2 (1 # 100) (rect_cell 1 (1 # 2, 0)%Q (1, 1)%Q (3 # 4, 1 # 2)%Q) = [(50, 0); (100, 0); (100, 100); (50, 100)]%Z) by (vm_compute; reflexivity).
  assert (S2 : spots2 (1 # 100) (rect_cell 0 (0, 0)%Q (1 # 2, 1)%Q (1 # 4, 1 # 2)%Q) = [(0, 0); (50, 0); (50, 100); (0, 100)]%Z) by (vm_compute; reflexivity).
  constructor.
  - reflexivity.
  - cbn. repeat constructor; cbn; intuition discriminate.
  - intros c H. cbn in H. destruct H as [<- | [<- | []]]; cbn; lia.
  - intros c d p q C D P Q. apply apart2b_ok. apply (VoroProps.forallb2_ok apart2b (concat two_spots)); [vm_compute; reflexivity | apply (SP c) | apply (SP d)]; assumption.
  - intros c H.
    assert (G : forall z0 z1 z2 z3 : Z * Z, z1 <> z0 -> z3 <> z0 -> dotz z0 z1 z3 = 0%Z -> (dotz z0 z1 z1 < 2 ^ 31)%Z -> RightAngle [z0; z1; z2; z3] /\ FirstNear [z0; z1; z2; z3]).
    { intros z0 z1 z2 z3 N1 N3 D L. split.
      - exists z0, 1, z1, 3, z3. do 4 (split; [assumption || reflexivity|]). split; [|cbn; repeat split; auto; lia].
        intros [|k] z LK Z; [cbn in Z; congruence | lia].
      - intros [|[|j]] x xj X XJ NE BEFORE; cbn in X; injection X as <-; [cbn in XJ; congruence | cbn in XJ; injection XJ as <-; exact L|].
        exfalso. apply N1. apply (BEFORE 1 z1); [lia | reflexivity]. }
    destruct H as [<- | [<- | []]]; [rewrite S1 | rewrite S2]; (apply G; [discriminate | discriminate | reflexivity | reflexivity]).
  - intros c d a b C D E1 E2. destruct C as [<- | [<- | []]], D as [<- | [<- | []]]; auto; exfalso; rewrite S1 in *; rewrite S2 in *; (eapply bothb_ok; [|exact E1 | exact E2]); vm_compute; reflexivity.
Qed.
Example two_case : exists m, tessellate2 lib_two fill1 (1 # 100) (flat2 two) (0, 0)%Q (1, 1)%Q none = Ok m /\ ReadOut2 (1 # 100) 1 (0, 0)%Q 2 two_cells m.
Proof.
  apply (voro2_readout_partial lib_two fill1 (1 # 100) two (0, 0)%Q (1, 1)%Q 1%Q fill1_ok); try reflexivity.
  - split; [split; vm_compute; discriminate | left; vm_compute; reflexivity].
  - repeat constructor; vm_compute; discriminate.
  - apply two_readable.
Qed.
Example two_mesh : match tessellate2 lib_two fill1 (1 # 100) (flat2 two) (0, 0)%Q (1, 1)%Q none with
  | Ok m => cells m = [[4; -4; 5; 6]; [0; 1; 2; 3]]%Z /\ faces m = [[0; 1]; [1; 2]; [2; 3]; [3; 0]; [4; 0]; [3; 5]; [5; 4]] | _ => False end.
Proof. vm_compute. auto. Qed.
(* a triangle in general position *)
Definition tri : vcell2 := mkVcell2 0 (1 # 2, 1 # 2)%Q (0, 0)%Q [(-(1 # 2), -(1 # 2)); (1 # 2, - (1 # 4)); (0, 1 # 2)]%Q.
Example angle_case : NoRight (spots2 (1 # 100) tri).
Proof.
  assert (E : spots2 (1 # 100) tri = [(25, 25); (75, 38); (50, 75)]%Z) by (vm_compute; reflexivity). rewrite E.
  intros z0 a b Z0 A B N1 N2. cbn in Z0. injection Z0 as <-. cbn in A, B.
  destruct A as [<- | [<- | [<- | []]]], B as [<- | [<- | [<- | []]]]; vm_compute; try congruence; try (intros _; congruence); discriminate.
Qed.
Example overflow_case : exists a b, nth_error (spots2 (1 # 100000) (rect_cell 0 (0, 0)%Q (1, 1)%Q (1 # 2, 1 # 2)%Q)) 0 = Some a /\
  nth_error (spots2 (1 # 100000) (rect_cell 0 (0, 0)%Q (1, 1)%Q (1 # 2, 1 # 2)%Q)) 1 = Some b /\ (2 ^ 31 <= dotz a b b)%Z.
Proof. eexists _, _. split; [vm_compute; reflexivity|]. split; [vm_compute; reflexivity|]. vm_compute. discriminate. Qed.

(* The cell of a single generator is the box; the mesh is moved by the way from the generator to the
   centroid, and reaches out of the box on one side. *)
Definition lib_one : voro2 := mkVoro2 (@length p2) (map (rect_cell 0 (0, 0)%Q (1, 1)%Q)).
Theorem voro2_shift_refuted : exists m, tessellate2 lib_one fill1 (1 # 100) [1 # 4; 1 # 2] (0, 0)%Q (1, 1)%Q none = Ok m /\
  exists i p, node2 m i p /\ ~ inside2 (0, 0)%Q (1, 1)%Q p.
Proof.
  eexists. split; [vm_compute; reflexivity|]. exists 1, (125 # 100, 0 # 100)%Q. split; [reflexivity|].
  intros [[_ A] _]. vm_compute in A. apply A. reflexivity.
Qed.
Print Assumptions voro2_shift_refuted.
