(* C95: the mesh made with Voro++. *)
From Verif Require Import Base BaseFacts PLCSpec MeshModel MeshSpec SerializeModel Plane MeshEditorModel WithinProofs HullModel VoroModel VoroSpec VoroProofs VoroProofs2 VoroProofs3 VoroProofs4.
From Coq Require Import Lia QArith Qround Qabs Lqa.
Local Open Scope nat_scope.

Definition none : mesh Q := mkMesh [] [] [] [] [] [] (mkPLC [] []) [] [] [].
(* the points, relative to the low corner of the box and in units of its largest side *)
Definition scaled (s : Q) (lo p : p3) : p3 := ((X3 p - X3 lo) / s, (Y3 p - Y3 lo) / s, (Z3 p - Z3 lo) / s)%Q.
Definition inside (lo hi p : p3) : Prop := (X3 lo <= X3 p <= X3 hi /\ Y3 lo <= Y3 p <= Y3 hi /\ Z3 lo <= Z3 p <= Z3 hi)%Q.
Definition longest (lo hi : p3) (s : Q) : Prop :=
  (X3 hi - X3 lo <= s /\ Y3 hi - Y3 lo <= s /\ Z3 hi - Z3 lo <= s)%Q /\ (s = X3 hi - X3 lo \/ s = Y3 hi - Y3 lo \/ s = Z3 hi - Z3 lo)%Q.
Definition flat3 (ps : list p3) : list Q := flat_map (fun p => [X3 p; Y3 p; Z3 p]) ps.

Lemma triples_flat ps : triples (flat3 ps) = ps.
Proof. induction ps as [|[[x y] z] t IH]; [reflexivity|]. change (flat3 ((x, y, z) :: t)) with (x :: y :: z :: flat3 t). cbn [triples]. rewrite IH. reflexivity. Qed.
Lemma flat3_len ps : length (flat3 ps) = 3 * length ps.
Proof. apply flat_len. reflexivity. Qed.
Lemma qmax2_is a b : (a <= qmax2 a b /\ b <= qmax2 a b)%Q /\ (qmax2 a b = a \/ qmax2 a b = b).
Proof. unfold qmax2. destruct (qltb_spec a b); split; auto; split; lra. Qed.
Lemma longest_is lo hi s : longest lo hi s -> (qmax2 (X3 hi - X3 lo) (qmax2 (Y3 hi - Y3 lo) (Z3 hi - Z3 lo)) == s)%Q.
Proof.
  intros [[A [B C]] E]. destruct (qmax2_is (Y3 hi - Y3 lo) (Z3 hi - Z3 lo)) as [[P1 P2] P3].
  destruct (qmax2_is (X3 hi - X3 lo) (qmax2 (Y3 hi - Y3 lo) (Z3 hi - Z3 lo))) as [[Q1 Q2] Q3].
  apply Qle_antisym; [destruct Q3 as [-> | ->]; [exact A | destruct P3 as [-> | ->]; assumption]|].
  destruct E as [E | [E | E]]; rewrite E; lra.
Qed.
Lemma unit_in a lo hi s : (0 < s -> lo <= a <= hi -> hi - lo <= s -> Qle_bool 0 ((a - lo) / s) && Qle_bool ((a - lo) / s) 1 = true)%Q.
Proof.
  intros S [A B] C. rewrite andb_true_iff, !Qle_bool_iff. split.
  - apply Qle_shift_div_l; [exact S | lra].
  - apply Qle_shift_div_r; [exact S | lra].
Qed.

Definition largest (lo hi : p3) : Q := qmax2 (X3 hi - X3 lo) (qmax2 (Y3 hi - Y3 lo) (Z3 hi - Z3 lo)).
Lemma tess_is lib dx ps lo hi : (X3 lo < X3 hi)%Q -> (Y3 lo < Y3 hi)%Q -> (Z3 lo < Z3 hi)%Q -> Forall (inside lo hi) ps ->
  let s := largest lo hi in let gens := map (scaled s lo) ps in vl_total lib gens = length ps ->
  tessellate lib dx (flat3 ps) lo hi none =
  (do st <- mfold (read_vcell dx) (vl_cells lib gens) ([], mkV (repeat [] (length ps)) [] []);
   let '(ns, m) := st in
   Ok (mkMesh (flat_map (fun p => let '(x, y, z) := p in
         [inject_Z x * (dx * s) + X3 lo; inject_Z y * (dx * s) + Y3 lo; inject_Z z * (dx * s) + Z3 lo]%Q) ns)
       (v_cells m) (v_faces m) [] [] (v_fcells m) (mkPLC [] []) [] [] [])).
Proof.
  intros HX HY HZ IN s gens TOT. unfold tessellate. rewrite triples_flat, flat3_len. fold (largest lo hi). fold s.
  destruct (qmax2_is (Y3 hi - Y3 lo) (Z3 hi - Z3 lo)) as [[P1 P2] _].
  destruct (qmax2_is (X3 hi - X3 lo) (qmax2 (Y3 hi - Y3 lo) (Z3 hi - Z3 lo))) as [[Q1 Q2] _]. fold (largest lo hi) in Q1, Q2. fold s in Q1, Q2.
  assert (S0 : (0 < s)%Q) by lra.
  assert (LT : forall a b, (a < b)%Q -> Qlt_bool a b = true) by (intros a b H; destruct (qltb_spec a b); auto).
  rewrite !LT by assumption. cbn [andb assert bind].
  rewrite (Nat.mul_comm 3), Nat.mod_mul by lia. cbn [Nat.eqb assert bind].
  assert (B1 : forallb (in_box3 lo hi) ps = true).
  { apply forallb_forall. intros p P. rewrite Forall_forall in IN. destruct (IN p P) as ([A B] & [C D] & [E F]). unfold in_box3.
    rewrite !(proj2 (Qle_bool_iff _ _)) by assumption. reflexivity. }
  rewrite B1. cbn [assert bind nodes cells faces faceCells none isnil andb].
  change (map (fun p => ((X3 p - X3 lo) / s, (Y3 p - Y3 lo) / s, (Z3 p - Z3 lo) / s)%Q) ps) with gens.
  assert (B2 : forallb (in_box3 (0, 0, 0)%Q (1, 1, 1)%Q) gens = true).
  { apply forallb_forall. intros q Q. apply in_map_iff in Q as (p & <- & P). rewrite Forall_forall in IN. destruct (IN p P) as (A & B & C).
    pose proof (unit_in _ _ _ s S0 A ltac:(lra)) as UX. pose proof (unit_in _ _ _ s S0 B ltac:(lra)) as UY. pose proof (unit_in _ _ _ s S0 C ltac:(lra)) as UZ.
    apply andb_true_iff in UX, UY, UZ. destruct UX as [X1 X2], UY as [Y1 Y2], UZ as [Z1 Z2].
    unfold in_box3, scaled. cbn [X3 Y3 Z3 fst snd]. unfold X3, Y3, Z3 in *. cbn [fst snd] in *. rewrite X1, X2, Y1, Y2, Z1, Z2. reflexivity. }
  rewrite B2. cbn [assert bind]. rewrite TOT. unfold gens at 1. rewrite map_length, Nat.eqb_refl. cbn [assert bind]. reflexivity.
Qed.

(* The mesh is the read-out of the cells of the library: well formed, every grid point a node once,
   every cell with its faces in order, every face shared by the cells that have it. *)
Theorem voro_readout_partial : forall (lib : voro) dx ps lo hi s,
  (X3 lo < X3 hi)%Q -> (Y3 lo < Y3 hi)%Q -> (Z3 lo < Z3 hi)%Q -> longest lo hi s -> Forall (inside lo hi) ps ->
  let gens := map (scaled (largest lo hi) lo) ps in
  vl_total lib gens = length ps -> Readable dx (length ps) (vl_cells lib gens) ->
  exists m, tessellate lib dx (flat3 ps) lo hi none = Ok m /\ ReadOut dx s lo (length ps) (vl_cells lib gens) m.
Proof.
  intros lib dx ps lo hi s HX HY HZ LG IN gens TOT RD.
  rewrite (tess_is lib dx ps lo hi HX HY HZ IN TOT). fold gens.
  destruct (cells_ok dx (length ps) (vl_cells lib gens) RD) as (ns & m & done & E & EN & L). rewrite E. cbn [bind]. eexists. split; [reflexivity|].
  apply (readout dx s lo (length ps) (vl_cells lib gens) ns m done); try assumption.
  pose proof (longest_is lo hi s LG) as ES. fold (largest lo hi) in ES. intros x y z. eexists _, _, _. split; [reflexivity|]. rewrite ES. repeat split; ring.
Qed.
Print Assumptions voro_readout_partial.

Definition close (e : Q) (a b : p3) : Prop := (Qabs (X3 a - X3 b) <= e /\ Qabs (Y3 a - Y3 b) <= e /\ Qabs (Z3 a - Z3 b) <= e)%Q.
Definition to_box (s : Q) (lo p : p3) : p3 := (X3 lo + s * X3 p, Y3 lo + s * Y3 p, Z3 lo + s * Z3 p)%Q.
Definition node3 (m : mesh Q) (i : nat) (p : p3) : Prop := firstn 3 (skipn (3 * i) (nodes m)) = [X3 p; Y3 p; Z3 p].
Definition zero3 (p : p3) : Prop := (X3 p == 0 /\ Y3 p == 0 /\ Z3 p == 0)%Q.

Lemma snap_close dx s v : (0 < dx)%Q -> (0 <= s)%Q -> (Qabs (inject_Z (Qfloor (v / dx + (1 # 2))) * dx * s - s * v) <= dx * s * (1 # 2))%Q.
Proof.
  intros D S. pose proof (Qfloor_le (v / dx + (1 # 2))) as A. pose proof (Qlt_floor (v / dx + (1 # 2))) as B.
  rewrite inject_Z_plus in B. change (inject_Z 1) with 1%Q in B. set (k := inject_Z (Qfloor (v / dx + (1 # 2)))) in *.
  assert (E : (v == v / dx * dx)%Q) by (field; lra). set (w := (v / dx)%Q) in *.
  assert (K1 : (k - w <= 1 # 2)%Q) by lra. assert (K2 : (- (1 # 2) <= k - w)%Q) by lra.
  assert (DS : (0 <= dx * s)%Q) by (apply Qmult_le_0_compat; lra).
  assert (F : (k * dx * s - s * v == (k - w) * (dx * s))%Q) by (rewrite E; ring).
  rewrite F. apply Qabs_Qle_condition. split; [|rewrite (Qmult_comm (dx * s)); apply Qmult_le_compat_r; assumption].
  assert (G : (- (dx * s * (1 # 2)) == - (1 # 2) * (dx * s))%Q) by ring. rewrite G. apply Qmult_le_compat_r; assumption.
Qed.
Lemma nodes_at (f : ipt -> p3) ns i p : nth_error ns i = Some p ->
  firstn 3 (skipn (3 * i) (flat_map (fun q => [X3 (f q); Y3 (f q); Z3 (f q)]) ns)) = [X3 (f p); Y3 (f p); Z3 (f p)].
Proof.
  revert i. induction ns as [|q t IH]; intros [|i] H; try discriminate.
  - cbn in H. injection H as <-. reflexivity.
  - replace (3 * S i) with (S (S (S (3 * i)))) by lia. cbn [flat_map app skipn]. apply IH. exact H.
Qed.
Lemma forall2_firstn {A B} (R : A -> B -> Prop) l l' : Forall2 R l l' -> forall k, Forall2 R (firstn k l) (firstn k l').
Proof. intros F. induction F; intros [|k]; cbn; constructor; auto. Qed.
Lemma forall2_skipn {A B} (R : A -> B -> Prop) l l' : Forall2 R l l' -> forall k, Forall2 R (skipn k l) (skipn k l').
Proof. intros F. induction F; intros [|k]; cbn; try constructor; auto. Qed.

(* A vertex of a cell is a node within half a step of where the program puts it, which is where it
   is when the generator is the centroid of its cell. *)
Theorem voro_place_partial : forall (lib : voro) dx ps lo hi s,
  (X3 lo < X3 hi)%Q -> (Y3 lo < Y3 hi)%Q -> (Z3 lo < Z3 hi)%Q -> longest lo hi s -> Forall (inside lo hi) ps ->
  let gens := map (scaled (largest lo hi) lo) ps in
  vl_total lib gens = length ps -> Readable dx (length ps) (vl_cells lib gens) ->
  exists m, tessellate lib dx (flat3 ps) lo hi none = Ok m /\
    forall c q, In c (vl_cells lib gens) -> In q (vc_pts c) -> exists i p, node3 m i p /\ close (dx * s * (1 # 2)) p (to_box s lo (placed c q)) /\
      (zero3 (vc_centroid c) -> close (dx * s * (1 # 2)) p (to_box s lo (truly c q))).
Proof.
  intros lib dx ps lo hi s HX HY HZ LG IN gens TOT RD.
  destruct (voro_readout_partial lib dx ps lo hi s HX HY HZ LG IN TOT RD) as (m & E & RO). exists m. split; [exact E|]. intros c q IC IQ. fold gens in RO.
  destruct (ro_body _ _ _ _ _ _ RO) as (ns & ND & NS & NO & _).
  assert (IP : In (snap dx (placed c q)) ns) by (apply NS; exists c; split; [exact IC | apply in_map_iff; exists q; auto]).
  apply In_nth_error in IP as (i & NI). remember (placed c q) as P eqn:EP. destruct P as [[px py] pz].
  assert (S0 : (0 <= s)%Q) by (destruct LG as [[A _] _]; lra).
  set (f := fun p : ipt => let '(x, y, z) := p in (X3 lo + inject_Z x * dx * s, Y3 lo + inject_Z y * dx * s, Z3 lo + inject_Z z * dx * s)%Q : p3).
  assert (NF : Forall2 Qeq (nodes m) (flat_map (fun q => [X3 (f q); Y3 (f q); Z3 (f q)]) ns)).
  { replace (flat_map (fun q => [X3 (f q); Y3 (f q); Z3 (f q)]) ns) with (flat_map (fun p => let '(x, y, z) := p in [X3 lo + inject_Z x * dx * s; Y3 lo + inject_Z y * dx * s; Z3 lo + inject_Z z * dx * s]%Q) ns); [exact NO|].
    apply flat_map_ext. intros [[x y] z]. reflexivity. }
  pose proof (forall2_firstn _ _ _ (forall2_skipn _ _ _ NF (3 * i)) 3) as F3. rewrite (nodes_at f ns i _ NI) in F3.
  destruct (firstn 3 (skipn (3 * i) (nodes m))) as [|x [|y [|z [|w r]]]] eqn:EQ; try (exfalso; inversion F3 as [|? ? ? ? ? G1]; subst; inversion G1 as [|? ? ? ? ? G2]; subst; inversion G2 as [|? ? ? ? ? G3]; subst; inversion G3; fail); try (inversion F3; fail).
  inversion F3 as [|? ? ? ? EX G1]; subst. inversion G1 as [|? ? ? ? EY G2]; subst. inversion G2 as [|? ? ? ? EZ _]; subst. clear F3 G1 G2.
  pose proof (rd_dx _ _ _ RD) as D0.
  assert (C1 : close (dx * s * (1 # 2)) (x, y, z) (to_box s lo (px, py, pz))).
  { clear - D0 S0 EX EY EZ. destruct lo as [[lx ly] lz].
    pose proof (snap_close dx s px D0 S0) as KX. pose proof (snap_close dx s py D0 S0) as KY. pose proof (snap_close dx s pz D0 S0) as KZ.
    change (x == lx + inject_Z (Qfloor (px / dx + (1 # 2))) * dx * s)%Q in EX. change (y == ly + inject_Z (Qfloor (py / dx + (1 # 2))) * dx * s)%Q in EY. change (z == lz + inject_Z (Qfloor (pz / dx + (1 # 2))) * dx * s)%Q in EZ.
    change (Qabs (x - (lx + s * px)) <= dx * s * (1 # 2) /\ Qabs (y - (ly + s * py)) <= dx * s * (1 # 2) /\ Qabs (z - (lz + s * pz)) <= dx * s * (1 # 2))%Q.
    repeat split; [eapply Qle_trans; [|exact KX] | eapply Qle_trans; [|exact KY] | eapply Qle_trans; [|exact KZ]]; apply Qle_lteq; right; apply Qabs_wd; [rewrite EX | rewrite EY | rewrite EZ]; ring. }
  exists i, (x, y, z). split; [exact EQ|]. split; [exact C1|]. intros (CX & CY & CZ). rewrite EP in C1.
  destruct C1 as (K1 & K2 & K3). unfold close, to_box, placed, truly in *. unfold X3, Y3, Z3 in *. cbn [fst snd] in *.
  rewrite CX in K1. rewrite CY in K2. rewrite CZ in K3.
  repeat split; [eapply Qle_trans; [|exact K1] | eapply Qle_trans; [|exact K2] | eapply Qle_trans; [|exact K3]]; apply Qle_lteq; right; apply Qabs_wd; ring.
Qed.
Print Assumptions voro_place_partial.

(* ---- what is not so ---- *)
(* the cell of a generator g that is the box between l and h, as the library gives it *)
Definition box_cell (id : nat) (l h g : p3) : vcell :=
  let at_ (x y z : Q) : p3 := (2 * (x - X3 g), 2 * (y - Y3 g), 2 * (z - Z3 g))%Q in
  mkVcell id g ((1 # 2) * (X3 l + X3 h) - X3 g, (1 # 2) * (Y3 l + Y3 h) - Y3 g, (1 # 2) * (Z3 l + Z3 h) - Z3 g)%Q
    [at_ (X3 l) (Y3 l) (Z3 l); at_ (X3 h) (Y3 l) (Z3 l); at_ (X3 l) (Y3 h) (Z3 l); at_ (X3 h) (Y3 h) (Z3 l);
     at_ (X3 l) (Y3 l) (Z3 h); at_ (X3 h) (Y3 l) (Z3 h); at_ (X3 l) (Y3 h) (Z3 h); at_ (X3 h) (Y3 h) (Z3 h)]
    [[0; 4; 6; 2]; [1; 3; 7; 5]; [0; 1; 5; 4]; [2; 6; 7; 3]; [0; 2; 3; 1]; [4; 5; 7; 6]].
(* the library for a single generator: its cell is the unit cube, the whole container *)
Definition lib1 : voro := mkVoro (@length p3) (map (box_cell 0 (0, 0, 0)%Q (1, 1, 1)%Q)).

(* The cell of a single generator is the box; the mesh is moved by the way from the generator to the
   centroid, and reaches out of the box on one side. *)
Theorem voro_shift_refuted : exists m, tessellate lib1 (1 # 100) [1 # 4; 1 # 2; 1 # 2] (0, 0, 0)%Q (1, 1, 1)%Q none = Ok m /\
  exists i p, node3 m i p /\ ~ inside (0, 0, 0)%Q (1, 1, 1)%Q p.
Proof.
  eexists. split; [vm_compute; reflexivity|]. exists 1, (125 # 100, 0 # 100, 0 # 100)%Q. split; [reflexivity|].
  intros [[_ A] _]. vm_compute in A. apply A. reflexivity.
Qed.
Print Assumptions voro_shift_refuted.

(* In a box that is not a cube the cells are cut by the cube, not by the box: here the generator is
   the centroid of the cube, and the mesh reaches out of the box by a whole side. *)
Theorem voro_box_refuted : exists m, tessellate lib1 (1 # 100) [1; 1; 1]%Q (0, 0, 0)%Q (2, 1, 1)%Q none = Ok m /\
  exists i p, node3 m i p /\ ~ inside (0, 0, 0)%Q (2, 1, 1)%Q p.
Proof.
  eexists. split; [vm_compute; reflexivity|]. exists 2, (0 # 100, 200 # 100, 0 # 100)%Q. split; [reflexivity|].
  intros [_ [[_ A] _]]. vm_compute in A. apply A. reflexivity.
Qed.
Print Assumptions voro_box_refuted.

(* Whether two vertices one step apart are one node depends on which of them comes first. *)
Theorem voro_order_refuted :
  updateMeshVertices [] [(5, 5, 5); (6, 5, 5)]%Z = Ok ([(5, 5, 5)]%Z, [0; 0]) /\
  updateMeshVertices [] [(6, 5, 5); (5, 5, 5)]%Z = Ok ([(6, 5, 5); (5, 5, 5)]%Z, [0; 1]).
Proof. split; reflexivity. Qed.
Print Assumptions voro_order_refuted.

Lemma mfold_each_ok {A T} (f : T -> A -> res T) l : forall s s', mfold f l s = Ok s' -> forall a, In a l -> exists s1 s2, f s1 a = Ok s2.
Proof.
  induction l as [|b t IH]; intros s s' H a I; [destruct I|]. cbn in H. apply bind_ok in H as (s1 & E & H).
  destruct I as [<- | I]; [exists s, s1; exact E | apply (IH s1 s' H a I)].
Qed.
Lemma mmap_each_ok {A B} (f : A -> res B) l : forall bs, mmap f l = Ok bs -> forall a, In a l -> exists b, f a = Ok b.
Proof.
  induction l as [|x t IH]; intros bs H a I; [destruct I|]. cbn in H. apply bind_ok in H as (b & E & H). apply bind_ok in H as (cs & E' & _).
  destruct I as [<- | I]; [exists b; exact E | apply (IH cs E' a I)].
Qed.
Lemma large_no q : (inject_Z (2 ^ 31) <= q)%Q -> as_int (q + (1 # 2)) = UB.
Proof.
  intros H. unfold as_int, trunc.
  assert (P : (0 <= q + (1 # 2))%Q) by (assert (0 <= inject_Z (2 ^ 31))%Q by (vm_compute; discriminate); lra).
  rewrite (proj2 (Qle_bool_iff _ _) P).
  assert (F : (2 ^ 31 <= Qfloor (q + (1 # 2)))%Z). { rewrite <- (Qfloor_Z (2 ^ 31)). apply Qfloor_resp_le. lra. }
  rewrite (proj2 (Z.ltb_ge _ _) F), andb_false_r. reflexivity.
Qed.
(* With the degeneracy the constructor has by default, 1e-12, every vertex more than 0.22 per cent of
   the box away from its low side leaves the integers: no mesh is made. *)
Theorem voro_default_refuted : forall (lib : voro) points lo hi m,
  (exists c q, In c (vl_cells lib (map (scaled (largest lo hi) lo) (triples points))) /\ In q (vc_pts c) /\ (22 # 10000 <= X3 (placed c q))%Q) ->
  tessellate lib (1 # 1000000000000) points lo hi none <> Ok m.
Proof.
  intros lib points lo hi m (c & q & IC & IQ & LQ) H. unfold tessellate in H.
  apply bind_ok in H as (? & _ & H). apply bind_ok in H as (? & _ & H). apply bind_ok in H as (? & _ & H). apply bind_ok in H as (? & _ & H).
  apply bind_ok in H as (? & _ & H). apply bind_ok in H as (? & _ & H). apply bind_ok in H as (st & H & _).
  destruct (mfold_each_ok _ _ _ _ H c IC) as ([ns vm] & s2 & R). unfold read_vcell in R. apply bind_ok in R as (vs & MV & _).
  destruct (mmap_each_ok _ _ _ MV q IQ) as (g & G). unfold grid_point in G. apply bind_ok in G as (gx & GX & _).
  rewrite large_no in GX; [discriminate|].
  assert (E : (X3 (add3 (add3 (vc_centroid c) (vc_pos c)) (half3 q)) == X3 (placed c q))%Q) by (unfold placed, add3, half3, X3, Y3, Z3; cbn; ring).
  rewrite E. apply Qle_shift_div_l; [reflexivity|]. apply Qle_trans with (22 # 10000); [vm_compute; discriminate | exact LQ].
Qed.
Print Assumptions voro_default_refuted.
Example voro_default_case : forall m, tessellate lib1 (1 # 1000000000000) [1 # 2; 1 # 2; 1 # 2] (0, 0, 0)%Q (1, 1, 1)%Q none <> Ok m.
Proof.
  intros m. apply voro_default_refuted. exists (box_cell 0 (0, 0, 0)%Q (1, 1, 1)%Q (scaled (largest (0, 0, 0)%Q (1, 1, 1)%Q) (0, 0, 0)%Q (1 # 2, 1 # 2, 1 # 2)%Q)). eexists.
  split; [left; reflexivity|]. split; [right; left; reflexivity | vm_compute; discriminate].
Qed.

(* ---- the cases ---- *)
(* two generators, each the centroid of its half of the cube *)
Definition pts2 : list p3 := [(1 # 4, 1 # 2, 1 # 2); (3 # 4, 1 # 2, 1 # 2)]%Q.
Definition cells2 : list vcell := [box_cell 1 (1 # 2, 0, 0)%Q (1, 1, 1)%Q (3 # 4, 1 # 2, 1 # 2)%Q; box_cell 0 (0, 0, 0)%Q (1 # 2, 1, 1)%Q (1 # 4, 1 # 2, 1 # 2)%Q].
Definition lib2 : voro := mkVoro (@length p3) (fun _ => cells2).
Definition spots2 : list (list ipt) :=
  [[(50, 0, 0); (100, 0, 0); (50, 100, 0); (100, 100, 0); (50, 0, 100); (100, 0, 100); (50, 100, 100); (100, 100, 100)];
   [(0, 0, 0); (50, 0, 0); (0, 100, 0); (50, 100, 0); (0, 0, 100); (50, 0, 100); (0, 100, 100); (50, 100, 100)]]%Z.
Lemma spots2_is : map (spots (1 # 100)) cells2 = spots2.
Proof. vm_compute. reflexivity. Qed.
Definition apartb (p q : ipt) : bool := ipt_eqb p q || let '(x, y, z) := p in let '(u, v, w) := q in ((1 <? Z.abs (x - u)) || (1 <? Z.abs (y - v)) || (1 <? Z.abs (z - w)))%Z.
Lemma apartb_ok p q : apartb p q = true -> apart p q.
Proof.
  unfold apartb, apart. rewrite orb_true_iff. intros [H | H]; [left; apply ipt_eqb_iff; exact H | right]. destruct p as [[x y] z], q as [[u v] w].
  rewrite !orb_true_iff, !Z.ltb_lt in H. tauto.
Qed.
Definition differ (a b : list ipt) : bool := existsb (fun p => negb (existsb (ipt_eqb p) b)) a.
Lemma differ_ok a b : differ a b = true -> ~ sameset a b.
Proof.
  unfold differ. intros H E. apply existsb_exists in H as (p & I & N). apply E in I. apply negb_true_iff in N.
  assert (T : existsb (ipt_eqb p) b = true) by (apply existsb_exists; exists p; split; [exact I | apply ipt_eqb_iff; reflexivity]). congruence.
Qed.
Lemma rangeb q : (Qle_bool 0 (q + (1 # 2)) && Qlt_bool (q + (1 # 2)) (inject_Z (2 ^ 31 - 1)))%Q = true -> in_range q.
Proof. rewrite andb_true_iff, Qle_bool_iff. intros [A B]. split; [exact A|]. destruct (qltb_spec (q + (1 # 2)) (inject_Z (2 ^ 31 - 1))); [assumption | discriminate]. Qed.
Lemma forallb2_ok {A} (f : A -> A -> bool) l : forallb (fun a => forallb (f a) l) l = true -> forall a b, In a l -> In b l -> f a b = true.
Proof. intros H a b A0 B0. rewrite forallb_forall in H. specialize (H a A0). rewrite forallb_forall in H. auto. Qed.
Lemma readable2 : Readable (1 # 100) 2 cells2.
Proof.
  constructor.
  - reflexivity.
  - cbn. repeat constructor; cbn; intuition discriminate.
  - intros c H. cbn in H. destruct H as [<- | [<- | []]]; cbn; lia.
  - intros c H. cbn in H. destruct H as [<- | [<- | []]]; cbn; lia.
  - intros c f C F.
    assert (L : forall c, In c cells2 -> forallb (fun f => forallb (fun k => k <? length (vc_pts c)) f && (3 <=? length (once [] (corners (1 # 100) c f)))) (vc_faces c) = true).
    { intros d D. destruct D as [<- | [<- | []]]; vm_compute; reflexivity. }
    specialize (L c C). rewrite forallb_forall in L. specialize (L f F). apply andb_true_iff in L as [L1 L2]. rewrite forallb_forall in L1. split; [|apply Nat.leb_le; exact L2].
    intros k K. apply Nat.ltb_lt. auto.
  - intros c q C Q.
    assert (L : forall c, In c cells2 -> forallb (fun q => forallb (fun v => Qle_bool 0 (v / (1 # 100) + (1 # 2)) && Qlt_bool (v / (1 # 100) + (1 # 2)) (inject_Z (2 ^ 31 - 1)))%Q [X3 (placed c q); Y3 (placed c q); Z3 (placed c q)]) (vc_pts c) = true).
    { intros d D. destruct D as [<- | [<- | []]]; vm_compute; reflexivity. }
    specialize (L c C). rewrite forallb_forall in L. specialize (L q Q). cbn [forallb] in L. rewrite !andb_true_iff in L. destruct L as (A & B & D & _).
    repeat split; apply rangeb; rewrite andb_true_iff; assumption.
  - intros c d p q C D P Q. apply apartb_ok.
    assert (L : forall p q, In p (concat spots2) -> In q (concat spots2) -> apartb p q = true) by (apply forallb2_ok; vm_compute; reflexivity).
    apply L; apply in_concat; rewrite <- spots2_is; [exists (spots (1 # 100) c) | exists (spots (1 # 100) d)]; split; auto; apply in_map; assumption.
  - intros a b b' c f g [A B] [_ B'] S. apply nth_error_In in A. destruct (Nat.eq_dec b b') as [E | NE]; [exact E|]. exfalso.
    assert (L : forall c, In c cells2 -> forallb (fun i => forallb (fun j => (i =? j) || differ (corners (1 # 100) c (nth i (vc_faces c) [])) (corners (1 # 100) c (nth j (vc_faces c) []))) (seq 0 6)) (seq 0 6) = true).
    { intros d D. destruct D as [<- | [<- | []]]; vm_compute; reflexivity. }
    assert (L6 : length (vc_faces c) = 6) by (destruct A as [<- | [<- | []]]; reflexivity).
    pose proof (nth_error_lt _ _ _ B) as LB. pose proof (nth_error_lt _ _ _ B') as LB'.
    pose proof (forallb2_ok (fun i j => (i =? j) || differ (corners (1 # 100) c (nth i (vc_faces c) [])) (corners (1 # 100) c (nth j (vc_faces c) []))) (seq 0 6) (L c A) b b' ltac:(apply in_seq; lia) ltac:(apply in_seq; lia)) as F.
    cbn beta in F. rewrite (proj2 (Nat.eqb_neq b b') NE) in F. cbn [orb] in F. rewrite (nth_error_nth _ _ [] B), (nth_error_nth _ _ [] B') in F. apply (differ_ok _ _ F S).
  - intros a1 b1 c1 f1 a2 b2 c2 f2 a3 b3 c3 f3 [A1 _] [A2 _] [A3 _] _ _. apply nth_error_lt in A1, A2, A3. cbn in *. lia.
Qed.
Example voro_case : exists m, tessellate lib2 (1 # 100) (flat3 pts2) (0, 0, 0)%Q (1, 1, 1)%Q none = Ok m /\
  ReadOut (1 # 100) 1 (0, 0, 0)%Q 2 cells2 m /\ (forall c, In c cells2 -> zero3 (vc_centroid c)).
Proof.
  destruct (voro_readout_partial lib2 (1 # 100) pts2 (0, 0, 0)%Q (1, 1, 1)%Q 1) as (m & E & R); try reflexivity.
  - repeat split; try discriminate. left. reflexivity.
  - repeat constructor; cbn; try discriminate.
  - exact readable2.
  - exists m. split; [exact E|]. split; [exact R|]. intros c [<- | [<- | []]]; repeat split.
Qed.
(* and what comes out: the shared face is entered from both sides *)
Example voro_run : exists m, tessellate lib2 (1 # 100) (flat3 pts2) (0, 0, 0)%Q (1, 1, 1)%Q none = Ok m /\
  cells m = [[6; -1; 7; 8; 9; 10]; [0; 1; 2; 3; 4; 5]]%Z /\ length (nodes m) = 36 /\
  faceCells m = [[1; -1]; [1]; [1]; [1]; [1]; [1]; [0]; [0]; [0]; [0]; [0]]%Z.
Proof. eexists. split; [vm_compute; reflexivity|]. repeat split. Qed.
