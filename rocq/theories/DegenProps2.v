(* More on tessellateDegenerate (C97): points that do not coincide keep their order, and the call with
   a box.  Coordinates of the mesh in a box are real numbers, as in BoundedProps2.v. *)
From Coq Require Import Reals QArith Qreals Lqa.
From Verif Require Import Base BaseFacts SerializeModel MeshModel MeshSpec QuantMeshModel PLCSpec BoxModel Plane WithinSpec HashModel HashSpec HashProofs HashProofs2 HashProps TriModel TriSpec TriCheck TriProps NearModel NearSpec ClipModel ClipSpec BoundedModel BoundedModel2 BoundedSpec BoundedSpec2 BoundedCheck BoundedProps BoundedProps2 DegenProps FaceSortProofs4.
Local Open Scope nat_scope.

(* ------------------------------------------------------------ C97 *)
(* no two points in one square: the map is 0, 1, 2, ... and the points are unchanged *)
Lemma first_increasing D pts same ups imap : 0 < D -> MergedBy D pts same ups imap ->
  (forall i j, i < length pts / D -> j < length pts / D -> same i j -> i = j) ->
  forall i k, nth_error imap i = Some k -> k = i.
Proof.
  intros D0 R U i. induction i as [i IH] using lt_wf_ind. intros k Hk.
  assert (Li : forall i k, nth_error imap i = Some k -> i < length pts / D) by (intros a b H; rewrite <- (mb_len _ _ _ _ _ R); eapply nth_error_lt; eauto).
  pose proof (mb_range _ _ _ _ _ R i k Hk) as Rk.
  assert (F : forall k', D * k' < length ups -> forall i', nth_error imap i' = Some k' -> forall j l, j < i' -> nth_error imap j = Some l -> l < k').
  { intros k' L i' H' j l Lj Hl. destruct (mb_first _ _ _ _ _ R k' L) as (i2 & H2 & _ & F2).
    assert (i2 = i') by (apply U; eauto; apply (mb_same _ _ _ _ _ R _ _ _ _ H2 H'); auto). subst i2. eauto. }
  assert (Lt : D * k < length ups) by lia.
  destruct (lt_eq_lt_dec k i) as [[L|E]|G]; auto; exfalso.
  - destruct (nth_error_ex imap k) as [l Hl]; [apply nth_error_lt in Hk; lia|]. pose proof (IH k L l Hl) as ->. pose proof (F k Lt i Hk k k L Hl). lia.
  - assert (Li' : D * i < length ups) by nia. destruct (mb_first _ _ _ _ _ R i Li') as (i2 & H2 & _ & F2).
    destruct (lt_eq_lt_dec i2 i) as [[L|E]|L].
    + pose proof (IH i2 L i H2). lia.
    + subst i2. assert (k = i) by congruence. lia.
    + pose proof (F2 i k L Hk). lia.
Qed.
Lemma vertices_same (l l' : list Q) n : length l = 2 * n -> length l' = 2 * n -> (forall i, i < n -> vertex 2 l i = vertex 2 l' i) -> l = l'.
Proof.
  revert l l'. induction n as [|n IH]; intros l l' L L' H.
  - destruct l, l'; try discriminate; auto.
  - destruct l as [|x [|y l]]; try (cbn in L; lia). destruct l' as [|x' [|y' l']]; try (cbn in L'; lia).
    pose proof (H 0 ltac:(lia)) as H0. unfold vertex in H0. cbn [Nat.mul Nat.add skipn firstn] in H0. injection H0 as -> ->. f_equal. f_equal. apply IH; [cbn in L; lia|cbn in L'; lia|].
    intros i Li. specialize (H (S i) ltac:(lia)). unfold vertex in *. replace (2 * S i) with (S (S (2 * i))) in H by lia. exact H.
Qed.
Theorem degenerate_unique_partial : forall points lo hi tol,
  length points mod 2 = 0 -> (forall j, j < 2 -> (coord lo j <= coord hi j)%Q) ->
  (forall i, i < length points / 2 -> Inside 2 lo hi (vertex 2 points i)) ->
  (forall i j, i < length points / 2 -> j < length points / 2 -> SameCell 2 lo hi tol (vertex 2 points i) (vertex 2 points j) -> i = j) ->
  uniquePoints uint64_key 2 points lo hi tol = Ok (points, seq 0 (length points / 2)) /\
  forall M (tess : list Q -> res M), tessellateDegenerateBox uint64_key 2 tess points lo hi tol = (do mesh <- tess points; Ok (mesh, seq 0 (length points / 2))).
Proof.
  intros points lo hi tol Ev Le Ins U.
  assert (N : Nested 2 lo hi lo hi) by (constructor; intros; try lra; auto; discriminate).
  destruct (unique_points_partial 2 points lo hi tol (or_introl eq_refl) Ev N Ins) as (ups & imap & E & R).
  pose proof (first_increasing 2 _ _ _ _ ltac:(lia) R U) as Id. pose proof (mb_len _ _ _ _ _ R) as Ln.
  assert (Im : imap = seq 0 (length points / 2)).
  { apply nth_error_ext. intros i. destruct (nth_error imap i) as [k|] eqn:K.
    - rewrite (Id i k K). symmetry. rewrite nth_error_seq; [f_equal|]. rewrite <- Ln. eapply nth_error_lt; eauto.
    - symmetry. apply nth_error_None. rewrite seq_length, <- Ln. apply nth_error_None. exact K. }
  pose proof (even_half _ Ev) as Hp. pose proof (even_half _ (ups_even _ _ _ _ _ _ R)) as Hu.
  assert (Lu : length ups / 2 = length points / 2).
  { destruct (lt_eq_lt_dec (length ups / 2) (length points / 2)) as [[L|Eq]|L]; auto; exfalso.
    - destruct (nth_error_ex imap (length ups / 2)) as [k Hk]; [lia|]. pose proof (Id _ _ Hk). pose proof (mb_range _ _ _ _ _ R _ _ Hk). lia.
    - destruct (mb_first _ _ _ _ _ R (length points / 2)) as (i & Hi & _); [lia|]. pose proof (Id _ _ Hi). apply nth_error_lt in Hi. lia. }
  assert (Eu : ups = points).
  { apply (vertices_same _ _ (length points / 2)); [lia|lia|]. intros k Lk. destruct (mb_first _ _ _ _ _ R k) as (i & Hi & V & _); [lia|]. pose proof (Id _ _ Hi). subst i. exact V. }
  subst ups imap. split; [exact E|]. intros M tess. unfold tessellateDegenerateBox. rewrite E. reflexivity.
Qed.
Print Assumptions degenerate_unique_partial.

(* In a box given by two corners: the whole call, with the mesh snapped to the box. *)
Theorem degenerate_box_partial : forall big tri_lib lib deg points tol xl yl xh yh,
  0 < length points -> length points mod 2 = 0 -> (- big <= xl /\ xl < xh /\ xh <= big)%Q -> (- big <= yl /\ yl < yh /\ yh <= big)%Q ->
  (forall i x y, vertex 2 points i = [x; y] -> (xl <= x <= xh)%Q /\ (yl <= y <= yh)%Q) ->
  exists ups imap, uniquePoints uint64_key 2 points [xl; yl] [xh; yh] tol = Ok (ups, imap) /\ CellsOf points [xl; yl] [xh; yh] tol (length ups / 2) ups imap /\
    forall f gens guards, boundary_frame big [xl; yl; xh; yl; xh; yh; xl; yh] = Ok f -> construct f ups = Ok (gens, guards) ->
    let pts := map (deq f) (map fst gens ++ map fst guards) in
    Delaunay pts (length gens) (tri_lib pts) ->
    let v := map Q2R [xl; yl; xh; yl; xh; yh; xl; yh] in let snap := (4 * Q2R deg * Q2R (qmax (xh - xl) (yh - yl)))%R in
    (snap < Q2R big)%R ->
    exists ns es cs, tess_grid tri_lib f (map fst guards) (map fst gens) = Ok (ns, es, cs) /\
      (forall i c, nth_error cs i = Some c -> VoronoiCell f pts (length gens) (tri_lib pts) ns es i c) /\
      forall polys corner, CutTo lib (b_outline lib (map (quantize f) [(xl, yl); (xh, yl); (xh, yh); (xl, yh)]) []) (map fst gens) ns es cs polys ->
      WellApart polys -> SideBySide polys -> (exists s, OuterSide polys s) -> Fitting f v square_plc snap polys corner ->
      exists m m', PolygonMesh f polys m /\ length (cells m) = length ups / 2 /\
        tessellateDegenerateBox uint64_key 2 (fun ps => tessellate_box big tri_lib lib deg ps xl yl xh yh mesh_new) points [xl; yl] [xh; yh] tol = Ok (m', imap) /\
        Snapped v square_plc snap (real_mesh m) m' /\ WellFormed 2 m'.
Proof.
  intros big tri_lib lib deg points tol xl yl xh yh N0 Ev Bx By Ins0.
  assert (Ins : forall i, i < length points / 2 -> Inside 2 [xl; yl] [xh; yh] (vertex 2 points i)).
  { intros i Li. pose proof (even_half _ Ev). destruct (two_of points i ltac:(lia)) as (x & y & V). destruct (Ins0 i x y V). rewrite V.
    intros [|[|j]] Hj; [| |lia]; unfold coord; cbn; auto. }
  assert (N : Nested 2 [xl; yl] [xh; yh] [xl; yl] [xh; yh]). { constructor; intros; try lra; [|discriminate]. destruct j as [|[|j]]; [| |lia]; unfold coord; cbn; lra. }
  destruct (unique_points_partial 2 points _ _ tol (or_introl eq_refl) Ev N Ins) as (ups & imap & E & R).
  pose proof (ups_even _ _ _ _ _ _ R) as Eu. pose proof (even_half _ Eu) as Hu.
  exists ups, imap. split; [exact E|]. split; [apply (cells_of _ _ _ _ _ _ Ev R); lia|].
  intros f gens guards Ff Cs pts D v snap Bt.
  assert (U0 : 0 < length ups).
  { pose proof (even_half _ Ev). destruct (nth_error_ex imap 0) as [k Hk]; [rewrite (mb_len _ _ _ _ _ R); lia|]. pose proof (mb_range _ _ _ _ _ R 0 k Hk). lia. }
  destruct (box_tessellation big tri_lib lib deg ups xl yl xh yh f gens guards U0 Eu Bx By) as (ns & es & cs & Et & V & H); auto.
  { intros i x y Vi. destruct (ups_vertex _ _ _ _ _ _ R i (vertex_two _ _ _ _ Vi)) as (j & _ & Ej). apply (Ins0 j). congruence. }
  exists ns, es, cs. split; [exact Et|]. split; [exact V|]. intros polys corner C A S O F. destruct (H polys corner C A S O F) as (m & m' & Pm & Lm & Em & Sn & W).
  exists m, m'. split; [exact Pm|]. split; [lia|]. split; [|split; auto].
  unfold tessellateDegenerateBox. rewrite E. cbn [bind]. rewrite Em. reflexivity.
Qed.
Print Assumptions degenerate_box_partial.

(* the five points, and the same with three more that coincide with the first two *)
Example five_order : uniquePoints uint64_key 2 five [0; 0]%Q [10; 10]%Q (1 # 10) = Ok (five, [0; 1; 2; 3; 4]).
Proof. vm_compute. reflexivity. Qed.
Example five_unique : uniquePoints uint64_key 2 five [0; 0]%Q [10; 10]%Q (1 # 10) = Ok (five, seq 0 (length five / 2)).
Proof.
  refine (proj1 (degenerate_unique_partial five [0; 0]%Q [10; 10]%Q (1 # 10) eq_refl _ _ _)).
  - intros [|[|j]] L; [| |lia]; vm_compute; discriminate.
  - intros i Li. change (i < 5) in Li. intros [|[|j]] L; [| |lia]; do 5 (destruct i as [|i]; [split; vm_compute; discriminate|]); lia.
  - assert (Q : forall p q x y, coord p 0 = inject_Z x -> coord q 0 = inject_Z y -> (x < y)%Z -> ~ SameCell 2 [0; 0]%Q [10; 10]%Q (1 # 10) p q).
    { intros p q x y Px Qy L. apply (not_same _ _ _ _ _ 0 (inject_Z (10 * y))); [reflexivity|reflexivity|lia| | |eauto];
        unfold coord in *; rewrite ?Px, ?Qy; cbn [nth]; rewrite inject_Z_mult; change (inject_Z 10) with 10%Q; [lra|]. rewrite Zlt_Qlt in L. lra. }
    assert (X : forall k, k < 5 -> coord (vertex 2 five k) 0 = inject_Z (nth k [2; 7; 8; 3; 5]%Z 0%Z)) by (intros k L; do 5 (destruct k as [|k]; [reflexivity|]); lia).
    intros i j Li Lj Sm. change (i < 5) in Li. change (j < 5) in Lj. pose proof (X i Li) as Xi. pose proof (X j Lj) as Xj.
    destruct (Z.lt_trichotomy (nth i [2; 7; 8; 3; 5]%Z 0%Z) (nth j [2; 7; 8; 3; 5]%Z 0%Z)) as [L|[Eq|L]].
    + destruct (Q _ _ _ _ Xi Xj L Sm).
    + clear - Li Lj Eq. do 5 (destruct i as [|i]; [do 5 (destruct j as [|j]; [first [reflexivity|discriminate Eq]|]); lia|]). lia.
    + destruct Sm as (zs & A & B). destruct (Q _ _ _ _ Xj Xi L). exists zs. auto.
Qed.
Example eight_box : exists m m', tessellateDegenerateBox uint64_key 2 (fun ps => tessellate_box 1000 (fun _ => five_tris) box_lib (1 # 1000) ps 0 0 10 10 mesh_new) eight [0; 0]%Q [10; 10]%Q (1 # 10) =
    Ok (m', [0; 1; 2; 3; 4; 1; 0; 0]) /\ PolygonMesh sq_frame five_polys m /\ length (nodes m') = length (nodes m) /\ WellFormed 2 m'.
Proof.
  destruct five_conditions as (gq & uq & N0 & Ev & Bb & Ins & Ff & C & D & Ou & ns & es & cs & E & Cut & Ap & Sd & Os).
  destruct (degenerate_box_partial 1000 (fun _ => five_tris) box_lib (1 # 1000) eight (1 # 10) 0 0 10 10) as (ups & imap & Eu & Co & H).
  - cbn; lia.
  - reflexivity.
  - split; [|split]; vm_compute; auto; discriminate.
  - split; [|split]; vm_compute; auto; discriminate.
  - apply in_square. vm_compute. reflexivity.
  - assert (Ee : uniquePoints uint64_key 2 eight [0; 0]%Q [10; 10]%Q (1 # 10) = Ok (five, [0; 1; 2; 3; 4; 1; 0; 0])) by (vm_compute; reflexivity).
    rewrite Ee in Eu. injection Eu as <- <-.
    destruct (H sq_frame gq uq Ff C D) as (ns' & es' & cs' & E' & _ & K).
    { change (qmax (10 - 0) (10 - 0)) with (10 - 0)%Q. unfold Q2R. cbn. Lra.lra. }
    rewrite E in E'. injection E' as <- <- <-.
    assert (T : (4 * Q2R (1 # 1000) * Q2R (qmax (10 - 0) (10 - 0)) = 4 * Q2R (1 # 1000) * 10)%R) by (change (qmax (10 - 0) (10 - 0)) with (10 - 0)%Q; unfold Q2R; cbn; Lra.lra).
    rewrite T in K. destruct (K five_polys five_corner Cut Ap Sd Os five_fitting) as (m & m' & Pm & Lm & Em & Sn & W).
    exists m, m'. split; [exact Em|]. split; [exact Pm|]. split; [|exact W]. rewrite (sn_size _ _ _ _ _ Sn). apply map_length.
Qed.
