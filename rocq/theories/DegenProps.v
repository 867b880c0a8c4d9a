(* Tessellating points of which some may coincide: tessellateDegenerate with the tessellations of
   C80 and C81 (C97).  The vocabulary is in HashSpec.v, TessSpec.v and BoundedSpec.v. *)
From Coq Require Import QArith Lqa.
From Verif Require Import Base BaseFacts SerializeModel MeshModel MeshSpec QuantMeshModel QuantMeshProps PLCSpec PLCProofs BoxModel BoxProofs BoxProps Plane WithinSpec HashModel HashSpec HashProofs HashProofs2 HashProps TriModel TriSpec TriProps TriCheck TessModel TessSpec TessProps ClipModel ClipSpec BoundedModel BoundedSpec BoundedCheck BoundedProps.
Local Open Scope nat_scope.

(* What the caller is told about the points: imap gives each of them a cell of the mesh, made for
   the first point in the same square of the grid over the box; points share a cell exactly if they
   are in one square. *)
Record CellsOf (points : list Q) (lo hi : list Q) (tol : Q) (ncells : nat) (ups : list Q) (imap : list nat) : Prop := {
  co_len : 2 * length imap = length points;
  co_cell : forall i k, nth_error imap i = Some k -> k < ncells;
  co_ups : length ups = 2 * ncells;
  co_same : forall i j k l, nth_error imap i = Some k -> nth_error imap j = Some l ->
     (k = l <-> SameCell 2 lo hi tol (vertex 2 points i) (vertex 2 points j));
  co_first : forall k, k < ncells -> exists i, nth_error imap i = Some k /\ vertex 2 ups k = vertex 2 points i /\
     forall j, j < i -> ~ SameCell 2 lo hi tol (vertex 2 points j) (vertex 2 points i) }.

Lemma even_half n : n mod 2 = 0 -> 2 * (n / 2) = n.
Proof. intros H. pose proof (Nat.div_mod n 2 ltac:(lia)). lia. Qed.

Section Merged.
  Context (points lo hi : list Q) (tol : Q) (ups : list Q) (imap : list nat).
  Context (Ev : length points mod 2 = 0).
  Context (R : MergedBy 2 points (fun i j => SameCell 2 lo hi tol (vertex 2 points i) (vertex 2 points j)) ups imap).
  Lemma ups_even : length ups mod 2 = 0.
  Proof using R.
    clear Ev. pose proof (Nat.div_mod (length ups) 2 ltac:(lia)) as D. pose proof (Nat.mod_upper_bound (length ups) 2 ltac:(lia)).
    destruct (Nat.eq_dec (length ups mod 2) 0) as [E|NE]; [exact E|]. exfalso.
    destruct (mb_first _ _ _ _ _ R (length ups / 2)) as (i & Hi & _); [lia|].
    pose proof (mb_range _ _ _ _ _ R i _ Hi). lia.
  Qed.
  Lemma cells_of n : length ups = 2 * n -> CellsOf points lo hi tol n ups imap.
  Proof using Ev R.
    intros L. constructor; auto.
    - rewrite (mb_len _ _ _ _ _ R). apply even_half. exact Ev.
    - intros i k H. pose proof (mb_range _ _ _ _ _ R i k H). lia.
    - exact (mb_same _ _ _ _ _ R).
    - intros k Lk. destruct (mb_first _ _ _ _ _ R k) as (i & Hi & V & F); [lia|]. exists i. split; auto. split; auto.
      intros j Lj S. pose proof (nth_error_lt _ _ _ Hi). destruct (nth_error_ex imap j) as [l Hl]; [lia|].
      pose proof (F j l Lj Hl). pose proof (proj2 (mb_same _ _ _ _ _ R j i l k Hl Hi) S). lia.
  Qed.
  Lemma ups_vertex i : 2 * i + 2 <= length ups -> exists j, j < length points / 2 /\ vertex 2 ups i = vertex 2 points j.
  Proof using R.
    clear Ev. intros L. destruct (mb_first _ _ _ _ _ R i) as (j & Hj & V & _); [lia|]. exists j. split; auto.
    rewrite <- (mb_len _ _ _ _ _ R). eapply nth_error_lt; eauto.
  Qed.
  Lemma vertex_two (l : list Q) i x y : vertex 2 l i = [x; y] -> 2 * i + 2 <= length l.
  Proof using.
    clear Ev R.
    intros V. assert (L : length (vertex 2 l i) = 2) by (rewrite V; auto). unfold vertex in L. rewrite firstn_length, skipn_length in L. lia.
  Qed.
  Lemma two_of (l : list Q) i : 2 * i + 2 <= length l -> exists x y, vertex 2 l i = [x; y].
  Proof using.
    clear Ev R.
    intros L. assert (H : length (vertex 2 l i) = 2) by (unfold vertex; rewrite firstn_length, skipn_length; lia).
    destruct (vertex 2 l i) as [|x [|y [|? ?]]]; try discriminate. eauto.
  Qed.
  Lemma ups_in x : In x ups -> In x points.
  Proof using R.
    clear Ev. intros I. apply In_nth_error in I as [n H]. pose proof (nth_error_lt _ _ _ H) as L.
    pose proof ups_even as E. apply even_half in E. pose proof (Nat.div_mod n 2 ltac:(lia)) as D. pose proof (Nat.mod_upper_bound n 2 ltac:(lia)).
    destruct (ups_vertex (n / 2)) as (j & Lj & V); [lia|].
    assert (G : In x (vertex 2 ups (n / 2))).
    { unfold vertex. apply (nth_error_In _ (n mod 2)). replace (nth_error (firstn 2 (skipn (2 * (n / 2)) ups)) (n mod 2)) with (nth_error ups n); [exact H|].
      symmetry. destruct (n mod 2) as [|[|k]] eqn:M; [| |lia].
      - replace n with (2 * (n / 2)) at 2 by lia. rewrite (nth_error_nth' _ 0%Q) by (rewrite firstn_length, skipn_length; lia).
        rewrite (nth_error_nth' _ 0%Q) by lia. f_equal. destruct (two_of ups (n / 2)) as (a & b & V'); [lia|]. unfold vertex in V'.
        rewrite <- (firstn_skipn (2 * (n / 2)) ups) at 2. rewrite app_nth2; rewrite firstn_length_le by lia; [|lia]. rewrite Nat.sub_diag.
        destruct (skipn (2 * (n / 2)) ups); reflexivity.
      - replace n with (2 * (n / 2) + 1) at 2 by lia. rewrite (nth_error_nth' _ 0%Q) by (rewrite firstn_length, skipn_length; lia).
        rewrite (nth_error_nth' _ 0%Q) by lia. f_equal.
        rewrite <- (firstn_skipn (2 * (n / 2)) ups) at 2. rewrite app_nth2; rewrite firstn_length_le by lia; [|lia]. replace (2 * (n / 2) + 1 - 2 * (n / 2)) with 1 by lia.
        destruct (skipn (2 * (n / 2)) ups) as [|a [|b t]]; reflexivity. }
    rewrite V in G. unfold vertex in G. rewrite <- (firstn_skipn (2 * j) points). apply in_or_app. right.
    rewrite <- (firstn_skipn 2 (skipn (2 * j) points)). apply in_or_app. left. exact G.
  Qed.
End Merged.

(* points in different squares differ in a coordinate *)
Lemma cell_qeq D lo hi tol p q zs : (forall j, j < D -> (coord p j == coord q j)%Q) -> InCell D lo hi tol p zs -> InCell D lo hi tol q zs.
Proof.
  intros E [L H]. split; auto. intros j z Hz. destruct (H j z Hz) as (B & s & G & X). split; auto. exists s. split; auto.
  assert (Lj : j < D) by (rewrite <- L; eapply nth_error_lt; eauto). rewrite <- (E j Lj). exact X.
Qed.
Lemma has_cell lo hi tol p : Nested 2 lo hi lo hi -> Inside 2 lo hi p -> exists zs, InCell 2 lo hi tol p zs.
Proof.
  intros N I. destruct (hashPosition_cells uint64_key 2 p lo hi lo hi tol (or_introl eq_refl) (fits_u64 2 (or_introl eq_refl)) N I) as (zs & C & _).
  exists zs. destruct (outside 2 p lo hi); exact C.
Qed.
Lemma apart_differ lo hi tol p q : Nested 2 lo hi lo hi -> Inside 2 lo hi p -> ~ SameCell 2 lo hi tol p q ->
  exists j, j < 2 /\ (coord p j < coord q j \/ coord q j < coord p j)%Q.
Proof.
  intros N I S. destruct (Qeq_dec (coord p 0) (coord q 0)) as [E0|E0]; [destruct (Qeq_dec (coord p 1) (coord q 1)) as [E1|E1]|].
  - exfalso. apply S. destruct (has_cell lo hi tol p N I) as (zs & C). exists zs. split; auto.
    apply (cell_qeq 2 lo hi tol p q zs); auto. intros [|[|j]] L; auto; lia.
  - exists 1. split; [lia|]. destruct (Q_dec (coord p 1) (coord q 1)) as [[L|L]|E]; [left|right|destruct E1]; auto.
  - exists 0. split; [lia|]. destruct (Q_dec (coord p 0) (coord q 0)) as [[L|L]|E]; [left|right|destruct E0]; auto.
Qed.
Lemma in_tight points lo hi : length points mod 2 = 0 -> TightBox 2 (points_of 2 points) (lo, hi) -> forall i, i < length points / 2 -> Inside 2 lo hi (vertex 2 points i).
Proof.
  intros Ev T i Hi j Hj. assert (Ip : In (vertex 2 points i) (points_of 2 points)) by (unfold points_of; apply in_map, in_seq; lia).
  apply even_half in Ev. destruct (two_of points i) as (x & y & V); [lia|].
  pose proof (tb_lo _ _ _ T) as TL. pose proof (tb_hi _ _ _ T) as TH. cbn in TL, TH.
  destruct (nth_error_ex (vertex 2 points i) j) as [v Hv]; [rewrite V; cbn; lia|]. destruct (nth_error_ex lo j) as [l Hl]; [lia|]. destruct (nth_error_ex hi j) as [u Hu]; [lia|].
  unfold coord. rewrite (nth_error_nth _ _ 0%Q Hv), (nth_error_nth _ _ 0%Q Hl), (nth_error_nth _ _ 0%Q Hu).
  apply (tb_in _ _ _ T _ _ _ _ _ Ip Hv Hl Hu).
Qed.
Lemma in_points (l : list Q) i x y : vertex 2 l i = [x; y] -> In [x; y] (points_of 2 l).
Proof.
  intros V. pose proof (vertex_two _ _ _ _ V). unfold points_of. rewrite <- V. apply in_map. apply in_seq.
  assert (S i <= length l / 2); [|lia]. apply Nat.div_le_lower_bound; lia.
Qed.

(* ------------------------------------------------------------ C97 *)
(* Without a boundary, with the 64 bit key the comments assume.  The points may coincide, but not
   all in one square.  ups are the points that remain; given their Delaunay triangulation, as in
   points_tessellation, the call returns the tessellation of these and the cell of each point. *)
Theorem degenerate_tessellation_partial : forall big points tol lo hi,
  0 < length points -> length points mod 2 = 0 -> (forall x, In x points -> (- big <= x <= big)%Q) ->
  local_box 2 big points = Ok (lo, hi) ->
  (exists i j, i < length points / 2 /\ j < length points / 2 /\ ~ SameCell 2 lo hi tol (vertex 2 points i) (vertex 2 points j)) ->
  exists ups imap, uniquePoints uint64_key 2 points lo hi tol = Ok (ups, imap) /\ CellsOf points lo hi tol (length ups / 2) ups imap /\
    forall tris f gens guards, boundary_frame big ups = Ok f -> construct f ups = Ok (gens, guards) ->
    Delaunay (map (deq f) (map fst gens ++ map fst guards)) (length gens) tris ->
    exists m, tessellateDegenerate uint64_key 2 big (fun ps => tessellate_points big ps tris mesh_new) points points tol = Ok (m, imap) /\
      Tessellated f (map (deq f) (map fst gens ++ map fst guards)) ups m /\ length (cells m) = length ups / 2.
Proof.
  intros big points tol lo hi N0 Ev Rg Box (i & j & Li & Lj & Df).
  destruct (bounding_box_tight 2 big points N0 Ev Rg) as ([lo' hi'] & Box' & Tb). rewrite Box in Box'. injection Box' as <- <-.
  pose proof (in_tight points lo hi Ev Tb) as Ins.
  assert (N : Nested 2 lo hi lo hi). { constructor; intros; try lra; [|discriminate]. destruct (Ins i Li j0 H). lra. }
  destruct (unique_points_partial 2 points lo hi tol (or_introl eq_refl) Ev N Ins) as (ups & imap & E & R).
  pose proof (ups_even _ _ _ _ _ _ R) as Eu. pose proof (even_half _ Eu) as Hu.
  exists ups, imap. pose proof (cells_of _ _ _ _ _ _ Ev R (length ups / 2) ltac:(lia)) as Co. split; [exact E|]. split; [exact Co|].
  intros tris f gens guards Ff Cs D.
  destruct (nth_error_ex imap i) as [k Hk]; [rewrite (mb_len _ _ _ _ _ R); auto|]. destruct (nth_error_ex imap j) as [l Hl]; [rewrite (mb_len _ _ _ _ _ R); auto|].
  assert (Nk : k <> l) by (intros Eq; apply Df; apply (mb_same _ _ _ _ _ R i j k l Hk Hl); auto).
  pose proof (mb_range _ _ _ _ _ R i k Hk) as Rk. pose proof (mb_range _ _ _ _ _ R j l Hl) as Rl.
  destruct (mb_first _ _ _ _ _ R k) as (i' & Hi' & Vk & _); [lia|]. destruct (mb_first _ _ _ _ _ R l) as (j' & Hj' & Vl & _); [lia|].
  assert (Li' : i' < length points / 2) by (rewrite <- (mb_len _ _ _ _ _ R); eapply nth_error_lt; eauto).
  assert (S' : ~ SameCell 2 lo hi tol (vertex 2 points i') (vertex 2 points j')) by (intros S; apply Nk; apply (mb_same _ _ _ _ _ R i' j' k l Hi' Hj'); auto).
  destruct (apart_differ lo hi tol _ _ N (Ins i' Li') S') as (d & Ld & Q). rewrite <- Vk, <- Vl in Q.
  destruct (two_of ups k ltac:(lia)) as (xk & yk & Ek). destruct (two_of ups l ltac:(lia)) as (xl & yl & El).
  pose proof (in_points _ _ _ _ Ek) as Ik. pose proof (in_points _ _ _ _ El) as Il.
  destruct (points_tessellation big ups tris f gens guards) as (m & Em & T); auto.
  - lia.
  - intros x I. apply Rg. apply (ups_in _ _ _ _ _ _ R). exact I.
  - rewrite Ek, El in Q. unfold coord in Q. destruct d as [|[|d]]; [| |lia]; cbn in Q; (destruct Q as [Q|Q]; [exists [xk; yk], [xl; yl]|exists [xl; yl], [xk; yk]]).
    + exists 0, xk, xl. auto 6.
    + exists 0, xl, xk. auto 6.
    + exists 1, yk, yl. auto 6.
    + exists 1, yl, yk. auto 6.
  - exists m. split; [|split; [exact T|]].
    + unfold tessellateDegenerate. rewrite Box. cbn [bind]. rewrite E. cbn [bind]. rewrite Em. reflexivity.
    + pose proof (ts_cells _ _ _ _ T). lia.
Qed.
Print Assumptions degenerate_tessellation_partial.

(* In a boundary: the grid is that over the box of the boundary. *)
Theorem degenerate_bounded_partial : forall big tri_lib lib points tol PLCpoints geometry lo hi xl yl xh yh,
  0 < length points -> length points mod 2 = 0 -> BoundaryBox big PLCpoints xl yl xh yh ->
  (forall i x y, vertex 2 points i = [x; y] -> (xl <= x <= xh)%Q /\ (yl <= y <= yh)%Q) ->
  local_box 2 big PLCpoints = Ok (lo, hi) ->
  exists ups imap, uniquePoints uint64_key 2 points lo hi tol = Ok (ups, imap) /\ CellsOf points lo hi tol (length ups / 2) ups imap /\
    forall f gens guards outer inner, boundary_frame big PLCpoints = Ok f -> construct f ups = Ok (gens, guards) ->
    let pts := map (deq f) (map fst gens ++ map fst guards) in
    Delaunay pts (length gens) (tri_lib pts) ->
    Outline f PLCpoints (facets geometry) outer -> Forall2 (Outline f PLCpoints) (holes geometry) inner ->
    exists ns es cs, tess_grid tri_lib f (map fst guards) (map fst gens) = Ok (ns, es, cs) /\
      (forall i c, nth_error cs i = Some c -> VoronoiCell f pts (length gens) (tri_lib pts) ns es i c) /\
      forall polys, CutTo lib (b_outline lib outer inner) (map fst gens) ns es cs polys -> WellApart polys -> SideBySide polys -> (exists s, OuterSide polys s) ->
      exists m, tessellateDegenerate uint64_key 2 big (fun ps => tessellate_clipped big tri_lib lib ps PLCpoints geometry mesh_new) PLCpoints points tol = Ok (m, imap) /\
        PolygonMesh f polys m /\ length (cells m) = length ups / 2.
Proof.
  intros big tri_lib lib points tol v g lo hi xl yl xh yh N0 Ev Bb Ins0 Box.
  destruct (box_of _ _ _ _ _ _ Bb) as (xl' & yl' & xh' & yh' & Box' & Q1 & Q2 & Q3 & Q4). rewrite Box in Box'. injection Box' as -> ->.
  assert (Ins : forall i, i < length points / 2 -> Inside 2 [xl'; yl'] [xh'; yh'] (vertex 2 points i)).
  { intros i Li. pose proof (even_half _ Ev). destruct (two_of points i ltac:(lia)) as (x & y & V). destruct (Ins0 i x y V). rewrite V.
    intros [|[|j]] Hj; [| |lia]; unfold coord; cbn; lra. }
  assert (P : 0 < length points / 2) by (pose proof (even_half _ Ev); lia).
  assert (N : Nested 2 [xl'; yl'] [xh'; yh'] [xl'; yl'] [xh'; yh']). { constructor; intros; try lra; [|discriminate]. destruct (Ins 0 P j H). lra. }
  destruct (unique_points_partial 2 points _ _ tol (or_introl eq_refl) Ev N Ins) as (ups & imap & E & R).
  pose proof (ups_even _ _ _ _ _ _ R) as Eu. pose proof (even_half _ Eu) as Hu.
  exists ups, imap. split; [exact E|]. split; [apply (cells_of _ _ _ _ _ _ Ev R); lia|].
  intros f gens guards outer inner Ff Cs pts D Ou In_.
  assert (U0 : 0 < length ups).
  { destruct (nth_error_ex imap 0) as [k Hk]; [rewrite (mb_len _ _ _ _ _ R); auto|]. pose proof (mb_range _ _ _ _ _ R 0 k Hk). lia. }
  destruct (bounded_tessellation big tri_lib lib ups v g xl yl xh yh f gens guards outer inner U0 Eu Bb) as (ns & es & cs & Et & V & H); auto.
  { intros i x y Vi. destruct (ups_vertex _ _ _ _ _ _ R i (vertex_two _ _ _ _ Vi)) as (j & _ & Ej). apply (Ins0 j). congruence. }
  exists ns, es, cs. split; [exact Et|]. split; [exact V|]. intros polys C A S O. destruct (H polys C A S O) as (m & Em & Pm & Lm).
  exists m. split; [|split; [exact Pm|lia]].
  unfold tessellateDegenerate. rewrite Box. cbn [bind]. rewrite E. cbn [bind]. rewrite Em. reflexivity.
Qed.
Print Assumptions degenerate_bounded_partial.

(* With the key type of the code, int: two points half a box apart are given one cell, for every
   tessellator. *)
Theorem degenerate_int_refuted : exists points lo hi, local_box 2 (2 ^ 40) points = Ok (lo, hi) /\
  ~ SameCell 2 lo hi 0 (vertex 2 points 0) (vertex 2 points 1) /\
  forall M (tess : list Q -> res M), tessellateDegenerate int_key 2 (2 ^ 40) tess points points 0 =
    (do mesh <- tess (vertex 2 points 0 ++ vertex 2 points 2); Ok (mesh, [0; 0; 1])).
Proof.
  exists [0; 0; 0; inject_Z (2 ^ 30); inject_Z (2 ^ 31 - 1); inject_Z (2 ^ 31 - 1)]%Q, [0; 0]%Q, [inject_Z (2 ^ 31 - 1); inject_Z (2 ^ 31 - 1)]%Q.
  split; [vm_compute; reflexivity|]. split.
  - intros (zs & [L H] & [_ H']). destruct zs as [|x [|y [|? ?]]]; try discriminate.
    destruct (H 1 y eq_refl) as (B & s & G & A1 & A2). destruct (H' 1 y eq_refl) as (_ & s' & G' & A1' & A2').
    unfold coord in *. cbn [nth vertex firstn skipn Nat.mul Nat.add] in *. pose proof (gs_least _ _ _ _ _ G) as Ls. pose proof (gs_least _ _ _ _ _ G') as Ls'.
    pose proof (gs_res _ _ _ _ _ G) as Rs. pose proof (gs_res _ _ _ _ _ G') as Rs'.
    assert (S1 : (s == 1)%Q). { assert (X : ((inject_Z (2 ^ 31 - 1) - 0) / inject_Z (cells1d 2 - 1) == 1)%Q) by (vm_compute; reflexivity). rewrite X in *. destruct Ls as [-> | [E|E]]; [reflexivity| |]; exfalso; rewrite E in Rs; vm_compute in Rs; apply Rs; reflexivity. }
    assert (S1' : (s' == 1)%Q). { assert (X : ((inject_Z (2 ^ 31 - 1) - 0) / inject_Z (cells1d 2 - 1) == 1)%Q) by (vm_compute; reflexivity). rewrite X in *. destruct Ls' as [-> | [E|E]]; [reflexivity| |]; exfalso; rewrite E in Rs'; vm_compute in Rs'; apply Rs'; reflexivity. }
    rewrite S1 in *. rewrite S1' in *. assert (Y : (inject_Z y <= 0)%Q) by lra.
    change 0%Q with (inject_Z 0) in Y. rewrite <- Zle_Qle in Y. assert (y = 0)%Z by lia. subst y.
    vm_compute in A2'. discriminate.
  - intros M tess. unfold tessellateDegenerate.
    replace (local_box 2 (2 ^ 40) _) with (Ok ([0; 0], [inject_Z (2 ^ 31 - 1); inject_Z (2 ^ 31 - 1)])%Q) by (vm_compute; reflexivity). cbn [bind].
    replace (uniquePoints int_key 2 _ _ _ 0) with (Ok ([0; 0; inject_Z (2 ^ 31 - 1); inject_Z (2 ^ 31 - 1)]%Q, [0; 0; 1])) by (vm_compute; reflexivity). reflexivity.
Qed.
Print Assumptions degenerate_int_refuted.

(* The five points of C80 and C81, two of them given twice and one slightly moved. *)
Definition eight : list Q := (five ++ [7; 2; 2; 3; 201 # 100; 3])%Q.
Lemma eight_merged lo hi : local_box 2 1000 eight = Ok (lo, hi) -> uniquePoints uint64_key 2 eight lo hi (1 # 10) = Ok (five, [0; 1; 2; 3; 4; 1; 0; 0]).
Proof. intros H. vm_compute in H. injection H as <- <-. vm_compute. reflexivity. Qed.
Lemma not_same lo hi tol p q j l : (coord hi j - coord lo j < inject_Z (2 ^ 31 - 1) * tol)%Q -> (1 # 2 ^ 52 < tol)%Q -> j < 2 ->
  (coord lo j + l * tol <= coord q j)%Q -> (coord p j < coord lo j + l * tol)%Q -> (exists z, l = inject_Z z) -> ~ SameCell 2 lo hi tol p q.
Proof.
  intros Sm Ep Lj Hq Hp (z & ->) (zs & [L H] & [_ H']). destruct (nth_error_ex zs j) as [y Hy]; [lia|].
  destruct (H j y Hy) as (B & s & G & A1 & A2). destruct (H' j y Hy) as (_ & s' & G' & A1' & A2').
  assert (S : forall s, GridStep 2 (coord lo j) (coord hi j) tol s -> (s == tol)%Q).
  { intros t [Gr Gt Ge [E|[E|E]]]; [|exact E|lra]. change (inject_Z (cells1d 2 - 1)) with (inject_Z (2 ^ 31 - 1)) in *.
    assert (X : ((coord hi j - coord lo j) / inject_Z (2 ^ 31 - 1) < tol)%Q) by (apply Qlt_shift_div_r; [reflexivity|lra]). lra. }
  rewrite (S s G) in *. rewrite (S s' G') in *. assert (T : (0 < tol)%Q) by lra.
  assert (Y1 : (inject_Z y * tol < inject_Z z * tol)%Q) by lra. assert (Y2 : (inject_Z z * tol < (inject_Z y + 1) * tol)%Q) by lra.
  apply Qmult_lt_r in Y1, Y2; auto. change 1%Q with (inject_Z 1) in Y2. rewrite <- inject_Z_plus in Y2. rewrite <- Zlt_Qlt in Y1, Y2. lia.
Qed.
Example eight_points : exists m f pts, tessellateDegenerate uint64_key 2 1000 (fun ps => tessellate_points 1000 ps own_tris mesh_new) eight eight (1 # 10) =
    Ok (m, [0; 1; 2; 3; 4; 1; 0; 0]) /\ Tessellated f pts five m.
Proof.
  assert (C : exists gens guards, construct own_frame five = Ok (gens, guards) /\ length gens = 5 /\
    delaunayb (map fst gens ++ map fst guards) own_tris own_stars = true).
  { do 2 eexists. split; [reflexivity|]. split; [reflexivity|]. vm_compute. reflexivity. }
  destruct C as (gens & guards & C & Lg & Db).
  assert (B : exists lo hi, local_box 2 1000 eight = Ok (lo, hi)) by (do 2 eexists; vm_compute; reflexivity). destruct B as (lo & hi & B).
  destruct (degenerate_tessellation_partial 1000 eight (1 # 10) lo hi) as (ups & imap & E & Co & H).
  - cbn; lia.
  - reflexivity.
  - apply Forall_forall. repeat constructor; vm_compute; discriminate.
  - exact B.
  - exists 0, 1. split; [cbn; lia|]. split; [cbn; lia|]. vm_compute in B. injection B as <- <-.
    apply (not_same _ _ _ _ _ 0 (inject_Z 10)); [reflexivity|reflexivity|lia|vm_compute; discriminate|reflexivity|eauto].
  - rewrite (eight_merged lo hi B) in E. injection E as <- <-.
    destruct (H own_tris own_frame gens guards) as (m & Em & T & _); [vm_compute; reflexivity|exact C| |].
    + rewrite Lg. apply (delaunayb_ok own_frame _ _ own_stars); [split; reflexivity|exact Db].
    + exists m. eauto.
Qed.
Example eight_bounded : exists m, tessellateDegenerate uint64_key 2 1000 (fun ps => tessellate_clipped 1000 (fun _ => five_tris) box_lib ps square square_plc mesh_new) square eight (1 # 10) =
    Ok (m, [0; 1; 2; 3; 4; 1; 0; 0]) /\ PolygonMesh sq_frame five_polys m.
Proof.
  destruct five_conditions as (gq & uq & N0 & Ev & Bb & Ins & Ff & C & D & Ou & ns & es & cs & E & Cut & Ap & Sd & Os).
  assert (B : exists lo hi, local_box 2 1000 square = Ok (lo, hi)) by (do 2 eexists; vm_compute; reflexivity). destruct B as (lo & hi & B).
  destruct (degenerate_bounded_partial 1000 (fun _ => five_tris) box_lib eight (1 # 10) square square_plc lo hi 0 0 10 10) as (ups & imap & Eu & Co & H); auto.
  - cbn; lia.
  - apply in_square. vm_compute. reflexivity.
  - assert (Ee : uniquePoints uint64_key 2 eight lo hi (1 # 10) = Ok (five, [0; 1; 2; 3; 4; 1; 0; 0])) by (vm_compute in B; injection B as <- <-; vm_compute; reflexivity).
    rewrite Ee in Eu. injection Eu as <- <-.
    destruct (H sq_frame gq uq square_outline [] Ff C D Ou) as (ns' & es' & cs' & E' & _ & K); [constructor|].
    rewrite E in E'. injection E' as <- <- <-. destruct (K five_polys Cut Ap Sd Os) as (m & Em & Pm & _). exists m. auto.
Qed.
