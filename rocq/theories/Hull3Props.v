(* Theorems about the convex hull in space (C50, C66). *)
From Verif Require Import Base BaseFacts Plane PLCSpec MeshEditorModel BoxModel BoxProofs BoxProps HashModel HashSpec HashProps RayModel WithinProofs
  Hull3Model Hull3Spec Hull3Proofs Hull3Proofs2 Hull3Proofs3 Hull3Proofs4 Hull3Proofs5 Hull3Proofs6.
From Coq Require Import QArith Lqa Permutation.
Local Open Scope nat_scope.

(* ------------------------------------------------------------ C66 *)
(* The first m points lie in pairwise different cells of the grid points are merged on, and
   every later point lies in the cell of one of them: copies of points, if any, come last. *)
Definition CopiesLast (m : nat) (points : list Q) (dx : Q) : Prop :=
  m <= length points / 3 /\ forall lo hi, TightBox 3 (points_of 3 points) (lo, hi) ->
    (forall i j, i < m -> j < m -> SameCell 3 lo hi dx (vertex 3 points i) (vertex 3 points j) -> i = j) /\
    (forall i, m <= i < length points / 3 -> exists j, j < m /\ SameCell 3 lo hi dx (vertex 3 points i) (vertex 3 points j)).

Lemma pts3_at points i : i < length points / 3 -> at3 (pts3 points) i = pt_at points i.
Proof. intros L. unfold at3, pts3. rewrite (nth_indep _ (0, 0, 0)%Q (pt_at points 0)) by (rewrite map_length, seq_length; auto). change (fun i0 => (nth (3 * i0) points 0, nth (3 * i0 + 1) points 0, nth (3 * i0 + 2) points 0)%Q) with (pt_at points). rewrite map_nth, seq_nth; auto. Qed.
Lemma at3_firstn l m i : i < m -> at3 (firstn m l) i = at3 l i.
Proof. intros L. unfold at3. revert m i L. induction l as [|a l IH]; intros [|m] [|i] L; try lia; cbn; auto. apply IH. lia. Qed.

(* With a 64 bit key, the facets convexHull_3d returns are the surface of the convex hull of the
   points, in the numbering of the caller.  Partial: no three of the points in line, points either
   in the plane of three others or clearly off it, and copies of points only after all others. *)
Theorem convex_hull_3d_partial : forall big points dx m,
  length points mod 3 = 0 -> (forall x, In x points -> (- big <= x <= big)%Q) ->
  CopiesLast m points dx -> Separated (firstn m (pts3 points)) ->
  exists facets ts, convexHull_3d uint64_key big points dx = Ok facets /\ facets = map corners ts /\
    HullSurface (firstn m (pts3 points)) ts.
Proof.
  intros big points dx m Hm B (Lm & C) Sep. set (ps := firstn m (pts3 points)) in *.
  assert (Lp : length ps = m). { unfold ps, pts3. rewrite firstn_length, map_length, seq_length. lia. }
  assert (At : forall i, i < m -> at3 ps i = pt_at points i). { intros i L. unfold ps. rewrite at3_firstn by auto. apply pts3_at. lia. }
  assert (P0 : 0 < length points).
  { pose proof (four_points ps Sep). pose proof (Nat.div_mod (length points) 3 ltac:(lia)). lia. }
  destruct (merge3 big points P0 Hm B) as (lo & hi & Eb & T & N & I).
  { intros j J. assert (G : forall k : p3 -> Q, (forall i, k (pt_at points i) = coord (vertex 3 points i) j) ->
      (forall a b c d, k b == k a -> k c == k a -> k d == k a -> vol6 a b c d == 0)%Q ->
      exists i i', i < length points / 3 /\ i' < length points / 3 /\ (coord (vertex 3 points i) j < coord (vertex 3 points i') j)%Q).
    { intros k Hk Fl. destruct (spread ps Sep k Fl) as (a & b & La & Lb & X). rewrite Lp in La, Lb. exists a, b. split; [lia|]. split; [lia|]. rewrite !At, !Hk in X by auto. auto. }
    destruct j as [|[|[|j]]]; [| | |lia].
    - apply (G X3); [|apply flat_x]. intros i. unfold pt_at, coord. cbn [X3]. rewrite <- nth_vertex by lia. f_equal. lia.
    - apply (G Y3); [|apply flat_y]. intros i. unfold pt_at, coord. cbn [Y3]. rewrite <- nth_vertex by lia. reflexivity.
    - apply (G Z3); [|apply flat_z]. intros i. unfold pt_at, coord. cbn [Z3]. rewrite <- nth_vertex by lia. reflexivity. }
  destruct (unique_points_partial 3 points lo hi dx (or_intror eq_refl) Hm N I) as (ups & imap & Eu & M).
  destruct (C lo hi T) as [C1 C2]. unfold convexHull_3d. rewrite Hm. cbn [Nat.eqb assert bind]. rewrite Eb. cbn [bind]. rewrite Eu. cbn [bind].
  rewrite (ups_points points _ ups imap M m Lm C1 C2). cbn [bind]. fold ps. destruct (hull3_ok ps Sep) as (fs & Ef & HS). rewrite Ef. cbn [bind].
  exists (map corners (map tri fs)), (map tri fs). split; [|auto]. rewrite map_map.
  assert (G : forall l, (forall f, In f l -> In f fs) -> mmap (fun f => do a <- get imap (fi f); do b <- get imap (fj f); do c <- get imap (fk f); Ok [a; b; c]) l = Ok (map (fun f => corners (tri f)) l)).
  { induction l as [|f l IH]; intros Hl; [reflexivity|]. cbn [mmap map].
    destruct (hs_proper _ _ HS (fi f) (fj f) (fk f)) as (A1 & A2 & A3 & _); [apply (in_map tri), Hl; left; auto|]. rewrite Lp in A1, A2, A3.
    assert (Gt : forall i, i < m -> get imap i = Ok i) by (intros i Li; apply get_ok; apply (imap_id points _ ups imap M m Lm C1); auto).
    rewrite !Gt by auto. cbn [bind]. rewrite IH by (intros; apply Hl; right; auto). reflexivity. }
  apply G. auto.
Qed.
Print Assumptions convex_hull_3d_partial.

(* ------------------------------------------------------------ C50 *)
(* A copy before other points shifts the numbers of the facets: the hull of a tetrahedron whose
   first corner is given twice has facets with two equal corners, and never mentions the last
   two points, both corners of the tetrahedron. *)
Definition tet_copy : list Q := [0; 0; 0; 0; 0; 0; 10; 1; 0; 0; 10; 1; 1; 0; 10]%Q.
Theorem hull_copy_refuted : exists facets, convexHull_3d uint64_key 1000 tet_copy (1 # 1000) = Ok facets /\
  In [0; 0; 1] facets /\ (forall f i, In f facets -> In i f -> i < 3) /\
  ~ (Vol (pts3 tet_copy) 0 2 3 4 == 0)%Q /\ ~ exists ts, facets = map corners ts /\ HullSurface (pts3 tet_copy) ts.
Proof.
  eexists. split; [vm_compute; reflexivity|]. split; [cbn; auto|]. split.
  - intros f i If Ii. cbn in If. repeat (destruct If as [<-|If]; [cbn in Ii; lia|]). destruct If.
  - split; [vm_compute; discriminate|]. intros (ts & E & HS). assert (I0 : In (0, 0, 1) ts).
    { destruct ts as [|[[a b] c] ts]; [discriminate|]. cbn in E. injection E as <- <- <- _. left. reflexivity. }
    destruct (hs_proper _ _ HS _ _ _ I0) as (_ & _ & _ & D). apply diff3 in D. destruct D as [D _]. congruence.
Qed.
Print Assumptions hull_copy_refuted.
(* With the key type of KeyTraits.hh (int), convexHull_3d is undefined behaviour on all points
   that do not lie in a plane parallel to the axes. *)
Theorem hull_int_refuted : forall big points dx,
  length points mod 3 = 0 -> (forall x, In x points -> (- big <= x <= big)%Q) ->
  (forall j, j < 3 -> exists i i', i < length points / 3 /\ i' < length points / 3 /\
      (coord (vertex 3 points i) j < coord (vertex 3 points i') j)%Q) ->
  convexHull_3d int_key big points dx = UB.
Proof.
  intros big points dx Hm B Flat.
  assert (P0 : 0 < length points). { destruct (Flat 0 ltac:(lia)) as (i & _ & L & _). pose proof (Nat.div_mod (length points) 3 ltac:(lia)). lia. }
  destruct (merge3 big points P0 Hm B Flat) as (lo & hi & Eb & T & N & I).
  unfold convexHull_3d. rewrite Hm. cbn [Nat.eqb assert bind]. rewrite Eb. cbn [bind]. rewrite unique_points_3d_refuted; auto.
  apply I. pose proof (Nat.div_mod (length points) 3 ltac:(lia)). destruct (length points / 3); lia.
Qed.
Print Assumptions hull_int_refuted.

(* ---- the hypotheses hold ---- *)
Definition sepb (ps : list p3) : bool :=
  let r := seq 0 (length ps) in let b := (inject_Z (Z.of_nat (2 * length ps)) * inject_Z (Z.of_nat (2 * length ps)) * (1 # (10 ^ 16)))%Q in
  forallb (fun i => forallb (fun j => (i =? j) || (Qle_bool (1 # (10 ^ 200)) (len2 (at3 ps i) (at3 ps j)) &&
    forallb (fun k => (i =? k) || (j =? k) || (Qle_bool (1 # (10 ^ 200)) (area2 (at3 ps i) (at3 ps j) (at3 ps k)) &&
      forallb (fun l => (i =? l) || (j =? l) || (k =? l) || Qeq_bool (Vol ps i j k l) 0 ||
         Qle_bool (b * area2 (at3 ps i) (at3 ps j) (at3 ps k)) (Vol ps i j k l * Vol ps i j k l)) r)) r)) r) r.
Lemma sepb_ok ps : sepb ps = true -> (exists i j k l, i < length ps /\ j < length ps /\ k < length ps /\ l < length ps /\ ~ (Vol ps i j k l == 0)%Q) -> Separated ps.
Proof.
  intros H S0. unfold sepb in H. cbv zeta in H. 
  assert (Ir : forall i, i < length ps -> In i (seq 0 (length ps))) by (intros; apply in_seq; lia).
  assert (A : forall i j, i < length ps -> j < length ps -> i <> j -> Qle_bool (1 # (10 ^ 200)) (len2 (at3 ps i) (at3 ps j)) = true /\
    forall k, k < length ps -> k <> i -> k <> j -> Qle_bool (1 # (10 ^ 200)) (area2 (at3 ps i) (at3 ps j) (at3 ps k)) = true /\
    forall l, l < length ps -> l <> i -> l <> j -> l <> k -> Qeq_bool (Vol ps i j k l) 0 = true \/
      Qle_bool (inject_Z (Z.of_nat (2 * length ps)) * inject_Z (Z.of_nat (2 * length ps)) * (1 # (10 ^ 16)) * area2 (at3 ps i) (at3 ps j) (at3 ps k)) (Vol ps i j k l * Vol ps i j k l) = true).
  { intros i j Li Lj Nij. rewrite forallb_forall in H. specialize (H i (Ir i Li)). rewrite forallb_forall in H. specialize (H j (Ir j Lj)).
    apply Bool.orb_true_iff in H. destruct H as [H|H]; [apply Nat.eqb_eq in H; congruence|]. apply Bool.andb_true_iff in H. destruct H as [H1 H]. split; auto.
    intros k Lk N1 N2. rewrite forallb_forall in H. specialize (H k (Ir k Lk)). rewrite !Bool.orb_true_iff, !Nat.eqb_eq in H. destruct H as [[H|H]|H]; [congruence|congruence|].
    apply Bool.andb_true_iff in H. destruct H as [H2 H]. split; auto. intros l Ll M1 M2 M3. rewrite forallb_forall in H. specialize (H l (Ir l Ll)). rewrite !Bool.orb_true_iff, !Nat.eqb_eq in H.
    destruct H as [[[[H|H]|H]|H]|H]; try congruence; auto. }
  constructor; auto.
  - intros i j Li Lj D. apply diff2 in D. apply Qle_bool_iff. apply A; auto.
  - intros i j k Li Lj Lk D. apply diff3 in D. apply Qle_bool_iff. apply A; tauto || (apply not_eq_sym; tauto) || auto.
  - intros i j k l Li Lj Lk Ll D. apply diff4 in D. destruct D as (D1 & D2 & D3 & D4 & D5 & D6).
    destruct (proj2 (proj2 (A i j Li Lj D1) k Lk ltac:(auto) ltac:(auto)) l Ll ltac:(auto) ltac:(auto) ltac:(auto)) as [X|X]; [left; apply Qeq_bool_iff; auto|right; apply Qle_bool_iff; auto].
Qed.
(* a cube: four points in each face *)
Definition cube : list p3 := [(0, 0, 0); (1, 0, 0); (0, 1, 0); (1, 1, 0); (0, 0, 1); (1, 0, 1); (0, 1, 1); (1, 1, 1)]%Q.
Example cube_separated : Separated cube.
Proof. apply sepb_ok; [vm_compute; reflexivity|]. exists 0, 1, 2, 4. cbn [length cube]. repeat split; try lia. vm_compute. discriminate. Qed.
Example cube_hull : exists fs, hull3 cube = Ok fs /\ length fs = 12.
Proof. eexists. split; [vm_compute; reflexivity|reflexivity]. Qed.
(* a tetrahedron with a point inside and a copy of a corner at the end *)
Definition tet_late : list Q := [0; 0; 0; 10; 1; 0; 0; 10; 1; 1; 0; 10; 2; 2; 2; 10; 1; 0]%Q.
Example late_hull : convexHull_3d uint64_key 1000 tet_late (1 # 1000) = Ok [[1; 0; 2]; [0; 1; 3]; [1; 2; 3]; [2; 0; 3]].
Proof. vm_compute. reflexivity. Qed.
Example late_separated : Separated (firstn 5 (pts3 tet_late)).
Proof. apply sepb_ok; [vm_compute; reflexivity|]. exists 0, 1, 2, 3. split; [vm_compute; lia|]. split; [vm_compute; lia|]. split; [vm_compute; lia|]. split; [vm_compute; lia|]. vm_compute. discriminate. Qed.
Lemma step_late lo hi s : lo == 0 -> hi == 10 -> GridStep 3 lo hi (1 # 1000) s -> s == 1 # 1000.
Proof.
  intros E1 E2 [A B C D]. assert (X : (hi - lo) / inject_Z (cells1d 3 - 1) == 10 # 2097151) by (rewrite E1, E2; reflexivity).
  rewrite X in A, D. destruct D as [D|[D|D]]; auto; exfalso; rewrite D in B; revert B; vm_compute; congruence.
Qed.
Example late_copies : CopiesLast 5 tet_late (1 # 1000).
Proof.
  split; [vm_compute; lia|]. intros lo hi T.
  assert (Bd : forall j, j < 3 -> coord lo j == 0 /\ coord hi j == 10).
  { destruct T as [L1 L2 Hin Hlo Hhi]. cbn [fst snd] in *. destruct lo as [|a0 [|a1 [|a2 [|? ?]]]]; try discriminate. destruct hi as [|b0 [|b1 [|b2 [|? ?]]]]; try discriminate.
    assert (I0 : forall p, In p [[0; 0; 0]; [10; 1; 0]; [0; 10; 1]; [1; 0; 10]; [2; 2; 2]; [10; 1; 0]]%Q -> In p (points_of 3 tet_late)) by (intros p Ip; exact Ip).
    assert (I1 : forall p, In p (points_of 3 tet_late) -> In p [[0; 0; 0]; [10; 1; 0]; [0; 10; 1]; [1; 0; 10]; [2; 2; 2]; [10; 1; 0]]%Q) by (intros p Ip; exact Ip).
    assert (Al : forall p j x, In p (points_of 3 tet_late) -> nth_error p j = Some x -> (0 <= x <= 10)%Q).
    { intros p j x Ip. apply I1 in Ip. cbn in Ip. repeat (destruct Ip as [<-|Ip]; [destruct j as [|[|[|[|?]]]]; cbn; intros Hx; inversion Hx; split; vm_compute; discriminate|]). destruct Ip. }
    assert (G : forall j a b, nth_error [a0; a1; a2] j = Some a -> nth_error [b0; b1; b2] j = Some b ->
       (exists p, In p (points_of 3 tet_late) /\ nth_error p j = Some 10%Q) -> nth_error [0; 0; 0]%Q j = Some 0%Q -> a == 0 /\ b == 10).
    { intros j a b Ha Hb (p & Ip & Np) N0. destruct (Hlo j a Ha) as (q & x & Iq & Nq & Ex). destruct (Hhi j b Hb) as (q' & x' & Iq' & Nq' & Ex').
      pose proof (Al _ _ _ Iq Nq). pose proof (Al _ _ _ Iq' Nq'). pose proof (Hin p j 10%Q a b Ip Np Ha Hb). pose proof (Hin [0; 0; 0]%Q j 0%Q a b (I0 _ (or_introl eq_refl)) N0 Ha Hb). split; lra. }
    intros [|[|[|j]]] J; try lia; cbn [coord nth].
    - apply (G 0); auto. exists [10; 1; 0]%Q. split; [apply I0; cbn; auto|reflexivity].
    - apply (G 1); auto. exists [0; 10; 1]%Q. split; [apply I0; cbn; auto|reflexivity].
    - apply (G 2); auto. exists [1; 0; 10]%Q. split; [apply I0; cbn; auto 6|reflexivity]. }
  split.
  - assert (Cl : forall i k, SameCell 3 lo hi (1 # 1000) (vertex 3 tet_late i) (vertex 3 tet_late k) -> forall j, j < 3 ->
      (coord (vertex 3 tet_late i) j - coord (vertex 3 tet_late k) j < 1 # 1000)%Q).
    { intros i k (zs & (L & A) & (_ & B)) j J. destruct (nth_error zs j) as [z|] eqn:Ez; [|apply nth_error_None in Ez; lia].
      destruct (A j z Ez) as (_ & s & Gs & A1). destruct (B j z Ez) as (_ & s' & Gs' & B1). destruct (Bd j J) as [E1 E2].
      apply (step_late _ _ _ E1 E2) in Gs, Gs'. rewrite Gs in A1. rewrite Gs' in B1. lra. }
    assert (K : forallb (fun i => forallb (fun k => (i =? k) || existsb (fun j => Qle_bool (1 # 1000) (coord (vertex 3 tet_late i) j - coord (vertex 3 tet_late k) j)
        || Qle_bool (1 # 1000) (coord (vertex 3 tet_late k) j - coord (vertex 3 tet_late i) j)) [0; 1; 2]) (seq 0 5)) (seq 0 5) = true) by (vm_compute; reflexivity).
    intros i k Li Lk SC. rewrite forallb_forall in K. specialize (K i ltac:(apply in_seq; lia)). rewrite forallb_forall in K. specialize (K k ltac:(apply in_seq; lia)).
    apply Bool.orb_true_iff in K. destruct K as [K|K]; [apply Nat.eqb_eq; auto|]. exfalso. apply existsb_exists in K. destruct K as (j & Ij & K).
    assert (J : j < 3) by (cbn in Ij; lia). assert (SC' : SameCell 3 lo hi (1 # 1000) (vertex 3 tet_late k) (vertex 3 tet_late i)) by (destruct SC as (zs & ? & ?); exists zs; auto).
    pose proof (Cl _ _ SC j J). pose proof (Cl _ _ SC' j J). apply Bool.orb_true_iff in K. destruct K as [K|K]; apply Qle_bool_iff in K; lra.
  - intros i Hi. change (length tet_late / 3) with 6 in Hi. assert (i = 5) as -> by lia. exists 1. split; [lia|]. change (vertex 3 tet_late 5) with [10; 1; 0]%Q. change (vertex 3 tet_late 1) with [10; 1; 0]%Q.
    assert (IC : InCell 3 lo hi (1 # 1000) [10; 1; 0]%Q [10000; 1000; 0]%Z).
    { split; [reflexivity|]. intros j z Ez. assert (J : j < 3) by (apply nth_error_lt in Ez; exact Ez).
      destruct (Bd j J) as [E1 E2]. assert (X : (coord hi j - coord lo j) / inject_Z (cells1d 3 - 1) == 10 # 2097151) by (rewrite E1, E2; reflexivity).
      split; [destruct j as [|[|[|?]]]; [| | |lia]; cbn in Ez; injection Ez as <-; unfold cells1d; lia|]. exists (1 # 1000). split.
      - constructor; [rewrite X; vm_compute; discriminate|apply Qle_refl|vm_compute; discriminate|right; left; reflexivity].
      - rewrite E1. destruct j as [|[|[|?]]]; [| | |lia]; cbn in Ez; injection Ez as <-; split; vm_compute; congruence. }
    exists [10000; 1000; 0]%Z. auto.
Qed.
