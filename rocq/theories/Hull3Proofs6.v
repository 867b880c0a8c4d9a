(* The points convexHull_3d works on. *)
From Verif Require Import Base BaseFacts Plane PLCSpec MeshEditorModel AreaProofs BoxModel BoxProofs BoxProps HashModel HashSpec HashProps RayModel WithinProofs
  Hull3Model Hull3Spec Hull3Proofs Hull3Proofs2 Hull3Proofs3 Hull3Proofs4 Hull3Proofs5.
From Coq Require Import QArith Lqa Permutation.
Local Open Scope nat_scope.

Lemma merge3 big points : 0 < length points -> length points mod 3 = 0 -> (forall x, In x points -> (- big <= x <= big)%Q) ->
  (forall j, j < 3 -> exists i i', i < length points / 3 /\ i' < length points / 3 /\ (coord (vertex 3 points i) j < coord (vertex 3 points i') j)%Q) ->
  exists lo hi, local_box 3 big points = Ok (lo, hi) /\ TightBox 3 (points_of 3 points) (lo, hi) /\ Nested 3 lo hi lo hi /\
    (forall i, i < length points / 3 -> Inside 3 lo hi (vertex 3 points i)).
Proof.
  intros P Hm B Flat. destruct (bounding_box_tight 3 big points P Hm B) as ([lo hi] & E & T). exists lo, hi. split; auto. split; auto.
  assert (I : forall i, (i < length points / 3)%nat -> Inside 3 lo hi (vertex 3 points i)).
  { intros i Hi j Hj. assert (Ip : In (vertex 3 points i) (points_of 3 points)) by (unfold points_of; apply in_map, in_seq; lia).
    assert (Lv : length (vertex 3 points i) = 3) by (eapply points_len; eauto).
    destruct (nth_error_ex (vertex 3 points i) j) as [x Hx]; [lia|].
    destruct (nth_error_ex lo j) as [l Hl]; [pose proof (tb_lo _ _ _ T) as TL; cbn in TL; lia|].
    destruct (nth_error_ex hi j) as [u Hu]; [pose proof (tb_hi _ _ _ T) as TL; cbn in TL; lia|].
    unfold coord. rewrite (nth_error_nth _ _ 0%Q Hx), (nth_error_nth _ _ 0%Q Hl), (nth_error_nth _ _ 0%Q Hu).
    apply (tb_in _ _ _ T _ _ _ _ _ Ip Hx Hl Hu). }
  split; auto. constructor; intros; try lra.
  - destruct (Flat j H) as (i & i' & Hi & Hi' & L). pose proof (I i Hi j H). lra.
  - destruct (Flat j H0) as (i & i' & Hi & Hi' & L). pose proof (I i Hi j H0). pose proof (I i' Hi' j H0). lra.
Qed.

Lemma nth_vertex (l : list Q) k j : j < 3 -> nth (3 * k + j) l 0%Q = nth j (vertex 3 l k) 0%Q.
Proof.
  intros J. unfold vertex. rewrite <- (firstn_skipn (3 * k) l) at 1. destruct (Nat.le_gt_cases (3 * k) (length l)) as [L|L].
  - rewrite app_nth2 by (rewrite firstn_length; lia). rewrite firstn_length, Nat.min_l by lia. replace (3 * k + j - 3 * k) with j by lia.
    rewrite <- (firstn_skipn 3 (skipn (3 * k) l)) at 1. destruct (Nat.lt_ge_cases j (length (firstn 3 (skipn (3 * k) l)))) as [L'|L'].
    + rewrite app_nth1; auto.
    + rewrite (nth_overflow (firstn _ _)) by auto. rewrite app_nth2 by auto. rewrite firstn_length in L'. rewrite nth_overflow; auto.
      rewrite skipn_length. rewrite skipn_length in *. lia.
  - rewrite (firstn_skipn (3 * k) l). rewrite nth_overflow by lia. rewrite (skipn_all2 l) by lia. rewrite firstn_nil. destruct j; auto.
Qed.
Definition pt_at (l : list Q) (i : nat) : p3 := (nth (3 * i) l 0%Q, nth (3 * i + 1) l 0%Q, nth (3 * i + 2) l 0%Q).
Lemma pt_vertex l l' k k' : vertex 3 l k = vertex 3 l' k' -> pt_at l k = pt_at l' k'.
Proof. intros E. unfold pt_at. pose proof (nth_vertex l k 0 ltac:(lia)) as A. pose proof (nth_vertex l' k' 0 ltac:(lia)) as A'. rewrite Nat.add_0_r in A, A'. rewrite A, A', !nth_vertex, E by lia. reflexivity. Qed.
Lemma points3_ok ups m : length ups = 3 * m -> points3 ups = Ok (map (pt_at ups) (seq 0 m)).
Proof.
  intros L. unfold points3. rewrite L, Nat.mul_comm, Nat.div_mul by lia.
  assert (G : forall l, (forall i, In i l -> i < m) -> mmap (fun i => do x <- get ups (3 * i); do y <- get ups (3 * i + 1); do z <- get ups (3 * i + 2); Ok (x, y, z)) l = Ok (map (pt_at ups) l)).
  { induction l as [|i l IH]; intros H; [reflexivity|]. cbn [mmap map]. pose proof (H i (or_introl eq_refl)).
    assert (Gt : forall j, j < 3 * m -> get ups j = Ok (nth j ups 0%Q)).
    { intros j J. unfold get. destruct (nth_error ups j) eqn:E; [rewrite (nth_error_nth _ _ _ E); auto|apply nth_error_None in E; lia]. }
    rewrite !Gt by lia. cbn [bind]. rewrite IH by (intros; apply H; right; auto). reflexivity. }
  apply G. intros i J. apply in_seq in J. lia.
Qed.

(* Copies come last: the first m points are in different cells of the grid, the others each in the
   cell of one of the first m. *)
Section Late.
  Context (points : list Q) (same : nat -> nat -> Prop) (ups : list Q) (imap : list nat) (M : MergedBy 3 points same ups imap).
  Local Notation n := (length points / 3).
  Context (m : nat) (Lm : m <= n) (H1 : forall i j, i < m -> j < m -> same i j -> i = j) (H2 : forall i, m <= i < n -> exists j, j < m /\ same i j).
  Lemma imap_at i : i < n -> exists k, nth_error imap i = Some k.
  Proof. intros L. apply nth_error_ex. rewrite (mb_len _ _ _ _ _ M). auto. Qed.
  Lemma imap_lt i k : nth_error imap i = Some k -> i < n.
  Proof. intros E. rewrite <- (mb_len _ _ _ _ _ M). apply nth_error_Some. congruence. Qed.
  Lemma imap_first i k : i < m -> nth_error imap i = Some k -> vertex 3 ups k = vertex 3 points i /\ forall j l, j < i -> nth_error imap j = Some l -> l < k.
  Proof.
    intros L E. destruct (mb_first _ _ _ _ _ M k) as (i0 & E0 & V & F); [pose proof (mb_range _ _ _ _ _ M _ _ E); lia|].
    assert (S0 : same i0 i) by (apply (mb_same _ _ _ _ _ M _ _ _ _ E0 E); auto).
    destruct (Nat.lt_ge_cases i0 m) as [L0|L0].
    - assert (i0 = i) by (apply H1; auto). subst. auto.
    - specialize (F i k ltac:(lia) E). lia.
  Qed.
  Lemma imap_id i : i < m -> nth_error imap i = Some i.
  Proof.
    induction i as [i IH] using lt_wf_ind. intros L. destruct (imap_at i ltac:(lia)) as [k E]. destruct (imap_first i k L E) as [V F].
    assert (G : i <= k). { destruct i as [|i']; [lia|]. pose proof (F i' i' ltac:(lia) (IH i' ltac:(lia) ltac:(lia))). lia. }
    destruct (Nat.eq_dec i k) as [->|N]; auto. exfalso.
    destruct (mb_first _ _ _ _ _ M i) as (i1 & E1 & _ & F1); [pose proof (mb_range _ _ _ _ _ M _ _ E); lia|].
    destruct (Nat.lt_trichotomy i1 i) as [X|[->|X]].
    - rewrite (IH i1 X ltac:(lia)) in E1. injection E1 as ->. lia.
    - rewrite E in E1. injection E1. lia.
    - specialize (F1 i k X E). lia.
  Qed.
  Lemma imap_low i k : nth_error imap i = Some k -> k < m.
  Proof.
    intros E. pose proof (imap_lt _ _ E) as L. destruct (Nat.lt_ge_cases i m) as [X|X].
    - rewrite imap_id in E by auto. injection E as <-. auto.
    - destruct (H2 i (conj X L)) as (j & J & S0). pose proof (imap_id j J) as Ej. assert (k = j) by (apply (mb_same _ _ _ _ _ M _ _ _ _ E Ej); auto). lia.
  Qed.
  Lemma ups_len : length ups = 3 * m.
  Proof.
    assert (A : 3 * m <= length ups). { destruct (Nat.eq_dec m 0) as [Z|Z]; [lia|]. pose proof (mb_range _ _ _ _ _ M _ _ (imap_id (m - 1) ltac:(lia))). lia. }
    destruct (Nat.lt_ge_cases (3 * m) (length ups)) as [X|X]; [|lia].
    destruct (mb_first _ _ _ _ _ M m X) as (i & E & _). apply imap_low in E. lia.
  Qed.
  Lemma ups_points : points3 ups = Ok (firstn m (pts3 points)).
  Proof.
    rewrite (points3_ok ups m ups_len). f_equal. unfold pts3. rewrite firstn_map.
    replace (firstn m (seq 0 n)) with (seq 0 m).
    - apply map_ext_in. intros i J. apply in_seq in J. apply (pt_vertex ups points i i). apply (imap_first i i); [lia|apply imap_id; lia].
    - replace n with (m + (n - m)) by lia. rewrite seq_app. rewrite firstn_app, seq_length, Nat.sub_diag. cbn [firstn]. rewrite app_nil_r. rewrite firstn_all2; [auto|rewrite seq_length; lia].
  Qed.
End Late.

(* points that are not in one plane differ in every coordinate *)
Section Spread.
  Context (ps : list p3) (Sep : Separated ps).
  Lemma spread (k : p3 -> Q) : (forall a b c d, k b == k a -> k c == k a -> k d == k a -> vol6 a b c d == 0)%Q ->
    exists i j, i < length ps /\ j < length ps /\ (k (at3 ps i) < k (at3 ps j))%Q.
  Proof.
    intros Fl. destruct (min_ok (fun a b => Qlt_bool (k a) (k b)) k ps) as (lo & _ & L1 & M1); [intros; apply qlt_bool_iff|apply ps_some; auto|].
    destruct (max_ok (fun a b => Qlt_bool (k a) (k b)) k ps) as (hi & _ & L2 & M2); [intros; apply qlt_bool_iff|apply ps_some; auto|].
    exists lo, hi. split; auto. split; auto. destruct (Qlt_le_dec (k (at3 ps lo)) (k (at3 ps hi))) as [|X]; auto. exfalso.
    destruct (sp_solid ps Sep) as (i & j & l & mm & A & B & C & D & V). apply V. unfold Vol.
    assert (G : forall x y, x < length ps -> y < length ps -> (k (at3 ps x) == k (at3 ps y))%Q).
    { intros x y X1 Y1. pose proof (M1 x X1). pose proof (M2 x X1). pose proof (M1 y Y1). pose proof (M2 y Y1). lra. }
    apply Fl; apply G; auto.
  Qed.
End Spread.
