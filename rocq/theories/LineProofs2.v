From Coq Require Import Reals Lra Permutation.
From Verif Require Import Base BaseFacts NearModel RayCircleModel RayCircleSpec RayCircleProofs LineModel LineSpec LineProofs.
Local Open Scope R_scope.

(* the point s along the line from a in direction e and t to its right *)
Definition pos (a e : pt2) (s t : R) : pt2 := (fst a + s * fst e + t * snd e, snd a + s * snd e - t * fst e).
Definition unit_dir (e : pt2) : Prop := fst e * fst e + snd e * snd e = 1.

Lemma normal ps : InLine ps -> exists a e, unit_dir e /\ lex (0, 0) e /\ forall p, In p ps -> exists s, p = pos a e s 0.
Proof.
  intros (a & [dx dy] & D & H). set (L := sqrt (dx * dx + dy * dy)). assert (Dp : 0 < dx * dx + dy * dy).
  { pose proof (sqr_nn dx). pose proof (sqr_nn dy). destruct (Req_dec dx 0) as [->|N]; [destruct (Req_dec dy 0) as [->|N]; [congruence|]|]; nra. }
  assert (Lp : 0 < L) by (apply sqrt_lt_R0; auto). assert (LL : L * L = dx * dx + dy * dy) by (apply sqrt_sqrt; lra).
  assert (U : dx / L * (dx / L) + dy / L * (dy / L) = 1). { transitivity ((dx * dx + dy * dy) / (L * L)); [field; lra|]. rewrite LL. field. lra. }
  assert (C : lex (0, 0) (dx / L, dy / L) \/ lex (0, 0) (- (dx / L), - (dy / L))).
  { unfold lex. cbn. destruct (Rtotal_order (dx / L) 0) as [T|[T|T]]; [right; left; lra| |left; left; lra]. destruct (Rtotal_order (dy / L) 0) as [T'|[T'|T']]; [right; right; lra| |left; right; lra]. rewrite T, T' in U. lra. }
  destruct C as [C|C].
  - exists a, (dx / L, dy / L). split; [exact U|]. split; auto. intros p Hp. destruct (H p Hp) as (s & ->). exists (s * L). unfold pos. cbn. f_equal; field; lra.
  - exists a, (- (dx / L), - (dy / L)). split; [unfold unit_dir; cbn; lra|]. split; auto. intros p Hp. destruct (H p Hp) as (s & ->). exists (- (s * L)). unfold pos. cbn. f_equal; field; lra.
Qed.
Lemma lex_pos a e s t : lex (0, 0) e -> s < t -> lex (pos a e s 0) (pos a e t 0).
Proof.
  intros [H|[H K]] L; unfold lex, pos in *; cbn in *; [left|right; split]; try nra.
Qed.
Lemma len_pos a e s t s' t' : unit_dir e -> len2_2 (pos a e s t) (pos a e s' t') = (s - s') * (s - s') + (t - t') * (t - t').
Proof. intros U. unfold unit_dir in U. unfold len2_2, sq, pos. cbn. transitivity (((s - s') * (s - s') + (t - t') * (t - t')) * (fst e * fst e + snd e * snd e)); [ring|rewrite U; ring]. Qed.
Lemma turn_pos a e s1 t1 s2 t2 s3 t3 : unit_dir e -> turn (pos a e s1 t1) (pos a e s2 t2) (pos a e s3 t3) = (t2 - t1) * (s3 - s1) - (s2 - s1) * (t3 - t1).
Proof. intros U. unfold unit_dir in U. unfold turn, pos. cbn. transitivity (((t2 - t1) * (s3 - s1) - (s2 - s1) * (t3 - t1)) * (fst e * fst e + snd e * snd e)); [ring|rewrite U; ring]. Qed.
Lemma small_pos : 0 < / 10 ^ 100.
Proof. apply Rinv_0_lt_compat. apply pow_lt. lra. Qed.
Lemma unit_of a e s t : unit_dir e -> s < t -> / 10 ^ 100 * / 10 ^ 100 <= len2_2 (pos a e s 0) (pos a e t 0) -> unitVector2 (rsub2 (pos a e t 0) (pos a e s 0)) = e.
Proof.
  intros U L H. rewrite len_pos in H by auto. pose proof small_pos as S. set (w := / 10 ^ 100) in *.
  assert (W : w <= t - s) by (apply Rnot_lt_le; intros C; nra).
  unfold unitVector2. fold w. cbn [rsub2 pos fst snd].
  assert (E : (fst a + t * fst e + 0 * snd e - (fst a + s * fst e + 0 * snd e)) * (fst a + t * fst e + 0 * snd e - (fst a + s * fst e + 0 * snd e)) + (snd a + t * snd e - 0 * fst e - (snd a + s * snd e - 0 * fst e)) * (snd a + t * snd e - 0 * fst e - (snd a + s * snd e - 0 * fst e)) = (t - s) * (t - s)).
  { unfold unit_dir in U. transitivity ((t - s) * (t - s) * (fst e * fst e + snd e * snd e)); [ring|rewrite U; ring]. }
  rewrite E, sqrt_square, Rmax_right by lra. transitivity (fst e, snd e); [|symmetry; apply surjective_pairing]. f_equal; field; lra.
Qed.
Lemma ray_at p n c r : 0 <= r -> rdot2 n n = 1 -> InCircle c r p -> exists q t, rayCircleIntersection p n c r line_tol = Ok q /\ 0 <= t /\ q = rahead2 p n t /\ NearCircle c r (/ 10 ^ 10) q.
Proof.
  intros R0 N H. destruct (circle_ok p n c r line_tol tiny R0 N) as (q & t & E & T & Q & D).
  - unfold distance2. change (sqrt (len2_2 p c) <= r). rewrite <- (sqrt_square r R0). apply sqrt_le_1_alt. auto.
  - exists q, t. split; auto. split; auto. split; auto. unfold NearCircle. pose proof tiny. fold line_tol in *. destruct D as [D|[-> D]].
    + assert (len2_2 q c = r * r); [|lra]. rewrite <- D. unfold distance2. symmetry. change (sqrt (len2_2 q c) * sqrt (len2_2 q c) = len2_2 q c). apply sqrt_sqrt. unfold len2_2, sq. pose proof (sqr_nn (fst q - fst c)). pose proof (sqr_nn (snd q - snd c)). lra.
    + exact D.
Qed.
Lemma mid_in c r p q : InCircle c r p -> InCircle c r q -> InCircle c r ((fst p + fst q) * / 2, (snd p + snd q) * / 2).
Proof.
  unfold InCircle, len2_2, sq. cbn. intros H K. pose proof (sqr_nn (fst p - fst q)). pose proof (sqr_nn (snd p - snd q)).
  replace (((fst p + fst q) * / 2 - fst c) * ((fst p + fst q) * / 2 - fst c) + ((snd p + snd q) * / 2 - snd c) * ((snd p + snd q) * / 2 - snd c)) with
    (/ 2 * ((fst p - fst c) * (fst p - fst c) + (snd p - snd c) * (snd p - snd c)) + / 2 * ((fst q - fst c) * (fst q - fst c) + (snd q - snd c) * (snd q - snd c)) - / 4 * ((fst p - fst q) * (fst p - fst q)) - / 4 * ((snd p - snd q) * (snd p - snd q))) by field. lra.
Qed.

Lemma in_tagged {A} (l : list A) : forall n x i, In (x, i) (combine l (seq n (length l))) -> (n <= i)%nat /\ nth_error l (i - n) = Some x.
Proof.
  induction l; intros n x i H; [contradiction|]. cbn [length seq combine] in H. destruct H as [H|H].
  - injection H as -> ->. split; auto. rewrite Nat.sub_diag. reflexivity.
  - apply IHl in H. destruct H as [H K]. split; [lia|]. replace (i - n)%nat with (S (i - S n)) by lia. auto.
Qed.
Lemma map_snd_combine {A B} : forall (l : list A) (l' : list B), length l = length l' -> map snd (combine l l') = l'.
Proof. induction l; destruct l'; intros H; cbn in *; try discriminate; auto. f_equal. auto. Qed.

Section Sorted.
  Variables (srt : list (pt2 * nat) -> list (pt2 * nat)) (points : list pt2).
  Hypothesis SO : Sorts srt.
  Let n := length points.
  Let ref := srt (combine points (seq 0 n)).
  Lemma ref_len : length ref = n.
  Proof using SO. unfold ref. rewrite (Permutation_length (proj1 (SO _))), combine_length, seq_length. unfold n. apply Nat.min_id. Qed.
  Lemma ref_in k : (k < n)%nat -> nth_error ref k = Some (P ref k, I ref k) /\ nth_error points (I ref k) = Some (P ref k) /\ (I ref k < n)%nat.
  Proof using SO.
    intros H. assert (E : nth_error ref k = Some (P ref k, I ref k)). { unfold P, I. rewrite <- surjective_pairing. apply nth_error_nth'. rewrite ref_len. auto. }
    split; auto. assert (K : In (P ref k, I ref k) (combine points (seq 0 n))). { apply (Permutation_in _ (proj1 (SO _))). apply nth_error_In in E. exact E. }
    apply in_tagged in K. rewrite Nat.sub_0_r in K. destruct K as [_ K]. split; auto. apply nth_error_lt in K. auto.
  Qed.
  Lemma ref_perm : Permutation (map snd ref) (seq 0 n).
  Proof using SO. unfold ref. rewrite (Permutation_map snd (proj1 (SO _))). rewrite map_snd_combine; [reflexivity|]. rewrite seq_length. reflexivity. Qed.
  Lemma ref_snd k : (k < n)%nat -> nth_error (map snd ref) k = Some (I ref k).
  Proof using SO. intros H. exact (map_nth_error snd k ref (proj1 (ref_in k H))). Qed.
  Lemma ref_inj k l : (k < n)%nat -> (l < n)%nat -> I ref k = I ref l -> k = l.
  Proof using SO.
    intros H K E. assert (ND : NoDup (map snd ref)) by (apply (Permutation_NoDup (Permutation_sym ref_perm)); apply seq_NoDup).
    apply (proj1 (NoDup_nth_error _) ND); [rewrite map_length, ref_len; auto|]. rewrite !ref_snd by auto. congruence.
  Qed.
  Lemma ref_onto i : (i < n)%nat -> exists k, (k < n)%nat /\ I ref k = i.
  Proof using SO.
    intros H. assert (K : In i (map snd ref)) by (apply (Permutation_in _ (Permutation_sym ref_perm)); apply in_seq; lia). apply In_nth_error in K. destruct K as (k & K).
    assert (L : (k < n)%nat) by (apply nth_error_lt in K; rewrite map_length, ref_len in K; auto). exists k. split; auto. rewrite ref_snd in K by auto. congruence.
  Qed.
  Lemma ref_order k l : (k < l)%nat -> (l < n)%nat -> ~ lex (P ref l) (P ref k).
  Proof using SO. intros H K. apply (proj2 (SO (combine points (seq 0 n))) k l (P ref k, I ref k) (P ref l, I ref l) H); apply ref_in; unfold n in *; lia. Qed.
End Sorted.

Definition got {A} (d : A) (m : res A) : A := match m with Ok x => x | _ => d end.
(* what the code builds, in coordinates along and across the line *)
Definition Built (points : list pt2) (c : pt2) (r : R) (cells : list (list nat)) (nodes : list pt2)
  (a e : pt2) (s u v : nat -> R) (x0 x1 : R) (ix : nat -> nat) : Prop :=
  let n := length points in
  unit_dir e /\ (forall k l, (k < l)%nat -> (l < n)%nat -> s k < s l) /\ (forall k, (k + 1 < n)%nat -> 0 <= u k /\ 0 <= v k) /\ x0 <= s 0%nat /\ s (n - 1)%nat <= x1 /\
  (forall k, (k < n)%nat -> nth_error points (ix k) = Some (pos a e (s k) 0)) /\ (forall i, (i < n)%nat -> exists k, (k < n)%nat /\ ix k = i) /\
  length cells = n /\ length nodes = (2 * n)%nat /\
  nth_error nodes 0 = Some (pos a e x0 0) /\ nth_error nodes (2 * n - 1) = Some (pos a e x1 0) /\
  (forall k, (k + 1 < n)%nat -> nth_error nodes (2 * k + 1) = Some (pos a e ((s k + s (k + 1)%nat) * / 2) (u k)) /\ nth_error nodes (2 * k + 2) = Some (pos a e ((s k + s (k + 1)%nat) * / 2) (- v k))) /\
  (forall k, (k < n)%nat -> nth_error cells (ix k) = Some (shape n k)) /\
  Forall (NearCircle c r (/ 10 ^ 10)) nodes.

Lemma built srt points c r : Sorts srt -> (2 <= length points)%nat -> InLine points -> Apart points -> 0 <= r -> Forall (InCircle c r) points ->
  exists cells nodes a e s u v x0 x1 ix, constructCells1d srt points c r = Ok (cells, nodes) /\ Built points c r cells nodes a e s u v x0 x1 ix.
Proof.
  intros SO N2 IL AP R0 IC. rewrite Forall_forall in IC. destruct (normal _ IL) as (a & e & U & LX & ON). set (n := length points) in *. set (ref := srt (combine points (seq 0 n))).
  set (s := fun k => (fst (P ref k) - fst a) * fst e + (snd (P ref k) - snd a) * snd e).
  assert (PP : forall k, (k < n)%nat -> nth_error points (I ref k) = Some (P ref k)) by (intros k Hk; apply (ref_in srt points SO k Hk)).
  assert (PS : forall k, (k < n)%nat -> P ref k = pos a e (s k) 0).
  { intros k Hk. destruct (ON (P ref k)) as (t & Ht). { specialize (PP k Hk). apply nth_error_In in PP. auto. }
    assert (s k = t); [|congruence]. unfold s. rewrite Ht. unfold pos. cbn. unfold unit_dir in U. transitivity (t * (fst e * fst e + snd e * snd e)); [ring|rewrite U; ring]. }
  assert (FAR : forall k l, (k < l)%nat -> (l < n)%nat -> / 10 ^ 100 * / 10 ^ 100 <= len2_2 (P ref k) (P ref l)).
  { intros k l Hk Hl. apply (AP (I ref k) (I ref l)); try (apply PP; lia). intros E. apply (ref_inj srt points SO) in E; fold n; lia. }
  assert (INC : forall k l, (k < l)%nat -> (l < n)%nat -> s k < s l).
  { intros k l Hk Hl. destruct (Rtotal_order (s k) (s l)) as [T|[T|T]]; auto; exfalso.
    - pose proof (FAR k l Hk Hl) as F. rewrite !PS in F by lia. rewrite len_pos in F by auto. rewrite T in F. pose proof small_pos as W. set (w := / 10 ^ 100) in *. nra.
    - apply (ref_order srt points SO k l Hk Hl). fold n. fold ref. rewrite !PS by lia. apply lex_pos; auto. }
  assert (UV : forall k l, (k < l)%nat -> (l < n)%nat -> unitVector2 (rsub2 (P ref l) (P ref k)) = e).
  { intros k l Hk Hl. pose proof (FAR k l Hk Hl) as F. rewrite !PS in * by lia. apply unit_of; auto. }
  assert (INC_ : forall k, (k < n)%nat -> InCircle c r (P ref k)) by (intros k Hk; apply IC; specialize (PP k Hk); apply nth_error_In in PP; auto).
  assert (FE : forall k, (k + 1 < n)%nat -> exists A B t t', face_ends c r (P ref k) (P ref (k + 1)) = Ok (A, B) /\ 0 <= t /\ 0 <= t' /\ A = pos a e ((s k + s (k + 1)%nat) * / 2) t /\ B = pos a e ((s k + s (k + 1)%nat) * / 2) (- t') /\ NearCircle c r (/ 10 ^ 10) A /\ NearCircle c r (/ 10 ^ 10) B).
  { intros k Hk. unfold face_ends. rewrite UV by lia. unfold unit_dir in U.
    pose proof (mid_in c r _ _ (INC_ k ltac:(lia)) (INC_ (k + 1)%nat ltac:(lia))) as M.
    destruct (ray_at _ (snd e, - fst e) c r R0 ltac:(unfold rdot2; cbn; lra) M) as (A & t & E & T & Q & D). rewrite E. cbn [bind].
    destruct (ray_at _ (back2 (snd e, - fst e)) c r R0 ltac:(unfold rdot2; cbn; lra) M) as (B & t' & E' & T' & Q' & D'). rewrite E'. cbn [bind].
    exists A, B, t, t'. split; auto. split; auto. split; auto. split; [|split; auto].
    - rewrite Q. rewrite !PS by lia. unfold rahead2, pos. cbn [fst snd]. f_equal; field.
    - rewrite Q'. rewrite !PS by lia. unfold rahead2, pos, back2. cbn [fst snd]. f_equal; field. }
  destruct (ray_at (P ref 0) (back2 e) c r R0 ltac:(unfold unit_dir in U; unfold rdot2, back2; cbn; lra) (INC_ 0%nat ltac:(lia))) as (N0 & t0 & E0 & T0 & Q0 & D0).
  destruct (ray_at (P ref (n - 1)) e c r R0 U (INC_ (n - 1)%nat ltac:(lia))) as (N1 & t1 & E1 & T1 & Q1 & D1).
  set (fe := fun k => got ((0, 0), (0, 0)) (face_ends c r (P ref k) (P ref (k + 1)))).
  assert (FE' : forall k, (k + 1 < n)%nat -> face_ends c r (P ref k) (P ref (k + 1)) = Ok (fst (fe k), snd (fe k))).
  { intros k Hk. destruct (FE k Hk) as (A & B & t & t' & E & _). unfold fe. rewrite E. reflexivity. }
  destruct (run c r ref n N2 (ref_len srt points SO) (fun k Hk => proj2 (proj2 (ref_in srt points SO k Hk))) (fun k l => ref_inj srt points SO k l) (fun k => fst (fe k)) (fun k => snd (fe k)) N0 N1 FE') with (srt := srt) (points := points) as (cells & nodes & RUN & LC & LN & Z0 & Z1 & Zn & Zc); auto.
  { rewrite UV by lia. exact E0. }
  { rewrite UV by lia. exact E1. }
  (* distances of the ends of a face from the line *)
  set (across := fun q : pt2 => (fst q - fst a) * snd e - (snd q - snd a) * fst e).
  assert (AC : forall x t, across (pos a e x t) = t). { intros x t. unfold across, pos. cbn. unfold unit_dir in U. transitivity (t * (fst e * fst e + snd e * snd e)); [ring|rewrite U; ring]. }
  exists cells, nodes, a, e, s, (fun k => across (fst (fe k))), (fun k => - across (snd (fe k))), (s 0%nat - t0), (s (n - 1)%nat + t1), (I ref).
  split; [exact RUN|]. unfold Built. fold n. cbv zeta.
  split; [exact U|]. split; [exact INC|]. split.
  { intros k Hk. destruct (FE k Hk) as (A & B & t & t' & E & T & T' & QA & QB & _). unfold fe. rewrite E. cbn [got fst snd]. rewrite QA, QB, !AC. lra. }
  split; [lra|]. split; [lra|]. split; [intros k Hk; rewrite <- PS by auto; apply PP; auto|]. split; [apply (ref_onto srt points SO)|]. split; [auto|]. split; [auto|].
  split. { rewrite Z0. f_equal. rewrite Q0, PS by lia. unfold rahead2, pos, back2. cbn [fst snd]. f_equal; ring. }
  split. { rewrite Z1. f_equal. rewrite Q1, PS by lia. unfold rahead2, pos. cbn [fst snd]. f_equal; ring. }
  split. { intros k Hk. destruct (Zn k Hk) as [ZA ZB]. rewrite ZA, ZB. destruct (FE k Hk) as (A & B & t & t' & E & T & T' & QA & QB & _). unfold fe. rewrite E. cbn [got fst snd]. rewrite QA, QB, !AC, Ropp_involutive. auto. }
  split; [exact Zc|].
  apply Forall_forall. intros q Hq. apply In_nth_error in Hq. destruct Hq as (j & Hj). assert (Lj : (j < 2 * n)%nat) by (apply nth_error_lt in Hj; lia).
  destruct (Nat.eq_dec j 0) as [->|J0]; [assert (q = N0) by congruence; subst; auto|]. destruct (Nat.eq_dec j (2 * n - 1)) as [->|J1]; [assert (q = N1) by congruence; subst; auto|].
  destruct (Nat.Even_or_Odd j) as [[m ->]|[m ->]].
  - destruct (Zn (m - 1)%nat ltac:(lia)) as [_ ZB]. replace (2 * (m - 1) + 2)%nat with (2 * m)%nat in ZB by lia. destruct (FE (m - 1)%nat ltac:(lia)) as (A & B & t & t' & E & _ & _ & _ & _ & _ & D). assert (q = B); [|subst; auto]. unfold fe in ZB. rewrite E in ZB. cbn [got snd] in ZB. congruence.
  - destruct (Zn m ltac:(lia)) as [ZA _]. destruct (FE m ltac:(lia)) as (A & B & t & t' & E & _ & _ & _ & _ & D & _). assert (q = A); [|subst; auto]. unfold fe in ZA. rewrite E in ZA. cbn [got fst] in ZA. congruence.
Qed.
