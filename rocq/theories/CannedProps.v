(* Ready made geometries (C89, C90). *)
From Coq Require Import Reals Lra.
From Verif Require MeshEditorProofs3.
From Verif Require Import Base BaseFacts SerializeModel MeshModel NearModel NearSpec CannedModel CannedSpec.
Local Open Scope R_scope.

Lemma flat_pairs {A} (f g : A -> R) l i a b : point_at (flat_map (fun x => [f x; g x]) l) i (a, b) <-> exists x, nth_error l i = Some x /\ a = f x /\ b = g x.
Proof.
  unfold point_at. cbn [fst snd]. revert i. induction l as [|x l IH]; intros i.
  - split; [intros [H _]; destruct (2 * i)%nat; discriminate|intros (x & H & _); destruct i; discriminate].
  - destruct i as [|i].
    + cbn. split; [intros [H1 H2]; exists x; split; auto; split; congruence|intros (y & H & -> & ->); injection H as ->; auto].
    + replace (2 * S i)%nat with (S (S (2 * i))) by lia. replace (S (S (2 * i)) + 1)%nat with (S (S (2 * i + 1))) by lia. cbn [flat_map app nth_error]. apply IH.
Qed.
Lemma flat_length {A} (f : A -> list R) n l : (forall x, length (f x) = n) -> length (flat_map f l) = (n * length l)%nat.
Proof. intros H. induction l as [|x l IH]; [cbn; lia|]. cbn [flat_map length]. rewrite app_length, H, IH. lia. Qed.
Lemma seq_at n i x : nth_error (seq 0 n) i = Some x <-> x = i /\ (i < n)%nat.
Proof.
  split.
  - intros H. pose proof (nth_error_lt _ _ _ H) as L. rewrite seq_length in L. rewrite nth_error_nth' with (d := 0%nat) in H by (rewrite seq_length; auto). rewrite seq_nth in H by auto. injection H as <-. auto.
  - intros [-> L]. rewrite nth_error_nth' with (d := 0%nat) by (rewrite seq_length; auto). rewrite seq_nth; auto.
Qed.

(* three places on a circle *)
Definition on_circle (c : R * R) (r t : R) : R * R := (fst c + r * cos t, snd c + r * sin t).
Lemma double_sines x y : sin (2 * x) + sin (2 * y) - sin (2 * (x + y)) = 4 * sin x * sin y * sin (x + y).
Proof.
  rewrite !sin_2a, cos_plus, sin_plus. pose proof (sin2_cos2 x) as A. pose proof (sin2_cos2 y) as B. unfold Rsqr in A, B.
  assert (A' : cos x * cos x = 1 - sin x * sin x) by lra. assert (B' : cos y * cos y = 1 - sin y * sin y) by lra. ring [A' B'].
Qed.
Lemma turn_on c r s t u : turn (on_circle c r s) (on_circle c r t) (on_circle c r u) = 4 * (r * r) * sin ((t - s) / 2) * sin ((u - t) / 2) * sin ((u - s) / 2).
Proof.
  replace ((u - s) / 2) with ((t - s) / 2 + (u - t) / 2) by field.
  transitivity (r * r * (4 * sin ((t - s) / 2) * sin ((u - t) / 2) * sin ((t - s) / 2 + (u - t) / 2))); [|ring]. rewrite <- double_sines.
  replace (2 * ((t - s) / 2)) with (t - s) by field. replace (2 * ((u - t) / 2)) with (u - t) by field. replace (2 * ((t - s) / 2 + (u - t) / 2)) with (u - s) by field.
  rewrite !sin_minus. unfold turn, on_circle. cbn [fst snd]. ring.
Qed.
Lemma turn_center c r s t : turn (on_circle c r s) (on_circle c r t) c = r * r * sin (t - s).
Proof. rewrite sin_minus. unfold turn, on_circle. cbn [fst snd]. ring. Qed.
Lemma chord c r s t : 0 <= r -> 0 <= sin ((t - s) / 2) -> euclid (on_circle c r s) (on_circle c r t) = 2 * r * sin ((t - s) / 2).
Proof.
  intros Hr Hs. unfold euclid, on_circle. cbn [fst snd].
  replace ((fst c + r * cos s - (fst c + r * cos t)) ^ 2 + (snd c + r * sin s - (snd c + r * sin t)) ^ 2) with ((2 * r * sin ((t - s) / 2)) * (2 * r * sin ((t - s) / 2))).
  - apply sqrt_square. apply Rmult_le_pos; lra.
  - assert (H : sin ((t - s) / 2) * sin ((t - s) / 2) = (1 - cos (t - s)) / 2).
    { replace (t - s) with (2 * ((t - s) / 2)) at 3 by field. rewrite cos_2a_sin. field. }
    replace (2 * r * sin ((t - s) / 2) * (2 * r * sin ((t - s) / 2))) with (4 * (r * r) * (sin ((t - s) / 2) * sin ((t - s) / 2))) by ring. rewrite H, cos_minus.
    pose proof (sin2_cos2 s) as A. pose proof (sin2_cos2 t) as B. unfold Rsqr in A, B. assert (A' : cos s * cos s = 1 - sin s * sin s) by lra. assert (B' : cos t * cos t = 1 - sin t * sin t) by lra. field [A' B'].
Qed.
Lemma radius_on c r t : 0 <= r -> euclid (on_circle c r t) c = r.
Proof.
  intros H. unfold euclid, on_circle. cbn [fst snd]. replace ((fst c + r * cos t - fst c) ^ 2 + (snd c + r * sin t - snd c) ^ 2) with (r * r); [apply sqrt_square; auto|].
  pose proof (sin2_cos2 t) as A. unfold Rsqr in A. assert (A' : cos t * cos t = 1 - sin t * sin t) by lra. ring [A'].
Qed.
Lemma step_bounds n i j : (0 < n)%nat -> (i < j)%nat -> (j - i < n)%nat -> 0 < ((INR j + / 2) * (2 * PI / INR n) - (INR i + / 2) * (2 * PI / INR n)) / 2 < PI.
Proof.
  intros N L B. replace (((INR j + / 2) * (2 * PI / INR n) - (INR i + / 2) * (2 * PI / INR n)) / 2) with (INR (j - i) / INR n * PI) by (rewrite minus_INR by lia; field; apply not_0_INR; lia).
  pose proof PI_RGT_0 as Pi. assert (Np : 0 < INR n) by (apply lt_0_INR; auto). assert (0 < INR (j - i)) by (apply lt_0_INR; lia). assert (Q : INR (j - i) / INR n < 1).
  { apply (Rmult_lt_reg_r (INR n)); auto. unfold Rdiv. rewrite Rmult_assoc, Rinv_l by lra. rewrite Rmult_1_l, Rmult_1_r. apply lt_INR. auto. }
  assert (0 < INR (j - i) / INR n) by (apply Rdiv_lt_0_compat; auto). split; [apply Rmult_lt_0_compat; auto|]. rewrite <- (Rmult_1_l PI) at 2. apply Rmult_lt_compat_r; auto.
Qed.

(* ------------------------------------------------------------ C89 *)
Theorem circle_regular : forall center radius n, (3 <= n)%nat -> 0 < radius ->
  exists r, plc_circle center radius n = Ok r /\ RegularPolygon center radius n r.
Proof.
  intros c rad n N Hr. unfold plc_circle. rewrite (proj2 (Nat.ltb_lt 2 n)) by lia. eexists. split; [reflexivity|].
  set (d := 2 * PI / INR n). set (th := fun i => (INR i + / 2) * d).
  assert (At : forall i q, point_at (flat_map (fun i => [fst c + rad * cos (th i); snd c + rad * sin (th i)]) (seq 0 n)) i q <-> (i < n)%nat /\ q = on_circle c rad (th i)).
  { intros i [a b]. etransitivity; [apply (flat_pairs (fun i => fst c + rad * cos (th i)) (fun i => snd c + rad * sin (th i)))|]. unfold on_circle. split.
    - intros (x & H & -> & ->). apply seq_at in H as [-> L]. auto.
    - intros [L E]. injection E as -> ->. exists i. split; [apply seq_at; auto|auto]. }
  pose proof PI_RGT_0 as Pi. assert (Np : 3 <= INR n) by (replace 3 with (INR 3) by (cbn; lra); apply le_INR; auto).
  assert (Half : 0 < PI / INR n < PI / 2).
  { split; [apply Rdiv_lt_0_compat; lra|]. apply Rmult_lt_compat_l; [auto|]. apply Rinv_lt_contravar; lra. }
  constructor; cbn [rpoints rfacets rholes].
  - rewrite (flat_length _ 2), seq_length by auto. lia.
  - intros k L. rewrite nth_error_map, (proj2 (seq_at n k k)) by auto. reflexivity.
  - rewrite map_length. apply seq_length.
  - reflexivity.
  - intros k q H. apply At in H as [_ ->]. apply radius_on. lra.
  - intros i j k a b q L Ha Hb Hc. apply At in Ha as [La ->]. apply At in Hb as [Lb ->]. apply At in Hc as [Lc ->]. rewrite turn_on.
    assert (0 < rad * rad) by (apply Rmult_lt_0_compat; auto).
    repeat apply Rmult_lt_0_compat; try lra; apply sin_gt_0; apply step_bounds; lia.
  - intros k a b Ha Hb. apply At in Ha as [La ->]. apply At in Hb as [Lb ->].
    assert (S1 : on_circle c rad (th ((k + 1) mod n)) = on_circle c rad (th k + d)).
    { destruct (Nat.eq_dec (k + 1) n) as [E|E].
      - rewrite E, Nat.mod_same by lia. replace (th k + d) with (th 0%nat + 2 * INR 1 * PI); [unfold on_circle; rewrite cos_period, sin_period; reflexivity|].
        unfold th, d. rewrite <- E, plus_INR. cbn [INR]. field. replace (INR k + 1) with (INR (k + 1)) by (rewrite plus_INR; reflexivity). apply not_0_INR. lia.
      - rewrite Nat.mod_small by lia. f_equal. unfold th. rewrite plus_INR. cbn [INR]. ring. }
    rewrite S1. assert (D2 : (th k + d - th k) / 2 = PI / INR n) by (unfold d; field; lra).
    assert (Sp : 0 < sin (PI / INR n)) by (apply sin_gt_0; lra).
    assert (Ch : euclid (on_circle c rad (th k)) (on_circle c rad (th k + d)) = 2 * rad * sin (PI / INR n)) by (rewrite chord, D2; [auto|lra|rewrite D2; lra]).
    assert (T : turn (on_circle c rad (th k)) (on_circle c rad (th k + d)) c = 2 * rad * sin (PI / INR n) * (rad * cos (PI / INR n))).
    { rewrite turn_center. replace (th k + d - th k) with (2 * (PI / INR n)) by (unfold d; field; lra). rewrite sin_2a. ring. }
    rewrite Ch, T. split; auto. split; auto. pose proof (cos_gt_0 (PI / INR n) ltac:(lra) ltac:(lra)). repeat apply Rmult_lt_0_compat; lra.
Qed.
Print Assumptions circle_regular.
Theorem circle_small : forall center radius n, (n < 3)%nat -> plc_circle center radius n = Abort.
Proof. intros c r n L. unfold plc_circle. rewrite (proj2 (Nat.ltb_ge 2 n)) by lia. reflexivity. Qed.
Print Assumptions circle_small.
Example hexagon : exists r, plc_circle (1, 2) 3 6 = Ok r /\ length (rfacets r) = 6%nat /\ forall k a b, point_at (rpoints r) k a -> point_at (rpoints r) ((k + 1) mod 6) b -> euclid a b = 3.
Proof.
  destruct (circle_regular (1, 2) 3 6 ltac:(lia) ltac:(lra)) as (r & E & G). exists r. split; auto. split; [apply (rp_count _ _ _ _ G)|]. intros k a b A B. destruct (rp_side _ _ _ _ G k a b A B) as [-> _].
  replace (INR 6) with 6 by (cbn; lra). rewrite sin_PI6. lra.
Qed.

(* ------------------------------------------------------------ C90 *)
Lemma Base_bind_ok {A B} (a : A) (k : A -> res B) : bind (Ok a) k = k a.
Proof. reflexivity. Qed.
(* The points of the cylinder are the corners of the circle at both heights. *)
Theorem cylinder_points : forall hull cx cy cz radius len n circle, plc_circle (cx, cy) radius n = Ok circle ->
  exists pts low dx,
    plc_cylinder hull (cx, cy, cz) radius len n = (do fs <- hull pts low dx; Ok (mkRPLC fs [] pts)) /\
    length pts = (6 * n)%nat /\
    forall i x y, point_at (rpoints circle) i (x, y) ->
      point3_at pts (2 * i) (x, y, cz + len / 2) /\ point3_at pts (2 * i + 1) (x, y, cz - len / 2).
Proof.
  intros hull cx cy cz rad len n circle E. unfold plc_circle in E. apply bind_ok in E as ([] & A & E). apply assert_ok in A. injection E as <-.
  unfold plc_cylinder. rewrite (proj2 (Nat.leb_le 3 n)) by (apply Nat.ltb_lt in A; lia). cbn [assert]. rewrite Base_bind_ok. do 3 eexists. split; [reflexivity|].
  cbn [rpoints]. split; [rewrite (flat_length _ 6), seq_length by auto; lia|].
  intros i x y Q. apply (flat_pairs (fun i => fst (cx, cy) + rad * cos ((INR i + / 2) * (2 * PI / INR n))) (fun i => snd (cx, cy) + rad * sin ((INR i + / 2) * (2 * PI / INR n)))) in Q as (k & Hk & -> & ->).
  cbn [fst snd]. replace (len / 2) with (/ 2 * len) by lra. unfold point3_at. generalize dependent i. induction (seq 0 n) as [|b l IH]; intros i Hk; [destruct i; discriminate|]. destruct i as [|i].
  - injection Hk as ->. cbn. auto 8.
  - specialize (IH i Hk).
    replace (3 * (2 * S i))%nat with (S (S (S (S (S (S (3 * (2 * i)))))))) by lia. replace (3 * (2 * S i + 1))%nat with (S (S (S (S (S (S (3 * (2 * i + 1)))))))) by lia. cbn [flat_map app nth_error Nat.add]. exact IH.
Qed.
Print Assumptions cylinder_points.

Lemma as_unsigned_ok x : -1 < x < IZR (2 ^ 32) -> as_unsigned x = Ok (Z.to_nat (Int_part x)).
Proof. intros [A B]. unfold as_unsigned, rlt. destruct (Rlt_dec (-1) x); [|lra]. destruct (Rlt_dec x (IZR (2 ^ 32))); [auto|lra]. Qed.
Lemma cos_apart a b : 0 <= a <= PI -> 0 <= b <= PI -> cos a = cos b -> a = b.
Proof.
  intros A B E. destruct (Rtotal_order a b) as [L|[L|L]]; auto; exfalso.
  - pose proof (cos_decreasing_1 a b ltac:(lra) ltac:(lra) ltac:(lra) ltac:(lra) L). lra.
  - pose proof (cos_decreasing_1 b a ltac:(lra) ltac:(lra) ltac:(lra) ltac:(lra) L). lra.
Qed.
Lemma angle_row n i : (0 < n)%nat -> (i < n)%nat -> 0 < (INR i + / 2) * (PI / INR n) < PI.
Proof.
  intros N L. pose proof PI_RGT_0 as Pi. assert (Np : 0 < INR n) by (apply lt_0_INR; auto). assert (I0 : 0 <= INR i) by apply pos_INR. assert (I1 : INR i + 1 <= INR n) by (replace (INR i + 1) with (INR (i + 1)) by (rewrite plus_INR; reflexivity); apply le_INR; lia).
  assert (Q : 0 < PI / INR n) by (apply Rdiv_lt_0_compat; auto). split; [apply Rmult_lt_0_compat; lra|]. replace PI with (INR n * (PI / INR n)) at 2 by (field; lra). apply Rmult_lt_compat_r; auto; lra.
Qed.
Lemma map_nodup {A B} (f : A -> B) l : (forall x y, In x l -> In y l -> f x = f y -> x = y) -> NoDup l -> NoDup (map f l).
Proof.
  intros H N. induction N as [|x l X N IH]; [constructor|]. cbn. constructor.
  - intros I. apply in_map_iff in I as (y & E & Iy). apply X. rewrite (H x y (or_introl eq_refl) (or_intror Iy) (eq_sym E)). auto.
  - apply IH. intros a b Ia Ib. apply H; right; auto.
Qed.
(* All points of the sphere are at the same distance from the center, and no two are the same. *)
Theorem sphere_points : forall hull center radius nphi, (0 < nphi)%nat -> (Z.of_nat nphi < 2 ^ 31)%Z -> 0 < radius ->
  exists pts low dx,
    plc_sphere hull center radius nphi = (do fs <- hull (flat_map (fun '(x, y, z) => [x; y; z]) pts) low dx; Ok (mkRPLC fs [] (flat_map (fun '(x, y, z) => [x; y; z]) pts))) /\
    NoDup pts /\ (nphi <= length pts)%nat /\ (forall p, In p pts -> euclid3 p center = radius).
Proof.
  intros hull [[cx cy] cz] rad n N B Hr. unfold plc_sphere. rewrite (proj2 (Nat.ltb_lt 0 n)) by auto. cbn [assert]. rewrite Base_bind_ok.
  pose proof PI_RGT_0 as Pi. assert (Np : 0 < INR n) by (apply lt_0_INR; auto).
  set (phi := fun i => (INR i + / 2) * (PI / INR n)).
  set (nth_ := fun i => Nat.max 1 (Z.to_nat (Int_part (2 * INR n * sin (phi i) + / 2)))).
  set (pt := fun i k => let theta := (INR k + / 2) * (2 * PI / INR (nth_ i)) in (cx + rad * cos theta * sin (phi i), cy + rad * sin theta * sin (phi i), cz + rad * cos (phi i))).
  assert (Row : forall i, (i < n)%nat -> sphere_row (cx, cy, cz) rad n i = Ok (flat_map flat3 (map (pt i) (seq 0 (nth_ i))))).
  { intros i L. pose proof (angle_row n i N L) as A. fold (phi i) in A. assert (Sp : 0 < sin (phi i) <= 1) by (split; [apply sin_gt_0; lra|apply SIN_bound]).
    unfold sphere_row. fold (phi i). replace (2 * PI * (rad * sin (phi i)) / (rad * (PI / INR n)) + / 2) with (2 * INR n * sin (phi i) + / 2) by (field; repeat split; lra).
    assert (Nb : INR n < IZR (2 ^ 31)) by (rewrite INR_IZR_INZ; apply IZR_lt; exact B). assert (P32 : IZR (2 ^ 32) = 2 * IZR (2 ^ 31)) by (rewrite <- mult_IZR; reflexivity).
    assert (Nz : INR n + 1 <= IZR (2 ^ 31)). { rewrite INR_IZR_INZ, <- plus_IZR. apply IZR_le. clear - B. lia. }
    rewrite as_unsigned_ok; [|split; [|rewrite P32]; nra]. cbn [bind]. fold (nth_ i). f_equal. clear. generalize (seq 0 (nth_ i)). induction l as [|k l IH]; [reflexivity|]. cbn [flat_map map app]. rewrite IH. reflexivity. }
  set (l := flat_map (fun i => map (pt i) (seq 0 (nth_ i))) (seq 0 n)).
  assert (Rows : forall is, (forall i, In i is -> (i < n)%nat) -> exists rows, mmap (sphere_row (cx, cy, cz) rad n) is = Ok rows /\ concat rows = flat_map flat3 (flat_map (fun i => map (pt i) (seq 0 (nth_ i))) is)).
  { induction is as [|i is IH]; intros Hi; [exists []; auto|]. destruct IH as (rows & E & C); [intros; apply Hi; right; auto|]. eexists. cbn [mmap]. rewrite (Row i (Hi i (or_introl eq_refl))), E. cbn [bind]. split; [reflexivity|].
    cbn [concat flat_map]. rewrite C, flat_map_app. reflexivity. }
  destruct (Rows (seq 0 n)) as (rows & E & C); [intros i I; apply in_seq in I; lia|]. rewrite E, Base_bind_ok. exists l. do 2 eexists. split; [rewrite C; reflexivity|].
  assert (Pos : forall i, (1 <= nth_ i)%nat) by (intros; unfold nth_; lia).
  assert (Loop : forall is, NoDup is -> (forall i, In i is -> (i < n)%nat) -> NoDup (flat_map (fun i => map (pt i) (seq 0 (nth_ i))) is) /\ (length is <= length (flat_map (fun i => map (pt i) (seq 0 (nth_ i))) is))%nat).
  { induction is as [|i is IH]; intros Nd Hi; [split; [constructor|cbn; lia]|]. inversion Nd as [|? ? X Nd']; subst. destruct IH as [IH IHl]; auto; [intros; apply Hi; right; auto|]. cbn [flat_map]. split.
    - pose proof (angle_row n i N (Hi i (or_introl eq_refl))) as Ai. fold (phi i) in Ai. apply MeshEditorProofs3.NoDup_app_disj; auto.
      + apply map_nodup; [|apply seq_NoDup]. intros k k' Ik Ik' Ek. apply in_seq in Ik, Ik'.
        assert (G : forall a b, (a < b)%nat -> (b < nth_ i)%nat -> pt i a <> pt i b).
        { intros a b L Lb Eq. unfold pt in Eq. injection Eq as E1 E2. assert (Sp : 0 < sin (phi i)) by (apply sin_gt_0; lra).
          set (ta := (INR a + / 2) * (2 * PI / INR (nth_ i))) in *. set (tb := (INR b + / 2) * (2 * PI / INR (nth_ i))) in *.
          assert (Sb : 0 < sin ((tb - ta) / 2)) by (apply sin_gt_0; apply step_bounds; lia).
          pose proof (chord (0, 0) 1 ta tb ltac:(lra) ltac:(lra)) as Ch. assert (Ec : on_circle (0, 0) 1 ta = on_circle (0, 0) 1 tb).
          { unfold on_circle. cbn [fst snd]. assert (cos ta = cos tb) by (apply (Rmult_eq_reg_l (rad * sin (phi i))); [lra|apply Rgt_not_eq, Rmult_lt_0_compat; auto]). assert (sin ta = sin tb) by (apply (Rmult_eq_reg_l (rad * sin (phi i))); [lra|apply Rgt_not_eq, Rmult_lt_0_compat; auto]). congruence. }
          rewrite Ec in Ch. unfold euclid in Ch. replace ((fst (on_circle (0, 0) 1 tb) - fst (on_circle (0, 0) 1 tb)) ^ 2 + (snd (on_circle (0, 0) 1 tb) - snd (on_circle (0, 0) 1 tb)) ^ 2) with 0 in Ch by ring. rewrite sqrt_0 in Ch. lra. }
        destruct (Nat.lt_total k k') as [L|[L|L]]; auto; exfalso; [apply (G k k')|apply (G k' k)]; auto; lia.
      + intros q I1 I2. apply in_map_iff in I1 as (k & <- & _). apply in_flat_map in I2 as (j & Ij & I2). apply in_map_iff in I2 as (k' & Eq & _). unfold pt in Eq. injection Eq as _ _ Ez.
        pose proof (angle_row n j N (Hi j (or_intror Ij))) as Aj. fold (phi j) in Aj. assert (Ec : cos (phi j) = cos (phi i)) by (apply (Rmult_eq_reg_l rad); lra). apply cos_apart in Ec; [|lra|lra].
        assert (Ej : INR j = INR i). { unfold phi in Ec. apply Rmult_eq_reg_r in Ec; [lra|]. apply Rgt_not_eq, Rdiv_lt_0_compat; auto. } apply INR_eq in Ej. subst j. contradiction.
    - rewrite app_length, map_length, seq_length. cbn [length]. specialize (Pos i). lia. }
  destruct (Loop (seq 0 n) (seq_NoDup _ _)) as [Nd Le]; [intros i I; apply in_seq in I; lia|]. split; [exact Nd|]. split; [rewrite seq_length in Le; exact Le|].
  intros p I. unfold l in I. apply in_flat_map in I as (i & _ & I). apply in_map_iff in I as (k & <- & _). unfold pt, euclid3. set (t := (INR k + / 2) * (2 * PI / INR (nth_ i))). set (f := phi i).
  match goal with |- sqrt ?x = _ => replace x with (rad * rad) end; [apply sqrt_square; lra|].
  pose proof (sin2_cos2 t) as A1. pose proof (sin2_cos2 f) as A2. unfold Rsqr in A1, A2. assert (A1' : cos t * cos t = 1 - sin t * sin t) by lra. assert (A2' : cos f * cos f = 1 - sin f * sin f) by lra. ring [A1' A2'].
Qed.
Print Assumptions sphere_points.

(* A prism on the hexagon of C89, and a sphere with three rows of points. *)
Example hexagon_prism : exists pts low dx, forall hull,
  plc_cylinder hull (0, 0, 0) 2 1 6 = (do fs <- hull pts low dx; Ok (mkRPLC fs [] pts)) /\ length pts = 36%nat.
Proof.
  unfold plc_cylinder. cbn [assert]. change (3 <=? 6)%nat with true. do 3 eexists. intros hull. split; [reflexivity|]. rewrite (flat_length _ 6), seq_length by auto. reflexivity.
Qed.
Example ball : exists pts,
  plc_sphere (fun _ _ _ => Ok []) (0, 0, 0) 2 3 = Ok (mkRPLC [] [] (flat_map (fun '(x, y, z) => [x; y; z]) pts)) /\ (3 <= length pts)%nat.
Proof.
  destruct (sphere_points (fun _ _ _ => Ok []) (0, 0, 0) 2 3) as (pts & low & dx & E & _ & L & _); [lia|reflexivity|lra|]. exists pts. auto.
Qed.

(* The assertion of plc_sphere lets one row pass, which gives two points and so no body. *)
Theorem sphere_one_row_refuted : forall hull center radius, 0 < radius -> exists p q low dx,
  plc_sphere hull center radius 1 = (do fs <- hull (flat3 p ++ flat3 q) low dx; Ok (mkRPLC fs [] (flat3 p ++ flat3 q))).
Proof.
  intros hull [[cx cy] cz] rad Hr. unfold plc_sphere. change (0 <? 1)%nat with true. cbn [assert]. rewrite Base_bind_ok. pose proof PI_RGT_0 as Pi.
  assert (E : exists p q, sphere_row (cx, cy, cz) rad 1 0 = Ok (flat3 p ++ flat3 q)).
  { unfold sphere_row. change (INR 0) with 0. change (INR 1) with 1. replace ((0 + / 2) * (PI / 1)) with (PI / 2) by lra. rewrite sin_PI2. replace (2 * PI * (rad * 1) / (rad * (PI / 1)) + / 2) with (5 / 2) by (field; repeat split; lra).
    rewrite as_unsigned_ok by (change (2 ^ 32)%Z with 4294967296%Z; lra). replace (Int_part (5 / 2)) with 2%Z by (unfold Int_part; rewrite <- (tech_up (5 / 2) 3) by (simpl; lra); reflexivity). cbn [bind]. change (Nat.max 1 (Z.to_nat 2)) with 2%nat. cbn [seq flat_map app].
    eexists (_, _, _), (_, _, _). reflexivity. }
  destruct E as (p & q & E). exists p, q. cbn [seq mmap]. rewrite E. cbn [bind concat]. rewrite app_nil_r. do 2 eexists. reflexivity.
Qed.
Print Assumptions sphere_one_row_refuted.
