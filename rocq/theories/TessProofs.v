(* A mesh read from a triangulation and copied out is well formed. *)
From Coq Require Import QArith Permutation.
From Verif Require Import Base BaseFacts SerializeModel MeshModel MeshSpec QuantMeshModel QuantMeshProps PLCSpec PolygonProofs2 AreaProofs2 TriSpec TriProofs4 TessSpec.
Local Open Scope nat_scope.

Lemma way_inv edges z a b : way edges z = Some (a, b) -> nth_error edges (pid z) = Some (a, b) \/ nth_error edges (pid z) = Some (b, a).
Proof. intros H. apply way_edge. auto. Qed.
Lemma succ_mod_inj n i j : 1 <= n -> i < n -> j < n -> (i + 1) mod n = (j + 1) mod n -> i = j.
Proof.
  intros N Li Lj E. destruct (Nat.eq_dec (i + 1) n) as [Ei|Ni], (Nat.eq_dec (j + 1) n) as [Ej|Nj]; try lia.
  - rewrite Ei, Nat.mod_same in E by lia. rewrite Nat.mod_small in E; lia.
  - rewrite Ej, Nat.mod_same in E by lia. rewrite Nat.mod_small in E; lia.
  - rewrite !Nat.mod_small in E; lia.
Qed.
Lemma no_swap n i j : 3 <= n -> i < n -> j < n -> i = (j + 1) mod n -> j = (i + 1) mod n -> False.
Proof.
  intros N Li Lj E1 E2. destruct (Nat.eq_dec (j + 1) n) as [Ej|Nj].
  - rewrite Ej, Nat.mod_same in E1 by lia. subst i. rewrite Nat.mod_small in E2; lia.
  - rewrite Nat.mod_small in E1 by lia. destruct (Nat.eq_dec (i + 1) n) as [Ei|Ni].
    + rewrite Ei, Nat.mod_same in E2 by lia. lia.
    + rewrite Nat.mod_small in E2; lia.
Qed.

(* no cell uses an edge twice *)
Lemma cell_pids edges c r : map (way edges) c = map Some (ring r) -> NoDup r -> 3 <= length r -> NoDup (map pid c).
Proof.
  intros W Nd L. pose proof (f_equal (@length _) W) as Len. rewrite !map_length, ring_length in Len.
  apply NoDup_nth_error. rewrite map_length. intros i j Li E.
  assert (Lj : j < length c).
  { rewrite nth_error_map in E. destruct (nth_error_ex c i Li) as [z Hz]. rewrite Hz in E. cbn in E.
    rewrite <- (map_length pid). apply nth_error_Some. rewrite <- E. discriminate. }
  destruct (nth_error_ex c i Li) as [z Hz]. destruct (nth_error_ex c j Lj) as [z' Hz']. rewrite !nth_error_map, Hz, Hz' in E. cbn in E. injection E as E.
  assert (Wi : forall i z, nth_error c i = Some z -> exists a b, way edges z = Some (a, b) /\ nth_error r i = Some a /\ nth_error r ((i + 1) mod length r) = Some b).
  { intros k w Hk. assert (Q : nth_error (map (way edges) c) k = Some (way edges w)) by (rewrite nth_error_map, Hk; auto). rewrite W, nth_error_map in Q.
    destruct (nth_error (ring r) k) as [[a b]|] eqn:R; [|discriminate]. cbn in Q. injection Q as Q. apply ring_nth in R as (_ & A & B). eauto. }
  destruct (Wi _ _ Hz) as (a & b & Wz & Ra & Rb). destruct (Wi _ _ Hz') as (a' & b' & Wz' & Ra' & Rb').
  apply way_inv in Wz. apply way_inv in Wz'. rewrite E in Wz.
  assert (Inj : forall i j x, nth_error r i = Some x -> nth_error r j = Some x -> i = j).
  { intros x y v Hx Hy. apply (proj1 (NoDup_nth_error r) Nd); [eapply nth_error_lt; eauto|congruence]. }
  assert (Cs : (a = a' /\ b = b') \/ (a = b' /\ b = a')) by (destruct Wz as [Wz|Wz], Wz' as [Wz'|Wz']; rewrite Wz in Wz'; injection Wz' as -> ->; auto).
  destruct Cs as [[-> ->]|[-> ->]].
  - apply (Inj i j a'); auto.
  - exfalso. apply (no_swap (length r) i j); auto; try lia; [apply (Inj _ _ b'); auto|apply (Inj _ _ a'); auto].
Qed.

(* the cells that use an edge, each counted once *)
Definition usersb (cs : list (list Z)) (k i : nat) : bool := existsb (fun z => pid z =? k) (nth i cs []).
Lemma usersb_iff cs k i : i < length cs -> (usersb cs k i = true <-> exists c, nth_error cs i = Some c /\ exists z, In z c /\ pid z = k).
Proof.
  intros L. unfold usersb. rewrite existsb_exists. rewrite (nth_error_nth' cs [] L). split.
  - intros (z & I & E). apply Nat.eqb_eq in E. eauto.
  - intros (c & Hc & z & I & E). injection Hc as <-. exists z. split; auto. apply Nat.eqb_eq. auto.
Qed.
Lemma single_use c k : NoDup (map pid c) -> length (filter (fun z => pid z =? k) c) = if existsb (fun z => pid z =? k) c then 1 else 0.
Proof.
  induction c as [|z c IH]; cbn; auto. intros N. inversion N as [|? ? N1 N2]; subst. destruct (Nat.eqb_spec (pid z) k) as [E|E]; cbn; auto.
  rewrite (IH N2). destruct (existsb (fun z => pid z =? k) c) eqn:X; auto. exfalso. apply existsb_exists in X as (z' & I & E'). apply Nat.eqb_eq in E'.
  apply N1. rewrite E, <- E'. apply in_map. auto.
Qed.
Lemma count_seq (P : nat -> bool) s n : length (filter P (seq s n)) = length (filter (fun i => P (s + i)) (seq 0 n)).
Proof.
  revert s P. induction n as [|n IH]; intros s P; cbn [seq filter]; auto. rewrite Nat.add_0_r.
  assert (E : length (filter P (seq (S s) n)) = length (filter (fun i => P (s + i)) (seq 1 n))).
  { rewrite (IH (S s) P), (IH 1 (fun i => P (s + i))). f_equal. apply filter_ext. intros i. f_equal. lia. }
  destruct (P s); cbn [length]; rewrite E; auto.
Qed.
Lemma uses_count cs k : (forall c, In c cs -> NoDup (map pid c)) ->
  length (filter (fun z => pid z =? k) (concat cs)) = length (filter (usersb cs k) (seq 0 (length cs))).
Proof.
  induction cs as [|c cs IH]; cbn [concat length]; intros H; auto. rewrite filter_app, app_length, single_use by (apply H; left; auto).
  rewrite IH by (intros; apply H; right; auto). cbn [seq filter]. change (usersb (c :: cs) k 0) with (existsb (fun z => pid z =? k) c).
  pose proof (count_seq (usersb (c :: cs) k) 1 (length cs)) as E. destruct (existsb (fun z => pid z =? k) c); cbn [length Nat.add]; rewrite E; auto.
Qed.
Lemma two_users l p q n : NoDup l -> (forall i, In i l <-> i < n /\ (i = p \/ i = q)) -> p < n -> p <> q -> length l = if q <? n then 2 else 1.
Proof.
  intros Nd H Lp N. destruct (Nat.ltb_spec q n) as [Lq|Lq].
  - apply (Permutation_length (l' := [p; q])). apply NoDup_Permutation; auto.
    + constructor; [intros [E|[]]; auto|]. constructor; [intros []|constructor].
    + intros x. rewrite H. cbn. split; [intros [_ [-> | ->]]; auto|]. intros [<-|[<-|[]]]; auto.
  - apply (Permutation_length (l' := [p])). apply NoDup_Permutation; auto.
    + constructor; [intros []|constructor].
    + intros x. rewrite H. cbn. split; [intros [L [-> | ->]]; auto; lia|]. intros [<-|[]]; auto.
Qed.

Lemma pid_sign_cell z i : pid (sign_cell z i) = i.
Proof. unfold sign_cell. destruct (0 <=? z)%Z; [apply pid_of_nat|apply pid_lnot_of_nat]. Qed.
Lemma sign_back z i : sign_face (sign_cell z i) (pid z) = z.
Proof.
  assert (S0 : (0 <=? sign_cell z i)%Z = (0 <=? z)%Z).
  { unfold sign_cell. destruct (0 <=? z)%Z eqn:E; [apply Z.leb_le; lia|]. apply Z.leb_gt. unfold Z.lnot. lia. }
  unfold sign_face. rewrite S0. unfold pid, positiveID. destruct (Z.leb_spec 0 z) as [H|H], (Z.ltb_spec z 0) as [H'|H']; try lia.
  rewrite Z2Nat.id by (unfold Z.lnot; lia). rewrite Z.lnot_involutive. auto.
Qed.

Section Whole.
  Context (f : frame) (ngen : nat) (tris : list (nat * nat * nat)) (ns : list pt) (es : list (nat * nat)) (cs : list (list Z)) (m : mesh Q)
    (Du : Dual ngen tris (length ns) es cs) (Fi : Filled f ns es cs m).

  Lemma cells_once c : In c cs -> NoDup (map pid c).
  Proof.
    intros I. apply In_nth_error in I as [p H]. destruct (du_ring _ _ _ _ _ Du p c H) as (r & W & L & N & _). apply (cell_pids es c r); auto.
  Qed.
  Lemma face_cells k fc : nth_error (faceCells m) k = Some fc -> exists p q a b, nth_error es k = Some (a, b) /\ AcrossEdge ngen tris p q a b /\ p < ngen /\
    (forall i c, nth_error cs i = Some c -> ((exists z, In z c /\ pid z = k) <-> i = p \/ i = q)) /\ length fc = if q <? ngen then 2 else 1.
  Proof.
    intros H. assert (Lk : k < length es) by (rewrite <- (fd_nfc _ _ _ _ _ Fi); eapply nth_error_lt; eauto).
    destruct (nth_error_ex es k Lk) as [[a b] He]. destruct (du_used _ _ _ _ _ Du k a b He) as (p & q & A & Lp & U). exists p, q, a, b. split; auto. split; auto. split; auto. split; auto.
    rewrite (fd_count _ _ _ _ _ Fi k fc H), uses_count by apply cells_once. rewrite (du_cells _ _ _ _ _ Du).
    apply (two_users _ p q ngen); [apply NoDup_filter, seq_NoDup| |auto|exact (proj1 A)].
    intros i. rewrite filter_In, in_seq. cbn [Nat.add]. pose proof (du_cells _ _ _ _ _ Du) as Lc. split.
    - intros [[_ Li] E]. split; auto. apply usersb_iff in E as (c & Hc & Z); [|lia]. apply (U i c Hc). auto.
    - intros [Li E]. split; [lia|]. destruct (nth_error_ex cs i) as [c Hc]; [lia|]. apply usersb_iff; [lia|]. exists c. split; auto. apply (U i c Hc). auto.
  Qed.
  Lemma whole_wf : sharedNodes m = [] -> sharedFaces m = [] -> WellFormed 2 m.
  Proof.
    intros Sn Sf. constructor.
    - exists (length ns). apply (fd_nnodes _ _ _ _ _ Fi).
    - intros i c z Hc I. rewrite (fd_cells _ _ _ _ _ Fi) in Hc. rewrite (fd_faces _ _ _ _ _ Fi), map_length.
      destruct (du_ring _ _ _ _ _ Du i c Hc) as (r & W & _). apply (in_map (way es)) in I. rewrite W in I. apply in_map_iff in I as ([a b] & E & _).
      symmetry in E. apply way_inv in E. destruct E as [E|E]; eapply nth_error_lt; eauto.
    - intros i g n Hg I. rewrite (fd_faces _ _ _ _ _ Fi), nth_error_map in Hg. destruct (nth_error es i) as [[a b]|] eqn:E; [|discriminate]. cbn in Hg. injection Hg as <-.
      rewrite (fd_nnodes _ _ _ _ _ Fi). apply nth_error_In in E. destruct (du_order _ _ _ _ _ Du a b E). destruct I as [<-|[<-|[]]]; lia.
    - rewrite (fd_nfc _ _ _ _ _ Fi), (fd_faces _ _ _ _ _ Fi), map_length. auto.
    - intros k fc H. destruct (face_cells k fc H) as (p & q & a & b & _ & _ & _ & _ & ->). destruct (q <? ngen); auto.
    - intros i c z fc Hc I H. rewrite (fd_cells _ _ _ _ _ Fi) in Hc. apply (fd_fc _ _ _ _ _ Fi (pid z) fc _ H). exists i, c, z. auto.
    - intros k fc z H I. apply (fd_fc _ _ _ _ _ Fi k fc z H) in I as (i & c & z0 & Hc & I0 & E & ->). rewrite pid_sign_cell, (fd_cells _ _ _ _ _ Fi). exists c. split; auto.
      rewrite <- E, sign_back. auto.
    - rewrite Sn, Sf. auto.
    - rewrite Sn. intros [|d]; discriminate.
    - rewrite Sf. intros [|d]; discriminate.
  Qed.
  Lemma walk_way z : walk m z = way es z.
  Proof. unfold walk, way. rewrite (fd_faces _ _ _ _ _ Fi), nth_error_map. destruct (nth_error es (pid z)) as [[a b]|]; auto. Qed.
End Whole.
