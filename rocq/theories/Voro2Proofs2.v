(* The loop over the planar cells of the library. *)
From Verif Require Import Base BaseFacts PLCSpec MeshModel MeshSpec Plane MeshEditorModel HullModel HullSpec VoroModel VoroSpec VoroProofs VoroProofs2 VoroProofs3 VoroProofs4 Voro2Model Voro2Spec Voro2Proofs.
From Verif Require AreaProofs AreaProofs2 CsgProofs3.
From Coq Require Import Lia QArith.
Local Open Scope nat_scope.

Definition lift (z : Z * Z) : ipt := (fst z, snd z, 0%Z).
Lemma lift_inj a b : lift a = lift b -> a = b.
Proof. destruct a, b. unfold lift. cbn. congruence. Qed.
Notation edge := ((Z * Z) * (Z * Z))%type.
Notation side2 := (vcell2 * ((Z * Z) * (Z * Z)))%type.

(* the node numbers of an edge *)
Definition Rep2 (ns : list ipt) (s : side2) (it : item) : Prop :=
  fst it = c2_pid (fst s) /\ exists i j, snd it = [i; j] /\ nth_error ns i = Some (lift (fst (snd s))) /\ nth_error ns j = Some (lift (snd (snd s))).

Record Linv2 (dx : Q) (n : nat) (cs : list vcell2) (ns : list ipt) (m : vmesh) (done : list item) (ss : list side2) : Prop := {
  l2_inv : Inv n done m;
  l2_rep : Forall2 (Rep2 ns) ss done;
  l2_ns : NoDup ns;
  l2_side : forall s, In s ss -> In (fst s) cs /\ EdgeOf (spots2 dx (fst s)) (fst (snd s)) (snd (snd s));
  l2_nodup : forall f, NoDup (owners done f);
  l2_two : forall f, length (owners done f) <= 2;
  l2_pid : forall it, In it done -> fst it < n }.

Lemma pair_same (x y u v : nat) : same_set [x; y] [u; v] = true -> (x = u /\ y = v) \/ (x = v /\ y = u) \/ (x = y /\ u = v).
Proof.
  intros S. apply same_set_iff in S. pose proof (proj1 (S x)) as A. pose proof (proj1 (S y)) as B. pose proof (proj2 (S u)) as C. pose proof (proj2 (S v)) as D.
  cbn in *. assert (A' : u = x \/ v = x) by (destruct (A (or_introl eq_refl)) as [|[|[]]]; auto). assert (B' : u = y \/ v = y) by (destruct (B (or_intror (or_introl eq_refl))) as [|[|[]]]; auto).
  assert (C' : x = u \/ y = u) by (destruct (C (or_introl eq_refl)) as [|[|[]]]; auto). assert (D' : x = v \/ y = v) by (destruct (D (or_intror (or_introl eq_refl))) as [|[|[]]]; auto). lia.
Qed.
(* two edges with the same nodes are the same edge, in one direction or the other *)
Lemma rep2_same ns s t a b : NoDup ns -> Rep2 ns s a -> Rep2 ns t b -> fst (snd s) <> snd (snd s) -> same_set (snd a) (snd b) = true ->
  (snd s = snd t /\ snd a = snd b) \/ snd s = (snd (snd t), fst (snd t)).
Proof.
  intros ND (_ & i & j & -> & I & J) (_ & k & l & -> & K & L) NE S. apply pair_same in S as [[-> ->] | [[-> ->] | [-> ->]]].
  - left. split; auto. rewrite I in K. rewrite J in L. apply (f_equal (fun o => match o with Some x => x | None => lift (0, 0)%Z end)) in K. apply (f_equal (fun o => match o with Some x => x | None => lift (0, 0)%Z end)) in L.
    apply lift_inj in K. apply lift_inj in L. destruct s as [? [? ?]], t as [? [? ?]]. cbn in *. congruence.
  - right. rewrite I in L. rewrite J in K. apply (f_equal (fun o => match o with Some x => x | None => lift (0, 0)%Z end)) in K. apply (f_equal (fun o => match o with Some x => x | None => lift (0, 0)%Z end)) in L.
    apply lift_inj in K. apply lift_inj in L. destruct s as [? [? ?]], t as [? [? ?]]. cbn in *. congruence.
  - exfalso. rewrite I in J. apply NE. apply lift_inj. congruence.
Qed.

Section Loop.
  Variables (dx : Q) (n : nat) (cs : list vcell2).
  Hypothesis (RD : Readable2 dx n cs).

  Lemma pid_same c d : In c cs -> In d cs -> c2_pid c = c2_pid d -> c = d.
  Proof using RD.
    intros C D E. pose proof (r2_pids _ _ _ RD) as ND. apply In_nth_error in C as (i & I). apply In_nth_error in D as (j & J).
    rewrite NoDup_nth_error in ND. assert (i = j).
    { apply ND; [rewrite map_length; apply nth_error_lt with c; exact I|]. rewrite !nth_error_map, I, J. cbn. congruence. }
    subst j. congruence.
  Qed.

  Lemma side_step ns m done ss c a b x y : Linv2 dx n cs ns m done ss -> In c cs -> EdgeOf (spots2 dx c) a b ->
    (forall s, In s ss -> c2_pid (fst s) = c2_pid c -> snd s <> (a, b) /\ snd s <> (b, a)) ->
    nth_error ns x = Some (lift a) -> nth_error ns y = Some (lift b) ->
    exists m', insertFaceInfo (c2_pid c) m [x; y] = Ok m' /\ Linv2 dx n cs ns m' (done ++ [(c2_pid c, [x; y])]) (ss ++ [(c, (a, b))]).
  Proof using RD.
    intros L IC EO FR X Y. set (i := c2_pid c). set (fn := [x; y]).
    assert (R : Rep2 ns (c, (a, b)) (i, fn)) by (split; [reflexivity | exists x, y; auto]).
    assert (NI : ~ In i (owners done fn)).
    { intros I. destruct (owners_ex _ _ _ I) as (g & G & S). destruct (Forall2_in_r _ _ _ (l2_rep _ _ _ _ _ _ _ L) _ G) as (s & D & R').
      assert (P : c2_pid (fst s) = c2_pid c) by (destruct R' as [P _]; cbn in P; unfold i in P; congruence).
      destruct (FR s D P) as [N1 N2]. destruct (rep2_same _ _ _ _ _ (l2_ns _ _ _ _ _ _ _ L) R R' ltac:(apply EO) S) as [[E _] | E]; cbn [snd fst] in E.
      - congruence.
      - destruct (snd s) as [u v]. cbn in *. injection E as -> ->. congruence. }
    assert (NDn : forall g, NoDup (owners (done ++ [(i, fn)]) g)).
    { intros g. rewrite owners_app, owners_one. cbn [fst snd]. destruct (same_set g fn) eqn:S; [|rewrite app_nil_r; apply (l2_nodup _ _ _ _ _ _ _ L)].
      apply nodup_snoc; [apply (l2_nodup _ _ _ _ _ _ _ L)|]. rewrite (owners_same _ _ _ S). exact NI. }
    assert (F2 : Forall2 (Rep2 ns) (ss ++ [(c, (a, b))]) (done ++ [(i, fn)])) by (apply Forall2_app; [apply L | constructor; [exact R | constructor]]).
    assert (SI : forall s, In s (ss ++ [(c, (a, b))]) -> In (fst s) cs /\ EdgeOf (spots2 dx (fst s)) (fst (snd s)) (snd (snd s))).
    { intros s S. apply in_app_or in S as [S | [<- | []]]; [apply (l2_side _ _ _ _ _ _ _ L); exact S | auto]. }
    assert (T : forall g, length (owners (done ++ [(i, fn)]) g) <= 2).
    { intros g. pose proof (NDn g) as ND. destruct (owners (done ++ [(i, fn)]) g) as [|o1 [|o2 [|o3 t]]] eqn:O; cbn; try lia. exfalso.
      destruct (owners_ex (done ++ [(i, fn)]) g o1) as (g1 & X1 & X2); [rewrite O; cbn; auto|].
      destruct (owners_ex (done ++ [(i, fn)]) g o2) as (g2 & Y1 & Y2); [rewrite O; cbn; auto|].
      destruct (owners_ex (done ++ [(i, fn)]) g o3) as (g3 & Z1 & Z2); [rewrite O; cbn; auto|].
      destruct (Forall2_in_r _ _ _ F2 _ X1) as (s1 & S1 & R1), (Forall2_in_r _ _ _ F2 _ Y1) as (s2 & S2 & R2), (Forall2_in_r _ _ _ F2 _ Z1) as (s3 & S3 & R3).
      assert (ONE : forall s s' o o' h h', In s (ss ++ [(c, (a, b))]) -> In s' (ss ++ [(c, (a, b))]) -> Rep2 ns s (o, h) -> Rep2 ns s' (o', h') -> snd s = snd s' -> o = o').
      { intros s s' o o' h h' I1 I2 (P & _) (P' & _) E. cbn in P, P'. destruct (SI s I1) as [C1 E1], (SI s' I2) as [C2 E2]. rewrite E in E1.
        rewrite P, P'. f_equal. apply (r2_disjoint _ _ _ RD _ _ _ _ C1 C2 E1 E2). }
      assert (SS : forall h h', same_set g h = true -> same_set g h' = true -> same_set h h' = true) by (intros h h' A B; rewrite <- (same_left _ _ _ A); exact B).
      inversion ND as [|? ? NX ND']; subst. inversion ND' as [|? ? NY _]; subst. cbn in NX, NY.
      destruct (SI s1 S1) as [_ (_ & _ & N1 & _)]. destruct (SI s2 S2) as [_ (_ & _ & N2 & _)].
      destruct (rep2_same ns s1 s2 _ _ (l2_ns _ _ _ _ _ _ _ L) R1 R2 N1 (SS _ _ X2 Y2)) as [[E12 _] | E12]; [apply (ONE _ _ _ _ _ _ S1 S2 R1 R2) in E12; apply NX; auto|].
      destruct (rep2_same ns s1 s3 _ _ (l2_ns _ _ _ _ _ _ _ L) R1 R3 N1 (SS _ _ X2 Z2)) as [[E13 _] | E13]; [apply (ONE _ _ _ _ _ _ S1 S3 R1 R3) in E13; apply NX; auto|].
      assert (E23 : snd s2 = snd s3) by (rewrite E12 in E13; destruct (snd s2), (snd s3); cbn in *; congruence).
      apply (ONE _ _ _ _ _ _ S2 S3 R2 R3) in E23. apply NY; auto. }
    destruct (insert_any n done m i fn (l2_inv _ _ _ _ _ _ _ L)) as (m' & EI & V); [apply (r2_pid _ _ _ RD c IC) | apply NDn | apply T|].
    exists m'. split; [exact EI|]. constructor; [exact V | exact F2 | apply (l2_ns _ _ _ _ _ _ _ L) | exact SI | exact NDn | exact T|].
    intros it H. apply in_app_or in H as [H | [<- | []]]; [apply (l2_pid _ _ _ _ _ _ _ L it H) | apply (r2_pid _ _ _ RD c IC)].
  Qed.

  (* the edges of a hull *)
  Lemma hull_nodup zs ps : HullOf zs ps -> NoDup ps.
  Proof.
    intros (L & _ & SC & _). apply NoDup_nth_error. intros i j Li E. destruct (Nat.eq_dec i j) as [|N]; auto. exfalso.
    destruct (nth_error_ex ps i Li) as [p P]. rewrite P in E. symmetry in E. pose proof (nth_error_lt _ _ _ E) as Lj.
    assert (K : exists k, k < length ps /\ k <> i /\ k <> j).
    { destruct (Nat.eq_dec 0 i), (Nat.eq_dec 0 j), (Nat.eq_dec 1 i), (Nat.eq_dec 1 j); try (exists 0; lia); try (exists 1; lia); exists 2; lia. }
    destruct K as (k & Lk & K1 & K2). destruct (nth_error_ex ps k Lk) as [q Q].
    assert (TZ : forall a b, (turn a a b = 0 /\ turn a b a = 0 /\ turn b a a = 0)%Z) by (intros [] []; unfold turn; cbn; repeat split; ring).
    destruct (TZ p q) as (Z1 & Z2 & Z3).
    assert (C : (i < j < k \/ i < k < j \/ k < i < j) \/ (j < i < k \/ j < k < i \/ k < j < i)) by lia.
    destruct C as [[C|[C|C]]|[C|[C|C]]]; first [pose proof (SC _ _ _ _ _ _ C P E Q) | pose proof (SC _ _ _ _ _ _ C P Q E) | pose proof (SC _ _ _ _ _ _ C Q P E) | pose proof (SC _ _ _ _ _ _ C E P Q) | pose proof (SC _ _ _ _ _ _ C E Q P) | pose proof (SC _ _ _ _ _ _ C Q E P)]; lia.
  Qed.
  Lemma ring_parts {A} (l : list A) k a b : nth_error (ring l) k = Some (a, b) -> nth_error l k = Some a /\ nth_error l (S k mod length l) = Some b /\ k < length l.
  Proof. intros H. apply AreaProofs.ring_nth in H. exact H. Qed.
  Lemma ring_back {A} (l : list A) a b : NoDup l -> 3 <= length l -> In (a, b) (ring l) -> ~ In (b, a) (ring l).
  Proof.
    intros ND L I J. apply In_nth_error in I as (k & K). apply In_nth_error in J as (h & H). apply ring_parts in K as (K1 & K2 & K3). apply ring_parts in H as (H1 & H2 & H3).
    rewrite NoDup_nth_error in ND.
    assert (E1 : h = S k mod length l) by (apply ND; [exact H3 | congruence]). assert (E2 : k = S h mod length l) by (apply ND; [exact K3 | congruence]).
    assert (M : forall x, x < length l -> S x mod length l = if S x =? length l then 0 else S x).
    { intros x X. destruct (Nat.eqb_spec (S x) (length l)) as [->|]; [apply Nat.mod_same; lia | apply Nat.mod_small; lia]. }
    rewrite M in E1, E2 by assumption. destruct (Nat.eqb_spec (S k) (length l)); destruct (Nat.eqb_spec (S h) (length l)); lia.
  Qed.
  Lemma hull_edge zs ps a b : HullOf zs ps -> In (a, b) (ring ps) -> EdgeOf zs a b.
  Proof.
    intros H I. pose proof (hull_nodup _ _ H) as ND. destruct H as (L & IN & _ & LF).
    pose proof I as I'. apply In_nth_error in I' as (k & K). apply ring_parts in K as (K1 & K2 & K3).
    split; [apply IN, nth_error_In with k; exact K1|]. split; [apply IN, nth_error_In with (S k mod length ps); exact K2|]. split; [|intros z Z; apply (LF a b z I Z)].
    intros ->. rewrite NoDup_nth_error in ND. assert (E : k = S k mod length ps) by (apply ND; [exact K3 | congruence]).
    destruct (Nat.eqb_spec (S k) (length ps)) as [Q|Q]; [rewrite Q, Nat.mod_same in E by lia; lia | rewrite Nat.mod_small in E by lia; lia].
  Qed.

  (* one cell *)
  Lemma ring_loop c ps ids ns m0 done0 ss : In c cs -> HullOf (spots2 dx c) ps -> Forall2 (fun v i => nth_error ns i = Some v) (map lift ps) ids ->
    (forall s, In s ss -> c2_pid (fst s) <> c2_pid c) -> Linv2 dx n cs ns m0 done0 ss ->
    forall k, k <= length ps -> exists m done, mfold (fun m k =>
      do i <- get ids k; do j <- get ids ((k + 1) mod length (map lift ps));
      do _ <- assert (i <? length ns); do _ <- assert (j <? length ns); do _ <- assert (negb (i =? j));
      insertFaceInfo (c2_pid c) m [i; j]) (seq 0 k) m0 = Ok m /\ Linv2 dx n cs ns m done (ss ++ map (pair c) (firstn k (ring ps))).
  Proof using RD.
    intros IC HO F FR L0. pose proof (hull_nodup _ _ HO) as ND. pose proof (proj1 HO) as L3.
    induction k as [|k IH]; intros LK.
    - exists m0, done0. cbn. rewrite app_nil_r. auto.
    - destruct IH as (m & done & E & L); [lia|]. rewrite seq_S, mfold_app, E. cbn [bind mfold Nat.add].
      destruct (nth_error_ex (ring ps) k) as [[a b] Rk]; [rewrite AreaProofs2.ring_length; lia|]. destruct (ring_parts _ _ _ _ Rk) as (K1 & K2 & _).
      destruct (Forall2_nth _ _ _ k (lift a) F) as (x & X & NX); [rewrite nth_error_map, K1; reflexivity|].
      destruct (Forall2_nth _ _ _ (S k mod length ps) (lift b) F) as (y & Y & NY); [rewrite nth_error_map, K2; reflexivity|].
      rewrite map_length. replace (k + 1) with (S k) by lia. unfold get at 1 2. rewrite X, Y. cbn [bind].
      rewrite (proj2 (Nat.ltb_lt x _) (nth_error_lt _ _ _ NX)), (proj2 (Nat.ltb_lt y _) (nth_error_lt _ _ _ NY)). cbn [assert bind].
      pose proof (hull_edge _ _ _ _ HO (nth_error_In _ _ Rk)) as EO.
      assert (NE : x <> y) by (intros ->; destruct EO as (_ & _ & N & _); apply N, lift_inj; congruence).
      rewrite (proj2 (Nat.eqb_neq x y) NE). cbn [negb assert bind].
      destruct (side_step ns m done _ c a b x y L IC EO) as (m' & E' & L'); auto.
      { intros s S P. apply in_app_or in S as [S | S]; [destruct (FR s S P)|]. apply in_map_iff in S as (e & <- & Ie). cbn [snd].
        apply In_nth_error in Ie as (h & Hh). assert (Lh : h < k) by (pose proof (nth_error_lt _ _ _ Hh) as Q; rewrite firstn_length in Q; lia).
        assert (Hr : nth_error (ring ps) h = Some e).
        { rewrite <- (firstn_skipn k (ring ps)), nth_error_app1; [exact Hh | apply nth_error_lt with e; exact Hh]. }
        split; intros ->.
        - pose proof (CsgProofs3.ring_nodup ps ND) as NR. rewrite NoDup_nth_error in NR. assert (h = k); [|lia]. apply NR; [apply nth_error_lt with (a, b); exact Hr | congruence].
        - apply (ring_back ps a b ND L3); [apply nth_error_In with k; exact Rk | apply nth_error_In with h; exact Hr]. }
      rewrite E'. exists m', (done ++ [(c2_pid c, [x; y])]). split; [reflexivity|].
      assert (FS : firstn (S k) (ring ps) = firstn k (ring ps) ++ [(a, b)]).
      { clear - Rk. revert Rk. generalize (ring ps) as l. intros l. revert k. induction l as [|e l IH]; intros [|k] H; try discriminate; cbn in *; [congruence|]. f_equal. apply IH. exact H. }
      rewrite FS, map_app, app_assoc. exact L'.
  Qed.
End Loop.
