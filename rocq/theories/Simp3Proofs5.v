(* Proofs about simplifying the surface of a solid: the new facet in the right direction, and from
   node numbers back to points. *)
From Coq Require Import QArith Qabs Lqa Permutation Sorted.
From Verif Require Import Base BaseFacts KeyMapModel FaceSortModel FaceSortSpec FaceSortProofs FaceSortProofs2 FaceSortProofs3 FaceSortProofs4 Plane PLCSpec MeshEditorModel RayModel Hull3Model HashModel HashSpec
  SimplifyProofs4 SimplifyProofs5 Csg3Proofs5 Simp3Model Simp3Spec Simp3Proofs Simp3Proofs2 Simp3Proofs3 Simp3Proofs4.
Local Open Scope nat_scope.

Lemma vdot_flip n a b c : (vdot n (vcross (sub3 b c) (sub3 a c)) == - vdot n (vcross (sub3 b a) (sub3 c a)))%Q.
Proof. destruct n as [[n1 n2] n3], a as [[a1 a2] a3], b as [[b1 b2] b3], c as [[c1 c2] c3]. unfold vdot, vcross, sub3. cbn [X3 Y3 Z3]. ring. Qed.
Lemma corner_normal_ok pts f p : corner_normal pts f = Ok p -> p = first_normal pts f.
Proof.
  unfold corner_normal. intros H. apply bind_ok in H as (i & I & H). apply bind_ok in H as (j & J & H). apply bind_ok in H as (k & K & H). apply get_ok in I, J, K.
  apply bind_ok in H as (a & A & H). apply bind_ok in H as (b & B & H). apply bind_ok in H as (c & C & H). apply pat_ok in A, B, C. destruct A as [-> _], B as [-> _], C as [-> _]. apply ok_inj in H. subst p.
  unfold first_normal. rewrite (nth_error_nth _ _ 0 I), (nth_error_nth _ _ 0 J), (nth_error_nth _ _ 0 K). reflexivity.
Qed.
Lemma first_corner P cs : 3 <= length cs -> corner_at P cs 1 = vcross (sub3 (P (nth 1 cs 0)) (P (nth 0 cs 0))) (sub3 (P (nth 2 cs 0)) (P (nth 0 cs 0))).
Proof.
  intros L. unfold corner_at, before, after. replace (1 + length cs - 1) with (0 + 1 * length cs) by lia. rewrite Nat.mod_add, (Nat.mod_small 0) by lia.
  destruct (Nat.eq_dec (length cs) 2) as [E|E]; [lia|]. rewrite (Nat.mod_small (1 + 1)) by lia. reflexivity.
Qed.
Lemma rev_corner P cs : 3 <= length cs -> corner_at P (rev cs) (length cs - 2) = vcross (sub3 (P (nth 1 cs 0)) (P (nth 2 cs 0))) (sub3 (P (nth 0 cs 0)) (P (nth 2 cs 0))).
Proof.
  intros L. unfold corner_at, before, after. rewrite rev_length. replace (length cs - 2 + length cs - 1) with (length cs - 3 + 1 * length cs) by lia. rewrite Nat.mod_add, (Nat.mod_small (length cs - 3)), (Nat.mod_small (length cs - 2 + 1)) by lia.
  rewrite !rev_nth by lia. replace (length cs - S (length cs - 2)) with 1 by lia. replace (length cs - S (length cs - 3)) with 2 by lia. replace (length cs - S (length cs - 2 + 1)) with 0 by lia. reflexivity.
Qed.
Lemma direction_ok points pts f cs : 3 <= length cs -> let n := first_normal points f in
  let cs' := if Qlt_bool (dot3 n (first_normal pts cs)) 0 then rev cs else cs in
  Turns (pos3 pts) n cs \/ Turns (pos3 pts) n (rev cs) -> Turns (pos3 pts) n cs'.
Proof.
  intros L n cs' H. unfold cs'. change (dot3 n (first_normal pts cs)) with (vdot n (first_normal pts cs)). destruct H as [H|H].
  - destruct (Qlt_bool (vdot n (first_normal pts cs)) 0) eqn:E; auto. apply qlt_iff in E. pose proof (H 1 ltac:(lia)) as X. rewrite first_corner in X by auto. unfold first_normal at 1 in E. exfalso. apply (Qlt_irrefl 0). eapply Qlt_trans; eauto.
  - destruct (Qlt_bool (vdot n (first_normal pts cs)) 0) eqn:E; auto. exfalso. rewrite <- Bool.not_true_iff_false in E. apply E. apply qlt_iff.
    pose proof (H (length cs - 2) ltac:(rewrite rev_length; lia)) as X. rewrite rev_corner in X by auto. rewrite vdot_flip in X. unfold first_normal at 1. lra.
Qed.

Theorem outline_ok points pts tol ims group f nf : outline points pts tol ims group f = Ok nf ->
  let n := first_normal points f in
  exists vs cs0, (forall a b, uses (ring vs) a b = if uses (patch_edges ims group) a b =? 1 then 1 else 0) /\
    (forall v, In v vs -> exists g, In g group /\ In v (nth g ims [])) /\
    Corners (pos3 pts) tol vs cs0 /\ 3 <= length cs0 /\ (nf = cs0 \/ nf = rev cs0) /\
    (Turns (pos3 pts) n cs0 \/ Turns (pos3 pts) n (rev cs0) -> Turns (pos3 pts) n nf).
Proof.
  intros H n. unfold outline in H. apply bind_ok in H as (alls & A & H). apply patch_edges_ok in A. destruct A as [A Na]. rewrite A in H.
  apply bind_ok in H as (u & _ & H). apply bind_ok in H as ([[hanging es] rs] & S & H). apply bind_ok in H as (u' & Hh & H). apply assert_ok, Bool.negb_true_iff in Hh. subst hanging.
  apply sort_sound in S. destruct S as (-> & PM & HT & _). apply bind_ok in H as (cs & C & H). apply bind_ok in H as (u'' & L & H). apply assert_ok, Nat.leb_le in L.
  apply bind_ok in H as (o & O & H). apply bind_ok in H as (m & M & H). apply corner_normal_ok in O, M. subst o m. apply ok_inj in H. fold n in H.
  exists (way (patch_edges ims group) rs), cs. split; [apply way_uses; auto|]. split.
  { intros v V. apply way_in in V; auto. apply in_flat_map in V. destruct V as ([a b] & I & J). unfold patch_edges in I. apply in_flat_map in I. destruct I as (g & G & I). exists g. split; auto.
    apply ring_in_nth in I. destruct I as (i & I1 & I2). cbn in J. destruct J as [<-|[<-|[]]]; eapply nth_error_In; eauto. }
  split; [apply corners_ok; auto|]. split; auto. split.
  - destruct (Qlt_bool _ 0); auto.
  - rewrite <- H. apply direction_ok. auto.
Qed.

(* ---- from node numbers to points ---- *)
Section Back.
Context (points pts : list Q) (same : nat -> nat -> Prop) (imap : list nat) (M : MergedBy 3 points same pts imap).
Notation N := (length imap).
Definition o (i : nat) : nat := nth i imap 0.
Definition fi (k : nat) : nat := match List.find (fun i => nth i imap 0 =? k) (seq 0 N) with Some i => i | None => 0 end.
Definition rep3 (i : nat) : nat := fi (o i).
Lemma find_first (p : nat -> bool) s n i : List.find p (seq s n) = Some i -> s <= i < s + n /\ p i = true /\ forall j, s <= j < i -> p j = false.
Proof using.
  revert s. induction n as [|n IH]; intros s H; [discriminate|]. cbn [seq List.find] in H. destruct (p s) eqn:E.
  - inversion H; subst. split; [lia|]. split; auto. intros; lia.
  - apply IH in H. destruct H as (A & B & C). split; [lia|]. split; auto. intros j J. destruct (Nat.eq_dec j s) as [->|]; auto. apply C. lia.
Qed.
Lemma fi_ok i : i < N -> fi (o i) <= i /\ o (fi (o i)) = o i /\ forall j, j < fi (o i) -> o j <> o i.
Proof using.
  intros L. unfold fi. destruct (List.find _ _) as [k|] eqn:F.
  - apply find_first in F. destruct F as (A & B & C). apply Nat.eqb_eq in B. split.
    + destruct (le_lt_dec k i); auto. specialize (C i ltac:(lia)). apply Nat.eqb_neq in C. unfold o in C. congruence.
    + split; auto. intros j J. specialize (C j ltac:(lia)). apply Nat.eqb_neq in C. auto.
  - exfalso. pose proof (find_none _ _ F i ltac:(apply in_seq; lia)) as X. apply Nat.eqb_neq in X. unfold o in X. congruence.
Qed.
Lemma o_nth i : i < N -> nth_error imap i = Some (o i).
Proof using. intros L. apply nth_error_nth'. auto. Qed.
Lemma rep_first : FirstSame N same rep3.
Proof using M.
  intros i L. destruct (fi_ok i L) as (A & B & C). unfold rep3. split; auto. split.
  - apply (mb_same _ _ _ _ _ M (fi (o i)) i (o (fi (o i))) (o i)); try apply o_nth; auto; lia.
  - intros j J X. apply (C j J). apply (mb_same _ _ _ _ _ M j i (o j) (o i)); try apply o_nth; auto; lia.
Qed.
Lemma rep_o i j : i < N -> j < N -> rep3 i = rep3 j <-> o i = o j.
Proof using. intros Li Lj. unfold rep3. split; [|congruence]. intros E. rewrite <- (proj1 (proj2 (fi_ok i Li))), E. apply fi_ok. auto. Qed.
Lemma vertex_pos l l' k k' : vertex 3 l k = vertex 3 l' k' -> pos3 l k = pos3 l' k'.
Proof using.
  intros E. assert (G : forall (l : list Q) m j, j < 3 -> nth (3 * m + j) l 0%Q = nth j (vertex 3 l m) 0%Q).
  { clear. intros l m j J. unfold vertex. assert (X : forall (l : list Q) k, nth (k + j) l 0%Q = nth j (skipn k l) 0%Q). { clear. intros l k. revert l. induction k as [|k IH]; intros l; auto. destruct l; cbn [plus nth skipn]; [destruct j; auto|auto]. }
    rewrite X. set (r := skipn (3 * m) l). clearbody r. destruct j as [|[|[|j]]]; try lia; destruct r as [|a [|b [|c r]]]; reflexivity. }
  assert (G' : forall j, j < 3 -> nth (3 * k + j) l 0%Q = nth (3 * k' + j) l' 0%Q) by (intros j J; rewrite !G, E by auto; reflexivity).
  pose proof (G' 0 ltac:(lia)) as G0. rewrite !Nat.add_0_r in G0. unfold pos3. rewrite G0, (G' 1), (G' 2) by lia. reflexivity.
Qed.
Lemma fi_pos i : i < N -> pos3 pts (o i) = pos3 points (rep3 i) /\ 3 * o i + 3 <= length pts.
Proof using M.
  intros L. pose proof (mb_range _ _ _ _ _ M i (o i) (o_nth i L)) as R. split; auto. destruct (mb_first _ _ _ _ _ M (o i) ltac:(lia)) as (j & E & V & F).
  apply vertex_pos. rewrite V. f_equal. pose proof (nth_error_lt _ _ _ E) as Lj. pose proof (o_nth j Lj) as Ej. assert (Oj : o j = o i) by congruence.
  destruct (fi_ok i L) as (A & B & C). destruct (Nat.lt_trichotomy j (rep3 i)) as [X|[X|X]]; auto; exfalso.
  - apply (C j X Oj).
  - assert (Lr : rep3 i < N) by (unfold rep3; lia). pose proof (F (rep3 i) (o (rep3 i)) X (o_nth _ Lr)) as Y. unfold rep3 in Y. lia.
Qed.
Definition node (k : nat) : Prop := exists i, i < N /\ o i = k.
Lemma fi_inj a b : node a -> node b -> fi a = fi b -> a = b.
Proof using. intros (i & Li & <-) (j & Lj & <-) E. apply (rep_o i j); auto. Qed.
Lemma node_pos k : node k -> pos3 pts k = pos3 points (fi k) /\ k < length pts / 3.
Proof using M. intros (i & L & <-). destruct (fi_pos i L) as [A B]. split; auto. apply Nat.div_le_lower_bound; lia. Qed.
Definition fe (e : nat * nat) : nat * nat := (fi (fst e), fi (snd e)).
Lemma uses_fe es a b : (forall e, In e es -> node (fst e) /\ node (snd e)) -> node a -> node b -> uses (map fe es) (fi a) (fi b) = uses es a b.
Proof using.
  intros H Na Nb. assert (G : forall x c, node x -> node c -> (fi x =? fi c) = (x =? c)). { intros x c X C. destruct (Nat.eqb_spec x c) as [->|Nx]; [apply Nat.eqb_refl|]. apply Nat.eqb_neq. intros E. apply Nx, fi_inj; auto. }
  unfold uses. induction es as [|e es IH]; [reflexivity|]. destruct (H e (or_introl eq_refl)) as [N1 N2]. cbn [map filter]. unfold fe at 1 2 3 4. cbn [fst snd]. rewrite !G by auto.
  destruct (_ || _); cbn [length]; rewrite IH by (intros; apply H; right; auto); reflexivity.
Qed.
Lemma uses_none es a b : (forall e, In e es -> node (fst e) /\ node (snd e)) -> (forall k, node k -> a <> fi k) \/ (forall k, node k -> b <> fi k) -> uses (map fe es) a b = 0.
Proof using.
  intros H D. unfold uses. induction es as [|e es IH]; [reflexivity|]. destruct (H e (or_introl eq_refl)) as [N1 N2]. cbn [map filter]. unfold fe at 1 2 3 4. cbn [fst snd].
  replace (_ || _) with false; [apply IH; intros; apply H; right; auto|]. symmetry. apply Bool.orb_false_iff.
  destruct D as [D|D]; rewrite !Bool.andb_false_iff, !Nat.eqb_neq; split; solve [left; apply not_eq_sym, D; auto|right; apply not_eq_sym, D; auto].
Qed.
Lemma node_dec a : (exists k, node k /\ a = fi k) \/ forall k, node k -> a <> fi k.
Proof using.
  destruct (in_dec Nat.eq_dec a (map rep3 (seq 0 N))) as [I|I].
  - left. apply in_map_iff in I. destruct I as (i & <- & I). apply in_seq in I. exists (o i). split; auto. exists i. split; auto; lia.
  - right. intros k (i & L & <-) ->. apply I. apply in_map_iff. exists i. split; auto. apply in_seq. lia.
Qed.
Lemma outline_fe vs all : (forall v, In v vs -> node v) -> (forall e, In e all -> node (fst e) /\ node (snd e)) -> (forall a b, uses (ring vs) a b = if uses all a b =? 1 then 1 else 0) ->
  forall a b, uses (ring (map fi vs)) a b = if uses (map fe all) a b =? 1 then 1 else 0.
Proof using.
  intros V A H a b. assert (R : forall e, In e (ring vs) -> node (fst e) /\ node (snd e)). { intros [x y] I. apply ring_in_nth in I. destruct I as (i & X & Y). cbn. split; apply V; eapply nth_error_In; eauto. }
  rewrite ring_map. change (map (fun e => (fi (fst e), fi (snd e))) (ring vs)) with (map fe (ring vs)).
  destruct (node_dec a) as [(k & K & ->)|Na]; [|rewrite !uses_none by auto; reflexivity]. destruct (node_dec b) as [(l & L & ->)|Nb]; [|rewrite !uses_none by auto; reflexivity].
  rewrite !uses_fe by auto. apply H.
Qed.
Lemma nth_map_fi l i : i < length l -> nth i (map fi l) 0 = fi (nth i l 0).
Proof using. intros L. rewrite (nth_indep (map fi l) 0 (fi 0)) by (rewrite map_length; auto). apply map_nth. Qed.
Lemma mod_lt i n : 0 < n -> i mod n < n. Proof using. intros. apply Nat.mod_upper_bound. lia. Qed.
Lemma corners_fe tol vs cs : (forall v, In v vs -> node v) -> Corners (pos3 pts) tol vs cs -> Corners (pos3 points) tol (map fi vs) (map fi cs) /\ forall c, In c cs -> In c vs.
Proof using M.
  intros V (is & -> & S & B). assert (Bi : forall i, In i is -> i < length vs) by (intros i I; apply B in I; tauto). split.
  - exists is. split; [rewrite map_map; apply map_ext_in; intros i I; rewrite nth_map_fi; auto|]. split; auto. intros i. rewrite B. rewrite map_length.
    assert (X : i < length vs -> pos3 pts (before vs i) = pos3 points (before (map fi vs) i) /\ pos3 pts (nth i vs 0) = pos3 points (nth i (map fi vs) 0) /\ pos3 pts (after vs i) = pos3 points (after (map fi vs) i)).
    { intros L. unfold before, after. rewrite map_length. rewrite !nth_map_fi by (auto; apply mod_lt; lia). repeat split; apply node_pos, V, nth_In; auto; apply mod_lt; lia. }
    split; intros [L Y]; split; auto; destruct (X L) as (-> & -> & ->) || destruct (X L) as (<- & <- & <-); auto.
  - intros c I. apply in_map_iff in I. destruct I as (i & <- & I). apply nth_In. auto.
Qed.
Lemma turns_fe n cs : (forall c, In c cs -> node c) -> Turns (pos3 pts) n cs <-> Turns (pos3 points) n (map fi cs).
Proof using M.
  intros V. unfold Turns. rewrite map_length. assert (X : forall i, i < length cs -> corner_at (pos3 pts) cs i = corner_at (pos3 points) (map fi cs) i).
  { intros i L. unfold corner_at, before, after. rewrite map_length. rewrite !nth_map_fi by (auto; apply mod_lt; lia). assert (Y : forall j, j < length cs -> pos3 pts (nth j cs 0) = pos3 points (fi (nth j cs 0))) by (intros j J; apply node_pos, V, nth_In; auto). rewrite !Y by (auto; apply mod_lt; lia). reflexivity. }
  split; intros H i L; [rewrite <- X by auto|rewrite X by auto]; auto.
Qed.
End Back.
