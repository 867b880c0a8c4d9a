(* Proofs about simplifyPLCfacets: the whole routine, continued. *)
From Verif Require Import Base BaseFacts Rank KeyMapModel FaceSortModel FaceSortSpec Plane PLCSpec WithinModel WithinSpec HashModel HashSpec HullModel HullSpec HullProofs4 HullProofs5
  SimplifyModel SimplifySpec SimplifyProofs SimplifyProofs2 SimplifyProofs3 SimplifyProofs4 SimplifyProofs5.
From Coq Require Import QArith Lqa Permutation Sorted.
Local Open Scope nat_scope.

Lemma vertex_nth (l : list Q) k j : j < 2 -> nth (2 * k + j) l 0%Q = nth j (vertex 2 l k) 0%Q.
Proof.
  intros J. unfold vertex. rewrite <- (firstn_skipn (2 * k) l) at 1. destruct (Nat.le_gt_cases (2 * k) (length l)) as [L|L].
  - rewrite app_nth2 by (rewrite firstn_length; lia). rewrite firstn_length, Nat.min_l by lia. replace (2 * k + j - 2 * k) with j by lia.
    generalize (skipn (2 * k) l). intros r. destruct r as [|x [|y r]]; destruct j as [|[|j]]; try lia; reflexivity.
  - rewrite nth_overflow by (rewrite app_length, firstn_length, skipn_length; lia). rewrite skipn_all2 by lia. destruct j; reflexivity.
Qed.
Lemma pos_vertex l l' k k' : vertex 2 l k = vertex 2 l' k' -> pos2 l k = pos2 l' k'.
Proof. intros E. unfold pos2. rewrite <- (Nat.add_0_r (2 * k)) at 1. rewrite <- (Nat.add_0_r (2 * k')) at 1. rewrite !vertex_nth by lia. rewrite E. auto. Qed.
Lemma vat_pos l k : 2 * k + 2 <= length l -> vat l 0 k = Ok (pos2 l k).
Proof.
  intros L. unfold vat, pos2. rewrite Nat.add_0_l. rewrite (proj2 (get_ok l (2 * k) (nth (2 * k) l 0%Q))) by (apply nth_error_nth'; lia). cbn [bind].
  rewrite (proj2 (get_ok l (2 * k + 1) (nth (2 * k + 1) l 0%Q))) by (apply nth_error_nth'; lia). reflexivity.
Qed.
Lemma bent_dist dx a b c : (0 < dx)%Q -> Bent dx a b c -> ~ (orient a b c == 0)%Q.
Proof. intros. eapply bent_turn; eauto. Qed.

Section All.
Context (points : list Q) (tol : Q) (same : nat -> nat -> Prop) (ups : list Q) (imap : list nat) (facets : list (list nat)) (vs : list nat).
Notation np := (length points / 2).
Hypothesis M : MergedBy 2 points same ups imap.
Hypothesis B : Boundary np same facets vs.
Hypothesis T : (0 < tol)%Q.
Hypothesis C : Clear tol (pos2 points) vs.
Hypothesis NS : NoSpike (pos2 points) vs.
Context (us : list Z).
Hypothesis Pu : Permutation us (map (zim imap) vs).
Hypothesis Bu : Boundary np same facets (map (rep imap vs) us).
Notation n := (length us).
Notation P := (fun z : Z => pos2 ups (Z.to_nat z)).
Notation rp := (rep imap vs).

Lemma us3 : 3 <= n.
Proof. pose proof (bd_three _ _ _ _ Bu) as H. rewrite map_length in H. auto. Qed.
Lemma us_in z : In z us -> In (rp z) vs /\ z = zim imap (rp z) /\ P z = pos2 points (rp z) /\ 2 * Z.to_nat z + 2 <= length ups /\ Z.to_nat z < length ups / 2.
Proof.
  intros I. apply (Permutation_in _ Pu) in I. apply in_map_iff in I. destruct I as (v & <- & V). change (zim imap v) with (Z.of_nat (im imap v)). rewrite (rep_im _ _ _ _ _ _ M B v V).
  split; auto. split; auto. destruct (im_first _ _ _ _ _ _ M B v V) as [E L]. rewrite Nat2Z.id. split; [apply pos_vertex; auto|]. split; auto.
  apply (mb_range _ _ _ _ _ M v (im imap v)). apply (im_at _ _ _ _ M). apply (bd_range _ _ _ _ B); auto.
Qed.
Lemma us_inj z z' : In z us -> In z' us -> rp z = rp z' -> z = z'.
Proof. intros I I' E. destruct (us_in z I) as (_ & E1 & _). destruct (us_in z' I') as (_ & E2 & _). congruence. Qed.
Lemma us_nodup : NoDup us.
Proof. apply (NoDup_map_inv rp). apply (bd_once _ _ _ _ Bu). Qed.
Lemma us_far a b : In a us -> In b us -> a <> b -> ~ (dist2 (P a) (P b) == 0)%Q.
Proof.
  intros Ia Ib N E. destruct (us_in a Ia) as (V1 & _ & E1 & _). destruct (us_in b Ib) as (V2 & _ & E2 & _). rewrite E1, E2 in E.
  pose proof (cl_far _ _ _ C _ _ V1 V2 (fun X => N (us_inj a b Ia Ib X))). lra.
Qed.
Lemma us_test a b c : In a us -> In b us -> In c us -> a <> b -> collinear_at ups tol a b c = Ok (Qeq_bool (orient (P a) (P b) (P c)) 0).
Proof.
  intros Ia Ib Ic N. destruct (us_in a Ia) as (V1 & _ & E1 & L1 & _). destruct (us_in b Ib) as (V2 & _ & E2 & L2 & _). destruct (us_in c Ic) as (V3 & _ & E3 & L3 & _).
  unfold collinear_at. rewrite !vat_pos by auto. cbn [bind]. f_equal. rewrite E1, E2, E3.
  assert (D : (orient (pos2 points (rp a)) (pos2 points (rp b)) (pos2 points (rp c)) == 0)%Q \/ Bent tol (pos2 points (rp a)) (pos2 points (rp b)) (pos2 points (rp c))).
  { destruct (Z.eq_dec a c) as [<-|Na]; [left; apply orient_same|]. destruct (Z.eq_dec b c) as [<-|Nb]; [left; apply orient_same|].
    apply (cl_line _ _ _ C); auto; intros X; apply us_inj in X; auto. }
  destruct D as [D|D].
  - rewrite line_collinear by auto. symmetry. apply Qeq_bool_iff. auto.
  - rewrite bent_not_collinear by auto. symmetry. apply Bool.not_true_is_false. intros X. apply Qeq_bool_iff in X. eapply bent_turn; eauto.
Qed.
(* the corner at offset k from corner s *)
Definition wat (s k : nat) : Z := nth ((s + k) mod n) us 0%Z.
Lemma wat_nth s k : nth_error us ((s + k) mod n) = Some (wat s k).
Proof. apply nth_error_nth'. apply Nat.mod_upper_bound. pose proof us3. lia. Qed.
Lemma wat_in s k : In (wat s k) us.
Proof. eapply nth_error_In, wat_nth. Qed.
Lemma wat_per s k : wat s (k + n) = wat s k.
Proof. unfold wat. f_equal. pose proof us3. replace (s + (k + n)) with (s + k + 1 * n) by lia. apply Nat.mod_add. lia. Qed.
Lemma wat_shift s k d : wat s (k + d) = wat ((s + k) mod n) d.
Proof. unfold wat. f_equal. pose proof us3. rewrite Nat.add_mod_idemp_l by lia. f_equal. lia. Qed.
Lemma wat_inj s i j : i < n -> j < n -> wat s i = wat s j -> i = j.
Proof.
  intros Li Lj E. pose proof us3. assert (X : (s + i) mod n = (s + j) mod n).
  { apply (proj1 (NoDup_nth_error us) us_nodup); [apply Nat.mod_upper_bound; lia|]. rewrite !wat_nth. congruence. }
  rewrite <- Nat.add_mod_idemp_l, <- (Nat.add_mod_idemp_l s j) in X by lia. pose proof (Nat.mod_upper_bound s n ltac:(lia)). set (r := s mod n) in *.
  assert (G : forall x, x < n -> (r + x) mod n = if r + x <? n then r + x else r + x - n).
  { intros x Lx. destruct (Nat.ltb_spec (r + x) n); [apply Nat.mod_small; auto|]. replace (r + x) with (r + x - n + 1 * n) at 1 by lia. rewrite Nat.mod_add by lia. apply Nat.mod_small. lia. }
  rewrite !G in X by auto. destruct (Nat.ltb_spec (r + i) n); destruct (Nat.ltb_spec (r + j) n); lia.
Qed.
Lemma ring_wat s k : nth_error (ring us) ((s + k) mod n) = Some (wat s k, wat s (k + 1)).
Proof. apply ring_at; [apply wat_nth|]. pose proof us3. rewrite Nat.add_mod_idemp_l by lia. rewrite <- Nat.add_assoc. apply wat_nth. Qed.

(* the search for the first corner *)
Lemma find_ok : exists s, s < n /\ find_start ups tol (ring us) (seq 0 n) = Ok s /\ ~ (orient (P (wat s 0)) (P (wat s 1)) (P (wat s (n - 1))) == 0)%Q.
Proof.
  pose proof us3 as N3. assert (G : forall l, (forall i, In i l -> i < n) ->
    (exists s, s < n /\ find_start ups tol (ring us) l = Ok s /\ ~ (orient (P (wat s 0)) (P (wat s 1)) (P (wat s (n - 1))) == 0)%Q) \/
    (forall i, In i l -> (orient (P (wat i 0)) (P (wat i 1)) (P (wat i (n - 1))) == 0)%Q)).
  { induction l as [|i l IH]; intros Hl; [right; intros ? []|]. cbn [find_start].
    assert (Li : i < n) by (apply Hl; left; auto). pose proof (ring_wat i 0) as R0. pose proof (ring_wat i (n - 1)) as R1. rewrite Nat.add_0_r, Nat.mod_small in R0 by auto.
    rewrite (proj2 (get_ok _ _ _) R0). cbn [bind]. rewrite ring_len. replace (i + (n - 1)) with (i + n - 1) in R1 by lia. rewrite (proj2 (get_ok _ _ _) R1). cbn [bind fst snd plus].
    rewrite us_test; [|apply wat_in|apply wat_in|apply wat_in|intros X; apply wat_inj in X; lia]. cbn [bind].
    destruct (Qeq_bool (orient (P (wat i 0)) (P (wat i 1)) (P (wat i (n - 1)))) 0) eqn:Eb.
    - destruct (IH ltac:(intros; apply Hl; right; auto)) as [H|H]; [left; auto|right]. intros j [<-|J]; auto. apply Qeq_bool_iff. auto.
    - left. exists i. split; auto. split; auto. intros X. apply Qeq_bool_iff in X. congruence. }
  destruct (G (seq 0 n) ltac:(intros i; rewrite in_seq; lia)) as [H|H]; auto. exfalso.
  (* all corners would be in line *)
  assert (Cn : forall k, (orient (P (wat 0 k)) (P (wat 0 (k + 1))) (P (wat 0 (k + 2))) == 0)%Q).
  { intros k. set (i := (0 + (k + 1)) mod n). assert (Li : i < n) by (apply Nat.mod_upper_bound; lia). specialize (H i ltac:(apply in_seq; lia)).
    unfold i in H. rewrite <- !wat_shift in H. replace (k + 1 + (n - 1)) with (k + n) in H by lia. rewrite wat_per, Nat.add_0_r in H. replace (k + 1 + 1) with (k + 2) in H by lia. rewrite line_rot. auto. }
  assert (Ne : forall k, ~ (dist2 (P (wat 0 k)) (P (wat 0 (k + 1))) == 0)%Q).
  { intros k. apply us_far; try apply wat_in. rewrite wat_shift. rewrite <- (Nat.add_0_r k) at 1. rewrite wat_shift. intros X. apply wat_inj in X; lia. }
  assert (Al : forall k, (orient (P (wat 0 0)) (P (wat 0 1)) (P (wat 0 k)) == 0 /\ orient (P (wat 0 0)) (P (wat 0 1)) (P (wat 0 (k + 1))) == 0)%Q).
  { induction k as [|k [IH1 IH2]]; [split; apply orient_same|]. replace (S k) with (k + 1) by lia. split; auto.
    assert (X0 : (orient (P (wat 0 k)) (P (wat 0 (k + 1))) (P (wat 0 0)) == 0)%Q) by (eapply (line_three _ _ _ _ _ (Ne 0)); [exact IH1|exact IH2|apply orient_same]).
    assert (X1 : (orient (P (wat 0 k)) (P (wat 0 (k + 1))) (P (wat 0 1)) == 0)%Q) by (eapply (line_three _ _ _ _ _ (Ne 0)); [exact IH1|exact IH2|apply orient_same]).
    replace (k + 1 + 1) with (k + 2) by lia. eapply (line_three _ _ _ _ _ (Ne k)); [exact X0|exact X1|apply Cn]. }
  destruct (cl_area _ _ _ C) as (a & b & c & Ia & Ib & Ic & NZ). apply NZ.
  assert (Wx : forall v, In v vs -> exists k, P (wat 0 k) = pos2 points v).
  { intros v V. assert (I : In (zim imap v) us) by (apply (Permutation_in _ (Permutation_sym Pu)), in_map; auto). apply In_nth_error in I. destruct I as [k Ek]. exists k.
    assert (Lk : k < n) by (apply nth_error_lt in Ek; auto). pose proof (wat_nth 0 k) as X. rewrite Nat.add_0_l, Nat.mod_small in X by auto. rewrite Ek in X. injection X as X. rewrite <- X.
    unfold zim. rewrite Nat2Z.id. apply pos_vertex. apply (im_first _ _ _ _ _ _ M B v V). }
  destruct (Wx a Ia) as [ka <-], (Wx b Ib) as [kb <-], (Wx c Ic) as [kc <-]. exact (line_three _ _ _ _ _ (Ne 0) (proj1 (Al ka)) (proj1 (Al kb)) (proj1 (Al kc))).
Qed.

Section Corner.
Context (s : nat).
Hypothesis Ls : s < n.
Hypothesis St : ~ (orient (P (wat s 0)) (P (wat s 1)) (P (wat s (n - 1))) == 0)%Q.
Notation w := (wat s).
Lemma w_test i j k : w i <> w j -> collinear_at ups tol (w i) (w j) (w k) = Ok (Qeq_bool (orient (P (w i)) (P (w j)) (P (w k))) 0).
Proof. intros. apply us_test; auto; apply wat_in. Qed.
Lemma w_far i j : w i <> w j -> ~ (dist2 (P (w i)) (P (w j)) == 0)%Q.
Proof. intros. apply us_far; auto; apply wat_in. Qed.
Notation PU := (fun z : Z => pos2 ups (Z.to_nat z)).
Lemma ring_n : length (ring us) = n.
Proof. apply ring_len. Qed.
Lemma wmod' k : w (k mod n) = w k.
Proof. exact (wmod ups tol n (wat s) PU us3 (wat_per s) (wat_inj s) w_test w_far k). Qed.
Lemma wne' i d : 0 < d < n -> w i <> w (i + d).
Proof. exact (wne ups tol n (wat s) PU us3 (wat_per s) (wat_inj s) w_test w_far i d). Qed.
Lemma le' k l : runs n (wat s) PU k l -> k <= n.
Proof. exact (runs_le ups tol n (wat s) PU us3 (wat_per s) (wat_inj s) w_test w_far (ring us) s ring_n (ring_wat s) k l). Qed.
Lemma ring' l : runs n (wat s) PU 0 l -> forall b b', In (b, b') (ring l) -> forall d, w (fst b' + d) = w (fst b + snd b + 1 + d).
Proof. exact (runs_ring ups tol n (wat s) PU us3 (wat_per s) (wat_inj s) w_test w_far (ring us) s ring_n (ring_wat s) l). Qed.
Lemma short' l : runs n (wat s) PU 0 l -> forall b, In b l -> snd b + 1 < n.
Proof. exact (run_short ups tol n (wat s) PU us3 (wat_per s) (wat_inj s) w_test w_far St (ring us) s ring_n (ring_wat s) l). Qed.
Lemma three' l : runs n (wat s) PU 0 l -> 3 <= length l.
Proof. exact (runs_three ups tol n (wat s) PU us3 (wat_per s) (wat_inj s) w_test w_far St (ring us) s ring_n (ring_wat s) l). Qed.
Lemma merge' : exists bl, runs n (wat s) PU 0 bl /\ merge_edges ups tol (ring us) n s 0 [] = Ok (map (facet_of (wat s)) bl).
Proof. destruct (merge_ok ups tol n (wat s) PU us3 (wat_per s) (wat_inj s) w_test w_far St (ring us) s ring_n (ring_wat s) n 0 [] ltac:(lia) ltac:(lia)) as (bl & R & E). exists bl. auto. Qed.
Definition wl : list nat := map (fun k => rp (w k)) (seq 0 n).
Lemma wl_rots : wl = rots s (map rp us).
Proof.
  apply nth_error_ext. intros i. unfold wl. destruct (Nat.lt_ge_cases i n) as [L|L].
  - rewrite rots_nth by (rewrite map_length; auto). rewrite map_length, nth_error_map, (nth_error_nth' (seq 0 n) 0) by (rewrite seq_length; auto). rewrite seq_nth by auto. cbn [plus option_map]. rewrite nth_error_map, wat_nth. reflexivity.
  - rewrite (proj2 (nth_error_None _ _)) by (rewrite map_length, seq_length; auto). symmetry. apply nth_error_None. rewrite rots_len, map_length. auto.
Qed.
Lemma wl_boundary : Boundary np same facets wl.
Proof. rewrite wl_rots. apply boundary_rots. auto. Qed.
Lemma wl_nth k : k < n -> nth_error wl k = Some (rp (w k)).
Proof. intros L. unfold wl. rewrite nth_error_map, (nth_error_nth' (seq 0 n) 0) by (rewrite seq_length; auto). rewrite seq_nth by auto. reflexivity. Qed.
Lemma w_mod k : w (k mod n) = w k.
Proof. apply wmod'. Qed.
Lemma wl_ring k : In (rp (w k), rp (w (k + 1))) (ring wl).
Proof.
  pose proof us3 as N3. assert (Ll : length wl = n) by (unfold wl; rewrite map_length, seq_length; auto). assert (Lk : k mod n < n) by (apply Nat.mod_upper_bound; lia).
  eapply nth_error_In. apply (ring_at wl (k mod n)); [rewrite wl_nth by auto; rewrite w_mod; auto|]. rewrite Ll, Nat.add_mod_idemp_l by lia. rewrite wl_nth by (apply Nat.mod_upper_bound; lia). rewrite w_mod. auto.
Qed.
Lemma w_adj k : Adjacent vs (rp (w k)) (rp (w (k + 1))).
Proof.
  apply (boundary_adj np same facets vs wl); auto; [| |apply wl_boundary|left; apply wl_ring].
  - intros i j Li Lj S1. apply (im_same _ _ _ _ M) in S1; auto. apply (im_same _ _ _ _ M); auto.
  - intros i j k' Li Lj Lk S1 S2. apply (im_same _ _ _ _ M) in S1, S2; auto. apply (im_same _ _ _ _ M); auto. congruence.
Qed.
Lemma w_pos k : P (w k) = pos2 points (rp (w k)).
Proof. apply us_in, wat_in. Qed.
Lemma w_fwd k : (orient (P (w k)) (P (w (k + 1))) (P (w (k + 2))) == 0 ->
  0 < (fst (P (w (k + 1))) - fst (P (w k))) * (fst (P (w (k + 2))) - fst (P (w (k + 1)))) + (snd (P (w (k + 1))) - snd (P (w k))) * (snd (P (w (k + 2))) - snd (P (w (k + 1)))))%Q.
Proof.
  pose proof us3 as N3. cbv beta; rewrite !w_pos. intros L. apply NS; auto; [apply w_adj|replace (k + 2) with (k + 1 + 1) by lia; apply w_adj|].
  intros X. apply us_inj in X; try apply wat_in. apply (wne' k 2 ltac:(lia)) in X. auto.
Qed.
Notation run := (Run (wat s) (fun z : Z => pos2 ups (Z.to_nat z))).
Lemma run_side k c : run k c -> c + 1 < n -> OnSide (pos2 points) (rp (w k)) (map (fun j => rp (w j)) (seq (k + 1) c)) (rp (w (k + c + 1))).
Proof.
  intros R Lc. pose proof us3 as N3. set (q := fun j => P (w (k + j))).
  assert (Ne : ~ (dist2 (q 0%nat) (q 1%nat) == 0)%Q). { unfold q. rewrite Nat.add_0_r. apply w_far, wne'. lia. }
  assert (On : forall j, j <= c + 1 -> (orient (q 0%nat) (q 1%nat) (q j) == 0)%Q).
  { intros j J. unfold q. rewrite Nat.add_0_r. destruct j as [|[|j]]; [rewrite Nat.add_0_r; apply orient_same|apply orient_same|]. apply (run_in _ _ _ _ R). lia. }
  destruct (straight q c Ne On) as (ts & Ss & F).
  { intros j J. unfold q. rewrite !Nat.add_assoc. apply w_fwd. pose proof (On j ltac:(lia)). pose proof (On (j + 1) ltac:(lia)). pose proof (On (j + 2) ltac:(lia)). rewrite <- !Nat.add_assoc. fold (q j) (q (j + 1)) (q (j + 2)). eapply (line_three _ _ _ _ _ Ne); auto. }
  exists ts. split; auto. replace (seq (k + 1) c) with (map (fun j => k + j) (seq 1 c)). 2: { clear. replace (k + 1) with (k + 1) by auto. generalize 1. induction c as [|c IH]; intros i; cbn [seq map]; auto. f_equal. rewrite IH. f_equal. lia. }
  rewrite map_map. clear - F M B Pu Bu. revert F. generalize (seq 1 c). intros l F. induction F as [|j t l ts (A1 & A2 & A3) F IH]; cbn [map]; constructor; auto.
  cbv beta; rewrite <- !w_pos. unfold q in A2, A3. rewrite Nat.add_0_r in A2, A3. rewrite <- Nat.add_assoc. auto.
Qed.
Context (bl : list (nat * nat)).
Hypothesis Rb : runs n (wat s) (fun z : Z => pos2 ups (Z.to_nat z)) 0 bl.
Definition corner (b : nat * nat) : nat := rp (w (fst b)).
Definition block (b : nat * nat) : nat * list nat := (rp (w (fst b)), map (fun j => rp (w j)) (seq (fst b + 1) (snd b))).
Lemma blocks_flat : forall k l, runs n (wat s) (fun z : Z => pos2 ups (Z.to_nat z)) k l -> flat_map (fun b => fst b :: snd b) (map block l) = map (fun j => rp (w j)) (seq k (n - k)).
Proof.
  intros k l R. pose proof (le' _ _ R) as L0. induction R as [|k c l K R RB IH]; [rewrite Nat.sub_diag; reflexivity|].
  pose proof (le' _ _ RB) as L. specialize (IH L). cbn [map flat_map block fst snd]. rewrite IH. replace (n - k) with (S c + (n - (k + c + 1))) by lia. rewrite seq_app, map_app. cbn [seq map app]. rewrite Nat.add_1_r.
  replace (k + S c) with (k + c + 1) by lia. reflexivity.
Qed.
Lemma ring_next b b' : In (b, b') (ring bl) -> forall d, w (fst b' + d) = w (fst b + snd b + 1 + d).
Proof. apply (ring' bl Rb). Qed.
Lemma ring_elt {A} (l : list A) a b : In (a, b) (ring l) -> In a l /\ In b l.
Proof. intros I. apply ring_in_nth in I. destruct I as (i & E1 & E2). split; eapply nth_error_In; eauto. Qed.
Lemma thinned : Thinned (pos2 points) wl (map corner bl).
Proof.
  exists (map block bl). split; [rewrite (blocks_flat 0 bl Rb), Nat.sub_0_r; reflexivity|]. split; [rewrite map_map; reflexivity|].
  intros b b' I. rewrite ring_map in I. apply in_map_iff in I. destruct I as ((x & x') & E & I). inversion E. subst. clear E. cbn [fst snd block].
  pose proof (ring_next x x' I 0) as X. rewrite !Nat.add_0_r in X. rewrite X. destruct (ring_elt _ _ _ I) as [Ix _].
  apply run_side; [apply (runs_in n (wat s) _ 0 bl x Rb Ix)|apply (short' bl Rb x Ix)].
Qed.
Lemma run_move k k' c : (forall d, w (k' + d) = w (k + d)) -> run k' c -> run k c.
Proof.
  intros E [R1 R2]. pose proof (E 0) as E0. rewrite !Nat.add_0_r in E0. constructor.
  - intros j J. specialize (R1 (k' + (j - k)) ltac:(lia)). rewrite E0, !E in R1. replace (k + (j - k)) with j in R1 by lia. auto.
  - rewrite <- !Nat.add_assoc in *. rewrite E0, !E in R2. auto.
Qed.
Lemma corners_bent a b c : Successive (map corner bl) a b c -> ~ (orient (pos2 points a) (pos2 points b) (pos2 points c) == 0)%Q.
Proof.
  intros (i & E1 & E2 & E3). rewrite map_length in *. rewrite nth_error_map in E1, E2, E3.
  destruct (nth_error bl i) as [x|] eqn:X1; [|discriminate]. destruct (nth_error bl ((i + 1) mod length bl)) as [y|] eqn:X2; [|discriminate]. destruct (nth_error bl ((i + 2) mod length bl)) as [z|] eqn:X3; [|discriminate].
  injection E1 as <-. injection E2 as <-. injection E3 as <-. unfold corner. cbv beta; rewrite <- !w_pos.
  pose proof (nth_error_lt _ _ _ X1) as Li.
  assert (I1 : In (x, y) (ring bl)) by (eapply nth_error_In, ring_at; eauto).
  assert (I2 : In (y, z) (ring bl)). { eapply nth_error_In, (ring_at bl ((i + 1) mod length bl)); eauto. rewrite Nat.add_mod_idemp_l by lia. replace (i + 1 + 1) with (i + 2) by lia. auto. }
  pose proof (ring_next x y I1) as N1. pose proof (ring_next y z I2) as N2. pose proof (N1 0) as Y0. pose proof (N2 0) as Z0. rewrite !Nat.add_0_r in Y0, Z0.
  rewrite Z0. rewrite <- Nat.add_assoc, N1. rewrite Y0. rewrite Nat.add_assoc.
  destruct (ring_elt _ _ _ I2) as [Iy _]. destruct (ring_elt _ _ _ I1) as [Ix _].
  apply (run_corner ups tol n (wat s) PU us3 (wat_per s) (wat_inj s) w_test w_far (ring us) s ring_n (ring_wat s)).
  - apply (runs_in n (wat s) _ 0 bl x Rb Ix).
  - apply (short' bl Rb x Ix).
  - apply (short' bl Rb y Iy).
  - apply (run_move _ (fst y)); [exact N1|]. apply (runs_in n (wat s) _ 0 bl y Rb Iy).
Qed.
Definition cz : list nat := map (fun b => Z.to_nat (w (fst b))) bl.
Lemma w_nat_inj i j : Z.to_nat (w i) = Z.to_nat (w j) -> w i = w j.
Proof.
  intros E. destruct (us_in (w i) (wat_in s i)) as (_1 & E1 & _2). destruct (us_in (w j) (wat_in s j)) as (_3 & E2 & _4).
  rewrite E1, E2 in E |- *. unfold zim in *. rewrite !Nat2Z.id in E. congruence.
Qed.
Lemma runs_nodup : forall k l, runs n (wat s) PU k l -> NoDup (map fst l) /\ forall b, In b l -> k <= fst b < n.
Proof.
  intros k l R. pose proof (le' _ _ R) as L0. induction R as [|k c l K R RB IH]; cbn [map]; [split; [constructor|intros ? []]|].
  pose proof (le' _ _ RB) as L. destruct (IH L) as [N I]. split.
  - constructor; auto. intros X. apply in_map_iff in X. destruct X as (b & E & J). apply I in J. cbn [fst] in E. lia.
  - intros b [<-|J]; [cbn; lia|]. apply I in J. lia.
Qed.
Lemma cz_nodup : NoDup cz.
Proof.
  destruct (runs_nodup 0 bl Rb) as [N I]. unfold cz. rewrite <- (map_map fst (fun k => Z.to_nat (w k))). 
  assert (G : forall l, (forall k, In k l -> k < n) -> NoDup l -> NoDup (map (fun k => Z.to_nat (w k)) l)).
  { induction l as [|k l IH]; intros Hl Nl; cbn [map]; constructor; inversion Nl as [|? ? Nk Nl']; subst.
    - intros X. apply in_map_iff in X. destruct X as (k' & E & J). apply w_nat_inj, (wat_inj s) in E; [subst; auto| |]; apply Hl; [right|left]; auto.
    - apply IH; auto. intros. apply Hl. right. auto. }
  apply G; auto. intros k J. apply in_map_iff in J. destruct J as (b & <- & J). apply I. auto.
Qed.
Lemma map_fst_ring {A} (l : list A) : map fst (ring l) = l.
Proof.
  destruct l as [|a t]; [reflexivity|]. unfold ring. assert (G : forall (l l' : list A), length l = length l' -> map fst (combine l l') = l).
  { induction l as [|x l IH]; intros [|y l'] E; cbn in *; auto; [discriminate|]. f_equal. apply IH. lia. }
  apply G. rewrite app_length. cbn. lia.
Qed.
Lemma facets_ring : map (facet_of (wat s)) bl = map (fun e => [fst e; snd e]) (ring cz).
Proof.
  unfold cz. rewrite ring_map, map_map. rewrite <- (map_fst_ring bl) at 1. rewrite map_map. apply map_ext_in. intros [b b'] I. cbn [fst snd]. unfold facet_of.
  pose proof (ring_next b b' I 0) as E. rewrite !Nat.add_0_r in E. rewrite E. auto.
Qed.
Lemma numbered : exists points' facets',
  (do mask <- used_mask (length ups / 2) (map (facet_of (wat s)) bl); do (mask, k) <- number_mask mask; do pts <- compact mask ups; do merged <- renumber mask (map (facet_of (wat s)) bl); Ok (firstn (2 * k) pts, merged))
    = Ok (points', facets') /\ Numbered points (map corner bl) points' facets'.
Proof.
  set (fs := map (facet_of (wat s)) bl).
  assert (Fs : forall f k, In f fs -> In k f -> exists i, k = Z.to_nat (w i)).
  { intros f k I J. unfold fs in I. apply in_map_iff in I. destruct I as (b & <- & I). destruct J as [<-|[<-|[]]]; eauto. }
  destruct (drop_ok ups fs) as (pts' & E & L & Pp). { intros f k I J. destruct (Fs f k I J) as (i & ->). apply us_in, wat_in. }
  exists pts', (map (map (rank (keepk fs))) fs). split; auto. exists (map (rank (keepk fs)) cz).
  assert (Cf : forall k, In k cz -> exists f, In f fs /\ In k f).
  { intros k K. unfold cz in K. apply in_map_iff in K. destruct K as (b & <- & I). exists (facet_of (wat s) b). split; [apply in_map; auto|left; auto]. }
  assert (Fc : forall f k, In f fs -> In k f -> In k cz).
  { intros f k I J. unfold fs in I. rewrite facets_ring in I. apply in_map_iff in I. destruct I as ([a b] & <- & I). apply ring_elt in I. destruct J as [<-|[<-|[]]]; apply I. }
  assert (Lk : length cz = rank (keepk fs) (length ups / 2)).
  { unfold rank. apply Permutation_length. apply NoDup_Permutation; [apply cz_nodup|apply NoDup_filter, seq_NoDup|]. intros k. rewrite kept_in, keepk_in. split.
    - intros K. destruct (Cf k K) as (f & I & J). split; [|eauto]. destruct (Fs f k I J) as (i & ->). apply us_in, wat_in.
    - intros (_1 & f & I & J). eapply Fc; eauto. }
  assert (Lc : length (map corner bl) = length cz) by (unfold cz; rewrite !map_length; auto).
  rewrite Lc. split; [|split; [|split]].
  - apply NoDup_Permutation_bis.
    + assert (G : forall l, (forall k, In k l -> In k cz) -> NoDup l -> NoDup (map (rank (keepk fs)) l)); [|apply G; [auto|apply cz_nodup]].
      induction l as [|k l IH]; intros Hl Nl; cbn [map]; constructor; inversion Nl as [|? ? Nk Nl']; subst.
      * intros X. apply in_map_iff in X. destruct X as (k' & X & J). apply rank_inj in X; [subst; auto| |]; apply keepk_in, Cf, Hl; [right|left]; auto.
      * apply IH; auto. intros. apply Hl. right. auto.
    + rewrite seq_length, map_length. lia.
    + intros x X. apply in_map_iff in X. destruct X as (k & <- & K). apply in_seq. split; [lia|]. destruct (Cf k K) as (f & I & J). destruct (Pp f k I J) as [_1 Q]. lia.
  - rewrite L, Lk. auto.
  - generalize (rank (keepk fs)) as r. intros r. unfold fs. rewrite facets_ring, ring_map, !map_map. apply map_ext. intros [a b]. reflexivity.
  - unfold cz. rewrite map_map. assert (G : forall l, (forall b, In b l -> In b bl) -> Forall2 (fun c k => pos2 pts' k = pos2 points c) (map corner l) (map (fun b => rank (keepk fs) (Z.to_nat (w (fst b)))) l)); [|apply G; auto].
    induction l as [|b l IH]; intros Hl; cbn [map]; constructor; [|apply IH; intros; apply Hl; right; auto].
    destruct (Cf (Z.to_nat (w (fst b)))) as (f & I & J). { unfold cz. apply in_map_iff. exists b. split; auto. apply Hl. left. auto. }
    destruct (Pp f _ I J) as [Q _1]. rewrite Q. apply w_pos.
Qed.
End Corner.
End All.

Lemma simplify_ok key facets points xmin xmax tol same ups imap vs :
  uniquePoints key 2 points xmin xmax tol = Ok (ups, imap) -> MergedBy 2 points same ups imap ->
  Boundary (length points / 2) same facets vs -> (0 < tol)%Q -> Clear tol (pos2 points) vs -> NoSpike (pos2 points) vs ->
  exists points' facets', simplify2 key facets points xmin xmax tol = Ok (points', facets') /\
    Simplified (length points / 2) same facets points points' facets'.
Proof.
  intros U M B T C NS. destruct (order_ok points same ups imap facets vs M B) as (rs & us & E1 & L & E2 & Pu & Bu).
  destruct (find_ok points tol same ups imap facets vs M B T C us Pu Bu) as (s & Ls & E3 & St).
  destruct (merge' points tol same ups imap facets vs M B T C us Pu Bu s Ls St) as (bl & Rb & E4).
  destruct (numbered points tol same ups imap facets vs M B T C us Pu Bu s Ls bl Rb) as (points' & facets' & E5 & Nb).
  pose proof (three' points tol same ups imap facets vs M B T C us Pu Bu s St bl Rb) as L3.
  pose proof (facets_len points same ups imap facets vs M B) as Lf.
  assert (Lu : length us = length facets) by (rewrite (Permutation_length Pu), map_length; auto).
  exists points', facets'. split.
  - unfold simplify2. rewrite U. cbn [bind]. rewrite (edges_ok points same ups imap facets vs M B). cbn [bind]. rewrite E1. cbn [bind]. rewrite map_length, Nat.eqb_refl. cbn [assert bind].
    rewrite E2. cbn [bind]. rewrite <- Lu, E3. cbn [bind]. rewrite E4. cbn [bind]. rewrite map_length. destruct (Nat.ltb_spec 2 (length bl)); [|lia]. cbn [assert bind]. exact E5.
  - exists (wl imap vs us s), (map (corner imap vs us s) bl). split; [|split; [|split; [auto|]]].
    + eapply wl_boundary; eauto.
    + eapply thinned; eauto.
    + eapply corners_bent; eauto.
Qed.
