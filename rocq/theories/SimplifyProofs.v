(* Proofs about simplifyPLCfacets: walking around a ring and merging edges in line. *)
From Verif Require Import Base BaseFacts Plane PLCSpec WithinModel WithinSpec WithinProofs HullModel HullSpec HullProofs4 HullProofs5 SimplifyModel SimplifySpec.
From Coq Require Import QArith Lqa Permutation Sorted.
Local Open Scope nat_scope.

Lemma orient_same a b : (orient a b a == 0 /\ orient a b b == 0)%Q.
Proof. unfold orient. split; ring. Qed.
(* if c and d are on the line through the two points a, b, the three points a, c, d are in line *)
Lemma line_trans a b c d : ~ (dist2 a b == 0)%Q -> (orient a b c == 0)%Q -> (orient a b d == 0)%Q -> (orient a c d == 0)%Q.
Proof.
  unfold orient, dist2. intros N H1 H2. set (ux := (fst b - fst a)%Q) in *. set (uy := (snd b - snd a)%Q) in *.
  set (cx := (fst c - fst a)%Q) in *. set (cy := (snd c - snd a)%Q) in *. set (dx := (fst d - fst a)%Q) in *. set (dy := (snd d - snd a)%Q) in *.
  assert (E : ((ux * ux + uy * uy) * (cx * dy - cy * dx) == (ux * cx + uy * cy) * (ux * dy - uy * dx) - (ux * dx + uy * dy) * (ux * cy - uy * cx))%Q) by ring.
  rewrite H1, H2 in E. assert (E0 : ((ux * ux + uy * uy) * (cx * dy - cy * dx) == 0)%Q) by (rewrite E; ring).
  apply Qmult_integral in E0. destruct E0 as [E0|E0]; auto. exfalso. apply N. rewrite <- E0. unfold ux, uy. ring.
Qed.
Lemma line_swap a b c : (orient a b c == 0 -> orient b a c == 0)%Q.
Proof. unfold orient. intros H. rewrite <- H. ring_simplify. assert (E : ((fst a - fst b) * (snd c - snd b) - (snd a - snd b) * (fst c - fst b) == - ((fst b - fst a) * (snd c - snd a) - (snd b - snd a) * (fst c - fst a)))%Q) by ring. lra. Qed.
Lemma line_rot a b c : (orient a b c == orient b c a)%Q.
Proof. unfold orient. ring. Qed.
Lemma line_swap2 a b c : (orient a b c == 0 -> orient a c b == 0)%Q.
Proof. unfold orient. intros H. lra. Qed.
Lemma dist_sym a b : (dist2 a b == dist2 b a)%Q.
Proof. unfold dist2. ring. Qed.
(* three points on the line through a, b are in line *)
Lemma line_three a b c d e : ~ (dist2 a b == 0)%Q -> (orient a b c == 0)%Q -> (orient a b d == 0)%Q -> (orient a b e == 0)%Q -> (orient c d e == 0)%Q.
Proof.
  intros N H1 H2 H3. pose proof (line_trans _ _ _ _ N H1 H2) as A. pose proof (line_trans _ _ _ _ N H1 H3) as B. pose proof (line_trans _ _ _ _ N H2 H3) as C.
  assert (E : (orient c d e == orient a c d + orient a d e - orient a c e)%Q) by (unfold orient; ring). rewrite E, A, B, C. ring.
Qed.

(* a ring of points u, the tests being exact on it *)
Section Walk.
Context (pts : list Q) (tol : Q) (n : nat) (w : nat -> Z) (P : Z -> p2).
Hypothesis n3 : 3 <= n.
Hypothesis wper : forall k, w (k + n) = w k.
Hypothesis winj : forall i j, i < n -> j < n -> w i = w j -> i = j.
Hypothesis test : forall i j k, w i <> w j -> collinear_at pts tol (w i) (w j) (w k) = Ok (Qeq_bool (orient (P (w i)) (P (w j)) (P (w k))) 0).
Hypothesis far : forall i j, w i <> w j -> ~ (dist2 (P (w i)) (P (w j)) == 0)%Q.
Notation Line i j k := (orient (P (w i)) (P (w j)) (P (w k)) == 0)%Q.

Lemma wmod k : w (k mod n) = w k.
Proof. rewrite (Nat.div_mod k n) at 2 by lia. rewrite Nat.add_comm, Nat.mul_comm. induction (k / n) as [|q IH]; [rewrite Nat.add_0_r; auto|]. rewrite IH. replace (k mod n + S q * n) with (k mod n + q * n + n) by lia. rewrite wper. auto. Qed.
Lemma wne i d : 0 < d < n -> w i <> w (i + d).
Proof.
  intros D E. rewrite <- (wmod i), <- (wmod (i + d)) in E. apply winj in E; try (apply Nat.mod_upper_bound; lia).
  rewrite <- Nat.add_mod_idemp_l in E by lia. pose proof (Nat.mod_upper_bound i n). set (r := i mod n) in *.
  destruct (le_lt_dec n (r + d)) as [L|L].
  - assert (X : (r + d) mod n = r + d - n). { replace (r + d) with (r + d - n + 1 * n) at 1 by lia. rewrite Nat.mod_add by lia. apply Nat.mod_small. lia. } lia.
  - rewrite Nat.mod_small in E by lia. lia.
Qed.

(* a run of c further edges after the one at k *)
Record Run (k c : nat) : Prop := {
  run_in : forall j, k + 2 <= j <= k + c + 1 -> Line k (k + 1) j;
  run_out : ~ Line k (k + 1) (k + c + 2) }.
Hypothesis start : ~ Line 0 1 (n - 1).

Lemma run_ex k : k < n -> exists c, k + c + 1 <= n /\ Run k c.
Proof.
  intros K. assert (D : forall j, {Line k (k + 1) j} + {~ Line k (k + 1) j}) by (intros; apply Qeq_dec).
  assert (G : forall m, k + m <= n -> (exists c, c < m /\ Run k c) \/ (forall j, k + 2 <= j <= k + m + 1 -> Line k (k + 1) j)).
  { induction m as [|m IH]; intros M; [right; intros; lia|]. destruct (IH ltac:(lia)) as [(c & C & R)|A]; [left; exists c; split; auto|].
    destruct (D (k + m + 2)) as [X|X]; [|left; exists m; split; [lia|split; auto]].
    right. intros j J. destruct (Nat.eq_dec j (k + m + 2)) as [->|]; auto. apply A. lia. }
  destruct (G (n - k) ltac:(lia)) as [(c & C & R)|A]; [exists c; split; [lia|auto]|]. exfalso. apply start.
  assert (N : ~ (dist2 (P (w k)) (P (w (k + 1))) == 0)%Q) by (apply far, wne; lia).
  assert (On : forall j, k <= j <= n + 1 -> Line k (k + 1) j).
  { intros j J. destruct (Nat.eq_dec j k) as [->|]; [apply orient_same|]. destruct (Nat.eq_dec j (k + 1)) as [->|]; [apply orient_same|]. apply A. lia. }
  pose proof (On n ltac:(lia)) as A0. pose proof (On (n + 1) ltac:(lia)) as A1. pose proof (On (n - 1) ltac:(lia)) as A2.
  change n with (0 + n) in A0 at 1. rewrite wper in A0. replace (n + 1) with (1 + n) in A1 by lia. rewrite wper in A1. eapply line_three; eauto.
Qed.
Context (es : list (Z * Z)) (s : nat).
Hypothesis es_len : length es = n.
Hypothesis es_nth : forall k, nth_error es ((s + k) mod n) = Some (w k, w (k + 1)).

Lemma es_get k j : (j mod n = (s + k) mod n) -> get es (j mod n) = Ok (w k, w (k + 1)).
Proof. intros E. apply get_ok. rewrite E. apply es_nth. Qed.

Lemma count_ok k c fuel : k < n -> Run k c -> forall m, m <= c -> c < fuel + m ->
  count_coll pts tol es fuel ((s + k) mod n) m = Ok c.
Proof.
  intros K R. revert fuel. induction fuel as [|fuel IH]; intros m M F; [lia|]. cbn [count_coll].
  rewrite (proj2 (get_ok _ _ _) (es_nth k)). cbn [bind]. rewrite es_len, (es_get (k + (m + 1))).
  2: { replace ((s + k) mod n + m + 1) with ((s + k) mod n + (m + 1)) by lia. rewrite Nat.add_mod_idemp_l by lia. f_equal. lia. }
  cbn [bind fst snd]. rewrite test by (apply wne; lia). cbn [bind]. replace (k + (m + 1) + 1) with (k + m + 2) by lia.
  destruct (Qeq_bool (orient (P (w k)) (P (w (k + 1))) (P (w (k + m + 2)))) 0) eqn:B.
  - apply Qeq_bool_iff in B. assert (m <> c) by (intros ->; apply (run_out _ _ R); auto). apply IH; lia.
  - assert (m = c) as ->; auto. destruct (Nat.eq_dec m c) as [|N]; auto. exfalso. assert (Qeq_bool (orient (P (w k)) (P (w (k + 1))) (P (w (k + m + 2)))) 0 = true); [|congruence].
    apply Qeq_bool_iff. apply (run_in _ _ R). lia.
Qed.

(* the runs from k on *)
Inductive runs : nat -> list (nat * nat) -> Prop :=
| runs_end : runs n []
| runs_cons k c bl : k < n -> Run k c -> runs (k + c + 1) bl -> runs k ((k, c) :: bl).
Definition facet_of (b : nat * nat) : list nat := [Z.to_nat (w (fst b)); Z.to_nat (w (fst b + snd b + 1))].

Lemma merge_ok fuel : forall k acc, k <= n -> n <= fuel + k -> exists bl, runs k bl /\ merge_edges pts tol es fuel s k acc = Ok (acc ++ map facet_of bl).
Proof.
  induction fuel as [|fuel IH]; intros k acc K F.
  - assert (k = n) as -> by lia. exists []. split; [constructor|]. cbn [merge_edges]. rewrite es_len, Nat.ltb_irrefl, app_nil_r. auto.
  - destruct (Nat.eq_dec k n) as [->|N].
    + exists []. split; [constructor|]. cbn [merge_edges]. rewrite es_len, Nat.ltb_irrefl, app_nil_r. auto.
    + assert (K' : k < n) by lia. destruct (run_ex k K') as (c & C & R). destruct (IH (k + (c + 1)) (acc ++ [facet_of (k, c)]) ltac:(lia) ltac:(lia)) as (bl & RB & E).
      exists ((k, c) :: bl). split; [constructor; auto; rewrite <- Nat.add_assoc; auto|]. cbn [merge_edges]. rewrite es_len. destruct (Nat.ltb_spec k n); [|lia].
      rewrite (count_ok k c n K' R 0) by lia. cbn [bind]. rewrite (proj2 (get_ok _ _ _) (es_nth k)). cbn [bind]. rewrite (es_get (k + c)).
      2: { rewrite Nat.add_mod_idemp_l by lia. f_equal. lia. }
      cbn [bind fst snd]. change [Z.to_nat (w k); Z.to_nat (w (k + c + 1))] with (facet_of (k, c)). rewrite E. cbn [map]. rewrite <- app_assoc. auto.
Qed.

(* consecutive runs *)
Lemma runs_hd k b bl : runs k (b :: bl) -> fst b = k /\ k < n.
Proof. inversion 1; subst; cbn; auto. Qed.
Lemma runs_next k bl b b' : runs k bl -> In (b, b') (combine bl (tl bl)) -> fst b' = fst b + snd b + 1.
Proof.
  induction 1 as [|k c bl K R RB IH]; cbn [tl]; [intros []|]. destruct bl as [|b2 bl]; [intros []|]. cbn [combine]. intros [E|I].
  - inversion E. subst. cbn [fst snd]. apply (runs_hd _ _ _ RB).
  - apply IH. auto.
Qed.
Lemma runs_in k bl b : runs k bl -> In b bl -> fst b < n /\ Run (fst b) (snd b).
Proof. induction 1 as [|k c bl K R RB IH]; intros []; auto. subst. auto. Qed.
Lemma runs_last k bl d : runs k bl -> bl <> [] -> fst (last bl d) + snd (last bl d) + 1 = n.
Proof.
  induction 1 as [|k c bl K R RB IH]; [congruence|]. intros _. destruct bl as [|b bl]; [cbn; inversion RB; lia|]. change (last ((k, c) :: b :: bl) d) with (last (b :: bl) d). apply IH. discriminate.
Qed.
Lemma runs_le k bl : runs k bl -> k <= n.
Proof. induction 1; lia. Qed.

Lemma ring_in {A} (l : list A) b b' d : In (b, b') (ring l) -> In (b, b') (combine l (tl l)) \/ (exists t, l = b' :: t /\ b = last l d).
Proof.
  destruct l as [|a t]; [intros []|]. unfold ring. cbn [tl]. intros H.
  assert (G : forall (t : list A) a x, In (b, b') (combine (a :: t) (t ++ [x])) -> In (b, b') (combine (a :: t) t) \/ (b = last (a :: t) d /\ b' = x)).
  { clear. induction t as [|y t IH]; intros a x H; cbn [app combine] in H.
    - destruct H as [H|[]]. inversion H. subst. right. split; reflexivity.
    - destruct H as [H|H]; [left; left; auto|]. destruct (IH y x H) as [I|[I ->]]; [left; right; auto|]. right. split; auto. }
  destruct (G t a a H) as [I|[I ->]]; [left; auto|right]. exists t. auto.
Qed.
Context (bl : list (nat * nat)).
Hypothesis rbl : runs 0 bl.
Lemma runs_ring b b' : In (b, b') (ring bl) -> forall d, w (fst b' + d) = w (fst b + snd b + 1 + d).
Proof.
  intros I d. destruct (ring_in bl b b' (0, 0) I) as [J|(t & E & ->)].
  - rewrite (runs_next _ _ _ _ rbl J). auto.
  - rewrite (runs_last 0 bl (0, 0) rbl) by (rewrite E; discriminate). rewrite E in rbl. destruct (runs_hd _ _ _ rbl) as [-> _]. rewrite Nat.add_0_l, Nat.add_comm. symmetry. apply wper.
Qed.
Lemma run_corner k c c' : Run k c -> c + 1 < n -> c' + 1 < n -> Run (k + c + 1) c' -> ~ Line k (k + c + 1) (k + c + 1 + c' + 1).
Proof.
  intros R C C' R' L. apply (run_out _ _ R).
  assert (N1 : ~ (dist2 (P (w k)) (P (w (k + 1))) == 0)%Q) by (apply far, wne; lia).
  assert (N2 : ~ (dist2 (P (w k)) (P (w (k + c + 1))) == 0)%Q) by (replace (k + c + 1) with (k + (c + 1)) by lia; apply far, wne; lia).
  assert (N3 : ~ (dist2 (P (w (k + c + 1))) (P (w (k + c + 1 + c' + 1))) == 0)%Q) by (replace (k + c + 1 + c' + 1) with (k + c + 1 + (c' + 1)) by lia; apply far, wne; lia).
  assert (A : Line k (k + 1) (k + c + 1)). { destruct c; [rewrite Nat.add_0_r; apply orient_same|apply (run_in _ _ R); lia]. }
  assert (B : Line (k + c + 1) (k + c + 1 + 1) (k + c + 1 + c' + 1)). { destruct c'; [rewrite (Nat.add_0_r (k + c + 1)); apply orient_same|apply (run_in _ _ R'); lia]. }
  replace (k + c + 2) with (k + c + 1 + 1) by lia.
  (* on the line through corners 2 and 3 *)
  pose proof (line_swap2 _ _ _ B) as B'.
  (* everything on the line through k and k + c + 1 *)
  assert (C1 : Line k (k + c + 1) (k + 1)) by (apply line_swap2; auto).
  assert (C2 : Line k (k + c + 1) (k + c + 1 + 1)).
  { assert (X : Line (k + c + 1) (k + c + 1 + c' + 1) k) by (rewrite <- line_rot; auto).
    eapply (line_three _ _ _ _ _ N3); [exact X|apply orient_same|exact B']. }
  eapply (line_three _ _ _ _ _ N2); [apply orient_same|exact C1|exact C2].
Qed.
Lemma runs_lt k l b : runs k l -> In b l -> k <= fst b /\ fst b + snd b + 1 <= n.
Proof. induction 1 as [|k0 c l K R RB IH]; intros []; [subst; cbn; apply runs_le in RB; lia|apply IH in H; lia]. Qed.
(* no run goes all the way round *)
Lemma run_short b : In b bl -> snd b + 1 < n.
Proof.
  intros I. destruct (runs_lt _ _ _ rbl I) as [_ L]. destruct (Nat.eq_dec (snd b + 1) n) as [E|]; [|lia].
  destruct (runs_in _ _ _ rbl I) as [_ R]. assert (Z : fst b = 0) by lia. rewrite Z in R. exfalso. apply start. apply (run_in _ _ R). lia.
Qed.
Lemma runs_three : 3 <= length bl.
Proof.
  assert (G : forall l, runs 0 l -> (forall b, In b l -> snd b + 1 < n) -> 3 <= length l); [|apply G; [exact rbl|exact run_short]].
  intros l RL RS. destruct l as [|[k0 c0] [|[k1 c1] [|b2 t]]]; cbn; try lia; exfalso.
  - inversion RL. lia.
  - inversion RL as [|? ? ? K R RB]; subst. inversion RB. pose proof (RS (0, c0) ltac:(left; auto)) as X. cbn in X. lia.
  - inversion RL as [|? ? ? K R RB]; subst. inversion RB as [|? ? ? K1 R1 RB1]; subst. inversion RB1 as [E1|]; subst.
    pose proof (RS (0, c0) ltac:(left; auto)) as X. pose proof (RS (0 + c0 + 1, c1) ltac:(right; left; auto)) as X1. cbn [snd] in X, X1.
    apply (run_corner 0 c0 c1); auto. rewrite <- E1. change (w n) with (w (0 + n)). rewrite wper. apply orient_same.
Qed.
End Walk.
