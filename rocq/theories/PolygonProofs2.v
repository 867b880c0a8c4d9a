From Verif Require Import Base BaseFacts SerializeModel PLCSpec Plane PlaneFacts AreaModel AreaProofs MeshEditorModel WithinModel WithinSpec WithinProofs WithinProofs2 PolygonModel PolygonSpec PolygonProofs.
From Coq Require Import QArith Lqa Permutation.
Local Open Scope Q_scope.

(* ---- the loop of queryPoint ---- *)
Definition isat (p v : p2) : bool := Qeq_bool (fst v - fst p) 0 && Qeq_bool (snd v - snd p) 0.
Lemma isat_ok p v : isat p v = true <-> SamePoint p v.
Proof.
  unfold isat, SamePoint. rewrite andb_true_iff, !Qeq_bool_iff. split; intros [X Y]; split; lra.
Qed.
Definition lp (p : p2) (es : list (p2 * p2)) : bool := par (map (fun e => l_crosses (rel p (fst e)) (rel p (snd e))) es).
Definition verdict (r l : bool) : location := if xorb r l then POINT_ON_EDGE else if r then POINT_INSIDE else POINT_OUTSIDE.
Lemma verdict_nat R L : (if negb (R mod 2 =? L mod 2)%nat then POINT_ON_EDGE else if (R mod 2 =? 1)%nat then POINT_INSIDE else POINT_OUTSIDE) = verdict (Nat.odd R) (Nat.odd L).
Proof.
  assert (G : forall n, (n mod 2)%nat = Nat.b2n (Nat.odd n)).
  { intros n. rewrite <- Nat.bit0_mod. rewrite Nat.bit0_odd. reflexivity. }
  rewrite !G. unfold verdict. destruct (Nat.odd R), (Nat.odd L); reflexivity.
Qed.
Lemma odd_if (b : bool) n : Nat.odd (if b then S n else n) = xorb b (Nat.odd n).
Proof. destruct b; [rewrite Nat.odd_succ, <- Nat.negb_odd; reflexivity|rewrite xorb_false_l; auto]. Qed.
Lemma skipn_cons {A} (l : list A) k v : nth_error l k = Some v -> skipn k l = v :: skipn (S k) l.
Proof. revert k. induction l as [|a l IH]; intros [|k] K; try discriminate; cbn in *; [congruence|auto]. Qed.
Lemma prev_step N k : (0 < k < N -> (k + N - 1) mod N = k - 1)%nat.
Proof. intros H. replace (k + N - 1)%nat with (k - 1 + 1 * N)%nat by lia. rewrite Nat.mod_add by lia. apply Nat.mod_small. lia. Qed.
Lemma prev_first N : (0 < N -> (0 + N - 1) mod N = N - 1)%nat.
Proof. intros H. apply Nat.mod_small. lia. Qed.
Lemma query_loop_ok ps p : forall m k R L vj, (k + m = length ps)%nat -> nth_error ps ((k + length ps - 1) mod length ps) = Some vj ->
  query_loop p (coords ps) (length ps) (seq k m) R L =
  Ok (if existsb (isat p) (skipn k ps) then POINT_ON_VERTEX
      else verdict (xorb (Nat.odd R) (xp p (chain vj (skipn k ps)))) (xorb (Nat.odd L) (lp p (chain vj (skipn k ps))))).
Proof.
  induction m as [|m IH]; intros k R L vj E J.
  - cbn [seq query_loop]. rewrite skipn_all2 by lia. cbn [existsb chain]. unfold xp, lp. cbn [map par fold_right]. rewrite !xorb_false_r, verdict_nat. auto.
  - destruct (nth_error_ex ps k) as [vk K]; [lia|]. cbn [seq query_loop]. rewrite (vat_in _ _ _ K). cbn [bind fst snd].
    rewrite (skipn_cons _ _ _ K). cbn [existsb chain]. change (Qeq_bool (fst vk - fst p) 0 && Qeq_bool (snd vk - snd p) 0) with (isat p vk).
    destruct (isat p vk); [reflexivity|]. cbn [orb]. rewrite (vat_in _ _ _ J). cbn [bind].
    change (fst vj - fst p, snd vj - snd p) with (rel p vj). change (fst vk - fst p, snd vk - snd p) with (rel p vk).
    rewrite (IH (S k) _ _ vk); [|lia|].
    + rewrite !odd_if, r_crosses_ok, xp_cons. unfold lp. cbn [map par fold_right fst snd]. rewrite (crossing_sym p vj vk), (l_crosses_sym (rel p vj)).
      fold (par (map (fun e => l_crosses (rel p (fst e)) (rel p (snd e))) (chain vk (skipn (S k) ps)))).
      rewrite <- !xorb_assoc. rewrite (xorb_comm (crossing p vk vj)), (xorb_comm (l_crosses (rel p vk) (rel p vj))). reflexivity.
    + destruct (Nat.eq_dec (S k) (length ps)) as [F|F].
      * rewrite <- F. replace (S k + S k - 1)%nat with (k + 1 * S k)%nat by lia. rewrite Nat.mod_add, Nat.mod_small by lia. auto.
      * rewrite prev_step by lia. replace (S k - 1)%nat with k by lia. auto.
Qed.
Lemma lp_perm p l l' : Permutation l l' -> lp p l = lp p l'.
Proof. intros H. apply par_perm, Permutation_map. auto. Qed.
Lemma query_ok ps p : ps <> [] -> queryPoint (coords ps) p =
  Ok (if existsb (isat p) ps then POINT_ON_VERTEX else verdict (xp p (ring ps)) (lp p (ring ps))).
Proof.
  intros N. destruct ps as [|a t]; [congruence|]. unfold queryPoint. rewrite coords_half.
  replace (length (coords (a :: t)) =? 0)%nat with false by (symmetry; apply Nat.eqb_neq; rewrite coords_length; cbn; lia).
  rewrite (query_loop_ok (a :: t) p (length (a :: t)) 0 0 0 (last (a :: t) a)); [|auto|rewrite prev_first by (cbn; lia); apply last_nth; auto].
  cbn [skipn]. change (Nat.odd 0) with false. rewrite !xorb_false_l. rewrite <- (xp_perm p _ _ (ring_chain a t)), <- (lp_perm p _ _ (ring_chain a t)). reflexivity.
Qed.

(* ---- both counts together ---- *)
Lemma par_xorb {A} (f g : A -> bool) l : par (map (fun a => xorb (f a) (g a)) l) = xorb (par (map f l)) (par (map g l)).
Proof.
  induction l as [|a l IH]; [reflexivity|]. cbn [map par fold_right]. fold (par (map (fun a => xorb (f a) (g a)) l)) (par (map f l)) (par (map g l)).
  rewrite IH. destruct (f a), (g a), (par (map f l)), (par (map g l)); reflexivity.
Qed.
Lemma ring_par {A} (g : A -> bool) l : par (map (fun e => xorb (g (fst e)) (g (snd e))) (ring l)) = false.
Proof.
  destruct l as [|a t]; [reflexivity|]. rewrite <- (par_perm _ _ (Permutation_map _ (ring_chain a t))).
  cbn [map par fold_right fst snd]. fold (par (map (fun e => xorb (g (fst e)) (g (snd e))) (chain a t))).
  assert (G : forall t a, par (map (fun e => xorb (g (fst e)) (g (snd e))) (chain a t)) = xorb (g a) (g (last (a :: t) a))).
  { clear. induction t as [|b t IH]; intros a; [cbn; rewrite xorb_nilpotent; auto|]. cbn [chain map par fold_right fst snd].
    fold (par (map (fun e => xorb (g (fst e)) (g (snd e))) (chain b t))). rewrite IH.
    replace (last (a :: b :: t) a) with (last (b :: t) b); [destruct (g a), (g b), (g (last (b :: t) b)); reflexivity|].
    cbn [last]. clear. revert b. induction t as [|c t IH]; intros b; [reflexivity|]. destruct t; [reflexivity|]. exact (IH b). }
  rewrite G. destruct (g a), (g (last (a :: t) a)); reflexivity.
Qed.
Lemma both_par p l : xorb (xp p (ring l)) (lp p (ring l)) = par (map (fun e => onb p (fst e) (snd e)) (ring l)).
Proof.
  unfold onb. rewrite (par_xorb (fun e => xorb (crossing p (fst e) (snd e)) (l_crosses (rel p (fst e)) (rel p (snd e)))) (fun e => xorb (gv p (fst e)) (gv p (snd e)))).
  rewrite ring_par, xorb_false_r, par_xorb. reflexivity.
Qed.
Lemma ring_ends {A} (l : list A) a b : In (a, b) (ring l) -> In a l /\ In b l.
Proof.
  destruct l as [|x t]; [intros []|]. unfold ring. intros I. split; [apply (in_combine_l _ _ _ _ I)|]. apply in_combine_r in I. apply in_app_iff in I as [I|[->|[]]]; [right|left]; auto.
Qed.
Lemma forall2_map {A B} (R : A -> B -> Prop) (f : A -> B) l : (forall a, In a l -> R a (f a)) -> Forall2 R l (map f l).
Proof. induction l as [|a l IH]; intros H; constructor; [apply H; left; auto|apply IH; intros; apply H; right; auto]. Qed.
Lemma forall2_fun {A B} (R : A -> B -> Prop) l c c' : (forall a b b', In a l -> R a b -> R a b' -> b = b') -> Forall2 R l c -> Forall2 R l c' -> c = c'.
Proof.
  intros U H. revert c'. induction H as [|a b l c X H IH]; intros c' H'; inversion H' as [|? b' ? c1 X' H1]; subst; [auto|].
  f_equal; [apply (U a); [left|..]; auto|apply IH; [intros; eapply U; [right|..]; eauto|auto]].
Qed.
Lemma on_oddly ps p : (forall v, In v ps -> ~ SamePoint p v) -> (OnOddly p (ring ps) <-> par (map (fun e => onb p (fst e) (snd e)) (ring ps)) = true).
Proof.
  intros N. assert (F : Forall2 (fun e c => c = true <-> OnEdge p e) (ring ps) (map (fun e => onb p (fst e) (snd e)) (ring ps))).
  { apply forall2_map. intros [a b] I. apply ring_ends in I as [I J]. apply onb_ok; auto. }
  rewrite par_odd. split.
  - intros (cs & H & O). rewrite (forall2_fun (fun e c => c = true <-> OnEdge p e) _ _ _ (fun e c c' _ => ltac:(cbv beta; intros I J; destruct c, c'; auto; [symmetry; apply J, I; auto|apply I, J; auto])) F H). exact O.
  - intros O. eexists. split; [exact F|exact O].
Qed.

(* ---- the edges as successive corners ---- *)
Lemma ring_nth {A} (ps : list A) i a b : nth_error (ring ps) i = Some (a, b) <->
  (i < length ps)%nat /\ nth_error ps i = Some a /\ nth_error ps ((i + 1) mod length ps) = Some b.
Proof.
  destruct ps as [|x t]; [cbn; destruct i; split; intros H; [discriminate|destruct H; lia|discriminate|destruct H; lia]|].
  unfold ring. set (ps := x :: t).
  assert (C : forall (l l' : list A) i, length l = length l' -> nth_error (combine l l') i = match nth_error l i, nth_error l' i with Some a, Some b => Some (a, b) | _, _ => None end).
  { clear. induction l as [|a l IH]; intros [|b l'] [|i] E; try discriminate; cbn; auto. }
  rewrite C by (unfold ps; cbn [length]; rewrite app_length; cbn; lia).
  assert (L : length ps = S (length t)) by reflexivity.
  destruct (Nat.lt_ge_cases i (length ps)) as [I|I].
  - assert (E : nth_error (t ++ [x]) i = nth_error ps ((i + 1) mod length ps)).
    { destruct (Nat.eq_dec i (length t)) as [->|F].
      - rewrite nth_error_app2, Nat.sub_diag by lia. rewrite L. replace (length t + 1)%nat with (S (length t)) by lia. rewrite Nat.mod_same by lia. reflexivity.
      - rewrite nth_error_app1 by lia. rewrite Nat.mod_small by lia. rewrite Nat.add_1_r. reflexivity. }
    rewrite <- E. destruct (nth_error ps i) as [y|], (nth_error (t ++ [x]) i) as [z|]; split; intros H; try discriminate; try (destruct H as (_ & ? & ?); discriminate).
    + injection H as -> ->. auto.
    + destruct H as (_ & [= ->] & [= ->]). auto.
  - rewrite (proj2 (nth_error_None ps i) I). split; [discriminate|]. intros [? _]. lia.
Qed.

(* ---- closestIntersection ---- *)
(* the fractions at which the segment meets the edges already seen *)
Definition Best (s1 s2 : p2) (ps : list p2) (k : nat) (st : option (nat * Q * p2)) : Prop :=
  match st with
  | None => forall i a b t, (i < k)%nat -> Edge ps i a b -> ~ Meets s1 s2 a b t
  | Some (j, t, q) => (j < k)%nat /\ (exists a b, Edge ps j a b /\ Meets s1 s2 a b t) /\ q = along s1 s2 t /\
      forall i a b t', (i < k)%nat -> Edge ps i a b -> Meets s1 s2 a b t' -> t <= t' /\ ((i < j)%nat -> t < t')
  end.
Lemma meets_iff s1 s2 a b t :
  let sx := fst s2 - fst s1 in let sy := snd s2 - snd s1 in
  let ex := fst b - fst a in let ey := snd b - snd a in
  let esx := fst s1 - fst a in let esy := snd s1 - snd a in
  let thpt := ey * sx - ex * sy in
  Meets s1 s2 a b t <-> ~ thpt == 0 /\ t == (ex * esy - ey * esx) / thpt /\ 0 <= t <= 1 /\ 0 <= (sx * esy - sy * esx) / thpt <= 1.
Proof.
  cbv zeta. unfold Meets, OnEdge, SamePoint, along. cbn [fst snd].
  set (sx := fst s2 - fst s1). set (sy := snd s2 - snd s1). set (ex := fst b - fst a). set (ey := snd b - snd a).
  assert (Ex : fst s1 == fst a + (fst s1 - fst a)) by ring. assert (Ey : snd s1 == snd a + (snd s1 - snd a)) by ring.
  set (esx := fst s1 - fst a) in *. set (esy := snd s1 - snd a) in *. split.
  - intros (N & T & u & U & X & Y). assert (D : ~ ey * sx - ex * sy == 0) by (intros Z; apply N; lra). split; [auto|].
    assert (X' : esx + t * sx == u * ex) by lra. assert (Y' : esy + t * sy == u * ey) by lra. clearbody esx esy.
    assert (E : t == (ex * esy - ey * esx) / (ey * sx - ex * sy)).
    { apply (Qmult_inj_l _ _ _ D). rewrite Qmult_div_r by auto. assert (X2 : esx == u * ex - t * sx) by lra. assert (Y2 : esy == u * ey - t * sy) by lra. rewrite X2, Y2. ring. }
    assert (F : u == (sx * esy - sy * esx) / (ey * sx - ex * sy)).
    { apply (Qmult_inj_l _ _ _ D). rewrite Qmult_div_r by auto. transitivity (sx * (u * ey) - sy * (u * ex)); [ring|]. rewrite <- X', <- Y'. ring. }
    rewrite <- F. auto.
  - intros (D & E & T & U). split; [intros Z; apply D; lra|]. split; [auto|]. eexists. split; [exact U|].
    split; [rewrite Ex|rewrite Ey]; rewrite E; field; auto.
Qed.
Lemma meets_once s1 s2 a b t t' : Meets s1 s2 a b t -> Meets s1 s2 a b t' -> t == t'.
Proof. rewrite !meets_iff. intros (_ & E & _) (_ & E' & _). rewrite E, E'. reflexivity. Qed.
Lemma closest_step ps s1 s2 k st : (k < length ps)%nat -> Best s1 s2 ps k st ->
  exists st', intersection_step (coords ps) (length ps) s1 s2 st k = Ok st' /\ Best s1 s2 ps (S k) st'.
Proof.
  intros L B. destruct (nth_error_ex ps k L) as [a A]. destruct (nth_error_ex ps ((k + 1) mod length ps)) as [b C]; [apply Nat.mod_upper_bound; lia|].
  assert (Ed : Edge ps k a b) by (apply ring_nth; auto).
  unfold intersection_step. rewrite (vat_in _ _ _ A), (vat_in _ _ _ C). cbn [bind].
  pose proof (meets_iff s1 s2 a b) as M. cbv zeta in M.
  set (thpt := (snd b - snd a) * (fst s2 - fst s1) - (fst b - fst a) * (snd s2 - snd s1)) in *.
  set (phia := ((fst b - fst a) * (snd s1 - snd a) - (snd b - snd a) * (fst s1 - fst a)) / thpt) in *.
  set (phib := ((fst s2 - fst s1) * (snd s1 - snd a) - (snd s2 - snd s1) * (fst s1 - fst a)) / thpt) in *. clearbody thpt phia phib.
  assert (Old : (forall t, Meets s1 s2 a b t -> match st with None => False | Some (_, best, _) => best <= t end) -> Best s1 s2 ps (S k) st).
  { intros H. unfold Best in *. destruct st as [[[j t] q]|].
    - destruct B as (J & Ex & Q & F). split; [lia|]. split; [auto|]. split; [auto|]. intros i a' b' t' I Ei Mt. destruct (Nat.eq_dec i k) as [->|Ne]; [|apply (F i a' b'); auto; lia].
      unfold Edge in *. rewrite Ed in Ei. injection Ei as -> ->. split; [apply H; auto|intros; lia].
    - intros i a' b' t I Ei Mt. destruct (Nat.eq_dec i k) as [->|Ne]; [|apply (B i a' b' t); auto; lia]. unfold Edge in *. rewrite Ed in Ei. injection Ei as -> ->. apply (H t); auto. }
  destruct (Qeq_bool thpt 0) eqn:D; cbn [negb].
  - exists st. split; [auto|]. apply Old. intros t Mt. apply M in Mt as (N & _). apply Qeq_bool_iff in D. contradiction.
  - apply Qeq_bool_neq in D. destruct (Qle_bool 0 phia && Qle_bool phia 1 && Qle_bool 0 phib && Qle_bool phib 1 && match st with None => true | Some (_, best, _) => Qlt_bool phia best end) eqn:T.
    + eexists. split; [reflexivity|]. rewrite !andb_true_iff, !Qle_bool_iff in T. destruct T as ((((T1 & T2) & T3) & T4) & T5).
      assert (Mt : Meets s1 s2 a b phia) by (apply M; repeat split; auto; reflexivity).
      cbn [Best]. split; [lia|]. split; [exists a, b; auto|]. split; [reflexivity|]. intros i a' b' t' I Ei Mt'. destruct (Nat.eq_dec i k) as [->|Ne].
      * unfold Edge in *. rewrite Ed in Ei. injection Ei as <- <-. split; [rewrite (meets_once _ _ _ _ _ _ Mt Mt'); lra|intros; lia].
      * destruct st as [[[j best] q]|]; [|exfalso; apply (B i a' b' t'); auto; lia]. apply qlt_bool_iff in T5. destruct B as (_ & _ & _ & F). destruct (F i a' b' t') as [F1 _]; [lia|auto|auto|]. split; [lra|intros; lra].
    + exists st. split; [auto|]. apply Old. intros t Mt. pose proof Mt as Mt'. apply M in Mt' as (_ & E & [T1 T2] & [T3 T4]). rewrite E in T1, T2.
      rewrite (proj2 (Qle_bool_iff _ _) T1), (proj2 (Qle_bool_iff _ _) T2), (proj2 (Qle_bool_iff _ _) T3), (proj2 (Qle_bool_iff _ _) T4) in T. cbn [andb] in T.
      destruct st as [[[j best] q]|]; [|discriminate]. apply qlt_false in T. lra.
Qed.
Lemma closest_ok ps s1 s2 : exists st, closestIntersection (coords ps) s1 s2 = Ok (match st with None => None | Some (i, _, q) => Some (i, q) end) /\ Best s1 s2 ps (length ps) st.
Proof.
  unfold closestIntersection. rewrite coords_half.
  assert (G : forall m k st, (k + m = length ps)%nat -> Best s1 s2 ps k st -> exists st', mfold (intersection_step (coords ps) (length ps) s1 s2) (seq k m) st = Ok st' /\ Best s1 s2 ps (length ps) st').
  { induction m as [|m IH]; intros k st E B; [exists st; split; [auto|]; replace (length ps) with k by lia; auto|].
    destruct (closest_step ps s1 s2 k st) as (st' & S & B'); [lia|auto|]. cbn [seq mfold]. rewrite S. cbn [bind]. apply IH; [lia|auto]. }
  destruct (G (length ps) 0%nat None) as (st & E & B); [auto|intros i a b t I; lia|]. exists st. rewrite E. split; [reflexivity|auto].
Qed.

(* ---- distances and projections ---- *)
Lemma halfway_in ps i a b : (S i < length ps)%nat -> nth_error ps i = Some a -> nth_error ps (i + 1) = Some b ->
  halfway (coords ps) (Z.of_nat i) = Ok ((1 # 2) * (fst a + fst b), (1 # 2) * (snd a + snd b)).
Proof.
  intros L A B. unfold halfway. replace (Z.of_nat i <? 0)%Z with false by (symmetry; apply Z.ltb_ge; lia). replace (length (coords ps) =? 0)%nat with false by (symmetry; apply Nat.eqb_neq; rewrite coords_length; lia).
  cbn [orb]. rewrite Nat2Z.id, (vat_in _ _ _ A). cbn [bind]. rewrite coords_length, Nat.mod_small by lia. rewrite (vat_in _ _ _ B). reflexivity.
Qed.
Lemma halfway_last ps i : (0 < length ps)%nat -> (length ps <= i + 1)%nat -> halfway (coords ps) (Z.of_nat i) = UB.
Proof.
  intros N L. unfold halfway. replace (Z.of_nat i <? 0)%Z with false by (symmetry; apply Z.ltb_ge; lia). replace (length (coords ps) =? 0)%nat with false by (symmetry; apply Nat.eqb_neq; rewrite coords_length; lia).
  cbn [orb]. rewrite Nat2Z.id, coords_length. destruct (nth_error ps i) as [a|] eqn:A.
  - rewrite (vat_in _ _ _ A). cbn [bind]. apply nth_error_lt in A. rewrite Nat.mod_small by lia. rewrite vat_out by lia. reflexivity.
  - apply nth_error_None in A. rewrite vat_out by lia. reflexivity.
Qed.
Lemma last_is_ub {A B} (f : A -> B -> res A) l b : (forall a, f a b = UB) -> (forall a c, In c l -> exists a', f a c = Ok a') -> forall a, mfold f (l ++ [b]) a = UB.
Proof.
  intros Hb Hl. induction l as [|c l IH]; intros a; cbn [app mfold]; [rewrite Hb; reflexivity|].
  destruct (Hl a c (or_introl eq_refl)) as [a' ->]. cbn [bind]. apply IH. intros. apply Hl. right; auto.
Qed.
Lemma seq_last n : (0 < n)%nat -> seq 0 n = seq 0 (n - 1) ++ [(n - 1)%nat].
Proof. intros H. replace n with (S (n - 1)) at 1 by lia. rewrite seq_S. reflexivity. Qed.
Lemma nearest_ub ps p fltmax : (3 <= length ps)%nat -> nearestEdge fltmax (coords ps) p = UB.
Proof.
  intros L. unfold nearestEdge, polyEdges. rewrite coords_half, seq_last by lia.
  rewrite last_is_ub; [reflexivity| |].
  - intros [md e]. unfold distanceToEdge. rewrite halfway_last by lia. reflexivity.
  - intros [md e] i I. apply in_seq in I. destruct (nth_error_ex ps i) as [a A]; [lia|]. destruct (nth_error_ex ps (i + 1)) as [b B]; [lia|].
    unfold distanceToEdge. rewrite (halfway_in ps i a b ltac:(lia) A B). cbn [bind]. eexists. reflexivity.
Qed.
Lemma project_in ps i a b p : (S i < length ps)%nat -> nth_error ps i = Some a -> nth_error ps (i + 1) = Some b ->
  project (coords ps) p (Z.of_nat i) = Ok (
    let t := clamp (fdiv ((fst p - fst a) * (fst b - fst a) + (snd p - snd a) * (snd b - snd a)) ((fst b - fst a) * (fst b - fst a) + (snd b - snd b) * (snd b - snd b))) in
    match t with None => None | Some t => Some (along a b t) end).
Proof.
  intros L A B. unfold project. replace (0 <=? Z.of_nat i)%Z with true by (symmetry; apply Z.leb_le; lia). cbn [assert bind].
  unfold polyEdges. rewrite coords_half. replace (Z.of_nat i <? Z.of_nat (length ps))%Z with true by (symmetry; apply Z.ltb_lt; lia). cbn [assert bind].
  rewrite Nat2Z.id, (vat_in _ _ _ A). cbn [bind]. rewrite (vat_in _ _ _ B). reflexivity.
Qed.
Lemma project_last ps p i : (i < length ps)%nat -> (length ps <= i + 1)%nat -> project (coords ps) p (Z.of_nat i) = UB.
Proof.
  intros I L. unfold project. replace (0 <=? Z.of_nat i)%Z with true by (symmetry; apply Z.leb_le; lia). cbn [assert bind].
  unfold polyEdges. rewrite coords_half. replace (Z.of_nat i <? Z.of_nat (length ps))%Z with true by (symmetry; apply Z.ltb_lt; lia). cbn [assert bind].
  destruct (nth_error_ex ps i I) as [a A]. rewrite Nat2Z.id, (vat_in _ _ _ A). cbn [bind]. rewrite vat_out by lia. reflexivity.
Qed.
Lemma projectNearest_ub ps p fltmax : (3 <= length ps)%nat -> projectNearest fltmax (coords ps) p = UB.
Proof.
  intros L. unfold projectNearest, polyEdges. rewrite coords_half, seq_last by lia.
  rewrite last_is_ub; [reflexivity| |].
  - intros [md e]. rewrite project_last by lia. reflexivity.
  - intros [md e] i I. apply in_seq in I. destruct (nth_error_ex ps i) as [a A]; [lia|]. destruct (nth_error_ex ps (i + 1)) as [b B]; [lia|].
    rewrite (project_in ps i a b p ltac:(lia) A B). cbn [bind]. eexists. reflexivity.
Qed.
