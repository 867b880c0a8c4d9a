(* Proofs about the operations that use Boost.Geometry. *)
From Verif Require Import Base BaseFacts SerializeModel PLCSpec Plane MeshEditorModel WithinModel WithinSpec WithinProofs WithinProofs2 WithinProofs3 WithinProps BgModel BgSpec.
From Verif Require AreaProofs AreaProofs2 HullProofs3.
From Coq Require Import QArith Lqa Permutation.
Local Open Scope nat_scope.

Lemma closed_steps ps : steps (closed ps) = ring ps.
Proof.
  unfold steps, closed. destruct ps as [|a t]; [reflexivity|]. cbn [firstn app tl ring]. clear.
  assert (G : forall (l m : list p2) y, length l = length m -> combine (l ++ [y]) m = combine l m).
  { induction l as [|x l IH]; intros m y H; destruct m as [|z m]; try discriminate; [reflexivity|]. cbn. f_equal. apply IH. cbn in H. lia. }
  apply (G (a :: t) (t ++ [a]) a). cbn. rewrite app_length. cbn. lia.
Qed.
Lemma steps_rev l : Permutation (map flip (steps l)) (steps (rev l)).
Proof.
  unfold steps. induction l as [|a l IH]; [constructor|]. destruct l as [|b l]; [constructor|]. cbn [tl combine map]. eapply perm_trans; [apply perm_skip, IH|].
  cbn [rev]. generalize (rev l). clear. intros r. unfold flip. cbn [fst snd].
  assert (G : forall (l : list p2) x y, combine ((l ++ [x]) ++ [y]) (tl ((l ++ [x]) ++ [y])) = combine (l ++ [x]) (tl (l ++ [x])) ++ [(x, y)]).
  { induction l as [|c l IH]; intros x y; [reflexivity|]. cbn [app tl]. destruct l as [|d l]; [reflexivity|]. specialize (IH x y). cbn [app tl combine] in *. rewrite IH. reflexivity. }
  rewrite G. apply Permutation_cons_append.
Qed.
Lemma off_flip q e : OffSide q (flip e) <-> OffSide q e.
Proof.
  destruct e as [a b]. unfold OffSide, flip, along. cbn [fst snd]. split; intros H (t & B & E1 & E2); apply H; exists (1 - t)%Q; (split; [lra|]); split; [rewrite E1|rewrite E2|rewrite E1|rewrite E2]; ring.
Qed.
Lemma turned_same q l l' : Turned l l' -> xp q (steps l) = xp q (steps l') /\ (Forall (OffSide q) (steps l) <-> Forall (OffSide q) (steps l')).
Proof.
  intros [-> | ->]; [tauto|]. pose proof (steps_rev l) as P. split; [rewrite <- (xp_flip q (steps l)); apply xp_perm; auto|].
  assert (F : Forall (OffSide q) (steps l) <-> Forall (OffSide q) (map flip (steps l))). { rewrite !Forall_forall. split; intros H e I. { apply in_map_iff in I as (x & <- & I). apply off_flip; auto. } apply off_flip, H, in_map; auto. }
  rewrite F. split; apply Permutation_Forall; [|apply Permutation_sym]; auto.
Qed.

Lemma side_inj pts f e e' : Side pts f e -> Side pts f e' -> e = e'.
Proof.
  intros (i & j & -> & (A & B & C) & (D & E & F)) (i' & j' & Q & (A' & B' & C') & (D' & E' & F')). injection Q as <- <-. destruct e as [[x y] [z w]], e' as [[x' y'] [z' w']]. cbn in *. congruence.
Qed.
Lemma sides_inj pts fs es es' : Forall2 (Side pts) fs es -> Forall2 (Side pts) fs es' -> es = es'.
Proof.
  intros H. revert es'. induction H as [|f e fs es A H IH]; intros es' H'; inversion H'; subst; auto. f_equal; [eapply side_inj; eauto|apply IH; auto].
Qed.
Lemma inside_sides r es q : Sides r es -> (InsidePLC r q <-> xp q es = true) /\ (OffPLC r q <-> Forall (OffSide q) es).
Proof.
  intros S. split; split.
  - intros (es' & S' & E). apply even_odd_iff in E. rewrite (sides_inj _ _ _ _ S S'). auto.
  - intros E. exists es. split; auto. apply even_odd_iff. auto.
  - intros (es' & S' & E). rewrite (sides_inj _ _ _ _ S S'). auto.
  - intros E. exists es. auto.
Qed.
Lemma inside_iff c q : Inside c q <-> xp q (psides c) = true.
Proof. unfold Inside. rewrite even_odd_iff. split; auto. Qed.

(* ---- to_polygon ---- *)
Lemma point_of_ok pts z p : pt_at pts z p -> point_of pts z = Ok p.
Proof.
  intros (A & B & C). unfold point_of. rewrite (proj2 (Z.ltb_ge z 0)) by auto. rewrite (proj2 (get_ok _ _ _) B). cbn [bind]. rewrite (proj2 (get_ok _ _ _) C). cbn [bind]. destruct p; auto.
Qed.
Lemma to_ring_fold pts fs es acc : Forall2 (Side pts) fs es ->
  mfold (fun acc f => do _ <- assert (length f =? 2); do ii <- get f 1; do p <- point_of pts ii; Ok (acc ++ [p])) fs acc = Ok (acc ++ map snd es).
Proof.
  intros H. revert acc. induction H as [|f e fs es (i & j & -> & A & B) H IH]; intros acc; [cbn; rewrite app_nil_r; auto|].
  cbn [mfold length Nat.eqb assert bind get nth_error]. rewrite (point_of_ok _ _ _ B). cbn [bind]. rewrite IH. cbn [map]. rewrite <- app_assoc. auto.
Qed.
Lemma ring_snd {A} (a : A) t : map snd (ring (a :: t)) = t ++ [a].
Proof.
  cbn [ring]. assert (G : forall (l m : list A), length l = length m -> map snd (combine l m) = m). { induction l as [|x l IH]; intros [|y m] H; try discriminate; auto. cbn. f_equal. apply IH. cbn in H. lia. }
  apply G. cbn. rewrite app_length. cbn. lia.
Qed.
Lemma same_refl p : same_point p p = true.
Proof. unfold same_point. rewrite !(proj2 (Qeq_bool_iff _ _)) by reflexivity. reflexivity. Qed.
Lemma closes_closed ps : ps <> [] -> closes (closed ps) = Ok true.
Proof. destruct ps as [|a t]; [congruence|]. intros _. unfold closed. cbn [firstn app closes]. rewrite last_last, same_refl. auto. Qed.
Lemma to_ring_loop pts fs ps : Loop pts fs ps -> to_ring pts fs = Ok (closed ps).
Proof.
  intros [L F]. destruct ps as [|a [|b t]]; [cbn in L; lia|cbn in L; lia|]. pose proof (Forall2_len _ _ _ F) as Len. rewrite AreaProofs2.ring_length in Len.
  assert (F' := F). unfold to_ring. inversion F as [|f e fs' es A F2 Ef Ee]; subst. destruct A as (i & j & -> & A & B). cbn [get nth_error bind].
  cbn [fst] in A. rewrite (point_of_ok _ _ _ A). cbn [bind].
  rewrite (to_ring_fold _ _ _ _ F'). cbn [bind]. rewrite ring_snd. change ([a] ++ (b :: t) ++ [a]) with (closed (a :: b :: t)).
  assert (Lc : length (closed (a :: b :: t)) = length ([i; j] :: fs') + 1) by (rewrite Len; unfold closed; rewrite app_length; reflexivity).
  rewrite Lc, Nat.eqb_refl. cbn [assert bind]. rewrite closes_closed by discriminate. reflexivity.
Qed.
Lemma to_polygon_loops lib r : Corrects lib -> Loops r -> exists c, to_polygon lib r = Ok c /\ PolygonOf r c.
Proof.
  intros C [[ps P] H]. unfold to_polygon. rewrite (to_ring_loop _ _ _ P). cbn [bind].
  destruct (mmap_forall2 (to_ring (rpoints r)) (fun h l => exists ps, Loop (rpoints r) h ps /\ l = closed ps) (rholes r)) as (hs & E & F).
  { intros h I. rewrite Forall_forall in H. destruct (H h I) as [qs Q]. exists (closed qs). split; [apply to_ring_loop; auto|exists qs; auto]. }
  rewrite E. cbn [bind]. rewrite <- (Forall2_len _ _ _ F), Nat.eqb_refl. cbn [assert bind]. eexists. split; [reflexivity|]. destruct (C (mkPolygon (closed ps) hs)) as [C1 C2]. cbn [outer inners] in *. split; [exists ps; auto|].
  revert C2. generalize (inners (correct lib (mkPolygon (closed ps) hs))). clear - F. induction F as [|h l hs ls (qs & L & ->) F IH]; intros m M; inversion M; subst; constructor; auto. exists qs; auto.
Qed.
Lemma loop_sides pts fs ps q l : Loop pts fs ps -> Turned (closed ps) l -> Forall2 (Side pts) fs (ring ps) /\ xp q (ring ps) = xp q (steps l) /\ (Forall (OffSide q) (ring ps) <-> Forall (OffSide q) (steps l)).
Proof. intros [_ F] T. apply (turned_same q) in T as [T1 T2]. rewrite closed_steps in T1, T2. auto. Qed.
Lemma polygon_sides r c : PolygonOf r c -> exists es, Sides r es /\ forall q, xp q es = xp q (psides c) /\ (Forall (OffSide q) es <-> OffPolygon c q).
Proof.
  intros [(ps & L & T) H]. unfold Sides, OffPolygon, psides. cbn [flat_map].
  assert (G : exists es, Forall2 (Side (rpoints r)) (concat (rholes r)) es /\ forall q, xp q es = xp q (flat_map steps (inners c)) /\ (Forall (OffSide q) es <-> Forall (OffSide q) (flat_map steps (inners c)))).
  { induction H as [|h l hs ls (qs & L' & T') H IH]; [exists []; split; [constructor|tauto]|]. destruct IH as (es & F & E). exists (ring qs ++ es). split; [cbn; apply Forall2_app; auto; apply L'|].
    intros q. destruct (loop_sides _ _ _ q _ L' T') as (_ & X & O). destruct (E q) as [E1 E2]. cbn [flat_map]. rewrite !xp_app, X, E1, !Forall_app, O, E2. tauto. }
  destruct G as (es & F & E). exists (ring ps ++ es). split; [apply Forall2_app; auto; apply L|]. intros q. destruct (loop_sides _ _ _ q _ L T) as (_ & X & O). destruct (E q) as [E1 E2]. rewrite !xp_app, X, E1, !Forall_app, O, E2. tauto.
Qed.
Lemma polygon_inside r c q : PolygonOf r c -> (InsidePLC r q <-> Inside c q) /\ (OffPLC r q <-> OffPolygon c q).
Proof.
  intros P. destruct (polygon_sides _ _ P) as (es & S & E). destruct (E q) as [E1 E2]. destruct (inside_sides _ _ q S) as [I O]. rewrite I, O, inside_iff, E1, E2. tauto.
Qed.

(* ---- from_polygon ---- *)
Lemma removelast_closed ps : removelast (closed ps) = match ps with [] => [] | _ => ps end.
Proof. destruct ps as [|a t]; [reflexivity|]. unfold closed. cbn [firstn]. apply removelast_last. Qed.
Lemma flat2_at ps i p : nth_error ps i = Some p -> pt_at (flat2 ps) (Z.of_nat i) p.
Proof.
  intros H. unfold pt_at. rewrite Nat2Z.id. split; [lia|]. revert i H. induction ps as [|a ps IH]; intros [|i] H; try discriminate.
  - injection H as ->. auto.
  - replace (2 * S i) with (S (S (2 * i))) by lia. replace (S (S (2 * i)) + 1) with (S (S (2 * i + 1))) by lia. cbn [flat2 flat_map app nth_error]. apply IH; auto.
Qed.
Lemma rows_sides ps : Forall2 (Side (flat2 ps)) (outer_rows (length ps)) (ring ps).
Proof.
  apply HullProofs3.forall2_of_nth; [unfold outer_rows; rewrite map_length, seq_length, AreaProofs2.ring_length; auto|].
  intros k f e Hf He. unfold outer_rows in Hf. rewrite nth_error_map in Hf. destruct (nth_error (seq 0 (length ps)) k) as [k'|] eqn:Hk; [|discriminate]. injection Hf as <-.
  assert (Lk : k < length ps) by (rewrite <- (seq_length (length ps) 0); apply nth_error_Some; congruence). rewrite (nth_error_nth' _ 0) in Hk by (rewrite seq_length; auto). rewrite seq_nth in Hk by auto. injection Hk as <-. cbn [Nat.add].
  destruct e as [a b]. apply AreaProofs.ring_nth in He as (Ha & Hb & _). exists (Z.of_nat k), (Z.of_nat ((k + 1) mod length ps)). split; auto. cbn [fst snd] in *. split; apply flat2_at; auto. rewrite Nat.add_1_r. auto.
Qed.
Lemma from_good c ps : 3 <= length ps -> outer c = closed ps -> inners c = [] -> from_polygon c = Ok (mkRPLC (outer_rows (length ps)) [] (flat2 ps)).
Proof.
  intros L O I. unfold from_polygon. rewrite O, I. destruct ps as [|a t]; [cbn in L; lia|]. unfold closed at 1. cbn [firstn app].
  replace (length (closed (a :: t)) - 1) with (length (a :: t)) by (unfold closed; rewrite app_length; cbn; lia). rewrite (proj2 (Nat.leb_le 3 _)) by auto. cbn [assert bind mfold]. rewrite removelast_closed. reflexivity.
Qed.
Lemma made_loops ps : 3 <= length ps -> Loops (mkRPLC (outer_rows (length ps)) [] (flat2 ps)).
Proof. intros L. split; [|constructor]. exists ps. split; auto. apply rows_sides. Qed.
Lemma made_polygon c ps : 3 <= length ps -> outer c = closed ps -> inners c = [] -> PolygonOf (mkRPLC (outer_rows (length ps)) [] (flat2 ps)) c.
Proof. intros L O I. split; cbn [rpoints rfacets rholes]; [|rewrite I; constructor]. exists ps. split; [split; auto; apply rows_sides|left; auto]. Qed.
Lemma hole_assert n : (Z.of_nat n =? (Z.of_nat n - 1) mod 2 ^ 32)%Z = false.
Proof.
  apply Z.eqb_neq. intros E. destruct n as [|n]; [discriminate|]. rewrite Nat2Z.inj_succ in E. replace (Z.succ (Z.of_nat n) - 1)%Z with (Z.of_nat n) in E by lia.
  pose proof (Z.mod_le (Z.of_nat n) (2 ^ 32) ltac:(lia) ltac:(lia)). lia.
Qed.
Lemma from_hole c : GoodRing (outer c) -> Forall GoodRing (inners c) -> inners c <> [] -> from_polygon c = Abort.
Proof.
  intros (ps & L & O) G N. unfold from_polygon. rewrite O. destruct ps as [|a t]; [cbn in L; lia|]. unfold closed at 1. cbn [firstn app].
  replace (length (closed (a :: t)) - 1) with (length (a :: t)) by (unfold closed; rewrite app_length; cbn; lia). rewrite (proj2 (Nat.leb_le 3 _)) by auto. cbn [assert bind].
  destruct (inners c) as [|h hs]; [congruence|]. inversion G as [|? ? (qs & L' & ->) G']; subst. cbn [mfold]. destruct qs as [|b u]; [cbn in L'; lia|]. unfold closed at 1. cbn [firstn app]. rewrite hole_assert. reflexivity.
Qed.
Lemma from_ok c r : from_polygon c = Ok r -> inners c = [].
Proof.
  unfold from_polygon. destruct (outer c); [discriminate|]. intros H. apply bind_ok in H as ([] & _ & H). apply bind_ok in H as (st & H & _). destruct (inners c) as [|h hs]; auto. cbn [mfold] in H. apply bind_ok in H as (s & H & _). destruct h; [discriminate|]. rewrite hole_assert in H. discriminate.
Qed.
Lemma from_polygons_ok lib cs : Forall (GoodPolygon lib) cs -> Forall (fun c => inners c = []) cs ->
  exists rs, from_polygons lib cs = Ok rs /\ Forall2 (fun c r => PolygonOf r c /\ Loops r /\ rholes r = []) cs rs.
Proof.
  intros G I. apply (mmap_forall2 _ (fun c r => PolygonOf r c /\ Loops r /\ rholes r = [])). intros c Ic. rewrite Forall_forall in G, I. destruct (G c Ic) as ((ps & L & O) & _ & S). rewrite O, closes_closed by (intros ->; cbn in L; lia). cbn [bind assert].
  rewrite S. cbn [negb assert bind]. exists (mkRPLC (outer_rows (length ps)) [] (flat2 ps)). split; [apply from_good; auto|]. split; [apply made_polygon; auto|]. split; [apply made_loops; auto|auto].
Qed.
Lemma from_polygons_hole lib cs : Forall (GoodPolygon lib) cs -> Exists (fun c => inners c <> []) cs -> from_polygons lib cs = Abort.
Proof.
  intros G E. unfold from_polygons. induction G as [|c cs (Go & Gi & S) G IH]; [inversion E|]. cbn [mmap]. assert (Go' := Go). destruct Go as (ps & L & O). rewrite O, closes_closed by (intros ->; cbn in L; lia). cbn [bind assert]. rewrite S. cbn [negb assert bind].
  destruct (inners c) as [|h hs] eqn:Ei.
  - rewrite (from_good c ps) by auto. cbn [bind]. inversion E as [? ? X|? ? X]; subst; [congruence|]. rewrite IH by auto. reflexivity.
  - rewrite from_hole; auto; [rewrite Ei; auto|congruence].
Qed.

(* ---- clipping ---- *)
Lemma turned_closed ps l : 3 <= length ps -> Turned (closed ps) l -> GoodRing l.
Proof.
  intros L [-> | ->]; [exists ps; auto|]. destruct ps as [|a t]; [cbn in L; lia|]. exists (a :: rev t). split; [cbn in *; rewrite rev_length; auto|]. unfold closed. cbn [firstn app]. change (a :: t ++ [a]) with ((a :: t) ++ [a]). rewrite rev_app_distr. cbn [rev app]. reflexivity.
Qed.
Lemma correct_same lib c : Corrects lib -> GoodRing (outer c) -> inners c = [] -> GoodRing (outer (correct lib c)) /\ inners (correct lib c) = [] /\ forall q, (Inside (correct lib c) q <-> Inside c q) /\ (OffPolygon (correct lib c) q <-> OffPolygon c q).
Proof.
  intros C (ps & L & O) I. destruct (C c) as [T F]. rewrite O in T. rewrite I in F. assert (I' : inners (correct lib c) = []) by (inversion F; auto). split; [eapply turned_closed; eauto|]. split; auto.
  intros q. rewrite !inside_iff. unfold OffPolygon, psides. rewrite I, I'. cbn [flat_map]. rewrite !app_nil_r, O. apply (turned_same q) in T as [T1 T2]. rewrite T1. split; [tauto|symmetry; auto].
Qed.
Lemma corner_touches c p ps : outer c = closed ps -> inners c = [] -> existsb (same_point p) ps = true -> Touches c p.
Proof.
  intros O I E. right. unfold OffPolygon, psides. rewrite O, I. cbn [flat_map]. rewrite app_nil_r, closed_steps. apply existsb_exists in E as (x & Ix & E). unfold same_point in E. apply andb_true_iff in E as [E1 E2]. apply Qeq_bool_iff in E1, E2.
  apply In_nth_error in Ix as [k Hk]. assert (Lk : k < length ps) by (apply nth_error_Some; congruence). destruct (nth_error ps (S k mod length ps)) as [y|] eqn:Hy; [|apply nth_error_None in Hy; pose proof (Nat.mod_upper_bound (S k) (length ps)); lia].
  assert (In (x, y) (ring ps)) as R by (eapply nth_error_In; apply AreaProofs.ring_nth; eauto). intros F. rewrite Forall_forall in F. apply (F _ R). exists 0%Q. split; [lra|]. unfold along. cbn [fst snd]. rewrite E1, E2. split; ring.
Qed.
Definition clip_step (lib : library) (p : p2) (cs : list polygon) := fun '(k, orphans) j =>
  do c <- get cs j;
  if covered_by lib p c then Ok (j, orphans) else
  match outer c with
  | [] => UB
  | _ => if existsb (same_point p) (removelast (outer c)) then Ok (j, orphans)
         else do r <- from_polygon c; Ok (k, orphans ++ [r])
  end.
Lemma clip_covered lib p cs k os j c : nth_error cs j = Some c -> covered_by lib p c = true -> clip_step lib p cs (k, os) j = Ok (j, os).
Proof. intros H E. unfold clip_step. rewrite (proj2 (get_ok _ _ _) H). cbn [bind]. rewrite E. reflexivity. Qed.
Definition made (ps : list p2) : rplc Q := mkRPLC (outer_rows (length ps)) [] (flat2 ps).
Lemma clip_away lib p cs k os j c : nth_error cs j = Some c -> (covered_by lib p c = true <-> Touches c p) -> ~ Touches c p -> GoodRing (outer c) -> inners c = [] ->
  exists r, clip_step lib p cs (k, os) j = Ok (k, os ++ [r]) /\ PolygonOf r c /\ Loops r /\ rholes r = [].
Proof.
  intros H Cv N (ps & L & O) I. exists (made ps). split; [|split; [apply made_polygon; auto|split; [apply made_loops; auto|auto]]]. unfold clip_step. rewrite (proj2 (get_ok _ _ _) H). cbn [bind].
  destruct (covered_by lib p c) eqn:E; [exfalso; apply N, Cv; auto|]. rewrite (from_good c ps L O I). cbn [bind]. rewrite O, removelast_closed. destruct ps as [|a t]; [cbn in L; lia|]. unfold closed at 1. cbn [firstn app].
  destruct (existsb (same_point p) (a :: t)) eqn:Ex; [exfalso; apply N; eapply corner_touches; eauto|reflexivity].
Qed.
Lemma clip_all lib p cs l pre post k os : cs = pre ++ l ++ post -> (forall c, In c l -> (covered_by lib p c = true <-> Touches c p) /\ ~ Touches c p /\ GoodRing (outer c) /\ inners c = []) ->
  exists rs, mfold (clip_step lib p cs) (seq (length pre) (length l)) (k, os) = Ok (k, os ++ rs) /\ Forall2 (fun c r => PolygonOf r c /\ Loops r /\ rholes r = []) l rs.
Proof.
  revert pre os. induction l as [|c l IH]; intros pre os E H; [exists []; cbn; rewrite app_nil_r; auto|].
  destruct (H c (or_introl eq_refl)) as (Cv & N & G & I). destruct (clip_away lib p cs k os (length pre) c) as (r & Er & P); auto; [rewrite E, nth_error_app2, Nat.sub_diag by lia; auto|].
  destruct (IH (pre ++ [c]) (os ++ [r])) as (rs & Ers & F); [rewrite E, <- app_assoc; reflexivity|intros; apply H; right; auto|]. exists (r :: rs). split; [|constructor; auto].
  cbn [length seq mfold]. rewrite Er. cbn [bind]. rewrite app_length in Ers. cbn [length] in Ers. rewrite Nat.add_1_r in Ers. rewrite Ers, <- app_assoc. reflexivity.
Qed.
Lemma clip_finish lib c : Corrects lib -> Uniques lib -> GoodRing (outer c) -> inners c = [] ->
  exists r, from_polygon (unique lib (correct lib c)) = Ok r /\ Loops r /\ rholes r = [] /\ forall q, (InsidePLC r q <-> Inside c q) /\ (OffPLC r q <-> OffPolygon c q).
Proof.
  intros C U G I. destruct (correct_same lib c C G I) as (G1 & I1 & S1). destruct (U _ G1 I1) as ((ps & L & O) & I2 & S2). exists (made ps). split; [apply from_good; auto|]. split; [apply made_loops; auto|]. split; [reflexivity|].
  intros q. destruct (polygon_inside (made ps) _ q (made_polygon _ ps L O I2)) as [A B]. destruct (S1 q) as [A1 B1]. destruct (S2 q) as [A2 B2]. rewrite A, A2, A1, B, B2, B1. tauto.
Qed.
