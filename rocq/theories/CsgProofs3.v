(* Proofs about constructive solid geometry: building convex polygons, and the operations. *)
From Verif Require Import Base BaseFacts Plane PLCSpec WithinModel WithinSpec WithinProofs MeshEditorModel SimplifySpec SimplifyProofs4 SimplifyProofs6 AreaProofs CsgModel CsgSpec CsgProofs CsgProofs2.
From Coq Require Import QArith Lqa Permutation.
Local Open Scope nat_scope.

(* ---- reading and writing plcs ---- *)
Lemma to_segments_ok plc : ValidPLC plc -> to_segments plc = Ok (map (fun e => mkseg (fst e) (snd e)) (edges_of plc)).
Proof.
  intros V. unfold to_segments, edges_of. rewrite map_map. destruct plc as [pts fs]. cbn [fst snd] in *. unfold ValidPLC in V. cbn [fst snd] in V.
  induction fs as [|f fs IH]; [reflexivity|]. cbn [mmap map]. destruct (V f ltac:(left; auto)) as (a & b & -> & La & Lb).
  rewrite IH; [|intros; apply V; right; auto]. cbn [length Nat.eqb assert bind]. unfold get. cbn [nth_error bind]. rewrite (vat_pos pts a La), (vat_pos pts b Lb). reflexivity.
Qed.
Definition wr (st : list Q * list (list nat)) (s : seg) := (fst st ++ [fst (sa s); snd (sa s); fst (sb s); snd (sb s)], snd st ++ [[length (fst st) / 2; (length (fst st) + 2) / 2]]).
Lemma pos2_app l l' k : 2 * k + 2 <= length l -> pos2 (l ++ l') k = pos2 l k.
Proof. intros H. unfold pos2. rewrite !app_nth1 by lia. auto. Qed.
Lemma write_ok ss : forall pts fs, ValidPLC (pts, fs) -> Nat.Even (length pts) ->
  ValidPLC (fold_left wr ss (pts, fs)) /\ edges_of (fold_left wr ss (pts, fs)) = edges_of (pts, fs) ++ map se ss.
Proof.
  induction ss as [|s ss IH]; intros pts fs V Ev; cbn [fold_left map]; [split; auto; rewrite app_nil_r; auto|].
  unfold wr at 2 4. cbn [fst snd]. destruct Ev as [k Ek]. rewrite Ek. replace (2 * k + 2) with (2 * (k + 1)) by lia. rewrite !(Nat.mul_comm 2), !Nat.div_mul by lia.
  set (new := [fst (sa s); snd (sa s); fst (sb s); snd (sb s)]). assert (Ln : length (pts ++ new) = 2 * (k + 2)) by (rewrite app_length; cbn [length new]; lia).
  assert (V' : ValidPLC (pts ++ new, fs ++ [[k; k + 1]])).
  { intros f I. cbn [fst snd] in *. rewrite Ln. apply in_app_or in I. destruct I as [I|[<-|[]]]; [|exists k, (k + 1); split; auto; lia]. destruct (V f I) as (a & b & -> & La & Lb). cbn [fst] in *. exists a, b. split; auto; lia. }
  destruct (IH (pts ++ new) (fs ++ [[k; k + 1]]) V' ltac:(exists (k + 2); lia)) as [A B]. split; auto. rewrite B. unfold edges_of. cbn [fst snd]. rewrite map_app, <- app_assoc. f_equal.
  - apply map_ext_in. intros f I. destruct (V f I) as (a & b & -> & La & Lb). cbn [fst] in *. unfold edge. cbn [nth]. rewrite !pos2_app by lia. auto.
  - cbn [map app]. f_equal. unfold edge, se. cbn [nth]. unfold pos2. rewrite !app_nth2 by lia. replace (2 * k - length pts) with 0 by lia. replace (2 * k + 1 - length pts) with 1 by lia. replace (2 * (k + 1) - length pts) with 2 by lia. replace (2 * (k + 1) + 1 - length pts) with 3 by lia. cbn [new nth]. destruct (sa s), (sb s). reflexivity.
Qed.
Lemma from_ok ss : Returns (map se ss) (from_segments ss).
Proof.
  unfold Returns, from_segments. rewrite map_length. destruct (Nat.leb_spec 3 (length ss)) as [G|G]; cbn [assert bind]; [right|left; auto]. split; auto. eexists. split; [reflexivity|].
  assert (E : forall l st, fold_left (fun '(pts, fs) s => (pts ++ [fst (sa s); snd (sa s); fst (sb s); snd (sb s)], fs ++ [[length pts / 2; (length pts + 2) / 2]])) l st = fold_left wr l st).
  { induction l as [|s l IH]; intros [pts fs]; cbn [fold_left]; auto. }
  rewrite E. apply (write_ok ss [] []); [intros f []|exists 0; auto].
Qed.
Definition ms (e : p2 * p2) : seg := mkseg (fst e) (snd e).
Lemma se_ms e : se (ms e) = e.
Proof. destruct e; auto. Qed.

(* ---- whatever the plcs ---- *)
Lemma new_node_rf eps L : (0 <= eps)%Q -> (forall s, In s L -> WF s) -> exists t, new_node eps L = Ok t /\ Rf (allSegments t) L.
Proof. intros E W. destruct (build_rf eps E (Nd [] Null Null no_line) L W) as (t & H & R). exists t. auto. Qed.
Definition Total (op : Q -> tree -> tree -> res tree) : Prop := forall eps a b, (0 <= eps)%Q -> (forall s, In s (allSegments a ++ allSegments b) -> WF s) ->
  exists t, op eps a b = Ok t /\ Sub (allSegments t) (allSegments a ++ allSegments b).
Lemma build_sub eps t L M : (0 <= eps)%Q -> Sub (allSegments t) M -> Sub L M -> (forall s, In s M -> WF s) ->
  exists t', build eps t L = Ok t' /\ Sub (allSegments t') M.
Proof.
  intros E A B W. destruct (build_rf eps E t L (sub_wf _ _ B W)) as (t' & H & R). exists t'. split; auto. eapply sub_trans; [apply rf_sub; exact R|apply sub_app; auto].
Qed.
Lemma new_sub eps L M : (0 <= eps)%Q -> Sub L M -> (forall s, In s M -> WF s) -> exists t', new_node eps L = Ok t' /\ Sub (allSegments t') M.
Proof. intros E B W. apply build_sub; auto. intros ? []. Qed.
Lemma clip_from eps t o M : (0 <= eps)%Q -> Sub (allSegments t) M -> Sub (allSegments (clipTo eps t o)) M.
Proof. intros E H. eapply sub_trans; [apply clipTo_sub; auto|auto]. Qed.
Lemma invert_from t M : Sub (allSegments t) M -> Sub (allSegments (invert t)) M.
Proof. intros H. eapply sub_trans; [apply invert_sub|auto]. Qed.
Lemma sub_l (A B : list seg) : Sub A (A ++ B).
Proof. apply sub_refl. intros. apply in_or_app. auto. Qed.
Lemma sub_r (A B : list seg) : Sub B (A ++ B).
Proof. apply sub_refl. intros. apply in_or_app. auto. Qed.
Ltac subs := repeat first [apply clip_from; [assumption|]|apply invert_from]; first [apply sub_l|apply sub_r].
Lemma union_total : Total tree_union.
Proof.
  intros eps a b E W. unfold tree_union. cbv zeta. set (M := allSegments a ++ allSegments b) in *.
  match goal with |- context [build eps ?x ?y] => destruct (build_sub eps x y M E) as (t & H & S1) end; [subs|subs|auto|]. rewrite H. cbn [bind]. apply new_sub; auto.
Qed.
Lemma subtract_total : Total tree_subtract.
Proof.
  intros eps a b E W. unfold tree_subtract. cbv zeta. set (M := allSegments a ++ allSegments b) in *.
  match goal with |- context [build eps ?x ?y] => destruct (build_sub eps x y M E) as (t & H & S1) end; [subs|subs|auto|]. rewrite H. cbn [bind]. apply new_sub; auto. apply invert_from. auto.
Qed.
Lemma intersect_total : Total tree_intersect.
Proof.
  intros eps a b E W. unfold tree_intersect. cbv zeta. set (M := allSegments a ++ allSegments b) in *.
  match goal with |- context [build eps ?x ?y] => destruct (build_sub eps x y M E) as (t & H & S1) end; [subs|subs|auto|]. rewrite H. cbn [bind]. apply new_sub; auto. apply invert_from. auto.
Qed.
Lemma csg_total op eps a b : Total op -> (0 <= eps)%Q -> ValidPLC a -> ValidPLC b ->
  exists es, Returns es (csg op eps a b) /\ forall e, In e es -> exists e0, In e0 (edges_of a ++ edges_of b) /\ Part e e0.
Proof.
  intros T E Va Vb. unfold csg. rewrite (to_segments_ok a Va), (to_segments_ok b Vb). cbn [bind].
  assert (W : forall es s, In s (map (fun e => mkseg (fst e) (snd e)) es) -> WF s). { intros es s I. apply in_map_iff in I. destruct I as (e & <- & _1). apply wf_mk. }
  destruct (new_node_rf eps (map (fun e => mkseg (fst e) (snd e)) (edges_of a)) E (W _)) as (ta & Ha & Ra). destruct (new_node_rf eps (map (fun e => mkseg (fst e) (snd e)) (edges_of b)) E (W _)) as (tb & Hb & Rb). rewrite Ha. cbn [bind]. rewrite Hb. cbn [bind].
  destruct (T eps ta tb E) as (t & Ht & S0). { intros s I. apply in_app_or in I. destruct I as [I|I]; [apply (wf_rf _ _ Ra (W _) s I)|apply (wf_rf _ _ Rb (W _) s I)]. }
  rewrite Ht. cbn [bind]. exists (map se (allSegments t)). split; [apply from_ok|]. intros e I. apply in_map_iff in I. destruct I as (s & <- & I).
  destruct (S0 s I) as (s1 & J & P & _1). apply in_app_or in J.
  assert (X : exists s0, In s0 (map (fun e => mkseg (fst e) (snd e)) (edges_of a ++ edges_of b)) /\ Part (se s1) (se s0)).
  { rewrite map_app. destruct J as [J|J]; [destruct (proj1 Ra _ J) as (s0 & K & P0 & _2)|destruct (proj1 Rb _ J) as (s0 & K & P0 & _2)]; exists s0; (split; [apply in_or_app|]; auto). }
  destruct X as (s0 & K & P0). apply in_map_iff in K. destruct K as ([x y] & <- & K). exists (x, y). split; auto. eapply part_trans; eauto.
Qed.

(* ---- the tree of a convex polygon ---- *)
Definition BackOf (eps : Q) (e e' : p2 * p2) : Prop :=
  Off eps (fst e') e /\ Off eps (snd e') e /\ (0 <= orient (fst e) (snd e) (fst e') /\ 0 <= orient (fst e) (snd e) (snd e') /\
    (0 < orient (fst e) (snd e) (fst e') \/ 0 < orient (fst e) (snd e) (snd e')))%Q.
Lemma back_split eps s s' : (0 <= eps)%Q -> WF s -> BackOf eps (se s) (se s') -> splitSegment eps (sline s) s' = Four [] [] [] [s'].
Proof.
  intros E W (O1 & O2 & P1 & P2 & P3). unfold Off in *. cbn [se fst snd] in *. pose proof (W (sa s')) as Wa. pose proof (W (sb s')) as Wb. cbn [se fst snd] in Wa, Wb.
  unfold splitSegment.
  assert (C : forall p, (side (sline s) p == - orient (sa s) (sb s) p)%Q -> (orient (sa s) (sb s) p == 0 \/ eps < orient (sa s) (sb s) p \/ orient (sa s) (sb s) p < - eps)%Q -> (0 <= orient (sa s) (sb s) p)%Q ->
    (classify eps (sline s) p = COLL /\ (orient (sa s) (sb s) p == 0)%Q) \/ classify eps (sline s) p = BACK).
  { intros p H O P. destruct O as [O|[O|O]]; [left|right; apply classify_back; lra|lra]. split; auto. destruct (classify eps (sline s) p) eqn:K; auto; [apply (proj1 (classify_front _ _ _ E)) in K|apply (proj1 (classify_back _ _ _)) in K]; lra. }
  destruct (C _ Wa O1 P1) as [[-> Z1]| ->]; destruct (C _ Wb O2 P2) as [[-> Z2]| ->]; auto. exfalso. lra.
Qed.
Lemma self_keep eps s : (0 <= eps)%Q -> WF s -> exists c b, splitSegment eps (sline s) s = Four c b [] [] /\ c ++ b = [s].
Proof.
  intros E W. destruct (self_side s W) as [A B]. unfold splitSegment.
  assert (C : forall p, (side (sline s) p == 0)%Q -> classify eps (sline s) p = COLL).
  { intros p H. destruct (classify eps (sline s) p) eqn:K; auto; [apply (proj1 (classify_front _ _ _ E)) in K|apply (proj1 (classify_back _ _ _)) in K]; lra. }
  rewrite (C _ A), (C _ B). destruct (Qlt_bool _ _); eexists _, _; split; reflexivity.
Qed.
Lemma split_all eps s L : (0 <= eps)%Q -> WF s -> (forall s', In s' L -> BackOf eps (se s) (se s')) ->
  bsegs eps (sline s) (s :: L) = [s] /\ bfront eps (sline s) (s :: L) = [] /\ bback eps (sline s) (s :: L) = L.
Proof.
  intros E W H. unfold bsegs, bfront, bback. cbn [flat_map]. destruct (self_keep eps s E W) as (c & b & -> & Ecb). cbv zeta. cbn [cfront cback front4 back4 app].
  assert (G : flat_map (fun s0 => cfront (splitSegment eps (sline s) s0) ++ cback (splitSegment eps (sline s) s0)) L = [] /\ flat_map (fun s0 => front4 (splitSegment eps (sline s) s0)) L = [] /\ flat_map (fun s0 => back4 (splitSegment eps (sline s) s0)) L = L).
  { clear Ecb. induction L as [|x L IH]; [auto|]. cbn [flat_map]. destruct IH as (A & B & C); [intros; apply H; right; auto|]. rewrite (back_split eps s x E W (H x ltac:(left; auto))). cbn [cfront cback front4 back4 app]. rewrite A, B, C. auto. }
  destruct G as (A & B & C). rewrite A, B, C, app_nil_r. auto.
Qed.
Lemma chain_new eps : (0 <= eps)%Q -> forall L fuel, length L <= fuel -> L <> [] -> (forall s, In s L -> WF s /\ line_ok (sline s) = true) ->
  ForallOrdPairs (fun s s' => BackOf eps (se s) (se s')) L -> exists t, build_new eps fuel L = Ok t /\ Chain (map se L) t /\ allSegments t = L.
Proof.
  intros E. induction L as [|s L IH]; intros fuel Lf Ne W F; [congruence|]. destruct fuel as [|fuel]; [cbn in Lf; lia|]. inversion F as [|? ? F1 F2]; subst. rewrite Forall_forall in F1.
  destruct (W s ltac:(left; auto)) as [Ws Ks]. destruct (split_all eps s L E Ws F1) as (A & B & C). cbn [build_new]. cbv zeta.
  fold (bsegs eps (sline s) (s :: L)) (bfront eps (sline s) (s :: L)) (bback eps (sline s) (s :: L)). rewrite A, B, C. cbn [bind].
  destruct L as [|s2 L]; [eexists; split; [reflexivity|]; split; [constructor; auto|reflexivity]|].
  destruct (IH fuel ltac:(cbn in *; lia) ltac:(discriminate) ltac:(intros; apply W; right; auto) F2) as (t & Ht & Ct & At').
  cbv beta iota. rewrite Ht. cbn [bind]. eexists. split; [reflexivity|]. split; [|cbn [allSegments app]; rewrite At'; reflexivity]. cbn [map]. constructor; auto.
Qed.
Lemma chain_node eps L : (0 <= eps)%Q -> L <> [] -> (forall s, In s L -> WF s /\ line_ok (sline s) = true) ->
  ForallOrdPairs (fun s s' => BackOf eps (se s) (se s')) L -> exists t, new_node eps L = Ok t /\ Chain (map se L) t /\ allSegments t = L.
Proof.
  intros E Ne W F. destruct L as [|s L]; [congruence|]. inversion F as [|? ? F1 F2]; subst. rewrite Forall_forall in F1.
  destruct (W s ltac:(left; auto)) as [Ws Ks]. destruct (split_all eps s L E Ws F1) as (A & B & C). unfold new_node. cbn [build]. change (line_ok no_line) with false. cbv zeta iota.
  fold (bsegs eps (sline s) (s :: L)) (bfront eps (sline s) (s :: L)) (bback eps (sline s) (s :: L)). rewrite A, B, C. cbn [bind].
  destruct L as [|s2 L]; [eexists; split; [reflexivity|]; split; [constructor; auto|reflexivity]|].
  destruct (chain_new eps E (s2 :: L) (length (s2 :: L)) ltac:(auto) ltac:(discriminate) ltac:(intros; apply W; right; auto) F2) as (t & Ht & Ct & At').
  cbn [build]. rewrite Ht. cbn [bind]. eexists. split; [reflexivity|]. split; [|cbn [allSegments app]; rewrite At'; reflexivity]. cbn [map]. constructor; auto.
Qed.
Lemma convex_other ps e e' : StrictlyConvex ps -> 3 <= length ps -> In e (ring ps) -> In e' (ring ps) -> e <> e' ->
  (0 < orient (fst e) (snd e) (fst e') \/ 0 < orient (fst e) (snd e) (snd e'))%Q.
Proof.
  intros SC L I I' N. apply In_nth_error in I. destruct I as [i Ei]. apply In_nth_error in I'. destruct I' as [j Ej].
  assert (Nij : i <> j) by (intros ->; congruence). destruct e as [a b], e' as [c d]. cbn [fst snd].
  pose proof (proj1 (ring_nth _ _ _) Ei) as (A1 & A2 & A3). pose proof (proj1 (ring_nth _ _ _) Ej) as (B1 & B2 & B3). cbn [fst snd] in *.
  destruct (Nat.eq_dec j (S i mod length ps)) as [X|X]; [right|left; apply (convex_edge_nth ps i a b j c SC Ei B1); auto]. apply (convex_edge_nth ps i a b _ d SC Ei B2); intros Y.
  all: revert X Y; destruct (Nat.eq_dec (S i) (length ps)) as [Q|Q]; [rewrite Q, Nat.mod_same by lia|rewrite (Nat.mod_small (S i)) by lia]; (destruct (Nat.eq_dec (S j) (length ps)) as [Q'|Q']; [rewrite Q', Nat.mod_same by lia|rewrite (Nat.mod_small (S j)) by lia]); lia.
Qed.
Lemma orient_aa a b : (orient a a b == 0)%Q.
Proof. unfold orient. ring. Qed.
Lemma convex_nodup ps : StrictlyConvex ps -> 3 <= length ps -> NoDup ps.
Proof.
  intros SC L. apply NoDup_nth_error. intros i j Li E. destruct (nth_error_ex ps i Li) as [x Ex]. rewrite Ex in E. symmetry in E. pose proof (nth_error_lt _ _ _ E) as Lj.
  assert (G : forall i j, i < j -> j < length ps -> nth_error ps i = Some x -> nth_error ps j = Some x -> False).
  { clear i j Li Ex E Lj. intros i j O Lj Ei Ej. destruct (Nat.eq_dec (j + 1) (length ps)) as [Q|Q].
    - destruct (Nat.eq_dec i 0) as [Q'|Q'].
      + destruct (nth_error_ex ps 1 ltac:(lia)) as [y Ey]. pose proof (SC i 1 j x y x ltac:(lia) Ei Ey Ej) as H. assert (Z : (orient x y x == 0)%Q) by (unfold orient; ring). lra.
      + destruct (nth_error_ex ps 0 ltac:(lia)) as [y Ey]. pose proof (SC 0 i j y x x ltac:(lia) Ey Ei Ej) as H. assert (Z : (orient y x x == 0)%Q) by (unfold orient; ring). lra.
    - destruct (nth_error_ex ps (j + 1) ltac:(lia)) as [y Ey]. pose proof (SC i j (j + 1) x x y ltac:(lia) Ei Ej Ey) as H. pose proof (orient_aa x y). lra. }
  destruct (Nat.lt_trichotomy i j) as [O|[O|O]]; auto; exfalso; [apply (G i j)|apply (G j i)]; auto.
Qed.
Lemma ring_nodup {A} (ps : list A) : NoDup ps -> NoDup (ring ps).
Proof.
  intros H. apply NoDup_nth_error. intros i j Li E. rewrite ring_len in Li. destruct (nth_error_ex (ring ps) i ltac:(rewrite ring_len; auto)) as [e Ee]. rewrite Ee in E. symmetry in E.
  apply ring_nth in Ee. apply ring_nth in E. destruct Ee as (A1 & _1 & _2), E as (B1 & _3 & _4). apply (proj1 (NoDup_nth_error ps) H); [auto|congruence].
Qed.
Lemma edge_ok e : ~ (fst (fst e) == fst (snd e) /\ snd (fst e) == snd (snd e))%Q -> line_ok (sline (ms e)) = true.
Proof.
  destruct e as [[a b] [c d]]. cbn [fst snd]. intros H. unfold line_ok, ms, mkseg, mkline. cbn [sline lnorm ldir fst snd].
  assert (P : (0 < (c - a) * (c - a) + (d - b) * (d - b))%Q).
  { assert (S1 : forall z, (0 <= z * z)%Q) by (intros z; destruct (Qlt_le_dec z 0); [setoid_replace (z * z)%Q with ((- z) * (- z))%Q by ring|]; apply Qmult_le_0_compat; lra).
    pose proof (S1 (c - a)%Q) as X. pose proof (S1 (d - b)%Q) as Y. destruct (Qeq_dec ((c - a) * (c - a)) 0) as [Z|Z]; [|lra]. destruct (Qeq_dec ((d - b) * (d - b)) 0) as [Z'|Z']; [|lra].
    exfalso. apply H. apply Qmult_integral in Z. apply Qmult_integral in Z'. split; lra. }
  apply andb_true_intro. unfold length2, sub2, neg2. cbn [fst snd]. split; match goal with |- Qlt_bool ?x ?y = true => destruct (qltb_spec x y) as [|K]; [reflexivity|exfalso; apply K] end; eapply Qlt_le_trans; [exact P|ring_simplify; lra|exact P|ring_simplify; lra].
Qed.
Lemma ord_pairs {A} (R : A -> A -> Prop) l : NoDup l -> (forall x y, In x l -> In y l -> x <> y -> R x y) -> ForallOrdPairs R l.
Proof.
  induction 1 as [|x l N ND IH]; intros H; constructor; [|apply IH; intros; apply H; auto; right; auto]. apply Forall_forall. intros y I. apply H; [left; auto|right; auto|]. intros ->. auto.
Qed.
Lemma polygon_chain eps plc ps : (0 <= eps)%Q -> PolygonPLC plc ps -> Roomy eps ps ->
  exists t, new_node eps (map ms (edges_of plc)) = Ok t /\ Chain (edges_of plc) t /\ allSegments t = map ms (edges_of plc).
Proof.
  intros E [V P] (L & SC & O). set (es := edges_of plc) in *. assert (Ms : map se (map ms es) = es) by (rewrite map_map; rewrite <- map_id; apply map_ext; apply se_ms).
  assert (In' : forall e, In e es -> In e (ring ps)) by (intros e; apply Permutation_in; auto).
  assert (Ep : forall e, In e (ring ps) -> In (fst e) ps /\ In (snd e) ps) by (intros [x y] I; apply ring_elt; auto).
  assert (G : forall e e', In e es -> In e' es -> e <> e' -> BackOf eps e e').
  { intros e e' I I' N. destruct (Ep e' (In' _ I')) as [F1 F2]. destruct e as [x y] eqn:Ee. rewrite <- Ee in *. split; [apply O; auto|]. split; [apply O; auto|]. subst e. cbn [fst snd].
    split; [apply (convex_edge_le ps); auto|]. split; [apply (convex_edge_le ps); auto|]. apply (convex_other ps (x, y) e'); auto. }
  assert (ND : NoDup es). { apply (Permutation_NoDup (Permutation_sym P)). apply ring_nodup, convex_nodup; auto. }
  assert (Len : length es = length ps) by (rewrite (Permutation_length P), ring_len; auto).
  destruct (chain_node eps (map ms es) E) as (t & Ht & Ct & At').
  - destruct es; [cbn in Len; lia|discriminate].
  - intros s I. apply in_map_iff in I. destruct I as (e & <- & I). split; [apply wf_mk|]. apply edge_ok. intros [Z1 Z2].
    assert (X : exists e', In e' es /\ e <> e'). { destruct es as [|e1 [|e2 es]]; [cbn in Len; lia|cbn in Len; lia|]. inversion ND as [|? ? N1 _1]; subst. destruct I as [->|I]; [exists e2; split; [right; left; auto|]|exists e1; split; [left; auto|]]; intros ->; apply N1; auto; left; auto. }
    destruct X as (e' & I' & N). destruct (G e e' I I' N) as (_1 & _2 & _3 & _4 & D). clear - Z1 Z2 D.
    assert (Q : forall p, (orient (fst e) (snd e) p == 0)%Q) by (intros p; unfold orient; rewrite Z1, Z2; ring). rewrite !Q in D. lra.
  - apply ord_pairs.
    + clear - ND. induction ND as [|e l N ND IH]; cbn [map]; constructor; auto. intros I. apply in_map_iff in I. destruct I as (e' & Q & I). apply N. apply (f_equal se) in Q. rewrite !se_ms in Q. congruence.
    + intros x y Ix Iy N. apply in_map_iff in Ix, Iy. destruct Ix as (e & <- & Ie), Iy as (e' & <- & Ie'). rewrite !se_ms. apply G; auto. congruence.
  - exists t. rewrite Ms in Ct. auto.
Qed.
