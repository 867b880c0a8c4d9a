(* Proofs about constructive solid geometry: the operations on convex polygons. *)
From Verif Require Import Base BaseFacts Plane PLCSpec WithinModel WithinSpec WithinProofs MeshEditorModel SimplifySpec SimplifyProofs4 SimplifyProofs6 AreaProofs CsgModel CsgSpec CsgProofs CsgProofs2 CsgProofs3.
From Coq Require Import QArith Lqa Permutation.
Local Open Scope nat_scope.

Section Two.
Context (eps : Q) (EA EB : list (p2 * p2)).
Hypothesis E0 : (0 <= eps)%Q.
Hypothesis AB : Apart eps EA EB.
Hypothesis BA : Apart eps EB EA.
Definition Neg (ls : list (p2 * p2)) (p : p2) : Prop := exists l, In l ls /\ (orient (fst l) (snd l) p < 0)%Q.
Definition Pos (ls : list (p2 * p2)) (p : p2) : Prop := forall l, In l ls -> (0 < orient (fst l) (snd l) p)%Q.
Lemma out_closed ls : Part_closed (Out ls).
Proof. intros e' e P O. eapply out_part; eauto. Qed.
Lemma into_closed ls : Part_closed (Into ls).
Proof. intros e' e P O. eapply into_part; eauto. Qed.
Lemma all_closed : Part_closed (fun _ => True).
Proof. intros e' e P O. auto. Qed.
Lemma st_start es ls Q : Apart eps es ls -> St eps es ls (fun _ => True) Q (map ms es).
Proof.
  intros AP. split.
  - intros s I. apply in_map_iff in I. destruct I as (e & <- & I). split; [|split; [apply wf_mk|auto]]. exists e. split; auto. rewrite se_ms. split; [apply part_refl|]. intros l J. exact (ap_ends _ _ _ AP e l I J).
  - intros p (e & I & O) _. exists (ms e). split; [apply in_map; auto|]. rewrite se_ms. auto.
Qed.
(* what one side gives and what the other gives *)
Definition Joined (TA TB : p2 * p2 -> Prop) (QA QB : p2 -> Prop) (L : list seg) : Prop :=
  (forall s, In s L -> WF s /\ ((exists e, In e EA /\ Part (se s) e /\ TA (se s)) \/ (exists e, In e EB /\ Part (se s) e /\ TB (se s)))) /\
  (forall p, Covered EA p -> QA p -> exists s, In s L /\ OnEdge (se s) p) /\ (forall p, Covered EB p -> QB p -> exists s, In s L /\ OnEdge (se s) p).
Lemma joined_start TA TB QA QB LA LB : St eps EA EB TA QA LA -> St eps EB EA TB QB LB -> Joined TA TB QA QB (LA ++ LB).
Proof.
  intros [A1 A2] [B1 B2]. split; [|split].
  - intros s I. apply in_app_or in I. destruct I as [I|I]; [destruct (A1 s I) as ((e & J & P & _1) & W & T)|destruct (B1 s I) as ((e & J & P & _1) & W & T)]; (split; [auto|]); [left|right]; exists e; auto.
  - intros p C Q. destruct (A2 p C Q) as (s & I & O). exists s. split; auto. apply in_or_app. auto.
  - intros p C Q. destruct (B2 p C Q) as (s & I & O). exists s. split; auto. apply in_or_app. auto.
Qed.
Lemma joined_rf TA TB QA QB L L' : Part_closed TA -> Part_closed TB -> Joined TA TB QA QB L -> Rf L' L -> Joined TA TB QA QB L'.
Proof.
  intros CA CB (J1 & J2 & J3) [R1 R2]. split; [|split].
  - intros s' I. destruct (R1 s' I) as (s & J & P & W). destruct (J1 s J) as (Ws & [(e & K & Pe & T)|(e & K & Pe & T)]); (split; [auto|]); [left|right]; exists e; (split; [auto|]); (split; [eapply part_trans; eauto|]); [eapply CA|eapply CB]; eauto.
  - intros p C Q. destruct (J2 p C Q) as (s & I & O). eapply R2; eauto.
  - intros p C Q. destruct (J3 p C Q) as (s & I & O). eapply R2; eauto.
Qed.
Lemma joined_invert TA TB QA QB t : Part_closed TA -> Part_closed TB -> Joined TA TB QA QB (allSegments t) -> Joined TA TB QA QB (allSegments (invert t)).
Proof.
  intros CA CB (J1 & J2 & J3). split; [|split].
  - intros s' I. apply invert_in in I. destruct I as (s & J & ->). destruct (J1 s J) as (Ws & [(e & K & Pe & T)|(e & K & Pe & T)]); (split; [apply wf_flip; auto|]); [left|right]; exists e; (split; [auto|]); (split; [eapply part_trans; [apply sflip_part|auto]|]); [eapply CA|eapply CB]; eauto; apply sflip_part.
  - intros p C Q. destruct (J2 p C Q) as (s & I & O). exists (sflip s). split; [apply invert_in; eauto|apply on_flip; auto].
  - intros p C Q. destruct (J3 p C Q) as (s & I & O). exists (sflip s). split; [apply invert_in; eauto|apply on_flip; auto].
Qed.
Lemma joined_build TA TB QA QB t LB : Part_closed TA -> Part_closed TB -> Joined TA TB QA QB (allSegments t ++ LB) -> exists t', build eps t LB = Ok t' /\ Joined TA TB QA QB (allSegments t').
Proof.
  intros CA CB J. destruct (build_rf eps E0 t LB) as (t' & H & R); [intros s I; apply J; apply in_or_app; auto|]. exists t'. split; auto. eapply joined_rf; eauto.
Qed.
Lemma joined_new TA TB QA QB L : Part_closed TA -> Part_closed TB -> Joined TA TB QA QB L -> exists t', new_node eps L = Ok t' /\ Joined TA TB QA QB (allSegments t').
Proof. intros CA CB J. apply joined_build; auto. Qed.
Context (ta tb : tree).
Hypothesis CA : Chain EA ta.
Hypothesis CB : Chain EB tb.
Hypothesis SA : allSegments ta = map ms EA.
Hypothesis SB : allSegments tb = map ms EB.
Lemma sta Q : St eps EA EB (fun _ => True) Q (allSegments ta).
Proof. rewrite SA. apply st_start. auto. Qed.
Lemma stb Q : St eps EB EA (fun _ => True) Q (allSegments tb).
Proof. rewrite SB. apply st_start. auto. Qed.
Lemma clip_out es ls Tg (Q : p2 -> Prop) t o : Apart eps es ls -> Part_closed Tg -> Chain ls o -> (forall p, Q p -> Neg ls p) -> St eps es ls Tg Q (allSegments t) -> St eps es ls (Out ls) Q (allSegments (clipTo eps t o)).
Proof.
  intros AP PC Ch HQ S0. eapply st_weaken; [eapply st_chain; eauto|]. intros e [_1 O]. exact O.
Qed.
Lemma clip_into es ls Tg (Q : p2 -> Prop) t o : Apart eps es ls -> Part_closed Tg -> IChain ls o -> (forall p, Q p -> Pos ls p) -> St eps es ls Tg Q (allSegments t) -> St eps es ls (Into ls) Q (allSegments (clipTo eps t o)).
Proof.
  intros AP PC Ch HQ S0. eapply st_weaken; [eapply st_ichain; eauto|]. intros e [_1 O]. exact O.
Qed.
Lemma union_joined : exists t, tree_union eps ta tb = Ok t /\ Joined (Out EB) (Out EA) (Neg EB) (Neg EA) (allSegments t).
Proof.
  unfold tree_union. cbv zeta. set (a1 := clipTo eps ta tb). set (b1 := clipTo eps tb a1).
  assert (Ca1 : Chain EA a1) by (apply chain_clip; auto). 
  assert (A1 : St eps EA EB (Out EB) (Neg EB) (allSegments a1)) by (eapply clip_out; eauto using all_closed, sta).
  assert (B1 : St eps EB EA (Out EA) (Neg EA) (allSegments b1)) by (eapply clip_out; eauto using all_closed, stb).
  assert (B4 : St eps EB EA (Out EA) (Neg EA) (allSegments (invert (clipTo eps (invert b1) a1)))).
  { apply st_invert; [apply out_closed|]. apply (clip_out EB EA (Out EA)); auto using out_closed. apply st_invert; auto using out_closed. }
  destruct (joined_build _ _ _ _ _ _ (out_closed _) (out_closed _) (joined_start _ _ _ _ _ _ A1 B4)) as (t & H & J). rewrite H. cbn [bind]. apply joined_new; auto using out_closed.
Qed.
Lemma subtract_joined : exists t, tree_subtract eps ta tb = Ok t /\ Joined (Out EB) (Into EA) (Neg EB) (Pos EA) (allSegments t).
Proof.
  unfold tree_subtract. cbv zeta. set (a1 := invert ta). set (a2 := clipTo eps a1 tb). set (b1 := clipTo eps tb a2).
  assert (Ca1 : IChain EA a1) by (apply chain_invert; auto). assert (Ca2 : IChain EA a2) by (apply ichain_clip; auto).
  assert (A1 : St eps EA EB (fun _ => True) (Neg EB) (allSegments a1)) by (apply st_invert; [apply all_closed|apply sta]).
  assert (A2 : St eps EA EB (Out EB) (Neg EB) (allSegments a2)) by (eapply clip_out; eauto using all_closed).
  assert (B1 : St eps EB EA (Into EA) (Pos EA) (allSegments b1)) by (eapply clip_into; eauto using all_closed, stb).
  assert (B4 : St eps EB EA (Into EA) (Pos EA) (allSegments (invert (clipTo eps (invert b1) a2)))).
  { apply st_invert; [apply into_closed|]. apply (clip_into EB EA (Into EA)); auto using into_closed. apply st_invert; auto using into_closed. }
  destruct (joined_build _ _ _ _ _ _ (out_closed _) (into_closed _) (joined_start _ _ _ _ _ _ A2 B4)) as (t & H & J). rewrite H. cbn [bind]. apply joined_new; auto using out_closed, into_closed. apply joined_invert; auto using out_closed, into_closed.
Qed.
Lemma intersect_joined : exists t, tree_intersect eps ta tb = Ok t /\ Joined (Into EB) (Into EA) (Pos EB) (Pos EA) (allSegments t).
Proof.
  unfold tree_intersect. cbv zeta. set (a1 := invert ta). set (b1 := clipTo eps tb a1). set (b2 := invert b1). set (a2 := clipTo eps a1 b2).
  assert (Ca1 : IChain EA a1) by (apply chain_invert; auto). assert (Cb1 : Chain EB b1) by (apply chain_clip; auto). assert (Cb2 : IChain EB b2) by (apply chain_invert; auto). assert (Ca2 : IChain EA a2) by (apply ichain_clip; auto).
  assert (A1 : St eps EA EB (fun _ => True) (Pos EB) (allSegments a1)) by (apply st_invert; [apply all_closed|apply sta]).
  assert (B1 : St eps EB EA (Into EA) (Pos EA) (allSegments b1)) by (eapply clip_into; eauto using all_closed, stb).
  assert (B2 : St eps EB EA (Into EA) (Pos EA) (allSegments b2)) by (apply st_invert; [apply into_closed|auto]).
  assert (A2 : St eps EA EB (Into EB) (Pos EB) (allSegments a2)) by (eapply clip_into; eauto using all_closed).
  assert (B3 : St eps EB EA (Into EA) (Pos EA) (allSegments (clipTo eps b2 a2))) by (eapply clip_into; eauto using into_closed).
  destruct (joined_build _ _ _ _ _ _ (into_closed _) (into_closed _) (joined_start _ _ _ _ _ _ A2 B3)) as (t & H & J). rewrite H. cbn [bind]. apply joined_new; auto using into_closed. apply joined_invert; auto using into_closed.
Qed.
End Two.

(* ---- the regions ---- *)
Lemma apart_perm eps es ls es' ls' : Apart eps es ls -> (forall e, In e es' -> In e es) -> (forall e, In e ls' -> In e ls) -> Apart eps es' ls'.
Proof. intros [A B C] He Hl. constructor; eauto. Qed.
Lemma out_on ls e p : Out ls e -> OnEdge e p -> exists l, In l ls /\ (orient (fst l) (snd l) p <= 0)%Q.
Proof. intros (l & I & H1 & H2) (t & T & A). exists l. split; auto. rewrite (orient_at _ _ _ _ _ A). apply CsgProofs2.below; auto. Qed.
Lemma into_on ls e p : Into ls e -> OnEdge e p -> forall l, In l ls -> (0 <= orient (fst l) (snd l) p)%Q.
Proof. intros H (t & T & A) l I. destruct (H l I). rewrite (orient_at _ _ _ _ _ A). apply CsgProofs2.between; auto. Qed.
Lemma not_in_neg ps p : ~ In_ ps p -> Neg (ring ps) p.
Proof.
  intros H. unfold In_ in H. destruct (Exists_dec (fun l => orient (fst l) (snd l) p < 0)%Q (ring ps)) as [X|X].
  - intros l. destruct (Qlt_le_dec (orient (fst l) (snd l) p) 0); [left; auto|right; lra].
  - apply Exists_exists in X. auto.
  - exfalso. apply H. intros e I. apply Qnot_lt_le. intros L. apply X, Exists_exists. eauto.
Qed.
Section Plcs.
Context (eps : Q) (a b : list Q * list (list nat)) (ps qs : list p2).
Hypothesis E0 : (0 <= eps)%Q.
Hypothesis PA : PolygonPLC a ps.
Hypothesis PB : PolygonPLC b qs.
Hypothesis RA : Roomy eps ps.
Hypothesis RB : Roomy eps qs.
Hypothesis AB : Apart eps (ring ps) (ring qs).
Hypothesis BA : Apart eps (ring qs) (ring ps).
Lemma ina e : In e (edges_of a) <-> In e (ring ps).
Proof. destruct PA as [_1 P]. split; apply Permutation_in; auto. apply Permutation_sym. auto. Qed.
Lemma inb e : In e (edges_of b) <-> In e (ring qs).
Proof. destruct PB as [_1 P]. split; apply Permutation_in; auto. apply Permutation_sym. auto. Qed.
Lemma csg_joined op TA TB QA QB :
  (forall ta tb, Chain (edges_of a) ta -> Chain (edges_of b) tb -> allSegments ta = map ms (edges_of a) -> allSegments tb = map ms (edges_of b) ->
     exists t, op eps ta tb = Ok t /\ Joined (edges_of a) (edges_of b) TA TB QA QB (allSegments t)) ->
  exists es, Returns es (csg op eps a b) /\
    (forall e, In e es -> (exists e0, In e0 (edges_of a) /\ Part e e0 /\ TA e) \/ (exists e0, In e0 (edges_of b) /\ Part e e0 /\ TB e)) /\
    (forall p, Covered (edges_of a) p -> QA p -> Covered es p) /\ (forall p, Covered (edges_of b) p -> QB p -> Covered es p).
Proof.
  intros H. unfold csg. rewrite (to_segments_ok a (proj1 PA)), (to_segments_ok b (proj1 PB)). cbn [bind].
  destruct (polygon_chain eps a ps E0 PA RA) as (ta & Ha & Ca & Aa). destruct (polygon_chain eps b qs E0 PB RB) as (tb & Hb & Cb & Ab).
  change (fun e : p2 * p2 => mkseg (fst e) (snd e)) with ms. rewrite Ha. cbn [bind]. rewrite Hb. cbn [bind]. destruct (H ta tb Ca Cb Aa Ab) as (t & Ht & J1 & J2 & J3). rewrite Ht. cbn [bind].
  exists (map se (allSegments t)). split; [apply from_ok|]. split; [|split].
  - intros e I. apply in_map_iff in I. destruct I as (s & <- & I). apply J1. auto.
  - intros p C Q. destruct (J2 p C Q) as (s & I & O). exists (se s). split; auto. apply in_map. auto.
  - intros p C Q. destruct (J3 p C Q) as (s & I & O). exists (se s). split; auto. apply in_map. auto.
Qed.
Lemma apa : Apart eps (edges_of a) (edges_of b).
Proof. apply (apart_perm eps (ring ps) (ring qs)); auto; intros e; [apply ina|apply inb]. Qed.
Lemma apb : Apart eps (edges_of b) (edges_of a).
Proof. apply (apart_perm eps (ring qs) (ring ps)); auto; intros e; [apply inb|apply ina]. Qed.
Lemma cova p : Covered (ring ps) p -> Covered (edges_of a) p.
Proof. intros (e & I & O). exists e. split; auto. apply ina. auto. Qed.
Lemma covb p : Covered (ring qs) p -> Covered (edges_of b) p.
Proof. intros (e & I & O). exists e. split; auto. apply inb. auto. Qed.
Lemma nega p : ~ In_ ps p -> Neg (edges_of a) p.
Proof. intros H. destruct (not_in_neg _ _ H) as (l & I & N). exists l. split; auto. apply ina. auto. Qed.
Lemma negb_ p : ~ In_ qs p -> Neg (edges_of b) p.
Proof. intros H. destruct (not_in_neg _ _ H) as (l & I & N). exists l. split; auto. apply inb. auto. Qed.
Lemma posa p : Strictly ps p -> Pos (edges_of a) p.
Proof. intros H l I. apply H, ina. auto. Qed.
Lemma posb p : Strictly qs p -> Pos (edges_of b) p.
Proof. intros H l I. apply H, inb. auto. Qed.
Lemma outa e p : Out (edges_of a) e -> OnEdge e p -> ~ Strictly ps p.
Proof. intros H O N. destruct (out_on _ _ _ H O) as (l & I & L). pose proof (N l (proj1 (ina l) I)). lra. Qed.
Lemma outb e p : Out (edges_of b) e -> OnEdge e p -> ~ Strictly qs p.
Proof. intros H O N. destruct (out_on _ _ _ H O) as (l & I & L). pose proof (N l (proj1 (inb l) I)). lra. Qed.
Lemma intoa e p : Into (edges_of a) e -> OnEdge e p -> In_ ps p.
Proof. intros H O l I. apply (into_on _ _ _ H O), ina. auto. Qed.
Lemma intob e p : Into (edges_of b) e -> OnEdge e p -> In_ qs p.
Proof. intros H O l I. apply (into_on _ _ _ H O), inb. auto. Qed.
Lemma union_ok : exists es, Returns es (csg_union eps a b) /\
  (forall e, In e es -> (exists e0, In e0 (ring ps) /\ Part e e0 /\ forall p, OnEdge e p -> ~ Strictly qs p) \/ (exists e0, In e0 (ring qs) /\ Part e e0 /\ forall p, OnEdge e p -> ~ Strictly ps p)) /\
  (forall p, Covered (ring ps) p -> ~ In_ qs p -> Covered es p) /\ (forall p, Covered (ring qs) p -> ~ In_ ps p -> Covered es p).
Proof.
  destruct (csg_joined tree_union (Out (edges_of b)) (Out (edges_of a)) (Neg (edges_of b)) (Neg (edges_of a))) as (es & R & J1 & J2 & J3); [intros; apply union_joined; auto using apa, apb|].
  exists es. split; auto. split; [|split; intros; [apply J2|apply J3]; auto using cova, covb, nega, negb_].
  intros e I. destruct (J1 e I) as [(e0 & K & P & T)|(e0 & K & P & T)]; [left|right]; exists e0; (split; [first [apply ina|apply inb]; auto|]); split; auto; intros p; [apply outb|apply outa]; auto.
Qed.
Lemma intersect_ok : exists es, Returns es (csg_intersect eps a b) /\
  (forall e, In e es -> (exists e0, In e0 (ring ps) /\ Part e e0 /\ forall p, OnEdge e p -> In_ qs p) \/ (exists e0, In e0 (ring qs) /\ Part e e0 /\ forall p, OnEdge e p -> In_ ps p)) /\
  (forall p, Covered (ring ps) p -> Strictly qs p -> Covered es p) /\ (forall p, Covered (ring qs) p -> Strictly ps p -> Covered es p).
Proof.
  destruct (csg_joined tree_intersect (Into (edges_of b)) (Into (edges_of a)) (Pos (edges_of b)) (Pos (edges_of a))) as (es & R & J1 & J2 & J3); [intros; apply intersect_joined; auto using apa, apb|].
  exists es. split; auto. split; [|split; intros; [apply J2|apply J3]; auto using cova, covb, posa, posb].
  intros e I. destruct (J1 e I) as [(e0 & K & P & T)|(e0 & K & P & T)]; [left|right]; exists e0; (split; [first [apply ina|apply inb]; auto|]); split; auto; intros p; [apply intob|apply intoa]; auto.
Qed.
Lemma subtract_ok : exists es, Returns es (csg_subtract eps a b) /\
  (forall e, In e es -> (exists e0, In e0 (ring ps) /\ Part e e0 /\ forall p, OnEdge e p -> ~ Strictly qs p) \/ (exists e0, In e0 (ring qs) /\ Part e e0 /\ forall p, OnEdge e p -> In_ ps p)) /\
  (forall p, Covered (ring ps) p -> ~ In_ qs p -> Covered es p) /\ (forall p, Covered (ring qs) p -> Strictly ps p -> Covered es p).
Proof.
  destruct (csg_joined tree_subtract (Out (edges_of b)) (Into (edges_of a)) (Neg (edges_of b)) (Pos (edges_of a))) as (es & R & J1 & J2 & J3); [intros; apply subtract_joined; auto using apa, apb|].
  exists es. split; auto. split; [|split; intros; [apply J2|apply J3]; auto using cova, covb, posa, negb_].
  intros e I. destruct (J1 e I) as [(e0 & K & P & T)|(e0 & K & P & T)]; [left|right]; exists e0; (split; [first [apply ina|apply inb]; auto|]); split; auto; intros p; [apply outb|apply intoa]; auto.
Qed.
End Plcs.
