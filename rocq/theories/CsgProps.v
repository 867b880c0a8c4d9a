(* C39: constructive solid geometry in the plane. *)
From Verif Require Import Base BaseFacts Plane PLCSpec WithinModel WithinSpec WithinProofs MeshEditorModel SimplifySpec CsgModel CsgSpec CsgProofs CsgProofs2 CsgProofs3 CsgProofs4.
From Coq Require Import QArith Lqa Permutation.
Local Open Scope nat_scope.

(* Whatever the two boundaries, the operations come to an end, never read out of bounds, and
   return parts of the edges they were given (or stop, if fewer than three are left). *)
Theorem csg_parts : forall op eps a b, In op [csg_union; csg_intersect; csg_subtract] -> (0 <= eps)%Q -> ValidPLC a -> ValidPLC b ->
  exists es, Returns es (op eps a b) /\ forall e, In e es -> exists e0, In e0 (edges_of a ++ edges_of b) /\ Part e e0.
Proof.
  intros op eps a b I E Va Vb. destruct I as [<-|[<-|[<-|[]]]]; apply csg_total; auto using union_total, intersect_total, subtract_total.
Qed.
Print Assumptions csg_parts.

(* For two convex polygons in general position the result is the boundary of the combined region:
   every facet is part of a side of one and, point by point, on the right side of the other, and
   every boundary point of one clearly on the right side of the other is on a facet. *)
Theorem csg_union_partial : forall eps a b ps qs, (0 <= eps)%Q -> PolygonPLC a ps -> PolygonPLC b qs -> Roomy eps ps -> Roomy eps qs ->
  Apart eps (ring ps) (ring qs) -> Apart eps (ring qs) (ring ps) ->
  exists es, Returns es (csg_union eps a b) /\
    (forall e, In e es ->
       (exists e0, In e0 (ring ps) /\ Part e e0 /\ forall p, OnEdge e p -> ~ Strictly qs p) \/
       (exists e0, In e0 (ring qs) /\ Part e e0 /\ forall p, OnEdge e p -> ~ Strictly ps p)) /\
    (forall p, Covered (ring ps) p -> ~ In_ qs p -> Covered es p) /\
    (forall p, Covered (ring qs) p -> ~ In_ ps p -> Covered es p).
Proof. exact union_ok. Qed.
Print Assumptions csg_union_partial.
Theorem csg_intersect_partial : forall eps a b ps qs, (0 <= eps)%Q -> PolygonPLC a ps -> PolygonPLC b qs -> Roomy eps ps -> Roomy eps qs ->
  Apart eps (ring ps) (ring qs) -> Apart eps (ring qs) (ring ps) ->
  exists es, Returns es (csg_intersect eps a b) /\
    (forall e, In e es ->
       (exists e0, In e0 (ring ps) /\ Part e e0 /\ forall p, OnEdge e p -> In_ qs p) \/
       (exists e0, In e0 (ring qs) /\ Part e e0 /\ forall p, OnEdge e p -> In_ ps p)) /\
    (forall p, Covered (ring ps) p -> Strictly qs p -> Covered es p) /\
    (forall p, Covered (ring qs) p -> Strictly ps p -> Covered es p).
Proof. exact intersect_ok. Qed.
Print Assumptions csg_intersect_partial.
Theorem csg_subtract_partial : forall eps a b ps qs, (0 <= eps)%Q -> PolygonPLC a ps -> PolygonPLC b qs -> Roomy eps ps -> Roomy eps qs ->
  Apart eps (ring ps) (ring qs) -> Apart eps (ring qs) (ring ps) ->
  exists es, Returns es (csg_subtract eps a b) /\
    (forall e, In e es ->
       (exists e0, In e0 (ring ps) /\ Part e e0 /\ forall p, OnEdge e p -> ~ Strictly qs p) \/
       (exists e0, In e0 (ring qs) /\ Part e e0 /\ forall p, OnEdge e p -> In_ ps p)) /\
    (forall p, Covered (ring ps) p -> ~ In_ qs p -> Covered es p) /\
    (forall p, Covered (ring qs) p -> Strictly ps p -> Covered es p).
Proof. exact subtract_ok. Qed.
Print Assumptions csg_subtract_partial.

(* ---- the hypotheses can be met ---- *)
Definition offb (eps : Q) (v : Q) : bool := Qeq_bool v 0 || Qlt_bool eps v || Qlt_bool v (- eps).
Lemma offb_ok eps v : offb eps v = true -> (v == 0 \/ eps < v \/ v < - eps)%Q.
Proof.
  unfold offb. intros H. apply orb_prop in H. destruct H as [H|H]; [apply orb_prop in H; destruct H as [H|H]|].
  - left. apply Qeq_bool_iff. auto.
  - right; left. destruct (qltb_spec eps v); [auto|discriminate].
  - right; right. destruct (qltb_spec v (- eps)); [auto|discriminate].
Qed.
Definition og (l : p2 * p2) (p : p2) : Q := orient (fst l) (snd l) p.
Definition apartb (eps : Q) (es ls : list (p2 * p2)) : bool :=
  forallb (fun e => forallb (fun l => let x := og l (fst e) in let y := og l (snd e) in
    negb (Qeq_bool x 0 && Qeq_bool y 0) && offb eps x && offb eps y &&
    (Qeq_bool x y || forallb (fun l' => offb eps (og l' (fst e) + x / (x - y) * (og l' (snd e) - og l' (fst e)))%Q) ls)) ls) es.
Lemma apartb_ok eps es ls : apartb eps es ls = true -> Apart eps es ls.
Proof.
  intros H. unfold apartb in H. rewrite forallb_forall in H.
  assert (G : forall e l, In e es -> In l ls -> ~ (og l (fst e) == 0 /\ og l (snd e) == 0)%Q /\ offb eps (og l (fst e)) = true /\ offb eps (og l (snd e)) = true /\
    ((og l (fst e) == og l (snd e))%Q \/ forall l', In l' ls -> offb eps (og l' (fst e) + og l (fst e) / (og l (fst e) - og l (snd e)) * (og l' (snd e) - og l' (fst e)))%Q = true)).
  { intros e l Ie Il. specialize (H e Ie). rewrite forallb_forall in H. specialize (H l Il). cbv zeta in H. apply andb_prop in H. destruct H as [H H4]. apply andb_prop in H. destruct H as [H H3]. apply andb_prop in H. destruct H as [H1 H2].
    split; [|split; [auto|split; [auto|]]].
    - intros [Z1 Z2]. apply Qeq_bool_iff in Z1. apply Qeq_bool_iff in Z2. rewrite Z1, Z2 in H1. discriminate.
    - apply orb_prop in H4. destruct H4 as [H4|H4]; [left; apply Qeq_bool_iff; auto|right]. rewrite forallb_forall in H4. auto. }
  constructor.
  - intros e l Ie Il [Z1 Z2]. apply (proj1 (G e l Ie Il)). split; auto.
  - intros e l Ie Il. destruct (G e l Ie Il) as (_1 & A & B & _2). split; apply offb_ok; auto.
  - intros e l l' p Ie Il Il' (t & T & A) Z. destruct (G e l Ie Il) as (N & _1 & _2 & D). rewrite (orient_at _ _ _ _ _ A) in Z. fold (og l (fst e)) (og l (snd e)) in Z. set (x := og l (fst e)) in *. set (y := og l (snd e)) in *.
    destruct D as [D|D]; [exfalso; apply N; rewrite D in Z; split; lra|]. specialize (D l' Il'). apply offb_ok in D.
    assert (Nx : ~ (x - y == 0)%Q). { intros K. apply N. assert (Q : (x == y)%Q) by lra. rewrite Q in Z. split; lra. }
    assert (Et : (x / (x - y) == t)%Q). { assert (K : (x == t * (x - y))%Q) by lra. rewrite K at 1. field. auto. }
    unfold Off. rewrite (orient_at _ _ _ _ _ A). fold (og l' (fst e)) (og l' (snd e)). rewrite Et in D. auto.
Qed.
Definition roomyb (eps : Q) (ps : list p2) : bool :=
  (3 <=? length ps) && forallb (fun i => forallb (fun j => forallb (fun k => negb ((i <? j) && (j <? k)) || Qlt_bool 0 (orient (nth i ps (0, 0)%Q) (nth j ps (0, 0)%Q) (nth k ps (0, 0)%Q))) (seq 0 (length ps))) (seq 0 (length ps))) (seq 0 (length ps)) &&
  forallb (fun l => forallb (fun p => offb eps (og l p)) ps) (ring ps).
Lemma roomyb_ok eps ps : roomyb eps ps = true -> Roomy eps ps.
Proof.
  unfold roomyb. intros H. apply andb_prop in H. destruct H as [H H3]. apply andb_prop in H. destruct H as [H1 H2]. apply Nat.leb_le in H1. split; auto. split.
  - intros i j k a b c L Ea Eb Ec. pose proof (nth_error_lt _ _ _ Ea). pose proof (nth_error_lt _ _ _ Eb). pose proof (nth_error_lt _ _ _ Ec).
    rewrite forallb_forall in H2. specialize (H2 i ltac:(apply in_seq; lia)). rewrite forallb_forall in H2. specialize (H2 j ltac:(apply in_seq; lia)). rewrite forallb_forall in H2. specialize (H2 k ltac:(apply in_seq; lia)).
    rewrite (nth_error_nth _ _ _ Ea), (nth_error_nth _ _ _ Eb), (nth_error_nth _ _ _ Ec) in H2. rewrite (proj2 (Nat.ltb_lt i j)), (proj2 (Nat.ltb_lt j k)) in H2 by lia. cbn [andb negb orb] in H2. destruct (qltb_spec 0 (orient a b c)); [auto|discriminate].
  - intros l p Il Ip. rewrite forallb_forall in H3. specialize (H3 l Il). rewrite forallb_forall in H3. apply offb_ok. apply H3. auto.
Qed.
Definition box (x0 y0 x1 y1 : Q) : list p2 := [(x0, y0); (x1, y0); (x1, y1); (x0, y1)].
Definition box_plc (x0 y0 x1 y1 : Q) : list Q * list (list nat) := ([x0; y0; x1; y0; x1; y1; x0; y1], [[0; 1]; [1; 2]; [2; 3]; [3; 0]]).
Lemma box_polygon x0 y0 x1 y1 : PolygonPLC (box_plc x0 y0 x1 y1) (box x0 y0 x1 y1).
Proof.
  split; [|apply Permutation_refl]. intros f I. cbn [snd box_plc] in I. cbn [fst box_plc length].
  destruct I as [<-|[<-|[<-|[<-|[]]]]]; eexists _, _; (split; [reflexivity|lia]).
Qed.
(* a triangle, its sides listed out of order, and a box it pokes through *)
Definition tri : list p2 := [(1, 1); (5, 2); (2, 3)]%Q.
Definition tri_plc : list Q * list (list nat) := ([2; 3; 1; 1; 5; 2]%Q, [[2; 0]; [1; 2]; [0; 1]]).
Definition show (r : res (list Q * list (list nat))) : res (list (p2 * p2)) :=
  match r with Ok m => Ok (map (fun e => ((Qred (fst (fst e)), Qred (snd (fst e))), (Qred (fst (snd e)), Qred (snd (snd e))))) (edges_of m)) | Abort => Abort | UB => UB | Hang => Hang end.
Example csg_case : let eps := (1 # 1000)%Q in
  PolygonPLC tri_plc tri /\ PolygonPLC (box_plc 0 0 3 4) (box 0 0 3 4) /\ Roomy eps tri /\ Roomy eps (box 0 0 3 4) /\ Apart eps (ring tri) (ring (box 0 0 3 4)) /\ Apart eps (ring (box 0 0 3 4)) (ring tri) /\
  show (csg_intersect eps tri_plc (box_plc 0 0 3 4)) = Ok [((3, 8 # 3), (2, 3)); ((3, 3 # 2), (1, 1)); ((2, 3), (1, 1)); ((3, 8 # 3), (3, 3 # 2))]%Q.
Proof.
  intros eps. split; [|split; [apply box_polygon|split; [apply roomyb_ok; vm_compute; reflexivity|split; [apply roomyb_ok; vm_compute; reflexivity|split; [apply apartb_ok; vm_compute; reflexivity|split; [apply apartb_ok; vm_compute; reflexivity|]]]]]].
  - split; [intros f I; cbn [snd tri_plc] in I; cbn [fst tri_plc length]; destruct I as [<-|[<-|[<-|[]]]]; eexists _, _; (split; [reflexivity|lia])|]. change (ring tri) with [((1, 1), (5, 2)); ((5, 2), (2, 3)); ((2, 3), (1, 1))]%Q. apply perm_swap.
  - vm_compute. reflexivity.
Qed.

(* ---- where the code fails ---- *)
(* A facet cut off at its start comes back reversed: the facets of the result do not run around
   the region in the direction of the polygons. *)
Theorem csg_turned_refuted : exists eps a b ps qs plc e, (0 <= eps)%Q /\ PolygonPLC a ps /\ PolygonPLC b qs /\ Roomy eps ps /\ Roomy eps qs /\ Apart eps (ring ps) (ring qs) /\ Apart eps (ring qs) (ring ps) /\
  csg_union eps a b = Ok plc /\ In e (edges_of plc) /\ ~ exists e0, In e0 (ring ps ++ ring qs) /\ PartSame e e0.
Proof.
  exists (1 # 1000)%Q, (box_plc 0 0 2 2), (box_plc 1 1 3 3), (box 0 0 2 2), (box 1 1 3 3).
  destruct (csg_union (1 # 1000) (box_plc 0 0 2 2) (box_plc 1 1 3 3)) as [plc| | |] eqn:R; [|vm_compute in R; discriminate..].
  exists plc, (nth 2 (edges_of plc) ((0, 0), (0, 0))%Q). vm_compute in R. inversion R; subst plc.
  split; [lra|]. split; [apply box_polygon|]. split; [apply box_polygon|]. split; [apply roomyb_ok; vm_compute; reflexivity|]. split; [apply roomyb_ok; vm_compute; reflexivity|].
  split; [apply apartb_ok; vm_compute; reflexivity|]. split; [apply apartb_ok; vm_compute; reflexivity|]. split; [reflexivity|]. split; [apply nth_In; cbn; lia|].
  intros (e0 & I & t & u & (T & U & TU) & [A1 A2] & [B1 B2]). cbn in I.
  repeat (destruct I as [<-|I]; [unfold along in *; cbn in A1, A2, B1, B2; unfold edge, pos2 in *; cbn in *; lra|]). destruct I.
Qed.
Print Assumptions csg_turned_refuted.

(* For a region that is not convex the intersection can hold points outside of it. *)
Definition ell : list p2 := [(0, 0); (3, 0); (3, 1); (1, 1); (1, 3); (0, 3)]%Q.
Definition ell_plc : list Q * list (list nat) := ([0; 0; 3; 0; 3; 1; 1; 1; 1; 3; 0; 3]%Q, [[0; 1]; [1; 2]; [2; 3]; [3; 4]; [4; 5]; [5; 0]]).
Theorem csg_nonconvex_refuted : exists eps a b ps qs plc p, (0 <= eps)%Q /\ PolygonPLC a ps /\ PolygonPLC b qs /\ Roomy eps qs /\ Apart eps (ring ps) (ring qs) /\ Apart eps (ring qs) (ring ps) /\
  csg_intersect eps a b = Ok plc /\ Covered (edges_of plc) p /\ (forall q, In q ps -> 0 <= fst q)%Q /\ (fst p < 0)%Q.
Proof.
  exists (1 # 1000)%Q, ell_plc, (box_plc (-1) (-1) (1 # 2) (1 # 2)), ell, (box (-1) (-1) (1 # 2) (1 # 2)).
  destruct (csg_intersect (1 # 1000) ell_plc (box_plc (-1) (-1) (1 # 2) (1 # 2))) as [plc| | |] eqn:R; [|vm_compute in R; discriminate..].
  exists plc, (fst (nth 2 (edges_of plc) ((0, 0), (0, 0))%Q)). vm_compute in R. inversion R; subst plc.
  split; [lra|]. split; [split; [|apply Permutation_refl]; intros f I; cbn [snd ell_plc] in I; cbn [fst ell_plc length]; repeat (destruct I as [<-|I]; [eexists _, _; (split; [reflexivity|lia])|]); destruct I|]. split; [apply box_polygon|]. split; [apply roomyb_ok; vm_compute; reflexivity|].
  split; [apply apartb_ok; vm_compute; reflexivity|]. split; [apply apartb_ok; vm_compute; reflexivity|]. split; [reflexivity|].
  split; [|split; [|vm_compute; reflexivity]].
  - eexists. split; [apply nth_In with (n := 2); cbn; lia|]. exists 0%Q. split; [lra|]. apply at_0.
  - intros q I. cbn in I. repeat (destruct I as [<-|I]; [cbn; lra|]). destruct I.
Qed.
Print Assumptions csg_nonconvex_refuted.

(* The intersection of two polygons that do not meet is not an empty boundary: the program stops. *)
Theorem csg_empty_refuted : exists eps a b ps qs, (0 <= eps)%Q /\ PolygonPLC a ps /\ PolygonPLC b qs /\ Roomy eps ps /\ Roomy eps qs /\ Apart eps (ring ps) (ring qs) /\ Apart eps (ring qs) (ring ps) /\
  csg_intersect eps a b = Abort.
Proof.
  exists (1 # 1000)%Q, (box_plc 0 0 2 2), (box_plc 3 1 4 3), (box 0 0 2 2), (box 3 1 4 3).
  split; [lra|]. split; [apply box_polygon|]. split; [apply box_polygon|]. split; [apply roomyb_ok; vm_compute; reflexivity|]. split; [apply roomyb_ok; vm_compute; reflexivity|].
  split; [apply apartb_ok; vm_compute; reflexivity|]. split; [apply apartb_ok; vm_compute; reflexivity|]. vm_compute. reflexivity.
Qed.
Print Assumptions csg_empty_refuted.
