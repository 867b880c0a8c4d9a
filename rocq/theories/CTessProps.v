(* C48: life cycle of a tessellation object of the C interface.
   C63: what a tessellation looks like after a trip through the C interface. *)
From Verif Require Import Base BaseFacts SerializeModel MeshModel MeshSpec CTessModel CTessSpec CTessProofs CTessProofs2 CTessProofs3 CTessProofs4 CTessProofs5.
From Verif Require Import MeshCheck.
From Coq Require Import Lia.

(* Whatever the C library does on malloc(0), a history between new and free, every fill of which brings
   a tessellation with at least one face, is free of undefined behaviour (reading face_cells before it is
   set, freeing twice) exactly when it is careful; and then nothing stays allocated exactly when the
   object was cleared before every further fill. *)
Theorem life_partial {V} zn D (l : list (@action V)) : D = 2 \/ D = 3 ->
  (forall t, In (Fill t) l -> Shaped D t /\ faces t <> []) ->
  (Careful l -> exists h, life zn D l = Ok h /\ (Released h <-> Tidy l)) /\
  (~ Careful l -> life zn D l = UB).
Proof.
  intros D23 H. assert (G : Forall (good D) l). { apply Forall_forall. intros [t|] I; cbn; auto. }
  pose proof (life_cases zn D D23 l G) as LC. destruct l as [|[t|] l].
  - split; auto. intros [(t & l' & E) _]. discriminate.
  - destruct LC as [A B]. pose proof (okb_ok l false (Fill t) eq_refl) as OK. pose proof (tidyb_ok l false (Fill t) eq_refl) as TI.
    assert (CO : Careful (Fill t :: l) <-> okb false l = true). { unfold Careful. rewrite OK. split; [tauto|]. intros Q. split; eauto. }
    rewrite CO. destruct (okb false l); split; auto; try congruence. intros _. destruct (B eq_refl) as (h & R & E & O & Q). exists h. split; auto.
    rewrite <- TI, <- Q. split; intros K.
    + destruct R as [|a R]; auto. destruct (own_not_released h a R O); auto.
    + subst R. apply own_released; auto.
  - split; auto. intros [(t & l' & E) _]. discriminate.
Qed.
Print Assumptions life_partial.

(* So the usual sequence works: fill, and before each further fill a clear, and one free at the end. *)
Theorem life_refilled {V} zn D (t : mesh V) ts : D = 2 \/ D = 3 ->
  (forall u, In u (t :: ts) -> Shaped D u /\ faces u <> []) ->
  exists h, life zn D (Fill t :: flat_map (fun u => [Clear; Fill u]) ts) = Ok h /\ Released h.
Proof.
  intros D23 H.
  assert (K : okb (V := V) false (flat_map (fun u => [Clear; Fill u]) ts) = true) by (clear; induction ts; cbn; auto).
  assert (T : tidyb (V := V) false (flat_map (fun u => [Clear; Fill u]) ts) = true) by (clear; induction ts; cbn; auto).
  assert (G : Forall (good D) (Fill t :: flat_map (fun u => [Clear; Fill u]) ts)).
  { apply Forall_forall. intros a I. destruct I as [<-|I]; [apply H; cbn; auto|]. apply in_flat_map in I as (u & I & [<-|[<-|[]]]); cbn; auto. apply H. cbn. auto. }
  pose proof (life_cases zn D D23 _ G) as LC. cbv iota beta in LC. destruct (proj2 LC K) as (h & R & E & O & Q). exists h. split; auto.
  apply own_released. rewrite <- (proj2 Q T). auto.
Qed.
Print Assumptions life_refilled.

(* C48 does not hold: an object that was never filled cannot be freed (or cleared), *)
Theorem life_unfilled_refuted V zn D : D = 2 \/ D = 3 -> life (V := V) zn D [] = UB /\ life (V := V) zn D [Clear] = UB.
Proof. intros D23. split; [exact (life_cases zn D D23 [] (Forall_nil _))|exact (life_cases zn D D23 [Clear] (Forall_cons (P := good D) Clear I (Forall_nil _)))]. Qed.
Print Assumptions life_unfilled_refuted.
(* and one that was filled and cleared cannot be cleared again or freed. *)
Theorem life_cleared_refuted {V} zn D (t : mesh V) : D = 2 \/ D = 3 -> Shaped D t -> faces t <> [] ->
  life zn D [Fill t; Clear] = UB /\ life zn D [Fill t; Clear; Clear] = UB.
Proof.
  intros D23 SH NE. assert (G1 : Forall (good D) [Fill t; Clear]) by (repeat (apply Forall_cons; [cbn; auto|]); apply Forall_nil).
  assert (G2 : Forall (good D) [Fill t; Clear; Clear]) by (repeat (apply Forall_cons; [cbn; auto|]); apply Forall_nil).
  split; [exact (proj1 (life_cases zn D D23 _ G1) eq_refl)|exact (proj1 (life_cases zn D D23 _ G2) eq_refl)].
Qed.
Print Assumptions life_cleared_refuted.
(* Filling twice leaks. *)
Theorem life_refill_leaks {V} zn D (t u : mesh V) : D = 2 \/ D = 3 -> Shaped D t -> faces t <> [] -> Shaped D u -> faces u <> [] ->
  exists h, life zn D [Fill t; Fill u] = Ok h /\ ~ Released h.
Proof.
  intros D23 SH NE SH' NE'. assert (G : Forall (good D) [Fill t; Fill u]) by (repeat (apply Forall_cons; [cbn; auto|]); apply Forall_nil).
  destruct (proj2 (life_cases zn D D23 _ G) eq_refl) as (h & R & E & O & Q). exists h. split; auto.
  destruct R as [|a R]; [|eapply own_not_released; eauto]. apply proj1 in Q. discriminate (Q eq_refl).
Qed.
Print Assumptions life_refill_leaks.

(* C63.  Filled into a new C object, or into one that was cleared, and read back into any C++
   tessellation, a tessellation is the same in every field but the convex hull, which keeps what it was.  *)
Theorem round_trip_partial {V} zn D (t t0 : mesh V) : D = 2 \/ D = 3 -> Shaped D t -> Tellable t ->
  forall w, (exists l, (forall u, In (Fill u) l -> Shaped D u /\ faces u <> []) /\ (do w <- tessNew D; mfold (act zn D) l w) = Ok w) ->
  exists w', fillC zn D t w = Ok w' /\
    fillCpp D w' t0 = Ok (mkMesh (nodes t) (cells t) (faces t) (boundaryNodes t) (boundaryFaces t) (faceCells t) (convexHull t0)
                               (neighborDomains t) (sharedNodes t) (sharedFaces t)).
Proof.
  intros D23 SH TE w (l & H & E).
  assert (OK : exists L HL, Own (mem w) (HL ++ L) /\ HullOwn w HL).
  { assert (G : Forall (good D) l). { apply Forall_forall. intros [u|] I; cbn; auto. }
    destruct (new_fresh (V := V) D D23) as (w0 & E0 & FR). rewrite E0 in E. cbn [bind] in E.
    assert (INV : forall l (w0 w : world V), Forall (good D) l -> (Fresh w0 \/ (exists R, Full w0 R) \/ (exists R, Stale w0 R)) -> mfold (act zn D) l w0 = Ok w ->
       (Fresh w \/ (exists R, Full w R) \/ (exists R, Stale w R))).
    { clear - D23. induction l as [|a l IH]; intros w0 w G I E; [cbn in E; injection E as <-; auto|]. inversion G as [|? ? G1 G2]; subst. cbn [mfold] in E. apply bind_ok in E as (w1 & E1 & E).
      apply (IH w1 w G2); auto. destruct a as [u|]; cbn [act] in E1.
      - right. left. destruct I as [I|[(R & I)|(R & I)]].
        + destruct (fill_fresh zn D D23 w0 u G1 I) as (w' & E' & F). assert (w' = w1) by congruence. subst. eauto.
        + destruct (fill_full zn D D23 w0 u R G1 I) as (w' & a & R' & E' & F). assert (w' = w1) by congruence. subst. eauto.
        + destruct (fill_stale zn D D23 w0 u R G1 I) as (w' & E' & F). assert (w' = w1) by congruence. subst. eauto.
      - right. right. destruct I as [I|[(R & I)|(R & I)]].
        + rewrite fresh_clear in E1 by auto. discriminate.
        + destruct (clear_full w0 R I) as (w' & E' & F). assert (w' = w1) by congruence. subst. eauto.
        + rewrite (stale_clear D D23 w0 R I) in E1. discriminate. }
    destruct (INV l w0 w G (or_introl FR) E) as [(U & N & M & SE)|[(R & [A B C (HL & HO & O)])|(R & [A B C DD O])]].
    - exists [0], []. split; [|left; split; auto; apply N; discriminate]. rewrite M. intros a. unfold liveb. destruct a as [|[|a]]; auto.
    - exists (owned w ++ self w :: R), HL. split; auto. eapply own_ext; [exact O|]. intros a. rewrite !count_occ_app. lia.
    - exists (self w :: R), []. split; auto. left. split; auto. apply A. unfold Stays. intuition discriminate. }
  destruct OK as (L & HL & O & HO).
  destruct (fillC_ok zn D t w L HL) as (w' & HL' & X & E' & _ & _ & _ & _ & C & _); auto; [lia|]. exists w'. split; auto.
  rewrite (fillCpp_ok D w' t) by (auto; lia). f_equal. f_equal. rewrite <- (map_id (faceCells t)) at 2. apply map_ext_in. intros fc I.
  unfold told. destruct fc as [|c [|d [|]]]; auto. destruct (Z.eqb_spec d (-1)); auto. destruct (TE c d I); auto.
Qed.
Print Assumptions round_trip_partial.

(* Without the proviso on the second cells it does not hold.  Two squares that share face 1, which
   belongs to cell 1 first and, the other way round, to cell 0: the C arrays say that face 1 is on the
   boundary. *)
Definition squares_swapped : mesh Z := mkMesh
  [0; 0;  1; 0;  2; 0;  0; 1;  1; 1;  2; 1]%Z
  [[0; -2; 2; 3]; [4; 5; 6; 1]]%Z
  [[0; 1]; [4; 1]; [4; 3]; [3; 0]; [1; 2]; [2; 5]; [5; 4]]
  [] [] [[0]; [1; -1]; [0]; [0]; [1]; [1]; [1]]%Z plc_new [] [] [].
Theorem round_trip_refuted : WellFormed 2 squares_swapped /\ exists w w' t', tessNew (V := Z) 2 = Ok w /\ fillC false 2 squares_swapped w = Ok w' /\ fillCpp 2 w' mesh_new = Ok t' /\
  nth_error (faceCells squares_swapped) 1 = Some [1; -1]%Z /\ nth_error (faceCells t') 1 = Some [1]%Z.
Proof.
  split; [apply wfb_sound; vm_compute; reflexivity|]. do 3 eexists. split; [reflexivity|]. split; [vm_compute; reflexivity|]. split; [vm_compute; reflexivity|]. split; reflexivity.
Qed.
Print Assumptions round_trip_refuted.

(* a tessellation that meets the hypotheses, with two neighbor domains, and its life *)
Definition small : mesh Z := mkMesh [0; 0; 1; 0; 0; 1]%Z [[0; 1; 2]]%Z [[0; 1]; [1; 2]; [2; 0]] [0; 1; 2] [0; 1; 2] [[0]; [0]; [0]]%Z
  (mkPLC [[0; 1]; [1; 2]; [2; 0]]%Z []) [1; 4] [[0; 1]; [2]] [[0]; []].
Example small_shaped : Shaped 2 small /\ Tellable small /\ faces small <> [].
Proof.
  split; [constructor; cbn; auto; intros fc [<-|[<-|[<-|[]]]]; auto|]. split; [|discriminate].
  intros c d I. cbn in I. destruct I as [I|[I|[I|[]]]]; discriminate.
Qed.
Example small_life : exists h, life true 2 [Fill small; Clear; Fill small] = Ok h /\ length h = 31 /\ forallb (fun b => match b with None => true | _ => false end) h = true.
Proof. eexists. split; [vm_compute; reflexivity|]. split; reflexivity. Qed.
