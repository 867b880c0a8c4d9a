(* Theorems about reading out a diagram (C22), filling a tessellation (C23) and the
   clean-up after clipping (C24).  The vocabulary is in QuantMeshSpec.v. *)
From Verif Require Import Base BaseFacts KeyMapModel PointMapModel PointMapProofs PointMapProps SerializeModel MeshModel MeshSpec MeshProofs2 MeshEditorModel QuantMeshModel QuantMeshSpec QuantMeshProofs QuantMeshProofs2 QuantMeshProofs3 QuantMeshProofs4.
From Coq Require Import Sorted QArith.
Local Open Scope nat_scope.

(* ------------------------------------------------------------ C22 *)
(* the diagram cells that belong to real generators, as a reading order *)
Definition real_cells (ngen : nat) (cs : list (nat * list (pt * pt))) : list (nat * bool * list (pt * pt)) :=
  map (fun c => (fst c, false, snd c)) (filter (fun c => fst c <? ngen) cs).

Lemma real_cells_in ngen cs e : In e (real_cells ngen cs) -> fst (fst e) < ngen /\ snd (fst e) = false.
Proof.
  unfold real_cells. intros I. apply in_map_iff in I as (c & <- & I). apply filter_In in I as [_ L].
  apply Nat.ltb_lt in L. auto.
Qed.

(* The Boost read-out never fails and represents every cell exactly (no snapping). *)
Theorem boost_readout_correct : forall ngen cs,
  exists st, boost_read ngen cs = Ok st /\
    ReadOut eq ngen (real_cells ngen cs) (fun p => p) (qnodes st) (qedges st) (qcells st).
Proof.
  intros ngen cs. apply boost_evs. intros e I. apply (real_cells_in _ _ _ I).
Qed.
Print Assumptions boost_readout_correct.

(* within tolerance 2 in both coordinates *)
Definition close2 (p q : pt) : Prop := (Z.abs (fst p - fst q) <= 2)%Z /\ (Z.abs (snd p - snd q) <= 2)%Z.
Lemma close2_iff p q : close2 p q <-> near2 2 p q = true.
Proof. unfold close2, near2. rewrite andb_true_iff, !Z.leb_le. tauto. Qed.

(* The read-out of clipping, whenever it returns. *)
Theorem clip_readout_correct : forall ncells evs st, clip_read ncells evs = Ok st ->
  exists snap, ReadOut close2 ncells evs snap (qnodes st) (qedges st) (qcells st).
Proof.
  intros ncells evs st E. exists (snapf (near2 2) (qnodes st)).
  apply (read_out_spec clip_node (near2 2) (CI (fun _ => True)) (fun _ => True) near2_refl near2_sym (clip_HA _)) with (m0 := ipm_new 2 2); auto.
  - apply close2_iff.
  - intros e I. apply Forall_forall. intros s _. split; auto.
  - apply clip_init.
Qed.
Print Assumptions clip_readout_correct.

(* It does return when the vertices coincide or are more than 4 apart in a coordinate. *)
Theorem clip_readout_returns : forall ncells evs,
  (forall e, In e evs -> fst (fst e) < ncells) ->
  (forall s s' p q, In s (walked evs) -> In s' (walked evs) -> p = fst s \/ p = snd s -> q = fst s' \/ q = snd s' ->
     p = q \/ (4 < Z.abs (fst p - fst q))%Z \/ (4 < Z.abs (snd p - snd q))%Z) ->
  exists st, clip_read ncells evs = Ok st.
Proof.
  intros ncells evs B Sep. set (Good := fun p : pt => exists s, In s (walked evs) /\ (p = fst s \/ p = snd s)).
  assert (SepG : forall x y, Good x -> Good y -> x = y \/ (4 < Z.abs (fst x - fst y))%Z \/ (4 < Z.abs (snd x - snd y))%Z).
  { intros x y (s & Is & Hs) (s' & Is' & Hs'). apply (Sep s s'); auto. }
  apply (read_out_total clip_node (near2 2) (CI Good) Good near2_refl near2_sym (clip_HA Good)).
  - intros m ns p. apply clip_HT. auto.
  - apply clip_init.
  - intros e I. split; [auto|]. apply walked_good with (evs := evs); auto. intros s Is. split; exists s; auto.
Qed.
Print Assumptions clip_readout_returns.

(* Two cells that walk the same edge, in either direction, refer to the same edge id; the
   sign tells the direction. *)
Theorem readout_shares_edges : forall (close : pt -> pt -> Prop) ngen evs snap nodes edges cells i c z i' c' z' p q,
  (forall p, close p p) -> ReadOut close ngen evs snap nodes edges cells ->
  nth_error cells i = Some c -> In z c -> nth_error cells i' = Some c' -> In z' c' ->
  oriented_ends nodes edges z = Some (p, q) ->
  (oriented_ends nodes edges z' = Some (p, q) -> z' = z) /\
  (oriented_ends nodes edges z' = Some (q, p) -> z' = Z.lnot z).
Proof.
  intros close ngen evs snap ns es cs i c z i' c' z' p q Rf R Hc Iz Hc' Iz' E.
  assert (ND : forall i j p, nth_error ns i = Some p -> nth_error ns j = Some p -> i = j).
  { intros x y r Hx Hy. eapply (ro_apart _ _ _ _ _ _ _ R); eauto. }
  assert (K : forall z p q, oriented_ends ns es z = Some (p, q) -> exists a b, nth_error es (pid z) = Some (a, b) /\ a < b /\
     ((0 <= z)%Z /\ nth_error ns a = Some p /\ nth_error ns b = Some q \/
      (z < 0)%Z /\ nth_error ns a = Some q /\ nth_error ns b = Some p)).
  { clear - R. intros z p q E. unfold oriented_ends in E. destruct (nth_error es (pid z)) as [[a b]|] eqn:H; [|discriminate].
    exists a, b. split; auto. split; [apply (ro_order _ _ _ _ _ _ _ R a b); eapply nth_error_In; eauto|].
    destruct (Z.leb_spec 0 z).
    - destruct (nth_error ns a) eqn:A; [|discriminate]. destruct (nth_error ns b) eqn:B; [|discriminate]. injection E as <- <-. auto.
    - destruct (nth_error ns b) eqn:B; [|discriminate]. destruct (nth_error ns a) eqn:A; [|discriminate]. injection E as <- <-. auto. }
  assert (U : forall z z' a b, nth_error es (pid z) = Some (a, b) -> nth_error es (pid z') = Some (a, b) -> pid z = pid z').
  { intros x y a b Hx Hy. apply (proj1 (NoDup_nth_error es) (ro_edges _ _ _ _ _ _ _ R)); [eapply nth_error_lt; eauto|congruence]. }
  destruct (K z p q E) as (a & b & Hab & L & D). split; intros E'.
  - destruct (K z' p q E') as (a' & b' & Hab' & L' & D').
    destruct D as [(S & A & B)|(S & A & B)], D' as [(S' & A' & B')|(S' & A' & B')];
      try (pose proof (ND _ _ _ A B') as X'; pose proof (ND _ _ _ B A') as Y'; lia);
      pose proof (ND _ _ _ A A') as X; pose proof (ND _ _ _ B B') as Y; subst a' b';
      pose proof (U _ _ _ _ Hab Hab') as P; unfold pid, positiveID, Z.lnot in P;
      destruct (Z.leb_spec 0 z), (Z.leb_spec 0 z'); lia.
  - destruct (K z' q p E') as (a' & b' & Hab' & L' & D').
    destruct D as [(S & A & B)|(S & A & B)], D' as [(S' & A' & B')|(S' & A' & B')];
      try (pose proof (ND _ _ _ A B') as X'; pose proof (ND _ _ _ B A') as Y'; lia);
      pose proof (ND _ _ _ A A') as X; pose proof (ND _ _ _ B B') as Y; subst a' b';
      pose proof (U _ _ _ _ Hab Hab') as P; unfold pid, positiveID, Z.lnot in *;
      destruct (Z.leb_spec 0 z), (Z.leb_spec 0 z'); lia.
Qed.
Print Assumptions readout_shares_edges.

(* A cell given by a closed vertex loop is read out as a closed loop of oriented edges:
   each edge starts where the previous one ends, and the last ends at the start. *)
Theorem readout_closes_loops : forall close ngen evs snap nodes edges cells i c v vs,
  ReadOut close ngen evs snap nodes edges cells -> nth_error cells i = Some c ->
  wanted i evs = loop_segs (v :: vs) ->
  exists segs, map (oriented_ends nodes edges) c = map Some segs /\ Path (snap v) segs (snap v).
Proof.
  intros close ngen evs snap ns es cs i c v vs R Hc W. exists (snapped pt_eqb snap (loop_segs (v :: vs))). split.
  - rewrite (ro_cells _ _ _ _ _ _ _ R i c Hc), W. auto.
  - apply path_snapped; [intros a b H; apply pt_eqb_iff; auto|apply loop_path].
Qed.
Print Assumptions readout_closes_loops.

(* two squares sharing a side, and a zero-length edge; generator 2 has no cell, 7 is a guard *)
Definition sq_left : list (pt * pt) := loop_segs [(0,0); (10,0); (10,10); (10,10); (0,10)]%Z.
Definition sq_right : list (pt * pt) := loop_segs [(10,0); (20,0); (20,10); (10,10)]%Z.
Definition readout_of {M} (r : res (quant M)) : res (list pt * list (nat * nat) * list (list Z)) :=
  do st <- r; Ok (qnodes st, qedges st, qcells st).
Example boost_example : readout_of (boost_read 3 [(0, sq_left); (7, sq_left); (1, sq_right)]) = Ok (
  [(0,0); (10,0); (10,10); (0,10); (20,0); (20,10)]%Z,
  [(0,1); (1,2); (2,3); (0,3); (1,4); (4,5); (2,5)],
  [[0;1;2;-4]; [4;5;-7;-2]; []]%Z).
Proof. vm_compute. reflexivity. Qed.
(* the second reading of cell 0 starts with a clear *)
Example clip_example : readout_of (clip_read 2 [(0, false, sq_left); (1, false, sq_right); (0, true, sq_left)]) = Ok (
  [(0,0); (10,0); (10,10); (0,10); (20,0); (20,10)]%Z,
  [(0,1); (1,2); (2,3); (0,3); (1,4); (4,5); (2,5)],
  [[0;1;2;-4]; [4;5;-7;-2]]%Z).
Proof. vm_compute. reflexivity. Qed.

(* ------------------------------------------------------------ C23 *)
(* What filling an empty mesh must give. *)
Record Filled (f : frame) (ns : list pt) (es : list (nat * nat)) (cs : list (list Z)) (m : mesh Q) : Prop := {
  fd_nodes : forall i p, nth_error ns i = Some p -> node_at 2 m i = dequantize f p;
  fd_nnodes : length (nodes m) = 2 * length ns;
  fd_faces : faces m = map (fun e => [fst e; snd e]) es;
  fd_cells : cells m = cs;
  fd_nfc : length (faceCells m) = length es;
  (* exactly the cells that use the face, with the sign of the use *)
  fd_fc : forall k l z, nth_error (faceCells m) k = Some l ->
     (In z l <-> exists i c z0, nth_error cs i = Some c /\ In z0 c /\ pid z0 = k /\ z = sign_cell z0 i);
  (* one entry per use *)
  fd_count : forall k l, nth_error (faceCells m) k = Some l -> length l = length (filter (fun z => pid z =? k) (concat cs)) }.

Lemma deq_node f ns i p : nth_error ns i = Some p -> firstn 2 (skipn (2 * i) (flat_map (dequantize f) ns)) = dequantize f p.
Proof.
  revert i. induction ns as [|q ns IH]; intros [|i] H; try discriminate.
  - injection H as <-. reflexivity.
  - replace (2 * S i) with (S (S (2 * i))) by lia. cbn [flat_map dequantize app skipn]. apply IH. auto.
Qed.

Theorem fill_correct : forall f ns es cs old,
  mesh_empty old = true ->
  (forall i c z, nth_error cs i = Some c -> In z c -> pid z < length es) ->
  exists m, fill f (length cs) ns es cs old = Ok m /\ Filled f ns es cs m.
Proof.
  intros f ns es cs old Em B.
  unfold mesh_empty in Em. rewrite !andb_true_iff in Em. destruct Em as [[[[[[E1 E2] E3] E4] E5] E6] E7].
  destruct (fill_ok f (length cs) ns es cs old (Nat.le_refl _) B) as (m & E & Hn & Hc & Hf & Lf & Hfc & _).
  { destruct (faces old); [|discriminate]. rewrite firstn_nil. constructor. }
  exists m. split; auto. destruct (faceCells old) eqn:X; [|discriminate]. rewrite resize_nil in Hfc.
  assert (FC : forall k l, nth_error (faceCells m) k = Some l -> l = flat_map (uses k cs) (seq 0 (length cs))).
  { intros k l H. assert (Lk := nth_error_lt _ _ _ H). rewrite Lf in Lk.
    rewrite (Hfc k []) in H by (apply nth_error_repeat; auto). injection H as <-. auto. }
  constructor; auto.
  - intros i p H. unfold node_at. rewrite Hn. apply deq_node. auto.
  - rewrite Hn. apply deq_length.
  - intros k l z H. rewrite (FC k l H), uses_in. split.
    + intros (i & c & z0 & _ & A & C & D & F). exists i, c, z0. auto.
    + intros (i & c & z0 & A & C & D & F). exists i, c, z0. split; [eapply nth_error_lt; eauto|auto].
  - intros k l H. rewrite (FC k l H). apply uses_length.
Qed.
Print Assumptions fill_correct.

Definition push_use (nf i : nat) (fcs : list (list Z)) (k : Z) : res (list (list Z)) :=
  do _ <- assert (positiveID k <? Z.of_nat nf)%Z;
  do l <- get fcs (pid k);
  set fcs (pid k) (l ++ [if (k <? 0)%Z then Z.lnot (Z.of_nat i) else Z.of_nat i]).
(* an edge id outside the edge list is refused *)
Theorem fill_refuses : forall f ns es cs i c z,
  nth_error cs i = Some c -> In z c -> length es <= pid z ->
  fill f (length cs) ns es cs mesh_new = Abort.
Proof.
  intros f ns es cs i c z Hc Iz L. unfold fill. rewrite fill_faces; [|apply resize_length|].
  2:{ cbn. rewrite resize_nil. apply Forall_forall. intros x I. apply repeat_spec in I. subst; auto. }
  cbn [bind]. set (nf := length es) in *. cbn [mesh_new faceCells]. rewrite resize_nil.
  assert (Row : forall c i fcs, length fcs = nf ->
     (exists fcs', mfold (push_use nf i) c fcs = Ok fcs' /\ length fcs' = nf /\ forall z, In z c -> pid z < nf) \/
     mfold (push_use nf i) c fcs = Abort).
  { clear. induction c as [|z c IH]; intros i fcs Lf; cbn [mfold]; [left; exists fcs; repeat split; auto; intros ? []|].
    unfold push_use at 1 3. destruct (Z.ltb_spec (positiveID z) (Z.of_nat nf)) as [H|H]; cbn [assert bind]; [|auto].
    apply pid_lt_pos in H. destruct (get_lt fcs (pid z)) as [l G]; [lia|]. rewrite G. cbn [bind].
    rewrite set_lt by lia. cbn [bind].
    destruct (IH i (upd fcs (pid z) (l ++ [if (z <? 0)%Z then Z.lnot (Z.of_nat i) else Z.of_nat i]))) as [(f' & E & L' & B)|E];
      [rewrite upd_length; auto|left; exists f'; repeat split; auto; intros y [<-|I]; auto|right; auto]. }
  assert (G : forall l fcs, length fcs = nf -> (forall j, In j l -> j < length cs) -> In i l ->
     mfold (fun fcs i => do c <- get cs i; mfold (push_use nf i) c fcs) l fcs = Abort).
  { induction l as [|j l IH]; intros fcs Lf B I; [destruct I|]. cbn [mfold].
    destruct (get_lt cs j) as [d Gd]; [apply B; left; auto|]. rewrite Gd. cbn [bind].
    destruct (Row d j fcs Lf) as [(f' & E & L' & Bd)|E]; rewrite E; cbn [bind]; [|auto].
    destruct (Nat.eq_dec j i) as [->|N].
    - apply (proj1 (get_ok _ _ _)) in Gd. rewrite Hc in Gd. injection Gd as <-. specialize (Bd z Iz). lia.
    - apply IH; auto; [intros; apply B; right; auto|]. destruct I; [congruence|auto]. }
  unfold push_use in G. rewrite G; auto.
  - apply repeat_length.
  - intros j I. apply in_seq in I. lia.
  - apply in_seq. apply nth_error_lt in Hc. lia.
Qed.
Print Assumptions fill_refuses.

(* Filling a mesh that already has faceCells keeps the stale entries, so the property fails
   there: the tessellate() entry points only pass empty meshes. *)
Definition fill_any_mesh : Prop := forall f ns es cs old m,
  (forall i c z, nth_error cs i = Some c -> In z c -> pid z < length es) ->
  fill f (length cs) ns es cs old = Ok m -> Filled f ns es cs m.
Definition unit_frame : frame := mkFrame 0 10 0 0 10.
Theorem fill_reused_refuted : ~ fill_any_mesh.
Proof.
  intros H.
  set (ns := [(0,0); (10,0); (0,10)]%Z). set (es := [(0,1); (1,2); (0,2)]). set (cs := [[0; 1; -3]]%Z).
  destruct (fill unit_frame 1 ns es cs mesh_new) as [m| | |] eqn:E; [|vm_compute in E; discriminate..].
  destruct (fill unit_frame 1 ns es cs m) as [m2| | |] eqn:E2; [|vm_compute in E; inversion E; subst; vm_compute in E2; discriminate..].
  pose proof (H unit_frame ns es cs m m2) as F.
  assert (B : forall i c z, nth_error cs i = Some c -> In z c -> pid z < length es).
  { intros [|[|i]] c z; cbn; try discriminate. intros X; injection X as <-. intros [<-|[<-|[<-|[]]]]; vm_compute; lia. }
  specialize (F B E2). pose proof (fd_count _ _ _ _ _ F 0) as C.
  vm_compute in E. inversion E; subst m. vm_compute in E2. inversion E2; subst m2.
  specialize (C _ eq_refl). vm_compute in C. discriminate.
Qed.
Print Assumptions fill_reused_refuted.

(* From diagram to mesh: if no directed segment of positive length is walked twice, the mesh
   is well formed (cells and faceCells agree, ids in range, every face has one or two cells)
   and the two cells of a face walk it in opposite directions. *)
Theorem boost_mesh_wellformed : forall f ngen cs,
  NoDup (filter (fun s => negb (pt_eqb (fst s) (snd s))) (walked (real_cells ngen cs))) ->
  exists st m, boost_read ngen cs = Ok st /\ fill f ngen (qnodes st) (qedges st) (qcells st) mesh_new = Ok m /\
    WellFormed 2 m /\ Filled f (qnodes st) (qedges st) (qcells st) m /\
    forall k z z', nth_error (faceCells m) k = Some [z; z'] -> ((0 <= z)%Z <-> (z' < 0)%Z).
Proof.
  intros f ngen cs N. destruct (boost_readout_correct ngen cs) as (st & E & R).
  assert (B := real_cells_in ngen cs).
  assert (ND : NoDup (concat (qcells st))) by (eapply cells_nodup; eauto).
  assert (Bc : forall i c z, nth_error (qcells st) i = Some c -> In z c -> pid z < length (qedges st)).
  { intros i c z Hc Iz. eapply ids_in_range; eauto. }
  destruct (fill_correct f (qnodes st) (qedges st) (qcells st) mesh_new eq_refl Bc) as (m & Em & F).
  assert (Ln : length (qcells st) = ngen) by apply (ro_ncells _ _ _ _ _ _ _ R).
  exists st, m. split; auto. split; [rewrite <- Ln; auto|]. split; [|split; auto].
  - apply fill_wf with (f := f) (ns := qnodes st) (es := qedges st) (cs := qcells st); auto.
    + intros a b I. destruct (ro_order _ _ _ _ _ _ _ R a b I). lia.
    + intros e Le. destruct (nth_error_ex _ _ Le) as [[a b] He].
      destruct (edge_walked _ _ _ _ _ _ _ _ B R He) as (c & z & Ic & Iz & Ez).
      assert (0 < occ e (concat (qcells st))). { apply occ_pos. exists z. split; auto. apply in_concat. eauto. }
      pose proof (nodup_pid (concat (qcells st)) e ND). lia.
  - intros k z z' H.
    destruct (fill_ok f (length (qcells st)) (qnodes st) (qedges st) (qcells st) mesh_new (Nat.le_refl _) Bc) as (m' & E' & _ & _ & _ & Lf & Hfc & _).
    { cbn. rewrite firstn_nil. constructor. }
    rewrite Em in E'. injection E' as <-. cbn [mesh_new faceCells] in Hfc. rewrite resize_nil in Hfc.
    assert (Lk := nth_error_lt _ _ _ H). rewrite Lf in Lk. rewrite (Hfc k []) in H by (apply nth_error_repeat; auto).
    injection H as H. clear Hfc.
    (* the signs listed for face k are those of the uses of k, which are distinct ids *)
    assert (S : exists zs, NoDup zs /\ (forall y, In y zs -> pid y = k) /\ Forall2 (fun y w => (0 <= y)%Z <-> (0 <= w)%Z) zs [z; z']).
    { exists (filter (fun y => pid y =? k) (concat (qcells st))). split; [apply NoDup_filter; auto|]. split.
      - intros y I. apply filter_In in I as [_ I]. apply Nat.eqb_eq; auto.
      - rewrite <- H. rewrite concat_flat_map, filter_flat_map.
        rewrite <- (flat_map_seq (fun c => filter (fun z => pid z =? k) c)
           (fun i => match nth_error (qcells st) i with Some c => filter (fun z => pid z =? k) c | None => [] end) (qcells st))
          by (intros i c X; rewrite X; auto).
        clear. induction (seq 0 (length (qcells st))) as [|i l IH]; cbn [flat_map]; [constructor|].
        apply Forall2_app; auto. unfold uses. destruct (nth_error (qcells st) i) as [c|]; [|constructor].
        induction (filter (fun z => pid z =? k) c) as [|y t IHt]; cbn; constructor; auto. rewrite sign_cell_nonneg. tauto. }
    destruct S as (zs & Nz & Pz & FZ). inversion FZ as [|y w ys ws A1 F1]; subst. inversion F1 as [|y' w' ys' ws' A2 F2]; subst.
    inversion F2; subst. pose proof (Pz y (or_introl eq_refl)) as P1. pose proof (Pz y' (or_intror (or_introl eq_refl))) as P2.
    assert (y <> y'). { intros ->. apply NoDup_cons_iff in Nz as [Nz _]. apply Nz. left; auto. }
    unfold pid, positiveID, Z.lnot in P1, P2.
    destruct (Z.leb_spec 0 y), (Z.leb_spec 0 y'); lia.
Qed.
Print Assumptions boost_mesh_wellformed.

Example boost_mesh_hyp :
  NoDup (filter (fun s => negb (pt_eqb (fst s) (snd s))) (walked (real_cells 3 [(0, sq_left); (7, sq_left); (1, sq_right)]))).
Proof.
  vm_compute. repeat constructor; cbn; intros H;
    repeat match goal with H : _ \/ _ |- _ => destruct H as [H|H]; [inversion H|] end; auto.
Qed.
Example fill_example :
  (do m <- fill unit_frame 2 [(0,0); (10,0); (10,10); (0,10); (20,0); (20,10)]%Z
    [(0,1); (1,2); (2,3); (0,3); (1,4); (4,5); (2,5)] [[0;1;2;-4]; [4;5;-7;-2]]%Z mesh_new; Ok (faceCells m))
  = Ok [[0]; [0; -2]; [0]; [-1]; [1]; [1]; [-2]]%Z.
Proof. vm_compute. reflexivity. Qed.

(* ------------------------------------------------------------ C24 *)
(* keepE and keepN list the surviving edges and nodes by their old ids, in order *)
Record Cleaned {P} (ns : list P) (es : list (nat * nat)) (cs : list (list Z))
    (ns' : list P) (es' : list (nat * nat)) (cs' : list (list Z)) (keepE keepN : list nat) : Prop := {
  cu_sortE : StronglySorted lt keepE;
  cu_sortN : StronglySorted lt keepN;
  (* exactly the used edges and the nodes of used edges survive *)
  cu_E : forall e, In e keepE <-> e < length es /\ exists c z, In c cs /\ In z c /\ pid z = e;
  cu_N : forall n, In n keepN <-> exists e a b, In e keepE /\ nth_error es e = Some (a, b) /\ (n = a \/ n = b);
  cu_nns : length ns' = length keepN;
  cu_ns : forall k n, nth_error keepN k = Some n -> nth_error ns' k = nth_error ns n;
  cu_nes : length es' = length keepE;
  cu_es : forall k e, nth_error keepE k = Some e -> exists a b a' b',
     nth_error es e = Some (a, b) /\ nth_error es' k = Some (a', b') /\
     nth_error keepN a' = Some a /\ nth_error keepN b' = Some b;
  (* every cell walks the same oriented edges between the same points, in the same order *)
  cu_cs : Forall2 (fun c c' => Forall2 (fun z z' => ((0 <= z)%Z <-> (0 <= z')%Z) /\ nth_error keepE (pid z') = Some (pid z)) c c' /\
     map (oriented_ends ns' es') c' = map (oriented_ends ns es) c) cs cs' }.

Theorem cleanup_correct : forall P (ns : list P) es cs,
  (forall c z, In c cs -> In z c -> pid z < length es) ->
  (forall a b, In (a, b) es -> a < length ns /\ b < length ns) ->
  (forall e, e < length es -> length (filter (fun z => pid z =? e) (concat cs)) <= 2) ->
  exists ns' es' cs' keepE keepN,
    clean_up ns es cs = Ok (ns', es', cs') /\ Cleaned ns es cs ns' es' cs' keepE keepN.
Proof.
  intros P ns es cs Bc Be Bo.
  destruct (clean_up_ok ns es cs Bc Be Bo) as (ns' & es' & cs' & kE & kN & E & S1 & S2 & HE & HN & L1 & H1 & L2 & H2 & H3).
  exists ns', es', cs', kE, kN. split; auto. constructor; auto.
  assert (X : forall z z', ((0 <= z)%Z <-> (0 <= z')%Z) -> nth_error kE (pid z') = Some (pid z) -> oriented_ends ns' es' z' = oriented_ends ns es z).
  { intros z z' Sg Hk. destruct (H2 _ _ Hk) as (a & b & a' & b' & Ha & Ha' & Ka & Kb). unfold oriented_ends.
    rewrite Ha, Ha'. assert (Q : (0 <=? z)%Z = (0 <=? z')%Z) by (destruct (Z.leb_spec 0 z), (Z.leb_spec 0 z'); auto; lia).
    rewrite <- Q. pose proof (H1 _ _ Ka) as Na. pose proof (H1 _ _ Kb) as Nb.
    destruct (0 <=? z)%Z; rewrite Na, Nb; auto. }
  clear - H3 X. induction H3 as [|c c' cs cs' H H3 IH]; constructor; auto. split; auto.
  clear - H X. induction H as [|z z' c c' [S K] H IH]; cbn; auto. f_equal; auto.
Qed.
Print Assumptions cleanup_correct.

(* an edge used more than twice is refused *)
Theorem cleanup_refuses : forall P (ns : list P) es cs e,
  (forall c z, In c cs -> In z c -> pid z < length es) ->
  e < length es -> 2 < length (filter (fun z => pid z =? e) (concat cs)) -> clean_up ns es cs = Abort.
Proof. intros. eapply clean_up_refuses; eauto. Qed.
Print Assumptions cleanup_refuses.

Example cleanup_example :
  clean_up [10; 11; 12; 13; 14] [(0,1); (1,2); (2,3); (0,2); (3,4)] [[0; 1; -4]; []; [-2]]%Z
  = Ok ([10; 11; 12], [(0,1); (1,2); (0,2)], [[0; 1; -3]; []; [-2]]%Z).
Proof. reflexivity. Qed.
