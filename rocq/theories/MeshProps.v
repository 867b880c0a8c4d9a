(* Theorems about deleteCells (C13-C16), findBoundaryElements (C19), incidence queries
   (C20), clear/empty (C21). *)
From Verif Require Import Base BaseFacts StdAlg Rank SerializeModel MeshModel MeshSpec MeshCheck
  MeshProofs MeshProofs2.
From Coq Require Import Sorted.

(* a concrete mesh: two unit squares sharing one edge, second one also shared with a
   neighbor domain *)
Definition two_squares : mesh Z := mkMesh
  [0;0; 1;0; 2;0; 0;1; 1;1; 2;1]%Z
  [[0; 1; 2; 3]; [4; 5; 6; -2]]%Z
  [[0;1]; [1;4]; [4;3]; [3;0]; [1;2]; [2;5]; [5;4]]
  [0;1;2;3;4;5] [0;2;3;4;5;6]
  [[0]; [0;-2]; [0]; [0]; [1]; [1]; [1]]%Z
  plc_new [1] [[1;4;5]] [[1;6]].
Example two_squares_wf : WellFormed 2 two_squares.
Proof. apply wfb_sound. reflexivity. Qed.

(* ---- C13, C15: the surviving part is intact ---- *)
Theorem deleteCells_keeps_mesh : forall V D (m : mesh V) mask,
  0 < D -> WellFormed D m -> length mask = length (cells m) ->
  (forall k, In k mask -> k = 0 \/ k = 1) -> (cells m = [] \/ In 1 mask) ->
  exists m' keepC keepF keepN,
    deleteCells D m mask = Ok m' /\ PartOf D m m' keepC keepF keepN /\
    (forall i, In i keepC <-> nth_error mask i = Some 1).
Proof.
  intros V D m mask DP WF L B Ex.
  destruct (deleteCells_ok D m mask DP WF L B Ex) as (m' & kF & kN & E & P).
  exists m', (keepC m mask), kF, kN. split; auto. split; auto.
  intros i. unfold keepC. rewrite kept_in. unfold on. split.
  - intros [Li H]. apply Nat.eqb_eq in H. rewrite <- H. apply nth_error_nth'. lia.
  - intros H. split; [apply nth_error_lt in H; lia|]. rewrite (nth_error_nth _ _ 0 H). reflexivity.
Qed.
Print Assumptions deleteCells_keeps_mesh.

(* masks that the contract refuses *)
Theorem deleteCells_refuses : forall V D (m : mesh V) mask,
  length mask <> length (cells m) \/ (cells m <> [] /\ ~ In 1 mask) -> deleteCells D m mask = Abort.
Proof.
  intros V D m mask H. unfold deleteCells.
  destruct (Nat.eqb_spec (length mask) (length (cells m))) as [E|E]; [|reflexivity].
  cbn [assert bind]. destruct H as [H|[H1 H2]]; [contradiction|].
  assert ((length (cells m) =? 0) = false) as ->.
  { apply Nat.eqb_neq. destruct (cells m); [congruence|discriminate]. }
  assert ((fold_right Nat.max 0 mask =? 1) = false) as ->; [|reflexivity].
  apply Nat.eqb_neq. intros M. apply H2. clear E H1 H2.
  induction mask as [|a t IH]; cbn in M; [lia|].
  destruct (Nat.max_spec a (fold_right Nat.max 0 t)) as [[? X]|[? X]]; rewrite X in M.
  - right; auto.
  - left; auto.
Qed.
Print Assumptions deleteCells_refuses.

Example deleteCells_example :
  deleteCells 2 two_squares [0; 1] = Ok (mkMesh
    [1;0; 2;0; 1;1; 2;1]%Z [[1; 2; 3; -1]]%Z [[0;2]; [0;1]; [1;3]; [3;2]]
    [0;1;2;3;4;5] [0;2;3;4;5;6] [[-1]; [0]; [0]; [0]]%Z plc_new [1] [[0;2;3]] [[0;3]]).
Proof. reflexivity. Qed.

(* ---- C14: result well formed, no orphans ---- *)
Theorem deleteCells_wellformed : forall V D (m m' : mesh V) mask,
  0 < D -> WellFormed D m -> (forall k, In k mask -> k = 0 \/ k = 1) ->
  deleteCells D m mask = Ok m' ->
  WellFormed D m' /\
  (forall f, f < length (faces m') ->
     exists i c z, nth_error (cells m') i = Some c /\ In z c /\ pid z = f) /\
  (forall n, D * n + D <= length (nodes m') ->
     exists f ns, nth_error (faces m') f = Some ns /\ In n ns).
Proof.
  intros V D m m' mask DP WF B E.
  destruct (Nat.eq_dec (length mask) (length (cells m))) as [L|L].
  2:{ rewrite deleteCells_refuses in E by auto. discriminate. }
  assert (Ex : cells m = [] \/ In 1 mask).
  { destruct (in_dec Nat.eq_dec 1 mask); auto. destruct (cells m) eqn:C; auto.
    rewrite deleteCells_refuses in E; [discriminate|]. right; split; [congruence|auto]. }
  destruct (deleteCells_keeps_mesh V D m mask DP WF L B Ex) as (m2 & kC & kF & kN & E2 & P & _).
  rewrite E in E2; inversion E2; subst m2. split.
  - exact (part_wf D m m' kC kF kN DP WF P).
  - exact (part_no_orphans D m m' kC kF kN DP P).
Qed.
Print Assumptions deleteCells_wellformed.

(* deleting twice: every mesh reachable by deletions stays well formed *)
Fixpoint deleteMany {V} (D : nat) (m : mesh V) (masks : list (list nat)) : res (mesh V) :=
  match masks with [] => Ok m | k :: t => do m1 <- deleteCells D m k; deleteMany D m1 t end.
Theorem deleteCells_history : forall V D masks (m m' : mesh V),
  0 < D -> WellFormed D m -> (forall mask k, In mask masks -> In k mask -> k = 0 \/ k = 1) ->
  deleteMany D m masks = Ok m' -> WellFormed D m'.
Proof.
  intros V D masks; induction masks as [|k t IH]; intros m m' DP WF B E; cbn [deleteMany] in E.
  - inversion E; subst; auto.
  - apply bind_ok in E as (m1 & E1 & E). eapply IH with (m:=m1); eauto.
    + eapply deleteCells_wellformed; eauto. intros; eapply B; eauto; left; auto.
    + intros; eapply B; eauto; right; auto.
Qed.
Print Assumptions deleteCells_history.

(* ---- C15: two domains whose lists match and which keep the same shared elements ---- *)
Theorem deleteCells_shared_match : forall V D (m1 m1' m2 m2' : mesh V) kC1 kF1 kN1 kC2 kF2 kN2
    d1 d2 l1 l2 l1' l2' (same : nat -> nat -> Prop),
  PartOf D m1 m1' kC1 kF1 kN1 -> PartOf D m2 m2' kC2 kF2 kN2 ->
  nth_error (sharedNodes m1) d1 = Some l1 -> nth_error (sharedNodes m2) d2 = Some l2 ->
  nth_error (sharedNodes m1') d1 = Some l1' -> nth_error (sharedNodes m2') d2 = Some l2' ->
  (* the old lists name the same nodes in the same order, and a shared node survives in
     one domain exactly when its partner survives in the other *)
  Forall2 (fun a b => same a b /\ (In a kN1 <-> In b kN2)) l1 l2 ->
  Forall2 (fun a' b' => exists a b, nth_error kN1 a' = Some a /\ nth_error kN2 b' = Some b /\ same a b) l1' l2'.
Proof.
  intros V D m1 m1' m2 m2' kC1 kF1 kN1 kC2 kF2 kN2 d1 d2 l1 l2 l1' l2' same P1 P2 H1 H2 H1' H2' F.
  destruct (po_sn _ _ _ _ _ _ P1 d1 l1 H1) as (x & Hx & S1). rewrite H1' in Hx; inversion Hx; subst x.
  destruct (po_sn _ _ _ _ _ _ P2 d2 l2 H2) as (y & Hy & S2). rewrite H2' in Hy; inversion Hy; subst y.
  exact (selected_match _ _ _ _ same l1 l2 l1' l2' F S1 S2).
Qed.
Print Assumptions deleteCells_shared_match.
Theorem deleteCells_shared_faces_match : forall V D (m1 m1' m2 m2' : mesh V) kC1 kF1 kN1 kC2 kF2 kN2
    d1 d2 l1 l2 l1' l2' (same : nat -> nat -> Prop),
  PartOf D m1 m1' kC1 kF1 kN1 -> PartOf D m2 m2' kC2 kF2 kN2 ->
  nth_error (sharedFaces m1) d1 = Some l1 -> nth_error (sharedFaces m2) d2 = Some l2 ->
  nth_error (sharedFaces m1') d1 = Some l1' -> nth_error (sharedFaces m2') d2 = Some l2' ->
  Forall2 (fun a b => same a b /\ (In a kF1 <-> In b kF2)) l1 l2 ->
  Forall2 (fun a' b' => exists a b, nth_error kF1 a' = Some a /\ nth_error kF2 b' = Some b /\ same a b) l1' l2'.
Proof.
  intros V D m1 m1' m2 m2' kC1 kF1 kN1 kC2 kF2 kN2 d1 d2 l1 l2 l1' l2' same P1 P2 H1 H2 H1' H2' F.
  destruct (po_sf _ _ _ _ _ _ P1 d1 l1 H1) as (x & Hx & S1). rewrite H1' in Hx; inversion Hx; subst x.
  destruct (po_sf _ _ _ _ _ _ P2 d2 l2 H2) as (y & Hy & S2). rewrite H2' in Hy; inversion Hy; subst y.
  exact (selected_match _ _ _ _ same l1 l2 l1' l2' F S1 S2).
Qed.
Print Assumptions deleteCells_shared_faces_match.
(* the mesh against itself meets the hypothesis *)
Example shared_match_hyp : forall kN, Forall2 (fun a b => a = b /\ (In a kN <-> In b kN)) [1;4;5] [1;4;5].
Proof. intros; repeat constructor; auto. Qed.

(* ---- C16: boundary lists ---- *)
(* the boundary lists describe the boundary: faces with one cell, and their nodes *)
Definition BoundaryOK {V} (m : mesh V) : Prop :=
  (forall f, In f (boundaryFaces m) <-> bface m f) /\
  (forall n, In n (boundaryNodes m) <-> bnode m n).
Definition boundary_preserved : Prop := forall V D (m m' : mesh V) mask,
  0 < D -> WellFormed D m -> BoundaryOK m -> (forall k, In k mask -> k = 0 \/ k = 1) ->
  deleteCells D m mask = Ok m' -> BoundaryOK m'.
Lemma two_squares_boundary : BoundaryOK two_squares.
Proof.
  split.
  - intros f; split.
    + cbn. intros [<-|[<-|[<-|[<-|[<-|[<-|[]]]]]]]; eexists; split; reflexivity.
    + intros (fc & Hfc & L). do 7 (destruct f as [|f]; [cbn in *; inversion Hfc; subst; cbn in *; auto 10; lia|]).
      destruct f; discriminate.
  - intros n; split.
    + cbn. intros [<-|[<-|[<-|[<-|[<-|[<-|[]]]]]]];
      [exists 0|exists 0|exists 4|exists 2|exists 2|exists 5]; eexists;
        (split; [eexists; split; reflexivity|split; [reflexivity|cbn; auto]]).
    + intros (f & ns & _ & Hf & I). do 7 (destruct f as [|f]; [cbn in *; inversion Hf; subst; cbn in I; lia|]).
      destruct f; discriminate.
Qed.
Theorem deleteCells_boundary_refuted : ~ boundary_preserved.
Proof.
  intros H.
  destruct (deleteCells 2 two_squares [0;1]) as [m'| | |] eqn:E; [|discriminate..].
  destruct (H Z 2 two_squares m' [0;1]) as [HF _]; auto.
  - apply two_squares_wf.
  - apply two_squares_boundary.
  - cbn; intros; lia.
  - assert (B : bface m' 6).
    { apply HF. inversion E; subst. cbn. auto 10. }
    destruct B as (fc & Hfc & _). inversion E; subst. discriminate Hfc.
Qed.
Print Assumptions deleteCells_boundary_refuted.
(* the lists are handed over unchanged, so they remain right only if no face or node is
   renumbered and the boundary does not change *)
Theorem deleteCells_boundary_partial : forall V D (m m' : mesh V) mask,
  0 < D -> WellFormed D m -> length mask = length (cells m) -> (forall k, In k mask -> k = 1) ->
  (cells m = [] \/ mask <> []) ->
  (forall f, f < length (faces m) -> exists i c z, nth_error (cells m) i = Some c /\ In z c /\ pid z = f) ->
  BoundaryOK m -> deleteCells D m mask = Ok m' ->
  forall f, In f (boundaryFaces m') <-> bface m' f.
Proof.
  intros V D m m' mask DP WF L B Ex Cov [BF BN] E f.
  assert (Ex1 : cells m = [] \/ In 1 mask).
  { destruct Ex as [|Ne]; auto. right. destruct mask as [|k t]; [congruence|].
    left. apply B; left; auto. }
  destruct (deleteCells_keeps_mesh V D m mask DP WF L (fun k h => or_intror (B k h)) Ex1)
    as (m2 & kC & kF & kN & E2 & P & HC).
  rewrite E in E2; inversion E2; subst m2.
  assert (AllC : forall i, i < length (cells m) -> In i kC).
  { intros i Li. apply HC. destruct (nth_error_ex mask i) as [k Hk]; [lia|].
    rewrite Hk. f_equal. apply B. eapply nth_error_In; eauto. }
  assert (AllF : kF = seq 0 (length (faces m))).
  { apply sorted_lt_ext; [apply (po_sortedF _ _ _ _ _ _ P)| |].
    - clear. generalize 0. induction (length (faces m)) as [|n IH]; intros s; constructor; auto.
      apply Forall_forall. intros x I. apply in_seq in I. lia.
    - intros x. rewrite in_seq. rewrite (po_F _ _ _ _ _ _ P). split.
      + intros (i & c & z & _ & Hc & Iz & <-). split; [lia|]. eapply (wf_cells _ _ WF); eauto.
      + intros [_ Lx]. destruct (Cov x Lx) as (i & c & z & Hc & Iz & Pz). exists i, c, z.
        repeat split; auto. apply AllC. apply nth_error_lt in Hc; auto. }
  assert (Nth : forall a, a < length (faces m) -> nth_error kF a = Some a).
  { intros a La. rewrite AllF, (nth_error_nth' _ 0) by (rewrite seq_length; auto).
    rewrite seq_nth by auto. reflexivity. }
  rewrite (po_bf _ _ _ _ _ _ P), BF.
  assert (SelLen : forall fc fc', (forall z, In z fc -> In (pid z) kC) ->
     selected (fun z => In (pid z) kC) (stands kC) fc fc' -> length fc' = length fc).
  { intros fc fc' A S. induction S; cbn; auto.
    - rewrite IHS; auto. intros; apply A; right; auto.
    - exfalso; apply H, A; left; auto. }
  assert (FcIn : forall g fc z, nth_error (faceCells m) g = Some fc -> In z fc -> In (pid z) kC).
  { intros g fc z Hg I. destruct (wf_face_cell _ _ WF _ _ _ Hg I) as (c & Hc & _).
    apply AllC. apply nth_error_lt in Hc; auto. }
  split.
  - intros (fc & Hfc & L1).
    assert (Lf : f < length (faces m)) by (rewrite <- (wf_fcs _ _ WF); eapply nth_error_lt; eauto).
    destruct (po_fc _ _ _ _ _ _ P f f (Nth f Lf)) as (fc0 & fc' & H0 & H1 & S).
    rewrite Hfc in H0; inversion H0; subst fc0. exists fc'; split; auto.
    rewrite (SelLen fc fc'); auto. intros; eapply FcIn; eauto.
  - intros (fc' & Hfc' & L1).
    assert (Lf : f < length (faces m)).
    { apply nth_error_lt in Hfc'. rewrite (po_nfc _ _ _ _ _ _ P), AllF, seq_length in Hfc'; auto. }
    destruct (po_fc _ _ _ _ _ _ P f f (Nth f Lf)) as (fc & fc0 & H0 & H1 & S).
    rewrite Hfc' in H1; inversion H1; subst fc0. exists fc; split; auto.
    rewrite <- (SelLen fc fc'); auto. intros; eapply FcIn; eauto.
Qed.
Print Assumptions deleteCells_boundary_partial.

(* ---- C19 ---- *)
Theorem findBoundaryElements_exact : forall V D (m : mesh V),
  2 <= D -> WellFormed D m -> (exists n, bnode m n) ->
  exists bf bn, findBoundaryElements m = Ok (bf, bn) /\
    StronglySorted lt bf /\
    (forall f, In f bf <-> exists fc, nth_error (faceCells m) f = Some fc /\ length fc = 1) /\
    StronglySorted lt bn /\
    (forall n, In n bn <-> exists f ns, In f bf /\ nth_error (faces m) f = Some ns /\ In n ns).
Proof.
  intros V D m D2 WF Ex. assert (DP : 0 < D) by lia.
  destruct (boundary_ok D m DP WF D2 Ex) as (bf & bn & E & S & H1 & S2 & H2).
  exists bf, bn. split; auto. split; auto. split; [exact H1|]. split; auto.
  intros n. rewrite H2. split; intros (f & ns & A & B & C); exists f, ns; repeat split; auto; apply H1; auto.
Qed.
Print Assumptions findBoundaryElements_exact.
Example two_squares_find : findBoundaryElements two_squares = Ok ([0;2;3;4;5;6], [0;1;2;3;4;5]).
Proof. reflexivity. Qed.

(* a mesh without boundary (closed surface) makes the routine abort *)
Theorem findBoundaryElements_closed_aborts : forall V D (m : mesh V),
  2 <= D -> WellFormed D m -> (forall f fc, nth_error (faceCells m) f = Some fc -> length fc = 2) ->
  findBoundaryElements m = Abort.
Proof.
  intros V D m D2 WF H. apply (boundary_closed D m ltac:(lia) WF).
  intros f (fc & Hfc & L). apply H in Hfc. lia.
Qed.
Print Assumptions findBoundaryElements_closed_aborts.
(* a closed mesh: two cells sharing all four faces *)
Definition pillow : mesh Z := mkMesh [0;0; 1;0; 1;1; 0;1]%Z [[0;1;2;3]; [-1;-2;-3;-4]]%Z
  [[0;1]; [1;2]; [2;3]; [3;0]] [] [] [[0;-2]; [0;-2]; [0;-2]; [0;-2]]%Z plc_new [] [] [].
Example pillow_wf : WellFormed 2 pillow.
Proof. apply wfb_sound. reflexivity. Qed.

(* ---- C20 ---- *)
(* cell i touches node n: one of its faces uses n *)
Definition cell_touches_node {V} (m : mesh V) (i n : nat) : Prop :=
  exists c z ns, nth_error (cells m) i = Some c /\ In z c /\
                 nth_error (faces m) (pid z) = Some ns /\ In n ns.

Theorem computeNodeCells_exact : forall V D (m : mesh V), 0 < D -> WellFormed D m ->
  exists r, computeNodeCells D m = Ok r /\ length (nodes m) = D * length r /\
    forall n s, nth_error r n = Some s ->
      StronglySorted lt s /\ forall i, In i s <-> cell_touches_node m i n.
Proof.
  intros V D m DP WF. destruct (nodeCells_ok D m DP WF) as (r & E & L & H).
  exists r. split; auto. split; [rewrite L; apply numNodes_eq; auto|exact H].
Qed.
Print Assumptions computeNodeCells_exact.
Theorem computeCellToNodes_exact : forall V D (m : mesh V), 0 < D -> WellFormed D m ->
  exists r, computeCellToNodes m = Ok r /\ length r = length (cells m) /\
    forall i s, nth_error r i = Some s ->
      StronglySorted lt s /\ forall n, In n s <-> cell_touches_node m i n.
Proof. intros V D m DP WF. exact (cellNodes_ok D m DP WF). Qed.
Print Assumptions computeCellToNodes_exact.
(* the two tables are transposes *)
Theorem node_cell_tables_transpose : forall V D (m : mesh V) r r' i n s s',
  0 < D -> WellFormed D m ->
  computeNodeCells D m = Ok r -> computeCellToNodes m = Ok r' ->
  nth_error r n = Some s -> nth_error r' i = Some s' -> (In i s <-> In n s').
Proof.
  intros V D m r r' i n s s' DP WF E E' Hs Hs'.
  destruct (computeNodeCells_exact V D m DP WF) as (q & Eq & _ & H). rewrite E in Eq; inversion Eq; subst q.
  destruct (computeCellToNodes_exact V D m DP WF) as (q & Eq' & _ & H'). rewrite E' in Eq'; inversion Eq'; subst q.
  rewrite (proj2 (H n s Hs)), (proj2 (H' i s' Hs')). reflexivity.
Qed.
Print Assumptions node_cell_tables_transpose.
Example two_squares_nodeCells : computeNodeCells 2 two_squares = Ok [[0]; [0;1]; [1]; [0]; [0;1]; [1]] /\
  computeCellToNodes two_squares = Ok [[0;1;3;4]; [1;2;4;5]].
Proof. split; reflexivity. Qed.

(* ---- C21 ---- *)
Theorem clear_is_fresh : forall V (m : mesh V), mesh_clear m = mesh_new.
Proof. reflexivity. Qed.
Print Assumptions clear_is_fresh.
Theorem clear_empty : forall V (m : mesh V),
  mesh_empty (mesh_clear m) = true /\ mesh_clear (mesh_clear m) = mesh_clear m.
Proof. split; reflexivity. Qed.
Print Assumptions clear_empty.
Theorem empty_exact : forall V (m : mesh V), mesh_empty m = true <->
  nodes m = [] /\ cells m = [] /\ faces m = [] /\ boundaryNodes m = [] /\ boundaryFaces m = [] /\
  faceCells m = [] /\ facets (convexHull m) = [] /\ holes (convexHull m) = [].
Proof.
  assert (N : forall A (l : list A), isnil l = true <-> l = []) by (intros A []; cbn; split; congruence).
  intros V m. unfold mesh_empty, plc_empty. rewrite !andb_true_iff, !N. tauto.
Qed.
Print Assumptions empty_exact.
(* empty() does not look at the communication data *)
Definition empty_means_fresh : Prop := forall V (m : mesh V), mesh_empty m = true -> m = mesh_new.
Theorem empty_ignores_communication_refuted : ~ empty_means_fresh.
Proof.
  intros H. specialize (H Z (mkMesh [] [] [] [] [] [] plc_new [1] [[0]] [[0]]) eq_refl). discriminate.
Qed.
Print Assumptions empty_ignores_communication_refuted.
