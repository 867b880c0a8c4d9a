(* Theorems about MeshEditor::deleteCells (C17) and MeshEditor::cleanEdges (C18). *)
From Verif Require Import Base BaseFacts StdAlg Rank SerializeModel MeshModel MeshSpec MeshCheck MeshProofs
  MeshProofs2 MeshProps MeshEditorModel MeshEditorSpec MeshEditorProofs
  MeshEditorProofs3 MeshEditorProofs4 MeshEditorProofs6.
From Coq Require Import Lia Sorted QArith.
Local Open Scope nat_scope.

(* ------------------------------------------------------------ C17 *)
(* The property: whatever cells are listed, as long as one survives, the call leaves exactly the
   unlisted cells, with the faces and nodes they use, renumbered in order. *)
Definition editor_deletes_listed_cells : Prop :=
  forall V D (m : mesh V) l, 0 < D -> WellFormed D m -> faces m <> [] -> nodes m <> [] -> l <> [] ->
    (forall i, In i l -> i < length (cells m)) -> (exists i, i < length (cells m) /\ ~ In i l) ->
    exists m' keepC keepF keepN, ed_deleteCells D m l = Ok m' /\ PartOf D m m' keepC keepF keepN /\
      (forall i, In i keepC <-> i < length (cells m) /\ ~ In i l).

(* It fails on the smallest possible mesh: delete the first of two cells. *)
Theorem editor_deleteCells_refuted : ~ editor_deletes_listed_cells.
Proof.
  intros H. destruct (H Z 2 two_squares [0]) as (m' & _ & _ & _ & E & _); try discriminate; auto.
  - exact two_squares_wf.
  - intros i [<-|[]]; cbn; lia.
  - exists 1; split; [cbn; lia|intros [?|[]]; discriminate].
Qed.
Print Assumptions editor_deleteCells_refuted.

(* How it fails, in general: the routine writes past the end of the new cell list whenever a
   deleted cell has a surviving cell after it. *)
Theorem editor_deleteCells_overruns : forall V D (m : mesh V) l i j,
  0 < D -> WellFormed D m -> faces m <> [] -> nodes m <> [] ->
  (forall i, In i l -> i < length (cells m)) ->
  (forall k c, nth_error (cells m) k = Some c -> c <> []) ->
  In j l -> j < i -> i < length (cells m) -> ~ In i l ->
  ed_deleteCells D m l = UB.
Proof.
  intros V D m l i j DP WF F N Lin Cne Ij Lji Li Ni.
  apply (ed_overrun D m l DP WF Lin) with (i := i) (j := j); auto.
  - intros ->; destruct Ij.
  - exists i; auto.
Qed.
Print Assumptions editor_deleteCells_overruns.

Example editor_overrun : ed_deleteCells 2 two_squares [0] = UB.
Proof. reflexivity. Qed.

(* Missing from the full property: lists in which a deleted cell precedes a surviving one. *)
Theorem editor_deleteCells_partial : forall V D (m : mesh V) l,
  0 < D -> WellFormed D m -> faces m <> [] -> nodes m <> [] -> l <> [] ->
  (forall i, In i l -> i < length (cells m)) -> (exists i, i < length (cells m) /\ ~ In i l) ->
  (forall i j, i < length (cells m) -> ~ In i l -> In j l -> i < j) ->
  exists m' keepC keepF keepN, ed_deleteCells D m l = Ok m' /\ PartOf D m m' keepC keepF keepN /\
    (forall i, In i keepC <-> i < length (cells m) /\ ~ In i l).
Proof.
  intros V D m l DP WF F N L Lin Surv T.
  destruct (ed_trailing D m l DP WF Lin L Surv F N) as (m' & E & E').
  { intros; apply T; auto. }
  destruct (deleteCells_keeps_mesh V D m (del_mask (length (cells m)) l) DP WF) as (m2 & kC & kF & kN & E2 & P & HC).
  - apply del_mask_length.
  - intros k; apply del_mask_bin.
  - right; apply del_mask_max; auto.
  - rewrite E in E2; inversion E2; subst m2. exists m', kC, kF, kN. split; auto. split; auto.
    intros i. rewrite HC. split.
    + intros H. assert (Li : i < length (cells m)) by (apply nth_error_lt in H; rewrite del_mask_length in H; auto).
      split; auto. intros I. pose proof (del_mask_on (length (cells m)) l i Li) as O.
      unfold on in O. rewrite (nth_error_nth _ _ 0 H) in O. cbn in O.
      apply mem_in in I. rewrite I in O. discriminate.
    + intros [Li Ni]. pose proof (del_mask_on (length (cells m)) l i Li) as O.
      assert (mem i l = false) as Hm. { destruct (mem i l) eqn:M; auto. apply mem_in in M; contradiction. }
      rewrite Hm in O. unfold on in O. apply Nat.eqb_eq in O. rewrite <- O. apply nth_error_nth'.
      rewrite del_mask_length; auto.
Qed.
Print Assumptions editor_deleteCells_partial.

(* the result is again a consistent mesh without orphans *)
Theorem editor_deleteCells_wellformed_partial : forall V D (m m' : mesh V) l,
  0 < D -> WellFormed D m -> faces m <> [] -> nodes m <> [] -> l <> [] ->
  (forall i, In i l -> i < length (cells m)) -> (exists i, i < length (cells m) /\ ~ In i l) ->
  (forall i j, i < length (cells m) -> ~ In i l -> In j l -> i < j) ->
  ed_deleteCells D m l = Ok m' -> 
  WellFormed D m' /\
  (forall f, f < length (faces m') ->
     exists i c z, nth_error (cells m') i = Some c /\ In z c /\ pid z = f) /\
  (forall n, D * n + D <= length (nodes m') ->
     exists f ns, nth_error (faces m') f = Some ns /\ In n ns).
Proof.
  intros V D m m' l DP WF F N L Lin Surv T E.
  destruct (editor_deleteCells_partial V D m l DP WF F N L Lin Surv T) as (m2 & kC & kF & kN & E2 & P & _).
  rewrite E in E2; inversion E2; subst m2. split.
  - exact (part_wf D m m' kC kF kN DP WF P).
  - exact (part_no_orphans D m m' kC kF kN DP P).
Qed.
Print Assumptions editor_deleteCells_wellformed_partial.

Example editor_trailing : exists m', ed_deleteCells 2 two_squares [1] = Ok m' /\ length (cells m') = 1.
Proof. eexists; split; [reflexivity|reflexivity]. Qed.

(* lists the contract refuses: empty, out of range, or naming every cell *)
Theorem editor_deleteCells_refuses : forall V D (m : mesh V) l,
  l = [] \/ (exists i, In i l /\ length (cells m) <= i) \/ (forall i, i < length (cells m) -> In i l) ->
  ed_deleteCells D m l = Abort.
Proof.
  intros V D m l H. unfold ed_deleteCells. destruct l as [|a t]; [reflexivity|].
  cbn [nonempty isnil negb assert bind].
  set (l := a :: t) in *.
  assert (Dec : (exists i, In i l /\ length (cells m) <= i) \/ (forall i, In i l -> i < length (cells m))).
  { clear. induction l as [|x l IH]; [right; intros i []|].
    destruct IH as [(i & I & L)|IH]; [left; exists i; split; [right|]; auto|].
    destruct (Nat.lt_ge_cases x (length (cells m))) as [L|L].
    - right. intros i [<-|I]; auto.
    - left. exists x; split; [left|]; auto. }
  destruct Dec as [(i & I & L)|R].
  - rewrite list_mask_abort; [reflexivity|]. intros A. specialize (A i I). lia.
  - destruct H as [H|[(i & I & L)|H]]; [discriminate|specialize (R i I); lia|].
    rewrite list_mask_ok by auto. cbn [bind]. rewrite del_mask_length, Nat.eqb_refl.
    assert (0 < length (cells m)) by (specialize (R a (or_introl eq_refl)); lia).
    destruct (Nat.eqb_spec (length (cells m)) 0); [lia|]. cbn [orb].
    assert (fold_right Nat.max 0 (del_mask (length (cells m)) l) = 0) as ->.
    { assert (Z0 : forall k, In k (del_mask (length (cells m)) l) -> k = 0).
      { intros k I. unfold del_mask in I. apply in_map_iff in I as (i & <- & I). apply in_seq in I.
        assert (mem i l = true) as -> by (apply mem_in, H; lia). reflexivity. }
      revert Z0. clear. induction (del_mask (length (cells m)) l) as [|x q IH]; intros Z0; cbn; auto.
      rewrite IH by (intros; apply Z0; right; auto). rewrite (Z0 x (or_introl eq_refl)). reflexivity. }
    destruct (nonempty (del_mask (length (cells m)) l)); reflexivity.
Qed.
Print Assumptions editor_deleteCells_refuses.

(* ------------------------------------------------------------ C18 *)
(* On every consistent planar mesh whose border consists of simple closed curves, cleaning with a
   positive tolerance finishes; the collapses it performs are the ones the caller asked for, and
   the result is the mesh with those collapses carried out and nothing else changed. *)
Theorem cleanEdges_correct : forall tol (m : mesh Q),
  (0 < tol)%Q -> WellFormed 2 m -> Planar m -> simple_border m ->
  exists m' pairs, cleanEdges 2 tol m = Ok m' /\ GoodCollapses tol m pairs /\
    ((pairs = [] /\ m' = m) \/ (pairs <> [] /\ exists keepF keepN, Collapsed m m' pairs keepF keepN)).
Proof. intros tol m T WF PL SB. exact (cleanEdges_ok tol m T WF PL SB). Qed.
Print Assumptions cleanEdges_correct.

Lemma ends_uniq (pairs : list (nat * nat)) k a b : NoDup (flat_map (fun p => [fst p; snd p]) pairs) ->
  In (k, a) pairs -> In (k, b) pairs -> a = b.
Proof.
  induction pairs as [|[x y] t IH]; intros N Ia Ib; [destruct Ia|]. cbn in N.
  inversion N as [|? ? N1 N2]; subst. inversion N2 as [|? ? N3 N4]; subst.
  assert (No : forall z, In (x, z) t -> False).
  { intros z I. apply N1. right. apply in_flat_map. exists (x, z); cbn; auto. }
  destruct Ia as [Ea|Ia], Ib as [Eb|Ib]; try (inversion Ea; subst); try (inversion Eb; subst); auto;
    exfalso; eapply No; eauto.
Qed.

(* the cleaned mesh is again a consistent planar mesh: no dangling reference, no face without
   length, no cell using a face twice *)
Theorem cleanEdges_consistent : forall tol (m m' : mesh Q),
  (0 < tol)%Q -> WellFormed 2 m -> Planar m -> simple_border m ->
  cleanEdges 2 tol m = Ok m' -> WellFormed 2 m' /\ Planar m'.
Proof.
  intros tol m m' T WF PL SB E.
  destruct (cleanEdges_correct tol m T WF PL SB) as (m2 & pairs & E2 & GC & H). rewrite E in E2; inversion E2; subst m2.
  destruct H as [[_ ->]|(_ & kF & kN & CO)]; [auto|]. clear E E2.
  assert (SF := co_sortedF _ _ _ _ _ CO). assert (SN := co_sortedN _ _ _ _ _ CO).
  assert (Fold : forall x, x < length (faces m') -> exists f, nth_error kF x = Some f).
  { intros x L. rewrite (co_nfaces _ _ _ _ _ CO) in L. destruct (nth_error_ex _ _ L) as [f Hf]; eauto. }
  assert (Cold : forall i c', nth_error (cells m') i = Some c' -> exists c, nth_error (cells m) i = Some c /\
      selected (fun z => In (pid z) kF) (stands kF) c c').
  { intros i c' Hc'. pose proof (nth_error_lt _ _ _ Hc') as L. rewrite (co_ncells _ _ _ _ _ CO) in L.
    destruct (nth_error_ex _ _ L) as [c Hc]. destruct (co_cells _ _ _ _ _ CO _ _ Hc) as (c2 & Hc2 & S).
    rewrite Hc' in Hc2; inversion Hc2; subst. eauto. }
  split.
  - split.
    + eexists. apply (co_nnodes _ _ _ _ _ CO).
    + intros i c' z' Hc' I. destruct (Cold i c' Hc') as (c & Hc & S).
      destruct (selected_in_r _ _ _ _ _ S I) as (z & _ & _ & _ & Hz). rewrite (co_nfaces _ _ _ _ _ CO).
      eapply nth_error_lt; eauto.
    + intros x ns' n' Hx I. destruct (Fold x) as [f Hf]; [eapply nth_error_lt; eauto|].
      destruct (co_faces _ _ _ _ _ CO _ _ Hf) as (ns & ns2 & Hns & Hns2 & F). rewrite Hx in Hns2; inversion Hns2; subst ns2.
      destruct (Forall2_in_r _ _ _ _ F I) as (n & _ & n0 & _ & Hn0). apply nth_error_lt in Hn0.
      rewrite (co_nnodes _ _ _ _ _ CO). lia.
    + rewrite (co_nfc _ _ _ _ _ CO), (co_nfaces _ _ _ _ _ CO). reflexivity.
    + intros x fc Hx. pose proof (nth_error_lt _ _ _ Hx) as L. rewrite (co_nfc _ _ _ _ _ CO) in L.
      destruct (nth_error_ex _ _ L) as [f Hf]. rewrite (co_fc _ _ _ _ _ CO _ _ Hf) in Hx. eapply (wf_fc _ _ WF); eauto.
    + intros i c' z' fc Hc' I Hfc. destruct (Cold i c' Hc') as (c & Hc & S).
      destruct (selected_in_r _ _ _ _ _ S I) as (z & Iz & _ & Sz & Hz).
      rewrite (co_fc _ _ _ _ _ CO _ _ Hz) in Hfc. pose proof (wf_cell_face _ _ WF _ _ _ _ Hc Iz Hfc) as X.
      assert (sign_cell z' i = sign_cell z i) as ->; auto.
      unfold sign_cell. destruct (Z.leb_spec 0 z), (Z.leb_spec 0 z'); auto; lia.
    + intros x fc z Hx I. pose proof (nth_error_lt _ _ _ Hx) as L. rewrite (co_nfc _ _ _ _ _ CO) in L.
      destruct (nth_error_ex _ _ L) as [f Hf]. rewrite (co_fc _ _ _ _ _ CO _ _ Hf) in Hx.
      destruct (wf_face_cell _ _ WF _ _ _ Hx I) as (c & Hc & Ic).
      destruct (co_cells _ _ _ _ _ CO _ _ Hc) as (c' & Hc' & S). exists c'. split; auto.
      destruct (selected_in_l _ _ _ _ _ S Ic) as (b & Ib & Sb & Hb).
      { rewrite pid_sign_face. eapply nth_error_In; eauto. }
      assert (b = sign_face z x) as <-; auto.
      rewrite pid_sign_face in Hb. apply signed_ext.
      * rewrite <- Sb. change sign_face with sign_cell. rewrite !sign_cell_nonneg. tauto.
      * rewrite pid_sign_face. exact (sorted_inj kF _ _ f SF Hb Hf).
    + rewrite (co_nsf _ _ _ _ _ CO), (co_nsn _ _ _ _ _ CO). apply (wf_shared_size _ _ WF).
    + intros d l' n' Hl' I. pose proof (nth_error_lt _ _ _ Hl') as L. rewrite (co_nsn _ _ _ _ _ CO) in L.
      destruct (nth_error_ex _ _ L) as [l Hl]. destruct (co_sn _ _ _ _ _ CO _ _ Hl) as (l2 & Hl2 & S).
      rewrite Hl' in Hl2; inversion Hl2; subst l2. destruct (selected_in_r _ _ _ _ _ S I) as (n & _ & _ & Hn).
      apply nth_error_lt in Hn. rewrite (co_nnodes _ _ _ _ _ CO). lia.
    + intros d l' n' Hl' I. pose proof (nth_error_lt _ _ _ Hl') as L. rewrite (co_nsf _ _ _ _ _ CO) in L.
      destruct (nth_error_ex _ _ L) as [l Hl]. destruct (co_sf _ _ _ _ _ CO _ _ Hl) as (l2 & Hl2 & S).
      rewrite Hl' in Hl2; inversion Hl2; subst l2. destruct (selected_in_r _ _ _ _ _ S I) as (n & _ & _ & Hn).
      apply nth_error_lt in Hn. rewrite (co_nfaces _ _ _ _ _ CO). auto.
  - split.
    + intros x ns' Hx. destruct (Fold x) as [f Hf]; [eapply nth_error_lt; eauto|].
      destruct (co_faces _ _ _ _ _ CO _ _ Hf) as (ns & ns2 & Hns & Hns2 & F). rewrite Hx in Hns2; inversion Hns2; subst ns2.
      pose proof (nth_error_In _ _ Hf) as If. apply (co_F _ _ _ _ _ CO) in If as (a & b & Hab & N1 & N2).
      rewrite Hns in Hab; inversion Hab; subst ns. destruct (pl_face _ PL _ _ Hns) as (u & v & E & N). inversion E; subst u v.
      inversion F as [|? a' ? ? (a0 & Ga & Ha) F1]; subst. inversion F1 as [|? b' ? ? (b0 & Gb & Hb) F2]; subst. inversion F2; subst.
      exists a', b'. split; auto. intros <-. rewrite Ha in Hb; inversion Hb; subst b0.
      destruct Ga as [Ga|[Ra ->]], Gb as [Gb|[Rb Eb]].
      * apply N. exact (ends_uniq pairs a0 a b (gc_once _ _ _ GC) Ga Gb).
      * subst a0. contradiction.
      * contradiction.
      * congruence.
    + intros i c' Hc'. destruct (Cold i c' Hc') as (c & Hc & S). pose proof (pl_cell _ PL _ _ Hc) as ND.
      clear - S ND SF. induction S as [|z z' c c' I St S IH|z c c' I S IH]; cbn in *; [constructor| |].
      * inversion ND; subst. constructor; auto. intros J. apply in_map_iff in J as (y & Ey & Iy).
        destruct (selected_in_r _ _ _ _ _ S Iy) as (w & Iw & _ & _ & Hw). destruct St as [_ Hz]. rewrite Ey in Hw.
        apply H1. apply in_map_iff. exists w. split; auto. congruence.
      * inversion ND; auto.
Qed.
Print Assumptions cleanEdges_consistent.

(* a tolerance that is not positive is refused *)
Theorem cleanEdges_refuses : forall D tol (m : mesh Q), (tol <= 0)%Q -> cleanEdges D tol m = Abort.
Proof.
  intros D tol m T. unfold cleanEdges, flags, Qlt_bool. rewrite (proj2 (Qle_bool_iff _ _) T). reflexivity.
Qed.
Print Assumptions cleanEdges_refuses.

(* Two cells side by side with a short edge (node 1 to node 6) on the lower border. *)
Definition short_edge_mesh : mesh Q := mkMesh
  (map inject_Z [0; 0;  10; 0;  20; 0;  0; 10;  10; 10;  20; 10;  11; 0]%Z)
  [[0; 1; 2; 3]; [4; 5; 6; -2; 7]]%Z
  [[0; 1]; [1; 4]; [4; 3]; [3; 0]; [6; 2]; [2; 5]; [5; 4]; [1; 6]]
  [] [] [[0]; [0; -2]; [0]; [0]; [1]; [1]; [1]; [1]]%Z plc_new [] [] [].

Example short_edge_wf : WellFormed 2 short_edge_mesh.
Proof. apply wfb_sound. reflexivity. Qed.
Example short_edge_planar : Planar short_edge_mesh.
Proof.
  split.
  - intros f ns H. do 8 (destruct f; [inversion H; eexists _, _; split; [reflexivity|discriminate]|]).
    destruct f; discriminate.
  - intros i c H. do 2 (destruct i; [inversion H; subst; vm_compute; repeat constructor; cbn; intuition discriminate|]).
    destruct i; discriminate.
Qed.
Example short_edge_border : simple_border short_edge_mesh.
Proof.
  intros n (f & b & B & S).
  destruct (seg_node _ short_edge_wf short_edge_planar _ _ _ S) as (L & _).
  assert (G : exists f0 f1, f0 <> f1 /\ bfaces short_edge_mesh n = [f0; f1]).
  { assert (I : In f (bfaces short_edge_mesh n)) by (apply bfaces_in; eauto using short_edge_wf, short_edge_planar).
    change (n < 7) in L. do 7 (destruct n; [vm_compute; eexists _, _; split; [|reflexivity]; discriminate|]). lia. }
  destruct G as (f0 & f1 & N & E). exists f0, f1. split; auto. intros g.
  rewrite <- (bfaces_in _ short_edge_wf short_edge_planar), E. cbn. intuition.
Qed.
(* the short edge is collapsed: one node and one face fewer, both cells keep four faces *)
Example short_edge_cleaned : exists m', cleanEdges 2 (1 # 5)%Q short_edge_mesh = Ok m' /\
  length (nodes m') = 12 /\ faces m' = [[0; 1]; [1; 4]; [4; 3]; [3; 0]; [1; 2]; [2; 5]; [5; 4]] /\
  cells m' = [[0; 1; 2; 3]; [4; 5; 6; -2]]%Z.
Proof. vm_compute. eexists; split; [reflexivity|]. auto. Qed.
(* with a smaller tolerance nothing happens *)
Example short_edge_untouched : cleanEdges 2 (1 # 20)%Q short_edge_mesh = Ok short_edge_mesh.
Proof. vm_compute. reflexivity. Qed.

(* In three dimensions border faces are facets with at least three nodes, but the corner search
   insists on border faces with exactly two: whenever the call returns, every border face used by a
   cell is a segment. *)
Lemma mfold_grow {A S} (f : S -> A -> res S) (P : S -> Prop) l s s' :
  (forall s a s', f s a = Ok s' -> P s -> P s') -> mfold f l s = Ok s' -> P s -> P s'.
Proof.
  intros H. revert s. induction l as [|a l IH]; intros s E Ps; cbn in E; [congruence|].
  apply bind_ok in E as (s1 & E1 & E2). eauto.
Qed.
Lemma visit_edge_bpush D m st ids e st' ids' : visit_edge D m (st, ids) e = Ok (st', ids') -> bpush st' = bpush st.
Proof.
  unfold visit_edge. destruct e as [a b]. intros E. apply bind_ok in E as (? & _ & E). apply bind_ok in E as (? & _ & E).
  destruct (KeyMapModel.addKeyToMap nedge_lt (edge_key a b) (e2i st)). apply bind_ok in E as (? & _ & E). inversion E; subst. auto.
Qed.
Lemma visit_face_bpush D m st ids z st' ids' : visit_face D m (st, ids) z = Ok (st', ids') ->
  incl (bpush st) (bpush st') /\ forall ns fc n, nth_error (faces m) (pid z) = Some ns -> nth_error (faceCells m) (pid z) = Some fc ->
    length fc = 1 -> In n ns -> In (n, pid z) (bpush st').
Proof.
  unfold visit_face. intros E. apply bind_ok in E as (? & _ & E). apply bind_ok in E as (f & Ef & E).
  apply bind_ok in E as (? & _ & E). apply bind_ok in E as (fc & Efc & E). apply bind_ok in E as (? & _ & E).
  apply (proj1 (get_ok _ _ _)) in Ef. apply (proj1 (get_ok _ _ _)) in Efc.
  set (bp := if length fc =? 1 then bpush st ++ map (fun n => (n, pid z)) f else bpush st) in E.
  assert (Eb : bpush st' = bp).
  { apply (mfold_grow (visit_edge D m) (fun s => bpush (fst s) = bp) _ _ _) in E; auto.
    intros [s i] e [s' i'] H X. cbn in *. apply visit_edge_bpush in H. congruence. }
  rewrite Eb. unfold bp. split.
  - destruct (length fc =? 1); [apply incl_appl|]; apply incl_refl.
  - intros ns fc' n H1 H2 L I. rewrite Ef in H1; rewrite Efc in H2; inversion H1; inversion H2; subst.
    rewrite L. cbn. apply in_or_app. right. apply in_map_iff. eauto.
Qed.
Lemma mfold_hit {A S} (f : S -> A -> res S) (P : S -> Prop) l a s s' :
  (forall s a s', f s a = Ok s' -> P s -> P s') -> (forall s s', f s a = Ok s' -> P s') ->
  In a l -> mfold f l s = Ok s' -> P s'.
Proof.
  intros H1 H2. revert s. induction l as [|b l IH]; intros s I E; [destruct I|]. cbn in E.
  apply bind_ok in E as (s1 & E1 & E2). destruct I as [->|I]; [|eauto].
  eapply mfold_grow; eauto.
Qed.
Theorem cleanEdges_needs_segments : forall D tol (m m' : mesh Q) c z ns fc,
  cleanEdges D tol m = Ok m' -> In c (cells m) -> In z c ->
  nth_error (faces m) (pid z) = Some ns -> nth_error (faceCells m) (pid z) = Some fc -> length fc = 1 ->
  length ns = 2.
Proof.
  intros D tol m m' c z ns fc E Ic Iz Hns Hfc L1. unfold cleanEdges in E. apply bind_ok in E as (r & E & _). unfold flags in E.
  apply bind_ok in E as (u0 & _ & E). apply bind_ok in E as ([st c2e] & Ec & E).
  assert (Ne : ns = [] \/ exists n, In n ns) by (destruct ns as [|n t]; [auto|right; exists n; left; auto]).
  unfold collect in Ec.
  match type of Ec with mfold ?g _ _ = _ => set (step := g) in Ec end.
  assert (Step : forall s c s', step s c = Ok s' -> incl (bpush (fst s)) (bpush (fst s'))).
  { intros [s x] c0 [s' x'] H. cbn in *. apply bind_ok in H as ([s1 ids] & H1 & H2). inversion H2; subst.
    apply (mfold_grow _ (fun q => incl (bpush s) (bpush (fst q))) _ _ _) in H1; [exact H1| |apply incl_refl].
    intros [q i] z0 [q' i'] H X. cbn in *. apply visit_face_bpush in H as [H _]. eapply incl_tran; eauto. }
  destruct Ne as [-> |(n & In_)].
  { exfalso. apply (mfold_hit step (fun _ => False) (cells m) c _ _) in Ec; auto.
    intros [s x] s' H. cbn in H. apply bind_ok in H as ([s1 ids] & H1 & _).
    apply (mfold_hit _ (fun _ => False) _ z) in H1; auto. intros [q i] q' H. unfold visit_face in H.
    apply bind_ok in H as (? & _ & H). rewrite (proj2 (get_ok _ _ _) Hns) in H. discriminate. }
  assert (Ib : In (n, pid z) (bpush st)).
  { apply (mfold_hit step (fun q => In (n, pid z) (bpush (fst q))) (cells m) c _ _) in Ec; auto.
    - intros s a s' H I. apply (Step s a s' H). auto.
    - intros [s x] [s' x'] H. cbn in *. apply bind_ok in H as ([s1 ids] & H1 & H2). inversion H2; subst.
      apply (mfold_hit _ (fun q => In (n, pid z) (bpush (fst q))) _ z) in H1; auto.
      + intros [q i] a [q' i'] H I. cbn in *. apply visit_face_bpush in H as [H _]. auto.
      + intros [q i] [q' i'] H. cbn in *. apply visit_face_bpush in H as [_ H]. eauto. }
  apply bind_ok in E as (cs & Ecs & _). unfold corners in Ecs.
  set (Q := length ns = 2). change Q. revert Ecs.
  apply (mfold_hit _ (fun _ => Q) _ n); auto.
  - intros s s' H. apply bind_ok in H as (b & H & _). unfold corner_test in H.
    apply bind_ok in H as (? & _ & H). apply bind_ok in H as (? & _ & H). apply bind_ok in H as (os & H & _).
    apply mmap_inv in H. destruct (Forall2_in_l _ _ _ (pid z) H) as (o & _ & Ho).
    { apply in_map_iff. exists (n, pid z). split; auto. apply filter_In. split; auto. cbn. apply Nat.eqb_refl. }
    apply bind_ok in Ho as (? & _ & Ho). apply bind_ok in Ho as (? & _ & Ho). apply bind_ok in Ho as (? & _ & Ho).
    rewrite (proj2 (get_ok _ _ _) Hns) in Ho. cbn [bind] in Ho. apply bind_ok in Ho as (? & Ho & _).
    apply assert_ok, Nat.eqb_eq in Ho. exact Ho.
  - apply unique_in, sort_in. apply in_map_iff. exists (n, pid z). auto.
Qed.
Print Assumptions cleanEdges_needs_segments.

(* The property for solid meshes: cleaning a consistent mesh returns. *)
Definition cleanEdges_3d_returns : Prop :=
  forall tol (m : mesh Q), (0 < tol)%Q -> WellFormed 3 m -> exists m', cleanEdges 3 tol m = Ok m'.
Definition tetrahedron : mesh Q := mkMesh
  (map inject_Z [0; 0; 0;  1; 0; 0;  0; 1; 0;  0; 0; 1]%Z)
  [[0; 1; 2; 3]]%Z [[0; 2; 1]; [0; 1; 3]; [1; 2; 3]; [0; 3; 2]] [] [] [[0]; [0]; [0]; [0]]%Z plc_new [] [] [].
Example tetrahedron_wf : WellFormed 3 tetrahedron.
Proof. apply wfb_sound. reflexivity. Qed.
Theorem cleanEdges_3d_refuted : ~ cleanEdges_3d_returns.
Proof.
  intros H. destruct (H (1 # 2)%Q tetrahedron) as (m' & E); [reflexivity|apply tetrahedron_wf|].
  pose proof (cleanEdges_needs_segments 3 _ _ _ _ 0%Z [0; 2; 1] [0%Z] E (or_introl eq_refl) (or_introl eq_refl) eq_refl eq_refl eq_refl).
  discriminate.
Qed.
Print Assumptions cleanEdges_3d_refuted.
