(* Carrying out the collapses: masks, maps and the rebuilt mesh. *)
From Verif Require Import Base BaseFacts StdAlg Rank SerializeModel MeshModel MeshSpec MeshProofs MeshProofs2
  KeyMapModel MeshEditorModel MeshEditorSpec MeshEditorProofs MeshEditorProofs2 MeshEditorProofs3 MeshEditorProofs4.
From Coq Require Import Lia Sorted QArith Lqa.
Local Open Scope nat_scope.

Lemma on_nth mask i k : nth_error mask i = Some k -> on mask i = (k =? 1).
Proof. intros H. unfold on. rewrite (nth_error_nth _ _ 0 H). reflexivity. Qed.

(* ---- the node map, updated in place ---- *)
Lemma collapse_map_ok col nmap : length col = length nmap ->
  (forall i k, nth_error col i = Some k -> k < length nmap /\ nth_error col k = Some k) ->
  exists r, collapse_map col nmap = Ok r /\ length r = length nmap /\
    forall i k, nth_error col i = Some k -> nth_error r i = nth_error nmap k.
Proof.
  intros L H. unfold collapse_map.
  destruct (mfold_seq (fun nmap i => do j <- get col i; do k <- get nmap j; set nmap i k)
    (fun n r => length r = length nmap /\ (forall i k, i < n -> nth_error col i = Some k -> nth_error r i = nth_error nmap k) /\
       (forall i, n <= i -> nth_error r i = nth_error nmap i)) (length nmap) nmap) as (r & E & L' & A & _).
  - split; auto. split; [intros; lia|auto].
  - intros n r Ln (Lr & A & B). destruct (nth_error_ex col n ltac:(lia)) as [k Hk].
    rewrite (proj2 (get_ok _ _ _) Hk). cbn [bind]. destruct (H n k Hk) as (Lk & Ck).
    assert (Er : nth_error r k = nth_error nmap k).
    { destruct (Nat.lt_ge_cases k n); [apply (A k k); auto|apply B; auto]. }
    destruct (nth_error_ex nmap k Lk) as [v Hv]. rewrite Hv in Er. rewrite (proj2 (get_ok _ _ _) Er). cbn [bind].
    rewrite set_lt by lia. eexists; split; [reflexivity|]. split; [rewrite upd_length; auto|]. split.
    + intros i j Li Hj. destruct (Nat.eq_dec i n) as [->|N].
      * rewrite upd_same by lia. congruence.
      * rewrite upd_other by auto. apply A; auto; lia.
    + intros i Li. rewrite upd_other by lia. apply B; lia.
  - exists r. split; auto. split; auto. intros i k Hk. apply A; auto. rewrite <- L. eapply nth_error_lt; eauto.
Qed.

(* ---- cleanMesh when every cell is kept ---- *)
Lemma face_cell_id nc z : pid z < nc -> ed_faceCell (repeat 1 nc) (seq 0 nc) z = Ok [z].
Proof.
  intros L. unfold ed_faceCell. rewrite (proj2 (get_ok _ _ _) (nth_error_repeat 1 nc (pid z) L)). cbn [bind Nat.eqb].
  assert (H : nth_error (seq 0 nc) (pid z) = Some (pid z)).
  { rewrite (nth_error_nth' _ 0), seq_nth by (rewrite ?seq_length; auto). reflexivity. }
  rewrite (proj2 (get_ok _ _ _) H). cbn [bind]. f_equal. f_equal. unfold pid, positiveID.
  destruct (Z.ltb_spec z 0), (Z.leb_spec 0 z); try lia; rewrite ?Z2Nat.id by (unfold Z.lnot; lia); auto.
  unfold Z.lnot; lia.
Qed.

Lemma total_ones n : total (repeat 1 n) = n.
Proof. unfold total. induction n; cbn; congruence. Qed.

Section Clean.
  Context (m : mesh Q) (fm nm fmap nmap : list nat).
  Hypothesis WF : WellFormed 2 m.
  Let nn := numNodes 2 m.
  Let nc := length (cells m).
  Let nf := length (faces m).
  Hypothesis Lfm : length fm = nf.
  Hypothesis Lnm : length nm = nn.
  Hypothesis Bfm : forall k, In k fm -> k = 0 \/ k = 1.
  Hypothesis Bnm : forall k, In k nm -> k = 0 \/ k = 1.
  Hypothesis Mf : forall f, f < nf -> nth_error fmap f = Some (rank (on fm) f).
  Hypothesis Ln : length nmap = nn.
  Hypothesis Mn : forall n, n < nn -> on nm n = true -> nth_error nmap n = Some (rank (on nm) n).
  Let kF := kept (on fm) nf.
  Let kN := kept (on nm) nn.

  Lemma faces_all : exists fs fcs, ed_faces m (repeat 1 nc) fm (seq 0 nc) nmap = Ok (fs, fcs) /\
    length fs = rank (on fm) nf /\ length fcs = rank (on fm) nf /\
    forall x f, nth_error kF x = Some f ->
      (exists ns ns', nth_error (faces m) f = Some ns /\ nth_error fs x = Some ns' /\
         Forall2 (fun n n' => nth_error nmap n = Some n') ns ns') /\
      nth_error fcs x = nth_error (faceCells m) f.
  Proof.
    unfold ed_faces. fold nf.
    match goal with |- context [mfold ?g (seq 0 nf) ([], [])] => set (step := g) end.
    destruct (mfold_seq step (fun k s => length (fst s) = rank (on fm) k /\ length (snd s) = rank (on fm) k /\
      forall x f, nth_error (kept (on fm) k) x = Some f ->
       (exists ns ns', nth_error (faces m) f = Some ns /\ nth_error (fst s) x = Some ns' /\
          Forall2 (fun n n' => nth_error nmap n = Some n') ns ns') /\
       nth_error (snd s) x = nth_error (faceCells m) f) nf ([], [])) as ([fs fcs] & E & A & B & C).
    - cbn. repeat split; auto; destruct x; discriminate.
    - intros k [fs fcs] Lk (A & B & C). cbn [fst snd] in *. unfold step.
      destruct (get_on fm k ltac:(lia)) as (v & -> & Ev). cbn [bind]. rewrite Ev.
      rewrite Nat.add_1_r, kept_S, rank_S. destruct (on fm k) eqn:O.
      + destruct (nth_error_ex (faces m) k Lk) as [ns Hns]. rewrite (proj2 (get_ok _ _ _) Hns). cbn [bind].
        assert (exists ns', mmap (get nmap) ns = Ok ns' /\ Forall2 (fun n n' => nth_error nmap n = Some n') ns ns') as (ns' & -> & F).
        { assert (R : forall n, In n ns -> n < nn).
          { intros n I. apply (node_lt 2 m ltac:(lia) WF). eapply (wf_faces _ _ WF); eauto. }
          clear - R Ln. induction ns as [|n ns IH]; [exists []; split; [reflexivity|constructor]|].
          destruct IH as (ns' & E & F); [intros; apply R; right; auto|].
          destruct (nth_error_ex nmap n) as [v Hv]; [rewrite Ln; apply R; left; auto|].
          exists (v :: ns'). cbn [mmap]. rewrite (proj2 (get_ok _ _ _) Hv). cbn [bind]. rewrite E. cbn [bind].
          split; [reflexivity|constructor; auto]. }
        cbn [bind]. assert (Lfc : k < length (faceCells m)) by (rewrite (wf_fcs _ _ WF); auto).
        destruct (nth_error_ex _ _ Lfc) as [fc Hfc]. rewrite (proj2 (get_ok _ _ _) Hfc). cbn [bind].
        assert (Rz : forall z, In z fc -> pid z < nc).
        { intros z I. destruct (wf_face_cell _ _ WF _ _ _ Hfc I) as (c & Hc & _). eapply nth_error_lt; eauto. }
        assert (Efc : exists y, (do z0 <- get fc 0;
          do c0 <- ed_faceCell (repeat 1 nc) (seq 0 nc) z0;
          do c1 <- (if length fc =? 2 then do z1 <- get fc 1; ed_faceCell (repeat 1 nc) (seq 0 nc) z1 else Ok []);
          Ok (c0 ++ c1)) = Ok y /\ y = fc).
        { destruct (wf_fc _ _ WF _ _ Hfc) as [L|L]; destruct fc as [|z0 [|z1 [|]]]; try discriminate;
            cbn [get nth_error bind length Nat.eqb]; rewrite !face_cell_id by (apply Rz; cbn; auto); cbn [bind app]; eauto. }
        assert (Lfc2 : ((length fc =? 1) || (length fc =? 2)) = true).
        { destruct (wf_fc _ _ WF _ _ Hfc) as [-> | ->]; reflexivity. }
        rewrite Lfc2. cbn [assert bind]. destruct Efc as (y & Ey & ->).
        destruct (get fc 0) as [z0| | |] eqn:G0; cbn [bind] in *; try discriminate.
        destruct (ed_faceCell (repeat 1 nc) (seq 0 nc) z0) as [c0| | |] eqn:G1; cbn [bind] in *; try discriminate.
        destruct (if length fc =? 2 then do z1 <- get fc 1; ed_faceCell (repeat 1 nc) (seq 0 nc) z1 else Ok [])
          as [c1| | |] eqn:G2; cbn [bind] in *; try discriminate.
        injection Ey as Ey. rewrite Ey, Lfc2. cbn [assert bind].
        eexists; split; [reflexivity|]. cbn [fst snd]. rewrite !app_length. cbn [length].
        split; [lia|]. split; [lia|]. intros x f Hx.
        destruct (Nat.lt_ge_cases x (length (kept (on fm) k))) as [Lx|Lx].
        * rewrite nth_error_app1 in Hx by auto. unfold rank in A, B. rewrite !nth_error_app1 by lia. apply C; auto.
        * rewrite nth_error_app2 in Hx by auto. unfold rank in A, B. rewrite !nth_error_app2 by lia. rewrite A, B.
          destruct (x - length (kept (on fm) k)) as [|y]; cbn in Hx; [|destruct y; discriminate].
          inversion Hx; subst f. cbn [nth_error]. split; [exists ns, ns'; auto|auto].
      + eexists; split; [reflexivity|]. cbn [fst snd]. rewrite app_nil_r. split; [lia|]. split; [lia|]. auto.
    - exists fs, fcs. auto.
  Qed.

  Definition new_cell (c : list Z) : list Z :=
    map (fun z => resign z (nth (pid z) fmap 0)) (filter (fun z => on fm (pid z)) c).

  Lemma cells_all : ed_cells m (repeat 1 nc) fm fmap = Ok (map new_cell (cells m)).
  Proof.
    unfold ed_cells. rewrite total_ones. fold nc.
    match goal with |- context [mfold ?g (seq 0 nc) _] => set (step := g) end.
    destruct (mfold_seq step (fun k s => s = map new_cell (firstn k (cells m)) ++ repeat [] (nc - k)) nc (repeat [] nc))
      as (s & -> & ->).
    - rewrite Nat.sub_0_r. reflexivity.
    - intros k s Lk ->. unfold step.
      rewrite (proj2 (get_ok _ _ _) (nth_error_repeat 1 nc k Lk)). cbn [bind Nat.eqb].
      destruct (nth_error_ex (cells m) k Lk) as [c Hc]. rewrite (proj2 (get_ok _ _ _) Hc). cbn [bind].
      assert (Lf : length (map new_cell (firstn k (cells m))) = k) by (rewrite map_length, firstn_length; lia).
      replace (nc - k) with (S (nc - (k + 1))) by lia. cbn [repeat].
      eexists. rewrite (push_cell fm fmap k c _ []).
      + split; [reflexivity|]. rewrite upd_app' by auto.
        assert (Sk : firstn (k + 1) (cells m) = firstn k (cells m) ++ [c]).
        { clear - Hc. revert k Hc. induction (cells m) as [|a l IH]; intros [|k] Hc; cbn in *; try discriminate.
          - inversion Hc; auto.
          - f_equal. apply IH; auto. }
        rewrite Sk, map_app, <- app_assoc. reflexivity.
      + rewrite nth_error_app2 by lia. rewrite Lf, Nat.sub_diag. reflexivity.
      + intros z I. assert (Lz := wf_cells _ _ WF _ _ _ Hc I). split; [rewrite Lfm; auto|].
        eapply nth_error_lt. apply Mf. auto.
    - f_equal. unfold nc. rewrite firstn_all, Nat.sub_diag, app_nil_r. reflexivity.
  Qed.

  Lemma shared_all mask mp n l : length mask = n -> (forall x, x < n -> on mask x = true -> nth_error mp x = Some (rank (on mask) x)) ->
    (forall x, In x l -> x < n) ->
    exists l', ed_shared mask mp l = Ok l' /\
      selected (fun x => In x (kept (on mask) n)) (fun x x' => nth_error (kept (on mask) n) x' = Some x) l l'.
  Proof.
    intros Lm M B. unfold ed_shared.
    assert (G : forall acc, exists l', mfold (fun acc i => do k <- get mask i;
        if k =? 1 then do j <- get mp i; Ok (acc ++ [j]) else Ok acc) l acc = Ok (acc ++ l') /\
      selected (fun x => In x (kept (on mask) n)) (fun x x' => nth_error (kept (on mask) n) x' = Some x) l l').
    { induction l as [|x l IH]; intros acc; [exists []; split; [rewrite app_nil_r; reflexivity|constructor]|].
      cbn [mfold]. destruct (get_on mask x) as (v & -> & Ev); [rewrite Lm; apply B; left; auto|].
      cbn [bind]. rewrite Ev. destruct (on mask x) eqn:O.
      - assert (Lx : x < n) by (apply B; left; auto).
        rewrite (proj2 (get_ok _ _ _) (M x Lx O)). cbn [bind].
        destruct (IH ltac:(intros; apply B; right; auto) (acc ++ [rank (on mask) x])) as (l' & E & S).
        exists (rank (on mask) x :: l'). rewrite E, <- app_assoc. split; [reflexivity|]. constructor; auto.
        + apply kept_in; auto.
        + apply kept_nth; auto.
      - destruct (IH ltac:(intros; apply B; right; auto) acc) as (l' & E & S). exists l'. cbn [bind]. split; auto.
        constructor 3; auto. rewrite kept_in. intros [_ ?]; congruence. }
    destruct (G []) as (l' & E & S). exists l'. auto.
  Qed.

  Lemma shareds_all mask mp n ls : length mask = n -> (forall x, x < n -> on mask x = true -> nth_error mp x = Some (rank (on mask) x)) ->
    (forall d l x, nth_error ls d = Some l -> In x l -> x < n) ->
    exists ls', mmap (ed_shared mask mp) ls = Ok ls' /\ length ls' = length ls /\
      forall d l, nth_error ls d = Some l -> exists l', nth_error ls' d = Some l' /\
      selected (fun x => In x (kept (on mask) n)) (fun x x' => nth_error (kept (on mask) n) x' = Some x) l l'.
  Proof.
    intros Lm M B. induction ls as [|l ls IH].
    - exists []. split; [reflexivity|]. split; auto. intros [|]; discriminate.
    - destruct IH as (ls' & E & L & H).
      { intros d. apply (B (S d)). }
      destruct (shared_all mask mp n l Lm M (fun x => B 0 l x eq_refl)) as (l' & E' & S).
      exists (l' :: ls'). cbn [mmap]. rewrite E'. cbn [bind]. rewrite E. cbn [bind].
      split; [reflexivity|]. split; [cbn; lia|]. intros [|d] l0 Hd; cbn in Hd.
      + inversion Hd; subst. exists l'; auto.
      + apply H; auto.
  Qed.

  Lemma cleanMesh_all : cells m <> [] -> faces m <> [] -> nodes m <> [] ->
    exists m', cleanMesh 2 m (repeat 1 nc) fm nm (seq 0 nc) fmap nmap = Ok m' /\
      length (nodes m') = 2 * length kN /\
      (forall a n, nth_error kN a = Some n -> node_at 2 m' a = node_at 2 m n) /\
      length (faces m') = length kF /\ length (faceCells m') = length kF /\
      (forall x f, nth_error kF x = Some f ->
        (exists ns ns', nth_error (faces m) f = Some ns /\ nth_error (faces m') x = Some ns' /\
         Forall2 (fun n n' => nth_error nmap n = Some n') ns ns') /\
        nth_error (faceCells m') x = nth_error (faceCells m) f) /\
      cells m' = map new_cell (cells m) /\
      length (sharedNodes m') = length (sharedNodes m) /\
      (forall d l, nth_error (sharedNodes m) d = Some l -> exists l', nth_error (sharedNodes m') d = Some l' /\
        selected (fun n => In n kN) (fun n n' => nth_error kN n' = Some n) l l') /\
      length (sharedFaces m') = length (sharedFaces m) /\
      (forall d l, nth_error (sharedFaces m) d = Some l -> exists l', nth_error (sharedFaces m') d = Some l' /\
        selected (fun n => In n kF) (fun n n' => nth_error kF n' = Some n) l l') /\
      neighborDomains m' = neighborDomains m /\ convexHull m' = plc_new /\
      boundaryNodes m' = boundaryNodes m /\ boundaryFaces m' = boundaryFaces m.
  Proof.
    intros Cne Fne Nne. unfold cleanMesh.
    assert (NE : forall A (l : list A), l <> [] -> nonempty l = true) by (intros A [|]; cbn; congruence).
    assert (NZ : forall A (l : list A), l <> [] -> 0 < length l) by (intros A [|]; cbn; [congruence|lia]).
    pose proof (numNodes_eq 2 m ltac:(lia) WF) as En. fold nn in En.
    pose proof (NZ _ _ Cne). pose proof (NZ _ _ Fne). pose proof (NZ _ _ Nne).
    rewrite (NE _ (repeat 1 nc)) by (intros X; apply (f_equal (@length _)) in X; rewrite repeat_length in X; cbn in X; unfold nc in X; lia).
    rewrite (NE _ fm) by (intros X; rewrite X in Lfm; cbn in Lfm; unfold nf in Lfm; lia).
    rewrite (NE _ nm) by (intros X; rewrite X in Lnm; cbn [length] in Lnm; lia).
    cbn [andb assert bind].
    destruct (keep_nodes_ok 2 m (repeat 1 nc) ltac:(lia) WF (repeat_length _ _) nm Lnm) as (ns' & -> & Lns & Hns).
    cbn [bind]. destruct faces_all as (fs & fcs & -> & Lfs & Lfcs & Hfs). cbn [bind].
    rewrite cells_all. cbn [bind]. rewrite (wf_shared_size _ _ WF), Nat.eqb_refl. cbn [assert bind].
    destruct (shareds_all nm nmap nn (sharedNodes m) Lnm Mn) as (sn & -> & Lsn & Hsn).
    { intros d l x Hl I. apply (node_lt 2 m ltac:(lia) WF). eapply (wf_shared_nodes _ _ WF); eauto. }
    cbn [bind]. destruct (shareds_all fm fmap nf (sharedFaces m) Lfm) as (sf & -> & Lsf & Hsf).
    { intros x Lx _. apply Mf; auto. }
    { intros d l x Hl I. eapply (wf_shared_faces _ _ WF); eauto. }
    cbn [bind]. rewrite (total_rank nm Bnm), (total_rank fm Bfm), Lnm, Lfm, total_ones, map_length.
    fold nn in Lns. rewrite Lns, Lfs, Lfcs. fold nc. rewrite !Nat.eqb_refl. cbn [assert bind].
    eexists; split; [reflexivity|]. cbn. repeat split; auto; try apply Hfs; auto.
    rewrite Lsf. apply (wf_shared_size _ _ WF).
  Qed.
End Clean.
