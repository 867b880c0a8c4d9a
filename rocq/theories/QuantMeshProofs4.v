(* From a diagram to a well-formed mesh (C22 + C23). *)
From Verif Require Import Base BaseFacts KeyMapModel SerializeModel MeshModel MeshSpec MeshProofs2 MeshEditorModel MeshEditorProofs2 QuantMeshModel QuantMeshSpec QuantMeshProofs QuantMeshProofs2 QuantMeshProofs3.
From Coq Require Import Permutation QArith.
Local Open Scope nat_scope.

Lemma snapf_eqb ns p : snapf pt_eqb ns p = p.
Proof.
  unfold snapf. destruct (first pt_eqb ns p) as [j|] eqn:F; auto.
  destruct (first_some _ _ _ _ F) as (q & H & E). apply pt_eqb_iff in E. subst. apply nth_error_nth. auto.
Qed.

Lemma readout_ext close ng evs sn sn' ns es cs : (forall p, sn p = sn' p) ->
  ReadOut close ng evs sn ns es cs -> ReadOut close ng evs sn' ns es cs.
Proof.
  intros X [A B C D E F G H]. constructor; auto.
  - intros s p Is Hp. rewrite <- X. eauto.
  - intros q Iq. rewrite <- X. auto.
  - intros a b I. destruct (F a b I) as (s & Is & Hs). exists s. rewrite <- !X. auto.
  - intros i c Hc. rewrite (H i c Hc). f_equal. apply snapped_ext. auto.
Qed.

Lemma walked_good {S} (evs : list (nat * bool * list S)) (G : S -> Prop) : (forall s, In s (walked evs) -> G s) ->
  forall e, In e evs -> Forall G (snd e).
Proof. intros H e I. apply Forall_forall. intros s Is. apply H. unfold walked. apply in_flat_map. eauto. Qed.

Lemma boost_evs ng evs : (forall e, In e evs -> fst (fst e) < ng) ->
  exists st, read_out boost_node [] ng evs = Ok st /\
    ReadOut eq ng evs (fun p => p) (qnodes st) (qedges st) (qcells st).
Proof.
  intros B. destruct (read_out_total boost_node pt_eqb BI (fun _ => True) pt_eqb_refl pt_eqb_sym boost_HA boost_HT [] ng evs)
    as [st E].
  - reflexivity.
  - intros e I. split; auto. apply Forall_forall. intros s _. split; auto.
  - exists st. split; auto. apply readout_ext with (snapf pt_eqb (qnodes st)); [apply snapf_eqb|].
    apply (read_out_spec boost_node pt_eqb BI (fun _ => True) pt_eqb_refl pt_eqb_sym boost_HA) with (m0 := []); auto.
    + intros p q. symmetry. apply pt_eqb_iff.
    + intros e I. apply Forall_forall. intros s _. split; auto.
    + reflexivity.
Qed.

(* ------------------------------------------------------------ paths *)
Inductive Path {P} : P -> list (P * P) -> P -> Prop :=
| path_nil p : Path p [] p
| path_cons p q l r : Path q l r -> Path p ((p, q) :: l) r.

Lemma path_snapped {P} eqb (sn : P -> P) p l q : (forall a b, eqb a b = true -> a = b) -> Path p l q ->
  Path (sn p) (snapped eqb sn l) (sn q).
Proof.
  intros X. induction 1 as [|p q l r H IH]; [constructor|]. unfold snapped in *. cbn. destruct (eqb (sn p) (sn q)) eqn:E; cbn.
  - apply X in E. rewrite E. auto.
  - constructor. auto.
Qed.
Lemma loop_path v t : Path v (loop_segs (v :: t)) v.
Proof.
  unfold loop_segs. assert (G : forall (t : list pt) u, Path u (combine (u :: t) (t ++ [v])) v).
  { clear. induction t as [|x t IH]; intros u; cbn; repeat constructor. apply IH. }
  apply G.
Qed.

(* ------------------------------------------------------------ counting *)
Lemma flat_map_len {A B} (f g : A -> list B) l : (forall a, In a l -> length (f a) = length (g a)) ->
  length (flat_map f l) = length (flat_map g l).
Proof.
  induction l as [|a l IH]; cbn; intros H; auto. rewrite !app_length, H by (left; auto). f_equal. apply IH. intros; apply H; right; auto.
Qed.
Lemma flat_map_seq {A B} (f : list A -> list B) (g : nat -> list B) (cs : list (list A)) : (forall i c, nth_error cs i = Some c -> g i = f c) ->
  flat_map g (seq 0 (length cs)) = flat_map f cs.
Proof.
  intros H. assert (G : forall l o, (forall i c, nth_error l i = Some c -> g (o + i) = f c) -> flat_map g (seq o (length l)) = flat_map f l).
  { induction l as [|c l IH]; intros o Hl; cbn; auto. f_equal.
    - rewrite <- (Hl 0 c eq_refl). f_equal. lia.
    - apply IH. intros i d Hi. rewrite <- (Hl (S i) d Hi). f_equal. lia. }
  apply (G cs 0). intros. cbn. apply H; auto.
Qed.
Lemma filter_flat_map {A B} p (f : A -> list B) l : filter p (flat_map f l) = flat_map (fun a => filter p (f a)) l.
Proof. induction l; cbn; auto. rewrite filter_app. f_equal; auto. Qed.
Lemma map_flat_map {A B C} (h : B -> C) (f : A -> list B) l : map h (flat_map f l) = flat_map (fun a => map h (f a)) l.
Proof. induction l; cbn; auto. rewrite map_app. f_equal; auto. Qed.
Lemma concat_flat_map {A} (l : list (list A)) : concat l = flat_map (fun x => x) l.
Proof. induction l; cbn; auto. Qed.

Lemma uses_length k cs : length (flat_map (uses k cs) (seq 0 (length cs))) = occ k (concat cs).
Proof.
  unfold occ. rewrite concat_flat_map, filter_flat_map.
  rewrite <- (flat_map_seq (fun c => filter (fun z => pid z =? k) c)
     (fun i => match nth_error cs i with Some c => filter (fun z => pid z =? k) c | None => [] end) cs) by (intros i c ->; auto).
  apply flat_map_len. intros i _. unfold uses. destruct (nth_error cs i); auto. apply map_length.
Qed.

Lemma uses_in k cs n z : In z (flat_map (uses k cs) (seq 0 n)) <->
  exists i c z0, i < n /\ nth_error cs i = Some c /\ In z0 c /\ pid z0 = k /\ z = sign_cell z0 i.
Proof.
  rewrite in_flat_map. split.
  - intros (i & Ii & H). apply in_seq in Ii. unfold uses in H. destruct (nth_error cs i) as [c|] eqn:Hc; [|destruct H].
    apply in_map_iff in H as (z0 & <- & H). apply filter_In in H as [I E]. apply Nat.eqb_eq in E.
    exists i, c, z0. repeat split; auto; lia.
  - intros (i & c & z0 & Li & Hc & I & E & ->). exists i. split; [apply in_seq; lia|]. unfold uses. rewrite Hc.
    apply (in_map (fun z => sign_cell z i)). apply filter_In. split; auto. apply Nat.eqb_eq; auto.
Qed.

Lemma nodup_pid (l : list Z) e : NoDup l -> occ e l <= 2.
Proof.
  intros N. unfold occ. apply (NoDup_filter (fun z => pid z =? e)) in N.
  apply (NoDup_incl_length N (l' := [Z.of_nat e; Z.lnot (Z.of_nat e)])).
  intros z I. apply filter_In in I as [_ E]. apply Nat.eqb_eq in E. unfold pid, positiveID in E.
  destruct (Z.leb_spec 0 z); [left; lia|right; left; unfold Z.lnot in *; lia].
Qed.

(* ------------------------------------------------------------ the segments of all cells *)
Lemma wanted_snoc {S} i (evs : list (nat * bool * list S)) j b segs :
  wanted i (evs ++ [(j, b, segs)]) = if j =? i then (if b then segs else wanted i evs ++ segs) else wanted i evs.
Proof. unfold wanted. rewrite fold_left_app. cbn. auto. Qed.

Lemma flat_map_app_perm {A B} (f g : A -> list B) l :
  Permutation (flat_map (fun a => f a ++ g a) l) (flat_map f l ++ flat_map g l).
Proof.
  induction l as [|a l IH]; cbn; auto. rewrite IH, <- !app_assoc. apply Permutation_app_head.
  rewrite !app_assoc. apply Permutation_app_tail. apply Permutation_app_comm.
Qed.
Lemma flat_map_at {A} (l : list A) j n : j < n -> flat_map (fun i => if j =? i then l else []) (seq 0 n) = l.
Proof.
  intros L. induction n as [|n IH]; [lia|]. rewrite seq_S, flat_map_app. cbn [flat_map Nat.add].
  destruct (Nat.eqb_spec j n) as [->|N].
  - rewrite !app_nil_r. assert (Z : flat_map (fun i => if n =? i then l else []) (seq 0 n) = []).
    { clear. assert (G : forall m o, o + m <= n -> flat_map (fun i => if n =? i then l else []) (seq o m) = []).
      { induction m as [|m IH]; intros o Lo; cbn; auto. destruct (Nat.eqb_spec n o); [lia|]. apply IH. lia. }
      apply G. lia. }
    rewrite Z. auto.
  - rewrite !app_nil_r. apply IH. lia.
Qed.
Lemma wanted_walked {S} ng (evs : list (nat * bool * list S)) :
  (forall e, In e evs -> fst (fst e) < ng /\ snd (fst e) = false) ->
  Permutation (flat_map (fun i => wanted i evs) (seq 0 ng)) (walked evs).
Proof.
  induction evs as [|e evs IH] using rev_ind; intros B.
  - unfold walked, wanted; cbn. rewrite flat_map_concat_map. induction (seq 0 ng); cbn; auto.
  - destruct e as [[j b] segs]. destruct (B (j, b, segs)) as [L F]; [apply in_or_app; right; left; auto|]. cbn in L, F. subst b.
    rewrite (flat_map_ext _ (fun i => wanted i evs ++ (if j =? i then segs else []))).
    2:{ intros i. rewrite wanted_snoc. destruct (j =? i); [auto|rewrite app_nil_r; auto]. }
    rewrite flat_map_app_perm, flat_map_at by auto. unfold walked. rewrite flat_map_app. cbn. rewrite app_nil_r.
    apply Permutation_app_tail. apply IH. intros e I. apply B. apply in_or_app; auto.
Qed.

Definition solid (segs : list (pt * pt)) : list (pt * pt) := filter (fun s => negb (pt_eqb (fst s) (snd s))) segs.
Lemma snapped_id segs : snapped pt_eqb (fun p => p) segs = solid segs.
Proof. unfold snapped, solid. rewrite <- (map_id segs) at 2. f_equal. apply map_ext. intros []; auto. Qed.

Lemma cells_nodup ng evs ns es cs : (forall e, In e evs -> fst (fst e) < ng /\ snd (fst e) = false) ->
  ReadOut eq ng evs (fun p => p) ns es cs -> NoDup (solid (walked evs)) -> NoDup (concat cs).
Proof.
  intros B R N. apply (NoDup_map_inv (oriented_ends ns es)). rewrite concat_flat_map, map_flat_map.
  rewrite <- (flat_map_seq (fun c => map (oriented_ends ns es) c) (fun i => map Some (solid (wanted i evs)))).
  2:{ intros i c Hc. rewrite (ro_cells _ _ _ _ _ _ _ R i c Hc), snapped_id. auto. }
  rewrite (ro_ncells _ _ _ _ _ _ _ R), <- map_flat_map. apply FinFun.Injective_map_NoDup; [intros a b E; injection E; auto|].
  unfold solid. rewrite <- filter_flat_map. apply Permutation_NoDup with (solid (walked evs)); auto.
  unfold solid. apply Permutation_sym.
  assert (FP : forall (A : Type) p (l l' : list A), Permutation l l' -> Permutation (filter p l) (filter p l')).
  { clear. intros A p l l' H. induction H; cbn; auto.
    - destruct (p x); auto.
    - destruct (p x), (p y); auto. apply perm_swap.
    - etransitivity; eauto. }
  apply FP, wanted_walked. auto.
Qed.

(* every edge is walked by some cell when no cell is re-read *)
Lemma edge_walked ng evs ns es cs e a b : (forall e, In e evs -> fst (fst e) < ng /\ snd (fst e) = false) ->
  ReadOut eq ng evs (fun p => p) ns es cs -> nth_error es e = Some (a, b) -> exists c z, In c cs /\ In z c /\ pid z = e.
Proof.
  intros B R He. assert (I := nth_error_In _ _ He). destruct (ro_order _ _ _ _ _ _ _ R a b I) as [L1 L2].
  destruct (ro_used _ _ _ _ _ _ _ R a b I) as (s & Is & Hs).
  assert (J : In s (flat_map (fun i => wanted i evs) (seq 0 ng))).
  { eapply Permutation_in; [apply Permutation_sym, wanted_walked; auto|auto]. }
  apply in_flat_map in J as (i & Ii & J). apply in_seq in Ii.
  destruct (nth_error_ex cs i) as [c Hc]; [rewrite (ro_ncells _ _ _ _ _ _ _ R); lia|].
  pose proof (ro_cells _ _ _ _ _ _ _ R i c Hc) as Q. rewrite snapped_id in Q.
  assert (ND : forall i j p, nth_error ns i = Some p -> nth_error ns j = Some p -> i = j).
  { intros x y p Hx Hy. eapply (ro_apart _ _ _ _ _ _ _ R); eauto. }
  assert (Ne : fst s <> snd s).
  { intros E. rewrite E in Hs. destruct Hs as [[Ha Hb]|[Ha Hb]]; pose proof (ND _ _ _ Ha Hb); lia. }
  assert (K : In (Some s) (map (oriented_ends ns es) c)).
  { rewrite Q. apply in_map. apply filter_In. split; auto. apply negb_true_iff, not_true_is_false.
    intros E. apply pt_eqb_iff in E. auto. }
  apply in_map_iff in K as (z & Ez & Iz). exists c, z. split; [eapply nth_error_In; eauto|]. split; auto.
  unfold oriented_ends in Ez. destruct (nth_error es (pid z)) as [[a' b']|] eqn:Hz; [|discriminate].
  assert (I' := nth_error_In _ _ Hz). destruct (ro_order _ _ _ _ _ _ _ R a' b' I') as [L1' L2'].
  assert (E : (a', b') = (a, b)).
  { destruct (0 <=? z)%Z.
    - destruct (nth_error ns a') as [p|] eqn:A; [|discriminate]. destruct (nth_error ns b') as [q|] eqn:A'; [|discriminate].
      injection Ez as <-. cbn [fst snd] in Hs. destruct Hs as [[Ha Hb]|[Ha Hb]].
      + rewrite (ND _ _ _ A Ha), (ND _ _ _ A' Hb). auto.
      + pose proof (ND _ _ _ A Hb). pose proof (ND _ _ _ A' Ha). lia.
    - destruct (nth_error ns b') as [q|] eqn:A'; [|discriminate]. destruct (nth_error ns a') as [p|] eqn:A; [|discriminate].
      injection Ez as <-. cbn [fst snd] in Hs. destruct Hs as [[Ha Hb]|[Ha Hb]].
      + pose proof (ND _ _ _ A' Ha). pose proof (ND _ _ _ A Hb). lia.
      + rewrite (ND _ _ _ A Ha), (ND _ _ _ A' Hb). auto. }
  rewrite E in Hz. apply (proj1 (NoDup_nth_error es) (ro_edges _ _ _ _ _ _ _ R)); [eapply nth_error_lt; eauto|congruence].
Qed.

Lemma ids_in_range close ng evs sn ns es cs i c z : ReadOut close ng evs sn ns es cs ->
  nth_error cs i = Some c -> In z c -> pid z < length es.
Proof.
  intros R Hc Iz. pose proof (ro_cells _ _ _ _ _ _ _ R i c Hc) as Q.
  assert (K : In (oriented_ends ns es z) (map Some (snapped pt_eqb sn (wanted i evs)))) by (rewrite <- Q; apply in_map; auto).
  apply in_map_iff in K as (r & E & _). unfold oriented_ends in E.
  destruct (nth_error es (pid z)) eqn:X; [eapply nth_error_lt; eauto|discriminate].
Qed.

Lemma deq_length f ns : length (flat_map (dequantize f) ns) = 2 * length ns.
Proof. induction ns; cbn; auto. cbn in IHns. lia. Qed.

(* a filled mesh is well formed when every edge is used once or twice *)
Lemma fill_wf f ns es cs m :
  (forall i c z, nth_error cs i = Some c -> In z c -> pid z < length es) ->
  (forall a b, In (a, b) es -> a < length ns /\ b < length ns) ->
  (forall e, e < length es -> occ e (concat cs) = 1 \/ occ e (concat cs) = 2) ->
  fill f (length cs) ns es cs mesh_new = Ok m -> WellFormed 2 m.
Proof.
  intros Bc Be Bo E.
  destruct (fill_ok f (length cs) ns es cs mesh_new (Nat.le_refl _) Bc) as (m' & E' & Hn & Hc & Hf & Lf & Hfc & _ & _ & _ & _ & Hsn & Hsf).
  { cbn. rewrite firstn_nil. constructor. }
  rewrite E in E'. injection E' as <-. cbn [mesh_new faceCells] in Hfc. rewrite resize_nil in Hfc.
  assert (FC : forall k l, nth_error (faceCells m) k = Some l -> k < length es /\ l = flat_map (uses k cs) (seq 0 (length cs))).
  { intros k l H. assert (Lk := nth_error_lt _ _ _ H). rewrite Lf in Lk. split; auto.
    rewrite (Hfc k []) in H by (apply nth_error_repeat; auto). injection H as <-. auto. }
  constructor.
  - exists (length ns). rewrite Hn. apply deq_length.
  - rewrite Hc, Hf, map_length. eauto.
  - intros i fn n H I. rewrite Hf, nth_error_map in H. destruct (nth_error es i) as [[a b]|] eqn:Hi; [|discriminate].
    injection H as <-. destruct (Be a b) as [La Lb]; [eapply nth_error_In; eauto|]. rewrite Hn, deq_length.
    cbn in I. destruct I as [<-|[<-|[]]]; lia.
  - rewrite Lf, Hf, map_length. auto.
  - intros k l H. destruct (FC k l H) as [Lk ->]. rewrite uses_length. auto.
  - rewrite Hc. intros i c z l H I Hl. destruct (FC _ _ Hl) as [Lk ->]. apply uses_in.
    exists i, c, z. repeat split; auto. eapply nth_error_lt; eauto.
  - rewrite Hc. intros k l z H I. destruct (FC k l H) as [Lk ->]. apply uses_in in I as (i & c & z0 & Li & Hi & I & Ez & ->).
    exists c. rewrite pid_sign_cell. split; auto.
    assert (X : sign_face (sign_cell z0 i) k = z0); [|rewrite X; auto].
    unfold sign_face. subst k. unfold pid, positiveID. pose proof (sign_cell_nonneg z0 i).
    destruct (Z.leb_spec 0 z0), (Z.leb_spec 0 (sign_cell z0 i)); unfold Z.lnot in *; lia.
  - rewrite Hsn, Hsf. reflexivity.
  - intros d l n H. rewrite Hsn in H. destruct d; discriminate.
  - intros d l n H. rewrite Hsf in H. destruct d; discriminate.
Qed.
