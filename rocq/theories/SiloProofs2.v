(* Proofs about the objects of a file: they can be found, and hold what they should. *)
From Coq Require Import String.
From Verif Require Import Base BaseFacts SerializeModel MeshModel MeshSpec HullProofs3 SiloModel SiloSpec SiloProofs.
Local Open Scope nat_scope.
Local Open Scope list_scope.

Lemma nodup_split {A} (a b : list A) : NoDup (a ++ b) -> NoDup b /\ forall x, In x a -> ~ In x b.
Proof.
  induction a as [|y a IH]; cbn; [auto|]. intros N. inversion N as [|? ? K N']; subst. apply IH in N' as [P Q]. split; auto. intros x [->|I]; auto. rewrite in_app_iff in K. tauto.
Qed.
Section Objects.
  Context {V : Type}.
  Lemma found_in (f : silo V) name o : NoDup (map fst f) -> In (name, o) f -> Found f name o.
  Proof.
    intros N I. split; auto. intros o' I'. induction f as [|[k x] f IH]; [destruct I|]. cbn in N. inversion N as [|k' f' K N']; subst.
    destruct I as [I|I], I' as [I'|I']; [congruence| | |auto].
    - injection I as -> ->. destruct K. exact (in_map fst _ _ I').
    - injection I' as -> ->. destruct K. exact (in_map fst _ _ I).
  Qed.
  Lemma found_det (f : silo V) name o o' : Found f name o -> Found f name o' -> o = o'.
  Proof. intros [_ U] [I _]. symmetry. auto. Qed.

  Lemma take_ok (l : list V) n : n <= length l -> mmap (fun i => get l i) (seq 0 n) = Ok (firstn n l).
  Proof.
    intros L. apply mmap_eq, forall2_of_nth; [rewrite seq_length, firstn_length; lia|]. intros i a b A B.
    assert (i < n) by (apply nth_error_lt in A; rewrite seq_length in A; auto).
    rewrite (nth_error_nth' _ 0), seq_nth in A by (rewrite ?seq_length; auto). injection A as <-. cbn. apply get_ok.
    rewrite <- (firstn_skipn n l), nth_error_app1; auto. rewrite firstn_length; lia.
  Qed.
  Lemma fields_ok fields n c : (forall f, In f fields -> n <= length (snd f)) ->
    writeFields fields n c = Ok (map (fun f => (fst f, Ucdvar (V := V) (firstn n (snd f)) c)) fields).
  Proof. intros L. apply mmap_ok. intros f I. rewrite take_ok by auto. auto. Qed.
  Definition fieldObjs (fs : list (string * list V)) n c : silo V := map (fun f => (fst f, Ucdvar (firstn n (snd f)) c)) fs.
  Lemma fieldObjs_names fs n c : map fst (fieldObjs fs n c) = map fst fs.
  Proof. unfold fieldObjs. rewrite map_map. auto. Qed.
  Definition extraObjs (D : nat) (m : mesh V) (e : extras V) : silo V :=
    writeTags (nodeT e) NodeCent ++ writeTags (edgeT e) EdgeCent ++ writeTags (faceT e) FaceCent ++ writeTags (cellT e) ZoneCent ++
    fieldObjs (nodeF e) (length (nodes m) / D) NodeCent ++ fieldObjs (edgeF e) (length (faces m)) EdgeCent ++
    fieldObjs (faceF e) (length (faces m)) FaceCent ++ fieldObjs (cellF e) (length (cells m)) ZoneCent.
  Lemma extras_ok D (m : mesh V) e : Long D m e -> writeExtras D m e = Ok (extraObjs D m e).
  Proof. intros (A & B & C & E). unfold writeExtras. rewrite !fields_ok by auto. reflexivity. Qed.
  Lemma extras_inv D (m : mesh V) e f : writeExtras D m e = Ok f -> Long D m e.
  Proof.
    assert (G : forall fields n c o, writeFields (V := V) fields n c = Ok o -> forall f, In f fields -> n <= length (snd f)).
    { intros fields n c o H g I. apply mmap_inv in H. destruct (Forall2_in_l _ _ _ _ H I) as (b & _ & B). apply bind_ok in B as (v & Hv & _).
      destruct n; [lia|]. apply mmap_inv in Hv. destruct (Forall2_in_l _ _ _ n Hv) as (x & _ & X); [apply in_seq; lia|]. apply get_ok in X. apply nth_error_lt in X. lia. }
    unfold writeExtras. intros H. apply bind_ok in H as (a & A & H). apply bind_ok in H as (b & B & H). apply bind_ok in H as (c & C & H). apply bind_ok in H as (d & E & H).
    unfold Long. eauto 10.
  Qed.
  Lemma extra_names D (m : mesh V) e own : incl own ["boundary_faces"; "mesh"; "mesh_zonelist"; "conn"; "convexhull"]%string -> NoDup own -> Apart e ->
    NoDup (own ++ map fst (extraObjs D m e)).
  Proof.
    unfold Apart, fieldNames, extraObjs, reserved. intros I O N. rewrite !map_app, !fieldObjs_names.
    change (["boundary_faces"; "mesh"; "mesh_zonelist"; "conn"; "convexhull"; "node_tags"; "edge_tags"; "face_tags"; "cell_tags"]%string) with
      (["boundary_faces"; "mesh"; "mesh_zonelist"; "conn"; "convexhull"]%string ++ ["node_tags"; "edge_tags"; "face_tags"; "cell_tags"]%string) in N.
    revert N I O. generalize (map fst (nodeF e) ++ map fst (edgeF e) ++ map fst (faceF e) ++ map fst (cellF e)). intros F N I O.
    rewrite <- app_assoc in N. 
    assert (S : forall l k, exists t, map fst (writeTags (V := V) l k) = t /\ (t = [] \/ t = [tagList k])) by (intros [|x l] k; cbn; eauto).
    destruct (S (nodeT e) NodeCent) as (t1 & -> & T1), (S (edgeT e) EdgeCent) as (t2 & -> & T2), (S (faceT e) FaceCent) as (t3 & -> & T3), (S (cellT e) ZoneCent) as (t4 & -> & T4). clear S.
    assert (X : forall x, In x own -> In x (["boundary_faces"; "mesh"; "mesh_zonelist"; "conn"; "convexhull"]%string)) by auto.
    assert (P : NoDup (t1 ++ t2 ++ t3 ++ t4 ++ F) /\ incl (t1 ++ t2 ++ t3 ++ t4 ++ F) (["node_tags"; "edge_tags"; "face_tags"; "cell_tags"]%string ++ F)).
    { assert (N2 := proj1 (nodup_split _ _ N)).
      clear -T1 T2 T3 T4 N2. cbn in N2. inversion N2 as [|a l N0 N2']; subst. inversion N2' as [|a l N1 N3]; subst. inversion N3 as [|a l N4 N5]; subst. inversion N5 as [|a l N6 N7]; subst. clear N2 N2' N3 N5. cbn [In] in *.
      destruct T1 as [-> | ->], T2 as [-> | ->], T3 as [-> | ->], T4 as [-> | ->]; cbn [app tagList]; (split; [repeat constructor; cbn [In]; tauto|intros x; cbn [In app]; tauto]). }
    destruct P as [P1 P2]. revert P1 P2. generalize (t1 ++ t2 ++ t3 ++ t4 ++ F). intros L P1 P2.
    assert (Dj : forall x, In x own -> ~ In x L).
    { intros x Hx Hl. apply X in Hx. apply P2 in Hl. exact (proj2 (nodup_split _ _ N) x Hx Hl). }
    clear -O P1 Dj. induction own as [|a own IH]; auto. inversion O; subst. cbn. constructor.
    - rewrite in_app_iff. intros [?|?]; [auto|]. exact (Dj a (or_introl eq_refl) H).
    - apply IH; auto. intros x I. apply Dj. right; auto.
  Qed.

  (* elements of a compound array *)
  Lemma element3 n0 n1 n2 (a b c : list Z) : 
    let names := [n0; n1; n2] in let lens := [Z.of_nat (length a); Z.of_nat (length b); Z.of_nat (length c)] in let v := a ++ b ++ c in
    Element names lens v n0 a /\ Element names lens v n1 b /\ Element names lens v n2 c.
  Proof.
    cbv zeta. repeat split.
    - exists [], [n1; n2], [], [Z.of_nat (length b); Z.of_nat (length c)], [], (b ++ c). auto 10.
    - exists [n0], [n2], [Z.of_nat (length a)], [Z.of_nat (length c)], a, c. cbn. rewrite Z.add_0_r. auto 10.
    - exists [n0; n1], [], [Z.of_nat (length a); Z.of_nat (length b)], [], (a ++ b), []. rewrite app_nil_r, <- app_assoc, app_length. cbn. repeat split; auto. lia.
  Qed.
  Lemma element_det names lens v name l l' : NoDup names -> Element names lens v name l -> Element names lens v name l' -> l = l'.
  Proof.
    intros N (n0 & n1 & l0 & l1 & p & q & E1 & E2 & E3 & E4 & E5) (n0' & n1' & l0' & l1' & p' & q' & F1 & F2 & F3 & F4 & F5). subst names lens v.
    assert (length n0 = length n0').
    { pose proof (proj1 (NoDup_nth_error _) N (length n0) (length n0')) as U. apply U; [rewrite app_length; cbn; lia|]. rewrite nth_error_app2, Nat.sub_diag by lia. cbn. rewrite F1, nth_error_app2, Nat.sub_diag by lia. auto. }
    apply app_len_inj in F2 as [-> F2]; [|lia]. injection F2 as L _. assert (length p = length p') by lia. apply app_len_inj in F4 as [-> F4]; auto. apply app_len_inj in F4 as [-> _]; auto. lia.
  Qed.
  Lemma sizes_len {A} (l : list (list A)) : length (sizes l) = length l.
  Proof. apply map_length. Qed.
  Lemma hull_ok (m : mesh V) : exists names lens v l, hull m = Compound names lens v /\ NoDup names /\
    Element names lens v "nfacets" [Z.of_nat (length (facets (convexHull m)))] /\ Element names lens v "nfacetnodes" (sizes (facets (convexHull m))) /\
    Element names lens v "facetnodes" l /\ Pieces (map (@length Z) (facets (convexHull m))) l (facets (convexHull m)).
  Proof.
    set (fs := facets (convexHull m)). pose proof (element3 "nfacets" "nfacetnodes" "facetnodes" [Z.of_nat (length fs)] (sizes fs) (List.concat fs)) as E. cbv zeta in E.
    rewrite sizes_len in E. cbn [length] in E. eexists _, _, _, (List.concat fs). split; [|split; [|split; [apply E|split; [apply E|split; [apply E|apply pieces_concat]]]]].
    - unfold hull. fold fs. cbv zeta. cbn [app]. do 2 f_equal. cbn [length]. rewrite app_length, sizes_len. f_equal. f_equal. lia.
    - repeat constructor; cbn; intuition discriminate.
  Qed.
  (* the numbers in the cell-face data, and the lengths given for its elements *)
  Definition twice (fc : list Z) : list Z := match fc with [] => [] | a :: _ => [a; a] end.
  Definition connVals (enc : Z -> Z) (m : mesh V) : list Z := sizes (cells m) ++ flat_map (map enc) (cells m) ++ flat_map twice (faceCells m).
  Lemma flat_enc_len (enc : Z -> Z) (l : list (list Z)) : length (flat_map (map enc) l) = length (List.concat l).
  Proof. induction l as [|c l IH]; cbn; auto. rewrite !app_length, map_length, IH. auto. Qed.
  Lemma twice_len (l : list (list Z)) : (forall fc, In fc l -> fc <> []) -> length (flat_map twice l) = 2 * length l.
  Proof. induction l as [|c l IH]; intros H; cbn; auto. rewrite app_length, IH by (intros; apply H; right; auto). destruct c; [destruct (H [] (or_introl eq_refl) eq_refl)|cbn; lia]. Qed.
  Lemma conn_ok (enc : Z -> Z) (m : mesh V) : (forall fc, In fc (faceCells m) -> fc <> []) -> length (faceCells m) = length (faces m) ->
    let C := Z.of_nat (length (cells m)) in let F := Z.of_nat (length (faces m)) in let S := Z.of_nat (length (List.concat (cells m))) in
    conn enc m = Ok (Compound ["ncellfaces"; "cellfaces"; "facecells"]%string [C; 2 * F - C; C + S]%Z (connVals enc m)).
  Proof.
    intros H L. cbv zeta. unfold conn. rewrite (mmap_ok _ twice) by (intros fc I; specialize (H fc I); destruct fc; [congruence|reflexivity]). cbn [bind]. cbv zeta.
    rewrite <- flat_map_concat_map. fold (connVals enc m).
    assert (Z.of_nat (length (connVals enc m)) = Z.of_nat (length (cells m)) + Z.of_nat (length (List.concat (cells m))) + 2 * Z.of_nat (length (faces m)))%Z as E.
    { unfold connVals. rewrite !app_length, sizes_len, flat_enc_len, twice_len, L by auto. lia. }
    do 2 f_equal. f_equal; f_equal; [lia|]. f_equal. lia.
  Qed.
  Lemma wf_fc_nonempty D (m : mesh V) : WellFormed D m -> forall fc, In fc (faceCells m) -> fc <> [].
  Proof. intros W fc I ->. apply In_nth_error in I as [i I]. destruct (wf_fc _ _ W _ _ I) as [K|K]; discriminate. Qed.

  Definition bpair (m : mesh V) (f : nat) (b : list nat) : Prop := nth_error (faces m) f = Some b.
  Lemma bounds_ok (m : mesh V) : Planar m -> exists bs, mmap (fun f => do ns <- get (faces m) f; do a <- get ns 0; do b <- get ns 1; Ok [a; b]) (boundaryFaces m) = Ok bs /\
    Forall2 (fun f b => nth_error (faces m) f = Some b /\ length b = 2) (boundaryFaces m) bs.
  Proof.
    intros P. apply mmap_forall2. intros f I. destruct (nth_error_ex _ _ (pl_bound _ P _ I)) as [ns N]. rewrite (proj2 (get_ok _ _ _) N). cbn [bind].
    pose proof (pl_faces _ P _ (nth_error_In _ _ N)) as L. destruct ns as [|a [|b [|? ?]]]; try discriminate. cbn. eauto.
  Qed.
End Objects.

Section Files.
  Context {V : Type}.
  Lemma write2_ok (m : mesh V) (e : extras V) : Planar m -> Long 2 m e ->
    exists x y bs rings, let nc := length (cells m) in
      write2 m e = Ok ([("boundary_faces"%string, Facelist (length (boundaryFaces m)) 2 (zs (List.concat bs)));
         ("mesh"%string, Ucdmesh [x; y] (length (nodes m) / 2) nc);
         ("mesh_zonelist"%string, Zonelist nc 2 (flat_map (fun r => Z.of_nat (length r) :: zs r) rings) (repeat 0 nc) (repeat 1 nc));
         ("conn"%string, Compound ["ncellfaces"; "cellfaces"; "facecells"]%string [Z.of_nat nc; 2 * Z.of_nat (length (faces m)) - Z.of_nat nc; Z.of_nat nc + Z.of_nat (length (List.concat (cells m)))]%Z (connVals (fun z => z) m));
         ("convexhull"%string, hull m)] ++ extraObjs 2 m e) /\
      Coordinates 2 m [x; y] (length (nodes m) / 2) /\
      Forall2 (fun f b => nth_error (faces m) f = Some b /\ length b = 2) (boundaryFaces m) bs /\ Forall2 (Traces m) (cells m) rings.
  Proof.
    intros P Lg. destruct (wf_nodes _ _ (pl_wf _ P)) as [n Ln].
    destruct (coords_ok 2 0 m n ltac:(lia) ltac:(lia) Ln) as (x & Ex & Lx & Hx). destruct (coords_ok 2 1 m n ltac:(lia) ltac:(lia) Ln) as (y & Ey & Ly & Hy).
    destruct (bounds_ok m P) as (bs & Eb & Fb). destruct (rings_ok m P) as (rings & Er & Fr).
    exists x, y, bs, rings. cbv zeta. unfold write2. rewrite Ex. cbn [bind]. rewrite Ey. cbn [bind]. rewrite Eb. cbn [bind]. rewrite Er. cbn [bind]. cbv zeta.
    rewrite conn_ok by (apply (wf_fc_nonempty 2) || apply (wf_fcs _ _ (pl_wf _ P)); apply (pl_wf _ P)). cbn [bind]. rewrite extras_ok by auto. cbn [bind].
    assert (length (nodes m) / 2 = n) as Q by (rewrite Ln, Nat.mul_comm, Nat.div_mul; lia).
    split; [reflexivity|]. split; [|auto]. rewrite Q. split; [auto|]. split; [auto|]. intros [|[|k]] z K; [injection K as <-|injection K as <-|destruct k; discriminate]; auto.
  Qed.
  Lemma flags_ok nf fs : (forall f, In f fs -> f < nf) -> exists fl, mfold (fun fl f => do _ <- assert (f <? nf); set fl f true) fs (repeat false nf) = Ok fl /\
    length fl = nf /\ forall f, nth_error fl f = Some true <-> In f fs.
  Proof.
    intros B. destruct (mfold_inv (fun fl f => do _ <- assert (f <? nf); set fl f true) (fun done fl => length fl = nf /\ forall f, nth_error fl f = Some true <-> In f done) fs (repeat false nf)) as (fl & E & H).
    - split; [apply repeat_length|]. intros f. split; [|intros []]. intros H. destruct (Nat.lt_ge_cases f nf).
      + rewrite nth_error_repeat in H; auto. discriminate.
      + rewrite (proj2 (nth_error_None _ _)) in H; [discriminate|rewrite repeat_length; auto].
    - intros l1 a l2 s -> [L H]. assert (A : a < nf) by (apply B, in_app_iff; right; left; auto). rewrite (proj2 (Nat.ltb_lt _ _) A). cbn [assert bind].
      rewrite set_lt by lia. eexists. split; [reflexivity|]. rewrite upd_length. split; auto. intros f. rewrite upd_nth, in_app_iff. cbn [In].
      destruct (Nat.eqb_spec a f) as [->|N]; cbn [andb]; [rewrite L, (proj2 (Nat.ltb_lt _ _) A); tauto|]. rewrite H. tauto.
    - exists fl. tauto.
  Qed.
  Lemma write3_ok (m : mesh V) (e : extras V) : WellFormed 3 m -> (forall f, In f (boundaryFaces m) -> f < length (faces m)) -> Long 3 m e ->
    exists x y z flags, let nc := length (cells m) in
      write3 m e = Ok ([("mesh"%string, Ucdmesh [x; y; z] (length (nodes m) / 3) nc);
         ("mesh_zonelist"%string, PHZonelist (map (@length nat) (faces m)) (zs (List.concat (faces m))) flags (map (@length Z) (cells m)) (List.concat (cells m)) 0 (Z.of_nat nc - 1));
         ("conn"%string, Compound ["ncellfaces"; "cellfaces"; "facecells"]%string [Z.of_nat nc; 2 * Z.of_nat (length (faces m)) - Z.of_nat nc; Z.of_nat nc + Z.of_nat (length (List.concat (cells m)))]%Z
                              (connVals (fun z => if (z <? 0)%Z then Z.lnot z else z) m));
         ("convexhull"%string, hull m)] ++ extraObjs 3 m e) /\
      Coordinates 3 m [x; y; z] (length (nodes m) / 3) /\ length flags = length (faces m) /\ forall f, nth_error flags f = Some true <-> In f (boundaryFaces m).
  Proof.
    intros W B Lg. destruct (wf_nodes _ _ W) as [n Ln].
    destruct (coords_ok 3 0 m n ltac:(lia) ltac:(lia) Ln) as (x & Ex & Lx & Hx). destruct (coords_ok 3 1 m n ltac:(lia) ltac:(lia) Ln) as (y & Ey & Ly & Hy). destruct (coords_ok 3 2 m n ltac:(lia) ltac:(lia) Ln) as (z & Ez & Lz & Hz).
    destruct (flags_ok _ _ B) as (fl & Ef & Lf & Hf).
    exists x, y, z, fl. cbv zeta. unfold write3. rewrite Ex. cbn [bind]. rewrite Ey. cbn [bind]. rewrite Ez. cbn [bind]. cbv zeta. rewrite Ef. cbn [bind].
    rewrite conn_ok by (apply (wf_fc_nonempty 3) || apply (wf_fcs _ _ W); auto). cbn [bind]. rewrite extras_ok by auto. cbn [bind].
    assert (length (nodes m) / 3 = n) as Q by (rewrite Ln, Nat.mul_comm, Nat.div_mul; lia).
    split; [reflexivity|]. split; [|auto]. rewrite Q. split; [auto|]. split; [auto|]. intros [|[|[|k]]] w K; [injection K as <-|injection K as <-|injection K as <-|destruct k; discriminate]; auto.
  Qed.
  Lemma names2 (m : mesh V) e o1 o2 o3 o4 o5 : Apart e -> NoDup (map fst ([("boundary_faces"%string, o1); ("mesh"%string, o2); ("mesh_zonelist"%string, o3); ("conn"%string, o4); ("convexhull"%string, o5)] ++ extraObjs 2 m e)).
  Proof.
    intros A. rewrite map_app. apply extra_names; auto; cbn [map fst]; [apply incl_refl|]. repeat constructor; cbn; intuition discriminate.
  Qed.
  Lemma names3 (m : mesh V) e o2 o3 o4 o5 : Apart e -> NoDup (map fst ([("mesh"%string, o2); ("mesh_zonelist"%string, o3); ("conn"%string, o4); ("convexhull"%string, o5)] ++ extraObjs 3 m e)).
  Proof.
    intros A. rewrite map_app. apply extra_names; auto; cbn [map fst]; [intros x I; right; exact I|]. repeat constructor; cbn; intuition discriminate.
  Qed.
End Files.
