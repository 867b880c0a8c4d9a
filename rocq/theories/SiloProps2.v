(* The spatial file (C71), the cell-face data and the tags (C72), fields (C73), and concrete cases. *)
From Coq Require Import String.
From Verif Require Import Base BaseFacts SerializeModel MeshModel MeshSpec MeshCheck MeshProps HullProofs3 SiloModel SiloSpec SiloProofs SiloProofs2 SiloProps.
Local Open Scope nat_scope.
Local Open Scope list_scope.

(* ---- C71 ---- *)
Theorem space_file : forall V (m : mesh V) e, Spatial m -> Long 3 m e -> Apart e ->
  exists f, write3 m e = Ok f /\
    (exists xs n, Found f "mesh" (Ucdmesh xs n (length (cells m))) /\ Coordinates 3 m xs n) /\
    (exists nodecnt nodelist ext facecnt facelist, Found f "mesh_zonelist" (PHZonelist nodecnt nodelist ext facecnt facelist 0 (Z.of_nat (length (cells m)) - 1)) /\
       Pieces nodecnt nodelist (map (map Z.of_nat) (faces m)) /\ Pieces facecnt facelist (cells m) /\
       length ext = length (faces m) /\ forall i, nth_error ext i = Some true <-> In i (boundaryFaces m)) /\
    (exists names lens v l, Found f "convexhull" (Compound names lens v) /\ NoDup names /\
       Element names lens v "nfacets" [Z.of_nat (length (facets (convexHull m)))] /\
       Element names lens v "nfacetnodes" (map (fun x => Z.of_nat (length x)) (facets (convexHull m))) /\
       Element names lens v "facetnodes" l /\ Pieces (map (@length Z) (facets (convexHull m))) l (facets (convexHull m))).
Proof.
  intros V m e [W B] Lg A. destruct (write3_ok m e W B Lg) as (x & y & z & flags & E & Co & Lf & Hf).
  eexists. split; [exact E|]. split; [|split].
  - exists [x; y; z], (length (nodes m) / 3). split; [listed|auto].
  - eexists _, _, flags, _, _. split; [listed|]. split; [exact (pieces_zs _)|]. split; [apply pieces_concat|auto].
  - destruct (hull_ok m) as (names & lens & v & l & E1 & E2 & E3 & E4 & E5 & E6). exists names, lens, v, l. rewrite <- E1. split; [listed|auto 10].
Qed.
Print Assumptions space_file.

Theorem space_file_determines : forall V (m m' : mesh V) e e' f f', Spatial m -> Spatial m' -> Apart e -> Apart e' ->
  write3 m e = Ok f -> write3 m' e' = Ok f' -> Same f f' ->
  nodes m = nodes m' /\ cells m = cells m' /\ faces m = faces m' /\ facets (convexHull m) = facets (convexHull m') /\
  forall i, In i (boundaryFaces m) <-> In i (boundaryFaces m').
Proof.
  intros V m m' e e' f f' [W B] [W' B'] A A' E E' Sm.
  assert (Lg : Long 3 m e). { unfold write3 in E. repeat (apply bind_ok in E as (? & ? & E)). cbv zeta in E. repeat (apply bind_ok in E as (? & ? & E)). eapply extras_inv; eauto. }
  assert (Lg' : Long 3 m' e'). { unfold write3 in E'. repeat (apply bind_ok in E' as (? & ? & E')). cbv zeta in E'. repeat (apply bind_ok in E' as (? & ? & E')). eapply extras_inv; eauto. }
  destruct (space_file V m e (Build_Spatial _ m W B) Lg A) as (g & G & (xs & n & F1 & Co) & (nc & nl & ex & fc & fl & F2 & P1 & P2 & _ & Hb) & (n1 & l1 & v1 & k1 & F3 & D1 & _ & S1 & K1 & Q1)).
  destruct (space_file V m' e' (Build_Spatial _ m' W' B') Lg' A') as (g' & G' & (xs' & n' & F1' & Co') & (nc' & nl' & ex' & fc' & fl' & F2' & P1' & P2' & _ & Hb') & (n2 & l2 & v2 & k2 & F3' & D2 & _ & S2 & K2 & Q2)).
  assert (g = f) by congruence. assert (g' = f') by congruence. subst g g'. apply Sm in F1. apply Sm in F2. apply Sm in F3.
  pose proof (found_det _ _ _ _ F1 F1') as U1. pose proof (found_det _ _ _ _ F2 F2') as U2. pose proof (found_det _ _ _ _ F3 F3') as U3.
  injection U1 as <- <- _. injection U2 as <- <- <- <- <- _. injection U3 as <- <- <-.
  split; [apply (coordinates_det 3 m m' xs n); auto; lia|]. split; [exact (pieces_det _ _ _ P2 _ P2')|]. split; [apply map_zs_inj; exact (pieces_det _ _ _ P1 _ P1')|]. split.
  - assert (k2 = k1) by (eapply element_det; eauto). subst k2. pose proof (element_det _ _ _ _ _ _ D1 S1 S2) as Q.
    apply (pieces_det _ _ _ Q1). replace (map (@length Z) (facets (convexHull m))) with (map (@length Z) (facets (convexHull m'))); auto.
    clear -Q. revert Q. generalize (facets (convexHull m')). induction (facets (convexHull m)) as [|c l IH]; intros [|c' l'] H; try discriminate; auto. injection H as H1 H2. cbn. f_equal; [lia|auto].
  - intros i. rewrite <- Hb, <- Hb'. tauto.
Qed.
Print Assumptions space_file_determines.

(* ---- C72 ---- *)
(* the cell-face data: what it holds, and when the lengths given for its elements are right *)
Theorem cell_faces_partial : forall V (m : mesh V) e f, Apart e ->
  ((Planar m /\ write2 m e = Ok f) \/ (Spatial m /\ write3 m e = Ok f)) ->
  exists lens faceids firsts, let sz := map (fun c => Z.of_nat (length c)) (cells m) in
    let names := ["ncellfaces"; "cellfaces"; "facecells"]%string in
    Found f "conn" (Compound names lens (sz ++ List.concat faceids ++ List.concat firsts)) /\
    Element names lens (sz ++ List.concat faceids ++ List.concat firsts) "ncellfaces" sz /\
    (Planar m -> write2 m e = Ok f -> faceids = cells m) /\
    (Spatial m -> write3 m e = Ok f -> faceids = map (map (fun z => Z.of_nat (pid z))) (cells m)) /\
    Forall2 (fun fc p => exists a t, fc = a :: t /\ p = [a; a]) (faceCells m) firsts /\
    (length (cells m) + length (List.concat (cells m)) = 2 * length (faces m) <->
       Element names lens (sz ++ List.concat faceids ++ List.concat firsts) "cellfaces" (List.concat faceids) /\
       Element names lens (sz ++ List.concat faceids ++ List.concat firsts) "facecells" (List.concat firsts)).
Proof.
  intros V m e f A H.
  assert (Enc : forall c : list Z, map (fun z => if (z <? 0)%Z then Z.lnot z else z) c = map (fun z => Z.of_nat (pid z)) c).
  { intros c. apply map_ext. intros z. unfold pid, positiveID, Z.lnot. destruct (z <? 0)%Z eqn:Q1, (0 <=? z)%Z eqn:Q2; lia. }
  set (C := Z.of_nat (length (cells m))). set (F := Z.of_nat (length (faces m))). set (S := Z.of_nat (length (List.concat (cells m)))).
  assert (G : exists ids, length (List.concat ids) = length (List.concat (cells m)) /\ (Planar m -> write2 m e = Ok f -> ids = cells m) /\ (Spatial m -> write3 m e = Ok f -> ids = map (map (fun z => Z.of_nat (pid z))) (cells m)) /\
     Found f "conn" (Compound ["ncellfaces"; "cellfaces"; "facecells"]%string [C; 2 * F - C; C + S]%Z (sizes (cells m) ++ List.concat ids ++ flat_map twice (faceCells m))) /\
     (forall fc, In fc (faceCells m) -> fc <> []) /\ length (faceCells m) = length (faces m)).
  { destruct H as [[P E]|[P E]].
    - assert (Lg : Long 2 m e). { pose proof E as E'. unfold write2 in E'. repeat (apply bind_ok in E' as (? & ? & E')). cbv zeta in E'. repeat (apply bind_ok in E' as (? & ? & E')). eapply extras_inv; eauto. }
      destruct (write2_ok m e P Lg) as (x & y & bs & rings & Ef & Co & Fb & Fr). rewrite E in Ef. apply ok_inj in Ef.
      exists (cells m). split; auto. split; auto. split.
      { intros P3 E3. exfalso. unfold write3 in E3. repeat (apply bind_ok in E3 as (? & ? & E3)). cbv zeta in E3. repeat (apply bind_ok in E3 as (? & ? & E3)). apply ok_inj in E3. rewrite Ef in E3. discriminate. }
      split; [|split; [apply (wf_fc_nonempty 2), (pl_wf _ P)|apply (wf_fcs _ _ (pl_wf _ P))]]. rewrite Ef. apply found_in; [apply names2; auto|]. do 3 right. left. unfold connVals. do 2 f_equal. f_equal. f_equal. 
      rewrite flat_map_concat_map, (map_ext _ (fun c => c) (@map_id Z)), map_id. auto.
    - assert (Lg : Long 3 m e). { pose proof E as E'. unfold write3 in E'. repeat (apply bind_ok in E' as (? & ? & E')). cbv zeta in E'. repeat (apply bind_ok in E' as (? & ? & E')). eapply extras_inv; eauto. }
      destruct (write3_ok m e (sp_wf _ P) (sp_bound _ P) Lg) as (x & y & z & flags & Ef & Co & Fb & Fr). rewrite E in Ef. apply ok_inj in Ef.
      exists (map (map (fun z => Z.of_nat (pid z))) (cells m)). split. { rewrite <- (flat_enc_len (fun z => Z.of_nat (pid z)) (cells m)), flat_map_concat_map. auto. } split.
      { intros P3 E3. exfalso. unfold write2 in E3. repeat (apply bind_ok in E3 as (? & ? & E3)). cbv zeta in E3. repeat (apply bind_ok in E3 as (? & ? & E3)). apply ok_inj in E3. rewrite Ef in E3. discriminate. }
      split; auto. split; [|split; [apply (wf_fc_nonempty 3), (sp_wf _ P)|apply (wf_fcs _ _ (sp_wf _ P))]]. rewrite Ef. apply found_in; [apply names3; auto|]. do 2 right. left. unfold connVals. do 2 f_equal. f_equal. f_equal. 
      rewrite flat_map_concat_map. f_equal. apply map_ext. auto. }
  destruct G as (ids & L & I2 & I3 & Fd & Ne & Lf). exists [C; 2 * F - C; C + S]%Z, ids, (map twice (faceCells m)). cbv zeta. rewrite <- flat_map_concat_map. split; [exact Fd|]. 
  assert (N : NoDup ["ncellfaces"; "cellfaces"; "facecells"]%string) by (repeat constructor; cbn; intuition discriminate).
  split. { eexists [], _, [], _, [], _. repeat split; cbn. rewrite map_length. reflexivity. }
  split; auto. split; auto. split.
  { clear -Ne. induction (faceCells m) as [|fc l IH]; cbn; constructor; [|apply IH; intros; apply Ne; right; auto]. destruct fc as [|a t]; [destruct (Ne [] (or_introl eq_refl) eq_refl)|]. exists a, t. auto. }
  pose proof (element3 "ncellfaces" "cellfaces" "facecells" (sizes (cells m)) (List.concat ids) (flat_map twice (faceCells m))) as E3. cbv zeta in E3. rewrite sizes_len, L, twice_len, Lf in E3 by auto.
  split.
  - intros Q. assert ([C; 2 * F - C; C + S]%Z = [Z.of_nat (length (cells m)); Z.of_nat (length (List.concat (cells m))); Z.of_nat (2 * length (faces m))]) as -> by (subst C F S; f_equal; f_equal; [lia|f_equal; lia]). tauto.
  - intros [(n0 & n1 & l0 & l1 & p & q & X1 & X2 & X3 & _) _]. 
    destruct n0 as [|? [|? n0]]; [injection X1; discriminate| |destruct n0 as [|? [|? ?]]; [injection X1; discriminate|discriminate|discriminate]]. destruct l0 as [|c0 [|? ?]]; try discriminate.
    assert (X4 : nth_error [C; 2 * F - C; C + S]%Z 1 = Some (Z.of_nat (length (List.concat ids)))) by (rewrite X2; auto). cbn [nth_error] in X4. assert (X5 : (2 * F - C = Z.of_nat (length (List.concat ids)))%Z) by congruence. subst C F. lia.
Qed.
Print Assumptions cell_faces_partial.

(* a checker for planar meshes, used for the concrete cases only *)
Definition startb {V} (m : mesh V) (first : bool) (z : Z) : option nat :=
  match nth_error (faces m) (pid z) with Some ns => nth_error ns (if Bool.eqb first (0 <=? z)%Z then 0 else 1) | None => None end.
Definition planarb {V} (m : mesh V) : bool :=
  wfb 2 m && forallb (fun ns => length ns =? 2) (faces m) && forallb (fun c : list Z => negb (isnil c)) (cells m) &&
  forallb (fun c => forallb (fun j => match nth_error c j, nth_error c (S j mod length c) with
     | Some z, Some z' => match startb m false z, startb m true z' with Some a, Some b => a =? b | _, _ => false end | _, _ => false end) (seq 0 (length c))) (cells m) &&
  forallb (fun f => f <? length (faces m)) (boundaryFaces m).
Lemma planarb_ok {V} (m : mesh V) : planarb m = true -> Planar m.
Proof.
  unfold planarb. intros H. apply andb_true_iff in H as [H H0]. apply andb_true_iff in H as [H H1]. apply andb_true_iff in H as [H H2]. apply andb_true_iff in H as [H H3]. rewrite forallb_forall in H0, H1, H2, H3. split.
  - apply wfb_sound; auto.
  - intros ns I. apply Nat.eqb_eq; auto.
  - intros c I ->. apply H2 in I. discriminate.
  - intros c j z z' I J J'. apply H1 in I. rewrite forallb_forall in I. specialize (I j). rewrite J, J' in I. unfold startb in I.
    assert (In j (seq 0 (length c))) as K by (apply in_seq; apply nth_error_lt in J; lia). apply I in K. clear I.
    destruct (nth_error (faces m) (pid z)) as [ns|] eqn:N; [|discriminate]. destruct (nth_error (faces m) (pid z')) as [ns'|] eqn:N'; [|destruct (nth_error ns _); discriminate].
    destruct (nth_error ns (if Bool.eqb false (0 <=? z)%Z then 0 else 1)) as [a|] eqn:X; [|discriminate]. destruct (nth_error ns' (if Bool.eqb true (0 <=? z')%Z then 0 else 1)) as [b|] eqn:X'; [|discriminate].
    apply Nat.eqb_eq in K. subst b. exists a. split; [exists ns; split; [auto|destruct (0 <=? z)%Z; auto]|exists ns'; split; [auto|destruct (0 <=? z')%Z; auto]].
  - intros f I. apply Nat.ltb_lt; auto.
Qed.
Definition bare {V} : extras V := mkExtras [] [] [] [] [] [] [] [].
Example two_squares_planar : Planar two_squares.
Proof. apply planarb_ok. reflexivity. Qed.
Definition dressed : extras Z := mkExtras [("t"%string, [1; 2; 3; 4; 5; 6]%Z)] [] [("flux"%string, [1; 2; 3; 4; 5; 6; 7]%Z)] [("rho"%string, [8; 9]%Z)] [("wall"%string, [0; 3]%Z); ("axis"%string, [4]%Z)] [] [] [].
Example dressed_case : Long 2 two_squares dressed /\ Apart dressed.
Proof.
  split; [repeat split; cbn; intros f K; repeat destruct K as [<-|K]; try contradiction; cbn; lia|].
  unfold Apart. cbn. repeat constructor; cbn; intuition discriminate.
Qed.
Example two_squares_file : exists rest, write2 two_squares dressed = Ok
  (("boundary_faces"%string, Facelist 6 2 [0;1; 4;3; 3;0; 1;2; 2;5; 5;4]%Z) ::
   ("mesh"%string, Ucdmesh [[0;1;2;0;1;2]; [0;0;0;1;1;1]]%Z 6 2) ::
   ("mesh_zonelist"%string, Zonelist 2 2 [5; 0;1;4;3;0;  5; 1;2;5;4;1]%Z [0;0] [1;1]) :: rest) /\
  In ("rho"%string, Ucdvar [8; 9]%Z ZoneCent) rest /\ In ("node_tags"%string, Compound [""; ""]%string [2; 1]%Z [0; 3; 4]%Z) rest.
Proof. eexists. split; [reflexivity|]. cbn. auto 20. Qed.
(* a tetrahedron *)
Definition tet : mesh Z := mkMesh [0;0;0; 1;0;0; 0;1;0; 0;0;1]%Z [[0; 1; 2; 3]]%Z [[0;2;1]; [0;1;3]; [1;2;3]; [0;3;2]] [0;1;2;3] [0;1;2;3] [[0]; [0]; [0]; [0]]%Z
  (mkPLC [[0;2;1]; [0;1;3]; [1;2;3]; [0;3;2]]%Z []) [] [] [].
Example tet_spatial : Spatial tet.
Proof. split; [apply wfb_sound; reflexivity|]. cbn. intuition lia. Qed.
Example tet_file : exists rest, write3 tet bare = Ok
  (("mesh"%string, Ucdmesh [[0;1;0;0]; [0;0;1;0]; [0;0;0;1]]%Z 4 1) ::
   ("mesh_zonelist"%string, PHZonelist [3;3;3;3] [0;2;1; 0;1;3; 1;2;3; 0;3;2]%Z [true;true;true;true] [4] [0;1;2;3]%Z 0 0) :: rest).
Proof. eexists. reflexivity. Qed.

Lemma write2_names {V} (m : mesh V) e f : Planar m -> Apart e -> write2 m e = Ok f -> NoDup (map fst f).
Proof.
  intros P A E. assert (Lg : Long 2 m e). { pose proof E as E'. unfold write2 in E'. repeat (apply bind_ok in E' as (? & ? & E')). cbv zeta in E'. repeat (apply bind_ok in E' as (? & ? & E')). eapply extras_inv; eauto. }
  destruct (write2_ok m e P Lg) as (x & y & bs & rings & Ef & _). rewrite E in Ef. apply ok_inj in Ef. rewrite Ef. apply names2; auto.
Qed.
(* what a reader of the cell-face data expects *)
Definition cell_faces_given : Prop := forall V (m : mesh V) e f, Planar m -> Apart e -> write2 m e = Ok f ->
  exists names lens v, Found f "conn" (Compound names lens v) /\ Element names lens v "cellfaces" (List.concat (cells m)).
Theorem cell_faces_refuted : ~ cell_faces_given.
Proof.
  intros H. assert (A : Apart (@bare Z)) by (unfold Apart; cbn; repeat constructor; cbn; intuition discriminate).
  destruct (write2 two_squares bare) as [f| | |] eqn:E; try discriminate.
  destruct (H Z two_squares bare f two_squares_planar A E) as (names & lens & v & Fd & El).
  destruct (cell_faces_partial Z two_squares bare f A (or_introl (conj two_squares_planar E))) as (lens' & ids & firsts & Fd' & _ & Id & _ & Q & _).
  pose proof (write2_names _ _ _ two_squares_planar A E) as N. injection E as <-. pose proof (found_det _ _ _ _ Fd (found_in _ _ _ N (or_intror (or_intror (or_intror (or_introl eq_refl)))))) as U. 
  injection U as -> -> ->. destruct El as (n0 & n1 & l0 & l1 & p & q & X1 & X2 & X3 & _).
  destruct n0 as [|? [|? n0]]; [exfalso; clear -X1; injection X1; discriminate| |destruct n0 as [|? [|? ?]]; [exfalso; clear -X1; injection X1; discriminate|discriminate X1|discriminate X1]]. destruct l0 as [|c0 [|? ?]]; [discriminate X3| |discriminate X3]. discriminate X2.
Qed.
Print Assumptions cell_faces_refuted.
(* the two cells of a face *)
Definition face_cells_given : Prop := forall V (m : mesh V) e f, Planar m -> Apart e -> write2 m e = Ok f ->
  exists names lens v, Found f "conn" (Compound names lens v) /\ forall i a b, nth_error (faceCells m) i = Some [a; b] ->
    exists k, k = length (cells m) + length (List.concat (cells m)) + 2 * i /\ nth_error v k = Some a /\ nth_error v (S k) = Some b.
Theorem face_cells_refuted : ~ face_cells_given.
Proof.
  intros H. assert (A : Apart (@bare Z)) by (unfold Apart; cbn; repeat constructor; cbn; intuition discriminate).
  destruct (write2 two_squares bare) as [f| | |] eqn:E; try discriminate.
  destruct (H Z two_squares bare f two_squares_planar A E) as (names & lens & v & Fd & El).
  pose proof (write2_names _ _ _ two_squares_planar A E) as N. injection E as <-. pose proof (found_det _ _ _ _ Fd (found_in _ _ _ N (or_intror (or_intror (or_intror (or_introl eq_refl)))))) as U. 
  injection U as -> -> ->. destruct (El 1 0%Z (-2)%Z eq_refl) as (k & -> & _ & B). discriminate.
Qed.
Print Assumptions face_cells_refuted.

(* tags: the values of each tag, in the order of the names, but not the names *)
Definition tagsOf {V} (c : centering) (e : extras V) := match c with NodeCent => nodeT e | EdgeCent => edgeT e | FaceCent => faceT e | ZoneCent => cellT e end.
Theorem tags_partial : forall V (m : mesh V) e f c, Apart e -> ((Planar m /\ write2 m e = Ok f) \/ (Spatial m /\ write3 m e = Ok f)) -> tagsOf c e <> [] ->
  exists names ks v, Found f (match c with NodeCent => "node_tags" | EdgeCent => "edge_tags" | FaceCent => "face_tags" | ZoneCent => "cell_tags" end) (Compound names (map Z.of_nat ks) v) /\
    length names = length (tagsOf c e) /\ Pieces ks v (map snd (tagsOf c e)).
Proof.
  intros V m e f c A H N.
  assert (G : NoDup (map fst f) /\ exists D, incl (extraObjs D m e) f).
  { destruct H as [[P E]|[P E]].
    - assert (Lg : Long 2 m e). { pose proof E as E'. unfold write2 in E'. repeat (apply bind_ok in E' as (? & ? & E')). cbv zeta in E'. repeat (apply bind_ok in E' as (? & ? & E')). eapply extras_inv; eauto. }
      destruct (write2_ok m e P Lg) as (x & y & bs & rings & Ef & _). rewrite E in Ef. apply ok_inj in Ef. rewrite Ef. split; [apply names2; auto|]. exists 2. intros o I. apply in_app_iff; auto.
    - assert (Lg : Long 3 m e). { pose proof E as E'. unfold write3 in E'. repeat (apply bind_ok in E' as (? & ? & E')). cbv zeta in E'. repeat (apply bind_ok in E' as (? & ? & E')). eapply extras_inv; eauto. }
      destruct (write3_ok m e (sp_wf _ P) (sp_bound _ P) Lg) as (x & y & z & flags & Ef & _). rewrite E in Ef. apply ok_inj in Ef. rewrite Ef. split; [apply names3; auto|]. exists 3. intros o I. apply in_app_iff; auto. }
  destruct G as [Nf [D I]].
  exists (map (fun _ => ""%string) (tagsOf c e)), (map (fun t => length (snd t)) (tagsOf c e)), (flat_map snd (tagsOf c e)). split; [|split; [apply map_length|]].
  - apply found_in; auto. apply I. rewrite map_map. unfold extraObjs. rewrite !in_app_iff. destruct c; cbn [tagsOf] in *; [left|right; left|do 2 right; left|do 3 right; left]; unfold writeTags; match goal with |- In _ (match ?l with _ => _ end) => destruct l; [congruence|left; reflexivity] end.
  - rewrite <- (map_map snd (@length Z)), flat_map_concat_map. apply pieces_concat.
Qed.
Print Assumptions tags_partial.
Definition tag_names_kept : Prop := forall V (m : mesh V) e e' f f', Planar m -> Apart e -> Apart e' -> write2 m e = Ok f -> write2 m e' = Ok f' -> Same f f' -> nodeT e = nodeT e'.
Theorem tag_names_refuted : ~ tag_names_kept.
Proof.
  intros H. set (e := mkExtras [] [] [] [] [("wall"%string, [0; 3]%Z)] [] [] [] : extras Z). set (e' := mkExtras [] [] [] [] [("axis"%string, [0; 3]%Z)] [] [] [] : extras Z).
  assert (A : Apart e) by (unfold Apart; cbn; repeat constructor; cbn; intuition discriminate). assert (A' : Apart e') by (unfold Apart; cbn; repeat constructor; cbn; intuition discriminate).
  assert (E : write2 two_squares e = write2 two_squares e') by reflexivity. destruct (write2 two_squares e) as [f| | |] eqn:E1; try discriminate.
  pose proof (H Z two_squares e e' f f two_squares_planar A A' E1 (eq_sym E) ltac:(intros ? ?; tauto)) as Q. discriminate.
Qed.
Print Assumptions tag_names_refuted.

(* ---- C73 ---- *)
Definition fieldsOf {V} (c : centering) (e : extras V) := match c with NodeCent => nodeF e | EdgeCent => edgeF e | FaceCent => faceF e | ZoneCent => cellF e end.
(* nodes, faces and cells of a mesh; the edges of a planar mesh are its faces *)
Definition elements {V} (D : nat) (m : mesh V) (c : centering) : nat := match c with NodeCent => length (nodes m) / D | ZoneCent => length (cells m) | _ => length (faces m) end.
Theorem fields_written : forall V (m : mesh V) e c name vals, Apart e -> In (name, vals) (fieldsOf c e) -> 
  (forall f, Planar m -> write2 m e = Ok f -> length vals = elements 2 m c -> Found f name (Ucdvar vals c)) /\
  (forall f, Spatial m -> write3 m e = Ok f -> c <> EdgeCent -> length vals = elements 3 m c -> Found f name (Ucdvar vals c)).
Proof.
  intros V m e c name vals A I.
  assert (G : forall D, length vals = elements D m c -> In (name, Ucdvar vals c) (extraObjs D m e)).
  { intros D L. assert (X : (name, Ucdvar vals c) = (fun f => (fst f, Ucdvar (firstn (elements D m c) (snd f)) c)) (name, vals)) by (cbn; rewrite <- L, firstn_all; auto). rewrite X.
    unfold extraObjs, fieldObjs. rewrite !in_app_iff. destruct c; cbn [fieldsOf elements] in *; [do 4 right; left|do 5 right; left|do 6 right; left|do 7 right]; exact (in_map _ _ _ I). }
  split.
  - intros f P E L. assert (Lg : Long 2 m e). { pose proof E as E'. unfold write2 in E'. repeat (apply bind_ok in E' as (? & ? & E')). cbv zeta in E'. repeat (apply bind_ok in E' as (? & ? & E')). eapply extras_inv; eauto. }
    destruct (write2_ok m e P Lg) as (x & y & bs & rings & Ef & _). rewrite E in Ef. apply ok_inj in Ef. rewrite Ef. apply found_in; [apply names2; auto|apply in_app_iff; auto].
  - intros f P E _ L. assert (Lg : Long 3 m e). { pose proof E as E'. unfold write3 in E'. repeat (apply bind_ok in E' as (? & ? & E')). cbv zeta in E'. repeat (apply bind_ok in E' as (? & ? & E')). eapply extras_inv; eauto. }
    destruct (write3_ok m e (sp_wf _ P) (sp_bound _ P) Lg) as (x & y & z & flags & Ef & _). rewrite E in Ef. apply ok_inj in Ef. rewrite Ef. apply found_in; [apply names3; auto|apply in_app_iff; auto].
Qed.
Print Assumptions fields_written.
(* a field with a value for each edge of a spatial mesh *)
Definition edge_fields_written : Prop := forall V (m : mesh V) e f name vals es, Spatial m -> Apart e -> EdgesOf m es -> length vals = length es ->
  edgeF e = [(name, vals)] -> write3 m e = Ok f -> Found f name (Ucdvar vals EdgeCent).
Definition edge_extras : extras Z := mkExtras [] [("len"%string, [1;2;3;4;5;6]%Z)] [] [] [] [] [] [].
Lemma tet_edges : EdgesOf tet [(0,1); (0,2); (0,3); (1,2); (1,3); (2,3)].
Proof.
  split; [repeat constructor; cbn; intuition discriminate|]. intros a b. split.
  - intros I. cbn in I. repeat (destruct I as [I|I]; [injection I as <- <-; split; [lia|]|]); [| | | | | |destruct I].
    + exists [0;1;3], 0, 0, 1. cbn. auto 10.
    + exists [0;2;1], 0, 0, 2. cbn. auto 10.
    + exists [0;3;2], 0, 0, 3. cbn. auto 10.
    + exists [1;2;3], 0, 1, 2. cbn. auto 10.
    + exists [0;1;3], 1, 1, 3. cbn. auto 10.
    + exists [1;2;3], 1, 2, 3. cbn. auto 10.
  - intros (L & ns & j & x & y & I & X & Y & E). cbn in I.
    repeat (destruct I as [<-|I]; [assert (j < 3) by (apply nth_error_lt in X; auto); destruct j as [|[|[|j]]]; [| | |lia]; injection X as <-; injection Y as <-; cbn; destruct E as [[<- <-]|[<- <-]]; auto 10; lia|]). destruct I.
Qed.
Theorem edge_fields_refuted : ~ edge_fields_written.
Proof.
  intros H. destruct (write3 tet edge_extras) as [f| | |] eqn:E; try discriminate.
  assert (A : Apart edge_extras) by (unfold Apart; cbn; repeat constructor; cbn; intuition discriminate).
  destruct (H Z tet edge_extras f "len"%string [1;2;3;4;5;6]%Z _ tet_spatial A tet_edges eq_refl eq_refl E) as [I _].
  injection E as <-. cbn in I. repeat destruct I as [I|I]; try discriminate. destruct I.
Qed.
Print Assumptions edge_fields_refuted.
