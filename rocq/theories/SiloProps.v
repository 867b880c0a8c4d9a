(* Theorems about the files of SiloWriter: the planar file (C70), the spatial file (C71), the cell-face
   data and the tags (C72), fields (C73). *)
From Coq Require Import String.
From Verif Require Import Base BaseFacts SerializeModel MeshModel MeshSpec MeshCheck MeshProps HullProofs3 SiloModel SiloSpec SiloProofs SiloProofs2.
Local Open Scope nat_scope.
Local Open Scope list_scope.

Lemma ok_inj {A} (a b : A) : Ok a = Ok b -> a = b.
Proof. congruence. Qed.
Ltac listed := apply found_in; [first [apply names2 | apply names3]; auto|cbn; auto 10].

(* ---- C70 ---- *)
(* the file of a planar mesh holds the coordinates of the nodes, for each cell the ring of its nodes
   along its faces, the end points of the boundary faces, and the facets of the convex hull *)
Theorem plane_file : forall V (m : mesh V) e, Planar m -> Long 2 m e -> Apart e ->
  exists f, write2 m e = Ok f /\
    (exists xs n, Found f "mesh" (Ucdmesh xs n (length (cells m))) /\ Coordinates 2 m xs n) /\
    (exists l rings, Found f "mesh_zonelist" (Zonelist (length (cells m)) 2 l (repeat 0 (length (cells m))) (repeat 1 (length (cells m)))) /\
       Zones l rings /\ (forall rings', Zones l rings' -> rings' = rings) /\ Forall2 (Traces m) (cells m) rings) /\
    (exists l bs, Found f "boundary_faces" (Facelist (length (boundaryFaces m)) 2 l) /\ Pieces (repeat 2 (length (boundaryFaces m))) l bs /\
       Forall2 (fun i b => exists ns, nth_error (faces m) i = Some ns /\ b = map Z.of_nat ns) (boundaryFaces m) bs) /\
    (exists names lens v l, Found f "convexhull" (Compound names lens v) /\ NoDup names /\
       Element names lens v "nfacets" [Z.of_nat (length (facets (convexHull m)))] /\
       Element names lens v "nfacetnodes" (map (fun x => Z.of_nat (length x)) (facets (convexHull m))) /\
       Element names lens v "facetnodes" l /\ Pieces (map (@length Z) (facets (convexHull m))) l (facets (convexHull m))).
Proof.
  intros V m e P Lg A. destruct (write2_ok m e P Lg) as (x & y & bs & rings & E & Co & Fb & Fr).
  eexists. split; [exact E|]. split; [|split; [|split]].
  - exists [x; y], (length (nodes m) / 2). split; [listed|auto].
  - eexists _, rings. split; [listed|]. split; [apply zones_flat|]. split; auto. intros r' Z'. apply (zones_det _ _ Z'). apply zones_flat.
  - eexists _, (map zs bs). split; [listed|]. split.
    + replace (repeat 2 (length (boundaryFaces m))) with (map (@length nat) bs); [apply pieces_zs|].
      clear - Fb. induction Fb as [|i b l bs [_ L] _ IH]; cbn; congruence.
    + clear - Fb. induction Fb as [|i b l bs [N _] _ IH]; cbn; constructor; auto. exists b. auto.
  - destruct (hull_ok m) as (names & lens & v & l & E1 & E2 & E3 & E4 & E5 & E6). exists names, lens, v, l. rewrite <- E1. split; [listed|auto 10].
Qed.
Print Assumptions plane_file.

(* the file determines the mesh: nodes, cells and faces; the boundary faces as well if no two faces are the same *)
Theorem plane_file_determines : forall V (m m' : mesh V) e e' f f', Planar m -> Planar m' -> Apart e -> Apart e' ->
  write2 m e = Ok f -> write2 m' e' = Ok f' -> Same f f' ->
  nodes m = nodes m' /\ cells m = cells m' /\ faces m = faces m' /\ facets (convexHull m) = facets (convexHull m') /\
  (NoDup (faces m) -> boundaryFaces m = boundaryFaces m').
Proof.
  intros V m m' e e' f f' P P' A A' E E' Sm.
  assert (Lg : Long 2 m e). { unfold write2 in E. repeat (apply bind_ok in E as (? & ? & E)). cbv zeta in E. repeat (apply bind_ok in E as (? & ? & E)). eapply extras_inv; eauto. }
  assert (Lg' : Long 2 m' e'). { unfold write2 in E'. repeat (apply bind_ok in E' as (? & ? & E')). cbv zeta in E'. repeat (apply bind_ok in E' as (? & ? & E')). eapply extras_inv; eauto. }
  destruct (write2_ok m e P Lg) as (x & y & bs & rings & Ef & Co & Fb & Fr). destruct (write2_ok m' e' P' Lg') as (x' & y' & bs' & rings' & Ef' & Co' & Fb' & Fr').
  cbv zeta in *. rewrite E in Ef. rewrite E' in Ef'. apply ok_inj in Ef. apply ok_inj in Ef'. subst f f'.
  match type of Sm with Same ?a ?b => set (f := a) in Sm; set (f' := b) in Sm end.
  assert (U : forall name o o', In (name, o) f -> In (name, o') f' -> o = o').
  { intros name o o' I I'. apply (found_in f) in I; [|unfold f; apply names2; auto]. apply (found_in f') in I'; [|unfold f'; apply names2; auto]. apply Sm in I. exact (found_det _ _ _ _ I I'). }
  assert (U1 := U "boundary_faces"%string _ _ (or_introl eq_refl) (or_introl eq_refl)). assert (U2 := U "mesh"%string _ _ (or_intror (or_introl eq_refl)) (or_intror (or_introl eq_refl))).
  assert (U3 := U "mesh_zonelist"%string _ _ (or_intror (or_intror (or_introl eq_refl))) (or_intror (or_intror (or_introl eq_refl)))).
  assert (U4 := U "conn"%string _ _ (or_intror (or_intror (or_intror (or_introl eq_refl)))) (or_intror (or_intror (or_intror (or_introl eq_refl))))).
  assert (U5 := U "convexhull"%string _ _ (or_intror (or_intror (or_intror (or_intror (or_introl eq_refl))))) (or_intror (or_intror (or_intror (or_intror (or_introl eq_refl)))))).
  clear U Sm E E'. clear f f'.
  injection U1 as Lb Bb. injection U2 as Ux Uy Un Uc. injection U3 as _ Uz _ _. injection U4 as _ Uf Us Uv.
  change (length (nodes m) / 2 = length (nodes m') / 2) in Un. change (2 * Z.of_nat (length (faces m)) - Z.of_nat (length (cells m)) = 2 * Z.of_nat (length (faces m')) - Z.of_nat (length (cells m')))%Z in Uf.
  assert (Hn : nodes m = nodes m'). { apply (coordinates_det 2 m m' [x; y] (length (nodes m) / 2)); auto. rewrite Un. subst x' y'. auto. }
  assert (Hr : rings = rings'). { apply (zones_det _ _ (zones_flat rings)). rewrite Uz. apply zones_flat. }
  assert (Hf : length (faces m) = length (faces m')) by lia.
  assert (Hc : cells m = cells m').
  { unfold connVals in Uv. apply app_len_inj in Uv as [Z1 Uv]; [|rewrite !sizes_len; auto]. apply app_len_inj in Uv as [Z2 _]; [|rewrite !flat_enc_len; lia].
    apply concat_inj; [|]. 
    - clear -Z1. revert Z1. generalize (cells m'). induction (cells m) as [|c l IH]; intros [|c' l'] H; try discriminate; auto. injection H as H1 H2. cbn. f_equal; [lia|auto].
    - rewrite !flat_map_concat_map, !(map_ext _ (fun c => c) (@map_id Z)), !map_id in Z2. auto. }
  subst rings'. rewrite <- Hc in Fr'.
  assert (Hfa : faces m = faces m').
  { apply nth_error_ext. intros i. destruct (Nat.lt_ge_cases i (length (faces m))) as [Li|Li]; [|rewrite !(proj2 (nth_error_None _ _)) by lia; auto].
    destruct (nth_error_ex (faceCells m) i) as [fc Hfc]; [rewrite (wf_fcs _ _ (pl_wf _ P)); auto|].
    destruct fc as [|z t]; [destruct (wf_fc _ _ (pl_wf _ P) _ _ Hfc); discriminate|].
    destruct (wf_face_cell _ _ (pl_wf _ P) _ _ z Hfc (or_introl eq_refl)) as (c & Cc & Ic).
    assert (Pi : pid (sign_face z i) = i) by (unfold sign_face, pid, positiveID; destruct (0 <=? z)%Z; [destruct (0 <=? Z.of_nat i)%Z eqn:Q; lia|destruct (0 <=? Z.lnot (Z.of_nat i))%Z eqn:Q; unfold Z.lnot in *; lia]).
    revert Pi Ic. generalize (sign_face z i). intros w Pi Ic. apply In_nth_error in Ic as [j Hj].
    destruct (Forall2_nth _ _ _ _ _ Fr Cc) as (r & Hr & T). destruct (Forall2_nth _ _ _ _ _ Fr' Cc) as (r' & Hr' & T'). assert (r' = r) by congruence. subst r'.
    destruct T as (_ & _ & T). destruct T' as (_ & _ & T'). destruct (T _ _ Hj) as (a & b & (ns & N & Sa) & (ns1 & N1 & Sb) & Ra & Rb). destruct (T' _ _ Hj) as (a' & b' & (ns' & N' & Sa') & (ns1' & N1' & Sb') & Ra' & Rb').
    assert (a' = a) by congruence. assert (b' = b) by congruence. subst a' b'. assert (ns1 = ns) by congruence. assert (ns1' = ns') by congruence. subst ns1 ns1'. rewrite Pi in N, N'. rewrite N, N'. f_equal.
    pose proof (pl_faces _ P _ (nth_error_In _ _ N)) as L2. pose proof (pl_faces _ P' _ (nth_error_In _ _ N')) as L2'.
    destruct ns as [|p [|q [|? ?]]]; try discriminate. destruct ns' as [|p' [|q' [|? ?]]]; try discriminate. destruct (0 <=? w)%Z; cbn in *; congruence. }
  split; auto. split; auto. split; auto. split.
  - pose proof (hull_ok m) as (n1 & l1 & v1 & k1 & E1 & D1 & _ & F1 & G1 & H1). pose proof (hull_ok m') as (n2 & l2 & v2 & k2 & E2 & D2 & _ & F2 & G2 & H2).
    rewrite U5, E2 in E1. injection E1 as <- <- <-. assert (k2 = k1) by (eapply element_det; eauto). subst k2. pose proof (element_det _ _ _ _ _ _ D1 F1 F2) as Q.
    apply (pieces_det _ _ _ H1). replace (map (@length Z) (facets (convexHull m))) with (map (@length Z) (facets (convexHull m'))); auto.
    clear -Q. revert Q. unfold sizes. generalize (facets (convexHull m')). induction (facets (convexHull m)) as [|c l IH]; intros [|c' l'] H; try discriminate; auto. injection H as H1 H2. cbn. f_equal; [lia|auto].
  - intros N. apply map_of_nat_inj in Bb.
    assert (bs = bs').
    { apply concat_inj; auto. clear -Fb Fb' Lb. revert bs' Fb' Lb. generalize (boundaryFaces m'). induction Fb as [|i b l bs [_ L] _ IH]; intros l' bs' F' Q; inversion F' as [|i' b' l2 bs2 [_ L'] F2]; subst; cbn in *; try discriminate; auto. f_equal; [lia|eauto]. }
    subst bs'. rewrite <- Hfa in Fb'. clear -Fb Fb' N. revert Fb'. generalize (boundaryFaces m'). induction Fb as [|i b l bs [X _] _ IH]; intros l' F'; inversion F' as [|i' b' l2 bs2 [X' _] F2]; subst; auto. f_equal; [|auto].
    apply (proj1 (NoDup_nth_error _) N); [eapply nth_error_lt; eauto|congruence].
Qed.
Print Assumptions plane_file_determines.
