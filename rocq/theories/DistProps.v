(* C44, C61-C63: the distributed tessellator. *)
From Verif Require Import Base BaseFacts StdAlg SerializeModel SerializeSpec MeshModel MeshSpec MeshCheck MeshProps MpiModel MpiSpec CollModel ExchangeModel ExchangeSpec ExchangeProps SerialDistSpec SerialDistProps CheckModel CheckProofs4 DistModel DistSpec DistProofs DistProofs2 DistProofs3.
From Coq Require Import Sorted Lia.

(* ---- C61: exchanging the generators ---- *)
(* whatever the order in which messages travel, every rank ends up with its own points followed by
   those of its neighbors, and knows whose they are *)
Theorem generators_exchanged : forall D n pts nb, 0 < D -> Talk D n pts nb ->
  Finishes n (fun r => if r <? n then genExchange D r (pts r) (nb r) else Ret (Ok ([], [])))
    (fun r => Ok (flat_map pts (r :: nb r), flat_map (fun s => repeat s (length (pts s) / D)) (r :: nb r))).
Proof. intros D n pts nb Dp T. exact (generators_ok D n Dp pts nb T). Qed.
Print Assumptions generators_exchanged.

(* the check before it passes exactly when the neighbors are mutual *)
Theorem neighbors_checked : forall n nb, (forall r, r < n -> NoDup (nb r) /\ (Z.of_nat (length (nb r)) < 2 ^ 32)%Z) ->
  (Together n (fun r => contract r (nb r) (seq 0 n)) (fun _ => Ok tt) <-> forall r s, r < n -> s < n -> In s (nb r) <-> In r (nb s)).
Proof.
  intros n nb ND. assert (Sq : forall p, In p (seq 0 n) -> p < n) by (intros p I; apply in_seq in I; lia). split.
  - intros T r s Lr Ls. pose proof (contract_conv n nb ND (seq 0 n) Sq T) as C. assert (Is : In s (seq 0 n)) by (apply in_seq; lia). assert (Ir : In r (seq 0 n)) by (apply in_seq; lia).
    destruct (nb s) as [|a l] eqn:E; [|rewrite <- E; apply C; auto; congruence]. split; [|intros []]. intros I. rewrite <- E. apply C; auto. intros Z. rewrite Z in I. destruct I.
  - intros M. apply contract_ok; auto.
Qed.
Print Assumptions neighbors_checked.

(* three ranks in a row *)
Definition row (r : nat) : list nat := match r with 0 => [1] | 1 => [0; 2] | _ => [1] end.
Definition rowPts (r : nat) : list Z := match r with 0 => [1; 2]%Z | 1 => [3; 4; 5; 6]%Z | _ => [7; 8]%Z end.
Example row_talk : Talk 2 3 rowPts row.
Proof.
  split.
  - intros r L. destruct r as [|[|[|]]]; [| | |lia]; (split; [|split; [repeat constructor; cbn; lia|cbn; lia]]); [exists 1|exists 2|exists 1]; auto.
  - intros r L. destruct r as [|[|[|]]]; [| | |lia]; (split; [repeat constructor; cbn; intuition lia|cbn; lia]).
  - intros r s L I. destruct r as [|[|[|]]]; [| | |lia]; cbn in I; lia.
  - intros r s L L'. destruct r as [|[|[|]]]; [| | |lia]; destruct s as [|[|[|]]]; try lia; cbn; intuition lia.
Qed.
Example row_result : flat_map rowPts (0 :: row 0) = [1; 2; 3; 4; 5; 6]%Z /\ flat_map (fun s => repeat s (length (rowPts s) / 2)) (0 :: row 0) = [0; 1; 1].
Proof. split; reflexivity. Qed.

(* the generators exchanged are what the next step needs, if the rank has points and its neighbors
   are sorted and do not include itself *)
Theorem exchange_gives_input : forall V D n pts nb (m : mesh V) r, 0 < D -> Talk D n pts nb -> r < n -> pts r <> [] -> ~ In r (nb r) -> StronglySorted lt (nb r) ->
  Fresh D m -> length (cells m) = length (flat_map pts (r :: nb r)) / D ->
  DistInput D m (flat_map (fun s => repeat s (length (pts s) / D)) (r :: nb r)) r (nb r) (length (pts r) / D).
Proof. intros V D n pts nb m r Dp T L Ne Nr Sd FR Lc. exact (input_ok D n Dp pts nb T m r L Ne Nr Sd FR Lc). Qed.
Print Assumptions exchange_gives_input.

(* ---- C44: the mesh a rank keeps ---- *)
(* with communication information: the rank's own cells and what it shares with whom, in the order
   of the keys *)
Theorem local_mesh : forall V D (m : mesh V) g2d me nd nlocal hash fkey fk, 0 < D -> DistInput D m g2d me nd nlocal ->
  (forall f, f < length (faces m) -> fkey m f = Ok (fk f)) ->
  exists m' kC kF kN, localMesh D hash fkey true m g2d me nd nlocal = Ok m' /\ Kept D m g2d me nd (fun x => hash (node_at D m x)) fk m' kC kF kN.
Proof. intros V D m g2d me nd nlocal hash fkey fk Dp DI FK. exact (local_ok D Dp m g2d me nd nlocal DI hash fkey fk FK). Qed.
Print Assumptions local_mesh.

(* in the plane the keys of faces between two nodes are always found *)
Theorem face_key_plane : forall V (m : mesh V) hash f a b, WellFormed 2 m -> nth_error (faces m) f = Some [a; b] -> faceKey2 hash m f = Ok (edgeKey hash m f).
Proof.
  intros V m hash f a b WF E. pose proof (wf_faces _ _ WF f _ a E ltac:(cbn; auto)) as La. pose proof (wf_faces _ _ WF f _ b E ltac:(cbn; auto)) as Lb.
  unfold faceKey2, edgeKey. rewrite (proj2 (Nat.ltb_lt _ _) (nth_error_lt _ _ _ E)). cbn [assert bind]. rewrite (proj2 (get_ok _ _ _) E). cbn [bind length Nat.eqb assert]. cbn [get nth_error bind].
  assert (H : forall x, 2 * x + 2 <= length (nodes m) -> x <? length (nodes m) / 2 = true). { intros x L. apply Nat.ltb_lt. apply Nat.div_le_lower_bound; lia. }
  unfold get. cbn [nth_error bind]. rewrite (H a La), (H b Lb). cbn [assert bind]. rewrite !nodeKey_ok by auto. cbn [bind]. rewrite E. reflexivity.
Qed.
Print Assumptions face_key_plane.
Theorem local_mesh_plane : forall V (m : mesh V) g2d me nd nlocal hash, DistInput 2 m g2d me nd nlocal ->
  (forall f ns, nth_error (faces m) f = Some ns -> length ns = 2) ->
  exists m' kC kF kN, localMesh 2 hash (faceKey2 hash) true m g2d me nd nlocal = Ok m' /\ Kept 2 m g2d me nd (fun x => hash (node_at 2 m x)) (edgeKey hash m) m' kC kF kN.
Proof.
  intros V m g2d me nd nlocal hash DI F. apply local_mesh; auto. intros f L. destruct (nth_error_ex _ _ L) as [ns E]. pose proof (F f ns E) as Ln. destruct ns as [|a [|b [|]]]; try discriminate. eapply face_key_plane; eauto. apply (fr_wf _ _ (di_fresh _ _ _ _ _ _ DI)).
Qed.
Print Assumptions local_mesh_plane.

(* in space they are not: a face with a node numbered beyond its own number of nodes has no key *)
Theorem face_key_space_refuted : forall V (m : mesh V) hash mean f ns x, nth_error (faces m) f = Some ns -> In x ns -> length ns <= x -> forall k, faceKey3 hash mean m f <> Ok k.
Proof.
  intros V m hash mean f ns x E I L k H. unfold faceKey3 in H. rewrite (proj2 (Nat.ltb_lt _ _) (nth_error_lt _ _ _ E)) in H. cbn [assert bind] in H. rewrite (proj2 (get_ok _ _ _) E) in H. cbn [bind] in H. destruct (3 <=? length ns); [|discriminate]. cbn [assert bind] in H. apply bind_ok in H as (ps & H & _). apply mmap_inv in H. destruct (Forall2_in_l _ _ _ x H I) as (p & _ & Hp). apply bind_ok in Hp as (y & Hy & _). apply (proj1 (get_ok _ _ _)) in Hy. apply nth_error_lt in Hy. lia.
Qed.
Print Assumptions face_key_space_refuted.
(* a tetrahedron: the face opposite to node 0 *)
Definition tetra : mesh Z := mkMesh [0;0;0; 1;0;0; 0;1;0; 0;0;1]%Z [[0; 1; 2; 3]]%Z [[0;2;1]; [0;1;3]; [0;3;2]; [1;2;3]] [] [] [[0]; [0]; [0]; [0]]%Z plc_new [] [] [].
Example tetra_no_key : WellFormed 3 tetra /\ faceKey3 (fun p => p) (fun ps => concat ps) tetra 3 = UB.
Proof. split; [apply wfb_sound; reflexivity|reflexivity]. Qed.

(* by default no communication information is built, and then no rank that found neighbors ever
   finishes: the pruning of line 553 reads lists that do not exist *)
Definition default_keeps_mesh : Prop := forall V D (m : mesh V) g2d me nd nlocal hash fkey, 0 < D -> DistInput D m g2d me nd nlocal -> exists m', localMesh D hash fkey false m g2d me nd nlocal = Ok m'.
Theorem default_run_stops : forall V D (m : mesh V) g2d me nd nlocal hash fkey, 0 < D -> DistInput D m g2d me nd nlocal -> nd <> [] -> forall m', localMesh D hash fkey false m g2d me nd nlocal <> Ok m'.
Proof. intros V D m g2d me nd nlocal hash fkey Dp DI Ne. exact (local_off D Dp m g2d me nd nlocal DI hash fkey Ne). Qed.
Print Assumptions default_run_stops.
(* a rank without neighbors is served *)
Theorem default_run_partial : forall V D (m : mesh V) g2d me nlocal hash, 0 < D -> DistInput D m g2d me [] nlocal ->
  exists m' kC kF kN, localMesh D hash (fun _ _ => Ok []) false m g2d me [] nlocal = Ok m' /\ Kept D m g2d me [] (fun x => hash (node_at D m x)) (fun _ => []) m' kC kF kN.
Proof. intros V D m g2d me nlocal hash Dp DI. exact (local_off_alone D Dp m g2d me [] nlocal DI hash (fun _ _ => Ok []) (fun _ => []) (fun _ _ => eq_refl) eq_refl). Qed.
Print Assumptions default_run_partial.

(* two ranks with one square each: rank 0 has the left square, and numbers as in squares; rank 1
   has the right one, and numbers cells, faces and nodes in its own way *)
Definition squares1 : mesh Z := mkMesh [2;1; 1;1; 0;1; 2;0; 1;0; 0;0]%Z [[0; 1; 2; -4]; [6; 3; 5; 4]]%Z
  [[4;3]; [3;0]; [0;1]; [4;1]; [2;5]; [1;2]; [5;4]] [] [] [[0]; [0]; [0]; [-1; 1]; [1]; [1]; [1]]%Z (mkPLC [] []) [] [] [].
Example squares_input : DistInput 2 squares [0; 1] 0 [1] 1.
Proof.
  split; auto; [apply squares_fresh| |repeat constructor|].
  - intros i. unfold From_. destruct i as [|[|i]]; cbn; [split; auto| |]; split; try lia; try discriminate. destruct i; discriminate.
  - intros i s E N. apply nth_error_In in E. cbn in *. intuition.
Qed.
Example squares1_input : DistInput 2 squares1 [1; 0] 1 [0] 1.
Proof.
  split; auto; [split; auto| |repeat constructor|].
  - apply wfb_sound. reflexivity.
  - intros f ns E. destruct f as [|[|[|[|[|[|[|f]]]]]]]; cbn in E; try (injection E as <-; discriminate). destruct f; discriminate.
  - intros i c E. destruct i as [|[|i]]; cbn in E; [| |destruct i; discriminate]; injection E as <-; repeat constructor; cbn; intuition lia.
  - intros i. unfold From_. destruct i as [|[|i]]; cbn; [split; auto| |]; split; try lia; try discriminate. destruct i; discriminate.
  - intros i s E N. apply nth_error_In in E. cbn in *. intuition.
Qed.
Theorem default_run_refuted : ~ default_keeps_mesh.
Proof. intros H. destruct (H Z 2 squares [0; 1] 0 [1] 1 (fun p => p) (fun _ _ => Ok []) ltac:(lia) squares_input) as (m' & E). revert E. apply default_run_stops; auto; [apply squares_input|discriminate]. Qed.
Print Assumptions default_run_refuted.
Definition shown {V} (r : res (mesh V)) := do m <- r; Ok (nodes m, neighborDomains m, sharedNodes m, sharedFaces m).
(* the shared nodes (1,0) and (1,1) come in this order on both ranks *)
Example squares_local : shown (localMesh 2 (fun p => p) (faceKey2 (fun p => p)) true squares [0; 1] 0 [1] 1) = Ok ([0; 0; 1; 0; 0; 1; 1; 1]%Z, [1], [[1; 3]], [[1]]) /\
  shown (localMesh 2 (fun p => p) (faceKey2 (fun p => p)) true squares1 [1; 0] 1 [0] 1) = Ok ([2; 1; 1; 1; 2; 0; 1; 0]%Z, [0], [[3; 1]], [[3]]) /\
  localMesh 2 (fun p => p) (faceKey2 (fun p => p)) false squares [0; 1] 0 [1] 1 = UB.
Proof. vm_compute. auto. Qed.

(* ---- C62: the ranks agree ---- *)
(* If what the meshes of different ranks say about common nodes and faces fits together, neighbors
   are mutual and list the same nodes and faces in the same order. *)
Theorem lists_agree : forall V D n (m m' : nat -> mesh V) g2d nb nlocal nkey fkey kC kF kN nname fname NK FK, 0 < D ->
  (forall r, r < n -> DistInput D (m r) (g2d r) r (nb r) (nlocal r)) ->
  (forall r, r < n -> Kept D (m r) (g2d r) r (nb r) (nkey r) (fkey r) (m' r) (kC r) (kF r) (kN r)) ->
  (forall r s, r < n -> In s (nb r) -> s < n) ->
  Agree n (fun r s x => RankNode (m r) (From_ (g2d r)) s x) nname nkey NK ->
  Agree n (fun r s f => RankFace (m r) (From_ (g2d r)) s f) fname fkey FK ->
  forall r s i, r < n -> nth_error (neighborDomains (m' r)) i = Some s ->
  exists i' l l' g g' X Y, nth_error (neighborDomains (m' s)) i' = Some r /\
    nth_error (sharedNodes (m' r)) i = Some l /\ nth_error (sharedNodes (m' s)) i' = Some l' /\ Stand (map (nname r) (kN r)) l X /\ Stand (map (nname s) (kN s)) l' X /\
    nth_error (sharedFaces (m' r)) i = Some g /\ nth_error (sharedFaces (m' s)) i' = Some g' /\ Stand (map (fname r) (kF r)) g Y /\ Stand (map (fname s) (kF s)) g' Y.
Proof. intros V D n m m' g2d nb nlocal nkey fkey kC kF kN nname fname NK FK Dp DI KP NB AN AF. exact (lists_ok D n Dp m m' g2d nb nlocal nkey fkey kC kF kN DI KP NB nname fname NK FK AN AF). Qed.
Print Assumptions lists_agree.

(* so the exchange of node positions that follows (C43) finishes under every schedule and leaves
   all copies of a node in the same place *)
Theorem lists_then_exchange : forall V D n (m m' : nat -> mesh V) g2d nb nlocal nkey fkey kC kF kN nname fname NK FK, 0 < D ->
  (forall r, r < n -> DistInput D (m r) (g2d r) r (nb r) (nlocal r)) ->
  (forall r, r < n -> Kept D (m r) (g2d r) r (nb r) (nkey r) (fkey r) (m' r) (kC r) (kF r) (kN r)) ->
  (forall r s, r < n -> In s (nb r) -> s < n) ->
  Agree n (fun r s x => RankNode (m r) (From_ (g2d r)) s x) nname nkey NK ->
  Agree n (fun r s f => RankFace (m r) (From_ (g2d r)) s f) fname fkey FK ->
  let P := fun r => mkPart (nodes (m' r)) (map (nname r) (kN r)) (neighborDomains (m' r)) (sharedNodes (m' r)) in
  Consistent D n P /\ exists final, Finishes n (ranks D n P) (fun r => Ok (final r)) /\
    forall r s i j x, r < n -> s < n -> nth_error (names (P r)) i = Some x -> nth_error (names (P s)) j = Some x -> position D (final r) i = position D (final s) j.
Proof.
  intros V D n m m' g2d nb nlocal nkey fkey kC kF kN nname fname NK FK Dp DI KP NB AN AF P. assert (C : Consistent D n P) by (eapply consistent_ok; eauto). split; auto. apply copies_agree; auto.
Qed.
Print Assumptions lists_then_exchange.

(* the two squares agree: the name of a node is its place in squares *)
Definition hasNode (m : mesh Z) (g2d : list nat) (s x : nat) : bool := existsb (fun i => (nth i g2d s =? s) && existsb (fun z => existsb (Nat.eqb x) (nth (pid z) (faces m) [])) (nth i (cells m) [])) (seq 0 (length g2d)).
Definition hasFace (m : mesh Z) (g2d : list nat) (s f : nat) : bool := existsb (fun i => (nth i g2d s =? s) && existsb (fun z => pid z =? f) (nth i (cells m) [])) (seq 0 (length g2d)).
Lemma hasNode_ok m g2d s x : hasNode m g2d s x = true <-> RankNode m (From_ g2d) s x.
Proof.
  unfold hasNode. rewrite existsb_exists. split.
  - intros (i & Ii & H). apply in_seq in Ii. apply andb_prop in H as [H1 H2]. apply Nat.eqb_eq in H1. apply existsb_exists in H2 as (z & Iz & H2). apply existsb_exists in H2 as (y & Iy & H2). apply Nat.eqb_eq in H2. subst y.
    exists i. split; [unfold From_; rewrite nth_error_nth' with (d := s) by lia; congruence|]. destruct (nth_error (cells m) i) as [c|] eqn:Ec; [|apply nth_error_None in Ec; rewrite nth_overflow in Iz by auto; destruct Iz]. rewrite (nth_error_nth _ _ [] Ec) in Iz. destruct (nth_error (faces m) (pid z)) as [ns|] eqn:En; [|apply nth_error_None in En; rewrite nth_overflow in Iy by auto; destruct Iy]. rewrite (nth_error_nth _ _ [] En) in Iy. exists c, z, ns. auto.
  - intros (i & O & c & z & ns & Ec & Iz & En & Ix). exists i. split; [apply in_seq; apply nth_error_lt in O; lia|]. rewrite (nth_error_nth _ _ s O), Nat.eqb_refl, (nth_error_nth _ _ [] Ec). apply existsb_exists. exists z. split; auto. rewrite (nth_error_nth _ _ [] En). apply existsb_exists. exists x. split; auto. apply Nat.eqb_refl.
Qed.
Lemma hasFace_ok m g2d s f : hasFace m g2d s f = true <-> RankFace m (From_ g2d) s f.
Proof.
  unfold hasFace. rewrite existsb_exists. split.
  - intros (i & Ii & H). apply in_seq in Ii. apply andb_prop in H as [H1 H2]. apply Nat.eqb_eq in H1. apply existsb_exists in H2 as (z & Iz & H2). apply Nat.eqb_eq in H2.
    exists i. split; [unfold From_; rewrite nth_error_nth' with (d := s) by lia; congruence|]. destruct (nth_error (cells m) i) as [c|] eqn:Ec; [|apply nth_error_None in Ec; rewrite nth_overflow in Iz by auto; destruct Iz]. rewrite (nth_error_nth _ _ [] Ec) in Iz. exists c, z. auto.
  - intros (i & O & c & z & Ec & Iz & <-). exists i. split; [apply in_seq; apply nth_error_lt in O; lia|]. rewrite (nth_error_nth _ _ s O), Nat.eqb_refl, (nth_error_nth _ _ [] Ec). apply existsb_exists. exists z. split; auto. apply Nat.eqb_refl.
Qed.
Definition agreeb (n B : nat) (has : nat -> nat -> nat -> bool) (name : nat -> nat -> nat) (key : nat -> nat -> list Z) (K : nat -> list Z) : bool :=
  let R := seq 0 n in let X := seq 0 B in
  forallb (fun r => forallb (fun x => negb (has r r x) || lexeq (key r x) (K (name r x)) &&
    forallb (fun s => forallb (fun y => negb (has s s y) || ((negb (r =? s) || negb (name r x =? name r y) || (x =? y)) && (negb (lexeq (K (name r x)) (K (name s y))) || (name r x =? name s y)))) X
      && ((r =? s) || Bool.eqb (has r s x) (existsb (fun y => has s s y && (name s y =? name r x)) X))) R) X) R.
Lemma agreeb_ok n B Has has name key K : (forall r s x, has r s x = true <-> Has r s x) -> (forall r s x, r < n -> Has r s x -> x < B) -> agreeb n B has name key K = true -> Agree n Has name key K.
Proof.
  intros HH HB H. unfold agreeb in H. rewrite forallb_forall in H.
  assert (H1 : forall r x, r < n -> Has r r x -> lexeq (key r x) (K (name r x)) = true /\ forall s, s < n -> (forall y, Has s s y -> (r = s -> name r x = name r y -> x = y) /\ (K (name r x) = K (name s y) -> name r x = name s y)) /\ (r <> s -> (has r s x = true <-> exists y, Has s s y /\ name s y = name r x))).
  { intros r x Lr Hx. specialize (H r ltac:(apply in_seq; lia)). rewrite forallb_forall in H. specialize (H x ltac:(apply in_seq; specialize (HB r r x Lr Hx); lia)). apply HH in Hx. rewrite Hx in H. cbn [negb orb] in H. apply andb_prop in H as [H1 H2]. split; auto. intros s Ls. rewrite forallb_forall in H2. specialize (H2 s ltac:(apply in_seq; lia)). apply andb_prop in H2 as [H2 H3]. split.
    - intros y Hy. rewrite forallb_forall in H2. specialize (H2 y ltac:(apply in_seq; specialize (HB s s y Ls Hy); lia)). apply HH in Hy. rewrite Hy in H2. cbn [negb orb] in H2. apply andb_prop in H2 as [H2 H4]. split.
      + intros -> E. rewrite Nat.eqb_refl in H2. cbn [negb orb] in H2. rewrite E, Nat.eqb_refl in H2. cbn [negb orb] in H2. apply Nat.eqb_eq; auto.
      + intros E. rewrite (proj2 (CheckProofs.lexeq_ok _ _) E) in H4. cbn [negb orb] in H4. apply Nat.eqb_eq; auto.
    - intros N. apply orb_prop in H3 as [H3|H3]; [apply Nat.eqb_eq in H3; contradiction|]. apply Bool.eqb_prop in H3. rewrite H3, existsb_exists. split.
      + intros (y & _ & E). apply andb_prop in E as [E1 E2]. apply Nat.eqb_eq in E2. exists y. split; auto. apply HH. auto.
      + intros (y & Hy & E). exists y. split; [apply in_seq; specialize (HB s s y Ls Hy); lia|]. apply HH in Hy. rewrite Hy, E, Nat.eqb_refl. auto. }
  split.
  - intros r x y Lr Hx Hy. destruct (H1 r x Lr Hx) as [_ H2]. apply (H2 r Lr); auto.
  - intros r x Lr Hx. apply CheckProofs.lexeq_ok. apply (H1 r x Lr Hx).
  - intros r s x y Lr Ls Hx Hy. destruct (H1 r x Lr Hx) as [_ H2]. apply (H2 s Ls); auto.
  - intros r s x Lr Ls N Hx. rewrite <- (HH r s x). destruct (H1 r x Lr Hx) as [_ H2]. apply (H2 s Ls); auto.
Qed.
Definition sqMesh (r : nat) := match r with 0 => squares | _ => squares1 end.
Definition sqDom (r : nat) := match r with 0 => [0; 1] | _ => [1; 0] end.
Definition sqNode (r x : nat) := match r with 0 => x | _ => 5 - x end.
Definition sqFace (r f : nat) := match r with 0 => f | _ => nth f [4; 5; 6; 1; 3; 2; 0] f end.
Example squares_nodes_agree : Agree 2 (fun r s x => RankNode (sqMesh r) (From_ (sqDom r)) s x) sqNode (fun r x => node_at 2 (sqMesh r) x) (fun X => node_at 2 squares X).
Proof.
  apply (agreeb_ok 2 6 _ (fun r s x => hasNode (sqMesh r) (sqDom r) s x)); [intros; apply hasNode_ok| |vm_compute; auto].
  intros r s x L (i & _ & c & z & ns & _ & _ & En & Ix). destruct r as [|[|]]; [| |lia]; cbn [sqMesh] in En; apply nth_error_In in En; cbn in En; repeat (destruct En as [<-|En]; [cbn in Ix; lia|]); destruct En.
Qed.
Example squares_faces_agree : Agree 2 (fun r s f => RankFace (sqMesh r) (From_ (sqDom r)) s f) sqFace (fun r => edgeKey (fun p => map (Z.mul 2) p) (sqMesh r)) (edgeKey (fun p => map (Z.mul 2) p) squares).
Proof.
  apply (agreeb_ok 2 7 _ (fun r s x => hasFace (sqMesh r) (sqDom r) s x)); [intros; apply hasFace_ok| |vm_compute; auto].
  intros r s f L (i & _ & c & z & Ec & Iz & <-). destruct r as [|[|]]; [| |lia]; cbn [sqMesh] in Ec; apply nth_error_In in Ec; cbn in Ec; repeat (destruct Ec as [<-|Ec]; [cbn in Iz; repeat (destruct Iz as [<-|Iz]; [cbn; lia|]); destruct Iz|]); destruct Ec.
Qed.
