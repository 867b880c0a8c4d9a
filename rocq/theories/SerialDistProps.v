(* C41, C42: gathering the generators and sharing out the mesh. *)
From Verif Require Import Base BaseFacts StdAlg SerializeModel SerializeSpec MeshModel MeshSpec MeshCheck MeshProofs MeshProofs2 MeshProps CollModel SerialDistModel SerialDistSpec SerialDistProofs SerialDistProofs2 SerialDistProofs3 ExchangeSpec ExchangeProofs2 ExchangeProps MpiSpec.
From Coq Require Import Sorted Lia.

(* rank r passes pts r: whole points, 64-bit numbers, within the sizes that unsigned can count *)
Record Inputs (D n : nat) (pts : nat -> list Z) : Prop := {
  in_whole : forall r, r < n -> exists c, length (pts r) = D * c;
  in_bits : forall r, r < n -> Forall (fits TDouble) (pts r);
  in_small : forall r, r < n -> (4 + 8 * Z.of_nat (length (pts r)) < 2 ^ 32)%Z;
  in_total : (Z.of_nat (length (gathered n pts)) < 2 ^ 32)%Z }.

(* ---- C41 ---- *)
(* every rank ends up with the points of all ranks in rank order, and with the numbers of points
   before each rank; no rank is left waiting *)
Theorem gather_all : forall D n pts, 0 < D -> Inputs D n pts ->
  Together n (fun r => gather D (serialize (TVec TDouble) (pts r)) (seq 0 n) [] [0] (fun g o => CRet (Ok (g, o))))
             (fun _ => Ok (gathered n pts, map (before D pts) (seq 0 (S n)))).
Proof.
  intros D n pts Dp [W B S0 T]. pose proof (gather_loop D Dp n pts (fun _ g o => CRet (Ok (g, o))) W B S0 T (fun _ => Ok (gathered n pts, offsets D n pts)) n 0 eq_refl) as G. cbn [seq map] in G. rewrite (before_0 D Dp n pts W) in G. apply G. apply t_ret. auto.
Qed.
Print Assumptions gather_all.

(* each gathered point has exactly one owner, the rank that contributed it, and ownerRank finds it *)
Theorem owner_partition : forall D n pts, 0 < D -> Inputs D n pts -> forall i, i < length (gathered n pts) / D ->
  exists r, r < n /\ Owns D pts r i /\ (forall s, s < n -> Owns D pts s i -> s = r) /\
    ownerRank i (map (before D pts) (seq 0 (S n))) = Ok r /\
    position D (gathered n pts) i = position D (pts r) (i - before D pts r).
Proof.
  intros D n pts Dp [W B S0 T] i L. assert (N : 0 < n). { destruct n; [|lia]. cbn in L. rewrite Nat.div_0_l in L; lia. }
  destruct (owner_ok D Dp n pts W i N L) as (r & Lr & O & E). exists r. split; auto. split; auto. split; [intros s Ls Os; exact (owner_unique D Dp n pts W s r i Ls Lr Os O)|]. split; auto.
  destruct O as [O1 O2]. destruct (before_S D Dp n pts W r Lr) as (c & Ec & Eb). pose proof (gathered_whole D Dp n pts W r ltac:(lia)) as G.
  assert (SP : exists rest, gathered n pts = gathered r pts ++ pts r ++ rest). { unfold gathered. assert (Q : exists k, n = r + (1 + k)) by (exists (n - r - 1); lia). destruct Q as [k ->]. rewrite seq_app, flat_map_app. cbn. eauto. }
  destruct SP as [rest ->]. unfold position. replace (D * i) with (length (gathered r pts) + D * (i - before D pts r)) by nia.
  rewrite skipn_app. rewrite (skipn_all2 (gathered r pts)) by apply Nat.le_add_r. cbn [app]. replace (length (gathered r pts) + D * (i - before D pts r) - length (gathered r pts)) with (D * (i - before D pts r)) by (rewrite Nat.add_comm, Nat.add_sub; auto).
  rewrite skipn_app, firstn_app. replace (D - length (skipn (D * (i - before D pts r)) (pts r))) with 0; [cbn; apply app_nil_r|]. rewrite skipn_length. nia.
Qed.
Print Assumptions owner_partition.

(* a number that is no point is refused *)
Theorem owner_refuses : forall D n pts i, 0 < D -> Inputs D n pts -> length (gathered n pts) / D <= i -> ownerRank i (map (before D pts) (seq 0 (S n))) = Abort.
Proof.
  intros D n pts i Dp [W _ _ _] L. change (map (before D pts) (seq 0 (S n))) with (offsets D n pts). unfold ownerRank. rewrite (offsets_len D n pts). destruct (Nat.ltb_spec 1 (S n)) as [L1|L1]; [|reflexivity]. cbn [assert bind]. rewrite (proj2 (get_ok (offsets D n pts) (S n - 1) (before D pts n))) by (rewrite <- (offsets_nth D Dp n pts W) by lia; f_equal; lia). cbn [bind]. fold (before D pts n) in L. destruct (Nat.ltb_spec i (before D pts n)); [lia|reflexivity].
Qed.
Print Assumptions owner_refuses.

(* three ranks, the middle one without points *)
Definition three (r : nat) : list Z := match r with 0 => [5; 6; 7; 8]%Z | 2 => [9; 10]%Z | _ => [] end.
Example three_inputs : Inputs 2 3 three.
Proof.
  split; [| | |cbn; lia]; intros r L; destruct r as [|[|[|]]]; try lia; cbn; try lia; [exists 2|exists 0|exists 1| | | ]; auto; repeat constructor; cbn; lia.
Qed.
Example three_owners : map (fun i => ownerRank i (map (before 2 three) (seq 0 4))) [0; 1; 2; 3] = [Ok 0; Ok 0; Ok 2; Abort].
Proof. reflexivity. Qed.

(* ---- C42 ---- *)
(* for every mesh and every sharing out of its cells (a rank may have none) each rank finds its
   neighbors and, for each of them, the nodes and faces they share *)
Theorem share_lists : forall V D n pts (m : mesh V), 0 < D -> Inputs D n pts -> Fresh D m -> length (cells m) = length (gathered n pts) / D ->
  forall r, r < n -> exists nd sn sf, shareLists D m (map (before D pts) (seq 0 (S n))) r = Ok (nd, sn, sf) /\ SharedLists n m (Owns D pts) r nd sn sf.
Proof. intros V D n pts m Dp [W _ _ _] FR C r L. exact (shareLists_ok D Dp n pts m W FR C r L). Qed.
Print Assumptions share_lists.

(* s is a neighbor of r exactly when r is one of s, and their two lists are the same *)
Theorem share_lists_agree : forall V D n pts (m : mesh V), 0 < D -> Inputs D n pts -> Fresh D m -> length (cells m) = length (gathered n pts) / D ->
  forall r s nd sn sf nd' sn' sf' i, r < n -> s < n ->
  shareLists D m (map (before D pts) (seq 0 (S n))) r = Ok (nd, sn, sf) -> shareLists D m (map (before D pts) (seq 0 (S n))) s = Ok (nd', sn', sf') ->
  nth_error nd i = Some s -> exists i', nth_error nd' i' = Some r /\ nth_error sn' i' = nth_error sn i /\ nth_error sf' i' = nth_error sf i.
Proof.
  intros V D n pts m Dp I FR C r s nd sn sf nd' sn' sf' i Lr Ls E1 E2 E. destruct (share_lists V D n pts m Dp I FR C r Lr) as (? & ? & ? & F1 & S1). destruct (share_lists V D n pts m Dp I FR C s Ls) as (? & ? & ? & F2 & S2). rewrite E1 in F1. rewrite E2 in F2. injection F1 as <- <- <-. injection F2 as <- <- <-. eapply lists_sym; eauto using in_whole.
Qed.
Print Assumptions share_lists_agree.

(* The whole run.  tess is any tessellator: a function of the gathered points.  If every rank has
   points, every rank finishes; it keeps exactly the cells of its own points, renumbered, and its
   lists name what it shares with its neighbors. *)
Theorem serial_distributed : forall V D n pts tess (m : mesh V), 0 < D -> Inputs D n pts -> (forall r, r < n -> pts r <> []) ->
  tess (gathered n pts) = Ok m -> Fresh D m -> length (cells m) = length (gathered n pts) / D ->
  exists out kC kF kN, Together n (fun r => serialDist D n tess r (pts r)) (fun r => Ok (out r)) /\
    forall r, r < n -> Domain D n m (Owns D pts) r (out r) (kC r) (kF r) (kN r).
Proof.
  intros V D n pts tess m Dp I Ne ET FR C. pose proof (in_whole _ _ _ I) as W.
  assert (K : forall r, r < n -> exists o : mesh V * list nat * list nat * list nat, cull D m (offsets D n pts) r = Ok (fst (fst (fst o))) /\ Domain D n m (Owns D pts) r (fst (fst (fst o))) (snd (fst (fst o))) (snd (fst o)) (snd o)).
  { intros r L. destruct (cull_ok D Dp n pts m W FR C r L) as (m' & kC & kF & kN & E & H); [|exists (m', kC, kF, kN); auto]. destruct (before_S D Dp n pts W r L) as (c & Ec & ->). specialize (Ne r L). destruct (pts r); [congruence|]. cbn in Ec. destruct c; lia. }
  destruct (choose (m, [], [], []) _ n K) as [f H].
  exists (fun r => fst (fst (fst (f r)))), (fun r => snd (fst (fst (f r)))), (fun r => snd (fst (f r))), (fun r => snd (f r)). split; [|intros r L; apply H; auto].
  destruct I as [_ B S0 T]. unfold serialDist.
  assert (G : Together n (fun r : nat => gather D (serialize (TVec TDouble) (pts r)) (seq 0 n) [] [0] ((fun (r : nat) (gens : list Z) (offs : list nat) => clift (assert (length offs =? n + 1)) (fun _ => clift (get offs (length offs - 1)) (fun b => clift (assert (b =? length gens / D)) (fun _ => clift (tess gens) (fun m0 => CRet (cull D m0 offs r)))))) r)) (fun r => Ok (fst (fst (fst (f r)))))); [|exact G].
  pose proof (gather_loop D Dp n pts (fun (r : nat) (gens : list Z) (offs : list nat) => clift (assert (length offs =? n + 1)) (fun _ => clift (get offs (length offs - 1)) (fun b => clift (assert (b =? length gens / D)) (fun _ => clift (tess gens) (fun m0 => CRet (cull D m0 offs r)))))) W B S0 T (fun r => Ok (fst (fst (fst (f r))))) n 0 eq_refl) as G. cbn [seq map] in G. rewrite (before_0 D Dp n pts W) in G. apply G. clear G.
  rewrite offsets_len. replace (S n =? n + 1) with true by (symmetry; apply Nat.eqb_eq; lia). cbn [assert clift]. replace (S n - 1) with n by lia. rewrite (proj2 (get_ok _ _ _) (offsets_nth D Dp n pts W n ltac:(lia))). cbn [clift]. unfold before at 1. rewrite Nat.eqb_refl. cbn [assert clift]. rewrite ET. cbn [clift]. apply t_ret. intros r L. destruct (H r L) as [-> _]. auto.
Qed.
Print Assumptions serial_distributed.

(* neighbors list the same elements of the whole mesh in the same order *)
Theorem serial_lists_agree : forall V D n (m : mesh V) owns r s m1 c1 f1 n1 m2 c2 f2 n2 i, r < n -> s < n ->
  Domain D n m owns r m1 c1 f1 n1 -> Domain D n m owns s m2 c2 f2 n2 -> nth_error (neighborDomains m1) i = Some s ->
  exists i' l l' g g' xs ys, nth_error (neighborDomains m2) i' = Some r /\
    nth_error (sharedNodes m1) i = Some l /\ nth_error (sharedNodes m2) i' = Some l' /\ Stand n1 l xs /\ Stand n2 l' xs /\
    nth_error (sharedFaces m1) i = Some g /\ nth_error (sharedFaces m2) i' = Some g' /\ Stand f1 g ys /\ Stand f2 g' ys.
Proof. exact (@domains_sym). Qed.
Print Assumptions serial_lists_agree.

(* so the lists are fit for the exchange of shared node positions (C43), which leaves all copies
   of a node in the same place *)
Theorem serial_then_exchange : forall V D n (m : mesh V) owns out kC kF kN, 0 < D -> (forall r, r < n -> Domain D n m owns r (out r) (kC r) (kF r) (kN r)) ->
  Consistent D n (fun r => mkPart (nodes (out r)) (kN r) (neighborDomains (out r)) (sharedNodes (out r))) /\
  exists final : nat -> list V, Finishes n (ranks D n (fun r => mkPart (nodes (out r)) (kN r) (neighborDomains (out r)) (sharedNodes (out r)))) (fun r => Ok (final r)).
Proof.
  intros V D n m owns out kC kF kN Dp H. assert (C : Consistent D n (fun r => mkPart (nodes (out r)) (kN r) (neighborDomains (out r)) (sharedNodes (out r)))) by exact (domains_consistent D n m owns out kC kF kN H). split; auto. destruct (shared_positions V D n _ Dp C) as (f & F & _). eauto.
Qed.
Print Assumptions serial_then_exchange.

(* a rank without points stops the run, although its lists are in order *)
Theorem serial_empty_rank : forall V D n pts tess (m : mesh V) r, 0 < D -> Inputs D n pts -> r < n -> pts r = [] ->
  tess (gathered n pts) = Ok m -> Fresh D m -> length (cells m) = length (gathered n pts) / D -> cells m <> [] ->
  forall a, Together n (fun r => serialDist D n tess r (pts r)) a -> a r = Abort.
Proof.
  intros V D n pts tess m r Dp I L Em ET FR C Nc a Ha. pose proof (in_whole _ _ _ I) as W. destruct I as [_ B S0 T].
  assert (G : Together n (fun r => serialDist D n tess r (pts r)) (fun r => cull D m (offsets D n pts) r)).
  { pose proof (gather_loop D Dp n pts (fun (r : nat) (gens : list Z) (offs : list nat) => clift (assert (length offs =? n + 1)) (fun _ => clift (get offs (length offs - 1)) (fun b => clift (assert (b =? length gens / D)) (fun _ => clift (tess gens) (fun m0 => CRet (cull D m0 offs r)))))) W B S0 T (fun r => cull D m (offsets D n pts) r) n 0 eq_refl) as G. cbn [seq map] in G. rewrite (before_0 D Dp n pts W) in G. apply G. clear G.
    rewrite offsets_len. replace (S n =? n + 1) with true by (symmetry; apply Nat.eqb_eq; lia). cbn [assert clift]. replace (S n - 1) with n by lia. rewrite (proj2 (get_ok _ _ _) (offsets_nth D Dp n pts W n ltac:(lia))). cbn [clift]. unfold before at 1. rewrite Nat.eqb_refl. cbn [assert clift]. rewrite ET. cbn [clift]. apply t_ret. auto. }
  rewrite (together_det n _ _ Ha _ G r L). apply cull_empty; auto. destruct (before_S D Dp n pts W r L) as (c & Ec & ->). rewrite Em in Ec. cbn in Ec. nia.
Qed.
Print Assumptions serial_empty_rank.

(* two squares side by side, one per rank *)
Definition squares : mesh Z := mkMesh (nodes two_squares) (cells two_squares) (faces two_squares) [] [] (faceCells two_squares) (mkPLC [] []) [] [] [].
Example squares_fresh : Fresh 2 squares.
Proof.
  split; auto.
  - apply wfb_sound. reflexivity.
  - intros f ns E. destruct f as [|[|[|[|[|[|[|f]]]]]]]; cbn in E; try (injection E as <-; discriminate). destruct f; discriminate.
  - intros i c E. destruct i as [|[|i]]; cbn in E; [| |destruct i; discriminate]; injection E as <-; repeat constructor; cbn; intuition lia.
Qed.
Definition pair_ (r : nat) : list Z := match r with 0 => [5; 6]%Z | _ => [7; 8]%Z end.
Example pair_inputs : Inputs 2 2 pair_ /\ (forall r, r < 2 -> pair_ r <> []) /\ length (cells squares) = length (gathered 2 pair_) / 2.
Proof.
  split; [|split; auto; intros r L; destruct r as [|[|]]; try lia; discriminate]. split; [| | |cbn; lia]; intros r L; destruct r as [|[|]]; try lia; cbn; try lia; try (exists 1; auto); repeat constructor; cbn; lia.
Qed.
Example squares_shared : shareLists 2 squares [0; 1; 2] 0 = Ok ([1], [[1; 4]], [[1]]) /\ shareLists 2 squares [0; 1; 2] 1 = Ok ([0], [[1; 4]], [[1]]).
Proof. split; reflexivity. Qed.
Example squares_kept : (do m' <- cull 2 squares [0; 1; 2] 1; Ok (nodes m', neighborDomains m', sharedNodes m', sharedFaces m')) =
  Ok ([1; 0; 2; 0; 1; 1; 2; 1]%Z, [0], [[0; 2]], [[0]]).
Proof. vm_compute. reflexivity. Qed.
Example squares_run_out : cull 2 squares [0; 2; 2] 1 = Abort.
Proof. reflexivity. Qed.
