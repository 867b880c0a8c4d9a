(* C49: building a PLC through the C interface. *)
From Verif Require Import Base BaseFacts SerializeModel MeshModel CPlcModel CPlcSpec CPlcProofs.
From Coq Require Import Lia.

(* Any sequence of calls with ints (fewer than 2^31 of them) that names only facets and holes added
   since the last clear succeeds, and then every query returns exactly what was added, in order. *)
Theorem plc_history D cs : (D = 2 \/ D = 3)%Z -> (Z.of_nat (length cs) < 2 ^ 31)%Z -> Legal cs ->
  exists h, history D cs = Ok h /\
    (forall f, below f (facet_count cs) ->
       numFacetNodes h f = Ok (Z.of_nat (length (nodes_of cs f))) /\
       forall buf, length (nodes_of cs f) <= length buf ->
         exists buf', getFacetNodes h f buf = Ok buf' /\ length buf' = length buf /\
           firstn (length (nodes_of cs f)) buf' = nodes_of cs f /\
           skipn (length (nodes_of cs f)) buf' = skipn (length (nodes_of cs f)) buf) /\
    (forall k, below k (hole_count cs) ->
       numHoleFacets h k = Ok (Z.of_nat (hole_facet_count cs k)) /\
       forall f, below f (hole_facet_count cs k) ->
         numHoleFacetNodes h k f = Ok (Z.of_nat (length (hole_nodes_of cs k f))) /\
         forall buf, length (hole_nodes_of cs k f) <= length buf ->
           exists buf', getHoleFacetNodes h k f buf = Ok buf' /\ length buf' = length buf /\
             firstn (length (hole_nodes_of cs k f)) buf' = hole_nodes_of cs k f /\
             skipn (length (hole_nodes_of cs k f)) buf' = skipn (length (hole_nodes_of cs k f)) buf) /\
    (exists b, plcEmpty h = Ok b /\ (b = true <-> facet_count cs = 0 /\ hole_count cs = 0)) /\
    (exists b, plcValid h = Ok b /\
       let enough (l : list Z) := if (D =? 2)%Z then length l = 2 else 3 <= length l in
       (b = true <-> (forall f, below f (facet_count cs) -> enough (nodes_of cs f)) /\
                     (forall k f, below k (hole_count cs) -> below f (hole_facet_count cs k) -> enough (hole_nodes_of cs k f)))).
Proof.
  intros HD B L. exists (handleOf D (built cs)). split; [apply history_ok; auto|].
  assert (CP : forall l buf : list Z, length l <= length buf -> length (l ++ skipn (length l) buf) = length buf /\
     firstn (length l) (l ++ skipn (length l) buf) = l /\ skipn (length l) (l ++ skipn (length l) buf) = skipn (length l) buf).
  { intros l buf K. rewrite app_length, skipn_length. split; [lia|]. rewrite firstn_app, skipn_app, firstn_all, skipn_all, Nat.sub_diag. cbn. rewrite app_nil_r. auto. }
  split; [|split; [|split]].
  - intros f F. split; [apply numFacetNodes_ok; auto|]. intros buf K. eexists. split; [apply getFacetNodes_ok; auto|]. auto.
  - intros k K. split; [apply numHoleFacets_ok; auto|]. intros f F. split; [apply numHoleFacetNodes_ok; auto|]. intros buf Q.
    eexists. split; [apply getHoleFacetNodes_ok; auto|]. auto.
  - unfold plcEmpty. rewrite chosen_of. cbn [bind]. eexists. split; [reflexivity|]. unfold plc_empty, isnil, built. cbn [facets holes].
    pose proof (table_length (facet_count cs) (nodes_of cs)) as LF.
    pose proof (table_length (hole_count cs) (fun k => table (hole_facet_count cs k) (hole_nodes_of cs k))) as LH.
    destruct (table (facet_count cs) (nodes_of cs)), (table (hole_count cs) (fun k => table (hole_facet_count cs k) (hole_nodes_of cs k)));
      cbn in LF, LH; split; intros Q; auto; try discriminate; exfalso; lia.
  - assert (E : plcValid (handleOf D (built cs)) = Ok (if (D =? 2)%Z then plc_valid 2 (built cs) else plc_valid 3 (built cs))).
    { unfold plcValid, handleOf. destruct (D =? 2)%Z; auto. }
    rewrite E. eexists. split; [reflexivity|]. cbv zeta. unfold plc_valid, built. cbn [facets holes]. destruct (D =? 2)%Z.
    + rewrite Bool.andb_true_iff, !forallb_table. split; intros [P Q]; (split; [intros f F; specialize (P f F); cbn beta in *; apply Nat.eqb_eq; auto|]).
      * intros k f K F. specialize (Q k K). rewrite forallb_table in Q. apply Nat.eqb_eq, (Q f F).
      * intros k K. rewrite forallb_table. intros f F. apply Nat.eqb_eq, Q; auto.
    + assert (G : forall l : list Z, negb (length l <? 3) = true <-> 3 <= length l). { intros l. rewrite Bool.negb_true_iff, Nat.ltb_ge. lia. }
      rewrite Bool.andb_true_iff, !forallb_table. split; intros [P Q]; (split; [intros f F; specialize (P f F); cbn beta in *; apply G; auto|]).
      * intros k f K F. specialize (Q k K). rewrite forallb_table in Q. apply G, (Q f F).
      * intros k K. rewrite forallb_table. intros f F. apply G, Q; auto.
Qed.
Print Assumptions plc_history.

(* Each add call returns the index of what it adds. *)
Theorem plc_indices D cs h : (D = 2 \/ D = 3)%Z -> (Z.of_nat (length cs) < 2 ^ 31)%Z -> Legal cs -> history D cs = Ok h ->
  (exists h', addFacet h = Ok (h', Z.of_nat (facet_count cs)) /\ history D (cs ++ [AddFacet]) = Ok h') /\
  (exists h', addHole h = Ok (h', Z.of_nat (hole_count cs)) /\ history D (cs ++ [AddHole]) = Ok h') /\
  (forall k, below k (hole_count cs) ->
    exists h', addHoleFacet h k = Ok (h', Z.of_nat (hole_facet_count cs k)) /\ history D (cs ++ [AddHoleFacet k]) = Ok h').
Proof.
  intros HD B L H. pose proof (history_ok D cs HD L B) as E. rewrite E in H. injection H as <-.
  assert (X : forall c, history D (cs ++ [c]) = do_call (handleOf D (built cs)) c).
  { intros c. unfold history in *. destruct (plcNew D) as [h0| | |]; try discriminate. cbn [bind] in *. rewrite mfold_app, E. cbn [bind mfold]. destruct (do_call _ c); auto. }
  split; [|split; [|intros k K]]; rewrite X; cbn [do_call].
  - rewrite addFacet_ok by auto. eauto.
  - rewrite addHole_ok by auto. eauto.
  - rewrite addHoleFacet_ok by auto. eauto.
Qed.
Print Assumptions plc_indices.

(* A history that anywhere names a facet or hole that is not there (negative indices included) is stopped
   by an assertion. *)
Theorem plc_history_stops D cs : (D = 2 \/ D = 3)%Z -> (Z.of_nat (length cs) < 2 ^ 31)%Z -> Forall Ints cs -> ~ Legal cs ->
  history D cs = Abort.
Proof. intros. apply history_bad; auto. Qed.
Print Assumptions plc_history_stops.

(* A PLC copied into a C handle of the same dimension and back is unchanged; and what was built through
   the C interface arrives on the C++ side facet by facet. *)
Theorem plc_copies D cs h p : (D = 2 \/ D = 3)%Z -> (Z.of_nat (length cs) < 2 ^ 31)%Z -> Legal cs -> history D cs = Ok h ->
  (exists h', fillC D p h = Ok h' /\ fillCpp D h' = Ok p) /\
  (exists q, fillCpp D h = Ok q /\ length (facets q) = facet_count cs /\ length (holes q) = hole_count cs /\
    (forall f, f < facet_count cs -> nth_error (facets q) f = Some (nodes_of cs (Z.of_nat f))) /\
    (forall k, k < hole_count cs -> exists fs, nth_error (holes q) k = Some fs /\ length fs = hole_facet_count cs (Z.of_nat k) /\
       forall f, f < length fs -> nth_error fs f = Some (hole_nodes_of cs (Z.of_nat k) (Z.of_nat f)))).
Proof.
  intros HD B L H. rewrite history_ok in H by auto. injection H as <-. split.
  - destruct HD as [-> | ->]; eexists; split; reflexivity.
  - exists (built cs). split; [destruct HD as [-> | ->]; reflexivity|]. cbn [facets holes built]. rewrite !table_length. repeat split; auto.
    + intros f F. apply table_nth; auto.
    + intros k K. eexists. split; [apply table_nth; auto|]. cbn beta. rewrite table_length. split; auto. intros f F. apply table_nth; auto.
Qed.
Print Assumptions plc_copies.

(* a triangle with a triangular hole, built after a first attempt was cleared *)
Definition calls : list call :=
  [AddFacet; AddFacetNode 0 7; Clear; AddFacet; AddFacetNode 0 0; AddFacet; AddFacetNode 0 1; AddFacetNode 1 1; AddFacet; AddFacetNode 2 2;
   AddFacetNode 1 2; AddFacetNode 2 0; AddHole; AddHoleFacet 0; AddHoleFacetNode 0 0 3; AddHoleFacetNode 0 0 4]%Z.
Example calls_legal : Legal calls.
Proof.
  assert (G : forall cs pre, Legal pre -> (fix go pre cs := match cs with [] => True | c :: cs => Names pre c /\ go (pre ++ [c]) cs end) pre cs -> Legal (pre ++ cs)).
  { induction cs as [|c cs IH]; intros pre L H; [rewrite app_nil_r; auto|]. destruct H as [N H]. change (c :: cs) with ([c] ++ cs). rewrite app_assoc. apply IH; auto. constructor; auto. }
  change calls with ([] ++ calls). apply G; [constructor|]. unfold calls. cbn. unfold below. repeat split; lia.
Qed.
Example calls_run : (do h <- history 2 calls; getFacetNodes h 1 [9; 9; 9]%Z) = Ok [1; 2; 9]%Z
  /\ (do h <- history 2 calls; plcValid h) = Ok true /\ (do h <- history 3 calls; plcValid h) = Ok false
  /\ (do h <- history 2 calls; getHoleFacetNodes h 0 0 [9; 9]%Z) = Ok [3; 4]%Z.
Proof. repeat split. Qed.
Example calls_stop : history 2 [AddFacet; AddFacetNode (-1) 0] = Abort.
Proof. reflexivity. Qed.
