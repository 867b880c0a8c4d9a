(* C51: the OFF file of a PLC. *)
From Verif Require Import Base BaseFacts SerializeModel MeshModel OffModel OffSpec OffProofs.
From Coq Require Import Lia.

(* Every file that is written reads back, by the format's own rules, as the points (in order, D
   coordinates each) and the outer facets of the PLC.  What the header does not count are exactly the
   lines of the facets of the holes, in order.  In two dimensions the number of edges is right, in three
   it is always zero. *)
Theorem writeOFF_reads_partial {V} D (p : plc) (coords : list V) file : 0 < D ->
  writeOFF D p coords = Ok file ->
  exists pts ne, readOFF file = Some (mkContents pts (facets p) ne
                                   (map (fun f => WNum (Z.of_nat (length f)) :: map WNum f) (concat (holes p)))) /\
    concat pts = coords /\ Forall (fun q => length q = D) pts /\
    (D = 2 -> EdgeCount (facets p ++ concat (holes p)) ne) /\ (D <> 2 -> ne = 0%Z).
Proof.
  intros P H. unfold writeOFF in H. apply bind_ok in H as (u & A & H). apply assert_ok, Nat.eqb_eq in A.
  apply bind_ok in H as (es & ES & H). apply bind_ok in H as (pls & PL & H). apply bind_ok in H as (fls & FL & H).
  apply bind_ok in H as (hls & HL & H). injection H as <-. rewrite point_lines_ok in PL by auto. injection PL as <-.
  apply facet_lines_ok in FL as [-> _]. set (n := length coords / D) in *.
  assert (LC : length coords = D * n). { pose proof (Nat.div_mod (length coords) D ltac:(lia)). unfold n. lia. }
  exists (map (chunk D coords) (seq 0 n)), (Z.of_nat (length es)).
  assert (HC : concat hls = map (fun f => WNum (Z.of_nat (length f)) :: map WNum f) (concat (holes p))).
  { apply mmap_inv in HL. clear -HL. induction HL as [|h l hs ls H F IH]; [reflexivity|]. cbn [concat]. rewrite map_app, IH.
    apply facet_lines_ok in H as [-> _]. auto. }
  split; [|split; [|split; [|split]]].
  - unfold readOFF. rewrite !Nat2Z.id. rewrite <- (map_length (chunk D coords) (seq 0 n)) || idtac.
    replace n with (length (map (chunk D coords) (seq 0 n))) at 1 by (rewrite map_length, seq_length; auto).
    rewrite entries_app.
    + rewrite entries_app; [rewrite HC; auto|]. clear. induction (facets p); constructor; auto using facet_back.
    + clear. generalize (seq 0 n). intros l. induction l; constructor; auto using reals_map.
  - apply chunks_concat; auto.
  - apply Forall_forall. intros q I. apply in_map_iff in I as (i & <- & I). apply in_seq in I. unfold chunk.
    rewrite firstn_length, skipn_length. nia.
  - intros ->. cbn [Nat.eqb] in ES. assert (T := edge_set_two _ _ _ ES). destruct (edge_set_ok _ T) as (es' & ES' & N & IN & OUT).
    assert (es' = es) by congruence. subst es'. exists es. auto.
  - intros N. apply Nat.eqb_neq in N. rewrite N in ES. injection ES as <-. auto.
Qed.
Print Assumptions writeOFF_reads_partial.

(* The file is written exactly when the coordinates make up whole points and, in two dimensions, every
   facet is an edge between two different points. *)
Theorem writeOFF_writes {V} D (p : plc) (coords : list V) : 0 < D ->
  (exists file, writeOFF D p coords = Ok file) <->
  length coords mod D = 0 /\ (D = 2 -> forall f, In f (facets p) \/ In f (concat (holes p)) -> exists a b, f = [a; b] /\ a <> b).
Proof.
  intros P. split.
  - intros (file & H). unfold writeOFF in H. apply bind_ok in H as (u & A & H). apply assert_ok, Nat.eqb_eq in A.
    split; auto. intros ->. apply bind_ok in H as (es & ES & H). cbn [Nat.eqb] in ES. apply edge_set_two in ES.
    rewrite Forall_forall in ES. intros f I. apply ES, in_app_iff. auto.
  - intros [A T]. unfold writeOFF. rewrite A, Nat.eqb_refl. cbn [assert bind].
    assert (TW : D = 2 -> forall f, In f (facets p) \/ In f (concat (holes p)) -> length f = 2).
    { intros E f I. destruct (T E f I) as (a & b & -> & _). auto. }
    assert (exists es, (if D =? 2 then edge_set (facets p ++ concat (holes p)) else Ok []) = Ok es) as (es & ->).
    { destruct (Nat.eqb_spec D 2) as [E|E]; [|eauto]. destruct (edge_set_ok (facets p ++ concat (holes p))) as (es & ES & _); [|eauto].
      apply Forall_forall. intros f I. apply in_app_iff in I. apply T; auto. }
    cbn [bind]. rewrite point_lines_ok by auto. cbn [bind]. rewrite facet_lines_total; [|intros E; apply Forall_forall; auto].
    cbn [bind]. rewrite (mmap_ok _ (map (fun f => WNum (Z.of_nat (length f)) :: map WNum f))); [cbn [bind]; eauto|].
    intros h I. apply facet_lines_total. intros E. apply Forall_forall. intros f J. apply TW; auto. right. apply in_concat. eauto.
Qed.
Print Assumptions writeOFF_writes.

(* So the counts of points and facets in the header are the numbers of lines that follow exactly when no
   hole has a facet. *)
Theorem writeOFF_counts_partial {V} D (p : plc) (coords : list V) file : 0 < D ->
  writeOFF D p coords = Ok file ->
  exists np nf ne ls, file = [WOff] :: [WNum np; WNum nf; WNum ne] :: ls /\
    (Z.of_nat (length ls) = (np + nf)%Z <-> concat (holes p) = []).
Proof.
  intros P H. destruct (writeOFF_reads_partial D p coords file P H) as (pts & ne & R & C & L & _).
  unfold writeOFF in H. apply bind_ok in H as (u & A & H). apply assert_ok, Nat.eqb_eq in A.
  apply bind_ok in H as (es & ES & H). apply bind_ok in H as (pls & PL & H). apply bind_ok in H as (fls & FL & H).
  apply bind_ok in H as (hls & HL & H). injection H as <-. do 4 eexists. split; [reflexivity|].
  rewrite point_lines_ok in PL by auto. injection PL as <-. apply facet_lines_ok in FL as [-> _].
  rewrite !app_length, !map_length, seq_length.
  assert (HC : length (concat hls) = length (concat (holes p))).
  { apply mmap_inv in HL. clear -HL. induction HL as [|h l hs ls H F IH]; [reflexivity|]. cbn [concat]. rewrite !app_length, IH.
    apply facet_lines_ok in H as [-> _]. rewrite map_length. auto. }
  rewrite HC. split; [intros E; destruct (concat (holes p)); auto; cbn in E; lia|intros ->; cbn; lia].
Qed.
Print Assumptions writeOFF_counts_partial.

(* C51 does not hold with holes: a unit square with a triangular hole *)
Definition holed : plc := mkPLC [[0; 1]; [1; 2]; [2; 3]; [3; 0]]%Z [[[4; 5]; [5; 6]; [6; 4]]%Z].
Definition holed_points : list Z := [0; 0; 10; 0; 10; 10; 0; 10; 2; 2; 4; 2; 4; 4]%Z.
Theorem writeOFF_holes_refuted : exists file, writeOFF 2 holed holed_points = Ok file /\
  exists ls, file = [WOff] :: [WNum 7; WNum 4; WNum 7] :: ls /\ length ls = 14.
Proof. eexists. split; [reflexivity|]. eexists. split; reflexivity. Qed.
Print Assumptions writeOFF_holes_refuted.

(* nor is the count of edges right in three dimensions: a tetrahedron has six *)
Definition tetra : plc := mkPLC [[0; 2; 1]; [0; 1; 3]; [1; 2; 3]; [2; 0; 3]]%Z [].
Theorem writeOFF_edges_3d_refuted : exists file ls, writeOFF 3 tetra [0; 0; 0; 1; 0; 0; 0; 1; 0; 0; 0; 1]%Z = Ok file /\
  file = [WOff] :: [WNum 4; WNum 4; WNum 0] :: ls.
Proof. do 2 eexists. split; reflexivity. Qed.
Print Assumptions writeOFF_edges_3d_refuted.

(* a square, written and read back *)
Example square_file : exists file, writeOFF 2 (mkPLC [[0; 1]; [1; 2]; [2; 3]; [3; 0]]%Z []) [0; 0; 1; 0; 1; 1; 0; 1]%Z = Ok file /\
  readOFF file = Some (mkContents [[0; 0]; [1; 0]; [1; 1]; [0; 1]]%Z [[0; 1]; [1; 2]; [2; 3]; [3; 0]]%Z 4 []).
Proof. eexists. split; reflexivity. Qed.
