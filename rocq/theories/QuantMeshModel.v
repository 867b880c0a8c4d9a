(* Model of how a planar diagram, given as vertex loops, becomes a quantized mesh and then a
   Tessellation: the read-out loops of src/BoostTessellator.cc and
   src/clipQuantizedTessellation2d.cc, the clean-up of the latter, and
   QuantizedTessellation2d::fillTessellation.  The Voronoi construction itself and the
   polygon Boolean operations (Boost.Polygon) are not modelled: the loops they return are
   the input. *)
From Verif Require Import Base StdAlg SerializeModel KeyMapModel ArrayModel PointMapModel MeshModel MeshEditorModel.
From Coq Require Import QArith.
Local Open Scope nat_scope.

(* IntPoint: truncated integer coordinates *)
Notation pt := (Z * Z)%type.

(* nodes and edges found so far, with the map that numbers them, and the signed edge list
   of every cell.  M is the type of the node map. *)
Record quant (M : Type) := mkQuant {
  qmap : M;                                  (* node2id *)
  qnodes : list pt;                          (* nodes / newNodes *)
  qe2id : keymap (K := nat * nat);           (* edge2id *)
  qedges : list (nat * nat);                 (* edges / newEdges *)
  qcells : list (list Z) }.                  (* cellEdges / newCellEdges *)
Arguments mkQuant {M}. Arguments qmap {M}. Arguments qnodes {M}. Arguments qe2id {M}.
Arguments qedges {M}. Arguments qcells {M}.

(* "Insert vertex", BoostTessellator.cc lines 134-150: a std::map<IntPoint, int>; its order
   is Point2::operator<, which ignores the index member (0 here). *)
Definition boost_node (st : keymap (K := Z * Z * nat) * list pt) (p : pt)
  : res (nat * (keymap (K := Z * Z * nat) * list pt)) :=
  let (m, ns) := st in
  let (j, m') := addKeyToMap point2_lt (p, 0) m in
  if j =? length m then
    do _ <- assert (j =? length ns);
    Ok (j, (m', ns ++ [p]))
  else Ok (j, (m', ns)).

(* "Insert vertex", clipQuantizedTessellation2d.cc lines 209-227 and 332-350: an
   IntPointMap.  newNodeCells (used only to find the cells around an orphan) is left out. *)
Definition clip_node (st : ipmap * list pt) (p : pt) : res (nat * (ipmap * list pt)) :=
  let (m, ns) := st in
  do (j, m') <- index m [fst p; snd p];
  Ok (j, (m', if j =? length ns then ns ++ [p] else ns)).

Section ReadOut.
  Context {M : Type} (add_node : M * list pt -> pt -> res (nat * (M * list pt))).

  (* one edge of one cell: BoostTessellator.cc lines 134-169;
     clipQuantizedTessellation2d.cc lines 206-245 and 329-368 *)
  Definition visit (i : nat) (st : quant M) (s : pt * pt) : res (quant M) :=
    do (j0, n0) <- add_node (qmap st, qnodes st) (fst s);
    do (j1, n1) <- add_node n0 (snd s);
    let (m', ns) := n1 in
    if j0 =? j1 then Ok (mkQuant m' ns (qe2id st) (qedges st) (qcells st)) else
    let edge := edge_key j0 j1 in                               (* hashEdge, j0 <> j1 *)
    let old_size := length (qe2id st) in
    let (e1, e2id) := addKeyToMap nedge_lt edge (qe2id st) in
    do edges <- (if e1 =? old_size
                 then do _ <- assert (e1 =? length (qedges st)); Ok (qedges st ++ [edge])
                 else Ok (qedges st));
    let z := if fst edge =? j0 then Z.of_nat e1 else Z.lnot (Z.of_nat e1) in
    do c <- get (qcells st) i;
    do cs <- set (qcells st) i (c ++ [z]);
    Ok (mkQuant m' ns e2id edges cs).

  (* A cell to read out: its index, whether its edge list is cleared first
     (clipQuantizedTessellation2d.cc line 326, re-read cells only), and its edges in
     walking order. *)
  Definition event := (nat * bool * list (pt * pt))%type.

  Definition read_cell (st : quant M) (e : event) : res (quant M) :=
    let '(i, clear, segs) := e in
    do st <- (if clear then do cs <- set (qcells st) i [];
                            Ok (mkQuant (qmap st) (qnodes st) (qe2id st) (qedges st) cs)
              else Ok st);
    mfold (visit i) segs st.

  Definition read_out (m0 : M) (ngen : nat) (evs : list event) : res (quant M) :=
    mfold read_cell evs (mkQuant m0 [] [] [] (repeat [] ngen)).
End ReadOut.

(* The read-out of BoostTessellator::tessellateQuantized, lines 96-172.  Each diagram cell
   is given by the index of its generator and the vertex pairs (v0, v1) met while walking
   its edges (lines 114-170); cells of guard generators (index >= numGenerators) are
   skipped (lines 104-105).  Coordinates are already truncated to integers (lines 135, 144);
   infinite edges (line 131 asserts there are none) are not represented. *)
Definition boost_read (ngen : nat) (cs : list (nat * list (pt * pt)))
  : res (quant (keymap (K := Z * Z * nat))) :=
  read_out boost_node [] ngen
    (map (fun c => (fst c, false, snd c)) (filter (fun c => fst c <? ngen) cs)).

(* The read-outs of clipQuantizedTessellation, lines 197-247 (clipped cells) and 324-369
   (cells re-read after adopting an orphan), node map with tolerance 2 (line 126). *)
Definition clip_read (ncells : nat) (evs : list event) : res (quant ipmap) :=
  read_out clip_node (ipm_new 2 2) ncells evs.

(* consecutive pairs of a closed polygon v0 v1 .. vn: (v0,v1) .. (vn,v0), the pairs of
   lines 328-330 (j and (j+1) mod nverts) *)
Definition loop_segs (vs : list pt) : list (pt * pt) :=
  match vs with [] => [] | v :: t => combine vs (t ++ [v]) end.

(* ---- clean-up after orphans, clipQuantizedTessellation2d.cc lines 374-432 ---- *)

(* lines 378-387: how often each edge is used *)
Definition count_edges (nedges : nat) (cells : list (list Z)) : res (list nat) :=
  mfold (fun cnt c => mfold (fun cnt z =>
           do _ <- assert (positiveID z <? Z.of_nat nedges)%Z;
           do k <- get cnt (pid z);
           set cnt (pid z) (S k)) c cnt) cells (repeat 0 nedges).

(* lines 389-394 *)
Definition edges2kill (cnt : list nat) : res (list nat) :=
  mfold (fun kill i =>
           do k <- get cnt i;
           do _ <- assert ((k =? 0) || (k =? 1) || (k =? 2));
           Ok (if k =? 0 then kill ++ [i] else kill)) (seq 0 (length cnt)) [].

(* lines 397-409: one signed edge id *)
Definition patch_edge (o2n : list Z) (z : Z) : res Z :=
  if (z <? 0)%Z then
    do k <- get o2n (Z.to_nat (Z.lnot z));
    do _ <- assert (negb (k =? -1)%Z);
    Ok (Z.lnot k)
  else
    do k <- get o2n (Z.to_nat z);
    do _ <- assert (negb (k =? -1)%Z);
    Ok k.

(* lines 411-416 *)
Definition count_nodes (nnodes : nat) (edges : list (nat * nat)) : res (list nat) :=
  mfold (fun cnt e =>
           do a <- get cnt (fst e);
           do cnt <- set cnt (fst e) (S a);
           do b <- get cnt (snd e);
           set cnt (snd e) (S b)) edges (repeat 0 nnodes).

(* lines 418-422 *)
Definition nodes2kill (cnt : list nat) : res (list nat) :=
  mfold (fun kill i =>
           do k <- get cnt i;
           Ok (if k =? 0 then kill ++ [i] else kill)) (seq 0 (length cnt)) [].

(* lines 425-431 *)
Definition patch_nodes (o2n : list Z) (e : nat * nat) : res (nat * nat) :=
  do a <- get o2n (fst e);
  do _ <- assert (negb (a =? -1)%Z);
  do b <- get o2n (snd e);
  do _ <- assert (negb (b =? -1)%Z);
  Ok (Z.to_nat a, Z.to_nat b).

(* lines 374-432 on (newNodes, newEdges, newCellEdges) *)
Definition clean_up {P} (ns : list P) (es : list (nat * nat)) (cs : list (list Z))
  : res (list P * list (nat * nat) * list (list Z)) :=
  do cnt <- count_edges (length es) cs;
  do kill <- edges2kill cnt;
  do (es, o2n) <- removeElements es kill;
  do cs <- mmap (mmap (patch_edge o2n)) cs;
  do ncnt <- count_nodes (length ns) es;
  do nkill <- nodes2kill ncnt;
  do (ns, n2n) <- removeElements ns nkill;
  do es <- mmap (patch_nodes n2n) es;
  Ok (ns, es, cs).

(* ---- QuantizedTessellation2d ---- *)

(* dequantize, QuantizedTessellation2d.cc lines 86-93, one coordinate: exact arithmetic
   in place of double *)
Definition dequantize1 (cmin cmax : Z) (xmin length : Q) (i : Z) : Q :=
  (xmin + inject_Z (i - cmin) * (length / inject_Z (cmax - cmin)))%Q.

(* the frame of a quantized tessellation, QuantizedTessellation2d.hh lines 23, 55 *)
Record frame := mkFrame { cmin : Z; cmax : Z; fx : Q; fy : Q; flen : Q }.
Definition dequantize (f : frame) (p : pt) : list Q :=
  [dequantize1 (cmin f) (cmax f) (fx f) (flen f) (fst p);
   dequantize1 (cmin f) (cmax f) (fy f) (flen f) (snd p)].

(* v.resize(n, a) *)
Definition resize {A} (a : A) (n : nat) (l : list A) : list A :=
  firstn n l ++ repeat a (n - length l).

(* fillTessellation, QuantizedTessellation2d.cc lines 98-131.  [old] is the mesh passed in:
   the faceCells lists it already has are kept by resize (line 107). *)
Definition fill (f : frame) (ngen : nat) (ns : list pt) (es : list (nat * nat)) (cs : list (list Z))
    (old : mesh Q) : res (mesh Q) :=
  let nf := length es in
  let nodes' := flat_map (dequantize f) ns in                             (* lines 105, 110-112 *)
  let faces0 := resize [0; 0] nf (faces old) in                           (* line 106 *)
  do faces' <- mmap (fun '(fo, e) => do _ <- assert (length fo =? 2);     (* lines 113-117 *)
                                     Ok [fst e; snd e]) (combine faces0 es);
  do fcs <- mfold (fun fcs i =>                                           (* lines 118-130 *)
       do c <- get cs i;
       mfold (fun fcs k =>
         do _ <- assert (positiveID k <? Z.of_nat nf)%Z;
         do l <- get fcs (pid k);
         set fcs (pid k) (l ++ [if (k <? 0)%Z then Z.lnot (Z.of_nat i) else Z.of_nat i])) c fcs)
       (seq 0 ngen) (resize [] nf (faceCells old));
  Ok (mkMesh nodes' cs faces' (boundaryNodes old) (boundaryFaces old) fcs (convexHull old)
             (neighborDomains old) (sharedNodes old) (sharedFaces old)).
