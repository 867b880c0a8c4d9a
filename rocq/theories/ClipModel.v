(* Model of src/clipQuantizedTessellation2d.cc: clipping the cells of a quantized tessellation
   against a boundary, and giving the pieces that are cut off to neighboring cells.  The polygon
   operations of Boost.Polygon and the tessellator for the neighbors of a piece are arguments.
   Polygons are lists of integer points. *)
From Coq Require Import QArith.
From Verif Require Import Base StdAlg SerializeModel KeyMapModel PointMapModel FaceSortModel MeshModel QuantMeshModel BoxModel TriModel.
Local Open Scope nat_scope.

Notation polygon := (list (Z * Z)).

(* What is used of Boost.Polygon. *)
Record polylib := mkLib {
  b_outline : polygon -> list polygon -> list polygon;        (* an empty set += a polygon with holes *)
  b_and : list polygon -> list polygon -> list polygon;       (* &= *)
  b_or : list polygon -> list polygon -> list polygon;        (* |, |=, += *)
  b_contains : polygon -> pt -> bool;                         (* contains(polygon, point) *)
  b_on : pt -> pt -> pt -> bool }.                            (* contains(segment(a, b), point) *)

(* polygons in terms of quantized points, lines 91-99 and 105-114: the first node of each facet *)
Definition boundary_point (f : frame) (PLCpoints : list Q) (facet : list Z) : res pt :=
  do _ <- assert (length facet =? 2);
  do k <- get facet 0;
  if (k <? 0)%Z then UB else
  do x <- get PLCpoints (2 * Z.to_nat k);
  do y <- get PLCpoints (2 * Z.to_nat k + 1);
  to_grid f (x, y).
(* lines 91-119: the set of polygons inside the boundary *)
Definition boundary_set (lib : polylib) (f : frame) (PLCpoints : list Q) (geometry : plc) : res (list polygon) :=
  do outer <- mmap (boundary_point f PLCpoints) (facets geometry);
  do inner <- mmap (mmap (boundary_point f PLCpoints)) (holes geometry);
  Ok (b_outline lib outer inner).

(* lines 143-151 and 303-309: where a signed edge starts *)
Definition tail_of (ns : list pt) (es : list (nat * nat)) (k : Z) : res pt :=
  if (k <? 0)%Z then do e <- get es (Z.to_nat (Z.lnot k)); get ns (snd e)
  else do e <- get es (Z.to_nat k); get ns (fst e).
(* lines 138-158 and 299-319 *)
Definition clip_cell (lib : polylib) (ns : list pt) (es : list (nat * nat)) (bs : list polygon) (c : list Z) : res (list polygon) :=
  do cell <- mmap (tail_of ns es) c;
  Ok (b_and lib (b_or lib [] [cell]) bs).

(* lines 28-47.  i and n are ints, so that the remainder of i - 1 has the sign of i - 1. *)
Definition point_of (poly : polygon) (z : Z) : res pt := if (z <? 0)%Z then UB else get poly (Z.to_nat z).
Definition removeCollinearPoints (lib : polylib) (poly : polygon) : res polygon :=
  let n := length poly in
  if n =? 0 then UB else
  do points <- mfold (fun points i =>
      do a <- point_of poly (Z.rem (Z.of_nat i - 1) (Z.of_nat n));
      do b <- point_of poly (Z.rem (Z.of_nat i + 1) (Z.of_nat n));
      do v <- get poly i;
      Ok (if b_on lib a b v then points else points ++ [v])) (seq 0 (n - 1)) [];
  do _ <- assert (3 <=? length points);
  Ok points.

(* newNodeCells, lines 130, 209-227 and 332-350: the cells at each node, with the node map.  i is
   the cell being read. *)
Notation cellmap := (ipmap * list (list nat))%type.
Definition node_in (i : nat) (st : cellmap * list pt) (p : pt) : res (nat * (cellmap * list pt)) :=
  let '((m, nc), ns) := st in
  do (j, m') <- index m [fst p; snd p];
  let '(ns', nc') := if j =? length ns then (ns ++ [p], nc ++ [[]]) else (ns, nc) in
  do s <- get nc' j;
  do nc' <- set nc' j (oinsert Nat.ltb i s);
  Ok (j, ((m', nc'), ns')).

(* newNodes, newEdges, newCellEdges and their maps; cellPolygons; orphans *)
Record clipstate := mkClip { c_mesh : quant cellmap; c_polys : list polygon; c_orphans : list polygon }.

(* line 167: the first piece that contains the generator *)
Fixpoint piece_with (lib : polylib) (gen : pt) (ps : list polygon) : nat :=
  match ps with [] => 0 | p :: t => if b_contains lib p gen then 0 else S (piece_with lib gen t) end.

(* lines 178-189: the first orphan that makes one polygon with p takes it in *)
Fixpoint join_orphan (lib : polylib) (p : polygon) (orphans : list polygon) : res (option (list polygon)) :=
  match orphans with
  | [] => Ok None
  | o :: t =>
      match b_or lib (b_or lib [] [p]) (b_or lib [] [o]) with
      | [u] => do u <- removeCollinearPoints lib u; Ok (Some (u :: t))
      | _ => do r <- join_orphan lib p t; Ok (match r with None => None | Some l => Some (o :: l) end)
      end
  end.
(* lines 177-194 for one piece *)
Definition add_orphan (lib : polylib) (orphans : list polygon) (p : polygon) : res (list polygon) :=
  do r <- join_orphan lib p orphans;
  Ok (match r with None => b_or lib orphans [p] | Some l => l end).

(* lines 137-247: one cell *)
Definition clip_one (lib : polylib) (ns : list pt) (es : list (nat * nat)) (gens : list pt) (bs : list polygon)
    (st : clipstate) (ic : nat * list Z) : res clipstate :=
  let (i, c) := ic in
  do ps <- clip_cell lib ns es bs c;
  do gen <- get gens i;
  do (k, orphans) <-
    (if 1 <? length ps then
       let k := piece_with lib gen ps in
       do _ <- assert (k <? length ps);
       do os <- mfold (fun os jp => if fst jp =? k then Ok os else add_orphan lib os (snd jp))
                  (combine (seq 0 (length ps)) ps) (c_orphans st);
       Ok (k, os)
     else Ok (0, c_orphans st));
  do p <- get ps k;
  do _ <- assert (b_contains lib p gen);
  do _ <- assert (3 <? length p);
  do a <- get p 0;
  do b <- get p (length p - 1);
  do _ <- assert (pt_eq a b);
  do q <- read_cell (node_in i) (c_mesh st) (i, false, combine p (tl p));
  Ok (mkClip q (c_polys st ++ [p]) orphans).

(* lines 260-274: the cells with a node near a corner of the orphan *)
Definition orphan_neighbors (orphan : polygon) (m : quant cellmap) : res (list nat * quant cellmap) :=
  if length orphan =? 0 then UB else
  mfold (fun '(nb, m) p =>
    let '(im, nc) := qmap m in
    if have im [fst p; snd p] then
      do (j, im) <- index im [fst p; snd p];
      do _ <- assert (j <? length nc);
      do s <- get nc j;
      Ok (fold_left (fun nb i => oinsert Nat.ltb i nb) s nb, mkQuant (im, nc) (qnodes m) (qe2id m) (qedges m) (qcells m))
    else Ok (nb, m)) (removelast orphan) ([], m).

(* lines 297-370: a neighbor gets its new cell *)
Definition reclip (lib : polylib) (lns : list pt) (les : list (nat * nat)) (lcs : list (list Z)) (lb : list polygon)
    (st : clipstate) (ig : nat * nat) : res clipstate :=
  let (i, igen) := ig in
  do c <- get lcs i;
  do ps <- clip_cell lib lns les lb c;
  do _ <- assert (length ps =? 1);
  do p <- get ps 0;
  do p <- removeCollinearPoints lib p;
  do polys <- set (c_polys st) igen p;
  do q <- read_cell (node_in igen) (c_mesh st) (igen, true, loop_segs p);
  Ok (mkClip q polys (c_orphans st)).

(* lines 251-371: one orphan.  tessq is the tessellator applied to the local generators, with the
   frame and the guards of the whole tessellation (lines 292-293). *)
Definition adopt (lib : polylib) (tessq : list pt -> res (list pt * list (nat * nat) * list (list Z))) (gens : list pt)
    (st : clipstate) (orphan : polygon) : res clipstate :=
  do (nb, m) <- orphan_neighbors orphan (c_mesh st);
  do _ <- assert (0 <? length nb);
  do lb <- mfold (fun lb igen => do p <- get (c_polys st) igen; Ok (b_or lib lb (b_or lib [] [p]))) nb (b_or lib [] [orphan]);
  do lgens <- mmap (get gens) nb;
  do _ <- assert (length lb =? 1);
  do (lns, les, lcs) <- tessq lgens;
  mfold (reclip lib lns les lcs lb) (combine (seq 0 (length nb)) nb) (mkClip m (c_polys st) (c_orphans st)).

(* lines 56-475: the whole function; the clean-up of lines 376-432 is in QuantMeshModel.v *)
Definition clip (lib : polylib) (tessq : list pt -> res (list pt * list (nat * nat) * list (list Z))) (f : frame) (gens : list pt)
    (ns : list pt) (es : list (nat * nat)) (cs : list (list Z)) (PLCpoints : list Q) (geometry : plc)
  : res (list pt * list (nat * nat) * list (list Z)) :=
  do bs <- boundary_set lib f PLCpoints geometry;
  let ncells := length cs in
  do st <- mfold (clip_one lib ns es gens bs) (combine (seq 0 ncells) cs)
             (mkClip (mkQuant (ipm_new 2 2, []) [] [] [] (repeat [] ncells)) [] []);
  do _ <- assert (length (c_polys st) =? ncells);
  let orphans := c_orphans st in
  do st <- mfold (adopt lib tessq gens) orphans st;
  let q := c_mesh st in
  if 0 <? length orphans then clean_up (qnodes q) (qedges q) (qcells q)
  else Ok (qnodes q, qedges q, qcells q).
