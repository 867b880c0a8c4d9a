(* Model of TriangleTessellator::tessellateQuantized (src/TriangleTessellator.cc): how the Delaunay
   triangles that the Triangle library returns become the cells of a quantized tessellation.  The
   triangulation itself (computeDelaunay, lines 68-135, a call of the library) is an input: the list
   of its triangles.  Coordinates are exact rationals in place of double. *)
From Coq Require Import QArith.
From Verif Require Import Base StdAlg KeyMapModel FaceSortModel SerializeModel MeshEditorModel QuantMeshModel BoxModel PLCSpec Plane AreaModel.
Local Open Scope nat_scope.

Notation tri := (nat * nat * nat)%type.

(* QuantizedTessellation2d::dequantize, QuantizedTessellation2d.cc lines 86-93 *)
Definition deq (f : frame) (p : pt) : p2 :=
  (dequantize1 (cmin f) (cmax f) (fx f) (flen f) (fst p), dequantize1 (cmin f) (cmax f) (fy f) (flen f) (snd p)).

(* QuantizedTessellation2d::quantize, lines 76-81, with the conversion to int (undefined outside
   the range of int) and the addition (undefined on overflow) *)
Definition as_int (z : Z) : bool := ((- 2 ^ 31 <=? z) && (z <=? 2 ^ 31 - 1))%Z.
Definition to_grid1 (c0 c1 : Z) (lo len x : Q) : res Z :=
  let t := trunc ((x - lo) / (len / inject_Z (c1 - c0))) in
  if as_int t && as_int (c0 + t) then Ok (c0 + t)%Z else UB.
Definition to_grid (f : frame) (p : p2) : res pt :=
  do x <- to_grid1 (cmin f) (cmax f) (fx f) (flen f) (fst p);
  do y <- to_grid1 (cmin f) (cmax f) (fy f) (flen f) (snd p);
  Ok (x, y).

(* Point2::operator==, src/Point.hh line 26 *)
Definition pt_eq (p q : pt) : bool := (fst p =? fst q)%Z && (snd p =? snd q)%Z.

(* hashEdge on int arguments *)
Definition nhash (a b : nat) : res (Z * Z) := hashEdge (Z.of_nat a) (Z.of_nat b).

(* std::map<EdgeHash, vector<unsigned> >: operator[] for reading (a missing key reads as the empty
   vector; the entry it creates is never looked at) and operator[] followed by push_back *)
Definition dmap := list ((Z * Z) * list nat).
Fixpoint around (m : dmap) (e : Z * Z) : list nat :=
  match m with
  | [] => []
  | (e', l) :: m' => if keyeq edge_lt e e' then l else around m' e
  end.
Fixpoint push_tri (m : dmap) (e : Z * Z) (i : nat) : dmap :=
  match m with
  | [] => [(e, [i])]
  | (e', l) :: m' => if keyeq edge_lt e e' then (e', l ++ [i]) :: m' else (e', l) :: push_tri m' e i
  end.

(* what the first loop builds, lines 376-381 *)
Record stars := mkStars {
  s_nodes : list pt;              (* result.nodes; the counter k is its length *)
  s_gen2tri : list (list nat);    (* generators -> associated triangles *)
  s_tri2gens : list (list nat);   (* triangles -> associated generators *)
  s_dedge : dmap;                 (* Delaunay edges -> associated triangles *)
  s_tri2id : list Z }.            (* triangles -> circumcenter ID *)

(* gen2tri[p].insert(i) *)
Definition insert_tri (g2t : list (list nat)) (p i : nat) : res (list (list nat)) :=
  do s <- get g2t p; set g2t p (oinsert Nat.ltb i s).

(* lines 382-418, one triangle; the assertion of line 396 compares the counter with the size it
   counts and is left out *)
Definition read_tri (f : frame) (pts : list p2) (ngen : nat) (st : stars) (it : nat * tri) : res stars :=
  let '(i, (p, q, r)) := it in
  do _ <- assert (negb (p =? q) && negb (p =? r) && negb (q =? r));
  do P <- get pts p;
  do Q <- get pts q;
  do R <- get pts r;
  do _ <- assert (Qlt_bool 0 (orient P Q R));
  do pp <- to_grid f P;
  do qp <- to_grid f Q;
  do rp <- to_grid f R;
  if ((p <? ngen) || (q <? ngen) || (r <? ngen)) &&
     (negb (pt_eq pp qp) && negb (pt_eq qp rp) && negb (pt_eq pp rp)) then
    let k := length (s_nodes st) in
    do v <- to_grid f (circumcenter P Q R);
    do pq <- nhash p q;
    do pr <- nhash p r;
    do qr <- nhash q r;
    let d := push_tri (push_tri (push_tri (s_dedge st) pq i) pr i) qr i in
    do g <- insert_tri (s_gen2tri st) p i;
    do g <- insert_tri g q i;
    do g <- insert_tri g r i;
    do t2g <- set (s_tri2gens st) i [p; q; r];
    do t2i <- set (s_tri2id st) i (Z.of_nat k);
    Ok (mkStars (s_nodes st ++ [v]) g t2g d t2i)
  else Ok st.

Definition read_tris (f : frame) (pts : list p2) (ngen : nat) (tris : list tri) : res stars :=
  let n := length tris in
  mfold (read_tri f pts ngen) (combine (seq 0 n) tris)
    (mkStars [] (repeat [] (length pts)) (repeat [0; 0; 0] n) [] (repeat (-1)%Z n)).

(* lines 421-432 *)
Definition check_stars (ngen : nat) (st : stars) : res unit :=
  do _ <- mfold (fun _ kv => assert ((length (snd kv) =? 1) || (length (snd kv) =? 2))) (s_dedge st) tt;
  mfold (fun _ i => do s <- get (s_gen2tri st) i; assert (3 <=? length s)) (seq 0 ngen) tt.

(* lines 140-157 *)
Definition findOtherTriIndices (l : list nat) (a : nat) : res (nat * nat) :=
  do _ <- assert (length l =? 3);
  do i0 <- get l 0;
  do i1 <- get l 1;
  do i2 <- get l 2;
  do _ <- assert ((a =? i0) || (a =? i1) || (a =? i2));
  do _ <- assert (negb (i0 =? i1) && negb (i0 =? i2) && negb (i1 =? i2));
  if negb (a =? i0) then Ok (i0, if negb (a =? i1) then i1 else i2) else Ok (i1, i2).

(* lines 465-468 and 471-474, with the assertions of lines 459-462: the triangle on the other side
   of the Delaunay edge e, and the Voronoi edge to its circumcenter *)
Definition cross_edge (st : stars) (i : nat) (ii : Z) (e : Z * Z) (edges : list (Z * Z)) : res (list (Z * Z)) :=
  let l := around (s_dedge st) e in
  do _ <- assert (length l =? 2);
  do t0 <- get l 0;
  do t1 <- get l 1;
  do _ <- assert ((t0 =? i) || (t1 =? i));
  let k := if t0 =? i then t1 else t0 in
  do jj <- get (s_tri2id st) k;
  do _ <- assert ((0 <=? jj)%Z && (jj <? Z.of_nat (length (s_nodes st)))%Z);
  if negb (jj =? ii)%Z then do h <- hashEdge ii jj; Ok (oinsert edge_lt h edges) else Ok edges.

(* lines 445-475, one triangle around generator p; both assertions of lines 459-462 come before
   line 465, which makes no difference here *)
Definition star_edges (st : stars) (p : nat) (edges : list (Z * Z)) (i : nat) : res (list (Z * Z)) :=
  do ii <- get (s_tri2id st) i;
  do _ <- assert ((0 <=? ii)%Z && (ii <? Z.of_nat (length (s_nodes st)))%Z);
  do gs <- get (s_tri2gens st) i;
  do (q, r) <- findOtherTriIndices gs p;
  do _ <- assert (negb (p =? q) && negb (p =? r));
  do pq <- nhash p q;
  do pr <- nhash p r;
  do edges <- cross_edge st i ii pq edges;
  cross_edge st i ii pr edges.

(* edge2id, result.edges and the edge list of the cell being built *)
Definition ring_state := (keymap (K := nat * nat) * list (nat * nat) * list Z)%type.
(* lines 482-500, one edge; lines 487-488 hold by the definition of hashEdge *)
Definition ring_edge (cellNodes : list nat) (st : ring_state) (i : nat) : res ring_state :=
  let '(e2id, edges, c) := st in
  do ii <- get cellNodes i;
  do jj <- get cellNodes ((i + 1) mod length cellNodes);
  do _ <- assert (negb (ii =? jj));
  let edge := edge_key ii jj in
  let old_size := length e2id in
  let (e1, e2id) := addKeyToMap nedge_lt edge e2id in
  do edges <- (if e1 =? old_size then do _ <- assert (e1 =? length edges); Ok (edges ++ [edge]) else Ok edges);
  Ok (e2id, edges, c ++ [if fst edge =? ii then Z.of_nat e1 else Z.lnot (Z.of_nat e1)]).

(* lines 442-501, the cell of one generator *)
Definition build_cell (s : stars) (st : keymap (K := nat * nat) * list (nat * nat) * list (list Z)) (p : nat)
  : res (keymap (K := nat * nat) * list (nat * nat) * list (list Z)) :=
  let '(e2id, edges, cs) := st in
  do ts <- get (s_gen2tri s) p;
  do meshEdges <- mfold (star_edges s p) ts [];
  do cellNodes <- computeSortedFaceNodes meshEdges;
  let cellNodes := map Z.to_nat cellNodes in
  do _ <- assert (3 <=? length cellNodes);
  do (e2id, edges, c) <- mfold (ring_edge cellNodes) (seq 0 (length cellNodes)) (e2id, edges, []);
  Ok (e2id, edges, cs ++ [c]).

(* lines 353-502: (nodes, edges, cellEdges).  An empty triangulation is an error (line 121). *)
Definition tri_tessellate (f : frame) (gens guards : list pt) (tris : list tri)
  : res (list pt * list (nat * nat) * list (list Z)) :=
  let pts := map (deq f) (gens ++ guards) in
  do _ <- assert (negb (length tris =? 0));
  do s <- read_tris f pts (length gens) tris;
  do _ <- check_stars (length gens) s;
  do (_, edges, cs) <- mfold (build_cell s) (seq 0 (length gens)) ([], [], []);
  Ok (s_nodes s, edges, cs).
