(* Model of src/MeshEditor.cc (serial build: the HAVE_MPI block, lines 266-505, is modelled
   separately in EdgeMaskModel.v). *)
From Verif Require Import Base StdAlg SerializeModel MeshModel KeyMapModel.
From Coq Require Import QArith.
Local Open Scope nat_scope.

(* ------------------------------------------------------------ cleanMesh(maps) *)
(* std::accumulate(mask.begin(), mask.end(), 0) *)
Definition total (mask : list nat) : nat := fold_right Nat.add 0 mask.

(* lines 686-689 and 691-694: one entry of faceCells *)
Definition ed_faceCell (cellMask cellMap : list nat) (z : Z) : res (list Z) :=
  do k <- get cellMask (pid z);
  if k =? 1 then
    do c <- get cellMap (pid z);
    Ok [if (z <? 0)%Z then Z.lnot (Z.of_nat c) else Z.of_nat c]
  else Ok [].

(* lines 670-701 *)
Definition ed_faces {V} (m : mesh V) (cellMask faceMask cellMap nodeMap : list nat)
  : res (list (list nat) * list (list Z)) :=
  mfold (fun '(nf, nfc) i =>
    do k <- get faceMask i;
    if k =? 1 then
      do f <- get (faces m) i;
      do f' <- mmap (get nodeMap) f;
      do fc <- get (faceCells m) i;
      do _ <- assert ((length fc =? 1) || (length fc =? 2));
      do z0 <- get fc 0;
      do c0 <- ed_faceCell cellMask cellMap z0;
      do c1 <- (if length fc =? 2 then do z1 <- get fc 1; ed_faceCell cellMask cellMap z1
                else Ok []);
      let fc' := c0 ++ c1 in
      do _ <- assert ((length fc' =? 1) || (length fc' =? 2));
      Ok (nf ++ [f'], nfc ++ [fc'])
    else Ok (nf, nfc)) (seq 0 (length (faces m))) ([], []).

(* lines 705-721: newCells has ncells1 entries but is indexed with the OLD cell index *)
Definition ed_cells {V} (m : mesh V) (cellMask faceMask faceMap : list nat) : res (list (list Z)) :=
  mfold (fun nc i =>
    do k <- get cellMask i;
    if k =? 1 then
      do c <- get (cells m) i;
      mfold (fun nc z =>
        do k <- get faceMask (pid z);
        if k =? 1 then
          do f <- get faceMap (pid z);
          do old <- get nc i;
          set nc i (old ++ [if (z <? 0)%Z then Z.lnot (Z.of_nat f) else Z.of_nat f])
        else Ok nc) c nc
    else Ok nc) (seq 0 (length (cells m))) (repeat [] (total cellMask)).

(* lines 726-740 *)
Definition ed_shared (mask map : list nat) (l : list nat) : res (list nat) :=
  mfold (fun acc i => do k <- get mask i;
                      if k =? 1 then do j <- get map i; Ok (acc ++ [j]) else Ok acc) l [].

Definition nonempty {A} (l : list A) : bool := negb (isnil l).

(* cleanMesh(cellMap, faceMap, nodeMap), lines 626-755 *)
Definition cleanMesh {V} (D : nat) (m : mesh V) (cellMask faceMask nodeMask : list nat)
    (cellMap faceMap nodeMap : list nat) : res (mesh V) :=
  do _ <- assert (nonempty cellMask && nonempty faceMask && nonempty nodeMask);
  do nodes' <- keep_nodes D (nodes m) nodeMask;
  do (faces', faceCells') <- ed_faces m cellMask faceMask cellMap nodeMap;
  do cells' <- ed_cells m cellMask faceMask faceMap;
  do _ <- assert (length (sharedFaces m) =? length (sharedNodes m));
  do sn <- mmap (ed_shared nodeMask nodeMap) (sharedNodes m);
  do sf <- mmap (ed_shared faceMask faceMap) (sharedFaces m);
  do _ <- assert (length nodes' =? D * total nodeMask);
  do _ <- assert (length faces' =? total faceMask);
  do _ <- assert (length faceCells' =? total faceMask);
  do _ <- assert (length cells' =? total cellMask);
  Ok (mkMesh nodes' cells' faces' (boundaryNodes m) (boundaryFaces m) faceCells'
             plc_new (neighborDomains m) sn sf).

(* ------------------------------------------------------------ deleteCells *)
(* lines 600-607 (and 536-540, 548-552): position = number of earlier kept entries; also
   returns the final count *)
Fixpoint prefix_map (mask : list nat) (next : nat) : list nat * nat :=
  match mask with
  | [] => ([], next)
  | k :: t => let (l, n) := prefix_map t (if k =? 1 then S next else next) in (next :: l, n)
  end.
(* lines 608-610: only kept cells are assigned, the others stay 0 *)
Fixpoint cell_map (mask : list nat) (next : nat) : list nat * nat :=
  match mask with
  | [] => ([], next)
  | k :: t => if k =? 1 then let (l, n) := cell_map t (S next) in (next :: l, n)
              else let (l, n) := cell_map t next in (0 :: l, n)
  end.

(* lines 38-43 *)
Definition list_mask (ncells : nat) (l : list nat) : res (list nat) :=
  mfold (fun mask i => do _ <- assert (i <? ncells); set mask i 0) l (repeat 1 ncells).

(* MeshEditor::deleteCells, lines 34-48, with computeMasks (763-783, cell branch),
   computeFaceAndNodeMasks (791-821) and cleanMesh() (587-618) inlined.  The mask loops of
   computeFaceAndNodeMasks are those of src/deleteCells.hh lines 36-54. *)
Definition ed_deleteCells {V} (D : nat) (m : mesh V) (toDelete : list nat) : res (mesh V) :=
  do _ <- assert (nonempty toDelete);
  do cellMask <- list_mask (length (cells m)) toDelete;
  do _ <- assert (nonempty cellMask);                                        (* line 765 *)
  do _ <- assert (length cellMask =? length (cells m));                      (* line 796 *)
  do _ <- assert ((length (cells m) =? 0) || (fold_right Nat.max 0 cellMask =? 1)); (* 798 *)
  do (faceMask, nodeMask) <- make_masks D m cellMask;
  do _ <- assert (nonempty cellMask && nonempty faceMask && nonempty nodeMask);
  let (nodeMap, nnodes1) := prefix_map nodeMask 0 in
  let (faceMap, nfaces1) := prefix_map faceMask 0 in
  let (cellMap, ncells1) := cell_map cellMask 0 in
  do _ <- assert (total nodeMask =? nnodes1);
  do _ <- assert (total faceMask =? nfaces1);
  do _ <- assert (total cellMask =? ncells1);
  cleanMesh D m cellMask faceMask nodeMask cellMap faceMap nodeMap.

(* ------------------------------------------------------------ cleanEdges *)
(* Coordinates are rationals (every finite double is one). *)
Definition Qlt_bool (a b : Q) : bool := negb (Qle_bool b a).
Definition Qmax2 (a b : Q) : Q := if Qlt_bool a b then b else a.      (* std::max *)

(* D coordinates starting at offset k: &mMesh.nodes[k] *)
Definition coords_at (D k : nat) (ns : list Q) : res (list Q) :=
  if k + D <=? length ns then Ok (firstn D (skipn k ns)) else UB.

Fixpoint vdot (a b : list Q) : Q :=
  match a, b with x :: a, y :: b => (x * y + vdot a b)%Q | _, _ => 0%Q end.
Fixpoint vsub (a b : list Q) : list Q :=
  match a, b with x :: a, y :: b => (x - y)%Q :: vsub a b | _, _ => [] end.

(* geometry::distance (polytope_geometric_utilities.hh lines 290-318), squared.  Lengths are
   only compared with one another, so the model keeps their squares (no square root). *)
Definition dist2 (a b : list Q) : Q := let d := vsub b a in vdot d d.

(* geometry::collinear, polytope_geometric_utilities.hh lines 426-444, with tol = 1e-8.
   The last test  | |ab.ac|/(|ab||ac|) - 1 | < tol  is written without square roots as
   (1-tol)^2 |ab|^2|ac|^2 < (ab.ac)^2, equivalent because |ab.ac| <= |ab||ac|. *)
Definition ctol : Q := (1 # 100000000)%Q.
Definition collinear (a b c : list Q) : bool :=
  let ab := vsub b a in
  let ac := vsub c a in
  if Qlt_bool (vdot ab ab) ctol || Qlt_bool (vdot ac ac) ctol then true
  else Qlt_bool ((1 - ctol) * (1 - ctol) * (vdot ab ab * vdot ac ac)) (vdot ab ac * vdot ab ac).

(* internal::hashEdge on node ids, the order of std::pair<int,int> (edges are nat pairs) *)
Definition edge_key (a b : nat) : nat * nat := if a <? b then (a, b) else (b, a).
Definition nedge_lt (a b : nat * nat) : bool :=
  (fst a <? fst b) || ((fst a =? fst b) && (snd a <? snd b)).

(* lines 140-143 (and 514-517): consecutive node pairs of a face *)
Definition face_edges (f : list nat) : list (nat * nat) :=
  let n := length f in
  map (fun i => (nth i f 0, nth ((i + 1) mod n) f 0)) (seq 0 (if n =? 2 then 1 else n)).

Record estate := mkEstate {
  e2i : keymap (K := nat * nat);        (* edgeToIndex / indexToEdge *)
  elen : list Q;                        (* edgeLength, squared *)
  bpush : list (nat * nat) }.           (* the push_backs into borderNodesToBorderFaces, in order *)

(* lines 142-157 *)
Definition visit_edge (D : nat) (m : mesh Q) (s : estate * list nat) (e : nat * nat)
  : res (estate * list nat) :=
  let '(st, ids) := s in
  let '(a, b) := e in
  do _ <- assert (negb (a =? b));
  do _ <- assert ((a <? numNodes D m) && (b <? numNodes D m));
  let '(id, e2i') := addKeyToMap nedge_lt (edge_key a b) (e2i st) in
  do elen' <- (if id =? length (e2i st) then
                 do pa <- coords_at D (D * a) (nodes m);
                 do pb <- coords_at D (D * b) (nodes m);
                 Ok (elen st ++ [dist2 pa pb])
               else Ok (elen st));
  Ok (mkEstate e2i' elen' (bpush st), ids ++ [id]).

(* lines 125-171 *)
Definition visit_face (D : nat) (m : mesh Q) (s : estate * list nat) (z : Z)
  : res (estate * list nat) :=
  let '(st, ids) := s in
  do _ <- assert (pid z <? length (faces m));
  do f <- get (faces m) (pid z);
  do _ <- assert (2 <=? length f);
  do fc <- get (faceCells m) (pid z);
  do _ <- assert ((length fc =? 1) || (length fc =? 2));
  let bp := if length fc =? 1 then bpush st ++ map (fun n => (n, pid z)) f else bpush st in
  mfold (visit_edge D m) (face_edges f) (mkEstate (e2i st) (elen st) bp, ids).

(* lines 123-173: the edge tables and, per cell, the list of its edge ids *)
Definition collect (D : nat) (m : mesh Q) : res (estate * list (list nat)) :=
  mfold (fun '(st, c2e) c =>
           do (st', ids) <- mfold (visit_face D m) c (st, []);
           Ok (st', c2e ++ [ids]))
        (cells m) (mkEstate [] [] [], []).

(* lines 183-210: is the border node n a corner? *)
Definition corner_test (D : nat) (m : mesh Q) (bp : list (nat * nat)) (n : nat) : res bool :=
  do _ <- assert (n <? numNodes D m);
  let bf := map snd (filter (fun p => fst p =? n) bp) in
  do _ <- assert (length bf =? 2);
  do others <- mmap (fun f =>
      do _ <- assert (f <? length (faces m));
      do fc <- get (faceCells m) f;
      do _ <- assert (length fc =? 1);
      do ns <- get (faces m) f;
      do _ <- assert (length ns =? 2);
      do n0 <- get ns 0;
      do n1 <- get ns 1;
      Ok (if n0 =? n then n1 else n0)) bf;
  do o0 <- get others 0;
  do o1 <- get others 1;
  do p <- coords_at D (2 * n) (nodes m);
  do p0 <- coords_at D (2 * o0) (nodes m);
  do p1 <- coords_at D (2 * o1) (nodes m);
  Ok (negb (collinear p p0 p1)).

Definition mem (n : nat) (l : list nat) : bool := existsb (Nat.eqb n) l.

(* lines 181-210 *)
Definition corners (D : nat) (m : mesh Q) (bp : list (nat * nat)) (border : list nat) : res (list nat) :=
  mfold (fun acc n => do b <- corner_test D m bp n; Ok (if b then acc ++ [n] else acc)) border [].

(* lines 213-223 *)
Definition max_lengths (lens : list Q) (c2e : list (list nat)) : res (list Q) :=
  mfold (fun mx ids =>
           do big <- mfold (fun a e => do x <- get lens e; Ok (Qmax2 a x)) ids 0%Q;
           mfold (fun mx e => do x <- get mx e; set mx e (Qmax2 x big)) ids mx)
        c2e (repeat 0%Q (length lens)).

(* lines 231-262; the state is edgeMask, mNodeMask, nodeCollapse, edgesClean *)
Definition flag_edge (tol : Q) (keys : list (nat * nat)) (lens maxs : list Q) (border corner : list nat)
    (s : list nat * list nat * list nat * bool) (ie : nat)
  : res (list nat * list nat * list nat * bool) :=
  let '(em, nm, col, clean) := s in
  do (n0, n1) <- get keys ie;
  let cornerEdge := mem n0 corner || mem n1 corner in
  do le <- get lens ie;
  do mx <- get maxs ie;
  do k0 <- get nm n0;
  do k1 <- get nm n1;
  if Qlt_bool le (tol * tol * mx) && (k0 =? 1) && (k1 =? 1) && negb cornerEdge then
    do em <- set em ie 0;
    let keep1 := mem n1 corner || (mem n1 border && negb (mem n0 border)) in
    let keepNode := if keep1 then n1 else n0 in
    let deleteNode := if keep1 then n0 else n1 in
    do nm <- set nm keepNode 2;
    do nm <- set nm deleteNode 0;
    do col <- set col deleteNode keepNode;
    Ok (em, nm, col, false)
  else Ok (em, nm, col, clean).

(* lines 509-532 *)
Definition face_masks {V} (D : nat) (m : mesh V) (e2i : keymap) (em : list nat) : res (list nat) :=
  mfold (fun fm iface =>
    do f <- get (faces m) iface;
    do act <- mfold (fun act '(a, b) =>
        match find nedge_lt (edge_key a b) e2i with
        | None => Abort
        | Some ie => do k <- get em ie; Ok (act + k)
        end) (face_edges f) 0;
    if act <? (if D =? 2 then 1 else 3) then set fm iface 0 else Ok fm)
    (seq 0 (length (faces m))) (repeat 1 (length (faces m))).

(* lines 541-543, in place, increasing i *)
Definition collapse_map (col nodeMap : list nat) : res (list nat) :=
  mfold (fun nmap i => do j <- get col i; do k <- get nmap j; set nmap i k)
        (seq 0 (length nodeMap)) nodeMap.

(* flagEdgesForCleaning, lines 105-263 (line 263 replaces 2 by 1 in mNodeMask): the edge tables,
   edgeMask, mNodeMask, nodeCollapse, edgesClean *)
Definition flags (D : nat) (tol : Q) (m : mesh Q) : res (estate * (list nat * list nat * list nat * bool)) :=
  do _ <- assert (Qlt_bool 0 tol);
  do (st, c2e) <- collect D m;
  let keys := map fst (e2i st) in
  let border := unique (sort (map fst (bpush st))) in
  do corner <- corners D m (bpush st) border;
  do maxs <- max_lengths (elen st) c2e;
  do (em, nm, col, clean) <-
    mfold (flag_edge tol keys (elen st) maxs border corner) (seq 0 (length keys))
          (repeat 1 (length keys), repeat 1 (numNodes D m), seq 0 (numNodes D m), true);
  Ok (st, (em, map (fun k => if k =? 2 then 1 else k) nm, col, clean)).

(* lines 507-579 when some edge is to go, then cleanMesh (line 82) *)
Definition collapse (D : nat) (m : mesh Q) (e2i : keymap) (em nm col : list nat) : res (mesh Q) :=
  do fm <- face_masks D m e2i em;
  let (nmap0, ncount) := prefix_map nm 0 in
  do nmap <- collapse_map col nmap0;
  do _ <- assert (ncount =? total nm);
  let (fmap, fcount) := prefix_map fm 0 in
  do _ <- assert (fcount <=? length (faces m));
  do _ <- assert (total nm <? numNodes D m);                        (* line 575 *)
  cleanMesh D m (repeat 1 (length (cells m))) fm nm (seq 0 (length (cells m))) fmap nmap.

(* cleanEdges, lines 75-86, with flagEdgesForCleaning, lines 98-579, inlined *)
Definition cleanEdges (D : nat) (tol : Q) (m : mesh Q) : res (mesh Q) :=
  do (st, (em, nm, col, clean)) <- flags D tol m;
  if clean : bool then Ok m                                         (* masks are cleared, 569-573 *)
  else collapse D m (e2i st) em nm col.
