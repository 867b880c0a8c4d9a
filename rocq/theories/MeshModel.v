(* Model of the Tessellation container and of the routines that edit or query it:
   src/Tessellation.hh, src/PLC.hh, src/deleteCells.hh, src/findBoundaryElements.hh. *)
From Verif Require Import Base StdAlg SerializeModel.

(* Tessellation<Dimension, RealType>, Tessellation.hh lines 57-104.  V is RealType.
   unsigned is nat, int is Z, sizes do not overflow. *)
Record mesh (V : Type) := mkMesh {
  nodes : list V;                        (* Dimension values per node *)
  cells : list (list Z);                 (* signed face ids *)
  faces : list (list nat);               (* node ids *)
  boundaryNodes : list nat;
  boundaryFaces : list nat;
  faceCells : list (list Z);             (* signed cell ids *)
  convexHull : plc;
  neighborDomains : list nat;
  sharedNodes : list (list nat);
  sharedFaces : list (list nat) }.
Arguments mkMesh {V}. Arguments nodes {V}. Arguments cells {V}. Arguments faces {V}.
Arguments boundaryNodes {V}. Arguments boundaryFaces {V}. Arguments faceCells {V}.
Arguments convexHull {V}. Arguments neighborDomains {V}. Arguments sharedNodes {V}.
Arguments sharedFaces {V}.

Definition isnil {A} (l : list A) : bool := match l with [] => true | _ => false end.

(* PLC() , PLC::clear (PLC.hh lines 32-35), PLC::empty (lines 38-41) *)
Definition plc_new : plc := mkPLC [] [].
Definition plc_clear (p : plc) : plc := mkPLC [] [].
Definition plc_empty (p : plc) : bool := isnil (facets p) && isnil (holes p).
(* PLC::valid, lines 45-79 *)
Definition plc_valid (D : nat) (p : plc) : bool :=
  match D with
  | 2 => forallb (fun f => length f =? 2) (facets p) &&
         forallb (forallb (fun f : list Z => length f =? 2)) (holes p)
  | 3 => forallb (fun f => negb (length f <? 3)) (facets p) &&
         forallb (forallb (fun f : list Z => negb (length f <? 3))) (holes p)
  | _ => true
  end.

(* Tessellation(), lines 21-28 *)
Definition mesh_new {V} : mesh V := mkMesh [] [] [] [] [] [] plc_new [] [] [].

(* clear, lines 34-46: every member is cleared in turn *)
Definition mesh_clear {V} (m : mesh V) : mesh V :=
  mkMesh [] [] [] [] [] [] (plc_clear (convexHull m)) [] [] [].

(* empty, lines 50-55 *)
Definition mesh_empty {V} (m : mesh V) : bool :=
  isnil (nodes m) && isnil (cells m) && isnil (faces m) && isnil (boundaryNodes m) &&
  isnil (boundaryFaces m) && isnil (faceCells m) && plc_empty (convexHull m).

(* std::set<unsigned>::insert, the set kept as a sorted list *)
Fixpoint set_insert (x : nat) (s : list nat) : list nat :=
  match s with
  | [] => [x]
  | y :: t => if x <? y then x :: s else if y <? x then y :: set_insert x t else s
  end.

Definition numNodes {V} (D : nat) (m : mesh V) : nat := length (nodes m) / D.

(* computeNodeCells, lines 107-127.  The result is one set per node. *)
Definition computeNodeCells {V} (D : nat) (m : mesh V) : res (list (list nat)) :=
  let put (i : nat) (r : list (list nat)) (n : nat) :=
    do _ <- assert (n <? length r);
    do s <- get r n;
    set r n (set_insert i s) in
  let face (i : nat) (r : list (list nat)) (f : Z) :=
    do ns <- get (faces m) (pid f);
    mfold (put i) ns r in
  mfold (fun r i => do c <- get (cells m) i; mfold (face i) c r)
        (seq 0 (length (cells m))) (repeat [] (numNodes D m)).

(* computeCellToNodes, lines 131-147.  Line 141 compares the node id with nodes.size(),
   not with the number of nodes. *)
Definition computeCellToNodes {V} (m : mesh V) : res (list (list nat)) :=
  mmap (fun c =>
    mfold (fun s f =>
      do _ <- assert (pid f <? length (faceCells m));
      do ns <- get (faces m) (pid f);
      mfold (fun s n => do _ <- assert (n <? length (nodes m)); Ok (set_insert n s)) ns s)
      c []) (cells m).

(* findBoundaryElements.hh lines 18-39; returns (boundaryFaces, boundaryNodes) *)
Definition findBoundaryElements {V} (m : mesh V) : res (list nat * list nat) :=
  do (bf, bn) <- mfold (fun '(bf, bn) iface =>
      do fc <- get (faceCells m) iface;
      do _ <- assert ((length fc =? 1) || (length fc =? 2));
      if length fc =? 1 then
        do f <- get (faces m) iface; Ok (bf ++ [iface], bn ++ f)
      else Ok (bf, bn)) (seq 0 (length (faces m))) ([], []);
  let bn := unique (sort bn) in
  do _ <- assert (0 <? length bn);
  do _ <- assert (length bn <=? length (nodes m) / 2);
  Ok (bf, bn).

(* ---------------------------------------------------------------- deleteCells *)
(* lines 39-52: mark the faces and nodes of one cell; the state is (faceMask, nodeMask) *)
Definition mark_cell {V} (D : nat) (m : mesh V) (st : list nat * list nat) (cell : list Z)
  : res (list nat * list nat) :=
  mfold (fun '(fm, nm) f =>
    do _ <- assert (pid f <? length (faces m));
    do fm <- set fm (pid f) 1;
    do ns <- get (faces m) (pid f);
    do nm <- mfold (fun nm n => do _ <- assert (n <? numNodes D m); set nm n 1) ns nm;
    Ok (fm, nm)) cell st.

(* lines 36-54 *)
Definition make_masks {V} (D : nat) (m : mesh V) (cellMask : list nat) : res (list nat * list nat) :=
  mfold (fun st icell =>
    do k <- get cellMask icell;
    if k =? 1 then do c <- get (cells m) icell; mark_cell D m st c else Ok st)
    (seq 0 (length (cells m))) (repeat 0 (length (faces m)), repeat 0 (numNodes D m)).

(* lines 60-68: old2new maps (std::map<unsigned,unsigned>); entry i is None when i has no
   key.  Also returns the number of keys. *)
Fixpoint number (mask : list nat) (next : nat) : list (option nat) * nat :=
  match mask with
  | [] => ([], next)
  | k :: t => if k =? 1 then let (l, n) := number t (S next) in (Some next :: l, n)
              else let (l, n) := number t next in (None :: l, n)
  end.

(* map.find(i) != end() *)
Definition has_key (o2n : list (option nat)) (i : nat) : bool :=
  match nth_error o2n i with Some (Some _) => true | _ => false end.
(* map[i]: a missing key is created with value 0 *)
Definition at_key (o2n : list (option nat)) (i : nat) : nat :=
  match nth_error o2n i with Some (Some k) => k | _ => 0 end.

(* lines 73-80: copy the coordinates of the nodes with mask 1 *)
Definition keep_nodes {V} (D : nat) (ns : list V) (nodeMask : list nat) : res (list V) :=
  mfold (fun acc i =>
    do k <- get nodeMask i;
    if k =? 1 then
      if D * (i + 1) <=? length ns then Ok (acc ++ firstn D (skipn (D * i) ns)) else UB
    else Ok acc) (seq 0 (length nodeMask)) [].

(* lines 101-104 and 106-109: one entry of faceCells *)
Definition keep_faceCell (cellMask : list nat) (o2nc : list (option nat)) (z : Z) : res (list Z) :=
  do k <- get cellMask (pid z);
  if k =? 1 then
    Ok [if (z <? 0)%Z then Z.lnot (Z.of_nat (at_key o2nc (pid z))) else Z.of_nat (at_key o2nc (pid z))]
  else Ok [].

(* lines 89-114 *)
Definition keep_faces {V} (m : mesh V) (cellMask faceMask : list nat) (o2nn o2nc : list (option nat))
  : res (list (list nat) * list (list Z)) :=
  mfold (fun '(nf, nfc) i =>
    do k <- get faceMask i;
    if k =? 1 then
      do f <- get (faces m) i;
      do f' <- mmap (fun n => do _ <- assert (has_key o2nn n); Ok (at_key o2nn n)) f;
      do fc <- get (faceCells m) i;
      do _ <- assert ((length fc =? 1) || (length fc =? 2));
      do z0 <- get fc 0;
      do c0 <- keep_faceCell cellMask o2nc z0;
      do c1 <- (if length fc =? 2 then do z1 <- get fc 1; keep_faceCell cellMask o2nc z1
                else Ok []);
      let fc' := c0 ++ c1 in
      do _ <- assert ((length fc' =? 1) || (length fc' =? 2));
      Ok (nf ++ [f'], nfc ++ [fc'])
    else Ok (nf, nfc)) (seq 0 (length (faces m))) ([], []).

(* lines 121-135 *)
Definition keep_cells {V} (m : mesh V) (cellMask : list nat) (o2nf : list (option nat))
  : res (list (list Z)) :=
  mfold (fun nc i =>
    do k <- get cellMask i;
    if k =? 1 then
      do c <- get (cells m) i;
      do c' <- mmap (fun z =>
          do _ <- assert (has_key o2nf (pid z));
          Ok (if (0 <=? z)%Z then Z.of_nat (at_key o2nf (pid z))
              else Z.lnot (Z.of_nat (at_key o2nf (pid z))))) c;
      Ok (nc ++ [c'])
    else Ok nc) (seq 0 (length (cells m))) [].

(* lines 142-152: one shared list *)
Definition keep_shared (mask : list nat) (o2n : list (option nat)) (l : list nat) : res (list nat) :=
  mfold (fun acc i => do k <- get mask i;
                      if k =? 1 then Ok (acc ++ [at_key o2n i]) else Ok acc) l [].

(* lines 23-165.  &nodes[Dimension*(i+1)] for the last node is the one-past-the-end
   address and is taken as allowed. *)
Definition deleteCells {V} (D : nat) (m : mesh V) (cellMask : list nat) : res (mesh V) :=
  let ncells0 := length (cells m) in
  do _ <- assert (length cellMask =? ncells0);
  do _ <- assert ((ncells0 =? 0) || (fold_right Nat.max 0 cellMask =? 1));
  do (faceMask, nodeMask) <- make_masks D m cellMask;
  let (o2nn, nnodes1) := number nodeMask 0 in
  let (o2nf, nfaces1) := number faceMask 0 in
  let (o2nc, ncells1) := number cellMask 0 in
  do nodes' <- keep_nodes D (nodes m) nodeMask;
  do (faces', faceCells') <- keep_faces m cellMask faceMask o2nn o2nc;
  do cells' <- keep_cells m cellMask o2nf;
  do _ <- assert (length (sharedFaces m) =? length (sharedNodes m));
  do sn <- mmap (keep_shared nodeMask o2nn) (sharedNodes m);
  do sf <- mmap (keep_shared faceMask o2nf) (sharedFaces m);
  do _ <- assert (length nodes' =? D * nnodes1);
  do _ <- assert (length faces' =? nfaces1);
  do _ <- assert (length faceCells' =? nfaces1);
  do _ <- assert (length cells' =? ncells1);
  Ok (mkMesh nodes' cells' faces' (boundaryNodes m) (boundaryFaces m) faceCells'
             plc_new (neighborDomains m) sn sf).
