(* Model of the C interface to tessellations: polytope_c/polytope_tessellation.cc and the two
   fill_tessellation functions of polytope_c/polytope_tessellator.cc.  One object and the blocks of
   memory it holds are modelled.  Using a freed block, freeing a block twice, reading an uninitialized
   variable and leaving an array are undefined behaviour (UB).  malloc succeeds; malloc(0) returns NULL
   or a block, as the C library likes: the parameter zn.  int does not overflow. *)
From Verif Require Import Base SerializeModel MeshModel.

(* A pointer variable *)
Inductive ptr := Undef | Null | Ptr (a : nat).
(* A block of memory: an array whose entries may be uninitialized, or an object *)
Inductive block {V : Type} := BInt (l : list (option Z)) | BUns (l : list (option nat)) | BReal (l : list (option V))
  | BPlc (p : plc) | BHandle (p2 p3 : ptr) | BStruct.
Arguments block : clear implicits.
(* The heap: the blocks ever allocated; None marks a freed one *)
Definition heap V := list (option (block V)).

(* polytope_tessellation_t, polytope_c/polytope_tessellation.h *)
Inductive nfield := NumNodes | NumCells | NumFaces | NumBoundaryNodes | NumBoundaryFaces | NumNeighborDomains.
Inductive pfield := Nodes | CellOffsets | CellFaces | FaceOffsets | FaceNodes | BoundaryNodes | BoundaryFaces | FaceCells
  | ConvexHull | NeighborDomains | SharedNodeOffsets | SharedNodes | SharedFaceOffsets | SharedFaces | NodeCellOffsets | NodeCells.
Definition nfield_dec : forall a b : nfield, {a = b} + {a <> b}. Proof. decide equality. Defined.
Definition pfield_dec : forall a b : pfield, {a = b} + {a <> b}. Proof. decide equality. Defined.
Record world V := mkWorld { mem : heap V; self : nat; num : nfield -> nat; ptrs : pfield -> ptr }.
Arguments mkWorld {V}. Arguments mem {V}. Arguments self {V}. Arguments num {V}. Arguments ptrs {V}.

Section Tess.
  Context {V : Type} (zn : bool).

  Definition setn (w : world V) (f : nfield) (n : nat) : world V :=
    mkWorld (mem w) (self w) (fun g => if nfield_dec g f then n else num w g) (ptrs w).
  Definition setp (w : world V) (f : pfield) (p : ptr) : world V :=
    mkWorld (mem w) (self w) (num w) (fun g => if pfield_dec g f then p else ptrs w g).
  Definition setm (w : world V) (h : heap V) : world V := mkWorld h (self w) (num w) (ptrs w).

  (* p = malloc(...), the block then holding b; size0 says that zero bytes were asked for.  The arrays
     are filled before they are put into the heap: nothing else points to them yet. *)
  Definition malloc (h : heap V) (size0 : bool) (b : block V) : heap V * ptr :=
    if size0 && zn then (h, Null) else (h ++ [Some b], Ptr (length h)).
  Definition mallocTo (w : world V) (f : pfield) (size0 : bool) (b : block V) : world V :=
    let r := malloc (mem w) size0 b in setp (setm w (fst r)) f (snd r).
  (* free(p) *)
  Definition free (h : heap V) (p : ptr) : res (heap V) :=
    match p with
    | Undef => UB
    | Null => Ok h
    | Ptr a => match nth_error h a with Some (Some _) => Ok (upd h a None) | _ => UB end
    end.
  Definition freeField (w : world V) (f : pfield) : res (world V) :=
    do h <- free (mem w) (ptrs w f); Ok (setm w h).
  (* if (p != NULL) body *)
  Definition ifSet (w : world V) (f : pfield) (body : res (world V)) : res (world V) :=
    match ptrs w f with Undef => UB | Null => Ok w | Ptr _ => body end.

  (* polytope_tessellation_new, lines 14-42: face_cells is not initialized *)
  Definition tessNew (D : nat) : res (world V) :=
    do _ <- assert ((D =? 2) || (D =? 3));
    Ok (mkWorld [Some BStruct] 0 (fun _ => 0) (fun f => match f with FaceCells => Undef | _ => Null end)).

  (* polytope_plc_new and polytope_plc_free, polytope_c/polytope_plc.cc lines 17-43, and fill_plc *)
  Definition hullNew (D : nat) (h : heap V) (p : plc) : heap V * ptr :=
    let a := length h in
    let b := S a in
    (h ++ [Some (if D =? 2 then BHandle (Ptr b) Null else BHandle Null (Ptr b)); Some (BPlc p)], Ptr a).
  Definition hullFree (h : heap V) (p : ptr) : res (heap V) :=
    match p with
    | Ptr a =>
        match nth_error h a with
        | Some (Some (BHandle p2 p3)) => do h <- free h (match p2 with Null => p3 | _ => p2 end); free h p
        | _ => UB
        end
    | _ => UB
    end.

  (* polytope_tessellation_clear, lines 54-124 *)
  Definition tessClear (w : world V) : res (world V) :=
    do w <- ifSet w Nodes (do w <- freeField w Nodes; Ok (setp (setn w NumNodes 0) Nodes Null));
    do w <- ifSet w CellFaces (do w <- freeField w CellOffsets; do w <- freeField w CellFaces;
                               Ok (setp (setp (setn w NumCells 0) CellOffsets Null) CellFaces Null));
    do w <- ifSet w FaceNodes (do w <- freeField w FaceOffsets; do w <- freeField w FaceNodes;
                               Ok (setp (setp (setn w NumFaces 0) FaceOffsets Null) FaceNodes Null));
    do w <- ifSet w BoundaryNodes (freeField w BoundaryNodes);
    do w <- ifSet w BoundaryFaces (freeField w BoundaryFaces);
    do w <- ifSet w FaceCells (freeField w FaceCells);
    do w <- ifSet w NeighborDomains (do w <- freeField w NeighborDomains; Ok (setp (setn w NumNeighborDomains 0) NeighborDomains Null));
    do w <- ifSet w SharedNodeOffsets (do w <- freeField w SharedNodeOffsets; do w <- freeField w SharedNodes;
                               Ok (setp (setp w SharedNodeOffsets Null) SharedNodes Null));
    do w <- ifSet w SharedFaceOffsets (do w <- freeField w SharedFaceOffsets; do w <- freeField w SharedFaces;
                               Ok (setp (setp w SharedFaceOffsets Null) SharedFaces Null));
    do w <- ifSet w NodeCellOffsets (do w <- freeField w NodeCellOffsets; freeField w NodeCells);
    do w <- ifSet w ConvexHull (do h <- hullFree (mem w) (ptrs w ConvexHull); Ok (setp (setm w h) ConvexHull Null));
    Ok (setp (setp w NodeCellOffsets Null) NodeCells Null).

  (* polytope_tessellation_free, lines 46-50: what is left of the memory *)
  Definition tessFree (w : world V) : res (heap V) :=
    do w <- tessClear w; free (mem w) (Ptr (self w)).

  (* std::copy of l to the start of an array of n entries *)
  Definition copyTo {A} (l : list A) (n : nat) : res (list (option A)) :=
    if length l <=? n then Ok (map Some l ++ repeat None (n - length l)) else UB.
  (* rows in compressed form, e.g. polytope_tessellator.cc lines 30-45: offsets has n+1 entries *)
  Definition crs {A} (n : nat) (rows : list (list A)) : res (list (option Z) * list (option A)) :=
    let size := list_sum (map (@length A) rows) in
    do r <- mfold (fun (st : nat * nat * list (option Z) * list (option A)) row =>
        let '(i, offset, os, ds) := st in
        do os <- set os i (Some (Z.of_nat offset));
        do r <- mfold (fun (st : nat * list (option A)) x => do ds <- set (snd st) (fst st) (Some x); Ok (S (fst st), ds)) row (offset, ds);
        Ok (S i, fst r, os, snd r)) rows (0, 0, repeat None (n + 1), repeat None (size + 1));
    let '(i, offset, os, ds) := r in
    do os <- set os (length rows) (Some (Z.of_nat offset));
    Ok (os, ds).
  (* lines 75-81: two entries per face *)
  Definition faceCellArray (nfaces : nat) (fcs : list (list Z)) : res (list (option Z)) :=
    mfold (fun l f =>
        do fc <- get fcs f;
        do c <- get fc 0;
        do l <- set l (2 * f) (Some c);
        do d <- (if length fc =? 2 then get fc 1 else Ok (-1)%Z);
        set l (2 * f + 1) (Some d)) (seq 0 (length fcs)) (repeat None (2 * nfaces)).

  (* fill_tessellation from C++ to C, polytope_tessellator.cc lines 21-130 *)
  Definition fillC (D : nat) (t : mesh V) (w : world V) : res (world V) :=
    let nn := length (nodes t) / D in
    do ns <- copyTo (nodes t) (D * nn);
    let w := mallocTo (setn w NumNodes nn) Nodes (D * nn =? 0) (BReal ns) in
    do r <- crs (length (cells t)) (cells t);
    let w := mallocTo (setn w NumCells (length (cells t))) CellOffsets false (BInt (fst r)) in
    let w := mallocTo w CellFaces false (BInt (snd r)) in
    do r <- crs (length (faces t)) (faces t);
    let w := mallocTo (setn w NumFaces (length (faces t))) FaceOffsets false (BInt (fst r)) in
    let w := mallocTo w FaceNodes false (BUns (snd r)) in
    do bn <- copyTo (boundaryNodes t) (length (boundaryNodes t));
    let w := mallocTo (setn w NumBoundaryNodes (length (boundaryNodes t))) BoundaryNodes (length (boundaryNodes t) =? 0) (BUns bn) in
    do bf <- copyTo (boundaryFaces t) (length (boundaryFaces t));
    let w := mallocTo (setn w NumBoundaryFaces (length (boundaryFaces t))) BoundaryFaces (length (boundaryFaces t) =? 0) (BUns bf) in
    do _ <- assert (num w NumFaces =? length (faceCells t));
    do fc <- faceCellArray (num w NumFaces) (faceCells t);
    let w := mallocTo w FaceCells (2 * num w NumFaces =? 0) (BInt fc) in
    let w := if negb (plc_empty (convexHull t))
             then let r := hullNew D (mem w) (convexHull t) in setp (setm w (fst r)) ConvexHull (snd r) else w in
    let nd := length (neighborDomains t) in
    do nds <- copyTo (neighborDomains t) nd;
    let w := mallocTo (setn w NumNeighborDomains nd) NeighborDomains (nd =? 0) (BUns nds) in
    do r <- crs nd (sharedNodes t);
    let w := mallocTo w SharedNodeOffsets false (BInt (fst r)) in
    let w := mallocTo w SharedNodes false (BUns (snd r)) in
    do r <- crs nd (sharedFaces t);
    let w := mallocTo w SharedFaceOffsets false (BInt (fst r)) in
    Ok (mallocTo w SharedFaces false (BUns (snd r))).

  (* reading the arrays *)
  Definition entry {A} (l : list (option A)) (i : nat) : res A :=
    match nth_error l i with Some (Some x) => Ok x | _ => UB end.
  Definition readInt (w : world V) (f : pfield) (i : nat) : res Z :=
    match ptrs w f with Ptr a => match nth_error (mem w) a with Some (Some (BInt l)) => entry l i | _ => UB end | _ => UB end.
  Definition readUns (w : world V) (f : pfield) (i : nat) : res nat :=
    match ptrs w f with Ptr a => match nth_error (mem w) a with Some (Some (BUns l)) => entry l i | _ => UB end | _ => UB end.
  Definition readReal (w : world V) (f : pfield) (i : nat) : res V :=
    match ptrs w f with Ptr a => match nth_error (mem w) a with Some (Some (BReal l)) => entry l i | _ => UB end | _ => UB end.
  Definition defined (w : world V) (f : pfield) : res unit := match ptrs w f with Undef => UB | _ => Ok tt end.
  (* e.g. lines 144-151: row i; a negative size is a std::length_error, which nothing catches *)
  Definition readRow {A} (w : world V) (offsets : pfield) (data : nat -> res A) (i : nat) : res (list A) :=
    do b <- readInt w offsets (i + 1);
    do a <- readInt w offsets i;
    if (b <? a)%Z then Abort
    else mmap (fun j => do a <- readInt w offsets i; data (Z.to_nat (a + Z.of_nat j))) (seq 0 (Z.to_nat (b - a))).
  (* fill_tessellation from C to C++, lines 133-199; every vector is resized and overwritten, the convex
     hull of t stays *)
  Definition fillCpp (D : nat) (w : world V) (t : mesh V) : res (mesh V) :=
    do _ <- defined w Nodes;
    do ns <- mmap (readReal w Nodes) (seq 0 (D * num w NumNodes));
    do cs <- mmap (readRow w CellOffsets (readInt w CellFaces)) (seq 0 (num w NumCells));
    do fs <- mmap (readRow w FaceOffsets (readUns w FaceNodes)) (seq 0 (num w NumFaces));
    do _ <- defined w BoundaryNodes;
    do bn <- mmap (readUns w BoundaryNodes) (seq 0 (num w NumBoundaryNodes));
    do _ <- defined w BoundaryFaces;
    do bf <- mmap (readUns w BoundaryFaces) (seq 0 (num w NumBoundaryFaces));
    do fc <- mmap (fun i => do d <- readInt w FaceCells (2 * i + 1);
                            mmap (fun j => readInt w FaceCells (2 * i + j)) (seq 0 (if negb (d =? -1)%Z then 2 else 1)))
                  (seq 0 (num w NumFaces));
    do _ <- defined w NeighborDomains;
    do nd <- mmap (readUns w NeighborDomains) (seq 0 (num w NumNeighborDomains));
    do rs <- mmap (fun i => do sn <- readRow w SharedNodeOffsets (readUns w SharedNodes) i;
                            do sf <- readRow w SharedFaceOffsets (readUns w SharedFaces) i;
                            Ok (sn, sf)) (seq 0 (num w NumNeighborDomains));
    Ok (mkMesh ns cs fs bn bf fc (convexHull t) nd (map fst rs) (map snd rs)).

  (* A caller's history between polytope_tessellation_new and polytope_tessellation_free: tessellating
     into the object (which ends in fill_tessellation) and clearing it *)
  Inductive action := Fill (t : mesh V) | Clear.
  Definition act (D : nat) (w : world V) (a : action) : res (world V) :=
    match a with Fill t => fillC D t w | Clear => tessClear w end.
  Definition life (D : nat) (l : list action) : res (heap V) :=
    do w <- tessNew D; do w <- mfold (act D) l w; tessFree w.
End Tess.
