(* Model of DistributedTessellator::computeDomainNeighbors, src/DistributedTessellator.cc lines
   836-1034, with DimensionTraits<2>, src/DimensionTraits.hh.  The doubles are kept as bit patterns
   (TDouble); val gives the number a pattern stands for, and rounding is not modelled.  The output
   of intermediate meshes (visIntermediateMeshes) is left out. *)
From Verif Require Import Base StdAlg SerializeModel MeshModel ArrayModel PLCModel CollModel Plane MeshEditorModel WithinModel HullModel.
From Coq Require Import QArith.
Local Open Scope nat_scope.

(* the same complex with numbers for the bit patterns *)
Definition rmap {A B} (f : A -> B) (r : rplc A) : rplc B := mkRPLC (rfacets r) (rholes r) (map f (rpoints r)).

(* ---- the hull a rank sends, in the plane ---- *)
(* DimensionTraits<2>::hullDimension, DimensionTraits.hh lines 80-85 *)
Definition hullDimension2 {A} (h : rplc A) : res nat :=
  match rfacets h with
  | [f] => do _ <- assert (length f =? 2);
           do a <- get f 0; do b <- get f 1;
           Ok (if (a =? b)%Z then 0 else 1)
  | _ => Ok 2
  end.

(* lines 872-875: the generators whose cell of the local mesh is not inside the hull, as a
   std::set, filled in increasing order *)
Definition exteriorCells2 (val : Z -> Q) (m : mesh Z) (h : rplc Z) (npts : nat) : res (list nat) :=
  mfold (fun s i =>
    do c <- cell_plc2 m i;
    do w <- convexWithin (rmap val c) (rmap val h);
    Ok (if w then s else s ++ [i])) (seq 0 npts) [].

(* Point2::operator==, Point.hh line 26 *)
Definition same2 (val : Z -> Q) (p q : Z * Z) : bool :=
  Qeq_bool (val (fst p)) (val (fst q)) && Qeq_bool (val (snd p)) (val (snd q)).
Fixpoint zpairs (l : list Z) : list (Z * Z) := match l with x :: y :: t => (x, y) :: zpairs t | _ => [] end.
(* lines 882-890: exteriorPoints grows by the points not yet in it *)
Definition addVisible (val : Z -> Q) (points : list Z) (ext : list (Z * Z)) (i : nat) : res (list (Z * Z)) :=
  do x <- get points (2 * i); do y <- get points (2 * i + 1);
  Ok (if existsb (fun q => same2 val q (x, y)) ext then ext else ext ++ [(x, y)]).

(* lines 861-904.  low is rlow (line 856, the same on all ranks), dx the degeneracy of the serial
   tessellator, tess its unbounded tessellate and uniq the set built inside convexHull_2d (see
   HullModel.v).  DimensionTraits<2>::convexHull, lines 28-32. *)
Definition localHull2 (val : Z -> Q) (low : p2) (dx : Q) (uniq : list hpt) (tess : list Z -> res (mesh Z)) (points : list Z) : res (rplc Z) :=
  do _ <- assert (negb (isnil points));
  do _ <- assert (length points mod 2 =? 0);
  do fs <- convexHull_2d (pairs (map val points)) low dx uniq;
  do h <- reduced 2 (mkPLC fs []) points;
  do d <- hullDimension2 h;
  do m <- tess points;
  if d =? 2 then
    do ext <- exteriorCells2 val m h (length points / 2);
    do ps <- mfold (addVisible val points) ext (zpairs (rpoints h));
    Ok (mkRPLC (rfacets h) (rholes h) (flat_map (fun p => [fst p; snd p]) ps))
  else Ok (mkRPLC (rfacets h) (rholes h) points).

Section Neighbors.
  Context {V : Type} (D : nat).

  (* lines 920-934, from the sending ranks in procs on; buf is localBuffer, bufSize is unsigned *)
  Fixpoint shareHulls {A} (buf : list Z) (procs : list nat) (hulls : list (rplc Z)) (offs : list nat)
                      (k : list (rplc Z) -> list nat -> cprog A) : cprog A :=
    match procs with
    | [] => k hulls offs
    | p :: procs =>
        CBcast p 1 [usize buf] (fun sz => match sz with
        | [bufSize] =>
            CBcast p (Z.to_nat bufSize) (resize 0%Z (Z.to_nat bufSize) buf) (fun b =>
              clift (deserialize (TReducedPLC TDouble) true (fresh (TReducedPLC TDouble)) b) (fun '(h, rest) =>
              clift (assert (isnil rest)) (fun _ =>
              clift (get offs (length offs - 1)) (fun o =>
              clift (get (hulls ++ [h]) p) (fun hp =>
              shareHulls buf procs (hulls ++ [h]) (offs ++ [o + length (rpoints hp) / D]) k)))))
        | _ => CRet UB
        end)
    end.

  (* lines 998-1003; isect is convexIntersect *)
  Definition hullNeighbors (isect : rplc Z -> rplc Z -> res bool) (hulls : list (rplc Z)) (me n : nat) : res (list nat) :=
    mfold (fun s other =>
      if other =? me then Ok s
      else do a <- get hulls other; do b <- get hulls me;
           do x <- isect a b;
           Ok (if x then MeshModel.set_insert other s else s)) (seq 0 n) [].

  (* lines 1006-1020 *)
  Definition cellsOfInterest (m : mesh V) (offs : list nat) (me : nat) : res (list nat) :=
    do nodeCells <- computeNodeCells D m;
    do cellToNodes <- computeCellToNodes m;
    do lo <- get offs me; do hi <- get offs (me + 1);
    mfold (fun s icell =>
      do ns <- get cellToNodes icell;
      mfold (fun s x => do cs <- get nodeCells x; Ok (fold_left (fun s c => MeshModel.set_insert c s) cs s)) ns s)
      (seq lo (hi - lo)) [].

  (* lines 1023-1027, from neighborSet = s on; the int found becomes an unsigned *)
  Definition meshNeighbors (offs : list nat) (me : nat) (cs : list nat) (s : list nat) : res (list nat) :=
    mfold (fun s c =>
      do j <- bisectSearch (map Z.of_nat offs) (Z.of_nat c);
      let o := Z.to_nat (j mod 2 ^ 32) in
      Ok (if o =? me then s else MeshModel.set_insert o s)) cs s.

  (* lines 914-1034 for rank me among n with the hull made above.  tess is the tessellation of
     all visible generators, lines 949-976: unbounded, in the box or in the boundary. *)
  Definition domainNeighbors (isect : rplc Z -> rplc Z -> res bool) (n : nat) (tess : list Z -> res (mesh V)) (me : nat) (hull : rplc Z) : cprog (list nat) :=
    shareHulls (serialize (TReducedPLC TDouble) hull) (seq 0 n) [] [0] (fun hulls offs =>
    clift (assert (length hulls =? n)) (fun _ =>
    clift (assert (length offs =? n + 1)) (fun _ =>
    let gens := flat_map (@rpoints Z) hulls in
    clift (get offs (length offs - 1)) (fun o =>
    clift (assert (length gens / D =? o)) (fun _ =>
    clift (tess gens) (fun m =>
    CRet (do s <- hullNeighbors isect hulls me n;
          do cs <- cellsOfInterest m offs me;
          do s <- meshNeighbors offs me cs s;
          Ok (sort s)))))))).
End Neighbors.

(* the whole of computeDomainNeighbors in the plane *)
Definition domainNeighbors2 (val : Z -> Q) (low : p2) (dx : Q) (uniq : list hpt) (tess : list Z -> res (mesh Z)) (n : nat) (tessAll : list Z -> res (mesh Z)) (me : nat) (points : list Z) : cprog (list nat) :=
  clift (localHull2 val low dx uniq tess points) (fun h =>
  domainNeighbors 2 (fun a b => convexIntersect (rmap val a) (rmap val b)) n tessAll me h).
