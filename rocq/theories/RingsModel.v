(* Model of constructBoostBoundary and convertTessellationToRings of
   src/polytope_tessellator_utilities.hh.  Coordinates of nodes are exact rationals in place of
   double; points of rings are integer points; the library is an argument. *)
From Verif Require Import Base SerializeModel Plane MeshModel PointModel.
From Coq Require Import QArith.
Local Open Scope nat_scope.

(* PLCPoints[i] *)
Definition point_at {P} (pts : list P) (i : Z) : res P := if (i <? 0)%Z then UB else get pts (Z.to_nat i).
(* ring.front() == ring.back() *)
Definition shut (r : list point2) : res bool :=
  match r with [] => UB | a :: t => Ok (p2_eq a (last t a)) end.
(* one ring, lines 146-153 and 161-169 *)
Definition append_ring (pts : list point2) (fs : list (list Z)) : res (list point2) :=
  do f0 <- get fs 0; do i0 <- get f0 0; do p0 <- point_at pts i0;
  do r <- mfold (fun acc f => do _ <- assert (length f =? 2); do i <- get f 1; do p <- point_at pts i; Ok (acc ++ [p])) fs [p0];
  do _ <- assert (length r =? length fs + 1);
  do c <- shut r; do _ <- assert c;
  Ok r.
(* constructBoostBoundary, lines 139-172: the outer ring and the rings of the holes; the polygon
   starts empty *)
Definition constructBoostBoundary (pts : list point2) (g : plc) : res (list point2 * list (list point2)) :=
  do o <- append_ring pts (facets g);
  do hs <- mmap (append_ring pts) (holes g);
  do _ <- assert (length hs =? length (holes g));
  Ok (o, hs).

(* the algorithms of Boost.Geometry on rings that are called: correct, and intersects with one
   argument, which tells whether the ring meets itself *)
Record ring_library := mkRingLib { ring_correct : list point2 -> list point2; ring_crosses : list point2 -> bool }.
(* one node of a cell, lines 210-218 *)
Definition ring_node (m : mesh Q) (low : Q * Q) (dx : Q) (z : Z) : res point2 :=
  let iface := pid z in
  do _ <- assert (iface <? length (faceCells m));
  do f <- get (faces m) iface;
  do _ <- assert (length f =? 2);
  do inode <- get f (if (z <? 0)%Z then 1 else 0);
  do x <- get (nodes m) (2 * inode); do y <- get (nodes m) (2 * inode + 1);
  grid2 x y (fst low) (snd low) dx 0.
(* one cell, lines 207-223 *)
Definition cell_ring (lib : ring_library) (m : mesh Q) (low : Q * Q) (dx : Q) (c : list Z) : res (list point2) :=
  do ns <- mmap (ring_node m low dx) c;
  let r := ring_correct lib ns in
  do b <- shut r; do _ <- assert b;
  do _ <- assert (negb (ring_crosses lib r));
  Ok r.
(* convertTessellationToRings, lines 185-226; low is not NULL *)
Definition convertTessellationToRings (lib : ring_library) (m : mesh Q) (low : Q * Q) (dx : Q) : res (list (list point2)) :=
  do _ <- assert (negb (isnil (cells m)));
  do _ <- assert (negb (isnil (faces m)));
  do _ <- assert (negb (isnil (nodes m)));
  do _ <- assert (negb (Qeq_bool dx 0));
  do rs <- mmap (cell_ring lib m low dx) (cells m);
  do _ <- assert (length rs =? length (cells m));
  Ok rs.
