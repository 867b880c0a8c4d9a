(* Model of the operations on planar boundaries that use Boost.Geometry, src/PLC_Boost_2d.hh.
   Coordinates are exact rationals; the library is an argument. *)
From Verif Require Import Base SerializeModel Plane MeshEditorModel.
From Coq Require Import QArith.
Local Open Scope nat_scope.

(* boost::geometry::model::polygon<Point2, false>: closed rings *)
Record polygon := mkPolygon { outer : list p2; inners : list (list p2) }.
(* the algorithms of the library that are called; in multi_union the first argument is a
   multi_polygon *)
Record library := mkLibrary {
  correct : polygon -> polygon;
  unique : polygon -> polygon;
  union_ : polygon -> polygon -> list polygon;
  intersection : polygon -> polygon -> list polygon;
  difference : polygon -> polygon -> list polygon;
  multi_union : list polygon -> polygon -> list polygon;
  within : p2 -> polygon -> bool;
  covered_by : p2 -> polygon -> bool;
  intersects : polygon -> polygon -> bool;
  self_intersects : polygon -> bool }.

(* Point2::operator==, Point.hh line 26 *)
Definition same_point (a b : p2) : bool := Qeq_bool (fst a) (fst b) && Qeq_bool (snd a) (snd b).
(* PointType(model.points[2*ii], model.points[2*ii+1]) *)
Definition point_of (pts : list Q) (ii : Z) : res p2 :=
  if (ii <? 0)%Z then UB else
  do x <- get pts (2 * Z.to_nat ii); do y <- get pts (2 * Z.to_nat ii + 1); Ok (x, y).
(* ring.front() == ring.back() *)
Definition closes (r : list p2) : res bool :=
  match r with [] => UB | a :: t => Ok (same_point a (last t a)) end.

(* one ring of ReducedPLCtoPolygon, lines 50-60 and 65-76 *)
Definition to_ring (pts : list Q) (fs : list (list Z)) : res (list p2) :=
  do f0 <- get fs 0; do i0 <- get f0 0; do p0 <- point_of pts i0;
  do ring <- mfold (fun acc f =>
      do _ <- assert (length f =? 2); do ii <- get f 1; do p <- point_of pts ii; Ok (acc ++ [p])) fs [p0];
  do _ <- assert (length ring =? length fs + 1);
  do c <- closes ring; do _ <- assert c;
  Ok ring.
(* ReducedPLCtoPolygon, lines 42-81 *)
Definition to_polygon (lib : library) (model : rplc Q) : res polygon :=
  do o <- to_ring (rpoints model) (rfacets model);
  do hs <- mmap (to_ring (rpoints model)) (rholes model);
  do _ <- assert (length hs =? length (rholes model));
  Ok (correct lib (mkPolygon o hs)).

(* the loop over one ring, lines 98-106: the points and the rows of numbers *)
Definition outer_rows (n : nat) : list (list Z) := map (fun i => [Z.of_nat i; Z.of_nat ((i + 1) mod n)]) (seq 0 n).
(* lines 115-125: entry 0 is written twice and entry 1 keeps the 0 of its construction *)
Definition hole_rows (offset n : nat) : list (list Z) := map (fun i => [Z.of_nat (offset + (i + 1) mod n); 0%Z]) (seq 0 n).
Definition flat2 (ps : list p2) : list Q := flat_map (fun p => [fst p; snd p]) ps.
(* ReducedPLCfromPolygon, lines 85-130.  A ring without points makes end()-1 undefined.  nhfacets-1
   is computed in unsigned int; rings have fewer than 2^32 points. *)
Definition from_polygon (model : polygon) : res (rplc Q) :=
  match outer model with
  | [] => UB
  | _ =>
    let nfacets := length (outer model) - 1 in
    do _ <- assert (3 <=? nfacets);
    do st <- mfold (fun '(offset, holes, pts) hole =>
        match hole with
        | [] => UB
        | _ =>
          let nhfacets := length hole - 1 in
          let ii := nhfacets in
          do _ <- assert (Z.of_nat ii =? (Z.of_nat nhfacets - 1) mod 2 ^ 32)%Z;   (* 126 *)
          Ok (offset + ii, holes ++ [hole_rows offset nhfacets], pts ++ flat2 (removelast hole))
        end) (inners model) (nfacets, [], flat2 (removelast (outer model)));
    let '(_, holes, pts) := st in
    Ok (mkRPLC (outer_rows nfacets) holes pts)
  end.

(* the loop that ends boost_union, boost_intersect, boost_subtract and boost_unionReduce, e.g. lines 177-181 *)
Definition from_polygons (lib : library) (cs : list polygon) : res (list (rplc Q)) :=
  mmap (fun c => do f <- closes (outer c); do _ <- assert f; do _ <- assert (negb (self_intersects lib c)); from_polygon c) cs.
(* the common text of the three operations that follow *)
Definition boost_op (op : polygon -> polygon -> list polygon) (lib : library) (a b : rplc Q) : res (list (rplc Q)) :=
  do pa <- to_polygon lib a; do pb <- to_polygon lib b;
  let cs := op pa pb in
  do _ <- assert (negb (match cs with [] => true | _ => false end));
  from_polygons lib cs.
(* boost_union, lines 167-183 *)
Definition boost_union (lib : library) := boost_op (union_ lib) lib.
(* boost_intersect, lines 186-202 *)
Definition boost_intersect (lib : library) := boost_op (intersection lib) lib.
(* boost_subtract, lines 205-221 *)
Definition boost_subtract (lib : library) := boost_op (difference lib) lib.

(* boost_clip, lines 224-269: the result and the orphans *)
Definition boost_clip (lib : library) (a b : rplc Q) (p : p2) (orphans : list (rplc Q)) : res (rplc Q * list (rplc Q)) :=
  do pa <- to_polygon lib a; do pb <- to_polygon lib b;
  let cs := intersection lib pa pb in
  do _ <- assert (0 <? length cs);
  do (result, orphans) <-
    match cs with
    | [c] => Ok (c, orphans)
    | _ =>
      do (k, orphans) <- mfold (fun '(k, orphans) j =>
          do c <- get cs j;
          if covered_by lib p c then Ok (j, orphans) else
          match outer c with
          | [] => UB
          | _ => if existsb (same_point p) (removelast (outer c)) then Ok (j, orphans)
                 else do r <- from_polygon c; Ok (k, orphans ++ [r])
          end) (seq 0 (length cs)) (length cs, orphans);
      do _ <- assert (k <? length cs);
      do c <- get cs k; Ok (c, orphans)
    end;
  do r <- from_polygon (unique lib (correct lib result));
  Ok (r, orphans).

(* boost_within, lines 272-278 *)
Definition boost_within (lib : library) (p : p2) (a : rplc Q) : res bool :=
  do pa <- to_polygon lib a; Ok (within lib p pa).
(* boost_intersects, lines 280-293 *)
Definition boost_intersects (lib : library) (a b : rplc Q) : res bool :=
  do pa <- to_polygon lib a; do pb <- to_polygon lib b; Ok (intersects lib pa pb).
Definition boost_self_intersects (lib : library) (a : rplc Q) : res bool :=
  do pa <- to_polygon lib a; Ok (self_intersects lib pa).

(* boost_unionReduce, lines 295-319 *)
Definition boost_unionReduce (lib : library) (a : list (rplc Q)) : res (list (rplc Q)) :=
  do cs <- mfold (fun cs r => do p <- to_polygon lib r; Ok (map (correct lib) (multi_union lib cs p))) a [];
  do _ <- assert (negb (match cs with [] => true | _ => false end));
  do _ <- assert (length cs <=? length a);
  do result <- from_polygons lib cs;
  do _ <- assert (negb (match result with [] => true | _ => false end));
  do _ <- assert (length result <=? length a);
  Ok result.
