(* Model of the nearest point on a boundary (closestPointOnSegment2D and distance in
   src/polytope_geometric_utilities.hh, src/nearestPoint.hh) and of src/snapToBoundary.cc.
   Coordinates are real numbers in place of double. *)
From Verif Require Import Base SerializeModel MeshModel StdAlg.
From Coq Require Import Reals.
Local Open Scope R_scope.

Notation pt2 := (R * R)%type.
Definition rlt (a b : R) : bool := if Rlt_dec a b then true else false.

(* distance<2>, lines 290-296 and 315-318 *)
Definition distance2 (a b : pt2) : R :=
  sqrt ((fst a - fst b) * (fst a - fst b) + (snd a - snd b) * (snd a - snd b)).

(* closestPointOnSegment2D, lines 502-521 *)
Definition closest (p s1 s2 : pt2) : pt2 :=
  let sx := fst s2 - fst s1 in
  let sy := snd s2 - snd s1 in
  let len := sqrt (sx * sx + sy * sy) in
  if rlt len (/ 10 ^ 10) then (/ 2 * (fst s1 + fst s2), / 2 * (snd s1 + snd s2))
  else
    let hx := sx / len in
    let hy := sy / len in
    let t := Rmax 0 (Rmin len ((fst p - fst s1) * hx + (snd p - snd s1) * hy)) in
    (fst s1 + t * hx, snd s1 + t * hy).

(* the coordinates at &v[2*i] *)
Definition read2 (v : list R) (i : nat) : res pt2 :=
  do x <- get v (2 * i); do y <- get v (2 * i + 1); Ok (x, y).
(* an int stored in an unsigned: a negative one becomes larger than any size *)
Definition in_range (z : Z) (n : nat) : bool := (0 <=? z)%Z && (z <? Z.of_nat n)%Z.

(* ClosestPointOnFacetsFunctor<2>, nearestPoint.hh lines 30-55; big is
   numeric_limits<RealType>::max(); the point is None while result has not been written *)
Definition closest_on_facets (big : R) (p : pt2) (nv : nat) (v : list R) (fs : list (list Z)) : res (R * option pt2) :=
  mfold (fun '(best, r) f =>
    match f with
    | [i; j] =>
        do _ <- assert (in_range i nv);
        do _ <- assert (in_range j nv);
        do a <- read2 v (Z.to_nat i);
        do b <- read2 v (Z.to_nat j);
        let c := closest p a b in
        let d := distance2 p c in
        Ok (if rlt d best then (d, Some c) else (best, r))
    | _ => Abort
    end) fs (big, None).

(* nearestPoint, lines 73-92 *)
Definition nearestPoint (big : R) (p : pt2) (nv : nat) (v : list R) (g : plc) : res (R * option pt2) :=
  do b <- closest_on_facets big p nv v (facets g);
  mfold (fun '(best, r) h =>
    do (d, c) <- closest_on_facets big p nv v h;
    Ok (if rlt d best then (d, c) else (best, r))) (holes g) b.

(* ---- snapToBoundary<2>, snapToBoundary.cc lines 21-129 ---- *)
(* the tolerance, lines 30-34, from the bounding box of the boundary points; one process *)
Definition evens (v : list R) : list R := map (fun i => nth (2 * i) v 0) (seq 0 (length v / 2)).
Definition odds (v : list R) : list R := map (fun i => nth (2 * i + 1) v 0) (seq 0 (length v / 2)).
Definition extent (big : R) (l : list R) : R := fold_left Rmax l (- big) - fold_left Rmin l big.
Definition snap_tol (big : R) (v : list R) (degeneracy : R) : R :=
  4 * degeneracy * Rmax (extent big (evens v)) (extent big (odds v)).

(* lines 48-54: look at boundary nodes until one is not further than tol; gives the last one
   looked at and its distance *)
Fixpoint scan (tol : R) (rp : pt2) (ns : list R) (bnodes : list nat) (last : option nat) (d : R) : res (option nat * R) :=
  match bnodes with
  | [] => Ok (last, d)
  | n :: t => if rlt tol d then do q <- read2 ns n; scan tol rp ns t (Some n) (distance2 q rp) else Ok (last, d)
  end.
(* mesh.nodes[2*n] = q.x; mesh.nodes[2*n+1] = q.y *)
Definition write2 (ns : list R) (n : nat) (q : pt2) : res (list R) :=
  do ns1 <- set ns (2 * n) (fst q); set ns1 (2 * n + 1) (snd q).

(* lines 41-65: the loop over the boundary points; state: node coordinates, boundary nodes not
   yet used, nodes snapped, points not snapped *)
Definition snap_point (big tol : R) (v : list R) (st : list R * list nat * list nat * list nat) (i : nat) :
    res (list R * list nat * list nat * list nat) :=
  let '(ns, bn, used, missing) := st in
  do rp <- read2 v i;
  do (last, d) <- scan tol rp ns bn None big;
  if rlt d tol then
    match last with
    | None => UB          (* inode is read uninitialized *)
    | Some n => do ns' <- write2 ns n rp; Ok (ns', remove Nat.eq_dec n bn, used ++ [n], missing)
    end
  else Ok (ns, bn, used, missing ++ [i]).

(* lines 103-127 *)
Definition snap_node (big tol : R) (v : list R) (g : plc) (ns : list R) (n : nat) : res (list R) :=
  do q <- read2 ns n;
  do (d, c) <- nearestPoint big q (length v / 2) v g;
  do ns' <- (if rlt d tol then match c with None => UB | Some c => write2 ns n c end else Ok ns);
  do _ <- assert (rlt d tol);
  Ok ns'.

Definition snapToBoundary (big : R) (m : mesh R) (v : list R) (g : plc) (degeneracy : R) : res (mesh R) :=
  do _ <- assert (length v mod 2 =? 0)%nat;   (* computeBoundingBox *)
  let tol := snap_tol big v degeneracy in
  (* a std::set: increasing, without repetition *)
  let bn := unique (StdAlg.sort (boundaryNodes m)) in
  do (ns, bn, used, missing) <- mfold (snap_point big tol v) (seq 0 (length v / 2)) (nodes m, bn, [], []);
  do _ <- assert (isnil missing);
  do _ <- assert (length used =? length v / 2)%nat;
  do ns <- mfold (snap_node big tol v g) bn ns;
  Ok (mkMesh ns (cells m) (faces m) (boundaryNodes m) (boundaryFaces m) (faceCells m) (convexHull m)
        (neighborDomains m) (sharedNodes m) (sharedFaces m)).
