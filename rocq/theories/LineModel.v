(* Model of constructCells1d of src/polytope_tessellator_utilities.hh, the cells of
   generators in a line inside a circle, with real numbers in place of double. *)
From Coq Require Import Reals.
From Verif Require Import Base NearModel RayCircleModel.
Local Open Scope R_scope.

(* unitVector<2>, polytope_geometric_utilities.hh lines 325-332 *)
Definition unitVector2 (a : pt2) : pt2 :=
  let mag := Rmax (/ 10 ^ 100) (sqrt (fst a * fst a + snd a * snd a)) in (fst a / mag, snd a / mag).
(* Point2::operator*= with -1.0, Point.hh *)
Definition back2 (a : pt2) : pt2 := (- fst a, - snd a).
(* tol, line 309 *)
Definition line_tol : R := / 10 ^ 10.
(* the two ends of the face between two neighbours, lines 330-352 and 372-388; the asserts on
   test always hold since rayCircleIntersection returns true whenever it returns *)
Definition face_ends (c : pt2) (r : R) (p1 p2 : pt2) : res (pt2 * pt2) :=
  let midpt := ((fst p1 + fst p2) * / 2, (snd p1 + snd p2) * / 2) in
  let r1 := unitVector2 (rsub2 p2 p1) in
  let r2 := (snd r1, - fst r1) in
  do a <- rayCircleIntersection midpt r2 c r line_tol;
  do b <- rayCircleIntersection midpt (back2 r2) c r line_tol;
  Ok (a, b).
(* cellNodes[i].push_back(k) *)
Definition push_node (cells : list (list nat)) (i k : nat) : res (list (list nat)) :=
  do l <- get cells i; set cells i (l ++ [k]).
Definition push_nodes (cells : list (list nat)) (i : nat) (ks : list nat) : res (list (list nat)) :=
  mfold (fun cs k => push_node cs i k) ks cells.

(* one interior cell, lines 367-398 *)
Definition line_step (c : pt2) (r : R) (ref : list (pt2 * nat)) (s : list (list nat) * list pt2) (i : nat) : res (list (list nat) * list pt2) :=
  let '(cells, nodes) := s in
  let inode := (2 * i + 1)%nat in
  do q1 <- get ref i; do q2 <- get ref (i + 1);
  do (a, b) <- face_ends c r (fst q1) (fst q2);
  do nodes <- set nodes inode a;
  do nodes <- set nodes (inode + 1) b;
  do cells <- push_nodes cells (snd q1) [inode; inode + 1]%nat;
  do cells <- push_nodes cells (snd q2) [inode + 1; inode]%nat;
  Ok (cells, nodes).

(* constructCells1d, lines 302-425. The generators are given as points rather than as a flat
   array, srt is std::sort on them and their indices, and the two output vectors start empty. *)
Definition constructCells1d (srt : list (pt2 * nat) -> list (pt2 * nat)) (points : list pt2) (c : pt2) (r : R) : res (list (list nat) * list pt2) :=
  let n := length points in
  let ref := srt (combine points (seq 0 n)) in
  let cells := repeat [] n in
  let nodes := repeat (0, 0) (2 * n) in
  do q1 <- get ref 0; do q2 <- get ref 1;
  let r1 := unitVector2 (rsub2 (fst q2) (fst q1)) in
  do node <- rayCircleIntersection (fst q1) (back2 r1) c r line_tol;
  do nodes <- set nodes 0 node;
  do (a, b) <- face_ends c r (fst q1) (fst q2);
  do nodes <- set nodes 1 a;
  do nodes <- set nodes 2 b;
  do cells <- push_nodes cells (snd q1) [0; 1; 2]%nat;
  do cells <- push_nodes cells (snd q2) [2; 1]%nat;
  do (cells, nodes) <- mfold (line_step c r ref) (seq 1 (n - 2)) (cells, nodes);
  do q1 <- get ref (n - 1); do q2 <- get ref (n - 2);
  let r1 := unitVector2 (rsub2 (fst q1) (fst q2)) in
  do node <- rayCircleIntersection (fst q1) r1 c r line_tol;
  do nodes <- set nodes (2 * n - 1) node;
  do cells <- push_nodes cells (snd q1) [2 * n - 1]%nat;
  do _ <- assert (length nodes =? 2 * n)%nat;
  do _ <- assert (length cells =? n)%nat;
  Ok (cells, nodes).
