(* Model of the convex hull in space, src/convexHull_3d.hh, with exact rational coordinates in
   place of double.  A unit vector is kept as the vector before division by its length together
   with the square of that length, so that all comparisons can be made on squares. *)
From Verif Require Import Base Plane PLCSpec MeshEditorModel BoxModel HashModel RayModel.
From Coq Require Import QArith Qabs ZArith.
Local Open Scope Q_scope.

Definition cross3 (a b : p3) : p3 :=
  (Y3 a * Z3 b - Z3 a * Y3 b, Z3 a * X3 b - X3 a * Z3 b, X3 a * Y3 b - Y3 a * X3 b).
Definition opp3 (a : p3) : p3 := (- X3 a, - Y3 a, - Z3 a).
Definition add3 (a b : p3) : p3 := (X3 a + X3 b, Y3 a + Y3 b, Z3 a + Z3 b).
Definition div3 (a : p3) (k : Q) : p3 := (X3 a / k, Y3 a / k, Z3 a / k).
(* the square of the length unitVector divides by, polytope_geometric_utilities.hh lines 325-345 *)
Definition mag2 (a : p3) : Q := qmax (1 # (10 ^ 200)) (dot3 a a).

(* std::min_element and std::max_element: the position of the first best element *)
Fixpoint best_from (better : p3 -> p3 -> bool) (b : nat) (pb : p3) (k : nat) (l : list p3) : nat :=
  match l with
  | [] => b
  | p :: t => if better p pb then best_from better k p (S k) t else best_from better b pb (S k) t
  end.
Definition min_element (lt : p3 -> p3 -> bool) (l : list p3) : res nat :=
  match l with [] => UB | p :: t => Ok (best_from (fun a b => lt a b) 0 p 1 t) end.
Definition max_element (lt : p3 -> p3 -> bool) (l : list p3) : res nat :=
  match l with [] => UB | p :: t => Ok (best_from (fun a b => lt b a) 0 p 1 t) end.
(* compareMinX, compareMinY, compareMinZ, lines 59-72 *)
Definition compareMinX (a b : p3) : bool := Qlt_bool (X3 a) (X3 b).
Definition compareMinY (a b : p3) : bool := Qlt_bool (Y3 a) (Y3 b).
Definition compareMinZ (a b : p3) : bool := Qlt_bool (Z3 a) (Z3 b).
(* pointLineDistance, lines 29-38, squared; direction is the vector before it was made a unit
   vector *)
Definition lineDistance2 (p line0 direction : p3) : Q :=
  let delta := sub3 p line0 in
  let a := dot3 delta direction in
  Qabs (dot3 delta delta - a * a / mag2 direction).
(* CompareLineDistance, lines 77-87 *)
Definition compareLine (point direction a b : p3) : bool :=
  Qlt_bool (lineDistance2 a point direction) (lineDistance2 b point direction).
(* CompareAbsPlaneDistance, lines 92-102: both distances carry the same factor *)
Definition comparePlane (point normal a b : p3) : bool :=
  Qlt_bool (Qabs (dot3 (sub3 a point) normal)) (Qabs (dot3 (sub3 b point) normal)).

(* TriangleFacet, lines 135-180 *)
Record facet := mkFacet { fi : nat; fj : nat; fk : nat; fn : p3 }.
(* the constructor and computeNormal, lines 144-159 *)
Definition newFacet (i j k : nat) (ps : list p3) : res facet :=
  do pi <- get ps i; do pj <- get ps j; do pk <- get ps k;
  Ok (mkFacet i j k (cross3 (sub3 pj pi) (sub3 pk pi))).
(* compare, lines 161-168; the tolerance is 1e-8 *)
Definition tol2 : Q := 1 # (10 ^ 16).
Definition compare (f : facet) (point : p3) (ps : list p3) : res Z :=
  do pi <- get ps (fi f);
  let d := dot3 (sub3 point pi) (fn f) in
  Ok (if Qlt_bool (d * d) (tol2 * mag2 (fn f)) then 0%Z else if Qlt_bool d 0 then (-1)%Z else 1%Z).
(* flip, line 170 *)
Definition flipFacet (f : facet) : facet := mkFacet (fj f) (fi f) (fk f) (opp3 (fn f)).

(* the inner loop of exteriorPoints, lines 196-198 *)
Fixpoint exterior (fs : list facet) (p : p3) (ps : list p3) : res bool :=
  match fs with
  | [] => Ok false
  | f :: t => do c <- compare f p ps; if (c =? 1)%Z then Ok true else exterior t p ps
  end.
(* exteriorPoints, lines 185-201 *)
Definition exteriorPoints (indices : list nat) (fs : list facet) (ps : list p3) : res (list nat) :=
  mfold (fun acc i => do p <- get ps i; do e <- exterior fs p ps; Ok (if e : bool then acc ++ [i] else acc)) indices [].

(* highestPoint, lines 206-228: the state is (result, maxAltitude), an altitude being a number
   over the length of the normal, kept with its square *)
Definition higher (a b : Q * Q) : bool :=
  Qlt_bool 0 (fst a) && Qlt_bool (fst b * fst b * snd a) (fst a * fst a * snd b).
Definition highestPoint (indices : list nat) (fs : list facet) (ps : list p3) : res nat :=
  do (r, _) <- mfold (fun st i =>
      mfold (fun '(r, m) f =>
          do p <- get ps i; do q <- get ps (fi f);
          let a := (dot3 (sub3 p q) (fn f), mag2 (fn f)) in
          Ok (if higher a m then (Some i, a) else (r, m))) fs st)
    indices (None, (0, 1));
  match r with Some i => Ok i | None => Abort end.

(* internal::hashEdge, polytope_internal.hh lines 131-134 *)
Definition hashPair (i j : nat) : res (nat * nat) :=
  do _ <- assert (negb (i =? j)%nat); Ok (if (i <? j)%nat then (i, j) else (j, i)).
(* ++edgeCount[e], CounterMap, polytope_internal.hh lines 109-124: a map ordered by key *)
Definition pair_eqb (e e' : nat * nat) : bool := ((fst e =? fst e') && (snd e =? snd e'))%nat.
Definition pair_ltb (e e' : nat * nat) : bool := (if fst e =? fst e' then snd e <? snd e' else fst e <? fst e')%nat.
Fixpoint incr (e : nat * nat) (m : list ((nat * nat) * nat)) : list ((nat * nat) * nat) :=
  match m with
  | [] => [(e, 1%nat)]
  | (k, c) :: t => if pair_eqb e k then (k, S c) :: t else if pair_ltb e k then (e, 1%nat) :: m else (k, c) :: incr e t
  end.
(* the loop over the facets, lines 247-266; the state is (newFacets, edgeCount) *)
Definition cull_step (ps : list p3) (apex : p3) (st : list facet * list ((nat * nat) * nat)) (f : facet) :
    res (list facet * list ((nat * nat) * nat)) :=
  let '(kept, count) := st in
  do c <- compare f apex ps;
  if (c =? 1)%Z then
    do e1 <- hashPair (fi f) (fj f);
    do e2 <- hashPair (fj f) (fk f);
    do e3 <- hashPair (fk f) (fi f);
    Ok (kept, incr e3 (incr e2 (incr e1 count)))
  else Ok (kept ++ [f], count).
(* lines 272-277 *)
Definition horizon_step (acc : list (nat * nat)) (ec : (nat * nat) * nat) : res (list (nat * nat)) :=
  do _ <- assert ((snd ec =? 1) || (snd ec =? 2))%nat;
  Ok (if (snd ec =? 1)%nat then acc ++ [fst ec] else acc).
(* cullVisibleFacets, lines 234-278 *)
Definition cullVisibleFacets (fs : list facet) (ps : list p3) (apex : nat) : res (list facet * list (nat * nat)) :=
  do a <- get ps apex;
  do (kept, count) <- mfold (cull_step ps a) fs ([], []);
  do horizon <- mfold horizon_step count [];
  Ok (kept, horizon).

(* one new facet, lines 401-402 *)
Definition add_facet (ps : list p3) (apex : nat) (test : p3) (acc : list facet) (e : nat * nat) : res (list facet) :=
  do f <- newFacet (fst e) (snd e) apex ps;
  do c <- compare f test ps;
  Ok (acc ++ [if (c =? 1)%Z then flipFacet f else f]).
(* one round of the loop, lines 378-409 *)
Definition grow1 (ps : list p3) (remaining : list nat) (fs : list facet) : res (list nat * list facet) :=
  do apex <- highestPoint remaining fs ps;
  do (kept, horizon) <- cullVisibleFacets fs ps apex;
  do _ <- assert (3 <=? length horizon)%nat;
  do sum <- mfold (fun s e => do a <- get ps (fst e); do b <- get ps (snd e); Ok (add3 (add3 s a) b)) horizon (0, 0, 0);
  let test := div3 sum (inject_Z (Z.of_nat (2 * length horizon))) in
  do fs' <- mfold (add_facet ps apex test) horizon kept;
  do remaining' <- exteriorPoints remaining fs' ps;
  do _ <- assert (length remaining' <? length remaining)%nat;
  Ok (remaining', fs').
(* the loop, lines 378-419: it stops when no point remains, and every round removes one *)
Fixpoint grow (fuel : nat) (ps : list p3) (remaining : list nat) (fs : list facet) : res (list facet) :=
  match remaining with
  | [] => Ok fs
  | _ =>
    match fuel with
    | O => Hang
    | S fuel => do (remaining', fs') <- grow1 ps remaining fs; grow fuel ps remaining' fs'
    end
  end.
(* the starting edge, lines 316-344 *)
Definition starting_edge (ps : list p3) : res (nat * nat) :=
  do ixmin <- min_element compareMinX ps; do ixmax <- max_element compareMinX ps;
  do iymin <- min_element compareMinY ps; do iymax <- max_element compareMinY ps;
  do izmin <- min_element compareMinZ ps; do izmax <- max_element compareMinZ ps;
  do _ <- assert (negb (ixmin =? ixmax) && negb (iymin =? iymax) && negb (izmin =? izmax))%nat;
  do a <- get ps ixmin; do b <- get ps ixmax; let boxx2 := dot3 (sub3 b a) (sub3 b a) in
  do a <- get ps iymin; do b <- get ps iymax; let boxy2 := dot3 (sub3 b a) (sub3 b a) in
  do a <- get ps izmin; do b <- get ps izmax; let boxz2 := dot3 (sub3 b a) (sub3 b a) in
  do _ <- assert (Qlt_bool 0 boxx2 && Qlt_bool 0 boxy2 && Qlt_bool 0 boxz2);
  if Qle_bool (qmax boxy2 boxz2) boxx2 then Ok (ixmin, ixmax)
  else if Qle_bool boxz2 boxy2 then Ok (iymin, iymax)
  else do _ <- assert (Qle_bool (qmax boxx2 boxy2) boxz2); Ok (izmin, izmax).
(* lines 316-365: the starting tetrahedron *)
Definition starting_facets (ps : list p3) : res (list facet) :=
  do (i, j) <- starting_edge ps;
  do pi <- get ps i; do pj <- get ps j;
  do k <- max_element (compareLine pi (sub3 pj pi)) ps;
  do f <- newFacet i j k ps;
  do apex <- max_element (comparePlane pi (fn f)) ps;
  do pa <- get ps apex;
  do c <- compare f pa ps;
  let f := if (c =? 1)%Z then flipFacet f else f in
  do f1 <- newFacet (fj f) (fi f) apex ps;
  do f2 <- newFacet (fi f) (fk f) apex ps;
  do f3 <- newFacet (fk f) (fj f) apex ps;
  Ok [f; f1; f2; f3].
(* lines 307-419: the facets around the unique points *)
Definition hull3 (ps : list p3) : res (list facet) :=
  do _ <- assert (4 <=? length ps)%nat;
  do fs <- starting_facets ps;
  do remaining <- exteriorPoints (seq 0 (length ps)) fs ps;
  grow (length remaining) ps remaining fs.

(* lines 306-314: the coordinates as points *)
Definition points3 (ups : list Q) : res (list p3) :=
  mmap (fun i => do x <- get ups (3 * i); do y <- get ups (3 * i + 1); do z <- get ups (3 * i + 2); Ok (x, y, z))
    (seq 0 (length ups / 3)).
(* convexHull_3d, lines 285-432, on one process; big is numeric_limits::max(), low is not used *)
Definition convexHull_3d (key : keyty) (big : Q) (points : list Q) (dx : Q) : res (list (list nat)) :=
  do _ <- assert (length points mod 3 =? 0)%nat;
  do (xmin, xmax) <- local_box 3 big points;
  do (upoints, pointMap) <- uniquePoints key 3 points xmin xmax dx;
  do ps <- points3 upoints;
  do fs <- hull3 ps;
  mmap (fun f => do a <- get pointMap (fi f); do b <- get pointMap (fj f); do c <- get pointMap (fk f); Ok [a; b; c]) fs.
