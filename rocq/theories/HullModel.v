(* Model of the planar convex hull (src/convexHull_2d.hh).  Coordinates are exact rationals, the
   hashed positions are integers (KeyTraits::Key is int). *)
From Verif Require Import Base StdAlg Plane MeshEditorModel.
From Coq Require Import QArith Qround ZArith.
Local Open Scope Q_scope.

(* std::pair<PointHash, unsigned> *)
Notation hpt := ((Z * Z) * nat)%type.

(* FuzzyPoint2LessThan with fuzz = 1, lines 25-41 *)
Definition fuzzy_lt (p q : Z * Z) : bool :=
  if (fst p + 1 <? fst q)%Z then true
  else if (fst q + 1 <? fst p)%Z then false
  else (snd p + 1 <? snd q)%Z.

(* std::set::insert with that comparison.  It is not an ordering (equivalence is not transitive,
   and it has cycles), so where an element goes depends on the shape of the tree.  What every
   binary tree guarantees: an element is refused only when the one found in its place compares
   equivalent, and otherwise goes between two neighbours it compares well with. *)
Inductive set_insert (v : hpt) : list hpt -> list hpt -> Prop :=
| si_refused l j : In j l -> fuzzy_lt (fst v) (fst j) = false -> fuzzy_lt (fst j) (fst v) = false -> set_insert v l l
| si_inserted l1 l2 :
    (forall l j, l1 = l ++ [j] -> fuzzy_lt (fst j) (fst v) = true) ->
    (forall j l, l2 = j :: l -> fuzzy_lt (fst v) (fst j) = true) ->
    set_insert v (l1 ++ l2) (l1 ++ v :: l2).
(* the loop of lines 133-138, from a set s *)
Inductive set_fill : list hpt -> list hpt -> list hpt -> Prop :=
| sf_nil s : set_fill [] s s
| sf_cons v vs s s1 s2 : set_insert v s s1 -> set_fill vs s1 s2 -> set_fill (v :: vs) s s2.

(* zcross_sign, lines 46-57 *)
Definition zcross (p1 p2 p3 : Z * Z) : Z :=
  ((fst p2 - fst p1) * (snd p3 - snd p1) - (snd p2 - snd p1) * (fst p3 - fst p1))%Z.

(* std::pair's operator< with Point2's, Point.hh lines 28-32 *)
Definition hpt_lt (a b : hpt) : bool :=
  let '((ax, ay), ai) := a in let '((bx, by_), bi) := b in
  if (ax <? bx)%Z then true else if (bx <? ax)%Z then false
  else if (ay <? by_)%Z then true else if (by_ <? ay)%Z then false
  else (ai <? bi)%nat.
(* std::sort, line 140 *)
Fixpoint hpt_ins (v : hpt) (l : list hpt) : list hpt :=
  match l with [] => [v] | h :: t => if hpt_lt h v then h :: hpt_ins v t else v :: l end.
Definition hpt_sort (l : list hpt) : list hpt := fold_right hpt_ins [] l.

(* the inner while loops, lines 155-156 and 162-163: the array result up to position k, top
   first, holding the points rather than their positions in sortedPoints *)
Fixpoint pops (t : nat) (st : list hpt) (p : hpt) : list hpt :=
  match st with
  | a :: ((b :: _) as st') => if (t <=? length st)%nat && (zcross (fst b) (fst a) (fst p) <=? 0)%Z then pops t st' p else st
  | _ => st
  end.
(* one round of the loops: result has 2*nunique places *)
Definition hull_step (cap t : nat) (st : list hpt) (p : hpt) : res (list hpt) :=
  let st' := pops t st p in
  if (length st' <? cap)%nat then Ok (p :: st') else UB.
(* lines 148-180.  result.front() and result.back() in the assertion are the first and the last
   of all 2*nunique places; the last is never written and was initialised with 0 *)
Definition hull_loops (sorted : list hpt) : res (list (list Z)) :=
  let n := length sorted in
  do low <- mfold (hull_step (2 * n) 2) sorted [];
  do st <- mfold (hull_step (2 * n) (length low + 1)) (skipn 1 (rev sorted)) low;
  do _ <- assert (4 <=? length st)%nat;
  let result := rev st in
  mmap (fun i =>
    do a <- get result i; do b <- get result ((i + 1) mod length st)%nat;
    Ok [Z.of_nat (snd a); Z.of_nat (snd b)]) (seq 0 (length st - 1)).

(* geometry::distance(a, b) < dx, line 102, without the square root *)
Definition nearer (a b : p2) (dx : Q) : bool :=
  Qlt_bool 0 dx && Qlt_bool ((fst a - fst b) * (fst a - fst b) + (snd a - snd b) * (snd a - snd b)) (dx * dx).
(* geometry::collinear<2>, polytope_geometric_utilities.hh lines 426-444, without the square roots:
   the cosine is at most 1, so its distance to 1 is below tol when it is above 1 - tol *)
Definition hcollinear (a b c : p2) (tol : Q) : bool :=
  let dot u v := fst u * fst v + snd u * snd v in
  let ab := (fst b - fst a, snd b - snd a) in
  let ac := (fst c - fst a, snd c - snd a) in
  if Qlt_bool (dot ab ab) tol || Qlt_bool (dot ac ac) tol then true
  else Qlt_bool 1 tol || (Qlt_bool 0 tol && Qlt_bool ((1 - tol) * (1 - tol) * (dot ab ab * dot ac ac)) (dot ab ac * dot ab ac)).

(* CoordHash((x - xmin)/dx + 0.5), lines 134-136: conversion to int truncates towards zero and is
   undefined out of range; the largest int is excluded as well because fuzz is added to it *)
Definition trunc (q : Q) : Z := if Qle_bool 0 q then Qfloor q else Qceiling q.
Definition hcoord (x lo dx : Q) : res Z :=
  if Qeq_bool dx 0 then UB
  else let z := trunc ((x - lo) / dx + (1 # 2)) in
    if ((- 2 ^ 31 <=? z) && (z <? 2 ^ 31 - 1))%Z then Ok z else UB.
Definition hpoint (low : p2) (dx : Q) (p : p2) (i : nat) : res hpt :=
  do x <- hcoord (fst p) (fst low) dx;
  do y <- hcoord (snd p) (snd low) dx;
  Ok ((x, y), i).
Definition hpoints (pts : list p2) (low : p2) (dx : Q) : res (list hpt) :=
  mmap (fun ip => hpoint low dx (snd ip) (fst ip)) (combine (seq 0 (length pts)) pts).

(* the first index from 1 on that is not near point 0, or n: lines 101-102 *)
Fixpoint first_far (p0 : p2) (dx : Q) (l : list p2) (j : nat) : nat :=
  match l with [] => j | p :: t => if nearer p0 p dx then first_far p0 dx t (S j) else j end.

(* convexHull_2d, lines 79-183; points is given as a list of pairs (lines 87-89 check that it
   is not empty and even), uniq is the content of the set uniquePoints *)
Definition convexHull_2d (pts : list p2) (low : p2) (dx : Q) (uniq : list hpt) : res (list (list Z)) :=
  let n := length pts in
  match pts with
  | [] => Abort
  | p0 :: rest =>
    if (n =? 1)%nat then Ok [[0; 0]]%Z
    else if (n =? 2)%nat then Ok [[0; 1]]%Z
    else
      let j := first_far p0 dx rest 1 in
      if (j =? n - 1)%nat then Ok [[0; Z.of_nat j]]%Z
      else if (j =? n)%nat then Ok [[0; 0]]%Z
      else
        do pj <- get pts j;
        let coll := forallb (fun p => hcollinear p0 pj p dx) (skipn 2 pts) in
        do _ <- hpoints pts low dx;
        let sorted := hpt_sort uniq in
        if coll then
          do a <- get sorted 0;
          do b <- get sorted (length sorted - 1);
          Ok [[Z.of_nat (snd a); Z.of_nat (snd b)]]
        else hull_loops sorted
  end.
