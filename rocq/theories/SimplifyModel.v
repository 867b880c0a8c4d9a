(* Model of simplifyPLCfacets in the plane, src/simplifyPLCfacets.hh lines 25-130, with exact
   rational coordinates in place of double.  Point numbers are not negative. *)
From Verif Require Import Base KeyMapModel FaceSortModel Plane WithinModel HashModel HullModel.
From Coq Require Import QArith.
Local Open Scope nat_scope.

(* the hashed edge of a facet, lines 50-55 *)
Definition input_edge (old2new : list nat) (f : list nat) : res (Z * Z) :=
  do _ <- assert (length f =? 2);
  do i <- get f 0; do j <- get f 1;
  do a <- get old2new i; do b <- get old2new j;
  KeyMapModel.hashEdge (Z.of_nat a) (Z.of_nat b).
(* a signed edge in its direction, lines 60-66 *)
Definition directed (edges : list (Z * Z)) (j : Z) : res (Z * Z) :=
  let k := if (j <? 0)%Z then Z.lnot j else j in
  do e <- get edges (Z.to_nat k);
  Ok (if (j <? 0)%Z then (snd e, fst e) else e).
(* collinear on the points numbered a, b, c *)
Definition collinear_at (pts : list Q) (tol : Q) (a b c : Z) : res bool :=
  do p <- vat pts 0 (Z.to_nat a); do q <- vat pts 0 (Z.to_nat b); do r <- vat pts 0 (Z.to_nat c);
  Ok (hcollinear p q r tol).
(* the first edge not collinear with the one before, lines 79-86; is is what is left to look at *)
Fixpoint find_start (pts : list Q) (tol : Q) (es : list (Z * Z)) (is : list nat) : res nat :=
  match is with
  | [] => Abort
  | i :: t =>
      do e <- get es i; do e' <- get es ((i + length es - 1) mod length es);
      do c <- collinear_at pts tol (fst e) (snd e) (fst e');
      if c : bool then find_start pts tol es t else Ok i
  end.
(* the loop over ncoll, lines 93-96.  Once every edge has been tried the loop goes round again
   with the same answers, for ever. *)
Fixpoint count_coll (pts : list Q) (tol : Q) (es : list (Z * Z)) (fuel iedge1 ncoll : nat) : res nat :=
  match fuel with
  | O => Hang
  | S fuel =>
      do e <- get es iedge1; do e' <- get es ((iedge1 + ncoll + 1) mod length es);
      do c <- collinear_at pts tol (fst e) (snd e) (snd e');
      if c : bool then count_coll pts tol es fuel iedge1 (S ncoll) else Ok ncoll
  end.
(* the walk, lines 90-102; every round walks at least one edge *)
Fixpoint merge_edges (pts : list Q) (tol : Q) (es : list (Z * Z)) (fuel istart nwalked : nat) (acc : list (list nat)) : res (list (list nat)) :=
  if nwalked <? length es then
    match fuel with
    | O => Hang
    | S fuel =>
        let iedge1 := (istart + nwalked) mod length es in
        do ncoll <- count_coll pts tol es (length es) iedge1 0;
        do e1 <- get es iedge1; do e2 <- get es ((iedge1 + ncoll) mod length es);
        merge_edges pts tol es fuel istart (nwalked + (ncoll + 1)) (acc ++ [[Z.to_nat (fst e1); Z.to_nat (snd e2)]])
    end
  else Ok acc.

(* the mask, lines 106-115: -1, then 1 for used points, then their new numbers *)
Definition used_mask (n : nat) (facets : list (list nat)) : res (list Z) :=
  mfold (fun mask f => mfold (fun mask k => set mask k 1%Z) f mask) facets (repeat (-1)%Z n).
Definition number_mask (mask : list Z) : res (list Z * nat) :=
  mfold (fun '(mask, n) i => do m <- get mask i; if (m =? 1)%Z then do mask <- set mask i (Z.of_nat n); Ok (mask, S n) else Ok (mask, n))
    (seq 0 (length mask)) (mask, 0).
(* lines 116-122, in place; a negative position would be written before the array *)
Definition compact (mask : list Z) (pts : list Q) : res (list Q) :=
  mfold (fun pts i =>
      do m <- get mask i;
      if negb (m =? -1)%Z then
        do _ <- assert (m <=? Z.of_nat i)%Z;
        if (m <? 0)%Z then UB else
        do x <- get pts (2 * i); do pts <- set pts (2 * Z.to_nat m) x;
        do y <- get pts (2 * i + 1); set pts (2 * Z.to_nat m + 1) y
      else Ok pts) (seq 0 (length mask)) pts.
(* lines 124-130 *)
Definition renumber (mask : list Z) (facets : list (list nat)) : res (list (list nat)) :=
  mmap (fun f => mmap (fun k => do m <- get mask k; do _ <- assert (negb (m =? -1)%Z); Ok (Z.to_nat m)) f) facets.

(* simplifyPLCfacets<2>, lines 25-134: the points and facets of the result, which never has holes *)
Definition simplify2 (key : keyty) (facets : list (list nat)) (points xmin xmax : list Q) (tol : Q) : res (list Q * list (list nat)) :=
  do (pts, old2new) <- uniquePoints key 2 points xmin xmax tol;
  let n := length facets in
  do inputEdges <- mmap (input_edge old2new) facets;
  do (_, inputEdges, order) <- computeSortedFaceEdges inputEdges;
  do _ <- assert (length inputEdges =? n);
  do es <- mmap (fun i => do j <- get order i; directed inputEdges j) (seq 0 n);
  do istart <- find_start pts tol es (seq 0 n);
  do merged <- merge_edges pts tol es n istart 0 [];
  do _ <- assert (2 <? length merged);
  do mask <- used_mask (length pts / 2) merged;
  do (mask, k) <- number_mask mask;
  do pts <- compact mask pts;
  do merged <- renumber mask merged;
  Ok (firstn (2 * k) pts, merged).
