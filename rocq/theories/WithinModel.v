(* Model of the inside tests: pointInPolygon and pointOnPolygon
   (src/polytope_geometric_utilities.hh), within (src/within.hh), aboveBelow and computeNormal
   (polytope_geometric_utilities.hh), convexWithin (src/convexWithin.hh) and convexIntersect
   (src/convexIntersect.hh).  Coordinates are exact rationals. *)
From Verif Require Import Base SerializeModel MeshEditorModel Plane AreaModel.
From Coq Require Import QArith Qabs.
Local Open Scope Q_scope.

(* ---- polytope_geometric_utilities.hh ---- *)
(* vertices[2*i], vertices[2*i+1], where the pointer passed is &vs[2*base] *)
Definition vat (vs : list Q) (base i : nat) : res p2 :=
  do x <- get vs (2 * (base + i)); do y <- get vs (2 * (base + i) + 1); Ok (x, y).

(* the test of lines 535-539, with vi = vertex i and vj = vertex j; the division is only
   reached when the two heights differ *)
Definition crossing (p vi vj : p2) : bool :=
  xorb (Qlt_bool (snd p) (snd vi)) (Qlt_bool (snd p) (snd vj)) &&
  Qlt_bool (fst p) (fst vi + (fst vj - fst vi) * (snd p - snd vi) / (snd vj - snd vi)).
(* pointInPolygon, lines 527-544; the loop state is (j, result).  For n = 0 the initial j
   wraps around in the code but is not used. *)
Definition pip_step (p : p2) (n : nat) (vs : list Q) (base : nat) (st : nat * bool) (i : nat) : res (nat * bool) :=
  let '(j, result) := st in
  do _ <- assert ((i <? n) && (j <? n))%nat;
  do vi <- vat vs base i;
  do vj <- vat vs base j;
  Ok (i, if crossing p vi vj then negb result else result).
Definition pointInPolygon (p : p2) (n : nat) (vs : list Q) (base : nat) : res bool :=
  do (_, result) <- mfold (pip_step p n vs base) (seq 0 n) (n - 1, false)%nat;
  Ok result.

(* collinear<2> with tol = 1e-10, lines 426-444, written without square roots as in
   MeshEditorModel *)
Definition col2 (a b c : p2) : bool :=
  let tol := 1 # 10000000000 in
  let dot u v := fst u * fst v + snd u * snd v in
  let ab := (fst b - fst a, snd b - snd a) in
  let ac := (fst c - fst a, snd c - snd a) in
  if Qlt_bool (dot ab ab) tol || Qlt_bool (dot ac ac) tol then true
  else Qlt_bool ((1 - tol) * (1 - tol) * (dot ab ab * dot ac ac)) (dot ab ac * dot ab ac).
(* lines 559-563 *)
Definition on_edge (p vi vj : p2) : bool :=
  let le := Qle_bool in
  (le (fst vi) (fst p) || le (fst vj) (fst p)) && (le (fst p) (fst vi) || le (fst p) (fst vj)) &&
  (le (snd vi) (snd p) || le (snd vj) (snd p)) && (le (snd p) (snd vi) || le (snd p) (snd vj)) &&
  col2 vi vj p.
(* pointOnPolygon, lines 550-568; std::min(u, v) <= w is written u <= w || v <= w, and
   std::max(u, v) >= w likewise *)
Definition pop_step (p : p2) (n : nat) (vs : list Q) (base : nat) (result : bool) (i : nat) : res bool :=
  if result then Ok result
  else
    let j := ((i + 1) mod n)%nat in
    do _ <- assert ((i <? n) && (j <? n))%nat;
    do vi <- vat vs base i;
    do vj <- vat vs base j;
    Ok (on_edge p vi vj).
Definition pointOnPolygon (p : p2) (n : nat) (vs : list Q) (base : nat) : res bool :=
  mfold (pop_step p n vs base) (seq 0 n) false.

(* ---- within.hh ---- *)
(* WithinBoundaryFunctor<2>, lines 28-47: a negative first index wraps to a huge offset *)
Definition withinBoundary (p : p2) (vs : list Q) (fs : list (list Z)) : res nat :=
  let n := length fs in
  do f0 <- get fs 0;
  do z <- get f0 0;
  if (z <? 0)%Z then UB
  else
    do on <- pointOnPolygon p n vs (Z.to_nat z);
    do inb <- pointInPolygon p n vs (Z.to_nat z);
    Ok (if on then 2 else if inb && negb on then 1 else 0)%nat.
(* within, lines 62-84 *)
Definition hole_step (p : p2) (vs : list Q) (inHole : bool) (h : list (list Z)) : res bool :=
  if inHole then Ok inHole
  else do t <- withinBoundary p vs h; Ok (t =? 1)%nat.
Definition within (p : p2) (vs : list Q) (g : plc) : res bool :=
  do t <- withinBoundary p vs (facets g);
  do inHole <- mfold (hole_step p vs) (holes g) false;
  Ok ((0 <? t)%nat && negb inHole).

(* ---- aboveBelow and computeNormal, polytope_geometric_utilities.hh ---- *)
Definition sgnZ (x : Q) : Z := if Qlt_bool x 0 then (-1)%Z else if Qlt_bool 0 x then 1%Z else 0%Z.
(* lines 1488-1499; also compare in convexIntersect.hh lines 17-26 *)
Definition aboveBelow (l1 l2 p : p2) : Z :=
  (- sgnZ ((fst l2 - fst l1) * (snd p - snd l1) - (snd l2 - snd l1) * (fst p - fst l1)))%Z.
(* a flat array of coordinates read in pairs and in triples *)
Fixpoint pairs (l : list Q) : list p2 := match l with x :: y :: t => (x, y) :: pairs t | _ => [] end.
Fixpoint triples (l : list Q) : list p3 := match l with x :: y :: z :: t => (x, y, z) :: triples t | _ => [] end.
(* the common loop: the answer of the first point if all others agree, else 0 *)
Definition cloud {A} (f : A -> Z) (l : list A) : res Z :=
  match l with
  | [] => UB
  | p :: t => Ok (if forallb (fun q => (f p =? f q)%Z) t then f p else 0%Z)
  end.
(* lines 1523-1543; also compare in convexIntersect.hh lines 34-51 *)
Definition aboveBelow_cloud (l1 l2 : p2) (pts : list Q) : res Z :=
  do _ <- assert (length pts mod 2 =? 0)%nat;
  do _ <- assert (1 <? length pts)%nat;
  cloud (aboveBelow l1 l2) (pairs pts).
(* lines 1508-1516; also compare in convexIntersect.hh lines 58-66 *)
Definition aboveBelow3 (o n p : p3) : Z :=
  sgnZ (X3 n * (X3 p - X3 o) + Y3 n * (Y3 p - Y3 o) + Z3 n * (Z3 p - Z3 o)).
(* lines 1550-1567; also compare in convexIntersect.hh lines 72-89.  With two coordinates the
   assertions hold only for a multiple of three, so at least one point is read *)
Definition aboveBelow3_cloud (o n : p3) (pts : list Q) : res Z :=
  do _ <- assert (length pts mod 3 =? 0)%nat;
  do _ <- assert (1 <? length pts)%nat;
  cloud (aboveBelow3 o n) (triples pts).
(* computeNormal, lines 1572-1583 and convexIntersect.hh lines 94-104: the second product of
   nx uses dz_ac where the cross product has dy_ac *)
Definition computeNormal (a b c : p3) : p3 :=
  let '(abx, aby, abz) := sub3 b a in
  let '(acx, acy, acz) := sub3 c a in
  (aby * acz - abz * acz, abz * acx - abx * acz, abx * acy - aby * acx).

(* ---- convexWithin.hh ---- *)
(* i = facets[ifacet][k]; POLY_ASSERT(i < nv); then the coordinates of point i *)
Definition corner2 (pts : list Q) (nv : nat) (f : list Z) (k : nat) : res p2 :=
  do z <- get f k;
  do _ <- assert ((0 <=? z)%Z && (Z.to_nat z <? nv)%nat);
  do x <- get pts (2 * Z.to_nat z);
  do y <- get pts (2 * Z.to_nat z + 1);
  Ok (x, y).
Definition corner3 (pts : list Q) (nv : nat) (f : list Z) (k : nat) : res p3 :=
  do z <- get f k;
  do _ <- assert ((0 <=? z)%Z && (Z.to_nat z <? nv)%nat);
  do x <- get pts (3 * Z.to_nat z);
  do y <- get pts (3 * Z.to_nat z + 1);
  do w <- get pts (3 * Z.to_nat z + 2);
  Ok (x, y, w).
(* lines 18-41 *)
Definition convexWithin (a b : rplc Q) : res bool :=
  let nvb := (length (rpoints b) / 2)%nat in
  mfold (fun inside f =>
    if inside : bool then
      do p <- corner2 (rpoints b) nvb f 0;
      do q <- corner2 (rpoints b) nvb f 1;
      do s <- aboveBelow_cloud p q (rpoints a);
      Ok (s =? -1)%Z
    else Ok inside) (rfacets b) true.
(* lines 46-74; nvb is points.size()/2, which only weakens the assertions *)
Definition convexWithin3 (a b : rplc Q) : res bool :=
  let nvb := (length (rpoints b) / 2)%nat in
  mfold (fun inside f =>
    if inside : bool then
      do p <- corner3 (rpoints b) nvb f 0;
      do q <- corner3 (rpoints b) nvb f 1;
      do r <- corner3 (rpoints b) nvb f 2;
      do s <- aboveBelow3_cloud p (computeNormal p q r) (rpoints a);
      Ok (s =? -1)%Z
    else Ok inside) (rfacets b) true.

(* ---- convexIntersect.hh ---- *)
(* lines 139-152 (and 155-168): is b wholly beyond some facet of a? *)
Definition excludes (a b : rplc Q) : res bool :=
  let nva := (length (rpoints a) / 2)%nat in
  mfold (fun outside f =>
    if outside : bool then Ok outside
    else
      do p <- corner2 (rpoints a) nva f 0;
      do q <- corner2 (rpoints a) nva f 1;
      do s <- aboveBelow_cloud p q (rpoints b);
      Ok (s =? 1)%Z) (rfacets a) false.
(* lines 126-172 *)
Definition convexIntersect (a b : rplc Q) : res bool :=
  do o <- excludes a b;
  if o then Ok false else do o' <- excludes b a; Ok (negb o').

(* lines 192-210 (and 213-231) *)
Definition excludes3 (a b : rplc Q) : res bool :=
  let nva := (length (rpoints a) / 3)%nat in
  mfold (fun outside f =>
    if outside : bool then Ok outside
    else
      do p <- corner3 (rpoints a) nva f 0;
      do q <- corner3 (rpoints a) nva f 1;
      do r <- corner3 (rpoints a) nva f 2;
      do s <- aboveBelow3_cloud p (computeNormal p q r) (rpoints b);
      Ok (s =? 1)%Z) (rfacets a) false.
(* hashEdge, lines 109-113; the set of edges, lines 234-250, in the order of std::pair<int,int> *)
Definition hashEdge (i j : Z) : res (Z * Z) :=
  do _ <- assert (negb (i =? j)%Z); Ok (if (i <? j)%Z then (i, j) else (j, i)).
Definition zz_lt (a b : Z * Z) : bool := (fst a <? fst b)%Z || ((fst a =? fst b)%Z && (snd a <? snd b)%Z).
Fixpoint zz_insert (e : Z * Z) (l : list (Z * Z)) : list (Z * Z) :=
  match l with
  | [] => [e]
  | h :: t => if zz_lt e h then e :: l else if zz_lt h e then h :: zz_insert e t else l
  end.
Definition facet_pairs (f : list Z) : list (Z * Z) :=
  map (fun i => (nth i f 0%Z, nth ((i + 1) mod length f)%nat f 0%Z)) (seq 0 (length f)).
Definition edge_set (fs : list (list Z)) : res (list (Z * Z)) :=
  mfold (fun s e => do h <- hashEdge (fst e) (snd e); Ok (zz_insert h s)) (flat_map facet_pairs fs) [].
(* &points[3*i] with i an int converted to unsigned *)
Definition at3 (pts : list Q) (z : Z) : res p3 :=
  if (z <? 0)%Z then UB
  else do x <- get pts (3 * Z.to_nat z); do y <- get pts (3 * Z.to_nat z + 1); do w <- get pts (3 * Z.to_nat z + 2); Ok (x, y, w).
(* the body of lines 257-279: true when this pair of edges separates.  i and j are the first
   nodes of the two edges, and the normal is taken from their positions *)
Definition edge_pair (a b : rplc Q) (i j : Z) : res bool :=
  do pa <- at3 (rpoints a) i;
  do pb <- at3 (rpoints b) j;
  let n := computeNormal (0, 0, 0) pa pb in
  do sidea <- aboveBelow3_cloud pa n (rpoints a);
  if (sidea =? 0)%Z then Ok false
  else
    do sideb <- aboveBelow3_cloud pa n (rpoints b);
    if (sideb =? 0)%Z then Ok false
    else Ok (sidea * sideb <? 0)%Z.
(* lines 178-284 *)
Definition convexIntersect3 (a b : rplc Q) : res bool :=
  do o <- excludes3 a b;
  if o then Ok false
  else
    do o' <- excludes3 b a;
    if o' then Ok false
    else
      do ea <- edge_set (rfacets a);
      do eb <- edge_set (rfacets b);
      do sep <- mfold (fun out p => if out : bool then Ok out else edge_pair a b (fst (fst p)) (fst (snd p)))
        (flat_map (fun x => map (fun y => (x, y)) eb) ea) false;
      Ok (negb sep).
