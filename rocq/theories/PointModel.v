(* Model of the point types of src/Point.hh, of src/Segment.hh and of the comparators that the code
   hands to std::sort, std::set and std::map.  Coordinates are integers, as in IntPoint; distances
   are compared by their squares, exact rationals in place of double. *)
From Verif Require Import Base Plane MeshEditorModel HullModel VoroModel.
From Coq Require Import QArith Qabs.
Local Open Scope Z_scope.

(* Point2 and Point3, Point.hh lines 19-24 and 92-97: coordinates and index *)
Record point2 := mkP2 { px : Z; py : Z; pindex : nat }.
Record point3 := mkP3 { qx : Z; qy : Z; qz : Z; qindex : nat }.
(* operator==, lines 26 and 99: the index does not count *)
Definition p2_eq (a b : point2) : bool := (px a =? px b) && (py a =? py b).
Definition p3_eq (a b : point3) : bool := (qx a =? qx b) && (qy a =? qy b) && (qz a =? qz b).
(* operator<, lines 28-32 and 101-106 *)
Definition p2_lt (a b : point2) : bool :=
  if px a <? px b then true else if (px a =? px b) && (py a <? py b) then true else false.
Definition p3_lt (a b : point3) : bool :=
  if qx a <? qx b then true else if (qx a =? qx b) && (qy a <? qy b) then true
  else if (qx a =? qx b) && (qy a =? qy b) && (qz a <? qz b) then true else false.
(* Segment, Segment.hh lines 18-31 *)
Record segment := mkSeg { seg_a : point2; seg_b : point2 }.
Definition seg_eq (s t : segment) : bool := p2_eq (seg_a s) (seg_a t) && p2_eq (seg_b s) (seg_b t).
Definition seg_lt (s t : segment) : bool :=
  if p2_lt (seg_a s) (seg_a t) then true else if p2_eq (seg_a s) (seg_a t) && p2_lt (seg_b s) (seg_b t) then true else false.

(* edgeCompare, MeshEditor.hh lines 22-28, on pairs of int *)
Definition edge_compare (e1 e2 : Z * Z) : bool :=
  if fst e1 <? fst e2 then true else if (fst e1 =? fst e2) && (snd e1 <? snd e2) then true else false.
(* pairCompare, polytope_internal.hh lines 78-84 *)
Definition pair_compare (p q : Z * Z) : bool :=
  (fst p <? fst q) || ((fst p =? fst q) && (snd p <? snd q)).
(* ComparePairByFirstElement and ...BySecondElement, polytope_internal.hh lines 61-73 *)
Definition by_first {B} (p q : Z * B) : bool := fst p <? fst q.
Definition by_second {A} (p q : A * Z) : bool := snd p <? snd q.

(* _EdgePointComparator3d, PLC_CSG_3d.hh lines 414-421: nearer to the origin, by squares *)
Definition dist3 (a b : p3) : Q :=
  ((X3 a - X3 b) * (X3 a - X3 b) + (Y3 a - Y3 b) * (Y3 a - Y3 b) + (Z3 a - Z3 b) * (Z3 a - Z3 b))%Q.
Definition nearer_origin (coords : nat -> p3) (origin a b : nat) : bool :=
  Qlt_bool (dist3 (coords a) (coords origin)) (dist3 (coords b) (coords origin)).

(* FuzzyPoint2LessThan(fuzz), convexHull_2d.hh lines 25-36; p.x + fuzz is not modelled to overflow *)
Definition fuzzy_less (fuzz : Z) (a b : point2) : bool :=
  if px a + fuzz <? px b then true else if px b + fuzz <? px a then false
  else if py a + fuzz <? py b then true else if py b + fuzz <? py a then false else false.
(* PointComparator(fuzz), Point.hh lines 171-186; differences are not modelled to overflow *)
Definition comparator2 (fuzz : Z) (l r : point2) : bool :=
  if fuzz <? px r - px l then true
  else if (Z.abs (px r - px l) <=? fuzz) && (fuzz <? py r - py l) then true else false.
Definition comparator3 (fuzz : Z) (l r : point3) : bool :=
  if fuzz <? qx r - qx l then true
  else if (Z.abs (qx r - qx l) <=? fuzz) && (fuzz <? qy r - qy l) then true
  else if (Z.abs (qx r - qx l) <=? fuzz) && (Z.abs (qy r - qy l) <=? fuzz) && (fuzz <? qz r - qz l) then true else false.

(* Point2(xi, yi, xlow, ylow, dx, i) and Point3, lines 39-45 and 115-123; as_int is in VoroModel.v *)
Definition grid2 (x y xlow ylow dx : Q) (i : nat) : res point2 :=
  if Qeq_bool dx 0 then UB else
  do u <- as_int ((x - xlow) / dx + (1 # 2))%Q; do v <- as_int ((y - ylow) / dx + (1 # 2))%Q; Ok (mkP2 u v i).
Definition grid3 (x y z xlow ylow zlow dx : Q) (i : nat) : res point3 :=
  if Qeq_bool dx 0 then UB else
  do u <- as_int ((x - xlow) / dx + (1 # 2))%Q; do v <- as_int ((y - ylow) / dx + (1 # 2))%Q; do w <- as_int ((z - zlow) / dx + (1 # 2))%Q;
  Ok (mkP3 u v w i).
(* realx, realy, realz, lines 46-47 and 124-126 *)
Definition real_of (z : Z) (lo dx : Q) : Q := (inject_Z z * dx + lo)%Q.

(* operator+= and the like, lines 48-56: int arithmetic is undefined out of range *)
Definition fits_int (z : Z) : res Z := if ((- 2 ^ 31 <=? z) && (z <? 2 ^ 31)) then Ok z else UB.
Definition p2_op (op : Z -> Z -> Z) (a b : point2) : res point2 :=
  do x <- fits_int (op (px a) (px b)); do y <- fits_int (op (py a) (py b)); Ok (mkP2 x y (pindex a)).
Definition p2_add := p2_op Z.add.
Definition p2_sub := p2_op Z.sub.
(* unary minus, line 56: the index becomes 0 *)
Definition p2_neg (a : point2) : res point2 :=
  do x <- fits_int (- px a); do y <- fits_int (- py a); Ok (mkP2 x y 0).
