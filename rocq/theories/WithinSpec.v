(* What the inside tests should answer. *)
From Verif Require Import Base SerializeModel PLCSpec Plane.
From Coq Require Import QArith Permutation.
Local Open Scope Q_scope.

(* the polygon ps is stored in the flat array vs from vertex number base on *)
Definition StoredAt (vs : list Q) (base : nat) (ps : list p2) : Prop :=
  forall i p, nth_error ps i = Some p -> nth_error vs (2 * (base + i)) = Some (fst p) /\ nth_error vs (2 * (base + i) + 1) = Some (snd p).

(* the point of the segment from a to b at fraction t *)
Definition along (a b : p2) (t : Q) : p2 := (fst a + t * (fst b - fst a), snd a + t * (snd b - snd a)).
(* the ray from p in direction +x meets the edge; an end of the edge at the height of p counts
   as below it *)
Definition RayCrosses (p : p2) (e : p2 * p2) : Prop :=
  ((snd (fst e) <= snd p /\ snd p < snd (snd e)) \/ (snd (snd e) <= snd p /\ snd p < snd (fst e))) /\
  exists t, 0 <= t <= 1 /\ snd (along (fst e) (snd e) t) == snd p /\ fst p < fst (along (fst e) (snd e) t).
(* b says whether an odd number of edges are crossed *)
Definition EvenOdd (p : p2) (es : list (p2 * p2)) (b : bool) : Prop :=
  exists cs, Forall2 (fun e c => c = true <-> RayCrosses p e) es cs /\ b = Nat.odd (length (filter (fun c => c) cs)).

(* the query point moved by a tiny amount to the right and by a tinier one up *)
Definition nudge (p : p2) (eps : Q) : p2 := (fst p + eps, snd p + eps * eps).
Definition ForSmall (P : Q -> Prop) : Prop := exists d, 0 < d /\ forall eps, 0 < eps <= d -> P eps.

(* strictly inside / outside the closed triangle *)
Definition InTriangle (p : p2) (t : p2 * p2 * p2) : Prop :=
  let '(a, b, c) := t in
  (0 < orient a b p /\ 0 < orient b c p /\ 0 < orient c a p) \/ (orient a b p < 0 /\ orient b c p < 0 /\ orient c a p < 0).
Definition OffTriangle (p : p2) (t : p2 * p2 * p2) : Prop :=
  let '(a, b, c) := t in
  let s := orient a b c in s * orient a b p < 0 \/ s * orient b c p < 0 \/ s * orient c a p < 0.

(* strictly inside / outside a convex counter-clockwise polygon *)
Definition StrictlyInside (p : p2) (ps : list p2) : Prop := forall a b, In (a, b) (ring ps) -> 0 < orient a b p.
Definition StrictlyOutside (p : p2) (ps : list p2) : Prop := exists a b, In (a, b) (ring ps) /\ orient a b p < 0.
Definition OnBorder (p : p2) (ps : list p2) : Prop :=
  exists a b t, In (a, b) (ring ps) /\ 0 <= t <= 1 /\ fst p == fst (along a b t) /\ snd p == snd (along a b t).

(* the facets list the polygon ps consecutively: vertex number s + k at position k *)
Definition Consecutive (vs : list Q) (fs : list (list Z)) (ps : list p2) : Prop :=
  exists s, StoredAt vs s ps /\ length fs = length ps /\
    forall k f, nth_error fs k = Some f -> f = [Z.of_nat (s + k); Z.of_nat (s + (k + 1) mod length ps)%nat].

(* ---- convex polygons as reduced complexes ---- *)
Definition pt_at (pts : list Q) (z : Z) (p : p2) : Prop :=
  (0 <= z)%Z /\ nth_error pts (2 * Z.to_nat z) = Some (fst p) /\ nth_error pts (2 * Z.to_nat z + 1) = Some (snd p).
(* r holds the polygon ps: its points are the corners in any order, its facets the edges in
   any order *)
Definition HoldsPolygon (r : rplc Q) (ps : list p2) : Prop :=
  (exists qs, Permutation qs ps /\ rpoints r = flat_map (fun q => [fst q; snd q]) qs) /\
  exists es, Permutation es (ring ps) /\ Forall2 (fun f e => exists i j, f = [i; j] /\ pt_at (rpoints r) i (fst e) /\ pt_at (rpoints r) j (snd e)) (rfacets r) es.
(* in the closed polygon *)
Definition InPolygon (p : p2) (ps : list p2) : Prop := forall a b, In (a, b) (ring ps) -> 0 <= orient a b p.
(* a convex combination of the points ps *)
Definition Combination (ps : list p2) (p : p2) : Prop :=
  exists ws, length ws = length ps /\ (forall w, In w ws -> 0 <= w) /\ sumf (fun w => w) ws == 1 /\
    fst p == sumf (fun e => fst e * fst (snd e)) (combine ws ps) /\ snd p == sumf (fun e => fst e * snd (snd e)) (combine ws ps).

(* p is on the border up to the tolerance 1e-10 of the code: in the box of an edge, and within
   1e-5 of its first end or within an angle of 1e-5 (sine squared at most 2e-10) of it *)
Definition NearBorder (p : p2) (ps : list p2) : Prop :=
  exists a b, In (a, b) (ring ps) /\
    (fst a <= fst p <= fst b \/ fst b <= fst p <= fst a) /\ (snd a <= snd p <= snd b \/ snd b <= snd p <= snd a) /\
    let d2 u v := (fst u - fst v) * (fst u - fst v) + (snd u - snd v) * (snd u - snd v) in
    (d2 p a < 1 # 10000000000 \/ orient a b p * orient a b p <= (2 # 10000000000) * (d2 a b * d2 a p)).

(* ---- convex solids as reduced complexes: flat corners, facets of at least three corners ---- *)
Definition pt_at3 (pts : list Q) (z : Z) (p : p3) : Prop :=
  (0 <= z)%Z /\ nth_error pts (3 * Z.to_nat z) = Some (X3 p) /\ nth_error pts (3 * Z.to_nat z + 1) = Some (Y3 p) /\ nth_error pts (3 * Z.to_nat z + 2) = Some (Z3 p).
(* r's points are vs, and t lists the first three corners of each facet *)
Definition HoldsSolid (r : rplc Q) (vs : list p3) (ts : list (p3 * p3 * p3)) : Prop :=
  rpoints r = flat_map (fun v => [X3 v; Y3 v; Z3 v]) vs /\
  Forall2 (fun f t => exists i j k rest, f = i :: j :: k :: rest /\ pt_at3 (rpoints r) i (fst (fst t)) /\ pt_at3 (rpoints r) j (snd (fst t)) /\ pt_at3 (rpoints r) k (snd t)) (rfacets r) ts.
(* six times the signed volume of the tetrahedron over facet t: positive beyond an outward facet *)
Definition beyond (t : p3 * p3 * p3) (v : p3) : Q := vol6 (fst (fst t)) (snd (fst t)) (snd t) v.
(* no corner of the solid is beyond one of its facets *)
Definition Supporting (vs : list p3) (ts : list (p3 * p3 * p3)) : Prop := forall t v, In t ts -> In v vs -> beyond t v <= 0.
Definition Combination3 (vs : list p3) (x : p3) : Prop :=
  exists ws, length ws = length vs /\ (forall w, In w ws -> 0 <= w) /\ sumf (fun w => w) ws == 1 /\
    X3 x == sumf (fun e => fst e * X3 (snd e)) (combine ws vs) /\ Y3 x == sumf (fun e => fst e * Y3 (snd e)) (combine ws vs) /\ Z3 x == sumf (fun e => fst e * Z3 (snd e)) (combine ws vs).
(* facets for which the normal the code computes is the right one: the first edge is level, or
   the second rises as fast in y as in z *)
Definition HarmlessNormal (t : p3 * p3 * p3) : Prop :=
  let '(p, q, r) := t in (Z3 q - Z3 p) * ((Y3 r - Y3 p) - (Z3 r - Z3 p)) == 0.
