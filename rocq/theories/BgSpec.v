(* What the operations on planar regions should give. *)
From Verif Require Import Base SerializeModel PLCSpec Plane WithinSpec BgModel.
From Coq Require Import QArith.
Local Open Scope Q_scope.

(* The sides of a boundary: one for each facet of the outside and of the holes, whose numbers name
   the ends. *)
Definition Side (pts : list Q) (f : list Z) (e : p2 * p2) : Prop :=
  exists i j, f = [i; j] /\ pt_at pts i (fst e) /\ pt_at pts j (snd e).
Definition Sides (r : rplc Q) (es : list (p2 * p2)) : Prop := Forall2 (Side (rpoints r)) (rfacets r ++ concat (rholes r)) es.
(* q is inside the boundary: the ray to the right crosses an odd number of sides *)
Definition InsidePLC (r : rplc Q) (q : p2) : Prop := exists es, Sides r es /\ EvenOdd q es true.
(* q is on none of the sides *)
Definition OffSide (q : p2) (e : p2 * p2) : Prop := ~ exists t, 0 <= t <= 1 /\ fst q == fst (along (fst e) (snd e) t) /\ snd q == snd (along (fst e) (snd e) t).
Definition OffPLC (r : rplc Q) (q : p2) : Prop := exists es, Sides r es /\ Forall (OffSide q) es.
(* the facets go round one after the other through the points ps *)
Definition Loop (pts : list Q) (fs : list (list Z)) (ps : list p2) : Prop := (3 <= length ps)%nat /\ Forall2 (Side pts) fs (ring ps).
Definition Loops (r : rplc Q) : Prop :=
  (exists ps, Loop (rpoints r) (rfacets r) ps) /\ Forall (fun h => exists ps, Loop (rpoints r) h ps) (rholes r).

(* ---- the library ---- *)
(* sides and inside of a polygon made of closed rings *)
Definition steps (l : list p2) : list (p2 * p2) := combine l (tl l).
Definition psides (c : polygon) : list (p2 * p2) := flat_map steps (outer c :: inners c).
Definition Inside (c : polygon) (q : p2) : Prop := EvenOdd q (psides c) true.
Definition OffPolygon (c : polygon) (q : p2) : Prop := Forall (OffSide q) (psides c).
(* correct only turns rings round *)
Definition Turned (l l' : list p2) : Prop := l' = l \/ l' = rev l.
Definition Corrects (lib : library) : Prop := forall c, Turned (outer c) (outer (correct lib c)) /\ Forall2 Turned (inners c) (inners (correct lib c)).
(* c is the boundary r, with each ring in one of the two directions *)
Definition closed (ps : list p2) : list p2 := ps ++ firstn 1 ps.
Definition PolygonOf (r : rplc Q) (c : polygon) : Prop :=
  (exists ps, Loop (rpoints r) (rfacets r) ps /\ Turned (closed ps) (outer c)) /\
  Forall2 (fun h l => exists ps, Loop (rpoints r) h ps /\ Turned (closed ps) l) (rholes r) (inners c).
(* the polygons cs are what the operation f makes of a and b *)
Definition Combines (f : Prop -> Prop -> Prop) (a b : polygon) (cs : list polygon) : Prop :=
  forall q, OffPolygon a q -> OffPolygon b q -> Forall (fun c => OffPolygon c q) cs ->
    ((exists c, In c cs /\ Inside c q) <-> f (Inside a q) (Inside b q)).
(* rings as the library returns them: closed, with three sides or more *)
Definition GoodRing (l : list p2) : Prop := exists ps, (3 <= length ps)%nat /\ l = closed ps.
Definition GoodPolygon (lib : library) (c : polygon) : Prop := GoodRing (outer c) /\ Forall GoodRing (inners c) /\ self_intersects lib c = false.
(* p is in the closed region of c *)
Definition Touches (c : polygon) (p : p2) : Prop := Inside c p \/ ~ OffPolygon c p.
(* unique drops sides from a point to itself *)
Definition Uniques (lib : library) : Prop := forall c, GoodRing (outer c) -> inners c = [] ->
  GoodRing (outer (unique lib c)) /\ inners (unique lib c) = [] /\
  forall q, (Inside (unique lib c) q <-> Inside c q) /\ (OffPolygon (unique lib c) q <-> OffPolygon c q).
(* multi_union adds the polygon to the region and makes no new boundary *)
Definition Unites (lib : library) : Prop :=
  (forall cs p q, Forall (fun c => OffPolygon c q) cs -> OffPolygon p q ->
     Forall (fun c => OffPolygon c q) (multi_union lib cs p) /\
     ((exists c, In c (multi_union lib cs p) /\ Inside c q) <-> (exists c, In c cs /\ Inside c q) \/ Inside p q)) /\
  (forall cs p, Forall (fun c => GoodRing (outer c)) cs -> GoodRing (outer p) -> Forall (fun c => GoodRing (outer c)) (multi_union lib cs p)).
