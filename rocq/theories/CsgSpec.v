(* What combining planar regions should give. *)
From Verif Require Import Base Plane PLCSpec WithinSpec SimplifySpec.
From Coq Require Import QArith Permutation.
Local Open Scope nat_scope.

(* the edges of a boundary: facets of two points each *)
Definition edge (points : list Q) (f : list nat) : p2 * p2 := (pos2 points (nth 0 f 0), pos2 points (nth 1 f 0)).
Definition edges_of (plc : list Q * list (list nat)) : list (p2 * p2) := map (edge (fst plc)) (snd plc).
Definition ValidPLC (plc : list Q * list (list nat)) : Prop :=
  forall f, In f (snd plc) -> exists a b, f = [a; b] /\ 2 * a + 2 <= length (fst plc) /\ 2 * b + 2 <= length (fst plc).
(* the facets of the plc are the sides of the polygon through ps, each in the direction of the
   polygon but in any order *)
Definition PolygonPLC (plc : list Q * list (list nat)) (ps : list p2) : Prop :=
  ValidPLC plc /\ Permutation (edges_of plc) (ring ps).

(* p is the point at t on the edge *)
Definition At (e : p2 * p2) (t : Q) (p : p2) : Prop :=
  (fst p == fst (along (fst e) (snd e) t) /\ snd p == snd (along (fst e) (snd e) t))%Q.
Definition OnEdge (e : p2 * p2) (p : p2) : Prop := exists t, (0 <= t <= 1)%Q /\ At e t p.
Definition Covered (es : list (p2 * p2)) (p : p2) : Prop := exists e, In e es /\ OnEdge e p.
(* e' is a part of e, in either direction, or in the direction of e *)
Definition Part (e' e : p2 * p2) : Prop :=
  exists t u, (0 <= t <= 1 /\ 0 <= u <= 1 /\ ~ t == u)%Q /\ At e t (fst e') /\ At e u (snd e').
Definition PartSame (e' e : p2 * p2) : Prop :=
  exists t u, (0 <= t <= 1 /\ 0 <= u <= 1 /\ t < u)%Q /\ At e t (fst e') /\ At e u (snd e').

(* in the closed region, or strictly inside it, of a convex polygon given counterclockwise *)
Definition In_ (ps : list p2) (p : p2) : Prop := forall e, In e (ring ps) -> (0 <= orient (fst e) (snd e) p)%Q.
Definition Strictly (ps : list p2) (p : p2) : Prop := forall e, In e (ring ps) -> (0 < orient (fst e) (snd e) p)%Q.

(* the boundaries of two regions are in general position: an end of an edge, and a point where an
   edge meets the line of an edge of the other region, is on that line or another, or more than
   eps off it, and no edge lies on the line of an edge of the other region *)
Definition Off (eps : Q) (p : p2) (l : p2 * p2) : Prop :=
  (orient (fst l) (snd l) p == 0 \/ eps < orient (fst l) (snd l) p \/ orient (fst l) (snd l) p < - eps)%Q.
Definition OnLine (e l : p2 * p2) : Prop := (orient (fst l) (snd l) (fst e) == 0 /\ orient (fst l) (snd l) (snd e) == 0)%Q.
Record Apart (eps : Q) (es ls : list (p2 * p2)) : Prop := {
  ap_line : forall e l, In e es -> In l ls -> ~ OnLine e l;
  ap_ends : forall e l, In e es -> In l ls -> Off eps (fst e) l /\ Off eps (snd e) l;
  ap_meet : forall e l l' p, In e es -> In l ls -> In l' ls -> OnEdge e p -> (orient (fst l) (snd l) p == 0)%Q -> Off eps p l' }.
(* a polygon of which every corner is clearly off every side it is not on *)
Definition Roomy (eps : Q) (ps : list p2) : Prop :=
  3 <= length ps /\ StrictlyConvex ps /\ forall l p, In l (ring ps) -> In p ps -> Off eps p l.
(* a polygon needs three sides *)
Definition Returns (es : list (p2 * p2)) (r : res (list Q * list (list nat))) : Prop :=
  (length es < 3 /\ r = Abort) \/ (3 <= length es /\ exists plc, r = Ok plc /\ ValidPLC plc /\ edges_of plc = es).
