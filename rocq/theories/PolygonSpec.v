(* What the queries of a polygon should answer. *)
From Verif Require Import Base SerializeModel PLCSpec Plane WithinSpec.
From Coq Require Import QArith.
Local Open Scope Q_scope.

(* the coordinates of the corners, one after the other *)
Definition coords (ps : list p2) : list Q := flat_map (fun p => [fst p; snd p]) ps.
(* edge number i of the polygon ps goes from corner i to corner i+1, the last one back to the
   first *)
Definition Edge (ps : list p2) (i : nat) (a b : p2) : Prop := nth_error (ring ps) i = Some (a, b).
Definition SamePoint (a b : p2) : Prop := fst a == fst b /\ snd a == snd b.
Definition OnEdge (p : p2) (e : p2 * p2) : Prop := exists t, 0 <= t <= 1 /\ SamePoint p (along (fst e) (snd e) t).
(* p is on an odd number of the edges *)
Definition OnOddly (p : p2) (es : list (p2 * p2)) : Prop :=
  exists cs, Forall2 (fun e c => c = true <-> OnEdge p e) es cs /\ Nat.odd (length (filter (fun c => c) cs)) = true.

Definition apart2 (a b : p2) : Q := (fst a - fst b) * (fst a - fst b) + (snd a - snd b) * (snd a - snd b).
(* q is a point of the edge from a to b, and no point of it is nearer to p *)
Definition NearestOn (p a b q : p2) : Prop :=
  OnEdge q (a, b) /\ forall t, 0 <= t <= 1 -> apart2 p q <= apart2 p (along a b t).

(* the segment from s1 to s2 meets the edge from a to b at the fraction t of the segment, and is
   not parallel to it *)
Definition Meets (s1 s2 a b : p2) (t : Q) : Prop :=
  ~ (fst b - fst a) * (snd s2 - snd s1) == (snd b - snd a) * (fst s2 - fst s1) /\
  0 <= t <= 1 /\ OnEdge (along s1 s2 t) (a, b).
