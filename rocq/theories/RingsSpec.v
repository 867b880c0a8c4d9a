(* Boundaries and cells as rings of points. *)
From Verif Require Import Base SerializeModel Plane PLCSpec MeshModel PointModel.
From Coq Require Import QArith Qabs.
Local Open Scope Q_scope.

(* a ring is closed: its first point is its last *)
Definition looped {P} (ps : list P) : list P := ps ++ firstn 1 ps.
(* the facets go round through the points ps, one after the other *)
Definition Facet {P} (pts : list P) (f : list Z) (e : P * P) : Prop :=
  exists i j, f = [i; j] /\ (0 <= i)%Z /\ (0 <= j)%Z /\ nth_error pts (Z.to_nat i) = Some (fst e) /\ nth_error pts (Z.to_nat j) = Some (snd e).
Definition GoesRound {P} (pts : list P) (fs : list (list Z)) (ps : list P) : Prop := (3 <= length ps)%nat /\ Forall2 (Facet pts) fs (ring ps).

(* q is the node at which face z starts when it is walked in the direction of its sign: an entry
   below zero is ~z and is walked backwards *)
Definition StartsAt (m : mesh Q) (z : Z) (q : Q * Q) : Prop := exists a b,
  nth_error (faces m) (pid z) = Some [a; b] /\
  let k := if (z <? 0)%Z then b else a in nth_error (nodes m) (2 * k) = Some (fst q) /\ nth_error (nodes m) (2 * k + 1) = Some (snd q).
(* the grid has a 32 bit place for the position *)
Definition InGrid (low : Q * Q) (dx : Q) (q : Q * Q) : Prop :=
  fst low <= fst q /\ snd low <= snd q /\ (fst q - fst low) / dx < inject_Z (2 ^ 31 - 1) /\ (snd q - snd low) / dx < inject_Z (2 ^ 31 - 1).
(* the place p is at most half a spacing from q along each axis *)
Definition Placed (low : Q * Q) (dx : Q) (q : Q * Q) (p : point2) : Prop :=
  Qabs (real_of (px p) (fst low) dx - fst q) <= dx / 2 /\ Qabs (real_of (py p) (snd low) dx - snd q) <= dx / 2.
(* r is the points gs in order, closed if it is not yet, possibly turned round *)
Definition RingOf (gs r : list point2) : Prop := exists c,
  (c = looped gs \/ (c = gs /\ exists a t b, gs = a :: t ++ [b] /\ p2_eq a b = true)) /\ (r = c \/ r = rev c).
(* what correct does with three points or more *)
Definition CorrectsRings (correct : list point2 -> list point2) : Prop := forall gs, (3 <= length gs)%nat -> RingOf gs (correct gs).
