(* What a planar convex hull should be, and the grid its points are rounded to. *)
From Verif Require Import Base Plane PLCSpec WithinSpec.
From Coq Require Import QArith ZArith.
Local Open Scope Q_scope.

(* the grid point with integer coordinates z *)
Definition grid (low : p2) (dx : Q) (z : Z * Z) : p2 := (fst low + dx * inject_Z (fst z), snd low + dx * inject_Z (snd z)).
(* every point is on the grid, at or above the corner low, at an int other than the largest *)
Definition OnGrid (pts : list p2) (low : p2) (dx : Q) (zs : list (Z * Z)) : Prop :=
  Forall2 (fun p z => fst p == fst (grid low dx z) /\ snd p == snd (grid low dx z) /\
    (0 <= fst z < 2 ^ 31 - 1)%Z /\ (0 <= snd z < 2 ^ 31 - 1)%Z) pts zs.
(* two grid points are the same or more than one step apart in some direction *)
Definition Apart (zs : list (Z * Z)) : Prop :=
  forall u v, In u zs -> In v zs -> u = v \/ (1 < Z.abs (fst u - fst v))%Z \/ (1 < Z.abs (snd u - snd v))%Z.

Definition dist2 (a b : p2) : Q := (fst a - fst b) * (fst a - fst b) + (snd a - snd b) * (snd a - snd b).
(* b and c are seen from a at an angle, up to sign, whose cosine is at most 1 - dx, neither
   nearer than the square root of dx *)
Definition Bent (dx : Q) (a b c : p2) : Prop :=
  dx <= 1 /\ dx <= dist2 a b /\ dx <= dist2 a c /\
  let d := (fst b - fst a) * (fst c - fst a) + (snd b - snd a) * (snd c - snd a) in
  d * d <= (1 - dx) * (1 - dx) * (dist2 a b * dist2 a c).
(* j is the first point at least dx away from point 0 *)
Definition FirstFar (pts : list p2) (dx : Q) (j : nat) : Prop :=
  exists p0 pj, nth_error pts 0 = Some p0 /\ nth_error pts j = Some pj /\ dx * dx <= dist2 p0 pj /\
    forall i p, (i < j)%nat -> nth_error pts i = Some p -> dist2 p0 p < dx * dx.
Definition SeenBent (pts : list p2) (dx : Q) : Prop :=
  exists j i p0 pj pi, FirstFar pts dx j /\ (j + 1 < length pts)%nat /\ (2 <= i)%nat /\
    nth_error pts 0 = Some p0 /\ nth_error pts j = Some pj /\ nth_error pts i = Some pi /\ Bent dx p0 pj pi.
(* all points on one line *)
Definition OnLine (pts : list p2) : Prop := forall a b c, In a pts -> In b pts -> In c pts -> orient a b c == 0.

(* the facets of a polygon through the points numbered vs *)
Definition polygon_facets (vs : list nat) : list (list Z) := map (fun e => [Z.of_nat (fst e); Z.of_nat (snd e)]) (ring vs).
(* the points of the list at the numbers vs *)
Definition Chosen {A} (pts : list A) (vs : list nat) (ps : list A) : Prop := Forall2 (fun i p => nth_error pts i = Some p) vs ps.
Definition IsHull (pts : list p2) (fs : list (list Z)) : Prop :=
  exists vs ps, fs = polygon_facets vs /\ Chosen pts vs ps /\ (3 <= length ps)%nat /\ StrictlyConvex ps /\ forall p, In p pts -> InPolygon p ps.
