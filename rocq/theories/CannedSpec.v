(* What the ready made geometries should be. *)
From Coq Require Import Reals.
From Verif Require Import Base SerializeModel MeshModel NearSpec.
Local Open Scope R_scope.

(* twice the area of the triangle abc, positive if it turns counterclockwise *)
Definition turn (a b c : R * R) : R := (fst b - fst a) * (snd c - snd a) - (snd b - snd a) * (fst c - fst a).
Definition point3_at (v : list R) (i : nat) (q : R * R * R) : Prop :=
  let '(x, y, z) := q in nth_error v (3 * i) = Some x /\ nth_error v (3 * i + 1) = Some y /\ nth_error v (3 * i + 2) = Some z.
Definition euclid3 (a b : R * R * R) : R :=
  let '(ax, ay, az) := a in let '(bx, by_, bz) := b in sqrt ((ax - bx) ^ 2 + (ay - by_) ^ 2 + (az - bz) ^ 2).

(* A regular polygon with n corners on the circle: facet k goes from corner k to the next one, any
   three corners turn counterclockwise, all facets have the same length and the same distance from
   the center, which is to the left of all of them. *)
Record RegularPolygon (center : R * R) (radius : R) (n : nat) (r : rplc R) : Prop := {
  rp_size : length (rpoints r) = (2 * n)%nat;
  rp_facets : forall k, (k < n)%nat -> nth_error (rfacets r) k = Some [Z.of_nat k; Z.of_nat ((k + 1) mod n)];
  rp_count : length (rfacets r) = n;
  rp_holes : rholes r = [];
  rp_circle : forall k c, point_at (rpoints r) k c -> euclid c center = radius;
  rp_convex : forall i j k a b c, (i < j < k)%nat -> point_at (rpoints r) i a -> point_at (rpoints r) j b -> point_at (rpoints r) k c -> 0 < turn a b c;
  rp_side : forall k a b, point_at (rpoints r) k a -> point_at (rpoints r) ((k + 1) mod n) b ->
     euclid a b = 2 * radius * sin (PI / INR n) /\ turn a b center = euclid a b * (radius * cos (PI / INR n)) /\ 0 < turn a b center }.
