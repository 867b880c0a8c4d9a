(* What a convex hull in space is, for points with exact coordinates. *)
From Verif Require Import Base Plane.
From Coq Require Import QArith.
Local Open Scope Q_scope.

(* point number i *)
Definition at3 (ps : list p3) (i : nat) : p3 := nth i ps (0, 0, 0).
(* six times the volume of the tetrahedron of points i, j, k, l: negative when l is under the
   triangle i, j, k that is seen counter-clockwise from above *)
Definition Vol (ps : list p3) (i j k l : nat) : Q := vol6 (at3 ps i) (at3 ps j) (at3 ps k) (at3 ps l).
Definition ip (a b : p3) : Q := X3 a * X3 b + Y3 a * Y3 b + Z3 a * Z3 b.
(* the square of the distance of two points, and four times the square of the area of a
   triangle *)
Definition len2 (a b : p3) : Q := ip (sub3 b a) (sub3 b a).
Definition area2 (a b c : p3) : Q := len2 a b * len2 a c - ip (sub3 b a) (sub3 c a) * ip (sub3 b a) (sub3 c a).

Definition different (l : list nat) : Prop := NoDup l.

(* The points are not all in one plane, no three are in line, and a point that is not in the
   plane of three others is clearly off it: at a distance of at least 2e-8 times the number of
   points (1e-8 is the tolerance of the routine). *)
Record Separated (ps : list p3) : Prop := {
  sp_far : forall i j, (i < length ps)%nat -> (j < length ps)%nat -> different [i; j] ->
     1 # (10 ^ 200) <= len2 (at3 ps i) (at3 ps j);
  sp_line : forall i j k, (i < length ps)%nat -> (j < length ps)%nat -> (k < length ps)%nat -> different [i; j; k] ->
     1 # (10 ^ 200) <= area2 (at3 ps i) (at3 ps j) (at3 ps k);
  sp_plane : forall i j k l, (i < length ps)%nat -> (j < length ps)%nat -> (k < length ps)%nat -> (l < length ps)%nat ->
     different [i; j; k; l] -> Vol ps i j k l == 0 \/
     (inject_Z (Z.of_nat (2 * length ps)) * inject_Z (Z.of_nat (2 * length ps)) * (1 # (10 ^ 16))) * area2 (at3 ps i) (at3 ps j) (at3 ps k) <=
       Vol ps i j k l * Vol ps i j k l;
  sp_solid : exists i j k l, (i < length ps)%nat /\ (j < length ps)%nat /\ (k < length ps)%nat /\ (l < length ps)%nat /\
     ~ Vol ps i j k l == 0 }.

(* The triangles ts are the surface of the hull of the points: a closed surface, all of whose
   triangles have every point under them. *)
Record HullSurface (ps : list p3) (ts : list (nat * nat * nat)) : Prop := {
  hs_some : ts <> [];
  (* proper triangles between given points *)
  hs_proper : forall a b c, In (a, b, c) ts -> (a < length ps)%nat /\ (b < length ps)%nat /\ (c < length ps)%nat /\ different [a; b; c];
  (* no point above the plane of a triangle, and some point strictly under it *)
  hs_under : forall a b c q, In (a, b, c) ts -> (q < length ps)%nat -> Vol ps a b c q <= 0;
  hs_solid : forall a b c, In (a, b, c) ts -> exists q, (q < length ps)%nat /\ Vol ps a b c q < 0;
  (* along every edge exactly two triangles meet, and they pass it in opposite directions *)
  hs_once : NoDup (flat_map tri_edges ts);
  hs_closed : forall a b, In (a, b) (flat_map tri_edges ts) -> In (b, a) (flat_map tri_edges ts) }.

(* the points of an array x0 y0 z0 x1 y1 z1 ... *)
Definition pts3 (coords : list Q) : list p3 :=
  map (fun i => (nth (3 * i) coords 0, nth (3 * i + 1) coords 0, nth (3 * i + 2) coords 0)) (seq 0 (length coords / 3)).
Definition corners (t : nat * nat * nat) : list nat := let '(a, b, c) := t in [a; b; c].
