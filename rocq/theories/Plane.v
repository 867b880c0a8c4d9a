(* Plane and space geometry over exact rational coordinates, used to say what the geometric
   routines should compute. *)
From Verif Require Import Base PLCSpec.
From Coq Require Import QArith Lqa Permutation.
Local Open Scope Q_scope.

Notation p2 := (Q * Q)%type.
Notation p3 := (Q * Q * Q)%type.

Definition sumf {A} (f : A -> Q) (l : list A) : Q := fold_right (fun a s => f a + s) 0 l.

(* twice the signed area of abc: positive when the turn a, b, c is to the left *)
Definition orient (a b c : p2) : Q := (fst b - fst a) * (snd c - snd a) - (snd b - snd a) * (fst c - fst a).
Definition det3 (a b c : p3) : Q :=
  let '(ax, ay, az) := a in let '(bx, by_, bz) := b in let '(cx, cy, cz) := c in
  ax * (by_ * cz - bz * cy) - ay * (bx * cz - bz * cx) + az * (bx * cy - by_ * cx).
Definition sub3 (a b : p3) : p3 := let '(ax, ay, az) := a in let '(bx, by_, bz) := b in (ax - bx, ay - by_, az - bz).
(* six times the signed volume of abcd: positive when bcd turn left seen from outside *)
Definition vol6 (a b c d : p3) : Q := det3 (sub3 b a) (sub3 c a) (sub3 d a).
Definition X3 (p : p3) : Q := let '(x, _, _) := p in x.
Definition Y3 (p : p3) : Q := let '(_, y, _) := p in y.
Definition Z3 (p : p3) : Q := let '(_, _, z) := p in z.

(* two lists of directed edges with the same boundary content: equal up to order and to
   removing an edge together with its reverse *)
Inductive SameEdges {A} : list (A * A) -> list (A * A) -> Prop :=
| se_perm l l' : Permutation l l' -> SameEdges l l'
| se_cancel a b l : SameEdges ((a, b) :: (b, a) :: l) l
| se_sym l l' : SameEdges l l' -> SameEdges l' l
| se_trans l1 l2 l3 : SameEdges l1 l2 -> SameEdges l2 l3 -> SameEdges l1 l3.
(* the same for oriented triangles, which may start at any corner *)
Inductive SameTriangles {A} : list (A * A * A) -> list (A * A * A) -> Prop :=
| st_perm l l' : Permutation l l' -> SameTriangles l l'
| st_turn a b c l : SameTriangles ((a, b, c) :: l) ((b, c, a) :: l)
| st_cancel a b c l : SameTriangles ((a, b, c) :: (b, a, c) :: l) l
| st_sym l l' : SameTriangles l l' -> SameTriangles l' l
| st_trans l1 l2 l3 : SameTriangles l1 l2 -> SameTriangles l2 l3 -> SameTriangles l1 l3.

Definition tri_edges {A} (t : A * A * A) : list (A * A) := let '(a, b, c) := t in [(a, b); (b, c); (c, a)].
(* the faces of a tetrahedron, outward when its signed volume is positive *)
Definition tet_faces {A} (t : A * A * A * A) : list (A * A * A) :=
  let '(a, b, c, d) := t in [(b, c, d); (a, d, c); (a, b, d); (a, c, b)].

(* vertices of a strictly convex polygon in counter-clockwise order: every three of them, in
   order, turn left *)
Definition StrictlyConvex (ps : list p2) : Prop :=
  forall i j k a b c, (i < j < k)%nat -> nth_error ps i = Some a -> nth_error ps j = Some b -> nth_error ps k = Some c ->
    0 < orient a b c.
