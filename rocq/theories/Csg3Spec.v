(* What combining solids with flat facets should give. *)
From Verif Require Import Base Plane PLCSpec WithinSpec.
From Coq Require Import QArith.
Local Open Scope nat_scope.

(* a boundary in space: points, and facets given by the numbers of their corners *)
Definition corner (points : list Q) (k : nat) : p3 := (nth (3 * k) points 0%Q, nth (3 * k + 1) points 0%Q, nth (3 * k + 2) points 0%Q).
Definition ValidPLC3 (plc : list Q * list (list nat)) : Prop :=
  4 <= length (snd plc) /\
  forall f, In f (snd plc) -> 3 <= length f /\ forall k, In k f -> 3 * k + 3 <= length (fst plc).
(* the triangles its facets fan out into, and their corners *)
Definition fan3 (f : list p3) : list (p3 * p3 * p3) :=
  match f with [] => [] | a :: t => map (fun e => (a, fst e, snd e)) (combine t (tl t)) end.
Definition triangles (plc : list Q * list (list nat)) : list (p3 * p3 * p3) :=
  flat_map (fun f => fan3 (map (corner (fst plc)) f)) (snd plc).
Definition corners3 (t : p3 * p3 * p3) : list p3 := [fst (fst t); snd (fst t); snd t].

(* a convex solid: beyond t v is positive when v is on the outer side of the triangle t.  A corner
   is on the plane of a triangle or clearly below it, and no triangle has all corners on its plane *)
Record Solid (eps : Q) (plc : list Q * list (list nat)) : Prop := {
  so_valid : ValidPLC3 plc;
  so_room : forall t t' v, In t (triangles plc) -> In t' (triangles plc) -> In v (corners3 t') ->
    (beyond t v == 0 \/ beyond t v < - eps)%Q;
  so_full : forall t, In t (triangles plc) -> exists t' v, In t' (triangles plc) /\ In v (corners3 t') /\ (beyond t v < - eps)%Q }.

(* on the surface, outside and strictly inside; clearly off the planes of the triangles *)
Definition OnSurface (plc : list Q * list (list nat)) (x : p3) : Prop :=
  exists t, In t (triangles plc) /\ Combination3 (corners3 t) x.
Definition Outside (plc : list Q * list (list nat)) (x : p3) : Prop := exists t, In t (triangles plc) /\ (0 < beyond t x)%Q.
Definition Inside3 (plc : list Q * list (list nat)) (x : p3) : Prop := forall t, In t (triangles plc) -> (beyond t x < 0)%Q.
Definition Clear (eps : Q) (plc : list Q * list (list nat)) (x : p3) : Prop :=
  forall t, In t (triangles plc) -> (eps < beyond t x \/ beyond t x < - eps)%Q.

(* the polygon p is a convex part of the triangle t, its corners in the same sense as those of t *)
Definition normal3 (t : p3 * p3 * p3) : p3 :=
  let u := sub3 (snd (fst t)) (fst (fst t)) in let v := sub3 (snd t) (fst (fst t)) in
  (Y3 u * Z3 v - Z3 u * Y3 v, Z3 u * X3 v - X3 u * Z3 v, X3 u * Y3 v - Y3 u * X3 v)%Q.
Definition turn (n a b c : p3) : Q := det3 n (sub3 b a) (sub3 c a).
Definition Turning (n : p3) (ps : list p3) : Prop :=
  forall i j k a b c, i < j < k -> nth_error ps i = Some a -> nth_error ps j = Some b -> nth_error ps k = Some c -> (0 < turn n a b c)%Q.
Definition PieceOf (t : p3 * p3 * p3) (p : list p3) : Prop :=
  3 <= length p /\ (forall v, In v p -> Combination3 (corners3 t) v) /\ Turning (normal3 t) p.
Definition reverse3 (t : p3 * p3 * p3) : p3 * p3 * p3 := (fst (fst t), snd t, snd (fst t)).
(* x is on one of the polygons *)
Definition Covers (ps : list (list p3)) (x : p3) : Prop := exists p, In p ps /\ Combination3 p x.
