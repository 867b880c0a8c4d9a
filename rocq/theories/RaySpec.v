(* What the segment, ray and betweenness tests should answer. *)
From Verif Require Import Base Plane WithinSpec HullSpec.
From Coq Require Import QArith Qabs.
Local Open Scope Q_scope.

Definition eq2 (p q : p2) : Prop := fst p == fst q /\ snd p == snd q.
Definition eq3 (p q : p3) : Prop := X3 p == X3 q /\ Y3 p == Y3 q /\ Z3 p == Z3 q.
(* the lines of two segments meet at fraction s of ab and u of cd *)
Definition Meet (a b c d : p2) (s u : Q) : Prop := eq2 (along a b s) (along c d u).
Definition Parallel (a b c d : p2) : Prop := (fst b - fst a) * (snd d - snd c) == (snd b - snd a) * (fst d - fst c).
Definition Within (lo x hi : Q) : Prop := lo <= x /\ x <= hi.
(* c and d are strictly on different sides of the line ab, and a and b of cd *)
Definition ProperCrossing (a b c d : p2) : Prop := orient a b c * orient a b d < 0 /\ orient c d a * orient c d b < 0.

Definition inner (u v : p3) : Q := X3 u * X3 v + Y3 u * Y3 v + Z3 u * Z3 v.
(* the point of the ray from p in direction n at parameter t *)
Definition ray_at (p n : p3) (t : Q) : p3 := (X3 p + t * X3 n, Y3 p + t * Y3 n, Z3 p + t * Z3 n).
Definition OnRay (p n r : p3) : Prop := exists t, 0 <= t /\ eq3 r (ray_at p n t).
Definition OnPlane (q m r : p3) : Prop := inner (sub3 r q) m == 0.
Definition InBox (lo hi p : p3) : Prop := Within (X3 lo) (X3 p) (X3 hi) /\ Within (Y3 lo) (Y3 p) (Y3 hi) /\ Within (Z3 lo) (Z3 p) (Z3 hi).
(* on side number id of the box *)
Definition OnSide (lo hi : p3) (id : Z) (p : p3) : Prop :=
  InBox lo hi p /\
  match id with
  | 0 => X3 p == X3 lo | 1 => X3 p == X3 hi
  | 2 => Y3 p == Y3 lo | 3 => Y3 p == Y3 hi
  | 4 => Z3 p == Z3 lo | 5 => Z3 p == Z3 hi
  | _ => False
  end%Z.
(* the ray is not taken to lie in a side parallel to it *)
Definition Clear (p n lo hi : p3) (tol : Q) (c : p3 -> Q) : Prop :=
  tol <= Qabs (c n) \/ (c n == 0 /\ tol <= Qabs (inner p (sub3 lo p)) /\ tol <= Qabs (inner p (sub3 hi p))).

(* points with any number of coordinates *)
Definition sq_dist (a b : list Q) : Q := sumf (fun e => (fst e - snd e) * (fst e - snd e)) (combine a b).
Definition pos_at (a b : list Q) (t : Q) : list Q := map (fun e => fst e + t * (snd e - fst e)) (combine a b).
Definition samepos (a b : list Q) : Prop := Forall2 Qeq a b.

(* two segments that are not parallel come within tol (as a fraction of their lengths) of each
   other's ends or cross *)
Definition Touch (tol : Q) (a b c d : p2) : Prop :=
  ~ Parallel a b c d /\ exists s u, Meet a b c d s u /\ Within (- tol) s (1 + tol) /\ Within (- tol) u (1 + tol).
(* r is the common point of the lines, or within tol (as a fraction of a segment's length) of it *)
Definition MeetsAt (tol : Q) (a b c d r : p2) : Prop :=
  exists s u, Meet a b c d s u /\ Within (- tol) s (1 + tol) /\ Within (- tol) u (1 + tol) /\
    (dist2 r (along a b s) <= tol * tol * dist2 a b \/ dist2 r (along c d u) <= tol * tol * dist2 c d).
(* every facet has two corners, stored in vs *)
Definition EdgesStored (vs : list Q) (fs : list (list Z)) : Prop := forall f, In f fs -> exists i j a b, f = [i; j] /\ pt_at vs i a /\ pt_at vs j b.
Definition EdgeIn (vs : list Q) (fs : list (list Z)) (a b : p2) : Prop := exists i j, In [i; j] fs /\ pt_at vs i a /\ pt_at vs j b.
