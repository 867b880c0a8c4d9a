(* When polygons can be snapped to a boundary. *)
From Coq Require Import Reals QArith Qreals.
From Verif Require Import Base SerializeModel MeshModel QuantMeshModel PLCSpec TriModel NearModel NearSpec ClipModel ClipSpec BoundedSpec.
Local Open Scope nat_scope.

(* where a point of the grid is *)
Definition place (f : frame) (q : pt) : R * R := (Q2R (fst (deq f q)), Q2R (snd (deq f q))).
(* an end of a side with a polygon on one side only *)
Definition OuterCorner (polys : list polygon) (q : pt) : Prop := exists s, OuterSide polys s /\ (q = fst s \/ q = snd s).

(* Every boundary point has its own outer corner of the polygons, nearer than tol, all other outer
   corners being further than tol from it, and every outer corner is nearer to the boundary than
   tol. *)
Record Fitting (f : frame) (v : list R) (g : plc) (tol : R) (polys : list polygon) (corner : nat -> pt) : Prop := {
  fi_corner : forall k c, point_at v k c -> OuterCorner polys (corner k) /\ (euclid (place f (corner k)) c < tol)%R;
  fi_apart : forall k c q, point_at v k c -> OuterCorner polys q -> q <> corner k -> (tol < euclid (place f q) c)%R;
  fi_inj : forall k k' c c', point_at v k c -> point_at v k' c' -> corner k = corner k' -> k = k';
  fi_near : forall q, OuterCorner polys q -> exists c, OnBoundary v g c /\ (euclid (place f q) c + slack < tol)%R }.
