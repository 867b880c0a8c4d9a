(* What a tessellation in a boundary should be, given the polygons of its cells. *)
From Coq Require Import QArith Sorted.
From Verif Require Import Base SerializeModel MeshModel MeshSpec QuantMeshModel PLCSpec BoxProofs BoxProps Plane TriSpec TessSpec ClipModel ClipSpec.
Local Open Scope nat_scope.

Definition all_sides (polys : list polygon) : list (pt * pt) := flat_map sides polys.
(* every side has a length, and no two polygons go along a side in the same direction *)
Definition SideBySide (polys : list polygon) : Prop :=
  (forall s, In s (all_sides polys) -> fst s <> snd s) /\ NoDup (all_sides polys).
(* no polygon lies on the other side of s *)
Definition OuterSide (polys : list polygon) (s : pt * pt) : Prop := In s (all_sides polys) /\ ~ In (snd s, fst s) (all_sides polys).

(* the signed face z leads from one end of the side s to the other *)
Definition GoesAlong (f : frame) (m : mesh Q) (z : Z) (s : pt * pt) : Prop :=
  exists a b, walk m z = Some (a, b) /\ node_at 2 m a = dequantize f (fst s) /\ node_at 2 m b = dequantize f (snd s).

Record PolygonMesh (f : frame) (polys : list polygon) (m : mesh Q) : Prop := {
  pm_mesh : WellFormed 2 m;
  (* one cell per polygon, in order, going round the polygon *)
  pm_cells : length (cells m) = length polys;
  pm_walk : forall i c p, nth_error (cells m) i = Some c -> nth_error polys i = Some p -> Forall2 (GoesAlong f m) c (sides p);
  (* the nodes are the corners of the polygons, none twice *)
  pm_nodes : exists ns, NoDup ns /\ nodes m = flat_map (dequantize f) ns /\ forall q, In q ns <-> exists p, In p polys /\ In q p;
  (* no two faces have the same nodes *)
  pm_faces : forall k k' a b c d, nth_error (faces m) k = Some [a; b] -> nth_error (faces m) k' = Some [c; d] -> (a = c /\ b = d) \/ (a = d /\ b = c) -> k = k';
  (* boundary faces: those with one cell, those along an outer side; there are some *)
  pm_bfaces : forall k, In k (boundaryFaces m) <-> exists fc, nth_error (faceCells m) k = Some fc /\ length fc = 1;
  pm_outer : forall i c p j z s, nth_error (cells m) i = Some c -> nth_error polys i = Some p -> nth_error c j = Some z -> nth_error (sides p) j = Some s ->
     (In (pid z) (boundaryFaces m) <-> OuterSide polys s);
  pm_bnodes : forall n, In n (boundaryNodes m) <-> exists k ns, In k (boundaryFaces m) /\ nth_error (faces m) k = Some ns /\ In n ns;
  pm_sorted : StronglySorted lt (boundaryFaces m) /\ StronglySorted lt (boundaryNodes m) }.
