(* Model of the last step of Tessellator<2, RealType>::tessellate with a boundary,
   src/TessellatorInline.hh line 81: the mesh is snapped to the boundary.  Coordinates become real
   numbers here, since distances do. *)
From Coq Require Import Reals QArith Qreals.
From Verif Require Import Base SerializeModel MeshModel PLCModel NearModel BoxModel Plane TriModel ClipModel BoundedModel.
Local Open Scope nat_scope.

Definition real_mesh (m : mesh Q) : mesh R :=
  mkMesh (map Q2R (nodes m)) (cells m) (faces m) (boundaryNodes m) (boundaryFaces m) (faceCells m) (convexHull m) (neighborDomains m)
    (sharedNodes m) (sharedFaces m).
(* lines 53-82; deg is degeneracy() of the tessellator *)
Definition tessellate_bounded (big : Q) (tri_lib : list p2 -> list tri) (lib : polylib) (deg : Q) (points PLCpoints : list Q) (geometry : plc)
    (mesh : mesh Q) : res (MeshModel.mesh R) :=
  do m <- tessellate_clipped big tri_lib lib points PLCpoints geometry mesh;
  snapToBoundary (Q2R big) (real_mesh m) (map Q2R PLCpoints) geometry (Q2R deg).

(* tessellate(points, low, high, mesh), lines 34-48; the last step is tessellate in a ReducedPLC,
   lines 84-95 *)
Definition tessellate_box (big : Q) (tri_lib : list p2 -> list tri) (lib : polylib) (deg : Q) (points : list Q) (xl yl xh yh : Q)
    (mesh : mesh Q) : res (MeshModel.mesh R) :=
  do g <- box2 (mkRPLC [] [] []) xl yl xh yh;
  tessellate_bounded big tri_lib lib deg points (rpoints g) (mkPLC (rfacets g) (rholes g)) mesh.
