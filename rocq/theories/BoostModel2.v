(* Model of the last step of Tessellator<2, RealType>::tessellate with a boundary,
   src/TessellatorInline.hh line 81, for BoostTessellator: the mesh is snapped to the boundary. *)
From Coq Require Import Reals QArith Qreals.
From Verif Require Import Base SerializeModel MeshModel QuantMeshModel PLCModel NearModel BoxModel Plane TriModel ClipModel BoundedModel BoundedModel2 BoostModel.
Local Open Scope nat_scope.

(* lines 53-82; deg is degeneracy() of the tessellator *)
Definition boost_bounded (big : Q) (vor_lib : list pt -> list vcell) (lib : polylib) (deg : Q) (points PLCpoints : list Q) (geometry : plc)
    (mesh : mesh Q) : res (MeshModel.mesh R) :=
  do m <- boost_clipped big vor_lib lib points PLCpoints geometry mesh;
  snapToBoundary (Q2R big) (real_mesh m) (map Q2R PLCpoints) geometry (Q2R deg).
