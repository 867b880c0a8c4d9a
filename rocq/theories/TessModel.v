(* Model of Tessellator<2, RealType>::tessellate(points, mesh) (src/TessellatorInline.hh) for
   TriangleTessellator.  The triangulation that the Triangle library computes is an input, as in
   TriModel.v. *)
From Coq Require Import QArith.
From Verif Require Import Base SerializeModel MeshModel QuantMeshModel BoxModel TriModel.
Local Open Scope nat_scope.

(* lines 11-32: the contract, lines 19-21; the quantized tessellation of the points with the points
   themselves as boundary, lines 24-25; fillTessellation, line 28; the boundary elements, line 31.
   big is numeric_limits<RealType>::max(), which computeBoundingBox starts from. *)
Definition tessellate_points (big : Q) (points : list Q) (tris : list tri) (mesh : mesh Q) : res (MeshModel.mesh Q) :=
  do _ <- assert (mesh_empty mesh);
  do _ <- assert (0 <? length points);
  do _ <- assert (length points mod 2 =? 0);
  do f <- boundary_frame big points;
  do (gens, guards) <- construct f points;
  do (ns, es, cs) <- tri_tessellate f (map fst gens) (map fst guards) tris;
  do m <- fill f (length gens) ns es cs mesh;
  do (bf, bn) <- findBoundaryElements m;
  Ok (mkMesh (nodes m) (cells m) (faces m) bn bf (faceCells m) (convexHull m) (neighborDomains m) (sharedNodes m) (sharedFaces m)).
