(* Model of Tessellator<2, RealType>::tessellate with a boundary (src/TessellatorInline.hh) for
   TriangleTessellator.  The triangulation that the Triangle library computes for a list of points
   and the polygon operations of Boost.Polygon are arguments. *)
From Coq Require Import QArith.
From Verif Require Import Base SerializeModel MeshModel QuantMeshModel BoxModel Plane TriModel ClipModel.
Local Open Scope nat_scope.

(* TriangleTessellator::tessellateQuantized on a quantized tessellation with these generators,
   src/TriangleTessellator.cc lines 350-476 *)
Definition tess_grid (tri_lib : list p2 -> list tri) (f : frame) (guards gens : list pt) : res (list pt * list (nat * nat) * list (list Z)) :=
  tri_tessellate f gens guards (tri_lib (map (deq f) (gens ++ guards))).

(* lines 53-78: the contract, lines 63-65; the quantized tessellation of the points in a frame around
   the boundary points, lines 68-69; the clipping, line 72; fillTessellation, line 75; the boundary
   elements, line 78; line 81 is in BoundedModel2.v.  big is numeric_limits<RealType>::max(), which computeBoundingBox starts
   from. *)
Definition tessellate_clipped (big : Q) (tri_lib : list p2 -> list tri) (lib : polylib) (points PLCpoints : list Q) (geometry : plc)
    (mesh : mesh Q) : res (MeshModel.mesh Q) :=
  do _ <- assert (mesh_empty mesh);
  do _ <- assert (0 <? length points);
  do _ <- assert (length points mod 2 =? 0);
  do f <- boundary_frame big PLCpoints;
  do (gens, guards) <- construct f points;
  let tessq := tess_grid tri_lib f (map fst guards) in
  do (ns, es, cs) <- tessq (map fst gens);
  do (ns, es, cs) <- clip lib tessq f (map fst gens) ns es cs PLCpoints geometry;
  do m <- fill f (length gens) ns es cs mesh;
  do (bf, bn) <- findBoundaryElements m;
  Ok (mkMesh (nodes m) (cells m) (faces m) bn bf (faceCells m) (convexHull m) (neighborDomains m) (sharedNodes m) (sharedFaces m)).
