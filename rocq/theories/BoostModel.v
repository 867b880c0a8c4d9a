(* Model of BoostTessellator::tessellateQuantized (src/BoostTessellator.cc): how the Voronoi diagram
   that Boost.Polygon computes for the generators and the guards becomes a quantized tessellation, and
   of Tessellator<2, RealType>::tessellate (src/TessellatorInline.hh) for BoostTessellator.  The diagram
   itself (construct_voronoi, a call of the library) is an input.  The coordinates of its vertices
   are exact rationals in place of double. *)
From Coq Require Import QArith.
From Verif Require Import Base SerializeModel KeyMapModel MeshModel QuantMeshModel BoxModel Plane TriModel ClipModel.
Local Open Scope nat_scope.

(* A cell of the diagram: source_index(), contains_point(), and vertex0() and vertex1() of the edges
   met from incident_edge()->next() on until incident_edge() comes (lines 114-170); a vertex is
   missing when the edge is infinite.  The walk is empty when there is no incident edge. *)
Record vcell := mkVcell { v_src : nat; v_point : bool; v_walk : list (option p2 * option p2) }.

(* IntPoint p(v->x(), v->y()), lines 135 and 144: conversion from double to int, undefined outside
   the range of int *)
Definition int_pt (x : p2) : res pt :=
  let p := (trunc (fst x), trunc (snd x)) in
  if as_int (fst p) && as_int (snd p) then Ok p else UB.

(* lines 115-169, one edge; the message of lines 124-129 reads v1 when v0 is missing *)
Definition read_vedge (i : nat) (st : quant (keymap (K := Z * Z * nat))) (e : option p2 * option p2) : res (quant (keymap (K := Z * Z * nat))) :=
  match e with
  | (Some x, Some y) =>
      do p <- int_pt x;
      do q <- int_pt y;
      visit boost_node i st (p, q)
  | (None, None) => UB
  | _ => Abort
  end.
(* lines 99-171, one cell; sites are the generators and then the guards, with their index members
   (lines 69-70); without an incident edge line 116 follows a null pointer *)
Definition read_vcell (ngen : nat) (sites : list (pt * nat)) (st : quant (keymap (K := Z * Z * nat))) (c : vcell) : res (quant (keymap (K := Z * Z * nat))) :=
  do s <- get sites (v_src c);
  let i := snd s in
  if v_point c && (i <? ngen) then
    match v_walk c with
    | [] => UB
    | w => mfold (read_vedge i) w st
    end
  else Ok st.
(* lines 62-173 *)
Definition boost_tessellate (vor_lib : list pt -> list vcell) (gens guards : list (pt * nat)) : res (list pt * list (nat * nat) * list (list Z)) :=
  let sites := gens ++ guards in
  do st <- mfold (read_vcell (length gens) sites) (vor_lib (map fst sites)) (mkQuant [] [] [] [] (repeat [] (length gens)));
  Ok (qnodes st, qedges st, qcells st).

(* tessellate(points, mesh), TessellatorInline.hh lines 11-32, as in TessModel.v *)
Definition boost_points (big : Q) (vor_lib : list pt -> list vcell) (points : list Q) (mesh : mesh Q) : res (MeshModel.mesh Q) :=
  do _ <- assert (mesh_empty mesh);
  do _ <- assert (0 <? length points);
  do _ <- assert (length points mod 2 =? 0);
  do f <- boundary_frame big points;
  do (gens, guards) <- construct f points;
  do (ns, es, cs) <- boost_tessellate vor_lib gens guards;
  do m <- fill f (length gens) ns es cs mesh;
  do (bf, bn) <- findBoundaryElements m;
  Ok (mkMesh (nodes m) (cells m) (faces m) bn bf (faceCells m) (convexHull m) (neighborDomains m) (sharedNodes m) (sharedFaces m)).

(* tessellate(points, PLCpoints, geometry, mesh), lines 53-78, as in BoundedModel.v.  In the clipping
   the local generators are numbered anew (clipQuantizedTessellation2d.cc lines 287-288) and the
   guards keep their numbers. *)
Definition boost_clipped (big : Q) (vor_lib : list pt -> list vcell) (lib : polylib) (points PLCpoints : list Q) (geometry : plc)
    (mesh : mesh Q) : res (MeshModel.mesh Q) :=
  do _ <- assert (mesh_empty mesh);
  do _ <- assert (0 <? length points);
  do _ <- assert (length points mod 2 =? 0);
  do f <- boundary_frame big PLCpoints;
  do (gens, guards) <- construct f points;
  do (ns, es, cs) <- boost_tessellate vor_lib gens guards;
  let tessq := fun local => boost_tessellate vor_lib (combine local (seq 0 (length local))) guards in
  do (ns, es, cs) <- clip lib tessq f (map fst gens) ns es cs PLCpoints geometry;
  do m <- fill f (length gens) ns es cs mesh;
  do (bf, bn) <- findBoundaryElements m;
  Ok (mkMesh (nodes m) (cells m) (faces m) bn bf (faceCells m) (convexHull m) (neighborDomains m) (sharedNodes m) (sharedFaces m)).
