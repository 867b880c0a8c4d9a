# Formal model of pbtoast/polytope in Rocq (Coq 8.16.1)

## Approach

* Every C++ routine is modelled as a total Gallina function, one definition per
  routine, in `rocq/theories/<Area>Model.v`, with a comment citing file and lines.
  Loops become structural recursion, folds, or fuelled recursion whose
  out-of-fuel outcome is a distinct error and is excluded by the theorems.
* Outcomes: `Ok v`, `Abort` (a `POLY_ASSERT` fails in a contract build), `UB`
  (out-of-range access, uninitialised read, double free, signed overflow, ...) and
  `Hang` (a loop that does not end).  Theorems about well-formed inputs prove `Ok`,
  i.e. also that no assertion fires and nothing is read or written out of range.
* `<Area>Spec.v` is the small independent specification, `<Area>Proofs*.v` the proofs,
  and `<Area>Props.v` states the theorems, derives them in a few lines, prints their
  assumptions and shows by `Example`s that their hypotheses can be met.
* Where the faithful model violates the English property, a theorem `..._refuted`
  proves so with a concrete witness; a guarded positive theorem (`..._partial`) says on
  which inputs it does hold.

## Numbers

* Indices: `nat` where unsigned, `Z` where signed (`~i` is `Z.lnot i`). The sizes are
  unbounded unless a property is about overflow; 32-bit wrap is explicit in the
  serializer (count stored in 32 bits), the hasher and the Morton code.
* Coordinates: the templates are instantiated with `double` and integer types.
  Coordinates are modelled by exact numbers (`Z` or `Q`, or `R` where square roots
  occur); rounding of `double` is **not** modelled.
* Distributed code: each rank is a program of sends, receives and local steps; theorems
  hold for every schedule (asynchronous sends, FIFO per sender, receiver and tag).

## Plan per property

| id | property | theories | what is modelled | how it is proved |
|----|----------|----------|------------------|------------------|
| C01 | Serialization round trip (proved) | Serialize* | the byte-level serializer, codec combinators mirroring the template specialisations | structural induction on the type; codec laws compose |
| C02 | Several values in one buffer (proved) | Serialize* | the byte-level serializer, codec combinators mirroring the template specialisations | structural induction on the type; codec laws compose |
| C03 | Truncated buffers are refused (proved) | Serialize* | the byte-level serializer, codec combinators mirroring the template specialisations | structural induction on the type; codec laws compose |
| C04 | Deserializing into a non-empty object (proved) | Serialize* | the byte-level serializer, codec combinators mirroring the template specialisations | structural induction on the type; codec laws compose |
| C05 | Dense unique numbering of keys (proved) | KeyMap* | addKeyToMap over any history, hashEdge | invariant by induction on the history |
| C06 | Edge hash identifies unordered pairs (proved) | KeyMap* | addKeyToMap over any history, hashEdge | invariant by induction on the history |
| C07 | Removing elements from an array (proved) | Array* | removeElements in-place compaction, bisectSearch | loop invariants, refinement to filter, measure for termination |
| C08 | Bisection search brackets the value (proved) | Array* | removeElements in-place compaction, bisectSearch | loop invariants, refinement to filter, measure for termination |
| C09 | Fuzzy point numbering (IntPointMap) (proved) | PointMap* | IntPointMap index and have on per-dimension sorted associations | invariant over histories; have in 3D refuted |
| C10 | IntPointMap::have answers membership (partial) | PointMap* | IntPointMap index and have on per-dimension sorted associations | invariant over histories; have in 3D refuted |
| C11 | Sorting the edges of a closed face (proved) | FaceSort* | computeSortedFaceEdges, computeSortedFaceNodes | walk invariant on a degree-2 connected edge set |
| C12 | Sorting the edges of a face with one gap (partial) | FaceSort* | computeSortedFaceEdges, computeSortedFaceNodes | walk invariant on a degree-2 connected edge set |
| C52 | Sorted face nodes (Triangle tessellator) (proved) | FaceSort* | computeSortedFaceEdges, computeSortedFaceNodes | walk invariant on a degree-2 connected edge set |
| C13 | Deleting cells keeps the surviving mesh intact (proved) | Mesh* | Tessellation, deleteCells, findBoundaryElements, node/cell incidence, clear, empty | refinement to filter and rename; induction on cells and faces; histories |
| C14 | Deleting cells leaves a well-formed mesh without orphans (proved) | Mesh* | Tessellation, deleteCells, findBoundaryElements, node/cell incidence, clear, empty | refinement to filter and rename; induction on cells and faces; histories |
| C15 | Deleting cells keeps the communication lists consistent (proved) | Mesh* | Tessellation, deleteCells, findBoundaryElements, node/cell incidence, clear, empty | refinement to filter and rename; induction on cells and faces; histories |
| C16 | Boundary lists after deleting cells (partial) | Mesh* | Tessellation, deleteCells, findBoundaryElements, node/cell incidence, clear, empty | refinement to filter and rename; induction on cells and faces; histories |
| C19 | Boundary detection is exact (proved) | Mesh* | Tessellation, deleteCells, findBoundaryElements, node/cell incidence, clear, empty | refinement to filter and rename; induction on cells and faces; histories |
| C20 | Node/cell incidence queries (proved) | Mesh* | Tessellation, deleteCells, findBoundaryElements, node/cell incidence, clear, empty | refinement to filter and rename; induction on cells and faces; histories |
| C21 | Clear and empty (proved) | Mesh* | Tessellation, deleteCells, findBoundaryElements, node/cell incidence, clear, empty | refinement to filter and rename; induction on cells and faces; histories |
| C17 | MeshEditor cell deletion agrees with deleteCells (partial) | MeshEditor* | MeshEditor masks, cleanMesh, flagEdgesForCleaning, cleanEdges | loop invariants; refuted in general, proved exactly when it works |
| C18 | Edge cleaning never collapses chains and preserves corners (proved) | MeshEditor* | MeshEditor masks, cleanMesh, flagEdgesForCleaning, cleanEdges | loop invariants; refuted in general, proved exactly when it works |
| C53 | Edge cleaning of solid meshes returns (partial) | MeshEditor* | MeshEditor masks, cleanMesh, flagEdgesForCleaning, cleanEdges | loop invariants; refuted in general, proved exactly when it works |
| C22 | Cell readout reproduces the Voronoi cells (proved) | QuantMesh* | Boost read-out, clipping read-out, fillTessellation, clean-up | fold invariants, C05 and C07 reused |
| C23 | Filling the floating tessellation (proved) | QuantMesh* | Boost read-out, clipping read-out, fillTessellation, clean-up | fold invariants, C05 and C07 reused |
| C24 | Dropping unused edges and nodes after clipping (proved) | QuantMesh* | Boost read-out, clipping read-out, fillTessellation, clean-up | fold invariants, C05 and C07 reused |
| C25 | Reducing a PLC to the points it uses (partial) | PLC* | ReducedPLC constructor, makeBoxPLC, plc_box, cells as PLCs | induction; computation on symbolic coordinates; holes refuted |
| C26 | Box boundaries are closed and counter-clockwise (proved) | PLC* | ReducedPLC constructor, makeBoxPLC, plc_box, cells as PLCs | induction; computation on symbolic coordinates; holes refuted |
| C54 | A cell expressed as a piecewise linear complex (proved) | PLC* | ReducedPLC constructor, makeBoxPLC, plc_box, cells as PLCs | induction; computation on symbolic coordinates; holes refuted |
| C27 | Bounding boxes are tight (proved) | Box* | bounding boxes, quantization of coordinates | induction, exact arithmetic |
| C28 | Quantize/dequantize error bound (proved) | Box* | bounding boxes, quantization of coordinates | induction, exact arithmetic |
| C29 | Hashing positions (partial) | Hash* | hashPosition, uniquePoints, Morton keys for any key type | bit lemmas; proved for 64 bit keys, refuted for the int the code uses |
| C30 | Merging duplicate points (partial) | Hash* | hashPosition, uniquePoints, Morton keys for any key type | bit lemmas; proved for 64 bit keys, refuted for the int the code uses |
| C31 | Morton keys interleave and separate points (partial) | Hash* | hashPosition, uniquePoints, Morton keys for any key type | bit lemmas; proved for 64 bit keys, refuted for the int the code uses |
| C32 | Nearest boundary point (proved) | Near* | nearestPoint, closest point on a segment, snapToBoundary | real arithmetic, fold of minima |
| C55 | Snapping a mesh to its boundary (proved) | Near* | nearestPoint, closest point on a segment, snapToBoundary | real arithmetic, fold of minima |
| C33 | Cell area and centroid (proved) | Plane*, Area* | areas, volumes, centroids, circumcenters | sums over triangles and tetrahedra, ring and nra |
| C56 | Circumcenters (proved) | Plane*, Area* | areas, volumes, centroids, circumcenters | sums over triangles and tetrahedra, ring and nra |
| C34 | Point in polygon (proved) | Within* | point in polygon, convex intersection and containment | crossing parity, separating lines, Helly's theorem |
| C35 | Convex polygon intersection test (proved) | Within* | point in polygon, convex intersection and containment | crossing parity, separating lines, Helly's theorem |
| C36 | Convex containment test (proved) | Within* | point in polygon, convex intersection and containment | crossing parity, separating lines, Helly's theorem |
| C57 | Convex solids: intersection and containment in 3D (partial) | Within* | point in polygon, convex intersection and containment | crossing parity, separating lines, Helly's theorem |
| C58 | Points in complexes with holes (partial) | Within* | point in polygon, convex intersection and containment | crossing parity, separating lines, Helly's theorem |
| C37 | Convex hull in 2D (partial) | Hull* | convexHull_2d with hashing | scan invariant; hull as combinations |
| C38 | Segment intersection and ray tests (partial) | Ray*, RayCircle* | segment intersection, rays, between, collinear clouds | exact case analysis; reals for circles |
| C59 | Betweenness and collinear clouds (partial) | Ray*, RayCircle* | segment intersection, rays, between, collinear clouds | exact case analysis; reals for circles |
| C60 | Crossings of a segment with a boundary (partial) | Ray*, RayCircle* | segment intersection, rays, between, collinear clouds | exact case analysis; reals for circles |
| C39 | Constructive solid geometry (partial) | Csg* | BSP trees of PLC_CSG_2d: split, build, clip, invert, union, intersect, subtract | refinement of point sets under splitting; induction on the chain a convex polygon builds |
| C40 | Simplifying PLC facets (partial) | Simplify* | simplifyPLCfacets in the plane | walk invariants, reuse of C11 and C30 |
| C41 | Ownership partition (proved) | Coll*, SerialDist* | broadcasts byte for byte, ownership, the lists of SerialDistributedTessellator | invariants over all ranks and splits |
| C42 | Serial distributed communication lists agree (proved) | Coll*, SerialDist* | broadcasts byte for byte, ownership, the lists of SerialDistributedTessellator | invariants over all ranks and splits |
| C43 | Owner-to-all node coordinate exchange (proved) | Mpi*, Exchange* | owner-to-all exchange as programs of sends and receives | confluence and progress over all schedules |
| C44 | Default distributed run without communication info (partial) | Dist* | DistributedTessellator: exchange of generators, pruning, communication lists | all schedules; sequential consistency of the exchange |
| C61 | Exchange of generators (proved) | Dist* | DistributedTessellator: exchange of generators, pruning, communication lists | all schedules; sequential consistency of the exchange |
| C62 | Local meshes of a distributed run (partial) | Dist* | DistributedTessellator: exchange of generators, pruning, communication lists | all schedules; sequential consistency of the exchange |
| C45 | All ranks agree on the mesh check verdict (partial) | Check* | checkDistributedTessellation | all ranks, all schedules, lexicographic minimum of the messages |
| C46 | Edge mask agreement between domains (partial) | EdgeMask* | parallel agreement on edge masks | all schedules; failure with two neighbors |
| C47 | Polygon class queries (partial) | Polygon* | the Polygon class | exact arithmetic, crossing parity |
| C64 | Point location in the Polygon class (proved) | Polygon* | the Polygon class | exact arithmetic, crossing parity |
| C65 | First edge met by a segment (proved) | Polygon* | the Polygon class | exact arithmetic, crossing parity |
| C48 | C interface: object life cycle (partial) | CTess* | C tessellations as a heap with malloc and free, conversion both ways | invariant over call histories |
| C63 | C interface: round trip of a tessellation (partial) | CTess* | C tessellations as a heap with malloc and free, conversion both ways | invariant over call histories |
| C49 | C interface: PLC building (proved) | CPlc* | the C interface to PLCs | invariant over call histories |
| C50 | Convex hull index maps (partial) | Hull3* | convexHull_3d with hashing and index maps | incremental hull invariant: closed, convex, all points under every facet |
| C66 | The convex hull in space is a closed surface around the points (partial) | Hull3* | convexHull_3d with hashing and index maps | incremental hull invariant: closed, convex, all points under every facet |
| C67 | Lists of neighbor domains (proved) | Neighbor* | computeDomainNeighbors: the hull of a rank, the points it shows, the broadcast of hulls, the two searches for neighbors | the broadcasts run in step; the searches are exact, the test of hulls is symmetric; Voronoi regions and convex combinations for visible points |
| C68 | The hull a rank sends to the others (partial) | Neighbor* | computeDomainNeighbors: the hull of a rank, the points it shows, the broadcast of hulls, the two searches for neighbors | the broadcasts run in step; the searches are exact, the test of hulls is symmetric; Voronoi regions and convex combinations for visible points |
| C69 | Domains whose cells touch are neighbors (partial) | Neighbor* | computeDomainNeighbors: the hull of a rank, the points it shows, the broadcast of hulls, the two searches for neighbors | the broadcasts run in step; the searches are exact, the test of hulls is symmetric; Voronoi regions and convex combinations for visible points |
| C70 | The Silo file of a planar mesh (proved) | Silo* | SiloWriter<2> and SiloWriter<3>: the objects put into a file as a list of named objects, tags and fields, and the names of files, blocks and multi-block entries in a parallel run; the Silo library itself is the contract that an object is read back as it was put | a reader for each kind of object (counts and pieces, named elements) recovers the mesh; induction over cells, fields and ranks; decimal numbers are injective |
| C71 | The Silo file of a spatial mesh (proved) | Silo* | SiloWriter<2> and SiloWriter<3>: the objects put into a file as a list of named objects, tags and fields, and the names of files, blocks and multi-block entries in a parallel run; the Silo library itself is the contract that an object is read back as it was put | a reader for each kind of object (counts and pieces, named elements) recovers the mesh; induction over cells, fields and ranks; decimal numbers are injective |
| C72 | Cell-face data and tags in a Silo file (partial) | Silo* | SiloWriter<2> and SiloWriter<3>: the objects put into a file as a list of named objects, tags and fields, and the names of files, blocks and multi-block entries in a parallel run; the Silo library itself is the contract that an object is read back as it was put | a reader for each kind of object (counts and pieces, named elements) recovers the mesh; induction over cells, fields and ranks; decimal numbers are injective |
| C73 | Fields in a Silo file (partial) | Silo* | SiloWriter<2> and SiloWriter<3>: the objects put into a file as a list of named objects, tags and fields, and the names of files, blocks and multi-block entries in a parallel run; the Silo library itself is the contract that an object is read back as it was put | a reader for each kind of object (counts and pieces, named elements) recovers the mesh; induction over cells, fields and ranks; decimal numbers are injective |
| C74 | Files of a parallel Silo dump (partial) | Silo* | SiloWriter<2> and SiloWriter<3>: the objects put into a file as a list of named objects, tags and fields, and the names of files, blocks and multi-block entries in a parallel run; the Silo library itself is the contract that an object is read back as it was put | a reader for each kind of object (counts and pieces, named elements) recovers the mesh; induction over cells, fields and ranks; decimal numbers are injective |
| C75 | The mesh is dual to the triangulation (proved) | Tri* | TriangleTessellator::tessellateQuantized after the call of the Triangle library: stars of triangles, nodes, rings of edges; the triangulation is an input | invariant of the reading loop, rings by C11; convex combinations of circumcenters: going round a generator, half planes of consecutive triangles cover all; guards bound the circumcircles |
| C76 | Cells are Voronoi cells (proved) | Tri* | TriangleTessellator::tessellateQuantized after the call of the Triangle library: stars of triangles, nodes, rings of edges; the triangulation is an input | invariant of the reading loop, rings by C11; convex combinations of circumcenters: going round a generator, half planes of consecutive triangles cover all; guards bound the circumcircles |
| C77 | The frame and its guards are wide enough (proved) | Tri* | TriangleTessellator::tessellateQuantized after the call of the Triangle library: stars of triangles, nodes, rings of edges; the triangulation is an input | invariant of the reading loop, rings by C11; convex combinations of circumcenters: going round a generator, half planes of consecutive triangles cover all; guards bound the circumcircles |
| C78 | Signs of faces (partial) | Tri* | TriangleTessellator::tessellateQuantized after the call of the Triangle library: stars of triangles, nodes, rings of edges; the triangulation is an input | invariant of the reading loop, rings by C11; convex combinations of circumcenters: going round a generator, half planes of consecutive triangles cover all; guards bound the circumcircles |
| C79 | Degenerate generators (partial) | Tri* | TriangleTessellator::tessellateQuantized after the call of the Triangle library: stars of triangles, nodes, rings of edges; the triangulation is an input | invariant of the reading loop, rings by C11; convex combinations of circumcenters: going round a generator, half planes of consecutive triangles cover all; guards bound the circumcircles |
| C80 | Tessellating points (proved) | Tess* | Tessellator<2>::tessellate(points, mesh) as a whole: frame, quantization, read-out, fillTessellation, boundary elements | composition of C77, C75, C76, C24 and C19; the guards leave a boundary face |
| C85 | Tessellating points by a Voronoi diagram (proved) | Boost* | BoostTessellator.cc with the Voronoi diagram as an argument; Tessellator<2>::tessellate for it, with and without a boundary, to the end | the read-out of C22 visits the sides of polygons; the corners of Voronoi cells truncated to the grid stay apart and make polygons side by side; then as C81 and C83 |
| C86 | Tessellating points by a Voronoi diagram in a boundary (proved) | Boost* | BoostTessellator.cc with the Voronoi diagram as an argument; Tessellator<2>::tessellate for it, with and without a boundary, to the end | the read-out of C22 visits the sides of polygons; the corners of Voronoi cells truncated to the grid stay apart and make polygons side by side; then as C81 and C83 |
| C87 | Every point gets a cell (partial) | Boost* | BoostTessellator.cc with the Voronoi diagram as an argument; Tessellator<2>::tessellate for it, with and without a boundary, to the end | the read-out of C22 visits the sides of polygons; the corners of Voronoi cells truncated to the grid stay apart and make polygons side by side; then as C81 and C83 |
| C88 | Snapping the tessellation made by a Voronoi diagram (proved) | Boost* | BoostTessellator.cc with the Voronoi diagram as an argument; Tessellator<2>::tessellate for it, with and without a boundary, to the end | the read-out of C22 visits the sides of polygons; the corners of Voronoi cells truncated to the grid stay apart and make polygons side by side; then as C81 and C83 |
| C83 | Snapping to the boundary (proved) | BoundedModel2 BoundedProps2 | Tessellator<2>::tessellate in a boundary and in a box, to the end | the outer corners of the polygons are the boundary nodes of the mesh, so that the theorem on snapToBoundary (C32) applies |
| C84 | Tessellating points in a box (proved) | BoundedModel2 BoundedProps2 | Tessellator<2>::tessellate in a boundary and in a box, to the end | the outer corners of the polygons are the boundary nodes of the mesh, so that the theorem on snapToBoundary (C32) applies |
| C81 | Tessellating points in a boundary (proved) | Clip* Bounded* | clipQuantizedTessellation2d.cc as a whole with Boost.Polygon as an argument; Tessellator<2>::tessellate in a boundary up to the boundary elements | the node map with cell lists simulates the read-out of C22-C24; polygons side by side give every edge one or two uses; every path through the adoption of pieces reaches the read before the first point |
| C82 | Pieces that the boundary cuts off (partial) | Clip* Bounded* | clipQuantizedTessellation2d.cc as a whole with Boost.Polygon as an argument; Tessellator<2>::tessellate in a boundary up to the boundary elements | the node map with cell lists simulates the read-out of C22-C24; polygons side by side give every edge one or two uses; every path through the adoption of pieces reaches the read before the first point |
| C89 | Circle boundary (proved) | Canned* | plc_circle, plc_sphere and plc_cylinder of polytope_plc_canned_geometries.hh over the real numbers | trigonometric identities; rows and places in a row differ by cos and by chords |
| C90 | Sphere and cylinder boundaries (partial) | Canned* | plc_circle, plc_sphere and plc_cylinder of polytope_plc_canned_geometries.hh over the real numbers | trigonometric identities; rows and places in a row differ by cos and by chords |
| C91 | Regions combined by Boost.Geometry (partial) | Bg* | PLC_Boost_2d.hh with Boost.Geometry as an argument: conversion to polygons and back, union, intersection, difference, clipping, union of many | parity of crossings does not depend on the direction of rings; fold invariants over pieces |
| C92 | Clipping by Boost.Geometry (partial) | Bg* | PLC_Boost_2d.hh with Boost.Geometry as an argument: conversion to polygons and back, union, intersection, difference, clipping, union of many | parity of crossings does not depend on the direction of rings; fold invariants over pieces |
| C93 | Union of many regions (partial) | Bg* | PLC_Boost_2d.hh with Boost.Geometry as an argument: conversion to polygons and back, union, intersection, difference, clipping, union of many | parity of crossings does not depend on the direction of rings; fold invariants over pieces |
| C94 | Combining solids in space (partial) | Csg3* | polygons, planes, the tree of planes (build, clip, invert, combine), the fan of triangles of each facet, and the way back to a ReducedPLC with hashed points | each cut of a flat convex polygon keeps all its points, induction over trees; the tree of a convex solid is a chain of its facet planes |
| C95 | Tessellating a box with Voro++ (partial) | Voro* | VoroPP_3d::tessellate after the cells are computed; the cells of Voro++ are an argument | the faces and cells of the mesh as a function of the list of sides read so far; induction over cells and faces |
| C96 | Simplifying the surface of a solid (partial) | Simp3* | simplifyPLCfacets in space: normals, gluing, outline, corners, direction, renumbering | invariants of the gluing loop; the sorted edges as a closed way; reuse of C11, C30, C40 |
| C97 | Tessellating points that may coincide (partial) | Degen* | tessellateDegenerate with the tessellators of C80, C81 | composition of C30 with C80 and C81 |
| C98 | Comparisons are orderings (partial) | Point* | comparison operators and comparator objects | case analysis; counterexamples with a tolerance |
| C99 | Points on an integer grid (partial) | Point* | integer points: construction from reals, reading back, arithmetic | rounding lemmas |
| C100 | C interface: fields and tags handed to the Silo writer (proved) | CSilo* | the C interface to the Silo writer: maps of fields and tags, vectors made and deleted | invariant of the maps, addresses of the vectors |
| C101 | C interface: fields and tags given back by the Silo reader (partial) | CSilo* | the C interface to the Silo reader: arrays of the caller | case analysis; refuted for two fields and for tags |
| C102 | Planar tessellation made with Voro++ (partial) | Voro2* | VoroPP_2d::tessellate after the cells are computed, with the hull of each cell; the cells of Voro++ and the set inside the hull are arguments | the hull lemma of C37 on integers; the faces and cells as a function of the list of edges read so far; induction over cells and edges |
| C103 | C interface: tessellating with a handle (partial) | Tessl* | the C interface to tessellators: handles, memory, tessellating, queries; the C++ tessellators are arguments | layout of the memory as invariant over histories, then C63; refuted for PLCs of the other dimension and for the name |
| C104 | Errors go to the handler set last (proved) | Err* | error, setErrorHandler, defaultErrorHandler and polytope_set_error_handler | invariant over histories of calls |
| C105 | An integer grid over points (partial) | QCoord* | QuantizedCoordinates | invariant over histories of calls |
| C106 | Cells of generators in a line (partial) | Line* | constructCells1d | loop invariant, then geometry in coordinates along and across the line |
| C107 | Where a segment meets a bounding box (partial) | BoxHit* | intersectBoundingBox | loop invariant |
| C108 | Boundaries and cells as rings on a grid (partial) | Rings* | constructBoostBoundary, convertTessellationToRings | induction over facets and faces |
| C109 | Cells of planar Voro++ (partial) | Cut* | voro_2d: nplane, nplane_cut, init, vertices, neighbors | linked corners as a ring (refinement), then convex geometry and induction over the cuts |
| C110 | Measures of a planar Voro++ cell (proved) | CellMeas* | voro_2d: area, centroid, max_radius_squared, plane_intersects | telescoping sums over the corners, induction |
| C111 | Planar containers of particles (proved) | Cont* | voro_2d: container_2d::put, put_remap, total_particles, c_loop_all_2d, step_int/mod/div | invariant over histories of puts, induction over the blocks visited |
| C51 | OFF file output (partial) | Off* | the OFF writer and a reader for the format | parse of print |

## Trusted base

* Coq's kernel (8.16.1), and `vm_compute` where a concrete case is evaluated.
* The correspondence between the C++ text and the Gallina definitions, cited definition
  by definition; the simplifications are said in the comments.
* What `Print Assumptions` lists under each theorem:
  * all theorems but those named next are *closed under the global context*;
  * C32, C55 (`Near*.v`), C83, C84 (`BoundedProps2.v`), C88 (`BoostProps2.v`), `degenerate_box_partial` of C97 (`DegenProps2.v`), C89, C90 (`CannedProps.v`), `ray_circle*` of C38 (`RayCircle*.v`) and C106 (`Line*.v`) use the real numbers of the
    standard library: `ClassicalDedekindReals.sig_forall_dec`,
    `ClassicalDedekindReals.sig_not_dec`,
    `FunctionalExtensionality.functional_extensionality_dep`.
* Importing `Reals` and `ssreflect` files of the standard library makes further library axioms
  visible to a scan of the loaded modules although no theorem uses them beyond the above:
  `Classical_Prop.classic`, the sealed constants of `Rdefinitions.RbaseSymbolsImpl` and
  `RinvImpl`, and the sealed module `Coq.ssr.ssrunder.Under_rel`.
* No axioms, `Parameter`s, functors or module types of our own, nothing admitted.

## What is and is not modelled

Modelled: `polytope_serialize.hh`, `polytope_internal.hh` (key maps, sorting of face edges and
nodes, assertions), `removeElements.hh`, `bisectSearch.hh`, `IntPointMap.hh`, `Point.hh`, `Segment.hh`, `MeshEditor.hh`, `Tessellation.hh`
(data, `clear`, `empty`, incidence queries, cells as PLCs), `deleteCells.hh`,
`findBoundaryElements.hh`, `MeshEditor.cc` (masks, edge cleaning, parallel mask agreement),
`QuantizedTessellation2d`, `BoostTessellator.cc` (the Voronoi diagram of Boost as an argument), `TriangleTessellator.cc` after the call of the library, `VoroPP_2d.cc` and `VoroPP_3d.cc` with the cells of Voro++ as an argument, `TessellatorInline.hh` (tessellate without a boundary, with one and in a box, tessellateDegenerate), `clipQuantizedTessellation2d.cc` (Boost.Polygon
as an argument), `PLC.hh`/`ReducedPLC.hh`, `makeBoxPLC.hh`, `polytope_plc_canned_geometries.hh`, bounding boxes and quantization,
`DimensionTraits.hh`, hashing and `mortonOrderIndices.hh`, `nearestPoint.hh`, `snapToBoundary.cc`,
areas, volumes, centroids, circumcenters, point location, `convexIntersect.hh`, `convexWithin.hh`,
`convexHull_2d.hh`, `convexHull_3d.hh`, `simplifyPLCfacets.hh`, `PLC_CSG_2d.hh`, `PLC_CSG_3d.hh`, `PLC_Boost_2d.hh` (Boost.Geometry as an argument), rays and segments,
`Polygon.hh`, `checkDistributedTessellation.hh`, `SerialDistributedTessellator.cc`,
`DistributedTessellator.cc`, `polytope_write_OOGL.hh`,
`SiloWriter_2d.cc`, `SiloWriter_3d.cc`, `SiloUtils`, the C interface to PLCs, tessellations,
tessellators and Silo files, `ErrorHandler.cc`, `QuantizedCoordinates.hh`.

Not modelled because it does not compile at this commit: `TetgenTessellator.cc` (it calls `hashFacet`, which is commented out) and
`QuantTessellation.hh` as used there (it assigns `infNodes` and `infFaces`, which `Tessellation` does not have).

Not modelled because nothing is computed: `QuantizedTessellation3d.cc` (its constructors always fail an assertion, "Implement 3D guard generators!") and
`clipQuantizedTessellation3d.cc` (one assertion that always fails), so a solid boundary is never clipped.

Not modelled: the vendored libraries (`voro_2d` but for the cutting of a cell and its area, centroid and radius in `cell_2d.cc` and for putting particles into a container and looping over them, `voro_3d`, `predicates.cc`, Triangle, Tetgen, Boost,
Silo, HDF5, MPI themselves), the Python bindings, rounding of `double`, memory exhaustion, and
`BoostOrphanage.cc`,
and the Silo readers, which do not compile at this commit.

## Where the code does not do what the property says

Each line is a theorem with a concrete witness, and the note of its property in MANIFEST.json.

* C04: `deserialize_into_nonempty_refuted`. Appending is proved; the finding is that a non-empty target is not overwritten.
* C05: `fuzzy_not_strict_weak_refuted`, `fuzzy_comparator_refuted`, `fuzzy_numbering_order_dependent_refuted`
* C06: `hashEdge_equal_aborts`
* C08: `bisectSearch_descending_refuted`. Ascending tables complete; finding: a value equal to an entry of a descending table aborts or reads table[-1].
* C09: `index_ambiguous_aborts`. Coordinates do not overflow IntType.
* C10: `have_3d_refuted`. 2D exact; in 3D only no-false-negatives holds, exactness is refuted (matchingIDs never narrowed).
* C101: `read_silo_refuted`, `read_tags_refuted`. Fields: right with at most one, undefined behaviour for every file with two or more (a pointer is followed outside the variable of the caller). Tags: read_tags_iff says exactly when they are right, which is by accident: the code goes over the fields in place of the tags.
* C102: `voro2_angle_refuted`, `voro2_overflow_refuted`, `voro2_default_refuted`, `voro2_shift_refuted`. Read-out of the cells of the library, given as an argument: proved for cells whose first vertex is the corner of an exact right angle on the grid, whose first edge is shorter than 46341 steps, and whose vertices are not next to one another in the grid. Without the right angle the hull is taken for a line and no mesh is made (voro2_angle_refuted), with a longer first edge the square overflows (voro2_overflow_refuted), with the default degeneracy cells become points (voro2_default_refuted). Vertices are at their place only when every generator is the centroid of its cell (voro2_shift_refuted).
* C103: `tessl_plc_refuted`, `tessl_name_refuted`. For every history of calls a handle that was not freed is its C++ tessellator (tessl_calls), memory is right (tessl_freed), and the C tessellation read back is the C++ one but for the convex hull and the second cells of C63 (tessl_result_partial). Refuted: a PLC object of the other dimension is undefined behaviour instead of an error, and the name is returned as a pointer into a destroyed string. An address is not used again after it was freed.
* C104: `error_null_stops`. State machine of the two static variables over all histories through both interfaces. Handlers are taken to return; a C handler sees the message up to its first NUL.
* C105: `coords_outer_stops`, `coords_changed_stops`, `coords_max_refuted`, `coords_plc_refuted`, `coords_space_refuted`, `coords_spacing_refuted`. Boxes, center and sphere over all histories (coords_hold), exactly when a grid is set up and what it is (coords_start), rounding (coords_round). Numbers up to coordMax and the PLC are proved for a grid that was just set up: growing takes in the origin, so numbers can exceed coordMax (coords_max_refuted), and leaves the PLC as it was (coords_plc_refuted); in space five facets of the PLC are never filled in (coords_space_refuted); a changed degeneracy does not change the spacing (coords_spacing_refuted). Points with one first coordinate stop the program. One process; projectPoint is C38.
* C106: `line_coincide_stops`, `line_single_refuted`. Proved for two or more generators no two of which are within 1e-100 of each other, over the reals. std::sort is an argument with its contract, and a function that meets it is given. A single generator makes the code read past the end of its list (line_single_refuted); generators that coincide stop the program (line_coincide_stops). The output vectors are taken to start empty.
* C107: `box_level_refuted`, `box_twice_refuted`. Every listed point is on its side where the segment meets it, sides are in order without repeats, the count is right, and the lists are empty exactly if no side is touched. A new point is compared with the last one through its height only (and that height less one), so a level segment loses one of its two points (box_level_refuted) and a diagonal lists a corner twice (box_twice_refuted); all touched sides are listed when the points differ in those numbers (box_complete_partial). Exact arithmetic.
* C108: `boundary_open_stops`, `boundary_order_refuted`, `cell_below_refuted`. Proved for facets given one after the other around the boundary and around each hole: the code takes the second point of each facet in turn, so facets in another order give a ring with other sides (boundary_order_refuted); a boundary that does not close stops the program. Rings of cells are proved for nodes at or above the corner of the grid that have a 32 bit place, given the contract of correct and that no ring meets itself; nodes below the corner get a wrong place (cell_below_refuted).
* C109: `cut_corner_refuted`. Proved in exact arithmetic for all sequences of cuts in which no corner is within the tolerance 1e-10 of a line that is about to cut. A line through a corner is violated by the code: it tests u3>tolerance where it means u3>-tolerance, and stores the corner a second time (cut_corner_refuted). Growth of the arrays and which particles voro_2d cuts with (the search over blocks) are not modelled.
* C111: `periodic_image_refuted`. In exact arithmetic, for particles whose block number fits an int. The upper sides are included for moved particles because step_int of a negative whole number is one too small: a particle a whole number of blocks below a periodic container ends on the upper side of its block, and possibly of the rectangle (periodic_image_refuted). Growth of the arrays of a block is not modelled.
* C12: `sorted_edges_open_aborts`, `sorted_edges_open_refuted`. Refuted for the code: the first entry is never flipped. Exact characterisation: correct when the loose end of the first end edge is its second node, aborts otherwise.
* C16: `deleteCells_boundary_refuted`. Refuted for the code: the boundary lists are handed over unrenumbered. Proved: with an all-ones mask the face list stays right, and recomputing with findBoundaryElements is always right.
* C17: `editor_deleteCells_overruns`, `editor_deleteCells_refuted`. Refuted for the code: newCells is indexed with old cell ids, so deleting any cell before a surviving one writes past the end. Proved exactly when it works (deletions at the end of the list).
* C19: `findBoundaryElements_closed_aborts`. A mesh with no boundary face aborts.
* C21: `empty_ignores_communication_refuted`. Finding: empty() ignores neighborDomains/sharedNodes/sharedFaces.
* C23: `fill_reused_refuted`. fillTessellation into an empty mesh; the refuted theorem shows that a non-empty mesh keeps stale faceCells (entry points only pass empty meshes).
* C25: `reduced_holes_refuted`. Facets proved; holes are refuted for the code: their points are neither kept nor renumbered. Proved right when every point up to the hole vertices is used by a facet.
* C28: `guards_distinct_refuted`. Exact arithmetic in place of double. The last theorem records that the guard generators repeat a corner.
* C29: `hash_int_refuted`, `hash_int_3d_refuted`, `unhash_int_refuted`. Holds with the 64 bit key the comments assume; with the actual key type int it is refuted: planar hashes keep the column and the parity of the row, spatial ones are undefined.
* C30: `unique_points_refuted`, `unique_points_3d_refuted`, `degenerate_outside_aborts`. Merging is exact with a 64 bit key; with int coincident points are still merged but distinct ones can be too (refuted), and 3D is undefined.
* C31: `morton_int_refuted`, `morton_int_3d_refuted`, `morton_3d_collides_refuted`. Holds in 2D for any key type with room for both coordinates; with the constants of KeyTraits every call is undefined, and in 3D keys collide for any type.
* C32: `closest_point_tiny_refuted`. Over the real numbers (standard library Reals). closest_point_tiny_refuted shows that the 1e-10 tolerance in the statement is needed.
* C37: `hull_spacing_refuted`, `hull_small_refuted`, `hull_neighbour_refuted`. Exact hull for inputs on the hashing grid, pairwise equal or two steps apart, whose first points are not mistaken for a line; in general the hull of the kept grid positions, within 1.5 steps of every input. Refuted without these conditions: spacing 1, small figures, neighbouring grid points.
* C38: `ray_plane_parallel_refuted`, `ray_box_refuted`, `ray_circle_outside_refuted`. Segments: exactly when and where they meet, for every tolerance; parallel segments are always reported apart. Rays: spheres and circles from inside, planes at an angle, boxes from inside when no side is taken to contain the ray. Refuted: rays parallel to a plane, rays from outside a box or a circle, axis rays in a box.
* C39: `csg_turned_refuted`, `csg_nonconvex_refuted`, `csg_empty_refuted`. Two dimensions. For all boundaries: the operations end, stay in bounds and return only parts of the given edges. For convex polygons in general position the result is the boundary of the combined region as a set of points. The direction of the facets is not kept (refuted), non-convex regions can come out wrong (refuted) and an empty intersection stops the program (refuted). Missing: aligned or touching polygons; solids in space are C94.
* C40: `simplify_turned_refuted`, `simplify_int_refuted`. In the plane, for one boundary that does not touch itself and whose corners are clearly in line or not. The direction of the boundary is not kept (simplify_turned_refuted), holes are dropped, and with an int key distinct points are merged (simplify_int_refuted). Exact arithmetic; the routine for 3D is C96.
* C44: `default_run_stops`, `default_run_refuted`. Refuted: with the default buildCommunicationInfo = false no rank that found neighbors finishes, because the pruning loop reads sharedNodes entries that were never made. Proved for a rank without neighbors.
* C45: `check_refuted`. All ranks get the same string, 'ok' exactly when the neighbor lists are mutual, equal and complete, under a guard (Readable). Refuted without it: a size mismatch message reads sharedIDs[k] with the sender's index k (line 111), which may be past the end.
* C46: `cleanEdges_ranks_fail`, `cleanEdges_ranks_refuted`, `cleaning_alone_refuted`. Proved for every schedule and any number of ranks as long as no rank has more than one neighbor: masks, nodes that go and shared lists agree. With more neighbors the property fails: the send buffer is not cleared between neighbors, so a rank that a neighbor does not list first fails an assertion in every schedule (cleanEdges_ranks_fail). Also refuted: that on a rank without neighbors cleaning does what it does in one process (the border rule is dropped).
* C47: `last_edge_refuted`. distanceToEdge gives the distance to the middle of the edge, the nearest point only for points straight off it; project divides by the squared width of the edge only, and is the nearest point exactly on level edges or beyond the ends. On the last edge both read past the array, so nearestEdge, nearestEdgePosition and project over all edges always do (last_edge_refuted).
* C48: `life_unfilled_refuted`, `life_cleared_refuted`, `life_refill_leaks`. The property as stated fails: new does not initialise face_cells, clear leaves boundary_nodes, boundary_faces and face_cells dangling. Proved: exactly which histories are free of undefined behaviour and which release everything, for tessellations with at least one face.
* C49: `plc_history_stops`. All call histories of fewer than 2^31 calls with int arguments.
* C50: `hull_copy_refuted`, `hull_int_refuted`. Holds when copies of points come after all other points and the key has 64 bits. A copy before another point shifts the numbers (hull_copy_refuted); with the int key of the code every call on points that are not flat is undefined behaviour (hull_int_refuted).
* C51: `writeOFF_holes_refuted`, `writeOFF_edges_3d_refuted`. The property fails for PLCs whose holes have facets: the header does not count their lines (writeOFF_holes_refuted, writeOFF_counts_partial: right exactly if no hole has a facet). Proved instead: the file reads back as the points and outer facets, the lines left over are exactly the hole facets; the edge count is right in 2D and always 0 in 3D. Printing of reals is not modelled.
* C53: `cleanEdges_3d_refuted`. Refuted for the code: the corner search asserts that border faces have two nodes, so the call returns only when every border face is a segment.
* C57: `convex_within3_refuted`, `convex_intersect3_refuted`. False of the code: computeNormal has a typo and the edge-edge loop never separates. Proved for facets where the typo is harmless: containment exactly, and no false 'disjoint'.
* C58: `within_indices_refuted`. Holds when each boundary lists consecutively numbered vertices; refuted otherwise, because the facet indices are ignored.
* C59: `between_short_refuted`, `cloud_space_refuted`. Between: sound up to the tolerance for all points, complete for segments longer than the tolerance; refuted for short ones. Clouds: right in the plane; in space the third point is ignored and two points read past the array.
* C60: `crossings_count_refuted`. Every reported point is where the segment meets an edge, the count is the number of points, and it is zero exactly when no edge is met. That each crossing is reported is refuted.
* C62: `face_key_space_refuted`. For any serial tessellator; that the meshes of different ranks fit together where they meet (Agree) is a hypothesis on its results. In 3D the key of a face does not exist when one of its node numbers is not smaller than its number of nodes (face_key_space_refuted), so there the theorem needs its hypothesis on the keys.
* C63: `round_trip_refuted`. Holds for tessellations in which no face has ~0 as its second cell; refuted otherwise. The convex hull is not read back.
* C69: `neighbors_missed_refuted`. Holds where the cells touch outside of the hulls of the two ranks. A cell hidden inside the hull of its rank can reach another domain between the visible points of a third one; then the two are not listed (neighbors_missed_refuted).
* C72: `cell_faces_refuted`, `face_cells_refuted`, `tag_names_refuted`. The numbers of faces are right and all data is in the array, but the lengths given for the other two elements are right only if cells plus cell faces is twice the number of faces (cell_faces_partial, both ways); they are swapped otherwise (cell_faces_refuted). The first cell of each face is written twice instead of both cells (face_cells_refuted). Tags keep their values in order but lose their names (tag_names_refuted).
* C73: `edge_fields_refuted`. All fields in two dimensions; node, face and cell fields in three. Edge fields of a spatial mesh are cut to the number of faces (edge_fields_refuted).
* C74: `master_complete_refuted`. Blocks never collide. The lists are complete if the number of files divides the number of ranks; otherwise ranks are missing from them (master_complete_refuted). The assignment of ranks to groups is Silo's (PMPIO), modelled from its documentation.
* C78: `shared_face_sign_refuted`. Within one cell all signs follow one direction round the cell. The direction depends on node numbers, and a shared face can have the same sign in both cells (shared_face_sign_refuted).
* C79: `distinct_nodes_refuted`. A generator without triangles stops the call. Generators on one circle give several nodes at the same place, joined by faces of length zero (distinct_nodes_refuted).
* C82: `pieces_adopted_refuted`. As soon as a cell is cut to more than one piece the call never returns normally: removeCollinearPoints computes (i-1)%n with i = 0 in ints and reads the point before the first one. The witness is two points in a U.
* C87: `every_point_has_a_cell_refuted`. Two different points at one place of the grid leave the second one silently without a cell (refuted, with witness); with one point at each place every cell has three faces or more.
* C90: `sphere_one_row_refuted`. The points are as stated for all arguments; the facets are those of convexHull_3d, which is an argument here (C50, C66). The last clause fails: one row is accepted and gives two points (sphere_one_row_refuted).
* C91: `boost_hole_refuted`, `boost_empty_refuted`, `boost_order_refuted`. Boost.Geometry is an argument, with what it should compute for the polygons it is given as hypothesis. Proved for boundaries (with holes) whose facets go round in order and answers without holes. An answer with a hole always fails an assertion (boost_hole_refuted), and so does an empty one, such as the intersection of regions that are apart (boost_empty_refuted); facets in another order are silently read as another polygon (boost_order_refuted).
* C92: `boost_clip_refuted`. As C91, for points in one piece only. Of two pieces that contain the point the first is lost (boost_clip_refuted).
* C93: `boost_reduce_empty_refuted`, `boost_reduce_hole_refuted`. As C91, whenever the call returns. An empty list and a union with a hole stop the program.
* C94: `csg3_refuted`. Proved for the polygons the operations compute, before they are turned into a ReducedPLC, for convex solids, away from points within EPSILON of a facet plane of the other solid; csg3_parts is for any surfaces without flat triangles. The public functions never return: turning the polygons into a ReducedPLC hashes positions with a 32 bit key (csg3_refuted).
* C95: `voro_shift_refuted`, `voro_box_refuted`, `voro_order_refuted`, `voro_default_refuted`. Read-out of the cells of the library, given as an argument: proved for vertices that fit in the integers of the grid and are not next to one another in it. The vertices are at their place only when every generator is the centroid of its cell: otherwise the cell is moved (voro_shift_refuted). In a box that is not a cube the cells reach out of it (voro_box_refuted). With the default degeneracy no mesh is made (voro_default_refuted).
* C96: `simplify3_int_refuted`, `simplify3_missed_refuted`, `simplify3_turned_refuted`, `simplify3_hole_refuted`. Whenever the routine returns, with a 64 bit key and exact arithmetic: the points made one, the facets merged (all that touch the first one and face the same way), the outline and its corners, the direction of convex facets whose first three points are not in line, and the points kept. Facets that touch only a later one can be missed, which leaves the surface open; facets that begin with points in line can be turned round; merged facets around a hole stop the program; with an int key every call is undefined.
* C97: `degenerate_int_refuted`. End to end for the Triangle tessellator, with a 64 bit key, unbounded, in a boundary and in a box (degenerate_box_partial, with the mesh snapped to the box); points that do not coincide keep their numbers (degenerate_unique_partial): points are at the same place if they are in one square of the grid of uniquePoints. With the key type of the code, int, points half a box apart can be given one cell (degenerate_int_refuted).
* C98: `fuzzy_cycle_refuted`. Points, segments, edges, pairs and distances: proved. The comparisons with a tolerance are orderings exactly if it is 0; the set of the planar convex hull uses tolerance 1, where three points can each be less than the next (fuzzy_cycle_refuted). Overflow inside the comparisons is not modelled.
* C99: `grid_below_refuted`. Proved for positions not below the corner of the grid; below it the conversion cuts off towards zero and a position can move by almost a step more (grid_below_refuted).
