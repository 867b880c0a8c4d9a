{"id": "C01", "title": "Serialization round trip", "statement": "Deserializing what serialize() wrote, into a freshly constructed object, gives back exactly the value that was written and consumes exactly the bytes that were written, whatever other bytes follow in the buffer. This covers the scalar types, points, vectors nested up to three levels, PLCs and ReducedPLCs.", "quantifier": "all values (any nesting sizes below 2^32 entries) and all trailing buffer contents", "why_tests_cant": "the set of nested containers and trailing bytes is infinite; tests only try a few", "anchors": ["src/polytope_serialize.hh: Serializer, serialize, deserialize", "src/Point.hh: Serializer<Point2>, Serializer<Point3>"]}
{"id": "C02", "title": "Several values in one buffer", "statement": "A sequence of values serialized one after another into one buffer is recovered by deserializing the same number of times, in order, leaving the read position exactly at the end; different values never produce the same bytes and no value's bytes are a prefix of another's.", "quantifier": "all finite sequences of values of a serializable type", "why_tests_cant": "ranges over unbounded sequences of unbounded values", "anchors": ["src/polytope_serialize.hh: serialize, deserialize"]}
{"id": "C03", "title": "Truncated buffers are refused", "statement": "If the buffer ends before the encoded value does, deserialize aborts (contract build) instead of returning an object or reading past the end of the buffer.", "quantifier": "all values and all strictly shorter prefixes of their encoding", "why_tests_cant": "every truncation point of every value must be covered", "anchors": ["src/polytope_serialize.hh: Serializer::deserializeImpl"]}
{"id": "C04", "title": "Deserializing into a non-empty object", "statement": "Deserializing a vector into a non-empty vector appends to it and leaves the old elements in front; deserializing into a non-empty ReducedPLC therefore does not return the serialized PLC (its facets keep the old vertex lists in front of the new).", "quantifier": "all pairs (old contents, serialized value)", "why_tests_cant": "the property is about the interaction of arbitrary old contents with arbitrary new values", "anchors": ["src/polytope_serialize.hh: Serializer<std::vector>, Serializer<ReducedPLC>"]}
{"id": "C05", "title": "Dense unique numbering of keys", "statement": "Feeding any sequence of keys to the key-numbering helper used by every tessellator yields ids such that equal keys get equal ids, distinct keys get distinct ids, ids are exactly 0..k-1 for k distinct keys, and are handed out in order of first appearance; an id never changes afterwards.", "quantifier": "all finite histories of insertions of arbitrary keys", "why_tests_cant": "an invariant over all insertion histories", "anchors": ["src/polytope_internal.hh: addKeyToMap, hashEdge"]}
{"id": "C06", "title": "Edge hash identifies unordered pairs", "statement": "The edge key of two different node indices is independent of their order, recovers the pair, is sorted, and two edges have the same key exactly when they join the same two nodes; equal indices abort in contract builds.", "quantifier": "all pairs of ints", "why_tests_cant": "all pairs of ints", "anchors": ["src/polytope_internal.hh: hashEdge, positiveID"]}
{"id": "C07", "title": "Removing elements from an array", "statement": "removeElements(vec, ids) keeps exactly the elements whose index is not in ids, in the original order, and the returned old-to-new map sends every kept index to the new position of that element and every removed index to -1.", "quantifier": "all vectors and all sorted duplicate-free in-range index lists", "why_tests_cant": "unbounded vector lengths and index subsets", "anchors": ["src/removeElements.hh: removeElements"]}
{"id": "C08", "title": "Bisection search brackets the value", "statement": "For a non-empty ascending table, bisectSearch returns the index i with table[i] <= val < table[i+1], -1 below the table and n-1 above the last entry; it always terminates and never reads outside the table.", "quantifier": "all non-empty sorted tables and all values; descending tables treated separately", "why_tests_cant": "all lengths and orderings", "anchors": ["src/bisectSearch.hh: bisectSearch"]}
{"id": "C09", "title": "Fuzzy point numbering (IntPointMap)", "statement": "After any history of index() calls: a returned id either is new (and equals the number of ids handed out before) or belongs to a previously indexed point within the tolerance in every coordinate; an exactly repeated point always gets its old id; ids are dense.", "quantifier": "all histories of index() calls with pairwise well separated or repeated points", "why_tests_cant": "invariant over histories", "anchors": ["src/IntPointMap.hh: IntPointMap::index"]}
{"id": "C10", "title": "IntPointMap::have answers membership", "statement": "have(p) is true exactly when some point indexed earlier lies within the tolerance of p in every coordinate.", "quantifier": "all maps built by any history, all query points, dimensions 2 and 3", "why_tests_cant": "all histories and queries", "anchors": ["src/IntPointMap.hh: IntPointMap::have"]}
{"id": "C11", "title": "Sorting the edges of a closed face", "statement": "Given the edges of one closed loop in any order and any orientation, computeSortedFaceEdges returns every edge exactly once, signed by orientation, such that each edge ends where the next one starts, cyclically, and reports that no edge was added.", "quantifier": "all simple closed loops of any length, all permutations and orientations of their edges", "why_tests_cant": "unbounded number of edges, all permutations and flips", "anchors": ["src/polytope_internal.hh: computeSortedFaceEdges"]}
{"id": "C12", "title": "Sorting the edges of a face with one gap", "statement": "Given the edges of a loop with one missing edge, computeSortedFaceEdges adds the closing edge, returns true, and the signed result is again a cyclic chain through all edges.", "quantifier": "all open chains of at least two edges, all permutations and orientations", "why_tests_cant": "unbounded chains", "anchors": ["src/polytope_internal.hh: computeSortedFaceEdges"]}
{"id": "C13", "title": "Deleting cells keeps the surviving mesh intact", "statement": "After deleteCells the mesh has exactly the cells marked 1, in the original order; each surviving cell has the same sequence of faces with the same orientation, each face the same sequence of nodes, and each node the same coordinates as before, up to renumbering.", "quantifier": "all well-formed meshes in 2D and 3D, all 0/1 masks", "why_tests_cant": "all meshes and masks", "anchors": ["src/deleteCells.hh: deleteCells"]}
{"id": "C14", "title": "Deleting cells leaves a well-formed mesh without orphans", "statement": "After deleteCells every index stored in cells, faces and faceCells is in range, cells and faceCells still agree with each other (including signs), and every remaining face belongs to a remaining cell and every remaining node to a remaining face.", "quantifier": "all well-formed meshes, all 0/1 masks keeping at least one cell", "why_tests_cant": "all meshes and masks", "anchors": ["src/deleteCells.hh: deleteCells", "src/Tessellation.hh: Tessellation"]}
{"id": "C15", "title": "Deleting cells keeps the communication lists consistent", "statement": "After deleteCells, sharedNodes and sharedFaces list, in the same order, exactly the surviving elements that were listed before, under their new numbers; if two domains' lists matched element by element and both keep the same elements, they still match.", "quantifier": "all meshes with communication lists, all masks", "why_tests_cant": "all meshes, masks and neighbor lists", "anchors": ["src/deleteCells.hh: deleteCells"]}
{"id": "C16", "title": "Boundary lists after deleting cells", "statement": "After deleteCells, boundaryNodes and boundaryFaces still describe the boundary of the remaining mesh and contain only valid indices.", "quantifier": "all well-formed meshes and masks", "why_tests_cant": "all meshes and masks", "anchors": ["src/deleteCells.hh: deleteCells", "src/findBoundaryElements.hh: findBoundaryElements"]}
{"id": "C17", "title": "MeshEditor cell deletion agrees with deleteCells", "statement": "MeshEditor::deleteCells(list) leaves the mesh with exactly the cells not listed, compactly renumbered, without writing outside any array.", "quantifier": "all well-formed meshes and all lists of cells", "why_tests_cant": "all meshes and lists", "anchors": ["src/MeshEditor.cc: MeshEditor::deleteCells, MeshEditor::cleanMesh, computeFaceAndNodeMasks"]}
{"id": "C18", "title": "Edge cleaning never collapses chains and preserves corners", "statement": "cleanEdges moves every node at most once: a removed node is merged into a node that itself survives, corner nodes of the boundary survive, every short edge is either collapsed or has an end that was already fixed by an earlier collapse or is a corner, and edges at or above the tolerance are never chosen.", "quantifier": "all consistent planar meshes with a simple boundary, any size; all positive tolerances", "why_tests_cant": "all meshes and edge lengths; depends on the order of processing", "anchors": ["src/MeshEditor.cc: MeshEditor::cleanEdges, flagEdgesForCleaning"]}
{"id": "C19", "title": "Boundary detection is exact", "statement": "findBoundaryElements lists exactly the faces with a single adjacent cell and exactly the nodes of those faces, each once.", "quantifier": "all meshes", "why_tests_cant": "all meshes", "anchors": ["src/findBoundaryElements.hh: findBoundaryElements"]}
{"id": "C20", "title": "Node/cell incidence queries", "statement": "computeNodeCells lists a cell at a node exactly when one of the cell's faces uses the node; computeCellToNodes is the transposed relation.", "quantifier": "all meshes with in-range indices", "why_tests_cant": "all meshes", "anchors": ["src/Tessellation.hh: computeNodeCells, computeCellToNodes"]}
{"id": "C21", "title": "Clear and empty", "statement": "After clear() a Tessellation is empty() and equal to a default-constructed one; clear() is idempotent; but empty() does not look at the communication data.", "quantifier": "all meshes", "why_tests_cant": "all meshes", "anchors": ["src/Tessellation.hh: clear, empty", "src/PLC.hh: clear, empty, valid"]}
{"id": "C22", "title": "Cell readout reproduces the Voronoi cells", "statement": "Reading out per-generator vertex loops into nodes, edges and signed cell edges gives unique nodes, unique edges stored with the smaller node first, and for every generator a signed edge loop whose vertices are the original loop (zero-length edges dropped); an edge shared by two generators is stored once.", "quantifier": "all families of vertex loops", "why_tests_cant": "all diagrams", "anchors": ["src/BoostTessellator.cc: tessellateQuantized", "src/TriangleTessellator.cc: tessellateQuantized", "src/polytope_internal.hh: addKeyToMap"]}
{"id": "C23", "title": "Filling the floating tessellation", "statement": "fillTessellation produces a mesh whose faces are the quantized edges, whose cells are the signed edge lists, and whose faceCells lists exactly the cells using each face, with the sign saying the orientation.", "quantifier": "all quantized tessellations in which each edge is used at most once per cell", "why_tests_cant": "all tessellations", "anchors": ["src/QuantizedTessellation2d.cc: fillTessellation"]}
{"id": "C24", "title": "Dropping unused edges and nodes after clipping", "statement": "The clean-up at the end of clipping removes exactly the edges used by no cell and the nodes used by no remaining edge, and every cell keeps the same sequence of oriented edges with the same end-point coordinates.", "quantifier": "all tessellations", "why_tests_cant": "all tessellations", "anchors": ["src/clipQuantizedTessellation2d.cc: clipQuantizedTessellation"]}
{"id": "C25", "title": "Reducing a PLC to the points it uses", "statement": "Constructing a ReducedPLC from a PLC and a point array keeps exactly the points used by facets, without repetition, and renumbers facets so that every facet has the same coordinates in the same order; the same must hold for holes.", "quantifier": "all PLCs with in-range indices and all point arrays", "why_tests_cant": "all PLCs", "anchors": ["src/ReducedPLC.hh: ReducedPLC"]}
{"id": "C26", "title": "Box boundaries are closed and counter-clockwise", "statement": "The box PLC built from low/high corners is a closed loop of facets through the four corners in counter-clockwise order, and its enclosed area is (high-low) in x times (high-low) in y; in 3D every edge of the box is used by exactly two facets in opposite directions and all facets point outward.", "quantifier": "all corner coordinates", "why_tests_cant": "all coordinate values", "anchors": ["src/makeBoxPLC.hh: makeBoxPLC", "src/polytope_plc_canned_geometries.hh: plc_box"]}
{"id": "C27", "title": "Bounding boxes are tight", "statement": "computeBoundingBox returns the componentwise minimum and maximum of the points: every point is inside and every bound is attained; expandBoundingBox returns the smallest box containing the old box and the points.", "quantifier": "all non-empty point sets", "why_tests_cant": "all point sets", "anchors": ["src/polytope_geometric_utilities.hh: computeBoundingBox, expandBoundingBox"]}
{"id": "C28", "title": "Quantize/dequantize error bound", "statement": "For every point inside the bounding box, quantizing gives integer coordinates inside the declared coordinate range, dequantizing gives back a point within one grid spacing, and quantization is monotone and idempotent on grid points.", "quantifier": "all boxes and points inside them (exact arithmetic)", "why_tests_cant": "continuum of points", "anchors": ["src/QuantizedTessellation2d.cc: quantize, dequantize"]}
{"id": "C29", "title": "Hashing positions", "statement": "Within the grid resolution of 2^31 (2D) / 2^21 (3D) cells per axis, two positions have the same hash exactly when they fall in the same grid cell, and unhashing gives a position in that cell.", "quantifier": "all positions in a box", "why_tests_cant": "all pairs of positions", "anchors": ["src/polytope_geometric_utilities.hh: Hasher, hashPosition, unhashPosition"]}
{"id": "C30", "title": "Merging duplicate points", "statement": "uniquePoints returns pairwise non-coincident points plus a map from each input point to its representative; distinct grid positions are never merged, coincident ones always are.", "quantifier": "all point sets", "why_tests_cant": "all point sets", "anchors": ["src/polytope_geometric_utilities.hh: uniquePoints", "src/TessellatorInline.hh: tessellateDegenerate"]}
{"id": "C31", "title": "Morton keys interleave and separate points", "statement": "mortonOrderIndices returns one key per point, in the order of the points, whose bits are the coordinate bits in turn; distinct points get distinct keys.", "quantifier": "all point sets", "why_tests_cant": "all pairs of points", "anchors": ["src/mortonOrderIndices.hh: mortonOrderIndices"]}
{"id": "C32", "title": "Nearest boundary point", "statement": "closestPointOnSegment2D returns a point of the segment, and no point of the segment is nearer to the query (segments shorter than 1e-10 are treated as one point: there the result may be off by half of 1e-10). nearestPoint returns a point of the boundary, over facets and holes, with its distance, and no boundary point is nearer (with the same tolerance).", "quantifier": "all segments, boundaries and query points", "why_tests_cant": "continuum of inputs", "anchors": ["src/polytope_geometric_utilities.hh: closestPointOnSegment2D", "src/nearestPoint.hh: nearestPoint"]}
{"id": "C33", "title": "Cell area and centroid", "statement": "The signed area of a 2D cell computed from its oriented faces is the sum of the signed areas of the triangles of any cutting of the cell, and its centroid their area-weighted mean. It depends only on the polygon: any order of the faces gives the same result, reversing the walk flips the sign of the area, merging two cells along common edges adds areas and moments, and moving, scaling or shearing the plane maps area and centroid with it. A strictly convex counter-clockwise cell has positive area and its centroid is strictly inside. In space the volume and centroid of a cell are those of any cutting into tetrahedra, in particular of the cones over its surface from any point, and the plain cell centroid is the mean of the distinct nodes of the cell.", "quantifier": "all polygonal and polyhedral cells with any number of faces, all cuttings, all affine maps", "why_tests_cant": "ranges over all polygons, polyhedra and decompositions", "anchors": ["src/polytope_geometric_utilities.hh: computeCellCentroidAndSignedArea, computeCellCentroidAndSignedVolume, computeCellCentroid, computeFaceCentroidAndNormal, tetrahedralVolumeAndCentroid6"]}
{"id": "C34", "title": "Point in polygon", "statement": "pointInPolygon answers by even-odd crossings: the answer does not depend on the starting vertex or direction of the polygon, and for a convex counter-clockwise polygon equals being on the left of all edges.", "quantifier": "all polygons and query points", "why_tests_cant": "all polygons and points", "anchors": ["src/polytope_geometric_utilities.hh: pointInPolygon", "src/polytope_geometric_utilities.hh: pointOnPolygon"]}
{"id": "C35", "title": "Convex polygon intersection test", "statement": "convexIntersect in 2D returns true exactly when the two convex polygons share a point; it is symmetric.", "quantifier": "all pairs of convex counter-clockwise polygons", "why_tests_cant": "all pairs of polygons", "anchors": ["src/convexIntersect.hh: convexIntersect"]}
{"id": "C36", "title": "Convex containment test", "statement": "convexWithin(a, b) returns true only if every point of a is strictly inside b.", "quantifier": "all pairs of convex polygons", "why_tests_cant": "all pairs", "anchors": ["src/convexWithin.hh: convexWithin"]}
{"id": "C37", "title": "Convex hull in 2D", "statement": "convexHull_2d returns a closed convex counter-clockwise polygon whose vertices are input points and which contains every input point.", "quantifier": "all planar point sets that are not collinear (exact coordinates)", "why_tests_cant": "all point sets", "anchors": ["src/convexHull_2d.hh: convexHull_2d"]}
{"id": "C38", "title": "Segment intersection and ray tests", "statement": "segmentIntersection2D reports an intersection only at a point on both segments and finds it whenever the segments cross properly; the ray/plane, ray/sphere and ray/box helpers return a point on the ray and on the target.", "quantifier": "all segments, rays and targets", "why_tests_cant": "continuum of inputs", "anchors": ["src/polytope_geometric_utilities.hh: segmentIntersection2D, rayPlaneIntersection, raySphereIntersection, rayCircleIntersection, rayBoxIntersection"]}
{"id": "C39", "title": "Constructive solid geometry", "statement": "csg_union, csg_intersect and csg_subtract of closed boundaries return boundary pieces of the corresponding set operation with the orientation of the input boundaries.", "quantifier": "all pairs of closed polygonal boundaries", "why_tests_cant": "all pairs of boundaries", "anchors": ["src/PLC_CSG_2d.hh", "src/PLC_CSG_3d.hh", "src/PLC_CSG.cc"]}
{"id": "C40", "title": "Simplifying PLC facets", "statement": "simplifyPLCfacets in 2D keeps a closed boundary through a subset of the old vertices in the same cyclic order, dropping only vertices that are collinear with their neighbours.", "quantifier": "all closed polygonal boundaries", "why_tests_cant": "all boundaries", "anchors": ["src/simplifyPLCfacets.hh: simplifyPLCfacets"]}
{"id": "C41", "title": "Ownership partition", "statement": "The gathered generators are owned by exactly one rank each, as determined by the offsets; the owner found by search is the rank that contributed the generator.", "quantifier": "all numbers of ranks and all per-rank counts including zero", "why_tests_cant": "all distributions", "anchors": ["src/SerialDistributedTessellator.cc: ownerRank, computeDistributedTessellation"]}
{"id": "C42", "title": "Serial distributed communication lists agree", "statement": "For every two ranks, the shared-node and shared-face lists they compute for each other name the same global elements in the same order, and s is a neighbor of r exactly when r is a neighbor of s.", "quantifier": "all global meshes, all numbers of ranks and ownerships", "why_tests_cant": "all meshes and partitions", "anchors": ["src/SerialDistributedTessellator.cc: computeDistributedTessellation"]}
{"id": "C43", "title": "Owner-to-all node coordinate exchange", "statement": "After the final coordinate exchange, every copy of a shared node on every rank has bitwise the coordinates of the lowest rank sharing it, whatever the order in which messages are delivered.", "quantifier": "all numbers of ranks, all consistent shared-node lists, all message schedules", "why_tests_cant": "all schedules", "anchors": ["src/DistributedTessellator.cc: computeDistributedTessellation"]}
{"id": "C44", "title": "Default distributed run without communication info", "statement": "Constructing the distributed tessellator without asking for communication info must still yield valid local meshes when more than one rank is used.", "quantifier": "all runs with at least two neighboring ranks", "why_tests_cant": "needs every partition", "anchors": ["src/DistributedTessellator.cc: computeDistributedTessellation"]}
{"id": "C45", "title": "All ranks agree on the mesh check verdict", "statement": "checkDistributedTessellation returns the same string on all ranks, \"ok\" exactly when no rank found a problem, otherwise the message of one failing rank.", "quantifier": "all numbers of ranks and all local outcomes", "why_tests_cant": "all combinations", "anchors": ["src/checkDistributedTessellation.hh: reduceToMaxString, checkDistributedTessellation"]}
{"id": "C46", "title": "Edge mask agreement between domains", "statement": "After the mask exchange in edge cleaning every shared node and edge has the same keep/collapse mask on all sharing domains.", "quantifier": "all numbers of neighbors", "why_tests_cant": "all numbers of neighbors and masks", "anchors": ["src/MeshEditor.cc: flagEdgesForCleaning"]}
{"id": "C47", "title": "Polygon class queries", "statement": "nearestEdge, distanceToEdge and project of the Polygon class access only existing vertices and return the nearest point on the chosen edge.", "quantifier": "all polygons and query points", "why_tests_cant": "all inputs", "anchors": ["src/Polygon.hh: Polygon"]}
{"id": "C48", "title": "C interface: object life cycle", "statement": "A tessellation object created by the C interface can be cleared any number of times and then freed, releasing every array exactly once and reading no uninitialized field.", "quantifier": "all sequences of new, fill, clear, free calls", "why_tests_cant": "all call histories", "anchors": ["polytope_c/polytope_tessellation.cc: polytope_tessellation_new, polytope_tessellation_clear, polytope_tessellation_free"]}
{"id": "C49", "title": "C interface: PLC building", "statement": "Any sequence of add_facet / add_facet_node / add_hole / add_hole_facet / add_hole_facet_node calls builds a PLC whose queries return exactly what was added, in order; valid() holds exactly when all facets have enough nodes.", "quantifier": "all call histories", "why_tests_cant": "all call histories", "anchors": ["polytope_c/polytope_plc.cc", "src/PLC.hh: valid"]}
{"id": "C50", "title": "Convex hull index maps", "statement": "The facets of convexHull_3d refer to the caller's points: every facet vertex index denotes, in the input array, a point with the coordinates of the hull vertex, even if the input contains duplicates.", "quantifier": "all inputs with or without duplicate points", "why_tests_cant": "all inputs", "anchors": ["src/convexHull_3d.hh: convexHull_3d"]}
{"id": "C51", "title": "OFF file output", "statement": "The header counts in the OFF output of a PLC equal the numbers of vertex and facet lines that follow.", "quantifier": "all PLCs with and without holes", "why_tests_cant": "all PLCs", "anchors": ["src/polytope_write_OOGL.hh: writePLCtoOFF"]}
{"id": "C52", "title": "Sorted face nodes (Triangle tessellator)", "statement": "Given the edges of one closed loop in any order, computeSortedFaceNodes returns each vertex exactly once, with consecutive vertices (cyclically) joined by an input edge.", "quantifier": "all simple closed loops of any length, all edge orders and orientations", "why_tests_cant": "unbounded loops", "anchors": ["src/TriangleTessellator.cc: computeSortedFaceNodes, findOtherTriIndices"]}
{"id": "C53", "title": "Edge cleaning of solid meshes returns", "statement": "cleanEdges on a consistent three-dimensional mesh finishes and returns a cleaned mesh.", "quantifier": "all consistent 3D meshes, all positive tolerances", "why_tests_cant": "the failure concerns every mesh with a border, not one sample", "anchors": ["src/MeshEditor.cc: flagEdgesForCleaning"]}
{"id": "C54", "title": "A cell expressed as a piecewise linear complex", "statement": "cellToReducedPLC of a planar cell whose faces form a closed loop gives one facet per face, with the same two points in the walking direction of the cell; in 3D every face gives one facet through the same points, reversed when the cell refers to the face with a complemented id, and the points are exactly the nodes of the cell without repetition.", "quantifier": "all meshes, cells with any number of faces, faces with any number of nodes", "why_tests_cant": "ranges over unbounded meshes and orientations", "anchors": ["src/polytope_geometric_utilities.hh: cellToReducedPLC, CellToReducedPLCFunctor"]}
{"id": "C55", "title": "Snapping a mesh to its boundary", "statement": "When snapToBoundary returns, nothing but node positions has changed, nodes off the boundary are where they were, every boundary point is exactly the position of a boundary node, and every boundary node has moved by less than four times the degeneracy times the larger side of the bounding box, onto a boundary point or the nearest point of the boundary. It returns whenever each boundary point has one boundary node nearer than that tolerance, no other boundary node being as near, and all boundary nodes are near the boundary. An already exact mesh is returned unchanged.", "quantifier": "all planar meshes, boundaries with holes and tolerances", "why_tests_cant": "ranges over a continuum of node positions and unbounded meshes", "anchors": ["src/snapToBoundary.cc: snapToBoundary", "src/nearestPoint.hh: nearestPoint"]}
{"id": "C56", "title": "Circumcenters", "statement": "For every triangle that is not degenerate both planar circumcenter routines return the one point equally far from its three corners; for every tetrahedron that is not flat the spatial routine returns a point equally far from its four corners and otherwise aborts; for a triangle in space the routine either reports nearly collinear corners or returns a point of its plane equally far from the corners, never failing its own check.", "quantifier": "all triangles in the plane and in space, all tetrahedra", "why_tests_cant": "ranges over a continuum of inputs", "anchors": ["src/polytope_geometric_utilities.hh: computeCircumcenter, computeCircumcenter2d, computeCircumcenter3d, computeTriangleCircumcenter3d"]}
{"id": "C57", "title": "Convex solids: intersection and containment in 3D", "statement": "convexIntersect in 3D returns true exactly when the two convex solids share a point, and convexWithin in 3D returns true exactly when every point of the first is strictly inside the second.", "quantifier": "all pairs of convex solids with outward facets", "why_tests_cant": "the space of pairs of solids is infinite and the wrong answers need facets in general position", "anchors": ["src/convexIntersect.hh: convexIntersect(ReducedPLC<3>)", "src/convexWithin.hh: convexWithin(ReducedPLC<3>)", "src/polytope_geometric_utilities.hh: computeNormal"]}
{"id": "C58", "title": "Points in complexes with holes", "statement": "within(point, vertices, plc) is true for a point inside or on the outer boundary that is not strictly inside a hole, and false for one away from the boundary and outside it or strictly inside a hole, whatever the numbering of the vertices.", "quantifier": "all complexes in the plane, all points, all numberings of the vertices", "why_tests_cant": "a test covers a few complexes whose vertices are usually numbered in order", "anchors": ["src/within.hh: within", "src/within.hh: WithinBoundaryFunctor"]}
{"id": "C59", "title": "Betweenness and collinear clouds", "statement": "between(a, b, c) is true for every point c of the segment ab and true only for points at it up to the tolerance; collinear(points) is true exactly for clouds on one line up to the tolerance, in two and in three dimensions.", "quantifier": "all points, clouds of any size, all tolerances", "why_tests_cant": "continuum of inputs; a test sees a few triples", "anchors": ["src/polytope_geometric_utilities.hh: between, collinear"]}
{"id": "C60", "title": "Crossings of a segment with a boundary", "statement": "intersect(segment, plc) reports exactly the points where the segment meets the facets of the complex and of its holes, each once, and returns their number.", "quantifier": "all planar complexes with any number of facets and holes, all segments", "why_tests_cant": "the answer depends on every facet and on the order of the facets", "anchors": ["src/intersect.hh: intersect"]}
{"id": "C61", "title": "Exchange of generators", "statement": "After the exchange of generators every rank of a distributed run holds its own points followed by those of its neighbors, with the rank each came from, and no rank waits for ever; the consistency check that precedes it passes exactly when the neighbor relation is mutual.", "quantifier": "any number of ranks, any mutual neighbor lists, any points, every order of message delivery", "why_tests_cant": "a test sees one schedule of one partition", "anchors": ["src/DistributedTessellator.cc: computeDistributedTessellation", "src/polytope_serialize.hh"]}
{"id": "C62", "title": "Local meshes of a distributed run", "statement": "With communication info each rank keeps exactly the cells of its own generators, its neighborDomains are the ranks it shares a node with, and sharedNodes and sharedFaces list everything shared with each neighbor; two neighbors list the same nodes and faces in the same order, so the exchange of node positions that follows leaves all copies of a node in the same place.", "quantifier": "all meshes, all distributions of the generators, any number of ranks", "why_tests_cant": "must hold for every mesh and every numbering of it on each rank", "anchors": ["src/DistributedTessellator.cc: computeDistributedTessellation", "src/DimensionTraits.hh: faceCentroid", "src/deleteCells.cc"]}
{"id": "C63", "title": "C interface: round trip of a tessellation", "statement": "A tessellation copied to the arrays of the C interface and back to a C++ tessellation is the same: nodes, cells, faces, cells of the faces, boundary lists and communication lists agree, whatever history the C object had before.", "quantifier": "all tessellations with matching sizes, all previous histories of the C object", "why_tests_cant": "all tessellations and histories", "anchors": ["polytope_c/polytope_tessellator.cc: fill_tessellation (both directions)"]}
{"id": "C64", "title": "Point location in the Polygon class", "statement": "queryPoint answers POINT_ON_VERTEX exactly for the corners, POINT_ON_EDGE exactly for the other points of the border of a simple polygon, and otherwise POINT_INSIDE or POINT_OUTSIDE by the parity of the edges a ray from the point crosses.", "quantifier": "all polygons and query points, including points level with corners and with horizontal edges", "why_tests_cant": "all polygons and points; the degenerate alignments are many", "anchors": ["src/Polygon.hh: Polygon::queryPoint"]}
{"id": "C65", "title": "First edge met by a segment", "statement": "closestIntersection returns the number of an edge the segment meets, with the meeting point, such that no edge that is not parallel to the segment is met earlier, and -1 exactly if no such edge is met.", "quantifier": "all polygons and segments", "why_tests_cant": "all inputs", "anchors": ["src/Polygon.hh: Polygon::closestIntersection"]}
{"id": "C66", "title": "The convex hull in space is a closed surface around the points", "statement": "convexHull_3d returns triangles that form the whole border of the convex hull: each has three different corners among the points, no point lies on its outer side, the surface is closed, every triangle appears once, and every edge is shared by exactly two triangles with opposite directions.", "quantifier": "all sets of points in space, including points inside the hull, several points in one face, and duplicates", "why_tests_cant": "all point sets; the incremental construction must keep the surface closed after every insertion, whatever the order of points", "anchors": ["src/convexHull_3d.hh: convexHull_3d, ConvexHull3d::compute, cullVisibleFacets, ConvexHullFacet::compare, exteriorPoints, highestPoint"]}
{"id": "C67", "title": "Lists of neighbor domains", "statement": "In a distributed run every rank ends up with, in increasing order and without itself, exactly the ranks whose convex hull meets its own and the ranks that own a visible point whose cell has a node in common with the cell of one of its own visible points; the lists are mutual, so the check of the contract between neighbors passes and the exchange of generators that follows completes.", "quantifier": "any number of ranks, any hulls they send, any mesh of the visible points, in two and in three dimensions", "why_tests_cant": "the lists are computed independently on every rank and must agree between all pairs for every partition", "anchors": ["src/DistributedTessellator.cc: computeDomainNeighbors", "src/DimensionTraits.hh", "src/convexIntersect.hh"]}
{"id": "C68", "title": "The hull a rank sends to the others", "statement": "The reduced complex a rank sends in the search for neighbors consists of points of its own that span all its points; the points it shows are exactly the corners of its hull and the points whose cell in the local mesh is not strictly inside the hull; two ranks whose hulls have a point in common are found to meet.", "quantifier": "all planar point sets of a rank, collinear ones and single points included, all local meshes with polygons as cells", "why_tests_cant": "all point sets and meshes", "anchors": ["src/DistributedTessellator.cc: computeDomainNeighbors", "src/DimensionTraits.hh: convexHull, hullDimension", "src/ReducedPLC.hh"]}
{"id": "C69", "title": "Domains whose cells touch are neighbors", "statement": "Two ranks that own generators whose cells touch in the Voronoi diagram of all generators are in each other's lists of neighbors.", "quantifier": "all distributions of generators over ranks", "why_tests_cant": "all partitions; the search works on the visible points only, so a cell hidden inside a hull may still reach another domain", "anchors": ["src/DistributedTessellator.cc: computeDomainNeighbors"]}
{"id": "C70", "title": "The Silo file of a planar mesh", "statement": "SiloWriter<2>::write puts into the file the coordinates of all nodes, for every cell the closed ring of its nodes in the order and direction of its faces, the end points of the boundary faces, and the facets of the convex hull; two meshes whose files say the same have the same nodes, cells, faces and boundary faces.", "quantifier": "all planar meshes whose cells are closed walks along their faces, with any fields and tags", "why_tests_cant": "all meshes; a lost or misplaced count would only show for particular cell sizes", "anchors": ["src/SiloWriter_2d.cc: SiloWriter<2, RealType>::write, traverseNodes"]}
{"id": "C71", "title": "The Silo file of a spatial mesh", "statement": "SiloWriter<3>::write puts into the file the coordinates of all nodes, the nodes of every face, the faces of every cell with their orientation, exactly the boundary faces marked as such, and the facets of the convex hull; two meshes whose files say the same have the same nodes, faces, cells, and boundary faces.", "quantifier": "all spatial meshes, with any fields and tags", "why_tests_cant": "all meshes", "anchors": ["src/SiloWriter_3d.cc: SiloWriter<3, RealType>::write"]}
{"id": "C72", "title": "Cell-face data and tags in a Silo file", "statement": "The connectivity array of a Silo file gives, under the names of its elements, the number of faces of each cell, the faces of the cells, and the two cells of each face; every tag is found with its values under its name.", "quantifier": "all meshes in two and three dimensions, all tags", "why_tests_cant": "whether the lengths given for the elements are right depends on the numbers of cells and faces", "anchors": ["src/SiloWriter_2d.cc: SiloWriter<2, RealType>::write", "src/SiloWriter_3d.cc: SiloWriter<3, RealType>::write", "src/SiloUtils.cc: writeTagsToFile"]}
{"id": "C73", "title": "Fields in a Silo file", "statement": "Every field with one value per node, edge, face or cell is found in the Silo file under its name, with all its values in order and the right centering.", "quantifier": "all meshes and fields in two and three dimensions", "why_tests_cant": "all meshes; the number of values written must be right for every combination of counts", "anchors": ["src/SiloUtils.hh: writeFieldsToFile", "src/SiloWriter_2d.cc", "src/SiloWriter_3d.cc"]}
{"id": "C74", "title": "Files of a parallel Silo dump", "statement": "In a parallel dump no two ranks write to the same block of the same file, and the master file and the file of each group list, in order, the place where each rank's mesh and each of its fields is to be found.", "quantifier": "any number of ranks and files, all prefixes, directories and cycles whose names fit the buffers, all sets of fields", "why_tests_cant": "any number of ranks and files", "anchors": ["src/SiloWriter_2d.cc: SiloWriter<2, RealType>::write", "src/SiloWriter_3d.cc: SiloWriter<3, RealType>::write", "src/SiloUtils.hh: appendFieldNames, putMultivarInFile"]}
{"id": "C75", "title": "The mesh is dual to the triangulation", "statement": "TriangleTessellator makes one node per Delaunay triangle that touches a generator, and one cell per generator: a closed ring through the nodes of the triangles around it, each step to a triangle across a common edge. No edge is stored twice, and each is used exactly by the cells of the two points it separates.", "quantifier": "all sets of generators and guards, all Delaunay triangulations of them", "why_tests_cant": "all triangulations: any numbering of triangles, any number of triangles around a generator", "anchors": ["src/TriangleTessellator.cc: TriangleTessellator::tessellateQuantized, computeSortedFaceNodes, findOtherTriIndices"]}
{"id": "C76", "title": "Cells are Voronoi cells", "statement": "The cell that TriangleTessellator gives a generator runs once around exactly the places in the plane to which no other generator or guard is closer; its corners are rounded to the grid by less than one step.", "quantifier": "all sets of generators and guards, all Delaunay triangulations of them, all places in the plane", "why_tests_cant": "a statement about all places of the plane for all sets of generators", "anchors": ["src/TriangleTessellator.cc: TriangleTessellator::tessellateQuantized", "src/QuantizedTessellation2d.cc: quantize, dequantize"]}
{"id": "C77", "title": "The frame and its guards are wide enough", "statement": "If the generators lie in the bounding box of the boundary points, no circumcenter that a cell needs falls off the integer grid, and inside the box the guards take nothing from the cells: there the cell of a generator is the set of places closest to it among the generators alone.", "quantifier": "all boundary points, all generators in their bounding box, all Delaunay triangulations", "why_tests_cant": "the worst place of generators and the widest circumcircle cannot be found by trying", "anchors": ["src/QuantizedTessellation2d.cc: QuantizedTessellation2d::QuantizedTessellation2d, construct", "src/TriangleTessellator.cc: TriangleTessellator::tessellateQuantized"]}
{"id": "C78", "title": "Signs of faces", "statement": "A negative face index in a cell of the resulting mesh marks a face whose normal points into the cell, so that a face between two cells has opposite signs in them.", "quantifier": "all sets of generators", "why_tests_cant": "the sign depends on the numbering of the triangles around each generator", "anchors": ["src/Tessellation.hh: cells", "src/TriangleTessellator.cc: TriangleTessellator::tessellateQuantized"]}
{"id": "C79", "title": "Degenerate generators", "statement": "Different generators give a mesh whose nodes are at different places, and a generator that the triangulation left out does not go unnoticed.", "quantifier": "all sets of generators, including four on one circle and two at one place", "why_tests_cant": "all sets of generators", "anchors": ["src/TriangleTessellator.cc: TriangleTessellator::tessellateQuantized"]}
{"id": "C80", "title": "Tessellating points", "statement": "tessellate(points, mesh) for points that are not all at one place fills the empty mesh with a well formed mesh that has one cell per point, in the order of the points. Cell i is the set of places with no point closer than point i, the points and the corners being moved by less than one step of the grid; its faces go once round it. The boundary faces are the faces with one cell, there are some, and the boundary nodes are their nodes.", "quantifier": "all lists of at least one point in the plane, not all equal, and all Delaunay triangulations of them", "why_tests_cant": "the points can be any, and the Voronoi region is an infinite set of places", "anchors": ["src/TessellatorInline.hh: Tessellator::tessellate", "src/TriangleTessellator.cc: TriangleTessellator::tessellateQuantized", "src/QuantizedTessellation2d.cc: QuantizedTessellation2d, fillTessellation", "src/findBoundaryElements.hh: findBoundaryElements"]}
{"id": "C81", "title": "Tessellating points in a boundary", "statement": "tessellate(points, PLCpoints, geometry, mesh), before the mesh is snapped to the boundary, for points in the bounding box of a boundary, possibly with holes, that cuts every Voronoi cell to one polygon whose corners are apart: the mesh is well formed and has one cell per point, in order; the faces of cell i go along the sides of polygon i; nodes are the corners, none twice; a side common to two polygons is one face with two cells; the boundary faces are the sides with a polygon on one side only.", "quantifier": "all lists of points, all boundaries with holes, all Delaunay triangulations, all results of the polygon library that meet the conditions", "why_tests_cant": "points and boundary can be any, and the polygons come from another library", "anchors": ["src/TessellatorInline.hh: Tessellator::tessellate", "src/clipQuantizedTessellation2d.cc: clipQuantizedTessellation", "src/QuantizedTessellation2d.cc: fillTessellation", "src/findBoundaryElements.hh: findBoundaryElements"]}
{"id": "C82", "title": "Pieces that the boundary cuts off", "statement": "If the boundary cuts a Voronoi cell to several pieces, the piece with the generator stays the cell of the generator, the other pieces go to neighboring cells, and tessellate returns.", "quantifier": "all points, all boundaries, all ways in which cells are cut to pieces", "why_tests_cant": "whether a cell falls apart depends on points and boundary; a crash may show only for some memory contents", "anchors": ["src/clipQuantizedTessellation2d.cc: clipQuantizedTessellation, removeCollinearPoints"]}
{"id": "C83", "title": "Snapping to the boundary", "statement": "If tessellate(points, PLCpoints, geometry, mesh) returns, then every boundary node of the mesh lies on a facet of the boundary and every point of the boundary is a boundary node. It does return if the boundary cuts every Voronoi cell to one polygon, every point of the boundary is near just one outer corner of these polygons and every outer corner near the boundary: then nodes that are not boundary nodes stay, boundary nodes move by less than the tolerance, and cells and faces stay as they are.", "quantifier": "all points, all boundaries made of segments, possibly with holes, all tolerances, all results of the triangulation and polygon libraries", "why_tests_cant": "the boundary can have any shape and the nodes any places", "anchors": ["src/TessellatorInline.hh: Tessellator::tessellate", "src/snapToBoundary.cc: snapToBoundary", "src/clipQuantizedTessellation2d.cc: clipQuantizedTessellation"]}
{"id": "C84", "title": "Tessellating points in a box", "statement": "tessellate(points, low, high, mesh) is the tessellation in the boundary made of the four sides of the box: one cell per point, and if it returns, every boundary node lies on the outline of the box and the four corners of the box are among them.", "quantifier": "all points in the box, all boxes with low below high in both directions, all tolerances", "why_tests_cant": "boxes and points are any, and the libraries answer in any way that meets the conditions", "anchors": ["src/TessellatorInline.hh: Tessellator::tessellate", "src/makeBoxPLC.hh: makeBoxPLC", "src/snapToBoundary.cc: snapToBoundary"]}
{"id": "C85", "title": "Tessellating points by a Voronoi diagram", "statement": "With the tessellator that uses Boost's Voronoi diagram, tessellate(points, mesh) for points that are not all at one place and of which no two fall on one place of the grid fills the empty mesh with a well formed mesh that has one cell per point, in the order of the points. The faces of cell i go once round the Voronoi cell of point i, its corners being moved by less than one step of the grid; two cells with a common face go along it in opposite directions; the boundary faces are the faces with one cell, and there are some.", "quantifier": "all lists of points in the plane, not all equal, and all Voronoi diagrams of them with corners apart", "why_tests_cant": "the points can be any, and the Voronoi cell is an infinite set of places", "anchors": ["src/BoostTessellator.cc: BoostTessellator::tessellateQuantized", "src/TessellatorInline.hh: Tessellator::tessellate", "src/QuantizedTessellation2d.cc: QuantizedTessellation2d, fillTessellation"]}
{"id": "C86", "title": "Tessellating points by a Voronoi diagram in a boundary", "statement": "The same with a boundary, possibly with holes, before the mesh is snapped: if the boundary cuts every Voronoi cell to one polygon and the corners are apart, the mesh has one cell per point, whose faces go along the sides of its polygon; a side common to two polygons is one face with two cells; the boundary faces are the sides with a polygon on one side only.", "quantifier": "all lists of points, all boundaries with holes, all Voronoi diagrams, all results of the polygon library that meet the conditions", "why_tests_cant": "points and boundary can be any, and the polygons come from another library", "anchors": ["src/BoostTessellator.cc: BoostTessellator::tessellateQuantized", "src/TessellatorInline.hh: Tessellator::tessellate", "src/clipQuantizedTessellation2d.cc: clipQuantizedTessellation"]}
{"id": "C87", "title": "Every point gets a cell", "statement": "If the points given to the tessellator that uses Boost's Voronoi diagram are all different and tessellate returns, then every cell of the mesh has faces.", "quantifier": "all lists of different points, however near to each other", "why_tests_cant": "two points that coincide only on the internal grid are easily missed by tests", "anchors": ["src/BoostTessellator.cc: BoostTessellator::tessellateQuantized", "src/QuantizedTessellation2d.cc: QuantizedTessellation2d"]}
{"id": "C88", "title": "Snapping the tessellation made by a Voronoi diagram", "statement": "If tessellate(points, PLCpoints, geometry, mesh) of the tessellator that uses Boost's Voronoi diagram returns, then every boundary node of the mesh lies on a facet of the boundary and every point of the boundary is a boundary node. It does return if the boundary cuts every Voronoi cell to one polygon, every point of the boundary is near just one outer corner of these polygons and every outer corner near the boundary; inner nodes then stay, boundary nodes move by less than the tolerance, and cells and faces stay as they are.", "quantifier": "all points, all boundaries made of segments, possibly with holes, all tolerances, all results of the two libraries", "why_tests_cant": "the boundary can have any shape and the nodes any places", "anchors": ["src/TessellatorInline.hh: Tessellator::tessellate", "src/snapToBoundary.cc: snapToBoundary", "src/BoostTessellator.cc: BoostTessellator::tessellateQuantized"]}
{"id": "C89", "title": "Circle boundary", "statement": "plc_circle(center, radius, n) with n at least 3 and radius positive makes a regular polygon: n corners on the circle, n facets from each corner to the next and from the last to the first, counterclockwise and convex, all of the same length and at the same distance from the center, which is on their left. With n below 3 the call stops with an assertion.", "quantifier": "all centers, radii and numbers of corners", "why_tests_cant": "n can be any number; tests can look at a few polygons only", "anchors": ["src/polytope_plc_canned_geometries.hh: plc_circle"]}
{"id": "C90", "title": "Sphere and cylinder boundaries", "statement": "plc_cylinder makes the convex hull of the corners of the circle of plc_circle at half the length above and below the center. plc_sphere makes the convex hull of points that are all different and all at the distance radius from the center, at least one in each of the rows asked for; the boundary it returns encloses a body for every number of rows it accepts.", "quantifier": "all centers, radii, lengths and numbers of points or rows (below 2^31)", "why_tests_cant": "the number of points in each row comes from rounding a quotient of real numbers, for any number of rows", "anchors": ["src/polytope_plc_canned_geometries.hh: plc_sphere, plc_cylinder"]}
{"id": "C91", "title": "Regions combined by Boost.Geometry", "statement": "BG::boost_union, boost_intersect and boost_subtract of two planar boundaries, with or without holes and with their facets in any order, return boundaries that enclose together exactly the points of the union, the intersection or the difference of the two regions. boost_within says whether a point is inside of a boundary, boost_intersects whether boundaries intersect.", "quantifier": "all pairs of boundaries and all correct geometry libraries", "why_tests_cant": "regions can have any shape, and the answer any number of pieces", "anchors": ["src/PLC_Boost_2d.hh: boost_union, boost_intersect, boost_subtract, boost_within, boost_intersects"]}
{"id": "C92", "title": "Clipping by Boost.Geometry", "statement": "BG::boost_clip(a, b, p, orphans) returns the piece of the intersection of a and b that contains p, and adds all other pieces to orphans, so that nothing of the intersection is lost.", "quantifier": "all pairs of boundaries, all points, all numbers of pieces", "why_tests_cant": "the number and the order of the pieces is that of another library, and the point can be anywhere", "anchors": ["src/PLC_Boost_2d.hh: boost_clip"]}
{"id": "C93", "title": "Union of many regions", "statement": "BG::boost_unionReduce returns, for any list of planar boundaries, boundaries that enclose together exactly the points inside any of them, not more boundaries than there were.", "quantifier": "all lists of boundaries, empty ones included", "why_tests_cant": "the list can have any length and the regions can be anywhere", "anchors": ["src/PLC_Boost_2d.hh: boost_unionReduce"]}
{"id": "C94", "title": "Combining solids in space", "statement": "csg_union, csg_intersect and csg_subtract of two closed surfaces in space return the surface of the union, the common part and the difference: its facets are parts of the facets given, facing out of the result, and they cover the points of one surface that are outside (union), inside (intersection) or, for the difference, outside resp. inside the other solid, and no others.", "quantifier": "all pairs of convex solids whose corners are on a facet plane or clearly below it; all closed surfaces for termination and for the facets being parts", "why_tests_cant": "the solids can have any number of facets and lie in any position; each facet may be cut by many planes", "anchors": ["src/PLC_CSG_3d.hh: csg_union, csg_intersect, csg_subtract, Node, Plane::splitPolygon"]}
{"id": "C95", "title": "Tessellating a box with Voro++", "statement": "The tessellator that uses Voro++ in three dimensions, given generators in a box, makes the mesh of the Voronoi cells in the box: one cell per generator with the faces of its Voronoi cell in order, each face entered once and named by both cells that have it with opposite signs, each vertex one node within half a step of its place.", "quantifier": "all boxes, all lists of generators in the box, all answers of the library whose vertices are on different places of the grid", "why_tests_cant": "the generators can be any, and each vertex is met again by every cell around it", "anchors": ["src/VoroPP_3d.cc: VoroPP_3d::tessellate, updateMeshVertices, insertFaceInfo"]}
{"id": "C96", "title": "Simplifying the surface of a solid", "statement": "simplifyPLCfacets in three dimensions returns a surface of the same solid with fewer facets: points that coincide on the grid are made one, facets that touch and lie in one plane are merged into the polygon around them, without the points inside its sides, every facet faces the way of those it was made of, facets without area and points not used are dropped, and a closed surface stays closed.", "quantifier": "all lists of facets and points in the box given, all tolerances", "why_tests_cant": "any number of facets can lie in one plane, in any order, and be joined through any chain of others", "anchors": ["src/simplifyPLCfacets.hh: simplifyPLCfacets (3D)"]}
{"id": "C97", "title": "Tessellating points that may coincide", "statement": "tessellateDegenerate returns the tessellation of the points that are left when points closer than the tolerance are made one, without or with a boundary, and for every input point the number of its cell: the cell of the first point at the same place. Two points share a cell exactly if they are at the same place.", "quantifier": "all lists of points, in any order and with any number of copies, all tolerances and boundaries", "why_tests_cant": "which points are copies of which can be any relation, and the map must be right for all of them", "anchors": ["src/TessellatorInline.hh: Tessellator::tessellateDegenerate", "src/polytope_geometric_utilities.hh: uniquePoints"]}
{"id": "C98", "title": "Comparisons are orderings", "statement": "Every comparison handed to std::sort, std::set or std::map is a strict weak ordering, as these require, and values that are not ordered are equal where the comparison is meant to tell them apart.", "quantifier": "all points, segments, edges and pairs, all tolerances", "why_tests_cant": "the requirement is about all triples of values; where it fails, the containers misbehave only for some inputs and orders of insertion", "anchors": ["src/Point.hh: Point2, Point3, PointComparator", "src/Segment.hh: Segment", "src/MeshEditor.hh: edgeCompare", "src/polytope_internal.hh: pairCompare, ComparePairByFirstElement", "src/convexHull_2d.hh: FuzzyPoint2LessThan", "src/PLC_CSG_3d.hh: _EdgePointComparator3d"]}
{"id": "C99", "title": "Points on an integer grid", "statement": "A real position put on an integer grid and read back has moved by at most half a step in each coordinate, and a point of the grid is put where it was. Adding and subtracting a point undo each other, whenever they do not overflow.", "quantifier": "all positions, grids and points in the range of int", "why_tests_cant": "rounding must be right for every position relative to the corner of the grid", "anchors": ["src/Point.hh: Point2, Point3"]}
{"id": "C100", "title": "C interface: fields and tags handed to the Silo writer", "statement": "Writing a tessellation through the C interface hands to the writer, for the nodes, edges, faces and cells, exactly the fields and tags of the caller, each under its own name and a tag with exactly the listed elements; of two with the same name the later one counts. All memory taken for the tags is given back exactly when no tag name of a kind of element occurs twice. Any dimension but 2 and 3 stops the program.", "quantifier": "all numbers of fields and tags, names, sizes and contents", "why_tests_cant": "all combinations of names and sizes, repeated names among them", "anchors": ["polytope_c/polytope_write_silo.cc: polytope_write_silo_with_tags, polytope_write_silo"]}
{"id": "C101", "title": "C interface: fields and tags given back by the Silo reader", "statement": "Reading through the C interface gives back as many fields as were read, each with its name and values, and for each kind of tags that was asked for as many tags as were read, each with its name, size and elements.", "quantifier": "all fields and tags a file can hold, all choices of the tags asked for", "why_tests_cant": "must hold for every number of fields and tags", "anchors": ["polytope_c/polytope_read_silo.cc: polytope_read_silo_with_tags, polytope_read_silo"]}
{"id": "C102", "title": "Planar tessellation made with Voro++", "statement": "VoroPP_2d turns the cells computed by Voro++ into a well formed mesh: one cell per generator, the convex polygon of its vertices walked counterclockwise, every grid point a node once, every edge a face once, shared with opposite directions by the two cells that have it, the nodes within half a step of the vertices.", "quantifier": "all generators, boxes, tolerances, lists of cells the library may give, and contents of the set the hull is built with", "why_tests_cant": "must hold for every number and order of the cells and of the vertices in them; the order in which vertices and edges are met decides the numbering", "anchors": ["src/VoroPP_2d.cc: VoroPP_2d::tessellate, updateMeshVertices, insertFaceInfo", "src/convexHull_2d.hh: convexHull_2d"]}
{"id": "C103", "title": "C interface: tessellating with a handle", "statement": "Through the C interface a tessellator handle behaves as the C++ tessellator it was made for, whatever was done with it and with other handles before: tessellating uses the first num_points points of the array (and of the boundary) and gives the same tessellation as the C++ call, the queries give its answers, a freed handle is not usable, and nothing stays allocated when every handle was freed.", "quantifier": "all histories of making, using and freeing handles of either dimension, clearing the tessellation and tessellating into it, all C++ tessellators, all point arrays and PLC objects", "why_tests_cant": "must hold for every interleaving of calls on any number of handles", "anchors": ["polytope_c/polytope_tessellator.cc: polytope_tessellator_tessellate_unbounded, polytope_tessellator_tessellate_in_box, polytope_tessellator_tessellate_in_plc, polytope_tessellator_free, polytope_tessellator_name, polytope_tessellator_dimension, polytope_tessellator_handles_plcs, polytope_tessellator_degeneracy, boost_tessellator_new, triangle_tessellator_new, tetgen_tessellator_new"]}
{"id": "C104", "title": "Errors go to the handler set last", "statement": "An error calls the handler set last, through C++ or C, exactly once with the message and the status, and nothing else; when none was set, or NULL was set last, the message is printed (under MPI by rank 0 only) and the program is left with the status.", "quantifier": "all histories of setting handlers through the two interfaces and of errors, all messages (NUL characters included) and statuses, with and without MPI", "why_tests_cant": "must hold after every history of calls through both interfaces", "anchors": ["src/ErrorHandler.cc: error, setErrorHandler, defaultErrorHandler", "polytope_c/polytope_c.cc: polytope_set_error_handler"]}
{"id": "C105", "title": "An integer grid over points", "statement": "A QuantizedCoordinates grid keeps every point it was given in its box however often it grows, its inner box stays in the outer one and its center in the middle of the points it was set up with; a position in the box has a place on the grid, numbered from 0 to coordMax along each axis, and the way back gives a position at most half a spacing away; the spacing is the degeneracy, and the PLC is the box.", "quantifier": "all histories of initialize, expand, degeneracy and clear, all point sets, spacings and positions, two and three dimensions", "why_tests_cant": "must hold after every history of calls and for every position in the box", "anchors": ["src/QuantizedCoordinates.hh: QuantizedCoordinates::initialize, expand, quantize, dequantize, isInner, degeneracy, clear"]}
{"id": "C106", "title": "Cells of generators in a line", "statement": "For generators in a straight line inside a circle, given in any order, constructCells1d returns one cell for each generator, in the order they were given: its corners are on the circle and go counterclockwise around the generator, which is in the cell; every point of the cell is at least as near to its generator as to any other; and generators next to each other share a side.", "quantifier": "all numbers and orders of generators, all lines, circles and spacings", "why_tests_cant": "must hold for every number of generators in every order on every line", "anchors": ["src/polytope_tessellator_utilities.hh: constructCells1d", "src/polytope_geometric_utilities.hh: unitVector, rayCircleIntersection"]}
{"id": "C107", "title": "Where a segment meets a bounding box", "statement": "intersectBoundingBox of a segment and a box lists each side the segment meets once, in order, with the point on the side where it does, lists each point once (a corner belongs to two sides), and returns their number.", "quantifier": "all segments, boxes and tolerances", "why_tests_cant": "must hold for every position of the segment to the box", "anchors": ["src/polytope_tessellator_utilities.hh: intersectBoundingBox", "src/polytope_geometric_utilities.hh: segmentIntersection2D"]}
{"id": "C108", "title": "Boundaries and cells as rings on a grid", "statement": "constructBoostBoundary of a boundary gives the closed ring through its points that has the facets as sides, and the same for each hole; convertTessellationToRings gives for each cell the closed ring of its nodes, each at the place of the grid nearest to it along each axis.", "quantifier": "all boundaries with all holes, all planar meshes, all grids", "why_tests_cant": "must hold for every boundary, mesh and grid", "anchors": ["src/polytope_tessellator_utilities.hh: constructBoostBoundary, convertTessellationToRings", "src/Point.hh: Point2"]}
{"id": "C109", "title": "Cells of planar Voro++", "statement": "A cell that starts as a rectangle around its particle and is cut for each of the other particles, in any order, is kept and is the convex polygon of exactly those points of the rectangle that are at least as near to its particle as to every other; vertices returns its corners and neighbors, for each, the particle or wall the side that starts there lies on. A single cut leaves exactly the part of the cell that is not beyond the line, with no corner twice, and says that nothing is left exactly if every corner is beyond it.", "quantifier": "all rectangles, all numbers, positions and orders of the other particles, all convex cells and lines", "why_tests_cant": "must hold for every sequence of cuts; each one rewrites the linked corners left by all before it", "anchors": ["voro_2d/cell_2d.cc: voronoicell_base_2d::nplane, nplane_cut, init_base, vertices, voronoicell_neighbor_2d::init, neighbors", "voro_2d/cell_2d.hh: pos, nplane"]}
{"id": "C110", "title": "Measures of a planar Voro++ cell", "statement": "For every planar cell, area and centroid are the area and centroid of its polygon, and for a convex cell the area is positive and the centroid is in the cell; max_radius_squared is four times the largest squared distance of a corner from the particle, and a particle at least twice as far away as that corner leaves the cell as it is; plane_intersects is true exactly if a corner is beyond the line by the tolerance.", "quantifier": "all cells with all numbers of corners however they are stored, all lines and particles", "why_tests_cant": "must hold for every cell; that far particles cannot cut is what lets the computation of a cell stop", "anchors": ["voro_2d/cell_2d.cc: voronoicell_base_2d::area, centroid, max_radius_squared, plane_intersects"]}
{"id": "C111", "title": "Planar containers of particles", "statement": "After any history of particles put into a new planar container, looping over the container visits, each exactly once, those and only those particles that are inside its rectangle (without its upper sides) in every direction that is not periodic, and total_particles is their number; each has its number and its position, moved onto the rectangle by whole widths in periodic directions only and not at all if it was inside, and is in the block that contains it. A particle on an upper side of a direction that is not periodic is not taken.", "quantifier": "all rectangles and numbers of blocks, periodic or not in each direction, all histories of particles whose block number is an int", "why_tests_cant": "must hold for every sequence of particles: where one goes depends on roundings towards zero that are right for some signs only", "anchors": ["voro_2d/container_2d.cc: container_2d::put, container_base_2d::put_remap", "voro_2d/container_2d.hh: total_particles", "voro_2d/c_loops_2d.hh: c_loop_all_2d", "voro_2d/v_base_2d.hh: step_int, step_mod, step_div"]}
