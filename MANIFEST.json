{
 "claims": [
  {
   "property": "C01",
   "status": "proved",
   "theorems": [
    "serialize_roundtrip",
    "serialize_roundtrip_needs_small_vectors"
   ],
   "note": "For every serializable type; element counts below 2^32, little-endian object representation."
  },
  {
   "property": "C02",
   "status": "proved",
   "theorems": [
    "serialize_sequence_roundtrip",
    "serialize_prefix_free"
   ],
   "note": ""
  },
  {
   "property": "C03",
   "status": "proved",
   "theorems": [
    "truncated_buffer_refused"
   ],
   "note": ""
  },
  {
   "property": "C04",
   "status": "proved",
   "theorems": [
    "deserialize_vector_appends",
    "deserialize_reduced_plc_appends",
    "deserialize_into_nonempty_refuted"
   ],
   "note": "Appending is proved; the finding is that a non-empty target is not overwritten."
  },
  {
   "property": "C05",
   "status": "proved",
   "theorems": [
    "addKeyToMap_numbers",
    "addKeyToMap_stable",
    "addKeyToMap_edges",
    "addKeyToMap_points2",
    "addKeyToMap_points3",
    "key_comparators_strict_weak",
    "fuzzy_not_strict_weak_refuted",
    "fuzzy_comparator_refuted",
    "fuzzy_numbering_order_dependent_refuted"
   ],
   "note": ""
  },
  {
   "property": "C06",
   "status": "proved",
   "theorems": [
    "hashEdge_unordered",
    "hashEdge_identifies",
    "hashEdge_equal_aborts",
    "signed_index_roundtrip"
   ],
   "note": ""
  },
  {
   "property": "C07",
   "status": "proved",
   "theorems": [
    "removeElements_correct",
    "removeElements_refuses"
   ],
   "note": "Sizes do not overflow size_t."
  },
  {
   "property": "C08",
   "status": "proved",
   "theorems": [
    "bisectSearch_ascending",
    "brackets_unique",
    "bisectSearch_descending_partial",
    "bisectSearch_descending_refuted",
    "bisectSearch_empty_reads_outside"
   ],
   "note": "Ascending tables complete; finding: a value equal to an entry of a descending table aborts or reads table[-1]."
  },
  {
   "property": "C09",
   "status": "proved",
   "theorems": [
    "index_history",
    "index_total",
    "index_repeat",
    "index_dense",
    "index_ambiguous_aborts"
   ],
   "note": "Coordinates do not overflow IntType."
  },
  {
   "property": "C10",
   "status": "partial",
   "theorems": [
    "have_2d",
    "have_no_false_negative",
    "have_3d_refuted"
   ],
   "note": "2D exact; in 3D only no-false-negatives holds, exactness is refuted (matchingIDs never narrowed)."
  },
  {
   "property": "C100",
   "status": "proved",
   "theorems": [
    "write_silo_hands_over",
    "write_silo_fields",
    "write_silo_dimension"
   ],
   "note": "Sizes are not negative and arrays as long as said. A repeated tag name leaks the earlier vector, as the statement says."
  },
  {
   "property": "C101",
   "status": "partial",
   "theorems": [
    "read_silo_partial",
    "read_silo_refuted",
    "read_tags_iff",
    "read_tags_refuted"
   ],
   "note": "Fields: right with at most one, undefined behaviour for every file with two or more (a pointer is followed outside the variable of the caller). Tags: read_tags_iff says exactly when they are right, which is by accident: the code goes over the fields in place of the tags."
  },
  {
   "property": "C102",
   "status": "partial",
   "theorems": [
    "voro2_readout_partial",
    "voro2_place_partial",
    "voro2_angle_refuted",
    "voro2_overflow_refuted",
    "voro2_default_refuted",
    "voro2_shift_refuted"
   ],
   "note": "Read-out of the cells of the library, given as an argument: proved for cells whose first vertex is the corner of an exact right angle on the grid, whose first edge is shorter than 46341 steps, and whose vertices are not next to one another in the grid. Without the right angle the hull is taken for a line and no mesh is made (voro2_angle_refuted), with a longer first edge the square overflows (voro2_overflow_refuted), with the default degeneracy cells become points (voro2_default_refuted). Vertices are at their place only when every generator is the centroid of its cell (voro2_shift_refuted)."
  },
  {
   "property": "C103",
   "status": "partial",
   "theorems": [
    "tessl_calls",
    "tessl_freed",
    "tessl_result_partial",
    "tessl_plc_refuted",
    "tessl_name_refuted"
   ],
   "note": "For every history of calls a handle that was not freed is its C++ tessellator (tessl_calls), memory is right (tessl_freed), and the C tessellation read back is the C++ one but for the convex hull and the second cells of C63 (tessl_result_partial). Refuted: a PLC object of the other dimension is undefined behaviour instead of an error, and the name is returned as a pointer into a destroyed string. An address is not used again after it was freed."
  },
  {
   "property": "C104",
   "status": "proved",
   "theorems": [
    "error_handled",
    "last_set_unique",
    "error_null_stops",
    "error_left"
   ],
   "note": "State machine of the two static variables over all histories through both interfaces. Handlers are taken to return; a C handler sees the message up to its first NUL."
  },
  {
   "property": "C105",
   "status": "partial",
   "theorems": [
    "coords_hold",
    "coords_start",
    "coords_round",
    "coords_grid_partial",
    "coords_outer_stops",
    "coords_changed_stops",
    "coords_plc_partial",
    "coords_max_refuted",
    "coords_plc_refuted",
    "coords_space_refuted",
    "coords_spacing_refuted"
   ],
   "note": "Boxes, center and sphere over all histories (coords_hold), exactly when a grid is set up and what it is (coords_start), rounding (coords_round). Numbers up to coordMax and the PLC are proved for a grid that was just set up: growing takes in the origin, so numbers can exceed coordMax (coords_max_refuted), and leaves the PLC as it was (coords_plc_refuted); in space five facets of the PLC are never filled in (coords_space_refuted); a changed degeneracy does not change the spacing (coords_spacing_refuted). Points with one first coordinate stop the program. One process; projectPoint is C38."
  },
  {
   "property": "C106",
   "status": "partial",
   "theorems": [
    "line_cells",
    "line_shared",
    "line_coincide_stops",
    "line_single_refuted"
   ],
   "note": "Proved for two or more generators no two of which are within 1e-100 of each other, over the reals. std::sort is an argument with its contract, and a function that meets it is given. A single generator makes the code read past the end of its list (line_single_refuted); generators that coincide stop the program (line_coincide_stops). The output vectors are taken to start empty."
  },
  {
   "property": "C107",
   "status": "partial",
   "theorems": [
    "box_hits_partial",
    "box_complete_partial",
    "box_level_refuted",
    "box_twice_refuted"
   ],
   "note": "Every listed point is on its side where the segment meets it, sides are in order without repeats, the count is right, and the lists are empty exactly if no side is touched. A new point is compared with the last one through its height only (and that height less one), so a level segment loses one of its two points (box_level_refuted) and a diagonal lists a corner twice (box_twice_refuted); all touched sides are listed when the points differ in those numbers (box_complete_partial). Exact arithmetic."
  },
  {
   "property": "C108",
   "status": "partial",
   "theorems": [
    "boundary_rings_partial",
    "boundary_open_stops",
    "boundary_order_refuted",
    "cell_rings_partial",
    "cell_below_refuted"
   ],
   "note": "Proved for facets given one after the other around the boundary and around each hole: the code takes the second point of each facet in turn, so facets in another order give a ring with other sides (boundary_order_refuted); a boundary that does not close stops the program. Rings of cells are proved for nodes at or above the corner of the grid that have a 32 bit place, given the contract of correct and that no ring meets itself; nodes below the corner get a wrong place (cell_below_refuted)."
  },
  {
   "property": "C109",
   "status": "partial",
   "theorems": [
    "cut_region_partial",
    "cell_is_nearest_partial",
    "cut_corner_refuted"
   ],
   "note": "Proved in exact arithmetic for all sequences of cuts in which no corner is within the tolerance 1e-10 of a line that is about to cut. A line through a corner is violated by the code: it tests u3>tolerance where it means u3>-tolerance, and stores the corner a second time (cut_corner_refuted). Growth of the arrays and which particles voro_2d cuts with (the search over blocks) are not modelled."
  },
  {
   "property": "C11",
   "status": "proved",
   "theorems": [
    "sorted_edges_closed",
    "sorted_edges_two"
   ],
   "note": "Loops of three or more edges; with two edges only opposite directions pass the routine's own contract."
  },
  {
   "property": "C110",
   "status": "proved",
   "theorems": [
    "plane_intersects_exact",
    "radius_exact",
    "radius_enough",
    "area_centroid_exact"
   ],
   "note": "In exact arithmetic, for every cell of at least three corners. perimeter, edge_lengths and normals are not modelled."
  },
  {
   "property": "C111",
   "status": "proved",
   "theorems": [
    "steps_floor",
    "put_exact",
    "container_keeps",
    "periodic_image_refuted"
   ],
   "note": "In exact arithmetic, for particles whose block number fits an int. The upper sides are included for moved particles because step_int of a negative whole number is one too small: a particle a whole number of blocks below a periodic container ends on the upper side of its block, and possibly of the rectangle (periodic_image_refuted). Growth of the arrays of a block is not modelled."
  },
  {
   "property": "C12",
   "status": "partial",
   "theorems": [
    "sorted_edges_open_partial",
    "sorted_edges_open_aborts",
    "sorted_edges_open_refuted"
   ],
   "note": "Refuted for the code: the first entry is never flipped. Exact characterisation: correct when the loose end of the first end edge is its second node, aborts otherwise."
  },
  {
   "property": "C13",
   "status": "proved",
   "theorems": [
    "deleteCells_keeps_mesh",
    "deleteCells_refuses"
   ],
   "note": "PartOf (MeshSpec.v) is the independent statement: the new mesh is the renumbered surviving part, in order. Deleting every cell aborts."
  },
  {
   "property": "C14",
   "status": "proved",
   "theorems": [
    "deleteCells_wellformed",
    "deleteCells_history"
   ],
   "note": "Includes arbitrary histories of deletions."
  },
  {
   "property": "C15",
   "status": "proved",
   "theorems": [
    "deleteCells_keeps_mesh",
    "deleteCells_shared_match",
    "deleteCells_shared_faces_match"
   ],
   "note": "Order-preserving selection (PartOf) plus agreement of two domains' lists."
  },
  {
   "property": "C16",
   "status": "partial",
   "theorems": [
    "deleteCells_boundary_refuted",
    "deleteCells_boundary_partial",
    "findBoundaryElements_exact"
   ],
   "note": "Refuted for the code: the boundary lists are handed over unrenumbered. Proved: with an all-ones mask the face list stays right, and recomputing with findBoundaryElements is always right."
  },
  {
   "property": "C17",
   "status": "partial",
   "theorems": [
    "editor_deleteCells_partial",
    "editor_deleteCells_wellformed_partial",
    "editor_deleteCells_overruns",
    "editor_deleteCells_refuses",
    "editor_deleteCells_refuted"
   ],
   "note": "Refuted for the code: newCells is indexed with old cell ids, so deleting any cell before a surviving one writes past the end. Proved exactly when it works (deletions at the end of the list)."
  },
  {
   "property": "C18",
   "status": "proved",
   "theorems": [
    "cleanEdges_correct",
    "cleanEdges_consistent",
    "cleanEdges_refuses"
   ],
   "note": "Serial path, exact rational coordinates, squared lengths. Planar meshes whose border consists of simple closed curves (the code asserts two border faces per border node)."
  },
  {
   "property": "C19",
   "status": "proved",
   "theorems": [
    "findBoundaryElements_exact",
    "findBoundaryElements_closed_aborts"
   ],
   "note": "A mesh with no boundary face aborts."
  },
  {
   "property": "C20",
   "status": "proved",
   "theorems": [
    "computeNodeCells_exact",
    "computeCellToNodes_exact",
    "node_cell_tables_transpose"
   ],
   "note": ""
  },
  {
   "property": "C21",
   "status": "proved",
   "theorems": [
    "clear_is_fresh",
    "clear_empty",
    "empty_exact",
    "empty_ignores_communication_refuted"
   ],
   "note": "Finding: empty() ignores neighborDomains/sharedNodes/sharedFaces."
  },
  {
   "property": "C22",
   "status": "proved",
   "theorems": [
    "boost_readout_correct",
    "clip_readout_correct",
    "clip_readout_returns",
    "readout_shares_edges",
    "readout_closes_loops"
   ],
   "note": "Both read-outs (Boost Voronoi and clipping): cells walk exactly their snapped segments, nodes/edges unique, shared edges get one id with opposite signs."
  },
  {
   "property": "C23",
   "status": "proved",
   "theorems": [
    "fill_correct",
    "fill_refuses",
    "fill_reused_refuted",
    "boost_mesh_wellformed"
   ],
   "note": "fillTessellation into an empty mesh; the refuted theorem shows that a non-empty mesh keeps stale faceCells (entry points only pass empty meshes)."
  },
  {
   "property": "C24",
   "status": "proved",
   "theorems": [
    "cleanup_correct",
    "cleanup_refuses"
   ],
   "note": "Clean-up after clipping keeps exactly the used edges and nodes and renumbers consistently."
  },
  {
   "property": "C25",
   "status": "partial",
   "theorems": [
    "reduced_facets_partial",
    "reduced_out_of_range",
    "reduced_holes_partial",
    "reduced_holes_refuted"
   ],
   "note": "Facets proved; holes are refuted for the code: their points are neither kept nor renumbered. Proved right when every point up to the hole vertices is used by a facet."
  },
  {
   "property": "C26",
   "status": "proved",
   "theorems": [
    "box2_correct",
    "box2_reuse",
    "plc_box2_correct",
    "plc_box3_correct"
   ],
   "note": "makeBoxPLC in 3D is unimplemented in the code (asserts); plc_box covers 3D. Exact rational coordinates."
  },
  {
   "property": "C27",
   "status": "proved",
   "theorems": [
    "bounding_box_tight",
    "global_box_tight",
    "expand_box_smallest"
   ],
   "note": "Exact coordinates; the MPI reduction is modelled as minimum/maximum over all ranks."
  },
  {
   "property": "C28",
   "status": "proved",
   "theorems": [
    "quantize_in_range",
    "dequantize_error",
    "quantize_monotone",
    "quantize_dequantize",
    "quantize_separates",
    "coord_range",
    "boundary_frame_holds",
    "box_frame_holds",
    "construct_correct",
    "guards_distinct_refuted"
   ],
   "note": "Exact arithmetic in place of double. The last theorem records that the guard generators repeat a corner."
  },
  {
   "property": "C29",
   "status": "partial",
   "theorems": [
    "hash_same_cell_partial",
    "unhash_in_cell_partial",
    "hash_int_partial",
    "hash_int_refuted",
    "hash_int_3d_refuted",
    "unhash_int_refuted"
   ],
   "note": "Holds with the 64 bit key the comments assume; with the actual key type int it is refuted: planar hashes keep the column and the parity of the row, spatial ones are undefined."
  },
  {
   "property": "C30",
   "status": "partial",
   "theorems": [
    "unique_points_partial",
    "unique_points_int_partial",
    "unique_coincident_merged",
    "unique_points_refuted",
    "unique_points_3d_refuted",
    "tessellate_degenerate_partial",
    "degenerate_outside_aborts"
   ],
   "note": "Merging is exact with a 64 bit key; with int coincident points are still merged but distinct ones can be too (refuted), and 3D is undefined."
  },
  {
   "property": "C31",
   "status": "partial",
   "theorems": [
    "morton_interleaves_partial",
    "morton_distinct_partial",
    "morton_int_refuted",
    "morton_int_3d_refuted",
    "morton_3d_collides_refuted"
   ],
   "note": "Holds in 2D for any key type with room for both coordinates; with the constants of KeyTraits every call is undefined, and in 3D keys collide for any type."
  },
  {
   "property": "C32",
   "status": "proved",
   "theorems": [
    "closest_point_on_segment",
    "closest_point_tiny_refuted",
    "nearest_point_correct",
    "nearest_point_no_facet",
    "nearest_point_checks"
   ],
   "note": "Over the real numbers (standard library Reals). closest_point_tiny_refuted shows that the 1e-10 tolerance in the statement is needed."
  },
  {
   "property": "C33",
   "status": "proved",
   "theorems": [
    "area_is_sum_of_triangles",
    "fan_cuts_polygon",
    "area_returns",
    "area_only_edges",
    "area_additive",
    "area_start_free",
    "area_reversed",
    "area_affine",
    "area_convex",
    "volume_is_sum_of_tetrahedra",
    "volume_from_any_point",
    "volume_positive",
    "cell_centroid_is_mean"
   ],
   "note": "Exact rational coordinates."
  },
  {
   "property": "C34",
   "status": "proved",
   "theorems": [
    "pip_counts_crossings",
    "even_odd_unique",
    "pip_start_and_direction",
    "pip_convex",
    "pip_triangles",
    "pop_border"
   ],
   "note": "Exact rational coordinates. Points on the border are judged as if moved a little to the right."
  },
  {
   "property": "C35",
   "status": "proved",
   "theorems": [
    "convex_intersect",
    "convex_intersect_symmetric",
    "polygon_is_hull"
   ],
   "note": "2D, by Helly's theorem; the 3D routine is C57."
  },
  {
   "property": "C36",
   "status": "proved",
   "theorems": [
    "convex_within"
   ],
   "note": "2D; the 3D routine is C57."
  },
  {
   "property": "C37",
   "status": "partial",
   "theorems": [
    "convex_hull_partial",
    "hull_is_combinations",
    "convex_hull_rounded",
    "convex_hull_line",
    "set_fill_total",
    "hull_spacing_refuted",
    "hull_small_refuted",
    "hull_neighbour_refuted"
   ],
   "note": "Exact hull for inputs on the hashing grid, pairwise equal or two steps apart, whose first points are not mistaken for a line; in general the hull of the kept grid positions, within 1.5 steps of every input. Refuted without these conditions: spacing 1, small figures, neighbouring grid points."
  },
  {
   "property": "C38",
   "status": "partial",
   "theorems": [
    "segments_meet",
    "segments_point",
    "segments_cross",
    "ray_plane_partial",
    "ray_box_partial",
    "ray_sphere",
    "ray_circle",
    "ray_plane_parallel_refuted",
    "ray_box_refuted",
    "ray_circle_outside_refuted"
   ],
   "note": "Segments: exactly when and where they meet, for every tolerance; parallel segments are always reported apart. Rays: spheres and circles from inside, planes at an angle, boxes from inside when no side is taken to contain the ray. Refuted: rays parallel to a plane, rays from outside a box or a circle, axis rays in a box."
  },
  {
   "property": "C39",
   "status": "partial",
   "theorems": [
    "csg_parts",
    "csg_union_partial",
    "csg_intersect_partial",
    "csg_subtract_partial",
    "csg_turned_refuted",
    "csg_nonconvex_refuted",
    "csg_empty_refuted"
   ],
   "note": "Two dimensions. For all boundaries: the operations end, stay in bounds and return only parts of the given edges. For convex polygons in general position the result is the boundary of the combined region as a set of points. The direction of the facets is not kept (refuted), non-convex regions can come out wrong (refuted) and an empty intersection stops the program (refuted). Missing: aligned or touching polygons; solids in space are C94."
  },
  {
   "property": "C40",
   "status": "partial",
   "theorems": [
    "simplify_2d_partial",
    "simplify_2d_int_partial",
    "simplify_turned_refuted",
    "simplify_int_refuted"
   ],
   "note": "In the plane, for one boundary that does not touch itself and whose corners are clearly in line or not. The direction of the boundary is not kept (simplify_turned_refuted), holes are dropped, and with an int key distinct points are merged (simplify_int_refuted). Exact arithmetic; the routine for 3D is C96."
  },
  {
   "property": "C41",
   "status": "proved",
   "theorems": [
    "gather_all",
    "owner_partition",
    "owner_refuses"
   ],
   "note": "Every number of ranks, every split of the points including ranks without points; the gathering broadcasts are modelled byte for byte."
  },
  {
   "property": "C42",
   "status": "proved",
   "theorems": [
    "share_lists",
    "share_lists_agree",
    "serial_distributed",
    "serial_lists_agree",
    "serial_then_exchange",
    "serial_empty_rank"
   ],
   "note": "For any tessellator that is a function of the gathered points. The lists agree for every ownership; a run in which some rank has no points aborts in deleteCells (serial_empty_rank), so the end-to-end theorem asks for points on every rank."
  },
  {
   "property": "C43",
   "status": "proved",
   "theorems": [
    "shared_positions",
    "copies_agree",
    "incomplete_lists_abort"
   ],
   "note": "For every number of ranks, every dimension and every delivery order (asynchronous sends, FIFO per sender, receiver and tag): no deadlock, no abort, and every copy gets the coordinates of the lowest holder. The lists of the ranks must be complete and agree (C42); incomplete_lists_abort shows the hypothesis is needed."
  },
  {
   "property": "C44",
   "status": "partial",
   "theorems": [
    "default_run_stops",
    "default_run_refuted",
    "default_run_partial"
   ],
   "note": "Refuted: with the default buildCommunicationInfo = false no rank that found neighbors finishes, because the pruning loop reads sharedNodes entries that were never made. Proved for a rank without neighbors."
  },
  {
   "property": "C45",
   "status": "partial",
   "theorems": [
    "reduce_same",
    "check_verdict_partial",
    "check_accepts",
    "serial_passes",
    "check_refuted"
   ],
   "note": "All ranks get the same string, 'ok' exactly when the neighbor lists are mutual, equal and complete, under a guard (Readable). Refuted without it: a size mismatch message reads sharedIDs[k] with the sender's index k (line 111), which may be past the end."
  },
  {
   "property": "C46",
   "status": "partial",
   "theorems": [
    "masks_agree_partial",
    "cleanEdges_ranks_partial",
    "cleanEdges_ranks_match_partial",
    "cleanEdges_ranks_fail",
    "cleanEdges_ranks_refuted",
    "cleaning_alone_refuted"
   ],
   "note": "Proved for every schedule and any number of ranks as long as no rank has more than one neighbor: masks, nodes that go and shared lists agree. With more neighbors the property fails: the send buffer is not cleared between neighbors, so a rank that a neighbor does not list first fails an assertion in every schedule (cleanEdges_ranks_fail). Also refuted: that on a rank without neighbors cleaning does what it does in one process (the border rule is dropped)."
  },
  {
   "property": "C47",
   "status": "partial",
   "theorems": [
    "distance_partial",
    "last_edge_refuted",
    "project_partial",
    "polygon_accepts"
   ],
   "note": "distanceToEdge gives the distance to the middle of the edge, the nearest point only for points straight off it; project divides by the squared width of the edge only, and is the nearest point exactly on level edges or beyond the ends. On the last edge both read past the array, so nearestEdge, nearestEdgePosition and project over all edges always do (last_edge_refuted)."
  },
  {
   "property": "C48",
   "status": "partial",
   "theorems": [
    "life_partial",
    "life_refilled",
    "life_unfilled_refuted",
    "life_cleared_refuted",
    "life_refill_leaks"
   ],
   "note": "The property as stated fails: new does not initialise face_cells, clear leaves boundary_nodes, boundary_faces and face_cells dangling. Proved: exactly which histories are free of undefined behaviour and which release everything, for tessellations with at least one face."
  },
  {
   "property": "C49",
   "status": "proved",
   "theorems": [
    "plc_history",
    "plc_indices",
    "plc_history_stops",
    "plc_copies"
   ],
   "note": "All call histories of fewer than 2^31 calls with int arguments."
  },
  {
   "property": "C50",
   "status": "partial",
   "theorems": [
    "convex_hull_3d_partial",
    "hull_copy_refuted",
    "hull_int_refuted"
   ],
   "note": "Holds when copies of points come after all other points and the key has 64 bits. A copy before another point shifts the numbers (hull_copy_refuted); with the int key of the code every call on points that are not flat is undefined behaviour (hull_int_refuted)."
  },
  {
   "property": "C51",
   "status": "partial",
   "theorems": [
    "writeOFF_reads_partial",
    "writeOFF_writes",
    "writeOFF_counts_partial",
    "writeOFF_holes_refuted",
    "writeOFF_edges_3d_refuted"
   ],
   "note": "The property fails for PLCs whose holes have facets: the header does not count their lines (writeOFF_holes_refuted, writeOFF_counts_partial: right exactly if no hole has a facet). Proved instead: the file reads back as the points and outer facets, the lines left over are exactly the hole facets; the edge count is right in 2D and always 0 in 3D. Printing of reals is not modelled."
  },
  {
   "property": "C52",
   "status": "proved",
   "theorems": [
    "sorted_nodes_closed",
    "sorted_nodes_open"
   ],
   "note": "Closed loops and chains with one gap."
  },
  {
   "property": "C53",
   "status": "partial",
   "theorems": [
    "cleanEdges_needs_segments",
    "cleanEdges_3d_refuted"
   ],
   "note": "Refuted for the code: the corner search asserts that border faces have two nodes, so the call returns only when every border face is a segment."
  },
  {
   "property": "C54",
   "status": "proved",
   "theorems": [
    "cell_polygon_correct",
    "cell_polyhedron_correct"
   ],
   "note": ""
  },
  {
   "property": "C55",
   "status": "proved",
   "theorems": [
    "snap_correct",
    "snap_returns",
    "snap_exact"
   ],
   "note": "Planar version, one process; the spatial version is unimplemented in the code (asserts)."
  },
  {
   "property": "C56",
   "status": "proved",
   "theorems": [
    "circumcenter_equidistant",
    "circumcenter_unique",
    "circumcenter3d_equidistant",
    "circumcenter3d_flat",
    "triangle_circumcenter_equidistant"
   ],
   "note": "Exact rational coordinates; the collinearity test is written without square roots."
  },
  {
   "property": "C57",
   "status": "partial",
   "theorems": [
    "convex_within3_partial",
    "convex_intersect3_partial",
    "edge_tests_idle",
    "convex_within3_refuted",
    "convex_intersect3_refuted"
   ],
   "note": "False of the code: computeNormal has a typo and the edge-edge loop never separates. Proved for facets where the typo is harmless: containment exactly, and no false 'disjoint'."
  },
  {
   "property": "C58",
   "status": "partial",
   "theorems": [
    "within_complex_partial",
    "within_indices_refuted"
   ],
   "note": "Holds when each boundary lists consecutively numbered vertices; refuted otherwise, because the facet indices are ignored."
  },
  {
   "property": "C59",
   "status": "partial",
   "theorems": [
    "between_partial",
    "between_short_refuted",
    "cloud_partial",
    "cloud_space_refuted"
   ],
   "note": "Between: sound up to the tolerance for all points, complete for segments longer than the tolerance; refuted for short ones. Clouds: right in the plane; in space the third point is ignored and two points read past the array."
  },
  {
   "property": "C60",
   "status": "partial",
   "theorems": [
    "crossings_partial",
    "crossings_count_refuted"
   ],
   "note": "Every reported point is where the segment meets an edge, the count is the number of points, and it is zero exactly when no edge is met. That each crossing is reported is refuted."
  },
  {
   "property": "C61",
   "status": "proved",
   "theorems": [
    "generators_exchanged",
    "neighbors_checked",
    "exchange_gives_input"
   ],
   "note": "Every number of ranks and every schedule. The neighbor lists of computeDomainNeighbors are an input."
  },
  {
   "property": "C62",
   "status": "partial",
   "theorems": [
    "local_mesh",
    "local_mesh_plane",
    "face_key_plane",
    "face_key_space_refuted",
    "lists_agree",
    "lists_then_exchange"
   ],
   "note": "For any serial tessellator; that the meshes of different ranks fit together where they meet (Agree) is a hypothesis on its results. In 3D the key of a face does not exist when one of its node numbers is not smaller than its number of nodes (face_key_space_refuted), so there the theorem needs its hypothesis on the keys."
  },
  {
   "property": "C63",
   "status": "partial",
   "theorems": [
    "round_trip_partial",
    "round_trip_refuted"
   ],
   "note": "Holds for tessellations in which no face has ~0 as its second cell; refuted otherwise. The convex hull is not read back."
  },
  {
   "property": "C64",
   "status": "proved",
   "theorems": [
    "query_point",
    "query_point_simple"
   ],
   "note": "Any polygon; the border clause for polygons whose edges meet only in corners. Exact arithmetic."
  },
  {
   "property": "C65",
   "status": "proved",
   "theorems": [
    "closest_intersection"
   ],
   "note": "Exact arithmetic."
  },
  {
   "property": "C66",
   "status": "partial",
   "theorems": [
    "convex_hull_3d_partial"
   ],
   "note": "Proved for 64 bit keys, points of which no three are in line and none is nearly, but not exactly, in the plane of three others. Exact arithmetic."
  },
  {
   "property": "C67",
   "status": "proved",
   "theorems": [
    "neighbor_lists",
    "neighbors_mutual",
    "neighbors_talk",
    "test_even_plane",
    "test_even_space"
   ],
   "note": "For all hulls that can be sent and all tests of pairs that answer; in both dimensions the test of the code gives the same answer both ways round."
  },
  {
   "property": "C68",
   "status": "partial",
   "theorems": [
    "rank_hull_partial",
    "visible_points_partial",
    "hulls_meet_partial",
    "polygon_hulls_meet",
    "domain_neighbors_partial"
   ],
   "note": "In the plane, for points on the grid of the tessellator and not closer than two steps unless equal, where the planar hull of the code is right (C37). Exact arithmetic."
  },
  {
   "property": "C69",
   "status": "partial",
   "theorems": [
    "outer_touch_partial",
    "neighbors_missed_refuted"
   ],
   "note": "Holds where the cells touch outside of the hulls of the two ranks. A cell hidden inside the hull of its rank can reach another domain between the visible points of a third one; then the two are not listed (neighbors_missed_refuted)."
  },
  {
   "property": "C70",
   "status": "proved",
   "theorems": [
    "plane_file",
    "plane_file_determines"
   ],
   "note": "Objects of a file as listed by the writer; field names must differ from each other and from the writer's own names."
  },
  {
   "property": "C71",
   "status": "proved",
   "theorems": [
    "space_file",
    "space_file_determines"
   ],
   "note": "As C70. The contract check on boundary faces is a hypothesis (Spatial)."
  },
  {
   "property": "C72",
   "status": "partial",
   "theorems": [
    "cell_faces_partial",
    "tags_partial",
    "cell_faces_refuted",
    "face_cells_refuted",
    "tag_names_refuted"
   ],
   "note": "The numbers of faces are right and all data is in the array, but the lengths given for the other two elements are right only if cells plus cell faces is twice the number of faces (cell_faces_partial, both ways); they are swapped otherwise (cell_faces_refuted). The first cell of each face is written twice instead of both cells (face_cells_refuted). Tags keep their values in order but lose their names (tag_names_refuted)."
  },
  {
   "property": "C73",
   "status": "partial",
   "theorems": [
    "fields_written",
    "edge_fields_refuted"
   ],
   "note": "All fields in two dimensions; node, face and cell fields in three. Edge fields of a spatial mesh are cut to the number of faces (edge_fields_refuted)."
  },
  {
   "property": "C74",
   "status": "partial",
   "theorems": [
    "blocks_apart",
    "master_file_partial",
    "master_complete_refuted"
   ],
   "note": "Blocks never collide. The lists are complete if the number of files divides the number of ranks; otherwise ranks are missing from them (master_complete_refuted). The assignment of ranks to groups is Silo's (PMPIO), modelled from its documentation."
  },
  {
   "property": "C75",
   "status": "proved",
   "theorems": [
    "dual_mesh"
   ],
   "note": "The Delaunay triangulation, which the Triangle library computes, is an input with its defining properties as hypothesis. Coordinates are exact."
  },
  {
   "property": "C76",
   "status": "proved",
   "theorems": [
    "voronoi_cells"
   ],
   "note": "As C75; the cell is the closed Voronoi region, as the set of convex combinations of the circumcenters."
  },
  {
   "property": "C77",
   "status": "proved",
   "theorems": [
    "standard_frame"
   ],
   "note": "For the constructor with boundary points; generators in their bounding box, which must not be a single point."
  },
  {
   "property": "C78",
   "status": "partial",
   "theorems": [
    "one_direction_partial",
    "shared_face_sign_refuted"
   ],
   "note": "Within one cell all signs follow one direction round the cell. The direction depends on node numbers, and a shared face can have the same sign in both cells (shared_face_sign_refuted)."
  },
  {
   "property": "C79",
   "status": "partial",
   "theorems": [
    "generators_need_triangles",
    "distinct_nodes_refuted"
   ],
   "note": "A generator without triangles stops the call. Generators on one circle give several nodes at the same place, joined by faces of length zero (distinct_nodes_refuted)."
  },
  {
   "property": "C80",
   "status": "proved",
   "theorems": [
    "points_tessellation"
   ],
   "note": "For TriangleTessellator. The Delaunay triangulation of the points and the guard points is an input with its defining properties as hypothesis. Coordinates are exact."
  },
  {
   "property": "C81",
   "status": "proved",
   "theorems": [
    "bounded_tessellation"
   ],
   "note": "For TriangleTessellator, up to and including the boundary elements. The Delaunay triangulation and the polygons cut by Boost.Polygon are inputs with the stated conditions as hypotheses; corners that differ are more than four grid steps apart, since nodes closer than that may be merged. Coordinates are exact."
  },
  {
   "property": "C82",
   "status": "partial",
   "theorems": [
    "pieces_adopted_refuted",
    "pieces_never_adopted"
   ],
   "note": "As soon as a cell is cut to more than one piece the call never returns normally: removeCollinearPoints computes (i-1)%n with i = 0 in ints and reads the point before the first one. The witness is two points in a U."
  },
  {
   "property": "C83",
   "status": "proved",
   "theorems": [
    "bounded_snapped",
    "bounded_exact"
   ],
   "note": "For TriangleTessellator. The triangulation, the polygons and that the outer corners fit the boundary are hypotheses of bounded_snapped; bounded_exact needs only that the call returns. Coordinates are exact; uses the real numbers of the standard library."
  },
  {
   "property": "C84",
   "status": "proved",
   "theorems": [
    "box_tessellation",
    "box_exact"
   ],
   "note": "As C83, for a box given by two corners."
  },
  {
   "property": "C85",
   "status": "proved",
   "theorems": [
    "boost_tessellation"
   ],
   "note": "The Voronoi diagram is an input with the hypotheses Diagram and CornersApart; coordinates are exact."
  },
  {
   "property": "C86",
   "status": "proved",
   "theorems": [
    "boost_in_boundary"
   ],
   "note": "The Voronoi diagram and the results of the polygon library are inputs with hypotheses."
  },
  {
   "property": "C87",
   "status": "partial",
   "theorems": [
    "every_point_has_a_cell_refuted",
    "every_point_has_a_cell_partial"
   ],
   "note": "Two different points at one place of the grid leave the second one silently without a cell (refuted, with witness); with one point at each place every cell has three faces or more."
  },
  {
   "property": "C88",
   "status": "proved",
   "theorems": [
    "boost_snapped",
    "boost_exact"
   ],
   "note": "As C83, for BoostTessellator; boost_exact needs only that the call returns. Uses the real numbers of the standard library."
  },
  {
   "property": "C89",
   "status": "proved",
   "theorems": [
    "circle_regular",
    "circle_small"
   ],
   "note": "Exact real coordinates, pi and sin from the standard library."
  },
  {
   "property": "C90",
   "status": "partial",
   "theorems": [
    "cylinder_points",
    "sphere_points",
    "sphere_one_row_refuted"
   ],
   "note": "The points are as stated for all arguments; the facets are those of convexHull_3d, which is an argument here (C50, C66). The last clause fails: one row is accepted and gives two points (sphere_one_row_refuted)."
  },
  {
   "property": "C91",
   "status": "partial",
   "theorems": [
    "boost_union_partial",
    "boost_intersect_partial",
    "boost_subtract_partial",
    "boost_tests_partial",
    "boost_op_partial",
    "boost_hole_refuted",
    "boost_empty_refuted",
    "boost_order_refuted"
   ],
   "note": "Boost.Geometry is an argument, with what it should compute for the polygons it is given as hypothesis. Proved for boundaries (with holes) whose facets go round in order and answers without holes. An answer with a hole always fails an assertion (boost_hole_refuted), and so does an empty one, such as the intersection of regions that are apart (boost_empty_refuted); facets in another order are silently read as another polygon (boost_order_refuted)."
  },
  {
   "property": "C92",
   "status": "partial",
   "theorems": [
    "boost_clip_partial",
    "boost_clip_refuted"
   ],
   "note": "As C91, for points in one piece only. Of two pieces that contain the point the first is lost (boost_clip_refuted)."
  },
  {
   "property": "C93",
   "status": "partial",
   "theorems": [
    "boost_reduce_partial",
    "boost_reduce_returns",
    "boost_reduce_empty_refuted",
    "boost_reduce_hole_refuted"
   ],
   "note": "As C91, whenever the call returns. An empty list and a union with a hole stop the program."
  },
  {
   "property": "C94",
   "status": "partial",
   "theorems": [
    "csg3_union_partial",
    "csg3_intersect_partial",
    "csg3_subtract_partial",
    "csg3_parts",
    "csg3_refuted"
   ],
   "note": "Proved for the polygons the operations compute, before they are turned into a ReducedPLC, for convex solids, away from points within EPSILON of a facet plane of the other solid; csg3_parts is for any surfaces without flat triangles. The public functions never return: turning the polygons into a ReducedPLC hashes positions with a 32 bit key (csg3_refuted)."
  },
  {
   "property": "C95",
   "status": "partial",
   "theorems": [
    "voro_readout_partial",
    "voro_place_partial",
    "voro_shift_refuted",
    "voro_box_refuted",
    "voro_order_refuted",
    "voro_default_refuted"
   ],
   "note": "Read-out of the cells of the library, given as an argument: proved for vertices that fit in the integers of the grid and are not next to one another in it. The vertices are at their place only when every generator is the centroid of its cell: otherwise the cell is moved (voro_shift_refuted). In a box that is not a cube the cells reach out of it (voro_box_refuted). With the default degeneracy no mesh is made (voro_default_refuted)."
  },
  {
   "property": "C96",
   "status": "partial",
   "theorems": [
    "simplify3_partial",
    "simplify3_int_refuted",
    "simplify3_missed_refuted",
    "simplify3_turned_refuted",
    "simplify3_hole_refuted"
   ],
   "note": "Whenever the routine returns, with a 64 bit key and exact arithmetic: the points made one, the facets merged (all that touch the first one and face the same way), the outline and its corners, the direction of convex facets whose first three points are not in line, and the points kept. Facets that touch only a later one can be missed, which leaves the surface open; facets that begin with points in line can be turned round; merged facets around a hole stop the program; with an int key every call is undefined."
  },
  {
   "property": "C97",
   "status": "partial",
   "theorems": [
    "degenerate_tessellation_partial",
    "degenerate_bounded_partial",
    "degenerate_box_partial",
    "degenerate_unique_partial",
    "degenerate_int_refuted"
   ],
   "note": "End to end for the Triangle tessellator, with a 64 bit key, unbounded, in a boundary and in a box (degenerate_box_partial, with the mesh snapped to the box); points that do not coincide keep their numbers (degenerate_unique_partial): points are at the same place if they are in one square of the grid of uniquePoints. With the key type of the code, int, points half a box apart can be given one cell (degenerate_int_refuted)."
  },
  {
   "property": "C98",
   "status": "partial",
   "theorems": [
    "points_ordered",
    "pairs_ordered",
    "pairs_values",
    "comparator_values",
    "fuzzy_order_partial",
    "fuzzy_cycle_refuted",
    "fuzzy_less_is"
   ],
   "note": "Points, segments, edges, pairs and distances: proved. The comparisons with a tolerance are orderings exactly if it is 0; the set of the planar convex hull uses tolerance 1, where three points can each be less than the next (fuzzy_cycle_refuted). Overflow inside the comparisons is not modelled."
  },
  {
   "property": "C99",
   "status": "partial",
   "theorems": [
    "grid_position_partial",
    "grid_position3_partial",
    "grid_fixed",
    "grid_below_refuted",
    "point_arithmetic",
    "point_negated"
   ],
   "note": "Proved for positions not below the corner of the grid; below it the conversion cuts off towards zero and a position can move by almost a step more (grid_below_refuted)."
  }
 ]
}