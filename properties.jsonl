{"id": "C01", "title": "points() returns the input points in order", "statement": "For any sequence of Builder calls, the points() of the resulting Triangles are exactly the outer polyline's points followed by the points of every add_hole/add_holes/add_steiner_point(s) call, in call order, with nothing added, dropped, reordered or rounded.", "quantifier": "every outer polyline, every sequence of builder calls, any coordinate values (NaN included)", "why_tests_cant": "indices returned to the user index into this list; a test sees only a few call sequences", "anchors": ["src/cdt.rs:Builder", "src/cdt.rs:parse_polyline", "src/points.rs:PointsBuilder", "src/points.rs:Points::points_without_fake"]}
{"id": "C02", "title": "data() lines up with points()", "statement": "data() is the concatenation of the data passed in the same call order, so that when every source has as many data as points, data()[i] belongs to points()[i]; point data never influences the triangulation.", "quantifier": "every builder call sequence and every data type", "why_tests_cant": "parametricity over all data and histories", "anchors": ["src/cdt.rs:Builder", "src/cdt.rs:Triangles::data"]}
{"id": "C03", "title": "Building panics exactly on coincident consecutive vertices", "statement": "Builder::new / add_hole panic if and only if the polyline has two cyclically consecutive vertices with equal coordinates (in particular a one-vertex polyline panics); no other polyline, however large or self-intersecting, panics while building.", "quantifier": "every polyline and every builder state reached by earlier calls", "why_tests_cant": "the 'one point only has two edges' and index unwraps must be shown unreachable for every polyline", "anchors": ["src/shape.rs:Edge::new", "src/cdt.rs:parse_polyline", "src/points.rs:PointEdges::push"]}
{"id": "C04", "title": "Every polyline edge gets exactly one edge event", "statement": "In a run that completes, the edge_event callbacks are exactly the cyclically consecutive vertex pairs of the outer polyline and of each hole, each once, with p the endpoint that is lower in (y, then x) order and q the upper one.", "quantifier": "every builder history with finite coordinates", "why_tests_cant": "a dropped or doubled constraint shows only on particular inputs", "anchors": ["src/cdt.rs:parse_polyline", "src/sweeper.rs:Sweeper::sweep_points", "src/shape.rs:Edge::new"]}
{"id": "C05", "title": "Point events: every point once, bottom to top", "statement": "In a run that completes, enter_point_event and exit_point_event are called exactly once for every input point other than the (y,x)-lowest, in nondecreasing (y, then x) order, each exit directly after its own enter's work and before the edge events of that point.", "quantifier": "every point set with finite coordinates, every schedule of events", "why_tests_cant": "order must hold for all permutations of the input", "anchors": ["src/points.rs:Points::new", "src/points.rs:Points::iter_point_by_y", "src/sweeper.rs:Sweeper::sweep_points"]}
{"id": "C06", "title": "Observer protocol", "statement": "Whatever the outcome (return, panic), the callback sequence is well bracketed: will_legalize(t) is followed by legalize_step/triangle_rotated callbacks and then legalized(t) before any other callback; point and edge callbacks never occur inside a legalization; sweep_done and finalized occur at most once, last, in this order.", "quantifier": "every input, every prefix of the run", "why_tests_cant": "observers build state machines on this protocol; it must hold on every path including panics", "anchors": ["src/cdt.rs:Observer", "src/sweeper.rs:Sweeper::legalize", "src/cdt.rs:CDT::triangulate_with_observer"]}
{"id": "C07", "title": "Observing does not change the triangulation", "statement": "triangulate_with_observer returns the same triangles, points and data for every observer, and the same as triangulate().", "quantifier": "every observer and every input", "why_tests_cant": "all observers", "anchors": ["src/cdt.rs:CDT::triangulate_with_observer"]}
{"id": "C08", "title": "Triangulating nothing panics, anything else starts", "statement": "triangulate() on a CDT without any point panics; with at least one point the initial mesh is the single triangle (lowest point, head, tail), whose front is head, lowest, tail.", "quantifier": "every point list", "why_tests_cant": "boundary case for all inputs", "anchors": ["src/cdt.rs:CDT::triangulate_with_observer", "src/advancing_front/vec_backed.rs:AdvancingFront::new"]}
{"id": "C09", "title": "Iterator, triangle_list_indices and points() agree", "statement": "For any value returned by triangulate(), triangle_list_indices has three entries per result triangle; iterating yields exactly those triangles in that order, the k-th triangle's corners being the points at indices 3k, 3k+1, 3k+2 (fake head/tail points included in the index space), then None forever; no access is out of range.", "quantifier": "every completed run, every number of next() calls", "why_tests_cant": "all inputs and iteration depths", "anchors": ["src/cdt.rs:Triangles::triangle_list_indices", "src/cdt.rs:Triangles::next"]}
{"id": "C10", "title": "Result triangles are distinct", "statement": "No mesh triangle is returned twice.", "quantifier": "every completed run", "why_tests_cant": "all meshes", "anchors": ["src/sweeper.rs:Sweeper::clean_mesh"]}
{"id": "C11", "title": "The result is exactly one region bounded by constrained edges", "statement": "The returned triangles are exactly the mesh triangles reachable from the seed triangle through edges not marked constrained: every unconstrained neighbour of a returned triangle is returned, and every returned triangle is connected to the seed without crossing a constrained edge.", "quantifier": "every mesh, every constrained-edge marking", "why_tests_cant": "flood fill over arbitrary meshes", "anchors": ["src/sweeper.rs:Sweeper::clean_mesh", "src/sweeper.rs:Sweeper::finalize_polygon"]}
{"id": "C12", "title": "Finalization terminates and cannot fail on a consistent mesh", "statement": "After the sweep, extracting the result always terminates; on a mesh whose neighbour ids are in range flood filling never panics or reads out of range.", "quantifier": "every mesh", "why_tests_cant": "loop termination for all meshes", "anchors": ["src/sweeper.rs:Sweeper::clean_mesh", "src/sweeper.rs:Sweeper::finalize_polygon"]}
{"id": "C13", "title": "Unchecked indexing is in range", "statement": "No run of triangulate(), on any input whatsoever, performs an out-of-range get_unchecked / raw pointer access or creates aliasing &mut triangles.", "quantifier": "every input, every build profile, every prefix of the run", "why_tests_cant": "memory safety is a for-all claim", "anchors": ["src/triangles.rs:TriangleStore", "src/points.rs:PointId::get", "src/sweeper.rs:Sweeper::flip_edge_event", "src/advancing_front/vec_backed.rs"]}
{"id": "C14", "title": "The advancing front stays a strictly increasing chain from head to tail", "statement": "At every callback the front nodes are strictly increasing in (x, then y), the first is the artificial head, the last the artificial tail, node coordinates are the coordinates of the node's point, and every node but the tail has a triangle.", "quantifier": "every input with finite coordinates and distinct points whose head/tail frame is proper; every callback", "why_tests_cant": "history of inserts and deletes is unbounded", "anchors": ["src/advancing_front/vec_backed.rs:AdvancingFront"]}
{"id": "C15", "title": "Front lookups are exact, with or without cache and hints", "statement": "On every reachable front, looking a coordinate up (plain, cached, or through a node id carrying a possibly stale index hint) finds a node exactly when one with that coordinate is on the front, and the node found is that node; locate_node returns the rightmost node not to the right of the point.", "quantifier": "every front reachable by inserts/deletes/updates, every key, every stale hint", "why_tests_cant": "cache coherence over all histories", "anchors": ["src/advancing_front/vec_backed.rs:search_by_key_with_cache", "src/advancing_front/vec_backed.rs:resolve_index_for_id", "src/advancing_front/vec_backed.rs:locate_node"]}
{"id": "C16", "title": "Triangle count law", "statement": "At every point/edge callback, (number of mesh triangles) + (number of front nodes) = 2 * (number of points processed) + 2.", "quantifier": "every input, every callback", "why_tests_cant": "Euler-type invariant over all histories", "anchors": ["src/sweeper.rs:Sweeper::point_event", "src/sweeper.rs:Sweeper::fill_one"]}
{"id": "C17", "title": "All triangles are counter-clockwise and non-degenerate", "statement": "Every mesh triangle at every callback, and every triangle returned, has positive signed area (vertices strictly counter-clockwise).", "quantifier": "every simple polygon in general position, every callback", "why_tests_cant": "orientation on every path of every run", "anchors": ["src/sweeper.rs:Sweeper::fill_one", "src/sweeper.rs:Sweeper::fill_right_convex_edge_event", "src/sweeper.rs:Sweeper::rotate_triangle_pair"]}
{"id": "C18", "title": "Flips and point events never invert a triangle", "statement": "Provided every triangle was counter-clockwise when it was created by a fill, every triangle of every later mesh is counter-clockwise: legalization flips, constraint flips and point events only ever produce counter-clockwise triangles.", "quantifier": "every finite input with distinct points and proper frame, every callback", "why_tests_cant": "all flip sequences", "anchors": ["src/sweeper.rs:Sweeper::rotate_triangle_pair", "src/sweeper.rs:Sweeper::legalize", "src/sweeper.rs:Sweeper::point_event", "src/utils.rs:in_circle", "src/utils.rs:in_scan_area"]}
{"id": "C19", "title": "Mesh adjacency is consistent", "statement": "At every callback: if triangle a lists b across one of its edges then b lists a across the same edge with opposite direction; edges without neighbour are exactly the front edges and the bottom edge head-tail.", "quantifier": "every run whose created triangles are counter-clockwise", "why_tests_cant": "pointer-structure invariant over all histories", "anchors": ["src/triangles.rs:mark_neighbor_for_two_mut", "src/sweeper.rs:Sweeper::rotate_triangle_pair", "src/sweeper.rs:Sweeper::map_triangle_to_nodes"]}
{"id": "C20", "title": "Constrained Delaunay property", "statement": "At every exit_point_event / edge_event callback and in the result, every edge shared by two triangles and not marked constrained is locally Delaunay: the opposite vertex is not strictly inside the circumcircle (exact arithmetic).", "quantifier": "every run whose created triangles are counter-clockwise", "why_tests_cant": "quality guarantee over all inputs", "anchors": ["src/sweeper.rs:Sweeper::legalize", "src/sweeper.rs:Sweeper::is_legalize"]}
{"id": "C21", "title": "Legalization terminates", "statement": "Each legalization stops after finitely many flips on every consistent mesh of counter-clockwise triangles.", "quantifier": "every mesh", "why_tests_cant": "termination", "anchors": ["src/sweeper.rs:Sweeper::legalize"]}
{"id": "C22", "title": "A point event always completes", "statement": "On points in general position on which the floating point side tests answer as exact ones would, processing a point (locating, inserting, legalizing, hole and basin filling) terminates without panic or undefined behaviour whenever the triangles created so far were counter-clockwise: its exit_point_event follows its enter_point_event and every triangle created in between is counter-clockwise. Consequently the first inverted triangle of a run, and hence every failure, comes from the insertion of an edge.", "quantifier": "every input, both build profiles, every point event of the run", "why_tests_cant": "termination and panic freedom for all meshes", "anchors": ["src/sweeper.rs:Sweeper::point_event", "src/sweeper.rs:Sweeper::fill_advancing_front", "src/sweeper.rs:Sweeper::fill_basin_req"]}
{"id": "C23", "title": "Legalization never destroys a constraint", "statement": "An edge marked constrained is never flipped by legalization and stays marked on both sides.", "quantifier": "every mesh and every legalization", "why_tests_cant": "all flip sequences", "anchors": ["src/sweeper.rs:Sweeper::legalize", "src/sweeper.rs:Sweeper::rotate_triangle_pair"]}
{"id": "C24", "title": "After its edge event an edge is in the mesh", "statement": "When edge_event returns for a polygon edge, the edge is an edge of the mesh and is marked constrained on each triangle having it.", "quantifier": "every completed run in general position", "why_tests_cant": "all flip sequences", "anchors": ["src/sweeper.rs:Sweeper::edge_event", "src/sweeper.rs:Sweeper::edge_event_process", "src/sweeper.rs:Sweeper::flip_edge_event"]}
{"id": "C25", "title": "Mesh triangles never overlap", "statement": "At every stable callback the triangles cover every point strictly between the bottom edge and the front exactly once and no other point.", "quantifier": "every run whose created triangles are counter-clockwise; every generic point of the plane", "why_tests_cant": "planarity over all meshes", "anchors": ["src/sweeper.rs"]}
{"id": "C26", "title": "The result covers the polygon exactly once", "statement": "For a polygon without holes, the returned triangles cover each generic point as many times as the polygon winds around it (so exactly the interior of a simple polygon, once); their areas sum to the polygon's area.", "quantifier": "every completed run whose polygon edges are exactly the marked edges", "why_tests_cant": "for every polygon and every point", "anchors": ["src/sweeper.rs:Sweeper::finalize_polygon", "src/sweeper.rs:Sweeper::clean_mesh"]}
{"id": "C27", "title": "No artificial vertex in the result", "statement": "triangle_list_indices only returns indices of input points.", "quantifier": "every completed run", "why_tests_cant": "index validity for the user on all inputs", "anchors": ["src/sweeper.rs:Sweeper::finalize_polygon", "src/cdt.rs:Triangles::triangle_list_indices"]}
{"id": "C28", "title": "Triangulation of a valid polygon terminates", "statement": "triangulate() terminates on every simple polygon in general position. (False in general, see DESIGN.md finding 1; true on every input whose right-leaning edges have no cap of points below them, e.g. every convex polygon.)", "quantifier": "every simple polygon with pairwise distinct x and y and no three collinear points", "why_tests_cant": "termination", "anchors": ["src/sweeper.rs:Sweeper::fill_right_convex_edge_event", "src/sweeper.rs:Sweeper::edge_event"]}
{"id": "C29", "title": "Triangulation of a valid polygon does not panic", "statement": "triangulate() does not panic on any simple polygon in general position.", "quantifier": "every simple polygon in general position", "why_tests_cant": "panic freedom", "anchors": ["src/sweeper.rs:Sweeper::fill_right_convex_edge_event", "src/sweeper.rs:Sweeper::edge_event"]}
{"id": "C30", "title": "Triangulation of a valid polygon is free of undefined behaviour", "statement": "triangulate() performs no undefined behaviour on any simple polygon in general position.", "quantifier": "every simple polygon in general position", "why_tests_cant": "memory safety", "anchors": ["src/triangles.rs:TriangleStore::get_mut_six", "src/sweeper.rs:Sweeper::flip_edge_event"]}
{"id": "C31", "title": "Steiner points outside the polygon have no effect", "statement": "As documented on add_steiner_point, a Steiner point outside the polygon does not change the returned triangles.", "quantifier": "every polygon, every outside point", "why_tests_cant": "documented contract for all inputs", "anchors": ["src/cdt.rs:Builder::add_steiner_point", "src/sweeper.rs:Sweeper::finalize_polygon"]}
{"id": "C32", "title": "Loading a well-formed file gives exactly its points", "statement": "A text file consisting of the polygon's points one per line, then any number of sections, each a line HOLE or STEINER followed by points one per line, loads to the builder made from those points (one hole per HOLE section, all STEINER sections together), whatever the line endings (LF or CRLF, missing at the end of the last line), empty lines, spacing around the numbers and text after them.", "quantifier": "every polygon, holes, Steiner list and every printer whose numbers parse back", "why_tests_cant": "round trip over all files", "anchors": ["src/loader.rs:PlainFileLoader::load", "src/loader.rs:parse_point"]}
{"id": "C33", "title": "Loader failure modes", "statement": "load returns Err exactly when the file cannot be opened (and panics if it is not UTF-8); on a readable file it never returns Err: it returns Ok, or panics exactly when some line that is neither empty nor a section marker does not start with two parsable numbers, or when building panics because two consecutive vertices of a polyline coincide.", "quantifier": "every file content", "why_tests_cant": "all texts", "anchors": ["src/loader.rs:PlainFileLoader::load", "src/loader.rs:parse_point"]}
{"id": "C34", "title": "Head and tail enclose the input", "statement": "The artificial head and tail points lie strictly to the left/right of and strictly below all input points.", "quantifier": "every point set", "why_tests_cant": "rounding for all magnitudes", "anchors": ["src/points.rs:Points::new"]}
{"id": "C35", "title": "Sweep order is a permutation sorted by (y,x)", "statement": "The order in which points are processed is a permutation of all input points sorted by y, then x.", "quantifier": "every point set (permutation: any values; sortedness: non-NaN)", "why_tests_cant": "all inputs", "anchors": ["src/points.rs:Points::new"]}
{"id": "C36", "title": "Edge flags are independent", "statement": "Marking an edge constrained or Delaunay changes that flag of that edge only; reading back gives what was written; the other flag and the other edges keep their values.", "quantifier": "every flag byte, triangle, edge index", "why_tests_cant": "bit-level for all values", "anchors": ["src/shape.rs:EdgeAttr", "src/shape.rs:InnerTriangle"]}
{"id": "C37", "title": "Triangle navigation is consistent", "statement": "For a triangle with distinct vertices: going clockwise after counter-clockwise returns to the start, the opposite point of a neighbour is its vertex off the shared edge, the edge index of two vertices is the index of the third, the common edge found for two triangles really is one, and it is found whenever the two triangles traverse it in opposite directions (as neighbours in a consistent mesh do); when both traverse it in the same direction it can be missed.", "quantifier": "every pair of triangles", "why_tests_cant": "case analysis over all vertex orders", "anchors": ["src/shape.rs:InnerTriangle"]}
{"id": "C38", "title": "Rotation replaces the diagonal and nothing else", "statement": "Flipping the common edge of two triangles of a consistent mesh yields the two triangles on the other diagonal, keeps all outer edges with their neighbours and constrained flags, and leaves every other triangle's vertices unchanged.", "quantifier": "every consistent mesh and every strictly convex pair", "why_tests_cant": "all meshes", "anchors": ["src/sweeper.rs:Sweeper::rotate_triangle_pair"]}
{"id": "C39", "title": "In-circle flips are convex and decrease the potential", "statement": "If the robust in-circle test is positive for two adjacent counter-clockwise triangles then their union is a strictly convex quadrilateral and the flipped edge is locally Delaunay.", "quantifier": "all integer/dyadic coordinates", "why_tests_cant": "polynomial inequality for all reals", "anchors": ["src/utils.rs:in_circle", "src/sweeper.rs:Sweeper::legalize"]}
{"id": "C40", "title": "Convex chain step of right-leaning edges creates an inverted triangle", "statement": "(Negative) While the mesh consists of counter-clockwise triangles: if the next edge p-q to be inserted leans to the right (p right of its upper end q), is not a side of the mesh yet, and the front, followed from q to the right, first dips below the line q-p at a vertex left of p where it does not turn left, then the very next callback announces a new triangle that is not counter-clockwise. Conversely the first such triangle of a run always comes from the insertion of a right-leaning edge with points in such a position below it; left-leaning edges never create one.", "quantifier": "every input without crossings or collinear triples, every callback of its run at which such an edge comes next, both build profiles", "why_tests_cant": "code-path claim for all states", "anchors": ["src/sweeper.rs:Sweeper::fill_right_convex_edge_event"]}
{"id": "C41", "title": "Constrained edges are exactly the input edges", "statement": "At every observer callback the edges of the mesh flagged constrained are exactly the edges announced so far by edge callbacks, on both sides of the edge; when the run ends they are exactly the edges of the input polygon and holes. No flip drops a constraint or passes its mark to another edge, and no nested insertion marks an edge that is not in the input.", "quantifier": "all planar inputs (non-crossing edges, no three collinear points the run can meet), all runs whose created triangles are counter-clockwise, all callbacks", "why_tests_cant": "quantifies over all polygons and all flip histories", "anchors": ["src/sweeper.rs:Sweeper::edge_event", "src/sweeper.rs:Sweeper::flip_edge_event", "src/sweeper.rs:Sweeper::legalize", "src/sweeper.rs:Sweeper::rotate_triangle_pair"]}
{"id": "C42", "title": "Integer and fixed-point inputs are decided exactly", "statement": "If the coordinates of the input points are multiples m * 2^e of a common unit, -20 <= e <= 400, with |m| <= 2^16 (integers of at most 16 bits are the case e = 0), and no three of them, the two artificial points included, are on a line, then the floating point tests of the sweep that are not robust (the artificial points themselves, the scan-area test of legalization and flips, the comparison with EPSILON in a point event, the angles of the basin and hole filling) all give the answer exact arithmetic would give, although they round.", "quantifier": "all units 2^e with -20 <= e <= 400, all inputs of any number of points with coordinates at most 65536 units, all builder histories", "why_tests_cant": "quantifies over all integer point sets and all triples and quadruples of their points", "anchors": ["src/points.rs:PointsBuilder::build", "src/utils.rs:in_scan_area", "src/sweeper.rs:Sweeper::point_event", "src/shape.rs:Point", "src/advancing_front/vec_backed.rs:AdvancingFront"]}
{"id": "C43", "title": "The result is constrained Delaunay in the global sense", "statement": "The circumcircle of a returned triangle has no input point strictly inside that can be seen from the inside of the triangle: if the segment from some interior point of the triangle to the input point touches no input edge other than those ending there, the point is on or outside the circle. For a convex polygon nothing blocks a view, so no circumcircle of a returned triangle contains a corner of the polygon at all.", "quantifier": "all planar inputs with holes and Steiner points, all finished runs whose created triangles are counter-clockwise, all returned triangles, all input points, all points of the plane to look from; unconditionally all integer convex polygons and all integer inputs without a cap", "why_tests_cant": "quantifies over all polygons and over all points of the plane", "anchors": ["src/sweeper.rs:Sweeper::legalize", "src/sweeper.rs:Sweeper::finalize_polygon", "src/cdt.rs:Triangles::triangle_list_indices"]}
{"id": "C44", "title": "The returned triangles are a conforming triangulation bounded by the input", "statement": "Every edge of the input polygon and holes is a side of exactly one returned triangle. Every other side of a returned triangle is a side of exactly one other returned triangle, which has it in the opposite direction. So the triangles meet edge to edge and the border of their union is the input.", "quantifier": "all planar inputs with holes and Steiner points, all finished runs whose created triangles are counter-clockwise, all returned triangles and sides", "why_tests_cant": "quantifies over all polygons and sides", "anchors": ["src/sweeper.rs:Sweeper::finalize_polygon", "src/sweeper.rs:Sweeper::rotate_triangle_pair", "src/cdt.rs:Triangles::triangle_list_indices"]}
{"id": "C45", "title": "No input point is lost", "statement": "Every vertex of the polygon and of the holes, and every Steiner point that is inside the polygon and in no hole, is a corner of some returned triangle.", "quantifier": "all planar inputs with holes and Steiner points, all finished runs whose created triangles are counter-clockwise, all input points", "why_tests_cant": "quantifies over all inputs and points", "anchors": ["src/sweeper.rs:Sweeper::sweep_points", "src/sweeper.rs:Sweeper::point_event", "src/sweeper.rs:Sweeper::finalize_polygon", "src/cdt.rs:Builder::add_steiner_point"]}
{"id": "C46", "title": "An observer can tell: no inverted triangle announced means the result is correct", "statement": "On every input with integer or fixed-point coordinates (multiples of one unit 2^e, -20 <= e <= 400, of at most 2^16 units) in general position whose edges do not cross, with holes inside and Steiner points in the region, a call of triangulate_with_observer either returns the constrained Delaunay triangulation of the region, or calls the observer with a newly created triangle whose corners are not counter-clockwise. The first such call happens while an edge p-q leaning to the right, with a cap of points below it, is inserted, right after the event of its upper end q.", "quantifier": "all such inputs, both build profiles, all runs including those that panic or do not end", "why_tests_cant": "quantifies over all inputs and over runs that never end", "anchors": ["src/cdt.rs:CDT::triangulate_with_observer", "src/sweeper.rs:Observer", "src/sweeper.rs:Sweeper::fill_right_convex_edge_event"]}
{"id": "C47", "title": "The number of triangles returned", "statement": "A simple polygon with n corners and nothing else gets exactly n - 2 triangles. In general the number of returned triangles is (corners of the outer polygon) - 2, plus (corners + 2) for every hole, plus 2 for every Steiner point that is a corner of a returned triangle; when all Steiner points are in the region that is 2n - 2 - k + 2h for n points of which k are on contours, and h holes. triangle_list_indices has three entries per triangle.", "quantifier": "all planar inputs with holes and Steiner points, all finished runs whose created triangles are counter-clockwise; unconditionally all convex polygons, and all inputs without a capped edge, with integer coordinates", "why_tests_cant": "quantifies over all inputs; an exact count independent of the shape is a topological fact (a discrete turning-number theorem)", "anchors": ["src/cdt.rs:CDT::triangulate", "src/cdt.rs:Triangles::triangle_list_indices", "src/sweeper.rs:Sweeper::finalize_polygon"]}
{"id": "C48", "title": "The result depends on the region, not on how it is described", "statement": "Two inputs with the same points in any order, the same outer polygon (started at any corner, in either direction), the same holes (in any order, each started anywhere, in either direction) and no four points on a circle give the same set of triangles: every triangle returned for one is returned for the other, with the same corners in the same cyclic order. The order of the builder calls, the point data and the build profile (debug or release) do not matter either.", "quantifier": "all pairs of planar inputs with integer or fixed-point coordinates, no three collinear and no four cocircular points, that describe the same region; all finished runs without an inverted triangle, and unconditionally all such inputs without a capped edge", "why_tests_cant": "quantifies over all pairs of descriptions of all inputs; the sweep visits the edges in a different order and flips different diagonals for each of them", "anchors": ["src/cdt.rs:CdtBuilder::new", "src/cdt.rs:CdtBuilder::add_hole", "src/cdt.rs:CDT::triangulate", "src/cdt.rs:Triangles::triangle_list_indices"]}
{"id": "C49", "title": "Moving or enlarging the input moves or enlarges the result", "statement": "Shifting all points by the same vector and multiplying all coordinates by the same positive factor does not change the triangles by index: triangle_list_indices returns the same index triples (in some order, each from some corner), although the rounding of the artificial points, the sort keys and the order of flips are computed from different numbers.", "quantifier": "all inputs with integer or fixed-point coordinates of at most 2^16 units before and after the move (the units 2^e and 2^e' may differ, so the factor may be any K * 2^j), no three collinear and no four cocircular points; all finished runs without an inverted triangle, and unconditionally all such inputs without a capped edge (all convex polygons among them); both build profiles", "why_tests_cant": "quantifies over all inputs, all shifts and all factors", "anchors": ["src/cdt.rs:CDT::triangulate", "src/cdt.rs:Triangles::triangle_list_indices", "src/points.rs:PointsBuilder::build"]}
{"id": "C50", "title": "The unit of length does not matter", "statement": "Multiplying all coordinates of a polygon by a power of two, which changes no mantissa, changes neither whether triangulation succeeds nor the triangles returned by index.", "quantifier": "all simple polygons with integer corners of at most 16 bits in general position and without a capped edge, all pairs of units 2^e, 2^e'", "why_tests_cant": "Tests use a handful of sizes. The code compares determinants and coordinates with an absolute constant, so whether the size matters is a question about all inputs and all scales; it turns out to be true for units from 2^-20 to 2^400 and false for 2^-30.", "anchors": ["src/utils.rs:in_scan_area", "src/sweeper.rs:Sweeper::point_event", "src/shape.rs:Point"]}
{"id": "C51", "title": "The amount of work is bounded explicitly", "statement": "A legalization (the restoration of the local Delaunay property after a triangle was added) reports at most (n+2)(n+1)/2 rotations to the observer, n the number of points. A run whose triangles are created counter-clockwise and that finishes at all finishes with every loop turning, and every chain of calls nesting, at most 11 (n+4)^2 times.", "quantifier": "all inputs with distinct points, no three collinear points and no crossing edges; all legalizations of all runs, finished or not; both build profiles", "why_tests_cant": "a bound on the number of flips over all inputs and all positions in the sweep; tests see only the flips of their own inputs", "anchors": ["src/sweeper.rs:Sweeper::legalize", "src/sweeper.rs:Sweeper::sweep_points", "src/sweeper.rs:Observer"]}
{"id": "C52", "title": "Machine-width ids and the standard library's freedom make no difference", "statement": "Point ids are 32-bit numbers in the code. As long as the input has at most 2^32 - 2 points, building with 32-bit ids gives exactly what building with unbounded ids gives, panics included; with more points two points of an outline share an id. Any implementation of sort_by that returns a sorted permutation, and any implementation of binary_search_by_key that returns an index of the key or the place where it belongs, gives the same sweep order and the same search results.", "quantifier": "all polylines, histories of builder calls and float types; for the sort and the search all finite points that are pairwise distinct, all sorted fronts and keys, all algorithms meeting the documented contract", "why_tests_cant": "No test has 2^32 points, and a test runs one version of the standard library; the claim is about every size and every algorithm its documentation allows.", "anchors": ["src/points.rs:PointId", "src/points.rs:NumType", "src/points.rs:Points::new", "src/points.rs:PointsBuilder::add_steiner_point", "src/advancing_front/vec_backed.rs:AdvancingFront::search_by_key"]}
{"id": "C53", "title": "Reused scratch vectors and lazy iteration are invisible", "statement": "The sweep keeps three vectors between calls (legalization stack, triangles to re-map, triangles to legalize after an edge), takes them out with mem::take and gives them back drained, and it looks the points up one at a time. Nothing left over from an earlier point or edge ever influences a later one: the result, every callback and what the observer is shown, and every failure are those of a sweep that starts each legalization and each edge with fresh vectors and reads all points beforehand.", "quantifier": "all inputs whatsoever (crossing edges, duplicates, NaN included), all builder histories, observers, float types and build profiles; runs that fail included", "why_tests_cant": "A leftover would show only on particular sequences of legalizations and edge insertions; the claim is about every sequence of every run.", "anchors": ["src/sweeper.rs:legalize_task_queue", "src/sweeper.rs:legalize_remap_tids", "src/sweeper.rs:triangle_id_queue", "src/sweeper.rs:Sweeper::legalize", "src/sweeper.rs:Sweeper::edge_event", "src/points.rs:Points::iter_point_by_y"]}
{"id": "C54", "title": "Turning, mirroring or enlarging the input turns, mirrors or enlarges the result", "statement": "If the points of a second input are those of the first rotated by any angle, mirrored, multiplied by a factor and shifted (any similarity of the plane whose exact images are coordinates again), with the same polygons, triangle_list_indices returns the same index triples (in some order, each from some corner); if the input is mirrored, each triple is listed the other way round, so that the triangles are counter-clockwise again. The sweep runs in an entirely different order over the turned points.", "quantifier": "all pairs of finished runs without an inverted triangle on planar inputs with arbitrary f64 coordinates, no three collinear and no four cocircular points; unconditionally all pairs of such integer or fixed-point inputs without a capped edge before and after (all convex polygons among them when turned); both build profiles", "why_tests_cant": "quantifies over all inputs, all angles with rational sine and cosine, and all factors and shifts; the sweep direction is fixed, so the turned input is processed in a different order with different fronts and flips", "anchors": ["src/cdt.rs:CDT::triangulate", "src/cdt.rs:Triangles::triangle_list_indices", "src/sweeper.rs:Sweeper::sweep_points", "src/points.rs:PointsBuilder::build"]}
{"id": "C55", "title": "Adding points changes only the triangles around them", "statement": "When points are added after the others (add_steiner_points) and the polygons stay the same, triangle_list_indices changes only around the new points: a triangle of the first result is in the second result exactly if no added point that can be seen from inside the triangle (no constrained edge in between) lies strictly inside its circumcircle; and every triangle of the second result without an added corner was in the first result.", "quantifier": "all pairs of finished runs without an inverted triangle on planar inputs with arbitrary f64 coordinates, no three collinear and no four cocircular points, the second input being the first with any number of points added; unconditionally all such integer or fixed-point inputs without a capped edge; both build profiles", "why_tests_cant": "quantifies over all inputs and all added points; the library triangulates from scratch, with a different point order, frame and flips, so locality is a statement about two unrelated executions", "anchors": ["src/cdt.rs:Builder::add_steiner_points", "src/cdt.rs:CDT::triangulate", "src/cdt.rs:Triangles::triangle_list_indices", "src/sweeper.rs:Sweeper::legalize"]}
{"id": "C56", "title": "Adding a hole changes only the triangles around it", "statement": "When holes are added (with their points after the others) and the outer polygon and the other holes stay the same, a triangle of the first result (triangle_list_indices) is in the second result exactly if no point strictly inside it is inside an added hole or on its boundary, and no added point that can be seen from inside it (over no constrained edge of the second input) lies strictly inside its circumcircle.", "quantifier": "all pairs of finished runs without an inverted triangle on planar inputs with arbitrary f64 coordinates, no three collinear and no four cocircular points, the second input being the first with any holes and points added; unconditionally all such integer or fixed-point inputs without a capped edge; both build profiles", "why_tests_cant": "quantifies over all inputs and all added holes; the library triangulates from scratch with a different point order, more constrained edges, a different sweep front and different flips, so locality relates two unrelated executions", "anchors": ["src/cdt.rs:Builder::add_hole", "src/cdt.rs:CDT::triangulate", "src/cdt.rs:Triangles::triangle_list_indices", "src/sweeper.rs:Sweeper::edge_event"]}
{"id": "C57", "title": "Near neighbours are joined", "statement": "If two input points see each other inside the polygon (the segment between them is in the region, off the holes, and touches no constrained edge) and no other input point is in the closed disc with that segment as diameter, then the segment is a side of a triangle of the result (triangle_list_indices). In particular every input point is joined to a nearest input point of its own, if it can see it: the result contains the nearest-neighbour and Gabriel graphs of the points. And a shortest link between any set of input points and the rest is a side of the result if its ends see each other: so are all links of a Euclidean minimum spanning tree when all of them are inside the region.", "quantifier": "all finished runs without an inverted triangle on planar inputs with arbitrary f64 coordinates, no three collinear points, all polygons, holes, Steiner points and all pairs of input points; unconditionally all such integer or fixed-point inputs without a capped edge, all convex integer polygons among them; both build profiles", "why_tests_cant": "quantifies over all inputs and all pairs of points; which edges the sweep and its flips produce depends on the whole input", "anchors": ["src/cdt.rs:CDT::triangulate", "src/cdt.rs:Triangles::triangle_list_indices", "src/sweeper.rs:Sweeper::legalize"]}
{"id": "C58", "title": "The result interpolates best", "statement": "At every point strictly inside a triangle of the result (triangle_list_indices), linear interpolation of x^2 + y^2 from the corners of that triangle is at least as accurate as from the corners of any other triangle around the point that could have been used: any triangle whose corners are input points and through whose inside no constrained edge passes. So no other triangulation of the region with the same constrained edges gives a smaller interpolation error at any point. If no four points are cocircular every such triangle that is not in the result is strictly worse.", "quantifier": "all finished runs without an inverted triangle on planar inputs with arbitrary f64 coordinates, no three collinear points, all points of the plane with rational coordinates and all competing triangles; unconditionally all such integer or fixed-point inputs without a capped edge, all convex integer polygons among them; both build profiles", "why_tests_cant": "quantifies over all inputs, all points and all other ways to triangulate (exponentially many)", "anchors": ["src/cdt.rs:CDT::triangulate", "src/cdt.rs:Triangles::triangle_list_indices", "src/sweeper.rs:Sweeper::legalize"]}
{"id": "C59", "title": "The build profile makes no difference until a debug check fails", "statement": "A debug build (debug assertions and overflow checks) and a release build given the same input make the same observer callbacks, with the same snapshots, and end in the same way, unless the debug build panics in one of its own checks: then it has made the same callbacks as the release build up to that point. Whatever a debug build returns (Triangles, triangle_list_indices, the iterator), the release build returns too; whatever the release build returns, the debug build returns or panics in a check. The only debug assertion that stands before an unchecked out-of-range access is the one that the release build then performs at sweeper.rs:921; the overflow check of the front's locate never fires.", "quantifier": "all inputs with arbitrary f64 coordinates (NaN and infinities included), valid or not: all polygons, holes, Steiner points, builder histories, all numbers of steps and all observers", "why_tests_cant": "a test suite is run in one profile and on a few inputs; the claim relates two different programs on every input, including those on which either fails half-way", "anchors": ["src/triangles.rs:TriangleStore", "src/advancing_front/vec_backed.rs:AdvancingFront", "src/utils.rs:orient_2d", "src/sweeper.rs:Sweeper::verify_triangles", "src/cdt.rs:CDT::triangulate_with_observer"]}
{"id": "C60", "title": "How the builder calls are grouped does not matter", "statement": "add_holes(list) does exactly what add_hole does for each element in turn, and add_steiner_points(points with data) exactly what add_steiner_point does for each point with its datum: two sequences of calls that add the same holes and Steiner points in the same order have the same outcome, the same panic or the same builder, and so the same callbacks, triangles and data. Empty batches and empty holes do nothing at all.", "quantifier": "all outer polygons, all sequences of builder calls in which a batch of Steiner points has as many data as points, all point data, any coordinates (invalid ones included), both build profiles", "why_tests_cant": "quantifies over all call sequences and all ways to split them into batches; add_steiner_points is written differently from add_steiner_point (one append and a resize of the edge vector)", "anchors": ["src/cdt.rs:Builder::add_holes", "src/cdt.rs:Builder::add_steiner_points", "src/cdt.rs:Builder::add_steiner_point", "src/points.rs:PointsBuilder::add_steiner_points"]}
