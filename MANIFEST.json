{
 "claims": [
  {
   "property": "C01",
   "status": "proved",
   "theorems": [
    "C01_points_in_call_order"
   ],
   "note": "any arithmetic, any data type, any call sequence"
  },
  {
   "property": "C02",
   "status": "proved",
   "theorems": [
    "C02_data_in_call_order",
    "C02_data_lines_up",
    "C02_data_never_influences_triangulation"
   ],
   "note": ""
  },
  {
   "property": "C03",
   "status": "proved",
   "theorems": [
    "C03_builder_panics_iff_repeated_vertex_f64",
    "C03_builder_panics_iff_repeated_vertex_f32",
    "C03_single_vertex_repeats"
   ],
   "note": "all f64/f32 values including NaN"
  },
  {
   "property": "C04",
   "status": "proved",
   "theorems": [
    "C04_edge_events",
    "C04_edge_events_f64",
    "C04_edge_events_f32"
   ],
   "note": "finite points; edge order at one point is the order of insertion"
  },
  {
   "property": "C05",
   "status": "proved",
   "theorems": [
    "C05_point_events",
    "C06_observer_protocol"
   ],
   "note": ""
  },
  {
   "property": "C06",
   "status": "proved",
   "theorems": [
    "C06_observer_protocol"
   ],
   "note": "any outcome, any arithmetic"
  },
  {
   "property": "C07",
   "status": "proved",
   "theorems": [
    "C07_observer_independent",
    "C07_observer_state"
   ],
   "note": ""
  },
  {
   "property": "C08",
   "status": "proved",
   "theorems": [
    "C08_no_points_panics",
    "C08_initial_mesh"
   ],
   "note": ""
  },
  {
   "property": "C09",
   "status": "proved",
   "theorems": [
    "C09_iterator_and_indices"
   ],
   "note": "any arithmetic, both build profiles"
  },
  {
   "property": "C10",
   "status": "proved",
   "theorems": [
    "C10_result_distinct"
   ],
   "note": ""
  },
  {
   "property": "C11",
   "status": "proved",
   "theorems": [
    "C11_result_is_region"
   ],
   "note": ""
  },
  {
   "property": "C12",
   "status": "proved",
   "theorems": [
    "C12_flood_fill_total",
    "C12_completes_after_sweep",
    "C12_finalize_fails_only_in_walk_partial"
   ],
   "note": "flood fill total on every in-range mesh; in every run with counter-clockwise fills that reports the end of the sweep the rest completes within an explicit bound; the _partial theorem says what can fail on an arbitrary mesh"
  },
  {
   "property": "C13",
   "status": "partial",
   "theorems": [
    "C13_unchecked_in_range_partial",
    "C13_f64_undefined_behaviour_is_one_of_two_partial",
    "C13_out_of_range_read_refuted"
   ],
   "note": "the property as stated is false: two &mut to one triangle can be created (C30), and in builds without debug assertions get_unchecked is called out of range at sweeper.rs:921 (C13_out_of_range_read_refuted, a self-intersecting polygon). Proved for every f64 input, NaN and infinities included: nothing else can happen, every other unchecked access is in range (the underflow of locate_node is impossible because the front starts with a key not after any input point)"
  },
  {
   "property": "C14",
   "status": "proved",
   "theorems": [
    "C14_front_is_chain"
   ],
   "note": "proper inputs: finite, pairwise distinct points strictly inside the artificial frame (decided by properb)"
  },
  {
   "property": "C15",
   "status": "proved",
   "theorems": [
    "C15_lookups_exact"
   ],
   "note": "proper inputs"
  },
  {
   "property": "C16",
   "status": "proved",
   "theorems": [
    "C16_triangle_count"
   ],
   "note": "proper inputs"
  },
  {
   "property": "C17",
   "status": "partial",
   "theorems": [
    "C17_returned_triangles_ccw_refuted",
    "C18_mesh_stays_ccw",
    "C18_result_ccw"
   ],
   "note": "false of the code (sweeper.rs:698), counterexample; true of every run until a fill creates a triangle that is not counter-clockwise (C18)"
  },
  {
   "property": "C18",
   "status": "proved",
   "theorems": [
    "C18_mesh_stays_ccw",
    "C18_result_ccw"
   ],
   "note": "proper inputs on which in_scan_area is right (scan_sound, decidable); up to the first fill that creates a triangle that is not counter-clockwise"
  },
  {
   "property": "C19",
   "status": "proved",
   "theorems": [
    "C19_adjacency"
   ],
   "note": "proper inputs on which in_scan_area is right (scan_sound, decidable); up to the first fill that creates a triangle that is not counter-clockwise"
  },
  {
   "property": "C20",
   "status": "proved",
   "theorems": [
    "C20_constrained_delaunay"
   ],
   "note": "proper inputs on which in_scan_area is right (scan_sound, decidable); up to the first fill that creates a triangle that is not counter-clockwise"
  },
  {
   "property": "C21",
   "status": "proved",
   "theorems": [
    "C21_legalization_completes",
    "C21_in_runs"
   ],
   "note": "with the explicit bound N(N-1)/2 on the number of rotations"
  },
  {
   "property": "C22",
   "status": "proved",
   "theorems": [
    "C22_point_event_completes",
    "C22_first_inversion",
    "C22_failures_come_from_edges",
    "fuel_irrelevant"
   ],
   "note": "proper, planar inputs on which the floating point tests of the point events answer as exact ones (eps_ok, exact_fills; decided by fillsb): on a mesh of counter-clockwise triangles every point event completes, in both build profiles, and creates counter-clockwise triangles; whatever goes wrong in a run starts in the insertion of a right-leaning edge with a cap below it"
  },
  {
   "property": "C28",
   "status": "partial",
   "theorems": [
    "C28_terminates_refuted",
    "C28_never_returns",
    "C28_integer_correct_or_inverts",
    "C28_completes_or_inverts",
    "C28_cup_inputs_complete_partial",
    "C28_cup_inputs_triangulated_partial",
    "C28_convex_position_triangulated_partial",
    "C28_cup_inputs_triangle_list_partial",
    "C28_integer_inputs_triangulated_partial",
    "C28_integer_polygon_triangulated_partial",
    "C28_convex_polygon_triangulated",
    "C28_integer_inputs_cdt_partial",
    "C28_integer_polygon_cdt_partial",
    "fuel_irrelevant"
   ],
   "note": "false of the code in general (sweeper.rs:698, findings 1 and 9): on an eight-vertex polygon the release build never returns, whatever the fuel. Proved: every run whose triangles are counter-clockwise when announced finishes; every input none of whose right-leaning edges has a cap below it (in particular every input in convex position) is triangulated correctly in both build profiles; on integer or fixed-point coordinates of 16 bits (no three on a line) this has no floating point hypotheses left, and every convex polygon of that kind is triangulated. Missing: the other inputs, where it is not true."
  },
  {
   "property": "C40",
   "status": "proved",
   "theorems": [
    "C40_convex_branch_inverts",
    "right_convex_nb",
    "C22_first_inversion",
    "C22_failures_come_from_edges"
   ],
   "note": "both directions at run level (PropsConvex.v, PropsTotal.v); right_convex_nb of Convex.v is the same for every state in which the convex step is taken, also after other fills of the same edge"
  },
  {
   "property": "C23",
   "status": "proved",
   "theorems": [
    "C23_legalization_keeps_constraints",
    "C23_no_marked_edge_flipped"
   ],
   "note": "run-level part in general position"
  },
  {
   "property": "C24",
   "status": "proved",
   "theorems": [
    "C24_edge_in_mesh",
    "C24_edge_marked_everywhere"
   ],
   "note": "general position (no three points collinear), as long as the fills are counter-clockwise"
  },
  {
   "property": "C25",
   "status": "proved",
   "theorems": [
    "C25_covered_once",
    "C25_generic_point",
    "C25_edges_unique"
   ],
   "note": "at every callback, for every rational point; as long as the fills are counter-clockwise"
  },
  {
   "property": "C27",
   "status": "partial",
   "theorems": [
    "C27_no_artificial_vertex_refuted",
    "C26_triangle_list",
    "C28_integer_inputs_triangulated_partial"
   ],
   "note": "false of the code in general; true of every run whose triangles are counter-clockwise when announced (C26_triangle_list: all indices are below the number of input points) and of the integer inputs of C28"
  },
  {
   "property": "C29",
   "status": "partial",
   "theorems": [
    "C29_no_panic_refuted",
    "C28_completes_or_inverts",
    "C28_cup_inputs_complete_partial",
    "C28_integer_inputs_triangulated_partial"
   ],
   "note": "false of the code in general; true on cup inputs and on every run without an inverted triangle (C28)"
  },
  {
   "property": "C30",
   "status": "partial",
   "theorems": [
    "C30_no_undefined_behaviour_refuted",
    "C30_also_with_debug_assertions_refuted",
    "C28_completes_or_inverts",
    "C28_cup_inputs_complete_partial",
    "C28_integer_inputs_triangulated_partial"
   ],
   "note": "false of the code in general; true on cup inputs and on every run without an inverted triangle (C28)"
  },
  {
   "property": "C31",
   "status": "partial",
   "theorems": [
    "C31_outside_steiner_no_effect_refuted",
    "C31_finished_runs_partial",
    "C31_integer_inputs_partial",
    "C31_polygon_partial"
   ],
   "note": "The documented property is false of the code when nothing lies to the left of and not below the point (witness). Proved: points outside the polygon or inside a hole do not change the returned triangles when each has another input point to its left and not below it; for finished runs on f64, and without assumptions about the run for integer inputs without a cap. Missing: points in no one's shelter that happen to be harmless, inputs with a cap, four cocircular points."
  },
  {
   "property": "C26",
   "status": "proved",
   "theorems": [
    "C26_result_fills_polygon",
    "C26_result_fills_polygon_f64",
    "C26_triangle_list"
   ],
   "note": "For every input in the plane without crossings or collinear triples (plane_input), Steiner points inside, and runs whose created triangles are counter-clockwise (fills_ccw, readable off the callbacks): the returned triangles are the inside of the outer polygon minus the holes, pointwise for all rational points and in area. Without counter-clockwise fills the property is false (C17 refutation, sweeper.rs:698); with an outside Steiner point it is false (C31)."
  },
  {
   "property": "C32",
   "status": "proved",
   "theorems": [
    "C32_load_well_formed"
   ],
   "note": "str::parse::<Float> is an arbitrary oracle"
  },
  {
   "property": "C33",
   "status": "proved",
   "theorems": [
    "C33_err_iff_cannot_open",
    "C33_unreadable_panics",
    "C33_readable_outcome",
    "C33_panics_iff"
   ],
   "note": ""
  },
  {
   "property": "C34",
   "status": "partial",
   "theorems": [
    "C34_frame_strict_refuted",
    "C34_narrow_triangle_panics_refuted",
    "C34_frame_outside_partial",
    "C34_frame_strict_unless_narrow_partial",
    "C34_integer_frame_strict_partial"
   ],
   "note": "strict version false in general (rounding on extremely narrow boxes). Proved for all finite inputs, overflow included: never inside the box; strictly outside on every side whose extent is at least 2^-50 of the largest coordinate"
  },
  {
   "property": "C35",
   "status": "proved",
   "theorems": [
    "C35_sweep_order_permutation",
    "C35_sweep_order_sorted"
   ],
   "note": ""
  },
  {
   "property": "C36",
   "status": "proved",
   "theorems": [
    "C36_set_constrained_sets_that_bit_only",
    "C36_set_delaunay_sets_that_bit_only",
    "C36_flags_stay_bytes",
    "C36_read_back",
    "C36_triangle_flags"
   ],
   "note": ""
  },
  {
   "property": "C37",
   "status": "proved",
   "theorems": [
    "C37_cw_ccw_inverse",
    "C37_navigation_fails_exactly_off_the_triangle",
    "C37_opposite_point",
    "C37_edge_index",
    "C37_common_edge_sound",
    "C37_common_edge_any_order_refuted"
   ],
   "note": ""
  },
  {
   "property": "C38",
   "status": "proved",
   "theorems": [
    "C38_rotation"
   ],
   "note": ""
  },
  {
   "property": "C41",
   "status": "proved",
   "theorems": [
    "C41_marks_are_reported_edges",
    "C41_result_marks_input"
   ],
   "note": "At every callback the constrained edges of the mesh are exactly the edges reported so far; in the result exactly the input edges."
  },
  {
   "property": "C42",
   "status": "proved",
   "theorems": [
    "C42_integer_inputs_decided_exactly"
   ],
   "note": "axioms: those of the standard library's real numbers (DESIGN.md)"
  },
  {
   "property": "C43",
   "status": "proved",
   "theorems": [
    "C43_globally_constrained_delaunay",
    "C43_finished_run",
    "C43_integer_finished_run",
    "C43_convex_polygon_delaunay",
    "C28_integer_inputs_cdt_partial"
   ],
   "note": "for every finished run whose triangles were created counter-clockwise; C43_convex_polygon_delaunay needs no hypothesis on the run; the last theorem is partial as far as C28 (which inputs finish) goes"
  },
  {
   "property": "C44",
   "status": "proved",
   "theorems": [
    "C44_conforming",
    "C43_finished_run",
    "C43_integer_finished_run"
   ],
   "note": ""
  },
  {
   "property": "C45",
   "status": "proved",
   "theorems": [
    "C45_no_point_lost",
    "C45_only_region_points",
    "C43_finished_run",
    "C43_integer_finished_run"
   ],
   "note": ""
  },
  {
   "property": "C39",
   "status": "proved",
   "theorems": [
    "C39_incircle_convex",
    "C39_flips_of_a_run"
   ],
   "note": ""
  },
  {
   "property": "C46",
   "status": "proved",
   "theorems": [
    "C28_integer_correct_or_inverts",
    "C28_integer_polygon_correct_or_inverts"
   ],
   "note": "for runs with enough fuel; axioms: those of the standard library's real numbers"
  },
  {
   "property": "C47",
   "status": "proved",
   "theorems": [
    "C47_triangle_count",
    "C47_integer_inputs",
    "C47_integer_polygon",
    "C47_convex_polygon"
   ],
   "note": "C47_triangle_count for every float type and every finished run without an inverted triangle; the others on f64 without hypotheses about the run (axioms: those of the standard library's real numbers). Beside them star_count, annulus_count"
  },
  {
   "property": "C48",
   "status": "proved",
   "theorems": [
    "C48_finished_runs",
    "C48_same_result",
    "C48_polygon",
    "C48_convex_polygon",
    "C48_f64_finished_runs"
   ],
   "note": "C48_f64_finished_runs for arbitrary f64 coordinates; C48_finished_runs for any two finished runs without an inverted triangle; C48_same_result and C48_polygon unconditionally when no edge is capped (the known defect C28/C40). cdt_unique (Unique.v) is the geometric fact. Beside them star_same, annulus_same, annulus_good_runs"
  },
  {
   "property": "C49",
   "status": "proved",
   "theorems": [
    "C49_finished_runs",
    "C49_moved",
    "C49_polygon",
    "C49_convex_polygon"
   ],
   "note": "C49_finished_runs for finished runs without an inverted triangle; C49_moved, C49_polygon and C49_convex_polygon unconditionally when no edge is capped. Beside them star_moved, star_shrunk (another unit)"
  },
  {
   "property": "C50",
   "status": "partial",
   "theorems": [
    "C50_units_do_not_matter",
    "C50_tiny_polygon_panics",
    "C50_every_scale_refuted"
   ],
   "note": "proved for all pairs of units from 2^-20 to 2^400; false of the code for very small inputs: a valid hexagon in units of 2^-30 makes it panic in both build profiles (finding 11). Beside them slit_fine, slit_units"
  },
  {
   "property": "C51",
   "status": "proved",
   "theorems": [
    "C51_runs_are_quadratic",
    "C51_rotations_of_a_legalization",
    "C21_legalization_completes"
   ],
   "note": "steps n = 11 (n+4)^2 is the budget of turns of each loop and of depth of nested calls (the fuel of the model), not the total number of turns; C21_legalization_completes bounds the rotations of one legalization from any mesh by N(N-1)/2 (Lawson.v). Which inputs finish is C28"
  },
  {
   "property": "C52",
   "status": "proved",
   "theorems": [
    "C52_ids_fit",
    "C52_32_bit_ids",
    "C52_more_points_share_ids",
    "C52_any_sort",
    "C52_any_search"
   ],
   "note": "for inputs that are not pairwise distinct or not finite the model fixes one behaviour of the library (DESIGN.md)"
  },
  {
   "property": "C53",
   "status": "proved",
   "theorems": [
    "C53_reused_buffers_are_invisible",
    "C53_vectors_are_empty_between_events"
   ],
   "note": "SweeperBuf.v is the sweep once more with the vectors in the state; Sweeper.v, which all other theorems are about, is proved equal to it"
  },
  {
   "property": "C54",
   "status": "proved",
   "theorems": [
    "C54_f64_finished_runs",
    "C54_turned",
    "C54_polygon",
    "C54_convex_polygon"
   ],
   "note": "C54_f64_finished_runs for arbitrary f64 coordinates and finished runs without an inverted triangle; the others unconditionally for integer inputs without a capped edge before and after (the artificial points and the caps are not turned along, so both inputs are asked for them). wind_turned, turn_back and unique_tris (Turned.v) are the geometric facts. Beside them star_turned, star_mirrored_differs, nonagon_turned, star_good_runs, star_turned_units"
  },
  {
   "property": "C55",
   "status": "proved",
   "theorems": [
    "C55_f64_finished_runs",
    "C55_added",
    "C55_steiner_points",
    "C55_polygon"
   ],
   "note": "C55_f64_finished_runs for arbitrary f64 coordinates and finished runs without an inverted triangle; the others unconditionally for integer inputs without a capped edge (capped as seen by all points, the added ones among them). Beside them star_more_ok, star_point_added (one triangle disturbed, one not), star_more_good_runs"
  },
  {
   "property": "C56",
   "status": "proved",
   "theorems": [
    "C56_f64_finished_runs",
    "C56_carved",
    "C56_added_hole"
   ],
   "note": "C56_f64_finished_runs for arbitrary f64 coordinates and finished runs without an inverted triangle; the others unconditionally for integer inputs without a capped edge. Beside them drilled_ok, hole_drilled (a triangle that meets the hole, one that stays), drilled_good_runs"
  },
  {
   "property": "C57",
   "status": "proved",
   "theorems": [
    "C57_f64_finished_runs",
    "C57_integer_inputs",
    "C57_polygon",
    "C57_convex_polygon"
   ],
   "note": "C57_f64_finished_runs for arbitrary f64 coordinates and finished runs without an inverted triangle; the others unconditionally for integer inputs without a capped edge. Beside them star_link, annulus_neighbours"
  },
  {
   "property": "C58",
   "status": "proved",
   "theorems": [
    "C58_f64_finished_runs",
    "C58_integer_inputs",
    "C58_polygon",
    "C58_convex_polygon"
   ],
   "note": "C58_f64_finished_runs for arbitrary f64 coordinates and finished runs without an inverted triangle; the others unconditionally for integer inputs without a capped edge. Beside them usableb_ok, star_lowest"
  },
  {
   "property": "C59",
   "status": "proved",
   "theorems": [
    "C59_profiles_agree_until_a_check_fails",
    "C59_debug_result_is_release_result",
    "C59_same_indices_and_iterator",
    "C59_release_result_is_debug_result_or_check",
    "C59_any_arithmetic",
    "C59_integer_inputs",
    "C59_integer_outcome",
    "C59_observers",
    "C59_polygon"
   ],
   "note": "C59_any_arithmetic for every arithmetic and any CDT value, with no assumption on the input; the first is its sharpening for f64 inputs by C13. On the integer inputs of C28 no check fails and the builds agree: C59_integer_inputs, C59_polygon; on all integer inputs, caps allowed, they return the same or announce the same inverted triangle: C59_integer_outcome. Beside them profiles_differ (all the cases happen), profile_star"
  },
  {
   "property": "C60",
   "status": "proved",
   "theorems": [
    "C60_batches_do_not_matter",
    "C60_same_triangulation",
    "C60_empty_calls_do_nothing"
   ],
   "note": "for every arithmetic. Beside them batches_alike (both outcomes: a triangulation with two holes, a panic) and few_data (the condition on the number of data is needed)"
  }
 ]
}