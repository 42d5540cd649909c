{
 "claims": [
  {
   "property": "C01",
   "status": "proved",
   "theorems": [
    "C01_succeeds",
    "C01_returns"
   ],
   "note": ""
  },
  {
   "property": "C02",
   "status": "proved",
   "theorems": [
    "C02_area",
    "C02_single"
   ],
   "note": ""
  },
  {
   "property": "C03",
   "status": "proved",
   "theorems": [
    "C03_covers",
    "C03_tiles"
   ],
   "note": ""
  },
  {
   "property": "C04",
   "status": "proved",
   "theorems": [
    "C04_counterclockwise",
    "C04_returned"
   ],
   "note": ""
  },
  {
   "property": "C05",
   "status": "partial",
   "theorems": [
    "C05_clockwise_refuted",
    "C05_area_refuted",
    "C05_fans_partial",
    "C05_fan_output_partial",
    "C05_winding_partial",
    "C05_short_fans_partial"
   ],
   "note": "False of the code: a valid triangle is delivered counterclockwise to a clockwise builder (C05_clockwise_refuted), a pentagon's triangles do not cover it (C05_area_refuted). What holds, for every input and coordinate type: the run has the outcome of the counterclockwise run and its fans are, one by one, those fans turned over as they should be, or turned over with first and third vertex exchanged (C05_fans_partial, C05_fan_output_partial). On valid polygons the former are never counterclockwise, the first two triangles of the latter never clockwise (C05_winding_partial), and fans of at most two triangles deliver the right triangles up to orientation (C05_short_fans_partial)."
  },
  {
   "property": "C06",
   "status": "proved",
   "theorems": [
    "C06_single",
    "C06_number",
    "C06_any_winding"
   ],
   "note": ""
  },
  {
   "property": "C07",
   "status": "proved",
   "theorems": [
    "C07_indices_from_input"
   ],
   "note": ""
  },
  {
   "property": "C08",
   "status": "proved",
   "theorems": [
    "C08_memory_safety",
    "C08_memory_safety_trapezoidize"
   ],
   "note": ""
  },
  {
   "property": "C09",
   "status": "partial",
   "theorems": [
    "C09_termination_refuted",
    "C09_valid_partial",
    "C09_distinct_refuted"
   ],
   "note": "False of the code: refuted by a polygon with a repeated vertex on which every step budget runs out (C09_termination_refuted), and by a heptagon of different vertices without crossing edges, in both build profiles (C09_distinct_refuted). What holds: C09_valid_partial (valid polygon lists, exact coordinates, every builder, failing or not); see also C42 and C43."
  },
  {
   "property": "C10",
   "status": "proved",
   "theorems": [
    "C10_list_layout_flat",
    "C10_list_layout_triples"
   ],
   "note": ""
  },
  {
   "property": "C11",
   "status": "proved",
   "theorems": [
    "C11_fan_layout"
   ],
   "note": ""
  },
  {
   "property": "C12",
   "status": "proved",
   "theorems": [
    "C12_fans_give_lists",
    "C12_lists_give_fans"
   ],
   "note": ""
  },
  {
   "property": "C13",
   "status": "proved",
   "theorems": [
    "C13_deindexed_fans",
    "C13_deindexed_lists",
    "C13_deindexed_lists_flat"
   ],
   "note": ""
  },
  {
   "property": "C14",
   "status": "proved",
   "theorems": [
    "C14_delimited_error_iff",
    "C14_delimited_decodes",
    "C14_delimited_layout"
   ],
   "note": ""
  },
  {
   "property": "C15",
   "status": "proved",
   "theorems": [
    "C15_fans_rollback",
    "C15_indexed_fans_rollback"
   ],
   "note": ""
  },
  {
   "property": "C16",
   "status": "partial",
   "theorems": [
    "C16_list_rollback_triples_partial",
    "C16_list_rollback_flat_partial",
    "C16_list_rollback_refuted"
   ],
   "note": "True for lists of triples and for flat lists whose length is a multiple of three; refuted otherwise (flat Vec of length not divisible by three is cut back too far)."
  },
  {
   "property": "C17",
   "status": "partial",
   "theorems": [
    "C17_delimited_rollback_partial",
    "C17_delimited_rollback_refuted"
   ],
   "note": "True unless the delimiter is an index of the first triangle; refuted in that case (initialize fails after pushing)."
  },
  {
   "property": "C18",
   "status": "proved",
   "theorems": [
    "C18_logged_is_transparent",
    "C18_builder_protocol"
   ],
   "note": ""
  },
  {
   "property": "C19",
   "status": "proved",
   "theorems": [
    "C19_builder_errors"
   ],
   "note": ""
  },
  {
   "property": "C20",
   "status": "proved",
   "theorems": [
    "C20_calls_are_a_prefix"
   ],
   "note": ""
  },
  {
   "property": "C21",
   "status": "proved",
   "theorems": [
    "C21_no_vertices"
   ],
   "note": ""
  },
  {
   "property": "C22",
   "status": "proved",
   "theorems": [
    "C22_not_enough_vertices"
   ],
   "note": ""
  },
  {
   "property": "C23",
   "status": "proved",
   "theorems": [
    "C23_marker_front",
    "C23_marker_end",
    "C23_marker_repeated"
   ],
   "note": ""
  },
  {
   "property": "C24",
   "status": "proved",
   "theorems": [
    "C24_enumeration",
    "C24_vertex_count",
    "C24_get_vertex",
    "C24_polygons"
   ],
   "note": ""
  },
  {
   "property": "C25",
   "status": "proved",
   "theorems": [
    "C25_index_with",
    "C25_failed_conversion"
   ],
   "note": ""
  },
  {
   "property": "C26",
   "status": "proved",
   "theorems": [
    "C26_reuse"
   ],
   "note": ""
  },
  {
   "property": "C27",
   "status": "proved",
   "theorems": [
    "C27_irreflexive",
    "C27_transitive",
    "C27_total",
    "C27_order"
   ],
   "note": ""
  },
  {
   "property": "C28",
   "status": "proved",
   "theorems": [
    "C28_side_test",
    "C28_side_test_collinear"
   ],
   "note": ""
  },
  {
   "property": "C29",
   "status": "proved",
   "theorems": [
    "C29_location",
    "C29_moments"
   ],
   "note": ""
  },
  {
   "property": "C30",
   "status": "proved",
   "theorems": [
    "C30_sizes"
   ],
   "note": ""
  },
  {
   "property": "C31",
   "status": "proved",
   "theorems": [
    "C31_debug_checks"
   ],
   "note": ""
  },
  {
   "property": "C32",
   "status": "proved",
   "theorems": [
    "C32_order"
   ],
   "note": ""
  },
  {
   "property": "C33",
   "status": "proved",
   "theorems": [
    "C33_same"
   ],
   "note": ""
  },
  {
   "property": "C34",
   "status": "proved",
   "theorems": [
    "C34_single_polygon"
   ],
   "note": ""
  },
  {
   "property": "C35",
   "status": "proved",
   "theorems": [
    "C35_only_predicates"
   ],
   "note": ""
  },
  {
   "property": "C36",
   "status": "proved",
   "theorems": [
    "C36_affine"
   ],
   "note": ""
  },
  {
   "property": "C37",
   "status": "proved",
   "theorems": [
    "C37_piece"
   ],
   "note": ""
  },
  {
   "property": "C38",
   "status": "proved",
   "theorems": [
    "C38_once",
    "C38_conforming",
    "C38_edges"
   ],
   "note": ""
  },
  {
   "property": "C39",
   "status": "proved",
   "theorems": [
    "C39_outcome",
    "C39_order",
    "C39_calls",
    "C39_triangles"
   ],
   "note": ""
  },
  {
   "property": "C40",
   "status": "proved",
   "theorems": [
    "C40_f64",
    "C40_f32",
    "C40_f64_triangulates"
   ],
   "note": ""
  },
  {
   "property": "C41",
   "status": "partial",
   "theorems": [
    "C41_success_refuted",
    "C41_winding_refuted",
    "C41_order_refuted",
    "C41_termination_refuted"
   ],
   "note": "False of the code: refuted by three valid polygons of f64 vertices (a triangle every run refuses, a triangle returned clockwise or refused depending on the insertion order, a quadrilateral on which the run does not end). C40 is the part that holds."
  },
  {
   "property": "C42",
   "status": "proved",
   "theorems": [
    "C42_trapezoidize_ends"
   ],
   "note": ""
  },
  {
   "property": "C43",
   "status": "proved",
   "theorems": [
    "C43_ends_or_stuck",
    "C43_budget"
   ],
   "note": ""
  },
  {
   "property": "C44",
   "status": "partial",
   "theorems": [
    "C44_debug_partial",
    "C44_debug_iff_partial",
    "C44_debug_returned_partial",
    "C44_release_refuted",
    "C44_debug_refuted"
   ],
   "note": "False in general: without debug assertions a crossing pentagon is accepted (C44_release_refuted), with them a crossing hexagon whose pending vertices are relocated along crossing edges (C44_debug_refuted). Proved: with debug assertions, when vertices are different, none is on another edge and no polygon is long enough for a relocation with pending vertices (with the code's math_n: up to five vertices per polygon), what is accepted is valid, for every number of polygons and every order."
  },
  {
   "property": "C45",
   "status": "partial",
   "theorems": [
    "C45_apart_partial",
    "C45_error_refuted",
    "C45_panic_refuted",
    "C45_hang_refuted"
   ],
   "note": "False when a vertex lies on an edge of which it is not an end, which the documentation does not exclude: internal error (C45_error_refuted), panic with debug assertions (C45_panic_refuted), and without them a run that never ends (C45_hang_refuted). Proved with that excluded (C45_apart_partial); Doc.valid_doc shows the preconditions plus this exclusion are exactly validity."
  },
  {
   "property": "C46",
   "status": "proved",
   "theorems": [
    "C46_closed"
   ],
   "note": ""
  },
  {
   "property": "C47",
   "status": "proved",
   "theorems": [
    "C47_f64",
    "C47_f32",
    "C47_f64_grid",
    "C47_f32_grid",
    "C47_f64_triangulates"
   ],
   "note": ""
  },
  {
   "property": "C48",
   "status": "proved",
   "theorems": [
    "C48_quadratic",
    "C48_quadratic_ok",
    "C48_piece"
   ],
   "note": ""
  },
  {
   "property": "C49",
   "status": "partial",
   "theorems": [
    "C49_quadratic",
    "C49_documented_refuted"
   ],
   "note": "False of the code: C49_documented_refuted gives, for every factor c, arbitrarily large valid polygons on which every insertion order needs more than c n log* n iterations of one loop; C49_quadratic gives the exact family (more than (n-1)(n-3)/4 iterations, every odd n). The upper bound that does hold is C48 (quadratic). Exact coordinates: in f64 the exponential widths of the family limit n to a few hundred."
  },
  {
   "property": "C50",
   "status": "proved",
   "theorems": [
    "C50_worst",
    "C50_average",
    "C50_capacity_refuted"
   ],
   "note": ""
  },
  {
   "property": "C51",
   "status": "proved",
   "theorems": [
    "C51_average"
   ],
   "note": ""
  },
  {
   "property": "C52",
   "status": "proved",
   "theorems": [
    "C52_counted",
    "C52_budget",
    "C52_average",
    "C52_average_budget",
    "C52_math_n",
    "C52_expected",
    "C52_computed",
    "C52_f64"
   ],
   "note": ""
  },
  {
   "property": "C53",
   "status": "partial",
   "theorems": [
    "C53_each_refuted",
    "C53_total_refuted"
   ],
   "note": "Documented claim (README.md 52, src/lib.rs 63) refuted for lists of several polygons: C53_each_refuted (one triangle, unbounded), C53_total_refuted (quadratic in all). For a single polygon it holds of the trapezoidation: C52."
  },
  {
   "property": "C54",
   "status": "proved",
   "theorems": [
    "C54_trapezoidize",
    "C54_returns",
    "C54_traversal",
    "C54_triangulate",
    "C54_returns_or_endless",
    "C54_debug_trapezoidize",
    "C54_debug_triangulate",
    "C54_counter"
   ],
   "note": ""
  },
  {
   "property": "C55",
   "status": "proved",
   "theorems": [
    "C55_order_type",
    "C55_shear",
    "C55_validity_needed"
   ],
   "note": ""
  },
  {
   "property": "C56",
   "status": "proved",
   "theorems": [
    "C56_square",
    "C56_star",
    "C56_half_frame",
    "C56_france",
    "C56_fan_to_list",
    "C56_reverse_winding",
    "C56_delimited_fan",
    "C56_error_propagation",
    "C56_hollow",
    "C56_readme"
   ],
   "note": ""
  },
  {
   "property": "C57",
   "status": "partial",
   "theorems": [
    "C57_incomplete",
    "C57_overlapping_polygons",
    "C57_overlapping_vertex_refuted",
    "C57_overlapping_vertex_partial"
   ],
   "note": "False of the code: the test overlapping_vertex never ends in 48 of the 720 insertion orders, in both build profiles: a finished piece ends in the doubled vertex and build_fans resets forever (C57_overlapping_vertex_refuted). In the other orders, and for the other two tests in every order, the call is refused (C57_overlapping_vertex_partial, C57_incomplete, C57_overlapping_polygons)."
  },
  {
   "property": "C58",
   "status": "proved",
   "theorems": [
    "C58_reads",
    "C58_last_dropped",
    "C58_accepts",
    "C58_no_empty",
    "C58_geography"
   ],
   "note": ""
  },
  {
   "property": "C59",
   "status": "proved",
   "theorems": [
    "C59_valid",
    "C59_f64",
    "C59_f32",
    "C59_regular"
   ],
   "note": ""
  },
  {
   "property": "C60",
   "status": "partial",
   "theorems": [
    "C60_checked",
    "C60_exponential_refuted",
    "C60_polynomial_refuted"
   ],
   "note": "False of the faithful model, refuted: C60_exponential_refuted (2^(k/2) nodes for 2k+1 vertices, any relocation schedule, any index type) and C60_polynomial_refuted (no bound c * n^d). C60_checked: a debug run only ends with a state whose check has been completed."
  },
  {
   "property": "C61",
   "status": "proved",
   "theorems": [
    "C61_worst",
    "C61_any",
    "C61_budget",
    "C61_quadratic",
    "C61_superlinear",
    "C61_f64"
   ],
   "note": ""
  },
  {
   "property": "C62",
   "status": "proved",
   "theorems": [
    "C62_counted",
    "C62_triangulation",
    "C62_total",
    "C62_any",
    "C62_budget",
    "C62_quadratic"
   ],
   "note": ""
  },
  {
   "property": "C63",
   "status": "proved",
   "theorems": [
    "C63_trapezoidize_any",
    "C63_trapezoidize",
    "C63_complete",
    "C63_triangulate",
    "C63_reached",
    "C63_repeated_index"
   ],
   "note": "As stated. SingleMonotone and TopOfSegment are neither excluded nor shown to occur."
  },
  {
   "property": "C64",
   "status": "partial",
   "theorems": [
    "C64_count",
    "C64_no_vertices",
    "C64_message",
    "C64_builder",
    "C64_trapezoidation",
    "C64_internal_twice",
    "C64_call",
    "C64_source_refuted"
   ],
   "note": "C64_source_refuted: source() finds an internal error of the triangulation phase but not one of the trapezoidation (TriangulationError::TrapezoidationError has no source), and both occur. The other parts are proved as stated. The message strings with their arguments and backtraces are arbitrary."
  }
 ]
}