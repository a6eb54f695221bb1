{
 "claims": [
  {
   "property": "C01",
   "status": "proved",
   "theorems": [
    "C01_query_exact",
    "C01_query_exact_double",
    "C01_query_exact_R"
   ],
   "note": "generic over any order satisfying OrdLaws; instantiated for IEEE binary64 (C01_query_exact_double) and exact reals"
  },
  {
   "property": "C02",
   "status": "proved",
   "theorems": [
    "C02_visitor_prefix",
    "C02_runVisitor_is_prefix"
   ],
   "note": ""
  },
  {
   "property": "C03",
   "status": "proved",
   "theorems": [
    "C03_items_and_extents"
   ],
   "note": ""
  },
  {
   "property": "C04",
   "status": "proved",
   "theorems": [
    "C04_tree_walk",
    "C04_union_least"
   ],
   "note": ""
  },
  {
   "property": "C05",
   "status": "proved",
   "theorems": [
    "C05_allocation_exact",
    "C05_overflow_beyond",
    "C05_overflow_reachable"
   ],
   "note": ""
  },
  {
   "property": "C06",
   "status": "proved",
   "theorems": [
    "C06_sort"
   ],
   "note": ""
  },
  {
   "property": "C07",
   "status": "proved",
   "theorems": [
    "C07_position",
    "C07_bijection",
    "C07_injective",
    "C07_neighbours",
    "C07_start_and_end"
   ],
   "note": ""
  },
  {
   "property": "C08",
   "status": "proved",
   "theorems": [
    "C08_no_bad_cast",
    "C08_degenerate_is_UB"
   ],
   "note": "exact reals"
  },
  {
   "property": "C09",
   "status": "proved",
   "theorems": [
    "C09_normalizeRadians",
    "C09_deltaAngle"
   ],
   "note": "exact reals"
  },
  {
   "property": "C10",
   "status": "proved",
   "theorems": [
    "C10_quadraticSolutions",
    "C10_roots_exact"
   ],
   "note": "exact reals"
  },
  {
   "property": "C11",
   "status": "proved",
   "theorems": [
    "C11_wrapping"
   ],
   "note": ""
  },
  {
   "property": "C12",
   "status": "proved",
   "theorems": [
    "C12_arc_centre_radius"
   ],
   "note": "exact reals"
  },
  {
   "property": "C13",
   "status": "proved",
   "theorems": [
    "C13_split_line",
    "C13_split_arc",
    "C13_split_arc_at_end",
    "C13_split_arc_at_start"
   ],
   "note": "exact reals"
  },
  {
   "property": "C14",
   "status": "proved",
   "theorems": [
    "C14_line",
    "C14_arc",
    "C14_arc_centre",
    "C14_arc_off_refuted"
   ],
   "note": "exact reals; the on-arc claim is false inside the 1e-8 tolerance zone of the sweep test (refuted by C14_arc_off_refuted) and proved outside it"
  },
  {
   "property": "C15",
   "status": "proved",
   "theorems": [
    "C15_bounding_box",
    "C15_expand"
   ],
   "note": "exact reals"
  },
  {
   "property": "C16",
   "status": "proved",
   "theorems": [
    "C16_segLength",
    "C16_segMidpoint"
   ],
   "note": "exact reals"
  },
  {
   "property": "C17",
   "status": "proved",
   "theorems": [
    "C17_transversal",
    "C17_complete",
    "C17_collinear",
    "C17_point",
    "C17_point_on",
    "C17_short_segments_refuted"
   ],
   "note": "exact reals"
  },
  {
   "property": "C18",
   "status": "proved",
   "theorems": [
    "C18_line_circle"
   ],
   "note": "exact reals"
  },
  {
   "property": "C19",
   "status": "proved",
   "theorems": [
    "C19_circle_circle",
    "C19_coincident_iff",
    "C19_near_concentric_refuted"
   ],
   "note": "exact reals"
  },
  {
   "property": "C20",
   "status": "proved",
   "theorems": [
    "C20_line_line",
    "C20_line_line_parallel",
    "C20_line_arc",
    "C20_arc_line",
    "C20_arc_arc",
    "C20_coincident_same_direction",
    "C20_coincident_opposite_refuted",
    "C20_near_vertical_overlap_refuted"
   ],
   "note": "exact reals; the two refuted cases are false of the code"
  },
  {
   "property": "C21",
   "status": "proved",
   "theorems": [
    "C21_visit_order",
    "C21_indices",
    "C21_each_once"
   ],
   "note": ""
  },
  {
   "property": "C22",
   "status": "proved",
   "theorems": [
    "C22_trace_open",
    "C22_trace_closed",
    "C22_involution",
    "C22_closed_flag_and_size",
    "C22_area_negated",
    "C22_path_length_kept"
   ],
   "note": "exact reals; path length kept for |bulge| <= 1 (the library's stated domain)"
  },
  {
   "property": "C23",
   "status": "proved",
   "theorems": [
    "C23_area_is_line_integral",
    "C23_parametrisation_exists",
    "C23_zero",
    "C23_scalePolyline",
    "C23_translatePolyline",
    "C23_scales_quadratically",
    "C23_translation_invariant",
    "C23_start_vertex"
   ],
   "note": "exact reals; the line integral is a Coquelicot Riemann integral"
  },
  {
   "property": "C24",
   "status": "proved",
   "theorems": [
    "C24_winding_number",
    "C24_large_bulge_refuted"
   ],
   "note": "exact reals; |bulge| <= 1 (false beyond, refuted); the swept angle is the Riemann integral of the angular speed"
  },
  {
   "property": "C25",
   "status": "proved",
   "theorems": [
    "C25_open_or_short",
    "C25_invert_negates"
   ],
   "note": "exact reals"
  },
  {
   "property": "C26",
   "status": "proved",
   "theorems": [
    "C26_contains",
    "C26_attained",
    "C26_empty",
    "C26_single",
    "C26_open_line_refuted"
   ],
   "note": "containment for closed polylines and for all but a final line segment of open ones; the gap for open polylines is exhibited by C26_open_line_refuted; attained up to 1e-8 of the largest arc radius"
  },
  {
   "property": "C27",
   "status": "proved",
   "theorems": [
    "C27_best_segment",
    "C27_single",
    "C27_minimal",
    "C27_empty"
   ],
   "note": "exact reals; best of the per-segment points exactly, within 1e-4 of the true minimum over all path points (slack of C14)"
  },
  {
   "property": "C28",
   "status": "proved",
   "theorems": [
    "C28_within_error",
    "C28_vertices_on_path",
    "C28_short"
   ],
   "note": "exact reals; |bulge| <= 1, error > 0 and no radius above 1e18*error (otherwise the size_t conversion of the subdivision count may be undefined)"
  },
  {
   "property": "C29",
   "status": "proved",
   "theorems": [
    "C29_exact",
    "C29_no_repeats",
    "C29_subsequence",
    "C29_no_op",
    "C29_closing_pair_refuted"
   ],
   "note": "proved for every scalar implementation (also IEEE doubles)"
  },
  {
   "property": "C30",
   "status": "proved",
   "theorems": [
    "C30_find_intersects",
    "C30_no_intersect_lost",
    "C30_sound"
   ],
   "note": "exact reals; any node size 2..65535, polylines accepted by createApproxSpatialIndex"
  },
  {
   "property": "C31",
   "status": "proved",
   "theorems": [
    "C31_each_pair_once",
    "C31_no_crossing_lost",
    "C31_small"
   ],
   "note": "exact reals; any polyline createApproxSpatialIndex accepts"
  },
  {
   "property": "C32",
   "status": "proved",
   "theorems": [
    "C32_consistent",
    "C32_lengths",
    "C32_exact",
    "C32_runs",
    "C32_empty",
    "C32_direction_line",
    "C32_direction_arc",
    "C32_direction_wrong"
   ],
   "note": "any scalar implementation (also IEEE doubles), any permutation std::sort may return"
  },
  {
   "property": "C33",
   "status": "proved",
   "theorems": [
    "C33_safe",
    "C33_exact",
    "C33_sorted"
   ],
   "note": "any scalar implementation, any std::sort / hash order; C33_safe for all inputs, C33_exact (the output is exactly the accepted stretches) when no cut or neighbouring vertex is within 1e-5 of a vertex"
  },
  {
   "property": "C34",
   "status": "proved",
   "theorems": [
    "C34_spec",
    "C34_stitch",
    "C34_selectors",
    "C34_union_order",
    "C34_exclude_order"
   ],
   "note": "exact reals; at most 2^24 slices (limit of the spatial index); C34_spec gives the complete relational behaviour"
  },
  {
   "property": "C35",
   "status": "proved",
   "theorems": [
    "C35_regions"
   ],
   "note": "exact reals; all closed polylines with |bulge|<=1 (simple or not) whose paths are disjoint and for which no intersect is found, all modes, all points off both paths"
  },
  {
   "property": "C36",
   "status": "proved",
   "theorems": [
    "C36_closed",
    "C36_returns",
    "C36_union_orientation",
    "C36_self"
   ],
   "note": "C36_closed and C36_union_orientation for any scalar implementation and any sort/hash order; C36_returns (the call returns, no loop guard fires, no out of range access) in exact reals for 10*nA*nB <= 2^24"
  },
  {
   "property": "C37",
   "status": "proved",
   "theorems": [
    "C37_offset_distance"
   ],
   "note": "exact reals; |offset| >= 1e-4 (below, the index box is inverted); acceptance bound exact on arcs, 1e-4 slack at segment ends as in C14"
  },
  {
   "property": "C38",
   "status": "proved",
   "theorems": [
    "C38_spec",
    "C38_stitch",
    "C38_none",
    "C38_single",
    "C38_one_vertex_result"
   ],
   "note": "exact reals; slices with >= 1 vertex, at most 2^24 slices; C38_spec is the complete relational behaviour including which slice is joined next; C38_one_vertex_result exhibits a closed result of a single vertex"
  },
  {
   "property": "C39",
   "status": "proved",
   "theorems": [
    "C39_one_per_segment",
    "C39_line",
    "C39_line_degenerate",
    "C39_arc"
   ],
   "note": "exact reals"
  },
  {
   "property": "C40",
   "status": "proved",
   "theorems": [
    "C40_short",
    "C40_shape",
    "C40_returns"
   ],
   "note": "C40_short and C40_shape for every scalar implementation, sorting and hash order; C40_returns in exact reals for inputs with 48*n^2 <= 2^24 whose raw offset is not flat (all vertices on one axis parallel line) when it has more than 16 segments"
  },
  {
   "property": "C41",
   "status": "proved",
   "theorems": [
    "C41_history_independent",
    "C41_classification",
    "C41_untouched_far",
    "C41_stitched",
    "C41_pieces_far"
   ],
   "note": "C41_history_independent and C41_classification for every scalar implementation, sorting and hash order (a fixed one per run); C41_untouched_far and C41_pieces_far in exact reals"
  },
  {
   "property": "C42",
   "status": "proved",
   "theorems": [
    "C42_history",
    "C42_capacity_monotone",
    "C42_set_capacity",
    "C42_clear_keeps_capacity",
    "C42_capacity_enough",
    "C42_capacity_reported",
    "C42_new_capacity"
   ],
   "note": "counts below 2^32; std::vector growth only assumed to provide enough room"
  },
  {
   "property": "C43",
   "status": "proved",
   "theorems": [
    "C43_safe",
    "C43_no_leak",
    "C43_release",
    "C43_double_delete",
    "C43_delete_borrowed",
    "C43_delete_null"
   ],
   "note": "heap model: allocation never fails; algorithm failures are excluded by hypothesis (see C36/C40 for when they return)"
  },
  {
   "property": "C44",
   "status": "proved",
   "theorems": [
    "C44_offset",
    "C44_combine",
    "C44_queries"
   ],
   "note": ""
  },
  {
   "property": "C45",
   "status": "proved",
   "theorems": [
    "C45_exact",
    "C45_out_of_range",
    "C45_bypass",
    "C45_asserts_sound"
   ],
   "note": ""
  },
  {
   "property": "C46",
   "status": "proved",
   "theorems": [
    "C46_consecutive_pairs",
    "C46_small"
   ],
   "note": "exact reals"
  },
  {
   "property": "C47",
   "status": "proved",
   "theorems": [
    "C47_locally_constant",
    "C47_constant_along_paths",
    "C47_far_zero",
    "C47_outside_extents"
   ],
   "note": "exact reals; |bulge| <= 1"
  },
  {
   "property": "C48",
   "status": "proved",
   "theorems": [
    "C48_vertices_keep_distance"
   ],
   "note": "exact reals; same size hypotheses as C40_returns"
  },
  {
   "property": "C49",
   "status": "proved",
   "theorems": [
    "C49_crossing_test"
   ],
   "note": "exact reals"
  },
  {
   "property": "C50",
   "status": "proved",
   "theorems": [
    "C50_boundary"
   ],
   "note": "exact reals; general position with at least one crossing and 10*|A|*|B| <= 2^24; the region enclosed by the result (that no part of the boundary is missing) is property C52; decided_exact gives a geometric criterion for the exactness hypothesis on line segments and the Example C50_squares meets all hypotheses"
  },
  {
   "property": "C51",
   "status": "proved",
   "theorems": [
    "C51_round_join",
    "C51_corner",
    "C51_raw_within",
    "C51_no_repeats",
    "C51_trim_start",
    "C51_trim_end",
    "C51_trim_first"
   ],
   "note": "exact reals for the geometry; the distance bound (b) is for polylines of straight segments, and for closed ones needs the start of the first offset segment to survive its first join (Example C51_box meets all hypotheses)"
  },
  {
   "property": "C52",
   "status": "proved",
   "theorems": [
    "C52_region",
    "C52_enclosed"
   ],
   "note": "exact reals; general position as in C50 plus simple inputs (winding numbers 0 or the orientation); crossing inputs only - disjoint or nested inputs are C35; Example C52_squares meets all hypotheses"
  },
  {
   "property": "C53",
   "status": "proved",
   "theorems": [
    "C53_areas"
   ],
   "note": "exact reals; same hypotheses as C52 (Example C52_squares meets them)"
  },
  {
   "property": "C54",
   "status": "proved",
   "theorems": [
    "C54_simple_winding",
    "C54_inside_area",
    "C54_boolean"
   ],
   "note": "exact reals; arcs up to a half circle; Examples C54_square and C54_circle meet the hypotheses; C54_boolean is for crossing inputs in general position (Example C56_squares)"
  },
  {
   "property": "C55",
   "status": "proved",
   "theorems": [
    "C55_area_is_winding_integral",
    "C55_winding_integral"
   ],
   "note": "exact reals; arcs up to a half circle; no simplicity needed"
  },
  {
   "property": "C56",
   "status": "proved",
   "theorems": [
    "C56_region_area"
   ],
   "note": "exact reals; hypotheses of C52 with simple inputs (Example C56_squares meets them)"
  },
  {
   "property": "C57",
   "status": "proved",
   "theorems": [
    "C57_offset_parts",
    "C57_on_raw"
   ],
   "note": "exact reals; closed polylines, arcs up to a half circle; raw offset in general position (offsetPosition; Example C58_chamfer)"
  },
  {
   "property": "C58",
   "status": "proved",
   "theorems": [
    "C58_offset_exact",
    "C58_curve_on_raw",
    "C58_offset_curve",
    "C58_no_false_hits"
   ],
   "note": "exact reals; closed polylines of straight segments with clear corners (clearRaw: edges and their offsets not degenerate, no coinciding joins); raw offset in general position; noFalseHits and decisive are the numerical margins of the library's tests, noFalseHits is discharged from plain geometric margins (clearHits) by C58_no_false_hits; Example C58_chamfer meets all hypotheses of C57 and C58_offset_exact; without hasSelfIntersects loops shorter than 0.01 may be missing"
  },
  {
   "property": "C59",
   "status": "proved",
   "theorems": [
    "C59_offset_side",
    "C59_sides_apart"
   ],
   "note": "exact reals; same hypotheses as C58_offset_exact plus simplePath (the polyline does not touch itself); for such inputs the hypothesis that the raw offsets to both sides have no clear point in common is proved (C59_sides_apart); sides by winding number and area sign (C47, C54); Example C59_chamfer meets all hypotheses"
  },
  {
   "property": "C60",
   "status": "proved",
   "theorems": [
    "C60_islands"
   ],
   "note": "exact reals; any state of the object, any sort and hash order (StdLaws); input loops with valid indexes, offset loops whose reported cuts are not within 1e-5 of a vertex (cutApart)"
  },
  {
   "property": "C61",
   "status": "proved",
   "theorems": [
    "C61_contact"
   ],
   "note": "exact reals, any sort and hash order; the parts are characterised exactly (all stretches between cuts with accepted test point) when the cuts are more than 1e-5 apart from vertexes and each other (sep), otherwise as slices that begin and end at cuts and are accepted; the region described by the result in general position is C52"
  },
  {
   "property": "C62",
   "status": "proved",
   "theorems": [
    "C62_line_arc",
    "C62_arc_line",
    "C62_arc_arc"
   ],
   "note": "exact reals; stated about the join of two consecutive offset segments, whatever was built before"
  },
  {
   "property": "C63",
   "status": "proved",
   "theorems": [
    "C63_end_cuts"
   ],
   "note": "exact reals; near tangency within the tolerances of C18 and C19"
  },
  {
   "property": "C64",
   "status": "proved",
   "theorems": [
    "C64_open_offset",
    "C64_on_raw"
   ],
   "note": "exact reals, general position (openPosition); the raw offset has to end at distance |d| from the end of the input (for straight segments always the case)"
  },
  {
   "property": "C65",
   "status": "proved",
   "theorems": [
    "C65_open_exact",
    "C65_open_curve",
    "C65_curve_on_raw",
    "C65_no_false_hits"
   ],
   "note": "exact reals, straight open polylines in general position; the second half assumes noFalseHitsOpen, which C65_no_false_hits derives from clearHits (no edge nearly parallel to the raw offset, no tiny sizes); concrete case: Example C65_hook"
  },
  {
   "property": "C66",
   "status": "proved",
   "theorems": [
    "C66_islands_region",
    "C66_straight_islands"
   ],
   "note": "exact reals; in C66_islands_region that the offset loops of each single input loop are right (offsetsExact: their points and winding numbers) is a hypothesis, which C66_straight_islands derives (from C67, C68) for straight simple input loops in general position; their general position and the decisiveness of the test points too; the 2^24 limit of the spatial index is fewMeetings"
  },
  {
   "property": "C67",
   "status": "proved",
   "theorems": [
    "C67_offset_region",
    "C67_offset_decides"
   ],
   "note": "exact reals, simple closed straight polylines; general position, decisiveness of the test points and noFalseHits (derived in C58_no_false_hits from sizes) are hypotheses; at points exactly |d| away and off all results (isolated points of the region) the first theorem says nothing, the second assumes there are none; concrete case: Example C67_chamfer"
  },
  {
   "property": "C68",
   "status": "proved",
   "theorems": [
    "C68_offset_loops",
    "C68_left_over_area"
   ],
   "note": "exact reals, same hypotheses as C67 (without noIsolated); the orientation statement is about offsets to the inside, for offsets to the outside both orientations occur (holes of the grown region); concrete case: Example C68_chamfer"
  },
  {
   "property": "C69",
   "status": "proved",
   "theorems": [
    "C69_islands_return",
    "C69_small_islands",
    "C69_straight_islands"
   ],
   "note": "exact reals; that the offset loops themselves can be indexed (hull of positive width and height unless they have at most 16 segments) and the 2^24 limits of the spatial index are hypotheses; totalCuts is bounded by 4 N^2 for N vertices (C69_small_islands)"
  },
  {
   "property": "C70",
   "status": "proved",
   "theorems": [
    "C70_path",
    "C70_area",
    "C70_winding",
    "C70_extents",
    "C70_length",
    "C70_translate_path",
    "C70_translate_winding",
    "C70_translate_length",
    "C70_translate_closest",
    "C70_translate_extents",
    "C70_translate_prune",
    "C70_translate_invert",
    "C70_translate_arcs",
    "C70_translate_segments",
    "C70_translate_intersects",
    "C70_translate_raw_offset",
    "C70_translate_index",
    "C70_translate_query",
    "C70_translate_self_intersects",
    "C70_translate_find_intersects",
    "C70_translate_offset"
   ],
   "note": "exact reals; C70_translate_offset assumes that the sort looks at elements only through the comparison and that the iteration order of the unordered map depends on its keys only (hypothesis oblivious, shown for insertion sort)"
  }
 ]
}