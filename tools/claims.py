c("C01","proved","C01_query_exact C01_query_exact_double C01_query_exact_R","generic over any order satisfying OrdLaws; instantiated for IEEE binary64 (C01_query_exact_double) and exact reals")
c("C02","proved","C02_visitor_prefix C02_runVisitor_is_prefix")
c("C03","proved","C03_items_and_extents")
c("C04","proved","C04_tree_walk C04_union_least")
c("C05","proved","C05_allocation_exact C05_overflow_beyond C05_overflow_reachable")
c("C06","proved","C06_sort")
c("C08","proved","C08_no_bad_cast C08_degenerate_is_UB","exact reals")
c("C07","proved","C07_position C07_bijection C07_injective C07_neighbours C07_start_and_end")
c("C09","proved","C09_normalizeRadians C09_deltaAngle","exact reals")
c("C10","proved","C10_quadraticSolutions C10_roots_exact","exact reals")
c("C11","proved","C11_wrapping")
c("C12","proved","C12_arc_centre_radius","exact reals")
c("C13","proved","C13_split_line C13_split_arc C13_split_arc_at_end C13_split_arc_at_start","exact reals")
c("C14","proved","C14_line C14_arc C14_arc_centre C14_arc_off_refuted","exact reals; the on-arc claim is false inside the 1e-8 tolerance zone of the sweep test (refuted by C14_arc_off_refuted) and proved outside it")
c("C15","proved","C15_bounding_box C15_expand","exact reals")
c("C16","proved","C16_segLength C16_segMidpoint","exact reals")
c("C17","proved","C17_transversal C17_complete C17_collinear C17_point C17_point_on C17_short_segments_refuted","exact reals")
c("C18","proved","C18_line_circle","exact reals")
c("C19","proved","C19_circle_circle C19_coincident_iff C19_near_concentric_refuted","exact reals")
c("C20","proved","C20_line_line C20_line_line_parallel C20_line_arc C20_arc_line C20_arc_arc C20_coincident_same_direction C20_coincident_opposite_refuted C20_near_vertical_overlap_refuted","exact reals; the two refuted cases are false of the code")
c("C21","proved","C21_visit_order C21_indices C21_each_once")
c("C22","proved","C22_trace_open C22_trace_closed C22_involution C22_closed_flag_and_size C22_area_negated C22_path_length_kept","exact reals; path length kept for |bulge| <= 1 (the library's stated domain)")
c("C23","proved","C23_area_is_line_integral C23_parametrisation_exists C23_zero C23_scalePolyline C23_translatePolyline C23_scales_quadratically C23_translation_invariant C23_start_vertex","exact reals; the line integral is a Coquelicot Riemann integral")
c("C24","proved","C24_winding_number C24_large_bulge_refuted","exact reals; |bulge| <= 1 (false beyond, refuted); the swept angle is the Riemann integral of the angular speed")
c("C25","proved","C25_open_or_short C25_invert_negates","exact reals")
c("C26","proved","C26_contains C26_attained C26_empty C26_single C26_open_line_refuted","containment for closed polylines and for all but a final line segment of open ones; the gap for open polylines is exhibited by C26_open_line_refuted; attained up to 1e-8 of the largest arc radius")
c("C27","proved","C27_best_segment C27_single C27_minimal C27_empty","exact reals; best of the per-segment points exactly, within 1e-4 of the true minimum over all path points (slack of C14)")
c("C28","proved","C28_within_error C28_vertices_on_path C28_short","exact reals; |bulge| <= 1, error > 0 and no radius above 1e18*error (otherwise the size_t conversion of the subdivision count may be undefined)")
c("C29","proved","C29_exact C29_no_repeats C29_subsequence C29_no_op C29_closing_pair_refuted","proved for every scalar implementation (also IEEE doubles)")
c("C30","proved","C30_find_intersects C30_no_intersect_lost C30_sound","exact reals; any node size 2..65535, polylines accepted by createApproxSpatialIndex")
c("C31","proved","C31_each_pair_once C31_no_crossing_lost C31_small","exact reals; any polyline createApproxSpatialIndex accepts")
c("C46","proved","C46_consecutive_pairs C46_small","exact reals")
c("C32","proved","C32_consistent C32_lengths C32_exact C32_runs C32_empty C32_direction_line C32_direction_arc C32_direction_wrong","any scalar implementation (also IEEE doubles), any permutation std::sort may return")
c("C33","proved","C33_safe C33_exact C33_sorted","any scalar implementation, any std::sort / hash order; C33_safe for all inputs, C33_exact (the output is exactly the accepted stretches) when no cut or neighbouring vertex is within 1e-5 of a vertex")
c("C34","proved","C34_spec C34_stitch C34_selectors C34_union_order C34_exclude_order","exact reals; at most 2^24 slices (limit of the spatial index); C34_spec gives the complete relational behaviour")
c("C35","proved","C35_regions","exact reals; all closed polylines with |bulge|<=1 (simple or not) whose paths are disjoint and for which no intersect is found, all modes, all points off both paths")
c("C36","proved","C36_closed C36_returns C36_union_orientation C36_self","C36_closed and C36_union_orientation for any scalar implementation and any sort/hash order; C36_returns (the call returns, no loop guard fires, no out of range access) in exact reals for 10*nA*nB <= 2^24")
c("C47","proved","C47_locally_constant C47_constant_along_paths C47_far_zero C47_outside_extents","exact reals; |bulge| <= 1")
c("C37","proved","C37_offset_distance","exact reals; |offset| >= 1e-4 (below, the index box is inverted); acceptance bound exact on arcs, 1e-4 slack at segment ends as in C14")
c("C38","proved","C38_spec C38_stitch C38_none C38_single C38_one_vertex_result","exact reals; slices with >= 1 vertex, at most 2^24 slices; C38_spec is the complete relational behaviour including which slice is joined next; C38_one_vertex_result exhibits a closed result of a single vertex")
c("C39","proved","C39_one_per_segment C39_line C39_line_degenerate C39_arc","exact reals")
c("C40","proved","C40_short C40_shape C40_returns","C40_short and C40_shape for every scalar implementation, sorting and hash order; C40_returns in exact reals for inputs with 48*n^2 <= 2^24 whose raw offset is not flat (all vertices on one axis parallel line) when it has more than 16 segments")
c("C48","proved","C48_vertices_keep_distance","exact reals; same size hypotheses as C40_returns")
c("C49","proved","C49_crossing_test","exact reals")
c("C41","proved","C41_history_independent C41_classification C41_untouched_far C41_stitched C41_pieces_far","C41_history_independent and C41_classification for every scalar implementation, sorting and hash order (a fixed one per run); C41_untouched_far and C41_pieces_far in exact reals")
c("C42","proved","C42_history C42_capacity_monotone C42_set_capacity C42_clear_keeps_capacity C42_capacity_enough C42_capacity_reported C42_new_capacity","counts below 2^32; std::vector growth only assumed to provide enough room")
c("C43","proved","C43_safe C43_no_leak C43_release C43_double_delete C43_delete_borrowed C43_delete_null","heap model: allocation never fails; algorithm failures are excluded by hypothesis (see C36/C40 for when they return)")
c("C44","proved","C44_offset C44_combine C44_queries","")
c("C45","proved","C45_exact C45_out_of_range C45_bypass C45_asserts_sound","")
c("C50","proved","C50_boundary","exact reals; general position with at least one crossing and 10*|A|*|B| <= 2^24; the region enclosed by the result (that no part of the boundary is missing) is property C52; decided_exact gives a geometric criterion for the exactness hypothesis on line segments and the Example C50_squares meets all hypotheses")
c("C51","proved","C51_round_join C51_corner C51_raw_within C51_no_repeats C51_trim_start C51_trim_end C51_trim_first","exact reals for the geometry; the distance bound (b) is for polylines of straight segments, and for closed ones needs the start of the first offset segment to survive its first join (Example C51_box meets all hypotheses)")
c("C52","proved","C52_region C52_enclosed","exact reals; general position as in C50 plus simple inputs (winding numbers 0 or the orientation); crossing inputs only - disjoint or nested inputs are C35; Example C52_squares meets all hypotheses")
c("C53","proved","C53_areas","exact reals; same hypotheses as C52 (Example C52_squares meets them)")
c("C54","proved","C54_simple_winding C54_inside_area C54_boolean","exact reals; arcs up to a half circle; Examples C54_square and C54_circle meet the hypotheses; C54_boolean is for crossing inputs in general position (Example C56_squares)")
c("C55","proved","C55_area_is_winding_integral C55_winding_integral","exact reals; arcs up to a half circle; no simplicity needed")
c("C56","proved","C56_region_area","exact reals; hypotheses of C52 with simple inputs (Example C56_squares meets them)")
c("C57","proved","C57_offset_parts C57_on_raw","exact reals; closed polylines, arcs up to a half circle; raw offset in general position (offsetPosition; Example C58_chamfer)")
c("C58","proved","C58_offset_exact C58_curve_on_raw C58_offset_curve C58_no_false_hits","exact reals; closed polylines of straight segments with clear corners (clearRaw: edges and their offsets not degenerate, no coinciding joins); raw offset in general position; noFalseHits and decisive are the numerical margins of the library's tests, noFalseHits is discharged from plain geometric margins (clearHits) by C58_no_false_hits; Example C58_chamfer meets all hypotheses of C57 and C58_offset_exact; without hasSelfIntersects loops shorter than 0.01 may be missing")
c("C59","proved","C59_offset_side C59_sides_apart","exact reals; same hypotheses as C58_offset_exact plus simplePath (the polyline does not touch itself); for such inputs the hypothesis that the raw offsets to both sides have no clear point in common is proved (C59_sides_apart); sides by winding number and area sign (C47, C54); Example C59_chamfer meets all hypotheses")
c("C60","proved","C60_islands","exact reals; any state of the object, any sort and hash order (StdLaws); input loops with valid indexes, offset loops whose reported cuts are not within 1e-5 of a vertex (cutApart)")
c("C61","proved","C61_contact","exact reals, any sort and hash order; the parts are characterised exactly (all stretches between cuts with accepted test point) when the cuts are more than 1e-5 apart from vertexes and each other (sep), otherwise as slices that begin and end at cuts and are accepted; the region described by the result in general position is C52")
c("C62","proved","C62_line_arc C62_arc_line C62_arc_arc","exact reals; stated about the join of two consecutive offset segments, whatever was built before")
c("C63","proved","C63_end_cuts","exact reals; near tangency within the tolerances of C18 and C19")
c("C64","proved","C64_open_offset C64_on_raw","exact reals, general position (openPosition); the raw offset has to end at distance |d| from the end of the input (for straight segments always the case)")
c("C65","proved","C65_open_exact C65_open_curve C65_curve_on_raw C65_no_false_hits","exact reals, straight open polylines in general position; the second half assumes noFalseHitsOpen, which C65_no_false_hits derives from clearHits (no edge nearly parallel to the raw offset, no tiny sizes); concrete case: Example C65_hook")
c("C66","proved","C66_islands_region C66_straight_islands","exact reals; in C66_islands_region that the offset loops of each single input loop are right (offsetsExact: their points and winding numbers) is a hypothesis, which C66_straight_islands derives (from C67, C68) for straight simple input loops in general position; their general position and the decisiveness of the test points too; the 2^24 limit of the spatial index is fewMeetings")
c("C67","proved","C67_offset_region C67_offset_decides","exact reals, simple closed straight polylines; general position, decisiveness of the test points and noFalseHits (derived in C58_no_false_hits from sizes) are hypotheses; at points exactly |d| away and off all results (isolated points of the region) the first theorem says nothing, the second assumes there are none; concrete case: Example C67_chamfer")
c("C68","proved","C68_offset_loops C68_left_over_area","exact reals, same hypotheses as C67 (without noIsolated); the orientation statement is about offsets to the inside, for offsets to the outside both orientations occur (holes of the grown region); concrete case: Example C68_chamfer")
c("C69","proved","C69_islands_return C69_small_islands C69_straight_islands","exact reals; that the offset loops themselves can be indexed (hull of positive width and height unless they have at most 16 segments) and the 2^24 limits of the spatial index are hypotheses; totalCuts is bounded by 4 N^2 for N vertices (C69_small_islands)")
c("C70","proved","C70_path C70_area C70_winding C70_extents C70_length C70_translate_path C70_translate_winding C70_translate_length C70_translate_closest C70_translate_extents C70_translate_prune C70_translate_invert C70_translate_arcs C70_translate_segments C70_translate_intersects C70_translate_raw_offset C70_translate_index C70_translate_query C70_translate_self_intersects C70_translate_find_intersects C70_translate_offset","exact reals; C70_translate_offset assumes that the sort looks at elements only through the comparison and that the iteration order of the unordered map depends on its keys only (hypothesis oblivious, shown for insertion sort)")
