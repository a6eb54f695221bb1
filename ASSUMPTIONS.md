# Print Assumptions for every theorem in MANIFEST.json

Generated by tools/assumptions.py.  Every axiom is from the Coq 8.16 standard library.  `sig_forall_dec`, `sig_not_dec` are
`Coq.Reals.ClassicalDedekindReals`, `functional_extensionality_dep` is `Coq.Logic.FunctionalExtensionality`, `classic` is
`Coq.Logic.Classical_Prop`; primitive floats/integers (`Coq.Floats`, `Coq.Numbers.Cyclic.Int63`) are listed by name.

## classic, functional_extensionality_dep, sig_forall_dec, sig_not_dec

* C01 C01_query_exact
* C01 C01_query_exact_double
* C01 C01_query_exact_R
* C02 C02_visitor_prefix
* C03 C03_items_and_extents
* C04 C04_tree_walk
* C05 C05_allocation_exact
* C05 C05_overflow_beyond
* C05 C05_overflow_reachable
* C08 C08_no_bad_cast
* C08 C08_degenerate_is_UB
* C09 C09_normalizeRadians
* C09 C09_deltaAngle
* C10 C10_quadraticSolutions
* C10 C10_roots_exact
* C12 C12_arc_centre_radius
* C13 C13_split_line
* C13 C13_split_arc
* C13 C13_split_arc_at_end
* C13 C13_split_arc_at_start
* C14 C14_line
* C14 C14_arc
* C14 C14_arc_centre
* C14 C14_arc_off_refuted
* C15 C15_bounding_box
* C15 C15_expand
* C16 C16_segLength
* C16 C16_segMidpoint
* C17 C17_transversal
* C17 C17_complete
* C17 C17_collinear
* C17 C17_point
* C17 C17_point_on
* C17 C17_short_segments_refuted
* C18 C18_line_circle
* C19 C19_circle_circle
* C19 C19_coincident_iff
* C19 C19_near_concentric_refuted
* C20 C20_line_line
* C20 C20_line_line_parallel
* C20 C20_line_arc
* C20 C20_arc_line
* C20 C20_arc_arc
* C20 C20_coincident_same_direction
* C20 C20_coincident_opposite_refuted
* C20 C20_near_vertical_overlap_refuted
* C22 C22_trace_open
* C22 C22_trace_closed
* C22 C22_involution
* C22 C22_closed_flag_and_size
* C22 C22_area_negated
* C22 C22_path_length_kept
* C23 C23_area_is_line_integral
* C23 C23_parametrisation_exists
* C23 C23_zero
* C23 C23_scalePolyline
* C23 C23_translatePolyline
* C23 C23_scales_quadratically
* C23 C23_translation_invariant
* C23 C23_start_vertex
* C24 C24_winding_number
* C24 C24_large_bulge_refuted
* C25 C25_open_or_short
* C25 C25_invert_negates
* C26 C26_contains
* C26 C26_attained
* C26 C26_empty
* C26 C26_single
* C26 C26_open_line_refuted
* C27 C27_best_segment
* C27 C27_single
* C27 C27_minimal
* C27 C27_empty
* C28 C28_within_error
* C28 C28_vertices_on_path
* C28 C28_short
* C29 C29_closing_pair_refuted
* C30 C30_find_intersects
* C30 C30_no_intersect_lost
* C30 C30_sound
* C31 C31_each_pair_once
* C31 C31_no_crossing_lost
* C31 C31_small
* C32 C32_exact
* C32 C32_direction_line
* C32 C32_direction_arc
* C32 C32_direction_wrong
* C33 C33_sorted
* C34 C34_spec
* C34 C34_stitch
* C35 C35_regions
* C36 C36_returns
* C36 C36_self
* C37 C37_offset_distance
* C38 C38_spec
* C38 C38_stitch
* C38 C38_none
* C38 C38_single
* C38 C38_one_vertex_result
* C39 C39_one_per_segment
* C39 C39_line
* C39 C39_line_degenerate
* C39 C39_arc
* C40 C40_shape
* C40 C40_returns
* C41 C41_untouched_far
* C41 C41_pieces_far
* C46 C46_consecutive_pairs
* C46 C46_small
* C47 C47_locally_constant
* C47 C47_constant_along_paths
* C47 C47_far_zero
* C47 C47_outside_extents
* C48 C48_vertices_keep_distance
* C49 C49_crossing_test
* C50 C50_boundary
* C51 C51_round_join
* C51 C51_corner
* C51 C51_raw_within
* C51 C51_trim_start
* C51 C51_trim_end
* C51 C51_trim_first
* C52 C52_region
* C52 C52_enclosed
* C53 C53_areas
* C54 C54_simple_winding
* C54 C54_inside_area
* C54 C54_boolean
* C55 C55_area_is_winding_integral
* C55 C55_winding_integral
* C56 C56_region_area
* C57 C57_offset_parts
* C57 C57_on_raw
* C58 C58_offset_exact
* C58 C58_curve_on_raw
* C58 C58_offset_curve
* C58 C58_no_false_hits
* C59 C59_offset_side
* C59 C59_sides_apart
* C60 C60_islands
* C61 C61_contact
* C62 C62_line_arc
* C62 C62_arc_line
* C62 C62_arc_arc
* C63 C63_end_cuts
* C64 C64_open_offset
* C64 C64_on_raw
* C65 C65_open_exact
* C65 C65_open_curve
* C65 C65_curve_on_raw
* C65 C65_no_false_hits
* C66 C66_islands_region
* C66 C66_straight_islands
* C67 C67_offset_region
* C67 C67_offset_decides
* C68 C68_offset_loops
* C68 C68_left_over_area
* C69 C69_islands_return
* C69 C69_small_islands
* C69 C69_straight_islands
* C70 C70_path
* C70 C70_area
* C70 C70_winding
* C70 C70_extents
* C70 C70_length
* C70 C70_translate_path
* C70 C70_translate_winding
* C70 C70_translate_length
* C70 C70_translate_closest
* C70 C70_translate_extents
* C70 C70_translate_prune
* C70 C70_translate_invert
* C70 C70_translate_arcs
* C70 C70_translate_segments
* C70 C70_translate_intersects
* C70 C70_translate_raw_offset
* C70 C70_translate_index
* C70 C70_translate_query
* C70 C70_translate_self_intersects
* C70 C70_translate_find_intersects
* C70 C70_translate_offset

## Closed under the global context (no axioms)

* C02 C02_runVisitor_is_prefix
* C04 C04_union_least
* C06 C06_sort
* C07 C07_position
* C07 C07_bijection
* C07 C07_injective
* C07 C07_neighbours
* C07 C07_start_and_end
* C11 C11_wrapping
* C21 C21_visit_order
* C21 C21_indices
* C21 C21_each_once
* C29 C29_exact
* C29 C29_no_repeats
* C29 C29_subsequence
* C29 C29_no_op
* C32 C32_consistent
* C32 C32_lengths
* C32 C32_runs
* C32 C32_empty
* C33 C33_safe
* C33 C33_exact
* C34 C34_selectors
* C34 C34_union_order
* C34 C34_exclude_order
* C36 C36_closed
* C36 C36_union_orientation
* C40 C40_short
* C41 C41_history_independent
* C41 C41_classification
* C41 C41_stitched
* C42 C42_history
* C42 C42_capacity_monotone
* C42 C42_set_capacity
* C42 C42_clear_keeps_capacity
* C42 C42_capacity_enough
* C42 C42_capacity_reported
* C42 C42_new_capacity
* C43 C43_safe
* C43 C43_no_leak
* C43 C43_release
* C43 C43_double_delete
* C43 C43_delete_borrowed
* C43 C43_delete_null
* C44 C44_offset
* C44 C44_combine
* C44 C44_queries
* C45 C45_exact
* C45 C45_out_of_range
* C45 C45_bypass
* C45 C45_asserts_sound
* C51 C51_no_repeats

