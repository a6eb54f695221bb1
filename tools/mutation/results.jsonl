{"i": 0, "file": "MathUtils", "defn": "normalizeRadians", "claim": "C09 normalized angle in range", "rc": 2, "errs": ["PropsMath.C09_normalizeRadians"]}
{"i": 1, "file": "MathUtils", "defn": "deltaAngle", "claim": "C09 delta in (-pi,pi]", "rc": 2, "errs": ["PropsMath.C09_deltaAngle"]}
{"i": 2, "file": "MathUtils", "defn": "quadraticSolutions", "claim": "C10 both roots (c = 0, b < 0)", "rc": 2, "errs": ["PropsMath.C10_quadraticSolutions"]}
{"i": 3, "file": "MathUtils", "defn": "nextWrappingIndex", "claim": "C11 successor modulo size", "rc": 2, "errs": ["PropsMath.C11_wrapping", "PropsCoincident.next_lt", "Runs.C41_run"]}
{"i": 4, "file": "MathUtils", "defn": "closestPointOnLineSeg", "claim": "C14 nearest point of a line segment", "rc": 2, "errs": ["PropsClosest.C14_line"]}
{"i": 5, "file": "MathUtils", "defn": "leftExpr", "claim": "C24 winding number", "rc": 2, "errs": ["PropsClosest.cross_rot"]}
{"i": 6, "file": "MathUtils", "defn": "pointWithinArcSweepAngle", "claim": "C14 closest point on arcs", "rc": 2, "errs": ["PropsClosest.sweep_test"]}
{"i": 7, "file": "PlineSegment", "defn": "arcRadiusAndCenter", "claim": "C12 arc centre side", "rc": 2, "errs": ["ArcGeom.center_R"]}
{"i": 8, "file": "PlineSegment", "defn": "splitAtPoint", "claim": "C13 second part of a split", "rc": 2, "errs": ["PropsSegment.C13_split_arc"]}
{"i": 9, "file": "PlineSegment", "defn": "splitAtPoint", "claim": "C13 split at the end point", "rc": 0, "errs": []}
{"i": 10, "file": "PlineSegment", "defn": "intrLineSeg2LineSeg2", "claim": "C17 no false intersect beyond the end of a segment", "rc": 2, "errs": ["PropsIntr.ll_unfold"]}
{"i": 11, "file": "PlineSegment", "defn": "intrLineSeg2LineSeg2", "claim": "C17 opposing collinear segments", "rc": 2, "errs": ["PropsIntr.C17_collinear"]}
{"i": 12, "file": "PlineSegment", "defn": "intrLineSeg2Circle2", "claim": "C18 tangent point", "rc": 2, "errs": ["PropsIntr.C18_line_circle"]}
{"i": 13, "file": "PlineSegment", "defn": "intrCircle2Circle2", "claim": "C19 nested circles do not intersect", "rc": 2, "errs": ["PropsIntr.cc_unfold"]}
{"i": 14, "file": "PlineSegment", "defn": "intrCircle2Circle2", "claim": "C19 points on both circles", "rc": 2, "errs": ["PropsIntr.cc_unfold"]}
{"i": 15, "file": "PlineSegment", "defn": "createFastApproxBoundingBox", "claim": "C15 box encloses the segment", "rc": 2, "errs": ["PropsSegment.C15_bounding_box"]}
{"i": 16, "file": "PlineSegment", "defn": "createFastApproxBoundingBox", "claim": "C15 box encloses the segment", "rc": 2, "errs": ["PropsSegment.C15_bounding_box"]}
{"i": 17, "file": "PlineSegment", "defn": "segLength", "claim": "C16 length of cw arcs", "rc": 2, "errs": ["PropsSegment.C16_segLength"]}
{"i": 18, "file": "PlineSegment", "defn": "segMidpoint", "claim": "C16 midpoint of cw arcs", "rc": 2, "errs": ["PropsSegment.C16_segMidpoint"]}
{"i": 19, "file": "PlineSegment", "defn": "coincidentArcsIntr", "claim": "C20 overlap end points on both arcs", "rc": 2, "errs": ["PropsPlineIntr.C20_coincident_same_direction"]}
{"i": 20, "file": "PlineSegment", "defn": "processLineArcIntr", "claim": "C20 second intersect not lost", "rc": 2, "errs": ["PropsPlineIntr.process_line_arc"]}
{"i": 21, "file": "PlineSegment", "defn": "intrPlineSegs", "claim": "C20 arc/line pairs", "rc": 2, "errs": ["Runs.C41_run", "PropsPlineIntr.C20_arc_line"]}
{"i": 22, "file": "Polyline", "defn": "visitSegIndices", "claim": "C21 closing segment visited", "rc": 2, "errs": ["PropsPolyline.C21_visit_order", "Runs.C41_run"]}
{"i": 23, "file": "Polyline", "defn": "visitSeg_loop", "claim": "C21 consecutive vertices", "rc": 2, "errs": ["PropsPolyline.visit_loop_spec", "Runs.C41_run"]}
{"i": 24, "file": "Polyline", "defn": "scalePolyline", "claim": "scaling keeps the shape of arcs", "rc": 2, "errs": ["PropsArea.C23_scalePolyline"]}
{"i": 25, "file": "Polyline", "defn": "translatePolyline", "claim": "translation by the given vector", "rc": 2, "errs": ["PropsArea.C23_translatePolyline"]}
{"i": 26, "file": "Polyline", "defn": "extents_step", "claim": "C26 extents enclose arcs", "rc": 2, "errs": ["PropsExtents.extents_step_R"]}
{"i": 27, "file": "Polyline", "defn": "extents_step", "claim": "C26 extents enclose path", "rc": 2, "errs": ["PropsExtents.extents_step_R"]}
{"i": 28, "file": "Polyline", "defn": "area_step", "claim": "C23 area of cw arcs", "rc": 2, "errs": ["PropsPolyline.areaOf_rev"]}
{"i": 29, "file": "Polyline", "defn": "area_step", "claim": "C23 area", "rc": 2, "errs": ["PropsArea.areaOf_arc"]}
{"i": 30, "file": "Polyline", "defn": "getArea", "claim": "C23 area", "rc": 2, "errs": ["PropsPolyline.getArea_sum"]}
{"i": 31, "file": "Polyline", "defn": "closest_step", "claim": "C27 minimum", "rc": 2, "errs": ["PropsPlineClosest.closest_fold"]}
{"i": 32, "file": "Polyline", "defn": "closestPoint_compute", "claim": "C27 distance", "rc": 2, "errs": ["PropsPlineClosest.C27_best_segment"]}
{"i": 33, "file": "Polyline", "defn": "closestPoint_compute", "claim": "C27 history independence", "rc": 2, "errs": ["PropsPlineClosest.C27_best_segment"]}
{"i": 34, "file": "Polyline", "defn": "convertArcs_step", "claim": "C28 error bound", "rc": 2, "errs": ["PropsArcs2Lines.convert_step"]}
{"i": 35, "file": "Polyline", "defn": "convertArcs_step", "claim": "C28 cw arcs", "rc": 2, "errs": ["PropsArcs2Lines.convert_step"]}
{"i": 36, "file": "Polyline", "defn": "prune_loop", "claim": "C29 surviving vertex has the last bulge", "rc": 2, "errs": ["PropsPrune.prune_runs"]}
{"i": 37, "file": "Polyline", "defn": "pruneSingularities", "claim": "C29 closing vertex", "rc": 2, "errs": ["PropsPrune.C29_exact"]}
{"i": 38, "file": "Polyline", "defn": "shiftBulges", "claim": "C22 reversed path", "rc": 2, "errs": ["PropsPolyline.shiftBulges_last"]}
{"i": 39, "file": "Polyline", "defn": "shiftBulges", "claim": "C22 reversed path (closing segment)", "rc": 2, "errs": ["PropsPolyline.shiftBulges_last"]}
{"i": 40, "file": "Polyline", "defn": "createApproxSpatialIndex", "claim": "C30/C01 index holds each segment", "rc": 2, "errs": ["PropsPlineIndex.create_build", "Runs.C41_run"]}
{"i": 41, "file": "Polyline", "defn": "lineWinding", "claim": "C24 half open crossing rule", "rc": 2, "errs": ["PropsWinding.line_contrib"]}
{"i": 42, "file": "Polyline", "defn": "arcWinding", "claim": "C24 cw arcs upward", "rc": 2, "errs": ["PropsWinding.arc_contrib_out"]}
{"i": 43, "file": "Polyline", "defn": "arcWinding", "claim": "C24 ccw arc below the point", "rc": 2, "errs": ["PropsWinding.arc_contrib_ccw"]}
{"i": 44, "file": "Polyline", "defn": "getWindingNumber", "claim": "C24/25 open polylines have winding number 0", "rc": 2, "errs": ["PropsWinding.C24_winding_number"]}
{"i": 45, "file": "Polyline", "defn": "getPathLength", "claim": "C16 path length is the sum", "rc": 2, "errs": ["PropsPolyline.getPathLength_sum"]}
{"i": 46, "file": "Polyline", "defn": "addOrReplaceIfSamePos", "claim": "replaced vertex takes the new bulge", "rc": 2, "errs": ["PropsSlices.addOrReplace_cases"]}
{"i": 47, "file": "SpatialIndex", "defn": "noOverlap", "claim": "C01 exact query", "rc": 2, "errs": ["IndexQuery.noOverlap_encl"]}
{"i": 48, "file": "SpatialIndex", "defn": "noOverlap", "claim": "C01 touching boxes", "rc": 2, "errs": ["IndexQuery.noOverlap_encl"]}
{"i": 49, "file": "SpatialIndex", "defn": "queryNode_loop", "claim": "C02 early stop", "rc": 2, "errs": ["IndexQuery.queryNode_sim"]}
{"i": 50, "file": "SpatialIndex", "defn": "query_loop", "claim": "C01 last node of a level", "rc": 2, "errs": ["IndexQuery.query_loop_spec", "Runs.C41_run"]}
{"i": 51, "file": "SpatialIndex", "defn": "nodeBox_loop", "claim": "C01/C04 node boxes", "rc": 2, "errs": ["IndexTree.nodeBox_loop_spec"]}
{"i": 52, "file": "SpatialIndex", "defn": "swap", "claim": "C06 boxes move with indices", "rc": 2, "errs": ["IndexSort.swap_spec"]}
{"i": 53, "file": "SpatialIndex", "defn": "sort", "claim": "C06 blocks in Hilbert order", "rc": 2, "errs": ["IndexSort.sort_spec"]}
{"i": 54, "file": "SpatialIndex", "defn": "sort", "claim": "C06 blocks in Hilbert order", "rc": 2, "errs": ["IndexSort.sort_spec"]}
{"i": 55, "file": "SpatialIndex", "defn": "partition_loop", "claim": "C06", "rc": 2, "errs": ["IndexSort.partition_loop_spec"]}
{"i": 56, "file": "SpatialIndex", "defn": "hilbertXYToIndex", "claim": "C07 bijection", "rc": 2, "errs": ["PropsHilbert.hilbert_code"]}
{"i": 57, "file": "SpatialIndex", "defn": "hilSpread", "claim": "C07 bijection", "rc": 2, "errs": ["PropsHilbert.spread_spec"]}
{"i": 58, "file": "SpatialIndex", "defn": "finish", "claim": "C01/C04 tree shape at NodeSize+1 items", "rc": 2, "errs": ["IndexTree.build_wf"]}
{"i": 59, "file": "SpatialIndex", "defn": "add", "claim": "C03 index extents", "rc": 2, "errs": ["IndexTree.addAll_spec"]}
{"i": 60, "file": "SpatialIndex", "defn": "levelBounds_loop", "claim": "C05 allocation", "rc": 2, "errs": ["IndexTree.levelBounds_loop_spec", "Runs.C41_run"]}
{"i": 61, "file": "SpatialIndex", "defn": "visitItemBoxes", "claim": "C03 only items", "rc": 2, "errs": ["PropsIndex.C03_items_and_extents"]}
{"i": 62, "file": "SpatialIndex", "defn": "visitQuery", "claim": "C01", "rc": 2, "errs": ["IndexQuery.query_hits", "Runs.C41_run"]}
{"i": 63, "file": "Intersects", "defn": "orientCoinc", "claim": "C32 orientation along pline1", "rc": 2, "errs": ["PropsCoincident.C32_consistent"]}
{"i": 64, "file": "Intersects", "defn": "startSlice", "claim": "C32 opposing flag", "rc": 0, "errs": []}
{"i": 65, "file": "Intersects", "defn": "joinLoop", "claim": "C32 end points", "rc": 2, "errs": ["PropsCoincident.join_R"]}
{"i": 66, "file": "Intersects", "defn": "joinEnds", "claim": "C32 parallel lists", "rc": 2, "errs": ["PropsCoincident.C32_consistent"]}
{"i": 67, "file": "Intersects", "defn": "testAndAddIntersect", "claim": "C46 shared vertex not reported", "rc": 2, "errs": ["PropsSelfIntr.testAndAdd_R", "Runs.C41_run"]}
{"i": 68, "file": "Intersects", "defn": "localSelfIntersects", "claim": "C46 pair (last, first)", "rc": 2, "errs": ["PropsSelfIntr.C46_consecutive_pairs"]}
{"i": 69, "file": "Intersects", "defn": "globalIndexVisitor", "claim": "C31 once", "rc": 2, "errs": ["PropsSelfIntr.global_step"]}
{"i": 70, "file": "Intersects", "defn": "globalIndexVisitor", "claim": "C31 once", "rc": 2, "errs": ["PropsSelfIntr.global_step"]}
{"i": 71, "file": "Intersects", "defn": "globalPairIntrs", "claim": "C31 reported points", "rc": 2, "errs": ["PropsSelfIntr.global_step"]}
{"i": 72, "file": "Intersects", "defn": "findPair", "claim": "C30 duplicates", "rc": 2, "errs": ["PropsFindIntr.findPair_R"]}
{"i": 73, "file": "Intersects", "defn": "findPair", "claim": "C30 indices", "rc": 2, "errs": ["PropsFindIntr.findPair_R"]}
{"i": 74, "file": "Intersects", "defn": "isDuplicate", "claim": "C30 duplicates", "rc": 2, "errs": ["PropsFindIntr.C30_find_intersects"]}
{"i": 75, "file": "Intersects", "defn": "findSegVisitor", "claim": "C30 candidate search", "rc": 2, "errs": ["PropsFindIntr.find_fold"]}
{"i": 76, "file": "Combine", "defn": "midSlices", "claim": "C33 coincident part not emitted", "rc": 2, "errs": ["PropsSlices.midSlices_ok"]}
{"i": 77, "file": "Combine", "defn": "sliceOne", "claim": "C33/C47 slices satisfy the predicate", "rc": 2, "errs": ["PropsSlices.sliceOne_ok"]}
{"i": 78, "file": "Combine", "defn": "sliceLoop", "claim": "C33 slice ends at the intersect", "rc": 2, "errs": ["PropsSlices.sliceLoop_ok"]}
{"i": 79, "file": "Combine", "defn": "sliceLoop", "claim": "C33 wraps", "rc": 2, "errs": ["PropsSlices.sliceLoop_ok"]}
{"i": 80, "file": "Combine", "defn": "closePline", "claim": "C34/C36 at least 2 vertices", "rc": 2, "errs": ["PropsStitch.walk_loop"]}
{"i": 81, "file": "Combine", "defn": "closePline", "claim": "C36 closed", "rc": 2, "errs": ["PropsStitch.walk_loop", "Runs.C41_run"]}
{"i": 82, "file": "Combine", "defn": "stitchLoop", "claim": "C34 each slice at most once", "rc": 2, "errs": ["PropsStitch.walk_loop", "Runs.C41_run"]}
{"i": 83, "file": "Combine", "defn": "stitchLoop", "claim": "C34 join vertex not duplicated", "rc": 2, "errs": ["PropsStitch.walk_loop", "Runs.C41_run"]}
{"i": 84, "file": "Combine", "defn": "stitchIndex", "claim": "C34 joined ends within the threshold; all candidates found", "rc": 2, "errs": ["PropsStitch.stitchIndex_build"]}
{"i": 85, "file": "Combine", "defn": "splitByOrientation", "claim": "C36 union classification", "rc": 2, "errs": ["PropsCombine.C36_union_orientation"]}
{"i": 86, "file": "Combine", "defn": "unionAndIntersectSelector", "claim": "C34 coincident slices not chained", "rc": 2, "errs": ["PropsStitch.C34_selectors"]}
{"i": 87, "file": "Combine", "defn": "excludeAndXORSelector", "claim": "C34 exclude alternates between A and B", "rc": 0, "errs": []}
{"i": 88, "file": "Combine", "defn": "collectSlices", "claim": "C36/C47 orientation of B slices", "rc": 2, "errs": ["PropsCombine.collect_ok"]}
{"i": 89, "file": "Combine", "defn": "combinePolylines", "claim": "C35 union", "rc": 2, "errs": ["PropsBoolean.C35_regions_partial"]}
{"i": 90, "file": "Combine", "defn": "combinePolylines", "claim": "C35 exclude hole", "rc": 2, "errs": ["PropsBoolean.C35_regions_partial"]}
{"i": 91, "file": "Combine", "defn": "combinePolylines", "claim": "C36/C47 intersect keeps B inside A", "rc": 0, "errs": []}
{"i": 92, "file": "Combine", "defn": "combinePolylines", "claim": "C36 XOR has both parts", "rc": 2, "errs": ["PropsCombine.C36_closed"]}
{"i": 93, "file": "Combine", "defn": "combinePolylines", "claim": "C36 intersect with self", "rc": 0, "errs": []}
{"i": 94, "file": "Combine", "defn": "pushCoinc2", "claim": "C33 coincident parts of B are not emitted", "rc": 2, "errs": ["PropsSlices.buildLookup_spec"]}
{"i": 95, "file": "Offset", "defn": "offsetLine", "claim": "C39 offset side", "rc": 2, "errs": ["PropsOffsetSegs.C39_line", "Runs.C41_run"]}
{"i": 96, "file": "Offset", "defn": "offsetArc", "claim": "C39 offset side of arcs", "rc": 2, "errs": ["PropsOffsetSegs.C39_arc"]}
{"i": 97, "file": "Offset", "defn": "offsetArc", "claim": "C39 collapsed arcs", "rc": 2, "errs": ["PropsOffsetSegs.C39_arc"]}
{"i": 98, "file": "Offset", "defn": "createUntrimmedOffsetSegments", "claim": "C39 one segment per input segment", "rc": 2, "errs": ["PropsOffsetSegs.C39_one_per_segment", "Runs.C41_run", "PropsRawOffset.untrimmed_ok"]}
{"i": 99, "file": "Offset", "defn": "bulgeForConnection", "claim": "joins go round the corner", "rc": 0, "errs": []}
{"i": 100, "file": "Offset", "defn": "bulgeForConnection", "claim": "join arcs at the offset distance", "rc": 0, "errs": []}
{"i": 101, "file": "Offset", "defn": "lineToLineJoin", "claim": "joins: arcs at convex corners", "rc": 2, "errs": ["PropsRawOffset.join_ok"]}
{"i": 102, "file": "Offset", "defn": "lineToLineJoin", "claim": "joins: trimmed at the intersection", "rc": 2, "errs": ["Runs.C41_run"]}
{"i": 103, "file": "Offset", "defn": "trimmedArcVertex", "claim": "joins: trimmed arc keeps its circle", "rc": 0, "errs": []}
{"i": 104, "file": "Offset", "defn": "trimPrev", "claim": "joins: trimmed arc keeps its circle", "rc": 0, "errs": []}
{"i": 105, "file": "Offset", "defn": "closeRaw", "claim": "C40 raw offset without repeated first vertex", "rc": 0, "errs": []}
{"i": 106, "file": "Offset", "defn": "pointValidForOffset", "claim": "C37", "rc": 2, "errs": ["PropsOffset.C37_offset_distance"]}
{"i": 107, "file": "Offset", "defn": "pointValidForOffset", "claim": "C37 distance", "rc": 2, "errs": ["PropsOffset.C37_offset_distance"]}
{"i": 108, "file": "Offset", "defn": "pointValidForOffset", "claim": "C37 all segments tested", "rc": 2, "errs": ["PropsOffset.C37_offset_distance"]}
{"i": 109, "file": "Offset", "defn": "intersectsOrigPline", "claim": "C49", "rc": 2, "errs": ["PropsParallelTotal.C49_crossing_test"]}
{"i": 110, "file": "Offset", "defn": "midOffsetSlices", "claim": "C48 end points tested", "rc": 2, "errs": ["PropsOffsetSlices.mid_ok"]}
{"i": 111, "file": "Offset", "defn": "midOffsetSlices", "claim": "C49/C48 crossing test applied", "rc": 2, "errs": ["PropsOffsetSlices.mid_ok"]}
{"i": 112, "file": "Offset", "defn": "offsetSliceLoop", "claim": "C48 vertices tested", "rc": 2, "errs": ["PropsOffsetSlices.loop_ok"]}
{"i": 113, "file": "Offset", "defn": "offsetSliceLoop", "claim": "slices follow the raw offset", "rc": 2, "errs": ["PropsOffsetSlices.loop_ok"]}
{"i": 114, "file": "Offset", "defn": "offsetSliceOne", "claim": "C48 start point tested", "rc": 2, "errs": ["PropsOffsetSlices.sliceOne_ok"]}
{"i": 115, "file": "Offset", "defn": "slicesFromRawOffset", "claim": "C48 whole raw offset tested", "rc": 2, "errs": ["PropsParallel.slices_shape"]}
{"i": 116, "file": "Offset", "defn": "slicesFromRawOffset", "claim": "both segments of a self intersect are cut", "rc": 2, "errs": ["PropsParallelTotal.slices_ok"]}
{"i": 117, "file": "Offset", "defn": "dualSliceAtIntersectsForOffset", "claim": "dual intersects cut the raw offset", "rc": 2, "errs": ["PropsParallelTotal.dual_ok"]}
{"i": 118, "file": "Offset", "defn": "stitchOffsetLoop", "claim": "C38 each slice once", "rc": 2, "errs": ["PropsOffsetStitch.chain_loop"]}
{"i": 119, "file": "Offset", "defn": "stitchOffsetLoop", "claim": "C38 closing vertex", "rc": 2, "errs": ["PropsOffsetStitch.chain_loop"]}
{"i": 120, "file": "Offset", "defn": "stitchOffsetLoop", "claim": "C38 join vertex", "rc": 2, "errs": ["PropsOffsetStitch.chain_loop"]}
{"i": 121, "file": "Offset", "defn": "stitchCmp", "claim": "stitching takes the next slice along the polyline", "rc": 2, "errs": ["PropsOffsetStitch.stitchCmp_key"]}
{"i": 122, "file": "Offset", "defn": "parallelOffset", "claim": "C40 open inputs give open results", "rc": 2, "errs": ["PropsParallel.C40_shape"]}
{"i": 123, "file": "Offset", "defn": "parallelOffset", "claim": "dual offset on the other side", "rc": 2, "errs": ["PropsParallelTotal.C40_returns"]}
{"i": 124, "file": "Islands", "defn": "addCcwOffset", "claim": "C41 inverted offsets dropped", "rc": 2, "errs": ["PropsIslands.offsets_classified"]}
{"i": 125, "file": "Islands", "defn": "addCwOffset", "claim": "C41 classification", "rc": 2, "errs": ["Runs.C41_run", "PropsIslands.offsets_classified"]}
{"i": 126, "file": "Islands", "defn": "createOffsetLoops", "claim": "C41 history independence", "rc": 2, "errs": ["PropsIslands.rel_offsetLoops", "Runs.C41_run"]}
{"i": 127, "file": "Islands", "defn": "createSlicePoints", "claim": "C41 history independence", "rc": 2, "errs": ["PropsIslands.rel_slicePoints"]}
{"i": 128, "file": "Islands", "defn": "slicePointsPair", "claim": "pairs of loops intersected once", "rc": 0, "errs": []}
{"i": 129, "file": "Islands", "defn": "pointOnOffsetValid", "claim": "C41 untouched loops kept", "rc": 2, "errs": ["Runs.C41_run"]}
{"i": 130, "file": "Islands", "defn": "pointOnOffsetValid", "claim": "C41 distance from every other loop", "rc": 2, "errs": ["PropsIslands.valid_all"]}
{"i": 131, "file": "Islands", "defn": "processLoop", "claim": "C41 validity of untouched loops", "rc": 2, "errs": ["Runs.C41_run", "PropsIslands.rel_process"]}
{"i": 132, "file": "Islands", "defn": "dissOne", "claim": "C41 slices valid", "rc": 2, "errs": ["Runs.C41_run"]}
{"i": 133, "file": "Islands", "defn": "midDissSlices", "claim": "C41 slices valid", "rc": 0, "errs": []}
{"i": 134, "file": "Islands", "defn": "addStitched", "claim": "C41 classification", "rc": 2, "errs": ["Runs.C41_run", "PropsIslands.C41_classification"]}
{"i": 135, "file": "Islands", "defn": "fillDiss", "claim": "slice points on the right segments", "rc": 2, "errs": ["Runs.C41_run"]}
{"i": 136, "file": "Islands", "defn": "createOffsetLoops", "claim": "C41 parent index of cw loops", "rc": 2, "errs": ["PropsIslands.offsets_classified"]}
{"i": 137, "file": "CApi", "defn": "freeP", "claim": "C43 freed", "rc": 2, "errs": ["PropsCApi.call_refines"]}
{"i": 138, "file": "CApi", "defn": "list_release", "claim": "C43 released element leaves the list", "rc": 2, "errs": ["PropsCApi.perform_inv"]}
{"i": 139, "file": "CApi", "defn": "list_delete", "claim": "C43 no leak", "rc": 2, "errs": ["PropsCApi.perform_ok"]}
{"i": 140, "file": "CApi", "defn": "pline_remove_range", "claim": "C42/C45", "rc": 2, "errs": ["PropsCApi.op_refines"]}
{"i": 141, "file": "CApi", "defn": "pline_add_vertex", "claim": "C42 capacity", "rc": 2, "errs": ["PropsCApi.op_capacity"]}
{"i": 142, "file": "CApi", "defn": "pline_clear", "claim": "C42 clear keeps the closed flag", "rc": 2, "errs": ["PropsCApi.op_refines"]}
{"i": 143, "file": "CApi", "defn": "api_parallel_offset", "claim": "C44 flag", "rc": 2, "errs": ["PropsCApi.C44_offset"]}
{"i": 144, "file": "CApi", "defn": "modeOfInt", "claim": "C44 mode", "rc": 2, "errs": ["PropsCApi.C44_combine"]}
{"i": 145, "file": "CApi", "defn": "api_combine_plines", "claim": "C44 argument order", "rc": 2, "errs": ["PropsCApi.C44_combine"]}
{"i": 146, "file": "CApi", "defn": "api_combine_plines", "claim": "C44 outputs", "rc": 2, "errs": ["PropsCApi.C44_combine"]}
{"i": 147, "file": "CApi", "defn": "copyToPline", "claim": "C42 set_vertex_data replaces", "rc": 2, "errs": ["PropsCApi.op_refines"]}
{"i": 148, "file": "CApi", "defn": "api_get_closest_point", "claim": "C44 closest point", "rc": 0, "errs": []}
{"i": 9, "file": "PlineSegment", "defn": "splitAtPoint", "claim": "C13 split at the end point", "rc": 2, "errs": ["PropsSegment.C13_split_arc_at_end"]}
{"i": 64, "file": "Intersects", "defn": "startSlice", "claim": "C32 opposing flag", "rc": 2, "errs": ["PropsCoincident.start_R"]}
{"i": 87, "file": "Combine", "defn": "excludeAndXORSelector", "claim": "C34 exclude alternates between A and B", "rc": 2, "errs": ["PropsStitch.C34_exclude_order"]}
{"i": 91, "file": "Combine", "defn": "combinePolylines", "claim": "C36/C47 intersect keeps B inside A", "rc": 2, "errs": ["PropsBoolOps.C50_boundary"]}
{"i": 93, "file": "Combine", "defn": "combinePolylines", "claim": "C36 intersect with self", "rc": 2, "errs": ["PropsSelfCombine.C36_self"]}
{"i": 148, "file": "CApi", "defn": "api_get_closest_point", "claim": "C44 closest point", "rc": 2, "errs": ["PropsCApi.C44_queries"]}
{"i": 129, "file": "Islands", "defn": "pointOnOffsetValid", "claim": "C41 untouched loops kept", "rc": 2, "errs": ["Runs.C41_run"]}
{"i": 130, "file": "Islands", "defn": "pointOnOffsetValid", "claim": "C41 distance from every other loop", "rc": 2, "errs": ["PropsIslands.valid_all"]}
{"i": 131, "file": "Islands", "defn": "processLoop", "claim": "C41 validity of untouched loops", "rc": 2, "errs": ["Runs.C41_run", "PropsIslands.rel_process"]}
{"i": 132, "file": "Islands", "defn": "dissOne", "claim": "C41 slices valid", "rc": 2, "errs": ["Runs.C41_run", "PropsIslandSlices.dissOne_slice"]}
{"i": 133, "file": "Islands", "defn": "midDissSlices", "claim": "C41 slices valid", "rc": 2, "errs": ["PropsIslandSlices.midDiss_slice"]}
{"i": 134, "file": "Islands", "defn": "addStitched", "claim": "C41 classification", "rc": 2, "errs": ["Runs.C41_run", "PropsIslands.C41_classification"]}
{"i": 135, "file": "Islands", "defn": "fillDiss", "claim": "slice points on the right segments", "rc": 2, "errs": ["Runs.C41_run", "PropsIslandSlices.fill_good"]}
{"i": 99, "file": "Offset", "defn": "bulgeForConnection", "claim": "joins go round the corner", "rc": 2, "errs": ["PropsJoins.connection_bulge"]}
{"i": 100, "file": "Offset", "defn": "bulgeForConnection", "claim": "join arcs at the offset distance", "rc": 2, "errs": ["PropsJoins.connection_bulge"]}
{"i": 103, "file": "Offset", "defn": "trimmedArcVertex", "claim": "joins: trimmed arc keeps its circle", "rc": 2, "errs": ["PropsTrims.C51_trim_start"]}
{"i": 104, "file": "Offset", "defn": "trimPrev", "claim": "joins: trimmed arc keeps its circle", "rc": 2, "errs": ["PropsTrims.step_trim"]}
{"i": 105, "file": "Offset", "defn": "closeRaw", "claim": "C40 raw offset without repeated first vertex", "rc": 2, "errs": ["PropsTrims.close_nr", "PropsJoins.closeRaw_R"]}
{"i": 149, "file": "Offset", "defn": "lineToLineJoin", "claim": "C51 outside corners are rounded, others are not", "rc": 2, "errs": ["Runs.C51_run_out", "PropsJoins.line_join"]}
{"i": 150, "file": "Offset", "defn": "lineToLineJoin", "claim": "C51 inside corners are cut at the crossing", "rc": 2, "errs": ["Runs.C51_run_in", "PropsJoins.line_join"]}
{"i": 151, "file": "Offset", "defn": "connectUsingArc", "claim": "C51 arc about the corner (swapped ends have the same angle; no effect expected for angles below a half turn)", "rc": 2, "errs": ["PropsJoins.line_join"]}
{"i": 152, "file": "Offset", "defn": "connectUsingArc", "claim": "C51 arc about the corner", "rc": 2, "errs": ["PropsJoins.line_join"]}
{"i": 153, "file": "Offset", "defn": "createRawOffsetPline", "claim": "C51 arcs turn the way the input turns", "rc": 2, "errs": ["PropsRawOffset.raw_ok"]}
{"i": 154, "file": "Offset", "defn": "closeRaw", "claim": "C51 trimmed arc keeps its circle at the closing join", "rc": 0, "errs": []}
{"i": 155, "file": "Offset", "defn": "closeRaw", "claim": "C51 closing join moves the first vertex", "rc": 2, "errs": ["Runs.C41_run", "PropsRawOffset.closeRaw_ok"]}
{"i": 154, "file": "Offset", "defn": "closeRaw", "claim": "C51 trimmed arc keeps its circle at the closing join", "rc": 2, "errs": ["PropsTrims.C51_trim_first"]}
{"i": 156, "file": "Combine", "defn": "collectSlices", "claim": "C52 kept parts of B get the direction the result needs", "rc": 2, "errs": ["PropsCombine.collect_ok"]}
{"i": 157, "file": "Combine", "defn": "combinePolylines", "claim": "C52 second half of XOR directed", "rc": 2, "errs": ["PropsBoolOps.C50_boundary"]}
{"i": 158, "file": "Combine", "defn": "combinePolylines", "claim": "C52 exclude reverses the parts of B", "rc": 2, "errs": ["PropsBoolOps.C50_boundary"]}
{"i": 159, "file": "Combine", "defn": "stitchLoop", "claim": "C52 no vertex lost at a junction", "rc": 2, "errs": ["PropsStitch.walk_loop", "Runs.C41_run"]}
{"i": 160, "file": "Combine", "defn": "splitByOrientation", "claim": "C52 holes of the union are not lost", "rc": 2, "errs": ["PropsCombine.C36_closed"]}
{"i": 161, "file": "Combine", "defn": "combinePolylines", "claim": "C52 every loop of the result is returned", "rc": 2, "errs": ["PropsCombine.C36_closed"]}
{"i": 162, "file": "Combine", "defn": "processForCombine", "claim": "C52 orientation of B considered", "rc": 2, "errs": ["PropsCombine.process_ok"]}
{"i": 163, "file": "Combine", "defn": "sliceAtIntersects", "claim": "C52 every stretch considered", "rc": 2, "errs": ["PropsSlices.C33_safe"]}
{"i": 164, "file": "Combine", "defn": "stitchFrom", "claim": "C52 every slice starts its own loop", "rc": 2, "errs": ["PropsStitch.C34_spec", "Runs.C41_run"]}
{"i": 165, "file": "Combine", "defn": "combinePolylines", "claim": "C52 union keeps the parts outside", "rc": 2, "errs": ["PropsBoolOps.C50_boundary"]}
{"i": 166, "file": "Offset", "defn": "midOffsetSlices", "claim": "C57: the stretches of the raw offset between cuts do not overlap", "rc": 2, "errs": ["PropsOffsetSlices.mid_ok"]}
{"i": 167, "file": "Offset", "defn": "offsetSliceOne", "claim": "C57: every stretch between two cuts of one segment is considered", "rc": 2, "errs": ["PropsOffsetSlices.sliceOne_ok"]}
{"i": 168, "file": "Offset", "defn": "offsetSliceOne", "claim": "C57: the last stretch of a segment starts at its last cut", "rc": 2, "errs": ["PropsOffsetSlices.sliceOne_ok"]}
{"i": 169, "file": "Offset", "defn": "offsetSliceOne", "claim": "C57/C58: only loops shorter than 0.01 are dropped", "rc": 2, "errs": ["PropsOffsetSlices.sliceOne_ok"]}
{"i": 170, "file": "Offset", "defn": "offsetSliceLoop", "claim": "C57/C58: the mid point of the last piece of a stretch is tested", "rc": 2, "errs": ["PropsOffsetSlices.loop_ok"]}
{"i": 171, "file": "Offset", "defn": "parallelOffset", "claim": "C57/C58: the results lie on the raw offset to the requested side", "rc": 2, "errs": ["PropsParallelTotal.C40_returns"]}
{"i": 172, "file": "Offset", "defn": "wholeRaw", "claim": "C57: an uncut raw offset is returned as a closed polyline", "rc": 2, "errs": ["Runs.C41_run", "PropsParallelTotal.slices_ok"]}
{"i": 173, "file": "Offset", "defn": "sortVLookup", "claim": "C57: the cuts of a segment are visited in order along the segment", "rc": 2, "errs": ["PropsOffsetSlices.sortV_ok"]}
{"i": 174, "file": "Offset", "defn": "dualSliceAtIntersectsForOffset", "claim": "C57: with hasSelfIntersects both branches are cut at a double point", "rc": 2, "errs": ["PropsParallelTotal.dual_ok"]}
{"i": 175, "file": "Offset", "defn": "lineToLineJoin", "claim": "C58: links at corners whose offsets miss each other on the inside", "rc": 2, "errs": ["PropsRawOffset.join_ok"]}
{"i": 237, "file": "Offset", "defn": "lineToArcJoin", "claim": "join at the intersection nearest to the corner (line to arc)", "rc": 0, "errs": []}
{"i": 238, "file": "Offset", "defn": "lineToArcJoin", "claim": "line to arc join rounds outside corners", "rc": 0, "errs": []}
{"i": 239, "file": "Offset", "defn": "arcToLineJoin", "claim": "C39 previous arc trimmed", "rc": 2, "errs": ["PropsRawOffset.join_ok"]}
{"i": 240, "file": "Offset", "defn": "arcToArcJoin", "claim": "C39 join only at a point on both arcs", "rc": 0, "errs": []}
{"i": 241, "file": "Offset", "defn": "arcToArcJoin", "claim": "C39 tangent arcs of the same circle", "rc": 2, "errs": ["PropsRawOffset.join_ok"]}
{"i": 242, "file": "Offset", "defn": "joinSegs", "claim": "C39 join kind", "rc": 2, "errs": ["PropsRawOffset.join_ok"]}
{"i": 243, "file": "Offset", "defn": "joinAll", "claim": "C39 consecutive segments joined", "rc": 2, "errs": ["Runs.C41_run", "PropsRawOffset.joinAll_ok"]}
{"i": 244, "file": "Offset", "defn": "circleIntrSeg", "claim": "C42 end circle cuts of open polylines", "rc": 0, "errs": []}
{"i": 245, "file": "Offset", "defn": "circleIntrSeg", "claim": "end circle cuts of open polylines", "rc": 0, "errs": []}
{"i": 246, "file": "Offset", "defn": "offsetCircleIntersectsWithPline", "claim": "both end circles are used", "rc": 2, "errs": ["PropsParallelTotal.circle_ok"]}
{"i": 247, "file": "Offset", "defn": "dualSliceAtIntersectsForOffset", "claim": "the last vertex's circle is used", "rc": 2, "errs": ["PropsParallelTotal.dual_ok"]}
{"i": 248, "file": "Offset", "defn": "mpushSorted", "claim": "ordered map", "rc": 2, "errs": ["PropsOffsetSlices.mpushSorted_spec"]}
{"i": 249, "file": "Offset", "defn": "firstSliceLoop", "claim": "first slice crossing test", "rc": 2, "errs": ["PropsOffsetSlices.first_ok"]}
{"i": 250, "file": "Offset", "defn": "firstSliceLoop", "claim": "first slice vertexes keep the distance", "rc": 2, "errs": ["PropsOffsetSlices.first_ok"]}
{"i": 251, "file": "Offset", "defn": "firstSliceLoop", "claim": "first slice contains the traversed vertexes", "rc": 2, "errs": ["PropsOffsetSlices.first_ok"]}
{"i": 252, "file": "Offset", "defn": "firstSliceLoop", "claim": "first slice crossing test", "rc": 2, "errs": ["PropsOffsetSlices.first_ok"]}
{"i": 253, "file": "Offset", "defn": "indexDist", "claim": "stitching order of offset slices", "rc": 2, "errs": ["PropsOffsetStitch.stitchCmp_key"]}
{"i": 254, "file": "Offset", "defn": "stitchOffsetFrom", "claim": "C38 each slice used once", "rc": 2, "errs": ["PropsOffsetStitch.C38_spec"]}
{"i": 255, "file": "Offset", "defn": "stitchOffsetSlicesTogether", "claim": "C38 single closed slice", "rc": 2, "errs": ["Runs.C41_run", "PropsOffsetStitch.C38_single"]}
{"i": 256, "file": "Offset", "defn": "offsetSliceOne", "claim": "slice start index recorded", "rc": 2, "errs": ["PropsOffsetSlices.sliceOne_ok"]}
{"i": 257, "file": "Offset", "defn": "dualSliceAtIntersectsForOffset", "claim": "open raw offsets do not wrap around", "rc": 2, "errs": ["PropsParallelTotal.dual_ok"]}
{"i": 258, "file": "Offset", "defn": "dualSliceAtIntersectsForOffset", "claim": "first part of an open offset kept", "rc": 2, "errs": ["PropsParallel.dual_shape"]}
{"i": 259, "file": "Offset", "defn": "dualSliceAtIntersectsForOffset", "claim": "coincident stretches cut at both ends", "rc": 2, "errs": ["PropsParallelTotal.dual_ok"]}
{"i": 260, "file": "Offset", "defn": "createRawOffsetPline", "claim": "open raw offset reaches the end", "rc": 2, "errs": ["PropsTrims.C51_no_repeats", "PropsJoins.C51_raw_within"]}
{"i": 261, "file": "Offset", "defn": "createRawOffsetPline", "claim": "offset of a single segment", "rc": 2, "errs": ["PropsRawOffset.raw_ok"]}
{"i": 262, "file": "Islands", "defn": "getOffsetLoop", "claim": "C41 loop numbering", "rc": 2, "errs": ["Runs.C41_run"]}
{"i": 263, "file": "Islands", "defn": "getParentLoop", "claim": "C42 parent numbering", "rc": 2, "errs": ["Runs.C41_run", "PropsIslands.getParent_input"]}
{"i": 264, "file": "Islands", "defn": "createOffsetLoopsIndex", "claim": "islands index holds every loop", "rc": 2, "errs": ["Runs.C41_run", "PropsIslands.rel_index"]}
{"i": 265, "file": "Islands", "defn": "lookupPush", "claim": "all intersecting pairs recorded", "rc": 2, "errs": ["PropsIslandSlices.lookupPush_inv"]}
{"i": 266, "file": "Islands", "defn": "slicePointsPair", "claim": "both loops of a pair are cut", "rc": 2, "errs": ["Runs.C41_run", "PropsIslandSlices.collect_sets"]}
{"i": 267, "file": "Islands", "defn": "dissLoop", "claim": "end loop index (not used by compute: no observable effect expected)", "rc": 0, "errs": []}
{"i": 268, "file": "Islands", "defn": "sortDiss", "claim": "island cuts in path order", "rc": 0, "errs": []}
{"i": 269, "file": "Islands", "defn": "createSlicesFromLoop", "claim": "C43 slices tested against all other input loops", "rc": 2, "errs": ["PropsIslandSlices.loop_slices"]}
{"i": 270, "file": "Islands", "defn": "compute", "claim": "clockwise loops processed", "rc": 2, "errs": ["Runs.C41_run", "PropsIslands.compute_independent"]}
{"i": 271, "file": "Islands", "defn": "addStitched", "claim": "stitched island loops kept", "rc": 2, "errs": ["Runs.C41_run", "PropsIslands.C41_classification"]}
{"i": 272, "file": "Islands", "defn": "dissOne", "claim": "island slices start at the last cut of a segment", "rc": 2, "errs": ["PropsIslandSlices.dissOne_slice"]}
{"i": 273, "file": "CApi", "defn": "toU32", "claim": "counts are reported modulo 2^32", "rc": 2, "errs": ["PropsCApi.C42_history"]}
{"i": 274, "file": "CApi", "defn": "reserveCap", "claim": "capacity never shrinks", "rc": 2, "errs": ["PropsCApi.reserve_ge"]}
{"i": 275, "file": "CApi", "defn": "moveToList", "claim": "results listed in order", "rc": 2, "errs": ["PropsCApi.move_spec"]}
{"i": 276, "file": "CApi", "defn": "pline_new", "claim": "C44 is_closed argument", "rc": 2, "errs": ["PropsCApi.call_refines"]}
{"i": 277, "file": "CApi", "defn": "pline_set_capacity", "claim": "setting the capacity keeps the vertexes", "rc": 2, "errs": ["PropsCApi.op_refines"]}
{"i": 278, "file": "CApi", "defn": "pline_vertex_data", "claim": "vertex data truncated to the 32 bit count (equal below 2^32)", "rc": 2, "errs": ["PropsCApi.C42_history"]}
{"i": 279, "file": "CApi", "defn": "remove_range_asserts", "claim": "C46 assertion of remove_range", "rc": 2, "errs": ["PropsCApi.C45_bypass"]}
{"i": 280, "file": "CApi", "defn": "pline_set_is_closed", "claim": "closed flag set as requested", "rc": 2, "errs": ["PropsCApi.op_refines"]}
{"i": 281, "file": "CApi", "defn": "list_get", "claim": "list order", "rc": 2, "errs": ["PropsCApi.shows_new"]}
{"i": 282, "file": "CApi", "defn": "api_get_extents", "claim": "extents of the stored polyline", "rc": 2, "errs": ["PropsCApi.C44_queries"]}
{"i": 283, "file": "CApi", "defn": "allocL", "claim": "fresh list handle", "rc": 2, "errs": ["PropsCApi.C44_offset"]}
{"i": 284, "file": "CApi", "defn": "setP", "claim": "updates are in place", "rc": 2, "errs": ["PropsCApi.setP_abs"]}
{"i": 217, "file": "Intersects", "defn": "coincCmp", "claim": "C32 coincident stretches in path order", "rc": 2, "errs": ["PropsSelfCombine.coincCmp_weak"]}
{"i": 218, "file": "Intersects", "defn": "coincCmp", "claim": "C32 coincident stretches in path order", "rc": 2, "errs": ["PropsSelfCombine.coincCmp_weak"]}
{"i": 219, "file": "Intersects", "defn": "endSlice", "claim": "C32 slice end point", "rc": 2, "errs": ["PropsCoincident.end_R"]}
{"i": 220, "file": "Intersects", "defn": "endSlice", "claim": "C32 slice end index on the second polyline", "rc": 0, "errs": []}
{"i": 221, "file": "Intersects", "defn": "startSlice", "claim": "C32 slice start index", "rc": 0, "errs": []}
{"i": 222, "file": "Intersects", "defn": "sortAndjoinCoincidentSlices", "claim": "C32 slices wrapping around the start are joined", "rc": 2, "errs": ["PropsCoincident.C32_consistent"]}
{"i": 223, "file": "Intersects", "defn": "globalItemVisitor", "claim": "C31 all self intersects found", "rc": 2, "errs": ["PropsSelfIntr.global_outer"]}
{"i": 224, "file": "Intersects", "defn": "globalSelfIntersects", "claim": "C31 all self intersects found", "rc": 2, "errs": ["PropsSelfIntr.C31_each_pair_once"]}
{"i": 225, "file": "Intersects", "defn": "allSelfIntersects", "claim": "C31 local self intersects kept", "rc": 2, "errs": ["PropsParallelTotal.self_ok"]}
{"i": 226, "file": "Intersects", "defn": "localSelfIntersects", "claim": "C31 two vertex overlapping loop", "rc": 2, "errs": ["PropsSelfIntr.C46_small"]}
{"i": 227, "file": "Intersects", "defn": "localSelfIntersects", "claim": "C31 local self intersects", "rc": 2, "errs": ["PropsSelfIntr.C46_consecutive_pairs"]}
{"i": 228, "file": "Intersects", "defn": "removeIf", "claim": "C30 duplicates removed", "rc": 2, "errs": ["PropsFindIntr.removeIf_filter", "Runs.C41_run"]}
{"i": 229, "file": "Intersects", "defn": "findIntersects", "claim": "C30 duplicates removed", "rc": 2, "errs": ["PropsFindIntr.C30_find_intersects"]}
{"i": 230, "file": "Combine", "defn": "mpush", "claim": "C33 all cut points kept", "rc": 2, "errs": ["PropsSlices.mpush_spec"]}
{"i": 231, "file": "Combine", "defn": "completelyCoincident", "claim": "C35 coincident polylines", "rc": 2, "errs": ["PropsSelfCombine.C36_self"]}
{"i": 232, "file": "Combine", "defn": "anyIntersects", "claim": "C35 coincident contact counts as intersecting", "rc": 0, "errs": []}
{"i": 233, "file": "Combine", "defn": "buildLookup", "claim": "C34 coincident stretches not sliced twice", "rc": 2, "errs": ["PropsSlices.buildLookup_spec"]}
{"i": 234, "file": "Combine", "defn": "invertOpposing", "claim": "C35 coincident slices follow the second polyline", "rc": 2, "errs": ["PropsCombine.invertOpposing_ok"]}
{"i": 235, "file": "Combine", "defn": "sortLookup", "claim": "C33 cut points in path order", "rc": 2, "errs": ["PropsSlices.sortLookup_spec"]}
{"i": 236, "file": "Combine", "defn": "stitchFirstAvailable", "claim": "C41 selector picks an available slice", "rc": 2, "errs": ["PropsStitch.C34_selectors", "Runs.C41_run"]}
{"i": 207, "file": "SpatialIndex", "defn": "scanDown", "claim": "C04/C05 partition terminates in range", "rc": 2, "errs": ["IndexSort.scanDown_spec"]}
{"i": 208, "file": "SpatialIndex", "defn": "level_loop", "claim": "C01 node records its first child", "rc": 2, "errs": ["IndexTree.level_loop_spec"]}
{"i": 209, "file": "SpatialIndex", "defn": "levels_loop", "claim": "C01 levels", "rc": 2, "errs": ["IndexTree.levels_loop_spec"]}
{"i": 210, "file": "SpatialIndex", "defn": "construct", "claim": "C01 first item at position 0", "rc": 2, "errs": ["IndexTree.construct_spec", "Runs.C41_run"]}
{"i": 211, "file": "SpatialIndex", "defn": "visitItemBoxes_loop", "claim": "C03 every item visited", "rc": 2, "errs": ["IndexQuery.itemBoxes_loop_spec"]}
{"i": 212, "file": "SpatialIndex", "defn": "bbNode_loop", "claim": "C03 all boxes visited", "rc": 2, "errs": ["IndexQuery.bbNode_leaf"]}
{"i": 213, "file": "SpatialIndex", "defn": "bb_loop", "claim": "visiting stops when the visitor says so", "rc": 2, "errs": ["IndexQuery.bb_sim"]}
{"i": 214, "file": "SpatialIndex", "defn": "query", "claim": "C01 results appended to the caller's vector", "rc": 2, "errs": ["PropsIndex.C01_query_exact"]}
{"i": 215, "file": "SpatialIndex", "defn": "hilbertValue", "claim": "Hilbert value of the box centre", "rc": 2, "errs": ["IndexTree.build_wf"]}
{"i": 216, "file": "SpatialIndex", "defn": "ceilDivF_Z", "claim": "C02 level sizes", "rc": 2, "errs": ["Float32.ceilDivF_Z_exact"]}
{"i": 198, "file": "Polyline", "defn": "addVertex", "claim": "vertexes are appended in order", "rc": 2, "errs": ["Runs.C41_run", "PropsSlices.addOrReplace_cases"]}
{"i": 199, "file": "Polyline", "defn": "setLastVertex", "claim": "only the last vertex is replaced", "rc": 2, "errs": ["Runs.C41_run", "PropsSlices.sliceLoop_ok"]}
{"i": 200, "file": "Polyline", "defn": "getExtents", "claim": "C26 extents are tight", "rc": 2, "errs": ["PropsExtents.extents_fold"]}
{"i": 201, "file": "Polyline", "defn": "closestPoint", "claim": "C27 initial state irrelevant (no observable effect expected)", "rc": 2, "errs": ["PropsPlineClosest.C27_minimal"]}
{"i": 202, "file": "Polyline", "defn": "arcPoints", "claim": "C28 no duplicate end point", "rc": 2, "errs": ["PropsArcs2Lines.chunk_spec"]}
{"i": 203, "file": "Polyline", "defn": "arcPoints", "claim": "C28 points on the arc", "rc": 2, "errs": ["PropsArcs2Lines.chunk_spec"]}
{"i": 204, "file": "Polyline", "defn": "convertArcsToLines", "claim": "C28 end point of an open polyline", "rc": 2, "errs": ["PropsArcs2Lines.C28_within_error"]}
{"i": 205, "file": "Polyline", "defn": "convertArcs_step", "claim": "C28 small arcs keep their start vertex", "rc": 2, "errs": ["PropsArcs2Lines.convert_step"]}
{"i": 206, "file": "Polyline", "defn": "invertDirection", "claim": "C29 reversed arcs", "rc": 2, "errs": ["PropsPolyline.C22_trace_open"]}
{"i": 183, "file": "PlineSegment", "defn": "isInSegment", "claim": "C17 point on a segment", "rc": 0, "errs": []}
{"i": 184, "file": "PlineSegment", "defn": "intrLineSeg2LineSeg2", "claim": "C17 degenerate second segment", "rc": 2, "errs": ["PropsPlineIntr.C20_line_line_parallel"]}
{"i": 185, "file": "PlineSegment", "defn": "intrLineSeg2LineSeg2", "claim": "C17 parallel apart lines", "rc": 2, "errs": ["PropsPlineIntr.C20_line_line_parallel"]}
{"i": 186, "file": "PlineSegment", "defn": "intrLineSeg2LineSeg2", "claim": "C17 collinear segments sharing one point", "rc": 2, "errs": ["PropsIntr.C17_collinear"]}
{"i": 187, "file": "PlineSegment", "defn": "intrLineSeg2Circle2", "claim": "C18 points on the circle", "rc": 2, "errs": ["PropsIntr.C18_line_circle"]}
{"i": 188, "file": "PlineSegment", "defn": "intrLineSeg2Circle2", "claim": "C18 degenerate segment", "rc": 2, "errs": ["PropsIntr.C18_line_circle"]}
{"i": 189, "file": "PlineSegment", "defn": "intrCircle2Circle2", "claim": "C19 concentric circles of different radii", "rc": 2, "errs": ["PropsIntr.C19_circle_circle"]}
{"i": 190, "file": "PlineSegment", "defn": "splitAtPoint", "claim": "C13 split at the start", "rc": 2, "errs": ["PropsSegment.C13_split_arc_at_start"]}
{"i": 191, "file": "PlineSegment", "defn": "segTangentVector", "claim": "C16 tangent direction", "rc": 2, "errs": ["PropsDirection.C32_direction_arc"]}
{"i": 192, "file": "PlineSegment", "defn": "closestPointOnSeg", "claim": "C14 closest end point", "rc": 2, "errs": ["PropsClosest.C14_arc"]}
{"i": 193, "file": "PlineSegment", "defn": "closestPointOnSeg", "claim": "C14 closest point of an arc", "rc": 2, "errs": ["PropsClosest.C14_arc"]}
{"i": 194, "file": "PlineSegment", "defn": "coincidentArcsIntr", "claim": "C20 opposing coincident arcs", "rc": 2, "errs": ["PropsPlineIntr.C20_coincident_opposite_refuted"]}
{"i": 195, "file": "PlineSegment", "defn": "coincidentArcsIntr", "claim": "C20 overlap of arcs", "rc": 2, "errs": ["PropsPlineIntr.C20_coincident_same_direction"]}
{"i": 196, "file": "PlineSegment", "defn": "intrPlineSegs", "claim": "C20 overlap end points", "rc": 2, "errs": ["PropsPlineIntr.intr_ll"]}
{"i": 197, "file": "PlineSegment", "defn": "expand", "claim": "C15 expanded box encloses the box", "rc": 0, "errs": []}
{"i": 176, "file": "MathUtils", "defn": "fuzzyInRange", "claim": "C17 a point of a segment's end is on the segment", "rc": 0, "errs": []}
{"i": 177, "file": "MathUtils", "defn": "angleIsBetween", "claim": "C09/C26 end points of a sweep are within it", "rc": 2, "errs": ["PropsPlineIntr.aws_unfold"]}
{"i": 178, "file": "MathUtils", "defn": "angleIsWithinSweep", "claim": "C26 extents of clockwise arcs", "rc": 2, "errs": ["PropsPlineIntr.aws_unfold"]}
{"i": 179, "file": "MathUtils", "defn": "prevWrappingIndex", "claim": "C11 predecessor modulo size", "rc": 2, "errs": ["PropsMath.C11_wrapping", "PropsCoincident.prev_lt"]}
{"i": 180, "file": "MathUtils", "defn": "vdiv", "claim": "division by zero gives the zero vector", "rc": 0, "errs": []}
{"i": 181, "file": "MathUtils", "defn": "fuzzyEqual", "claim": "both coordinates are compared", "rc": 2, "errs": ["RGeom.fuzzyEqual_R", "Runs.C41_run"]}
{"i": 182, "file": "MathUtils", "defn": "unitPerp", "claim": "C39 offset to the left for positive distance", "rc": 2, "errs": ["Runs.C41_run", "PropsOffsetSegs.C39_line"]}
{"i": 237, "file": "Offset", "defn": "lineToArcJoin", "claim": "join at the intersection nearest to the corner (line to arc)", "rc": 2, "errs": ["PropsArcJoins.C62_line_arc"]}
{"i": 238, "file": "Offset", "defn": "lineToArcJoin", "claim": "line to arc join rounds outside corners", "rc": 2, "errs": ["PropsArcJoins.C62_line_arc"]}
{"i": 240, "file": "Offset", "defn": "arcToArcJoin", "claim": "C39 join only at a point on both arcs", "rc": 2, "errs": ["PropsArcJoins.C62_arc_arc"]}
{"i": 244, "file": "Offset", "defn": "circleIntrSeg", "claim": "C42 end circle cuts of open polylines", "rc": 2, "errs": ["PropsEndCuts.seg_cuts"]}
{"i": 245, "file": "Offset", "defn": "circleIntrSeg", "claim": "end circle cuts of open polylines", "rc": 2, "errs": ["PropsEndCuts.seg_cuts"]}
{"i": 268, "file": "Islands", "defn": "sortDiss", "claim": "island cuts in path order", "rc": 2, "errs": ["PropsIslandCuts.sort_tbl"]}
{"i": 220, "file": "Intersects", "defn": "endSlice", "claim": "C32 slice end index on the second polyline", "rc": 2, "errs": ["PropsCoincidentRuns.end_state"]}
{"i": 221, "file": "Intersects", "defn": "startSlice", "claim": "C32 slice start index", "rc": 2, "errs": ["PropsCoincidentRuns.start_state"]}
{"i": 232, "file": "Combine", "defn": "anyIntersects", "claim": "C35 coincident contact counts as intersecting", "rc": 2, "errs": ["PropsContact.C61_contact"]}
{"i": 183, "file": "PlineSegment", "defn": "isInSegment", "claim": "C17 point on a segment", "rc": 2, "errs": ["PropsDegenerate.in_seg"]}
{"i": 197, "file": "PlineSegment", "defn": "expand", "claim": "C15 expanded box encloses the box", "rc": 2, "errs": ["PropsDegenerate.C15_expand"]}
{"i": 176, "file": "MathUtils", "defn": "fuzzyInRange", "claim": "C17 a point of a segment's end is on the segment", "rc": 2, "errs": ["PropsDegenerate.in_span"]}
{"i": 285, "file": "MathUtils", "defn": "vdiv", "claim": "C39: a zero length segment is not moved", "rc": 2, "errs": ["PropsOffsetSegs.C39_line_degenerate"]}
{"i": 286, "file": "Offset", "defn": "circleIntrSeg", "claim": "C63: no cut at the start of a segment", "rc": 2, "errs": ["PropsParallelTotal.circle_hits"]}
{"i": 287, "file": "Offset", "defn": "circleIntrSeg", "claim": "C63: both crossings of an arc", "rc": 2, "errs": ["PropsEndCuts.seg_cuts"]}
{"i": 288, "file": "Offset", "defn": "circleIntrSeg", "claim": "C63: end of the segment", "rc": 2, "errs": ["PropsEndCuts.seg_cuts"]}
{"i": 289, "file": "Offset", "defn": "offsetCircleIntersectsWithPline", "claim": "C63: segments right of the centre are cut too", "rc": 2, "errs": ["PropsParallelTotal.circle_ok"]}
{"i": 246, "file": "Offset", "defn": "offsetCircleIntersectsWithPline", "claim": "both end circles are used", "rc": 2, "errs": ["PropsParallelTotal.circle_ok"]}
{"i": 247, "file": "Offset", "defn": "dualSliceAtIntersectsForOffset", "claim": "the last vertex's circle is used", "rc": 2, "errs": ["PropsParallelTotal.dual_ok"]}
{"i": 248, "file": "Offset", "defn": "mpushSorted", "claim": "ordered map", "rc": 2, "errs": ["PropsOffsetSlices.mpushSorted_spec"]}
{"i": 249, "file": "Offset", "defn": "firstSliceLoop", "claim": "first slice crossing test", "rc": 2, "errs": ["PropsOffsetSlices.first_ok"]}
{"i": 250, "file": "Offset", "defn": "firstSliceLoop", "claim": "first slice vertexes keep the distance", "rc": 2, "errs": ["PropsOffsetSlices.first_ok"]}
{"i": 251, "file": "Offset", "defn": "firstSliceLoop", "claim": "first slice contains the traversed vertexes", "rc": 2, "errs": ["PropsOffsetSlices.first_ok"]}
{"i": 252, "file": "Offset", "defn": "firstSliceLoop", "claim": "first slice crossing test", "rc": 2, "errs": ["PropsOffsetSlices.first_ok"]}
{"i": 256, "file": "Offset", "defn": "offsetSliceOne", "claim": "slice start index recorded", "rc": 2, "errs": ["PropsOffsetSlices.sliceOne_ok"]}
{"i": 257, "file": "Offset", "defn": "dualSliceAtIntersectsForOffset", "claim": "open raw offsets do not wrap around", "rc": 2, "errs": ["PropsParallelTotal.dual_ok"]}
{"i": 258, "file": "Offset", "defn": "dualSliceAtIntersectsForOffset", "claim": "first part of an open offset kept", "rc": 2, "errs": ["PropsParallel.dual_shape"]}
{"i": 260, "file": "Offset", "defn": "createRawOffsetPline", "claim": "open raw offset reaches the end", "rc": 2, "errs": ["PropsTrims.C51_no_repeats", "PropsJoins.C51_raw_within"]}
{"i": 290, "file": "Offset", "defn": "firstSliceLoop", "claim": "C64: the cut ending the first stretch keeps its distance", "rc": 2, "errs": ["PropsOffsetSlices.first_ok"]}
{"i": 291, "file": "Offset", "defn": "firstSliceLoop", "claim": "C64: the middle of the last segment of the first stretch keeps its distance", "rc": 2, "errs": ["PropsOffsetSlices.first_ok"]}
{"i": 294, "file": "Offset", "defn": "firstSliceLoop", "claim": "C64: the first stretch contains the vertex before the cut", "rc": 2, "errs": ["PropsOffsetSlices.first_ok"]}
{"i": 295, "file": "Offset", "defn": "firstSliceLoop", "claim": "C64: the last segment of the first stretch is the cut segment", "rc": 2, "errs": ["PropsOffsetSlices.first_ok"]}
{"i": 296, "file": "Offset", "defn": "dualSliceAtIntersectsForOffset", "claim": "C64: the end circles are about the ends of the input", "rc": 2, "errs": ["PropsParallelTotal.dual_ok"]}
{"i": 297, "file": "Offset", "defn": "dualSliceAtIntersectsForOffset", "claim": "C64: the circle about the first point cuts", "rc": 2, "errs": ["PropsParallelTotal.dual_ok"]}
{"i": 298, "file": "Offset", "defn": "dualSliceAtIntersectsForOffset", "claim": "C64: end circle cuts are used", "rc": 2, "errs": ["PropsParallelTotal.dual_ok"]}
{"i": 299, "file": "Offset", "defn": "stitchOffsetLoop", "claim": "C64: results of an open polyline are open (a kept stretch may form a loop)", "rc": 2, "errs": ["PropsOffsetStitch.chain_loop"]}
{"i": 300, "file": "Offset", "defn": "stitchOffsetSlicesTogether", "claim": "C64: results of an open polyline are open", "rc": 2, "errs": ["PropsOffsetStitch.C38_single"]}
{"i": 301, "file": "Offset", "defn": "parallelOffset", "claim": "C64: the dual is on the other side", "rc": 2, "errs": ["PropsParallelTotal.C40_returns"]}
{"i": 292, "file": "Offset", "defn": "firstSliceLoop", "claim": "C64: the first stretch ends at the first cut", "rc": 2, "errs": ["PropsOffsetSlices.first_ok"]}
{"i": 293, "file": "Offset", "defn": "firstSliceLoop", "claim": "C64: the first stretch ends at the cut", "rc": 2, "errs": ["PropsOffsetSlices.first_ok"]}
{"i": 302, "file": "Islands", "defn": "fillDiss", "claim": "other loop recorded for a cut (not used by compute: no observable effect expected)", "rc": 2, "errs": ["PropsIslandSlices.fill_good"]}
{"i": 303, "file": "Islands", "defn": "fillDiss", "claim": "C60: cuts of the first loop are on its own segments", "rc": 2, "errs": ["Runs.C41_run", "PropsIslandSlices.fill_good"]}
{"i": 304, "file": "Islands", "defn": "fillDiss", "claim": "C60: cuts assigned to the segments of the right loop", "rc": 2, "errs": ["Runs.C41_run", "PropsIslandSlices.fill_good"]}
{"i": 305, "file": "Islands", "defn": "dissLoop", "claim": "C60/C69: a stretch runs through the closing segment", "rc": 2, "errs": ["Runs.C41_run", "PropsIslandSlices.dissLoop_slice"]}
{"i": 306, "file": "Islands", "defn": "dissLoop", "claim": "C60: a stretch ends at the first cut it reaches", "rc": 2, "errs": ["PropsIslandSlices.dissLoop_slice"]}
{"i": 307, "file": "Islands", "defn": "dissLoop", "claim": "C69: no read behind the last vertex", "rc": 2, "errs": ["Runs.C41_run", "PropsIslandSlices.dissLoop_slice"]}
{"i": 308, "file": "Islands", "defn": "dissLoop", "claim": "C60: the last arc of a stretch is shortened to the cut", "rc": 2, "errs": ["PropsIslandSlices.dissLoop_slice"]}
{"i": 309, "file": "Islands", "defn": "dissLoop", "claim": "C60: a stretch contains the vertices between its cuts", "rc": 2, "errs": ["Runs.C41_run", "PropsIslandSlices.dissLoop_slice"]}
{"i": 310, "file": "Islands", "defn": "dissOne", "claim": "C66: a stretch is judged by the middle of its last segment", "rc": 2, "errs": ["PropsIslandSlices.dissOne_slice"]}
{"i": 311, "file": "Islands", "defn": "dissOne", "claim": "C60: stretches of one segment are kept", "rc": 2, "errs": ["PropsIslandSlices.dissOne_slice"]}
{"i": 312, "file": "Islands", "defn": "dissOne", "claim": "C69: the guard never fires", "rc": 2, "errs": ["PropsIslandSlices.dissOne_slice"]}
{"i": 313, "file": "Islands", "defn": "dissOne", "claim": "C60: stretches between two cuts of one segment", "rc": 2, "errs": ["PropsIslandSlices.dissOne_slice"]}
{"i": 314, "file": "Islands", "defn": "midDissSlices", "claim": "C60: stretches between cuts of one segment", "rc": 2, "errs": ["PropsIslandSlices.midDiss_slice"]}
{"i": 315, "file": "Islands", "defn": "midDissSlices", "claim": "C60: direction of the stretches", "rc": 2, "errs": ["PropsIslandSlices.midDiss_slice"]}
{"i": 316, "file": "Islands", "defn": "processLoop", "claim": "C66: a loop meeting one other loop is cut", "rc": 2, "errs": ["Runs.C41_run", "PropsIslands.rel_process"]}
{"i": 317, "file": "Islands", "defn": "processLoop", "claim": "C41/C60: classification of uncut loops", "rc": 2, "errs": ["Runs.C41_run", "PropsIslands.rel_process"]}
{"i": 318, "file": "Islands", "defn": "processLoop", "claim": "C60: an uncut loop is judged by its first vertex", "rc": 2, "errs": ["PropsIslands.process_inv"]}
{"i": 319, "file": "Islands", "defn": "compute", "claim": "C41/C66: the sign of the offset does not matter", "rc": 124, "errs": []}
{"i": 320, "file": "Islands", "defn": "slicePointsPair", "claim": "C60: loops that overlap along a stretch only are cut", "rc": 2, "errs": ["PropsIslandSlices.collect_sets"]}
{"i": 321, "file": "Islands", "defn": "slicePointsPair", "claim": "C60: cuts at the starts of overlaps", "rc": 2, "errs": ["PropsIslandSlices.collect_sets"]}
{"i": 322, "file": "Islands", "defn": "createSlicePoints", "claim": "C60: all overlapping loops are found", "rc": 2, "errs": ["Runs.C41_run", "PropsIslandCuts.collect_exact"]}
{"i": 323, "file": "Islands", "defn": "pointOnOffsetValid", "claim": "C66: slices tested against holes too", "rc": 2, "errs": ["PropsIslands.valid_all"]}
{"i": 324, "file": "Islands", "defn": "addStitched", "claim": "C66: clockwise stitched loops kept", "rc": 2, "errs": ["PropsIslands.C41_classification"]}
{"i": 325, "file": "CApi", "defn": "pline_capacity", "claim": "C48: capacity reported, not the count", "rc": 0, "errs": []}
{"i": 326, "file": "CApi", "defn": "pline_vertex_count", "claim": "C48: vertex count reported, not the capacity", "rc": 2, "errs": ["PropsCApi.C42_history"]}
{"i": 327, "file": "CApi", "defn": "pline_delete", "claim": "C49: deleting a null pointer is allowed", "rc": 0, "errs": []}
{"i": 328, "file": "CApi", "defn": "pline_set_vertex_data", "claim": "C48: set_vertex_data replaces the vertexes", "rc": 2, "errs": ["PropsCApi.op_refines"]}
{"i": 329, "file": "CApi", "defn": "list_count", "claim": "C49: number of polylines in a list", "rc": 2, "errs": ["PropsCApi.shows_new"]}
{"i": 330, "file": "CApi", "defn": "api_get_area", "claim": "C48: the C function returns the signed area", "rc": 2, "errs": ["PropsCApi.C44_queries"]}
{"i": 331, "file": "CApi", "defn": "api_get_winding_number", "claim": "C48: the C function returns the winding number", "rc": 2, "errs": ["PropsCApi.C44_queries"]}
{"i": 332, "file": "CApi", "defn": "api_get_path_length", "claim": "C48: the C function returns the length", "rc": 2, "errs": ["PropsCApi.C44_queries"]}
{"i": 333, "file": "Islands", "defn": "totalOffsetLoopsCount", "claim": "C69: the loop index has room for clockwise loops", "rc": 2, "errs": ["Runs.C41_run", "PropsIslands.compute_independent"]}
{"i": 334, "file": "Offset", "defn": "falseIntersect", "claim": "C52: crossing inside a segment is not false", "rc": 2, "errs": ["PropsArcJoins.false_R"]}
{"i": 335, "file": "Offset", "defn": "falseIntersect", "claim": "C52: crossing before the start is false", "rc": 2, "errs": ["Runs.C51_run_out", "PropsJoins.C51_corner"]}
{"i": 336, "file": "Offset", "defn": "offsetSegment", "claim": "C34: clockwise arcs offset as arcs", "rc": 2, "errs": ["PropsOffsetSegs.C39_line"]}
{"i": 337, "file": "Offset", "defn": "mkOrigTests", "claim": "C36: slice points keep their distance", "rc": 2, "errs": ["PropsParallelTotal.tests_ok"]}
{"i": 338, "file": "Combine", "defn": "plineOpposingDirections", "claim": "C45: slices of the second polyline turned when needed", "rc": 2, "errs": ["PropsContact.collected_pass", "PropsRegionOps.kappa"]}
{"i": 339, "file": "Combine", "defn": "stitchOrderedSlices", "claim": "C31: every slice is used", "rc": 2, "errs": ["PropsStitch.C34_spec", "Runs.C41_run"]}
{"i": 340, "file": "Intersects", "defn": "pairMem", "claim": "C25: no pair of segments is skipped", "rc": 2, "errs": ["PropsFindIntr.pairMem_In"]}
{"i": 341, "file": "Polyline", "defn": "distToArcCenterLessThanRadius", "claim": "C24: inside test of arcs", "rc": 2, "errs": ["PropsWinding.inCircle_R"]}
{"i": 342, "file": "Polyline", "defn": "addAABB", "claim": "C22: index boxes enclose the segments", "rc": 2, "errs": ["PropsPlineIndex.create_build"]}
{"i": 343, "file": "Polyline", "defn": "popBack", "claim": "C33: removing the last vertex keeps the order", "rc": 2, "errs": ["Runs.C41_run", "PropsStitch.popBack_vs", "PropsRawOffset.closeRaw_ok"]}
{"i": 344, "file": "PlineSegment", "defn": "tminmax", "claim": "C17: interval of a segment", "rc": 2, "errs": ["PropsDegenerate.in_span"]}
{"i": 346, "file": "MathUtils", "defn": "midpoint", "claim": "C16: midpoint of a line segment", "rc": 2, "errs": ["Runs.C41_run", "PropsSegment.C16_segMidpoint"]}
{"i": 347, "file": "MathUtils", "defn": "pointFromParametric", "claim": "C18: point of a line at a parameter", "rc": 2, "errs": ["Runs.C41_run", "PropsPlineIntr.pfp_lerp"]}
{"i": 348, "file": "MathUtils", "defn": "angle", "claim": "C12: angle of a direction", "rc": 2, "errs": ["Polar.angle_polar"]}
{"i": 349, "file": "MathUtils", "defn": "isLeftOrEqual", "claim": "C24: points on a chord of a clockwise arc", "rc": 2, "errs": ["PropsWinding.isLeftOrEqual_R"]}
{"i": 350, "file": "MathUtils", "defn": "distSquared", "claim": "C14: distances", "rc": 2, "errs": ["PropsSegment.C16_segLength", "PropsCoincidentRuns.sort_notAfter", "PropsSlices.C33_sorted"]}
{"i": 352, "file": "SpatialIndex", "defn": "addAll", "claim": "C01: query finds overlapping boxes", "rc": 2, "errs": ["IndexTree.addAll_spec"]}
{"i": 353, "file": "SpatialIndex", "defn": "computeNumLevels", "claim": "C02: level array large enough", "rc": 2, "errs": ["IndexTree.construct_spec", "Runs.C41_run"]}
{"i": 354, "file": "SpatialIndex", "defn": "computeNumLevels_loop", "claim": "C02: level array large enough", "rc": 2, "errs": ["IndexTree.computeNumLevels_loop_spec"]}
{"i": 355, "file": "SpatialIndex", "defn": "shr2", "claim": "C01: node of a position", "rc": 2, "errs": ["IndexTree.shr2_4", "Runs.C41_run"]}
{"i": 325, "file": "CApi", "defn": "pline_capacity", "claim": "C48: capacity reported, not the count", "rc": 2, "errs": ["PropsCApi.C42_capacity_reported"]}
{"i": 327, "file": "CApi", "defn": "pline_delete", "claim": "C49: deleting a null pointer is allowed", "rc": 2, "errs": ["PropsCApi.C43_delete_null"]}
{"i": 345, "file": "PlineSegment", "defn": "bulgeIsNeg", "claim": "C12: sign of the bulge", "rc": 2, "errs": ["ArcGeom.center_R"]}
{"i": 351, "file": "SpatialIndex", "defn": "visitBoundingBoxes", "claim": "C03: boxes of all levels visited", "rc": 2, "errs": ["IndexQuery.bb_all"]}
{"i": 356, "file": "Polyline", "defn": "scalePolyline", "claim": "C70: scaling leaves the bulges", "rc": 2, "errs": ["PropsArea.C23_scalePolyline"]}
{"i": 357, "file": "Polyline", "defn": "translatePolyline", "claim": "C70: translation adds the offset to both coordinates", "rc": 2, "errs": ["PropsArea.C23_translatePolyline"]}
