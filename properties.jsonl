{"id": "C01", "title": "Spatial index query is exact", "statement": "After constructing a StaticSpatialIndex for n items, adding n boxes and calling finish(), query(minX,minY,maxX,maxY) returns exactly the insertion indices of the boxes that overlap the query rectangle (closed-interval overlap), each exactly once, and neither building nor querying reads or writes outside the allocated arrays, reads uninitialised cells, or loops forever.", "quantifier": "every n in 1..2^24, every NodeSize in 2..65535, every list of n boxes with non-NaN coordinates whose total width and height are acceptable for the Hilbert cast (or n <= NodeSize), every query rectangle; over IEEE doubles and over the reals", "why_tests_cant": "The tree shape depends on n, NodeSize and the Hilbert order of the boxes; tests can only sample a few sizes (the repo tests one 100-item set).", "anchors": ["include/cavc/staticspatialindex.hpp:StaticSpatialIndex::StaticSpatialIndex", "include/cavc/staticspatialindex.hpp:add", "include/cavc/staticspatialindex.hpp:finish", "include/cavc/staticspatialindex.hpp:visitQuery", "include/cavc/staticspatialindex.hpp:query"]}
{"id": "C02", "title": "Early-stopping query visitor sees a prefix", "statement": "visitQuery with a visitor that returns false at some point calls the visitor on a prefix (in the same order) of what the never-stopping visitor would see, and never calls it again after it returned false.", "quantifier": "every finished index, every query rectangle, every stateful visitor", "why_tests_cant": "The visitor is an arbitrary user callback and the stop point is arbitrary.", "anchors": ["include/cavc/staticspatialindex.hpp:visitQuery"]}
{"id": "C03", "title": "visitItemBoxes and index extents", "statement": "visitItemBoxes reports every added item exactly once, paired with the very box that was added for it (despite the internal sort), stops when the visitor returns false; minX()/minY()/maxX()/maxY() are the exact bounds of the added boxes.", "quantifier": "every item count, NodeSize, list of boxes and visitor", "why_tests_cant": "The sort permutes boxes and indices in two arrays; agreement must hold for every permutation it can produce.", "anchors": ["include/cavc/staticspatialindex.hpp:visitItemBoxes", "include/cavc/staticspatialindex.hpp:minX", "include/cavc/staticspatialindex.hpp:sort", "include/cavc/staticspatialindex.hpp:swap"]}
{"id": "C04", "title": "visitBoundingBoxes walks the whole tree and boxes nest", "statement": "visitBoundingBoxes with a never-stopping visitor reports every node and item box exactly once with its level, and the box of every internal node encloses (and is the tight union of) the boxes of its children.", "quantifier": "every finished index", "why_tests_cant": "Tree shape ranges over all sizes.", "anchors": ["include/cavc/staticspatialindex.hpp:visitBoundingBoxes", "include/cavc/staticspatialindex.hpp:finish"]}
{"id": "C05", "title": "Index allocation is large enough up to 2^24 items, and not beyond", "statement": "For every number of items up to 2^24 the number of tree nodes allocated by the constructor (computed in single precision) equals the number of nodes finish() creates, so building is memory safe; for 2^24+1 items with NodeSize 16 the constructor allocates one node too few and finish() writes past the end of the allocation.", "quantifier": "all numItems in 1..2^24 and all NodeSize in 2..65535; counterexample beyond", "why_tests_cant": "Float32 rounding of the node count only matters at sizes far beyond any unit test.", "anchors": ["include/cavc/staticspatialindex.hpp:StaticSpatialIndex::StaticSpatialIndex", "include/cavc/staticspatialindex.hpp:computeNumLevels"]}
{"id": "C06", "title": "Partial quicksort keeps boxes, indices and Hilbert values together", "statement": "The in-place sort used by finish() terminates for every input, never touches cells outside [left,right], permutes the three arrays by one and the same permutation, and leaves the items ordered by Hilbert value between NodeSize buckets (every value in an earlier bucket <= every value in a later bucket).", "quantifier": "all arrays, all Hilbert values (with duplicates), all NodeSize", "why_tests_cant": "Quicksort termination and bounds depend on adversarial value patterns.", "anchors": ["include/cavc/staticspatialindex.hpp:sort", "include/cavc/staticspatialindex.hpp:swap"]}
{"id": "C07", "title": "hilbertXYToIndex is a bijection on the 2^16 x 2^16 grid", "statement": "hilbertXYToIndex maps each pair of 16-bit coordinates to a distinct 32-bit value (it is injective, hence bijective), the result is the position along the Hilbert curve, and consecutive positions are at Manhattan distance 1.", "quantifier": "all 2^32 coordinate pairs", "why_tests_cant": "2^32 inputs and 2^64 pairs cannot be enumerated in a unit test.", "anchors": ["include/cavc/staticspatialindex.hpp:hilbertXYToIndex"]}
{"id": "C08", "title": "Index building with degenerate extents", "statement": "finish() never converts a value that does not fit to uint32 when the total extents have positive width and height; if all boxes lie on one vertical or horizontal line of zero thickness and there are more than NodeSize items, finish() divides by zero and performs an undefined floating-to-integer conversion.", "quantifier": "all box lists with minX<=maxX, minY<=maxY", "why_tests_cant": "Degenerate layouts are a measure-zero subset that sampling misses.", "anchors": ["include/cavc/staticspatialindex.hpp:finish"]}
{"id": "C09", "title": "Angle normalisation", "statement": "normalizeRadians returns an angle in [0,2pi] congruent to its argument modulo 2pi; deltaAngle returns the congruent difference in (-pi,pi].", "quantifier": "all real angles", "why_tests_cant": "Uncountably many inputs, branch boundaries at multiples of pi.", "anchors": ["include/cavc/mathutils.hpp:normalizeRadians", "include/cavc/mathutils.hpp:deltaAngle"]}
{"id": "C10", "title": "Quadratic solver returns both roots", "statement": "quadraticSolutions(a,b,c,discr) with a<>0, discr=b^2-4ac>=0 and not both b=0 and c=0 returns exactly the two roots (with multiplicity) of a t^2+b t+c.", "quantifier": "all real coefficients", "why_tests_cant": "Uncountable input space.", "anchors": ["include/cavc/mathutils.hpp:quadraticSolutions"]}
{"id": "C11", "title": "Wrapping indices", "statement": "nextWrappingIndex and prevWrappingIndex stay within the container and are inverse permutations of the index range.", "quantifier": "all container sizes >= 1 and all indices in range", "why_tests_cant": "Universal over sizes.", "anchors": ["include/cavc/mathutils.hpp:nextWrappingIndex", "include/cavc/mathutils.hpp:prevWrappingIndex"]}
{"id": "C12", "title": "Bulge to arc conversion is geometrically right", "statement": "For an arc segment v1->v2 with non-zero bulge and distinct end points, arcRadiusAndCenter returns the circle through both points such that rotating v1 about the centre by 4*atan(bulge) gives v2 (positive bulge = counter clockwise), with radius > 0.", "quantifier": "all real end points and bulges", "why_tests_cant": "Uncountable input space; sign errors show up only for some quadrants.", "anchors": ["include/cavc/plinesegment.hpp:arcRadiusAndCenter"]}
{"id": "C13", "title": "Splitting a segment preserves the path", "statement": "splitAtPoint at a point on the segment yields two consecutive segments that trace exactly the original segment: for lines two collinear pieces, for arcs two arcs on the same circle whose sweeps add up to the original sweep.", "quantifier": "all segments with |bulge|<=1 and all split points on them, including the end points and points within 1e-5 of them", "why_tests_cant": "Uncountable input space.", "anchors": ["include/cavc/plinesegment.hpp:splitAtPoint"]}
{"id": "C14", "title": "Closest point on a segment", "statement": "closestPointOnSeg returns a point of the segment whose distance to the query point is minimal (exactly for arcs with the query outside the thresholds, within 1e-4 for lines because of the 1e-8 thresholds).", "quantifier": "all segments and query points", "why_tests_cant": "Uncountable input space, minimality is a universal statement over the segment.", "anchors": ["include/cavc/plinesegment.hpp:closestPointOnSeg", "include/cavc/vector2.hpp:closestPointOnLineSeg"]}
{"id": "C15", "title": "Fast approximate bounding box encloses the segment", "statement": "createFastApproxBoundingBox contains every point of the segment, for lines and for arcs up to a half circle. AABB::expand(d) grows the box to exactly the points at most d from it along both axes.", "quantifier": "all segments with |bulge|<=1, all points on the segment", "why_tests_cant": "Universal over a continuum of points on each segment.", "anchors": ["include/cavc/plinesegment.hpp:createFastApproxBoundingBox", "include/cavc/plinesegment.hpp:AABB::expand"]}
{"id": "C16", "title": "Segment length and midpoint", "statement": "segLength equals the true path length (chord length for lines, radius times sweep for arcs) and segMidpoint is the point at half the path length.", "quantifier": "all segments with |bulge|<=1 and distinct end points", "why_tests_cant": "Uncountable input space.", "anchors": ["include/cavc/plinesegment.hpp:segLength", "include/cavc/plinesegment.hpp:segMidpoint"]}
{"id": "C17", "title": "Line segment intersection is sound and complete", "statement": "When the cross product of the directions exceeds the threshold 1e-8, intrLineSeg2LineSeg2 reports a True intersect iff the two segments (extended by the 1e-8 parametric tolerance) meet, and the reported point is the common point; False reports the exact intersection parameters of the supporting lines. For exactly collinear segments the reported overlap parameters delimit exactly the common part. (Below the threshold, very short crossing segments are misreported as coincident: refuted by a counterexample.) If one segment is a point (1e-8), the intersect is that point when it lies by the other segment (within 1e-8 along its main axis) and None otherwise; a point of a segment is always found.", "quantifier": "all pairs of segments", "why_tests_cant": "Uncountable input space.", "anchors": ["include/cavc/intrlineseg2lineseg2.hpp:intrLineSeg2LineSeg2"]}
{"id": "C18", "title": "Line/circle intersection", "statement": "intrLineSeg2Circle2 reports 2 intersects only with both (and only) parameters of points at distance radius from the centre, reports 1 only for tangent lines up to the tolerance (or a point-like segment), and reports 0 only if the supporting line misses the circle (or a point-like segment off the circle).", "quantifier": "all segments and circles", "why_tests_cant": "Uncountable input space.", "anchors": ["include/cavc/intrlineseg2circle2.hpp:intrLineSeg2Circle2"]}
{"id": "C19", "title": "Circle/circle intersection", "statement": "intrCircle2Circle2: points reported with TwoIntersects are exactly the common points; NoIntersect means the circles have no common point; OneIntersect is a common point unique up to 1e-8, or the circles have none and the point is within 1e-8*max(1,(r1+r2)/d) of both; Coincident iff centres and radii differ by less than 1e-8. (The factor is needed: for near-concentric circles the point can be 0.33 radii off.)", "quantifier": "all pairs of circles with non-negative radius", "why_tests_cant": "Uncountable input space.", "anchors": ["include/cavc/intrcircle2circle2.hpp:intrCircle2Circle2"]}
{"id": "C20", "title": "Segment pair intersects lie on both segments", "statement": "Every point reported by intrPlineSegs is on both polyline segments (on both curves, within the parametric / sector tolerances of 1e-8), and every common point of transversal segments is reported; for coincident arcs of the same direction the reported points are on both arcs and NoIntersect means no common point. (For coincident arcs of opposite direction, and for the extent of the overlap of nearly vertical lines, this is false: counterexamples.)", "quantifier": "all pairs of line/arc segments", "why_tests_cant": "Uncountable input space, combination of four code paths.", "anchors": ["include/cavc/plinesegment.hpp:intrPlineSegs"]}
{"id": "C21", "title": "Segment iteration", "statement": "visitSegIndices visits exactly the segments of the polyline in path order, each once: (0,1)..(n-2,n-1) for open, (n-1,0),(0,1)..(n-2,n-1) for closed polylines, none if fewer than 2 vertices; it stops right after the visitor returns false.", "quantifier": "all polylines and all stateful visitors", "why_tests_cant": "Arbitrary length and arbitrary callback.", "anchors": ["include/cavc/polyline.hpp:visitSegIndices"]}
{"id": "C22", "title": "invertDirection reverses the path", "statement": "invertDirection traces the same segments in opposite order and opposite direction, is its own inverse, negates the area, keeps the path length and keeps the closed flag.", "quantifier": "all polylines", "why_tests_cant": "Universal over lengths and vertex data.", "anchors": ["include/cavc/polyline.hpp:invertDirection"]}
{"id": "C23", "title": "getArea is the signed area integral", "statement": "For closed polylines getArea equals one half of the closed line integral of x dy - y dx along the path of line and arc segments (all bulges, not only |bulge|<=1); it is 0 for open polylines or fewer than 2 vertices; it is translation invariant, scales quadratically and does not depend on the start vertex.", "quantifier": "all closed polylines whose bulges are 0 or at least the 1e-5 arc threshold", "why_tests_cant": "The integral identity ranges over all polylines.", "anchors": ["include/cavc/polyline.hpp:getArea", "include/cavc/polyline.hpp:scalePolyline", "include/cavc/polyline.hpp:translatePolyline"]}
{"id": "C24", "title": "getWindingNumber is the winding number", "statement": "For a closed polyline with every |bulge| <= 1 and a point not on it, getWindingNumber times 2pi equals the total change of the angle of the vector from the point to the moving path point, over one traversal. (With larger bulges it can be wrong.)", "quantifier": "all closed polylines with |bulge|<=1 (bulges 0 or at least the arc threshold, arc end points distinct), all points off the path", "why_tests_cant": "Degenerate configurations (point level with vertices, on chords, above/below arcs) are unbounded in number; topological fact about continuous curves.", "anchors": ["include/cavc/polyline.hpp:getWindingNumber"]}
{"id": "C25", "title": "Winding number laws", "statement": "getWindingNumber is 0 for open polylines and fewer than 2 vertices, and inverting the direction negates it for points off the path.", "quantifier": "all polylines and points off the path", "why_tests_cant": "Universal.", "anchors": ["include/cavc/polyline.hpp:getWindingNumber", "include/cavc/polyline.hpp:invertDirection"]}
{"id": "C26", "title": "getExtents encloses the path", "statement": "getExtents of a closed polyline contains every point of the path and each side is attained (up to the angular tolerance); an empty polyline gives (+inf,+inf,-inf,-inf). For open polylines ending in a line segment the last vertex is not taken into account (extents may fail to contain the path).", "quantifier": "all polylines with |bulge|<=1", "why_tests_cant": "Universal over continuum of path points.", "anchors": ["include/cavc/polyline.hpp:getExtents"]}
{"id": "C27", "title": "ClosestPoint minimises over all segments", "statement": "ClosestPoint returns the best of the per-segment closest points, the reported distance is the distance between the query and the reported point, and the reported index is a valid segment start index.", "quantifier": "all non-empty polylines and query points", "why_tests_cant": "Universal over lengths; minimality over all segments.", "anchors": ["include/cavc/polyline.hpp:ClosestPoint::compute"]}
{"id": "C28", "title": "convertArcsToLines stays within the error", "statement": "convertArcsToLines keeps the closed flag, its path is within error of the original path in both directions, all its vertices lie on the original path, and a segment of the result is an arc only if it is an original arc of radius below error + 1e-8 (those are returned unchanged).", "quantifier": "all polylines with |bulge|<=1 and all errors > 0", "why_tests_cant": "Universal over arcs and number of subdivisions.", "anchors": ["include/cavc/polyline.hpp:convertArcsToLines"]}
{"id": "C29", "title": "pruneSingularities", "statement": "The result has no two consecutive vertices with positions within epsilon (apart from the closing pair of a closed polyline after the single pop), its positions are a subsequence of the input positions starting with the first, the closed flag is kept and the last surviving bulge of each cluster is used. For closed polylines one pass does not suffice: the closing pair can still be within epsilon.", "quantifier": "all polylines and all epsilon", "why_tests_cant": "Universal over lengths; fuzzy equality is not transitive.", "anchors": ["include/cavc/polyline.hpp:pruneSingularities"]}
{"id": "C30", "title": "findIntersects equals brute force", "statement": "findIntersects with the spatial index of the first polyline reports exactly the intersects and coincident spans found by testing every pair of segments whose approximate boxes overlap once the second polyline's box is grown by 1e-5 (minus the points the header declares redundant: those at a segment start, and those next to a reported coincident span); and every pair of segments sharing a point has overlapping boxes, so the index loses no intersect.", "quantifier": "all pairs of polylines with at least 2 vertices", "why_tests_cant": "Depends on tree shape and on geometry of every pair.", "anchors": ["include/cavc/polylineintersects.hpp:findIntersects"]}
{"id": "C31", "title": "globalSelfIntersects tests each pair once", "statement": "globalSelfIntersects tests every unordered pair of segments that have no common vertex and whose approximate boxes come within 1e-8 exactly once, tests no other pair, and appends exactly the crossing points and overlap ends of those pairs (except a point at the start of one of the two segments); no pair sharing a point is missed.", "quantifier": "all polylines", "why_tests_cant": "Depends on tree shape/visit order.", "anchors": ["include/cavc/polylineintersects.hpp:globalSelfIntersects"]}
{"id": "C32", "title": "Joined coincident slices are consistent", "statement": "sortAndjoinCoincidentSlices returns equally many slices, start points, end points and direction flags; every slice is open, has at least 2 vertices, starts exactly at its start point and ends (within 1e-5) at its end point; every reported index is a valid segment index; the segments of all slices together are exactly the given coincident stretches, each once; the slices are the maximal runs of stretches, sorted along the first polyline, in which each stretch begins where the previous one ends (the last run is joined to the first if it ends where that begins); each start or end point is attributed to the segment on which it is reached (the previous one if it lies at the start vertex); and the direction flag of a slice compares the start tangents of the two segments of the stretch it starts with. For lines that is the true relative direction; for arcs it is the true relative direction only if the two arcs start less than 90 degrees apart: two arcs of one circle running the same way but starting more than 90 degrees apart are flagged as opposing (a defect of the code, proved on an example).", "quantifier": "all non-empty lists of coincident intersects with valid indices; any order std::sort may produce", "why_tests_cant": "Arbitrary lists; unspecified order of equal elements.", "anchors": ["include/cavc/polylineintersects.hpp:sortAndjoinCoincidentSlices"]}
{"id": "C33", "title": "sliceAtIntersects terminates without tripping its loop guard", "statement": "Slicing a polyline at its intersects never trips the internal loop guard and never accesses a vertex out of range; every slice kept is open, has at least 2 vertices, begins and ends at an intersect, and its midpoint test was accepted by the caller's predicate. When no intersect lies within 1e-5 of a vertex (and no two consecutive vertices coincide), the slices are exactly the accepted stretches between consecutive intersects going around the polyline, each once.", "quantifier": "all polylines, all non-empty intersect lists with valid indices, all predicates, all hash iteration orders", "why_tests_cant": "Loop bound must hold for every configuration.", "anchors": ["include/cavc/polylinecombine.hpp:sliceAtIntersects"]}
{"id": "C34", "title": "Stitching slices into closed polylines", "statement": "stitchOrderedSlicesIntoClosedPolylines returns only closed polylines with at least 2 vertices, each made of a ring of slices following the stitch selector; it uses every slice at most once, terminates without tripping its loop guard and only joins the end of a slice to the start of another within twice the join threshold per coordinate. Union and intersect always continue with the first candidate that is not along an overlap, and otherwise take the first candidate unless the current slice is along an overlap (then the ring stops); exclude and xor alternate between the inputs where possible, and two slices along overlaps are never chained.", "quantifier": "all slice lists with at least 2 vertices each, every stitch selector that selects among the offered slices", "why_tests_cant": "Arbitrary slice sets and selectors.", "anchors": ["include/cavc/polylinecombine.hpp:stitchOrderedSlicesIntoClosedPolylines"]}
{"id": "C35", "title": "Boolean operations on non-intersecting inputs", "statement": "When the inputs do not intersect, combinePolylines returns the input polylines classified by containment exactly as the set operation demands: for union/exclude/intersect/xor the region described by (remaining minus subtracted) equals the boolean combination of the interiors.", "quantifier": "all pairs of closed polylines without intersects, all four modes, all points off both paths", "why_tests_cant": "Set equality over all points of the plane.", "anchors": ["include/cavc/polylinecombine.hpp:combinePolylines"]}
{"id": "C36", "title": "combinePolylines returns closed polylines", "statement": "combinePolylines always returns (no loop guard fires, no out of range access) and every polyline in remaining and subtracted is closed with at least 2 vertices, for all four modes. In a union every subtracted polyline (hole) has the orientation opposite to plineA and every remaining one the orientation of plineA, unless it is plineB itself. Combining a polyline whose segments do not overlap each other with itself gives exactly that polyline for union and intersect, and nothing for exclude and xor.", "quantifier": "all pairs of closed polylines (up to the index size limit), all modes, all hash/sort orders", "why_tests_cant": "Universal over inputs and pipeline paths.", "anchors": ["include/cavc/polylinecombine.hpp:combinePolylines"]}
{"id": "C37", "title": "Offset distance check", "statement": "For |offset| >= 1e-4, the distance test used to accept points of an offset considers every segment of the original polyline that could be too near (the index pre-filter misses none): an accepted point is farther than |offset| - 1e-4 from every point of the polyline (up to the 1e-4 end tolerance of the per-segment nearest point), and a rejected point has a computed nearest point at most |offset| - 1e-4 away which is on the polyline, unless the point is within 1e-8 of a side of an arc's sector.", "quantifier": "all polylines with |bulge|<=1, offsets and points", "why_tests_cant": "Universal over index shapes and geometry.", "anchors": ["include/cavc/polylineoffset.hpp:internal::pointValidForOffset"]}
{"id": "C38", "title": "Stitching offset slices uses each slice exactly once", "statement": "Stitching the slices of an offset terminates without tripping its loop guard, uses every slice exactly once, joins only slices whose end and start are within the join threshold, always continues with an unused candidate of minimal index distance, and closes a result only if the original polyline is closed and the chain ends where it starts.", "quantifier": "all slice lists (each with >= 2 vertices), all join thresholds", "why_tests_cant": "Arbitrary slice sets.", "anchors": ["include/cavc/polylineoffset.hpp:internal::stitchOffsetSlicesTogether"]}
{"id": "C39", "title": "Raw offset segments are parallel at the exact distance", "statement": "Before trimming, the offset of a line segment is the segment translated by |offset| along its left (positive) or right (negative) normal, and the offset of an arc is the concentric arc with radius changed by exactly the offset and the same sweep (unless it collapses).", "quantifier": "all segments and all offsets", "why_tests_cant": "Uncountable inputs.", "anchors": ["include/cavc/polylineoffset.hpp:internal::createUntrimmedOffsetSegments"]}
{"id": "C40", "title": "parallelOffset returns, and its results are well formed", "statement": "parallelOffset of a polyline with fewer than 2 vertices returns no polylines. For other inputs it returns (no loop guard fires, no access out of range); every returned polyline has at least one vertex, is closed only if the input is closed, and if open has at least 2 vertices (except that the offset of an open input may be one single-vertex polyline).", "quantifier": "all polylines and offsets (well-formedness: every scalar implementation; returning: exact reals, sizes within the index limits)", "why_tests_cant": "Universal over inputs.", "anchors": ["include/cavc/polylineoffset.hpp:parallelOffset"]}
{"id": "C41", "title": "Island offset classification", "statement": "ParallelOffsetIslands::compute puts only polylines of non-negative signed area into ccwLoops and only polylines of negative signed area into cwLoops, and its result does not depend on earlier compute() calls on the same object. Every result is either an uncut parallel offset of its parent loop whose first vertex is at least |delta| - 2e-4 away from all other input loops, or a stitched closed polyline with area at least 1e-4; its spatial index is the index of its polyline. A stitched result is a ring of pieces, each cut from one parallel offset of an input loop between two points where that offset meets another one, with only vertices of that offset in between, and each piece has a point (the midpoint of its last segment) at least |delta| - 2e-4 away from every input loop but the parent.", "quantifier": "all inputs, offsets, all histories of compute() calls", "why_tests_cant": "History independence quantifies over call sequences.", "anchors": ["include/cavc/polylineoffsetislands.hpp:ParallelOffsetIslands::compute"]}
{"id": "C42", "title": "C API polyline handles behave as value sequences", "statement": "After any sequence of new/set_vertex_data/add_vertex/remove_range/clear/set_is_closed/set_capacity calls on live handles with in-range arguments, vertex_data/vertex_count/is_closed return exactly what the corresponding pure sequence operations give; clear keeps the closed flag and the capacity; capacity never decreases and is at least the count.", "quantifier": "all call histories", "why_tests_cant": "Histories are unbounded.", "anchors": ["src/cavaliercontours.cpp:cavc_pline_new", "src/cavaliercontours.cpp:cavc_pline_add_vertex", "src/cavaliercontours.cpp:cavc_pline_remove_range", "src/cavaliercontours.cpp:cavc_pline_set_capacity"]}
{"id": "C43", "title": "C API ownership discipline is memory safe", "statement": "A client that deletes each owned pline and list once, and never uses a pline after deleting it or its owning list, causes no double free and no use after free; a released pline survives deletion of its list; deleting everything owned leaves no leak. The rules are needed: deleting twice, or deleting a pline still owned by a list and then the list, is undefined.", "quantifier": "all call histories respecting the documented ownership rules", "why_tests_cant": "Histories are unbounded.", "anchors": ["src/cavaliercontours.cpp:cavc_pline_list_release", "src/cavaliercontours.cpp:cavc_pline_list_get", "src/cavaliercontours.cpp:cavc_pline_list_delete", "src/cavaliercontours.cpp:cavc_pline_delete"]}
{"id": "C44", "title": "C API algorithm wrappers are faithful", "statement": "cavc_parallel_offset / cavc_combine_plines fill the output lists with the library results in order; only bit 0 of option_flags matters; combine_mode 0..3 selects union/exclude/intersect/xor and any other value behaves as union (contrary to the header, which says outputs are not filled). cavc_get_path_length/area/winding_number/extents/closest_point return exactly the library's answers.", "quantifier": "all inputs, flags and modes", "why_tests_cant": "Universal over 2^32 flag and mode values.", "anchors": ["src/cavaliercontours.cpp:cavc_parallel_offset", "src/cavaliercontours.cpp:cavc_combine_plines"]}
{"id": "C45", "title": "cavc_pline_remove_range range check can be bypassed", "statement": "With in-range arguments remove_range removes exactly the requested vertices; the debug assertion start_index + count <= size does not protect against wrap-around of 32-bit addition: some (start,count) pass both assertions but erase out of range.", "quantifier": "all vertex counts, start indices and counts", "why_tests_cant": "Needs reasoning about 2^64 argument pairs.", "anchors": ["src/cavaliercontours.cpp:cavc_pline_remove_range"]}
{"id": "C46", "title": "localSelfIntersects tests each pair of consecutive segments once", "statement": "localSelfIntersects tests every pair of consecutive segments exactly once (including the wrap-around pairs of a closed polyline) and appends exactly: the start of a degenerate segment, the crossings of the two segments other than their shared vertex, and the first point of an overlap; a closed two-vertex polyline is reported iff its two segments retrace each other.", "quantifier": "all polylines", "why_tests_cant": "All vertex counts, open/closed, and all segment shapes; off-by-one at the wrap-around.", "anchors": ["include/cavc/polylineintersects.hpp:localSelfIntersects"]}
{"id": "C47", "title": "Winding number is constant on regions and 0 outside", "statement": "Two points that can be joined by a continuous path that does not touch the polyline have the same getWindingNumber; it is locally constant off the polyline, 0 for all points far enough away and 0 for every point outside the box returned by getExtents of a closed polyline.", "quantifier": "all closed polylines with |bulge| <= 1, all points off the polyline, all continuous paths", "why_tests_cant": "Ranges over all continuous paths and all points of the plane.", "anchors": ["include/cavc/polyline.hpp:getWindingNumber", "include/cavc/polyline.hpp:getExtents"]}
{"id": "C48", "title": "Vertices of an offset keep their distance", "statement": "Every vertex of every polyline returned by parallelOffset for a closed polyline is at least |offset| - 2e-4 away from every point of the input, unless the raw offset polyline needed no trimming: then that raw polyline is the only result and its first vertex keeps the distance.", "quantifier": "all closed polylines with |bulge| <= 1, all offsets with |offset| >= 1e-4, with and without hasSelfIntersects", "why_tests_cant": "Universal over uncountable inputs and over the intersection patterns of the raw offset.", "anchors": ["include/cavc/polylineoffset.hpp:parallelOffset", "include/cavc/polylineoffset.hpp:internal::slicesFromRawOffset", "include/cavc/polylineoffset.hpp:internal::dualSliceAtIntersectsForOffset"]}
{"id": "C49", "title": "The crossing test with the input polyline misses nothing", "statement": "The test that rejects offset slices crossing the input polyline answers true only if the pairwise segment test reports an intersect with some segment, and if it answers false then the pairwise test reports none for any segment of the input that has a point in common with the tested segment.", "quantifier": "all polylines with |bulge| <= 1 and all tested segments", "why_tests_cant": "Universal over index shapes and segments.", "anchors": ["include/cavc/polylineoffset.hpp:internal::slicesFromRawOffset"]}
{"id": "C50", "title": "Where the boundary of a boolean result runs when the inputs cross", "statement": "combinePolylines on two closed polylines that cross each other in general position (every crossing is reported exactly by the pairwise segment intersection, no crossing within tolerance of a vertex or of another crossing): the operation returns, and every point of every polyline of the result lies on one of the inputs, at the correct side of the other one. Union: on A and not inside B, or on B and not inside A. Intersection: on A and not outside B, or on B and not outside A. Difference A \\ B: on A and not inside B, or on B and not outside A. XOR: on A or on B. In particular slicing, arc splitting, direction inversion and stitching never move the boundary off the inputs.", "quantifier": "all pairs of closed polylines with line and arc segments (|bulge| <= 1) in general position with at least one crossing, all four modes, every behaviour of std::sort and of the hash map iteration order", "why_tests_cant": "A test looks at the area or the vertices of finitely many results; the claim is about every point of every result for every pair of inputs and every iteration order of the unordered_map.", "anchors": ["include/cavc/polylinecombine.hpp: combinePolylines, sliceAtIntersects, collectSlices, stitchOrderedSlicesIntoClosedPolylines", "include/cavc/plinesegment.hpp: splitAtPoint", "include/cavc/polylineintersects.hpp: findIntersects"]}
{"id": "C51", "title": "Corner joins of the raw offset stay within the offset distance", "statement": "createRawOffsetPline(pline, offset). (a) Corner of two straight segments: where their offsets cross, the raw offset goes through the crossing point only; where they have to be extended beyond the corner (outside corner), it follows an arc about the corner from the end of one offset segment to the start of the next, turning the way the input turns by less than a half turn, every point of the arc at exactly the offset distance from the corner; otherwise the two ends are linked by a straight segment. (b) For a polyline of straight segments every point of the raw offset polyline is within |offset| (plus 5e-5 merging tolerance and 1e-8 times the longest segment) of the input polyline: no join shoots away from the input however sharp the corner. (c) No vertex of the raw offset polyline repeats the position of the one before it (1e-5). (d) An arc segment cut at a join keeps its circle: trimming the start of an arc yields exactly the rest of the arc, trimming the end of the previous arc yields exactly its first part.", "quantifier": "(a) all corners and all turns up to a half turn; (b) all open and closed polylines of straight segments at least 1e-5 long with any mix of turning, straight and reversing corners (a turn with |cross product| at most 1e-8 must be exactly straight or a reversal), all offsets of both signs; for closed polylines the first offset segment must not be trimmed away at its very start; (c) all polylines, offsets and scalar types; (d) all arcs up to a half circle and all cut points on them", "why_tests_cant": "The distance bound must hold at every point of the raw offset of every polyline and for every mix of convex and concave corners; tests compare finitely many vertex lists.", "anchors": ["include/cavc/polylineoffset.hpp: createRawOffsetPline, lineToLineJoin, lineToArcJoin, arcToLineJoin, arcToArcJoin, bulgeForConnection"]}
{"id": "C52", "title": "Boolean operations enclose exactly the right region", "statement": "combinePolylines(A, B, mode) for crossing simple closed polylines A and B: for every point q on neither input boundary, q lies on no result polyline, and the winding numbers of all result polylines (remaining and subtracted) around q add up to the orientation of A (+1 counterclockwise, -1 clockwise) if q is in the union / intersection / difference of the enclosed regions, and to 0 otherwise; for XOR they add up to orientation(A) in A minus B, to minus orientation(A) in B minus A and to 0 elsewhere. So a point is enclosed by the result if and only if it belongs to the set operation on the two regions: no part of the boundary is missing, doubled or wrongly directed, and islands are subtracted.", "quantifier": "all closed polylines A, B of lines and arcs (arcs up to a half circle) that wind at most once around every point, have any orientations and cross in at least one point, with crossings at least twice the join threshold apart and away from the vertices; all four modes; all points of the plane off the inputs; every std::sort and hash map iteration order", "why_tests_cant": "The claim is about every point of the plane for every pair of polylines, every pattern of crossings and every slice order; tests compare areas and vertex counts of a few fixed pairs.", "anchors": ["include/cavc/polylinecombine.hpp: combinePolylines, processForCombine, collectSlices, sliceAtIntersects, stitchOrderedSlices", "include/cavc/polyline.hpp: getWindingNumber, getArea, invertDirection", "include/cavc/polylineintersects.hpp: findIntersects"]}
{"id": "C53", "title": "Areas and lengths of boolean results obey inclusion-exclusion", "statement": "combinePolylines on crossing simple closed polylines A and B, with getArea and getPathLength added up over all result polylines (remaining and subtracted): area(union) + area(intersection) = orientation(A) * (|area(A)| + |area(B)|); area(A exclude B) + area(intersection) = area(A); area(xor) = orientation(A) * (|area(A)| - |area(B)|) as signed areas (the part of B outside A is returned with the opposite direction); length(union) + length(intersection) = length(A) + length(B) = length(xor). The equalities are exact: cutting at the crossings, reversing and joining loses no area and no length.", "quantifier": "all closed polylines A, B of lines and arcs (arcs up to a half circle) that wind at most once around every point, have any orientations and cross in at least one point in general position; every std::sort and hash map iteration order", "why_tests_cant": "Tests compare a handful of areas and lengths with a tolerance; the identities must hold for all pairs of polylines and all crossing patterns.", "anchors": ["include/cavc/polylinecombine.hpp: combinePolylines, collectSlices, sliceAtIntersects, stitchOrderedSlices", "include/cavc/polyline.hpp: getArea, getPathLength, invertDirection", "include/cavc/plinesegment.hpp: splitAtPoint, segLength"]}
{"id": "C54", "title": "Winding numbers of a simple closed polyline: a Jordan curve theorem for getWindingNumber and getArea", "statement": "For a closed polyline (lines and arcs) whose path does not touch itself: getArea is not 0; getWindingNumber of every point off the path is either 0 or the sign of getArea (+1 counterclockwise, -1 clockwise); both kinds of points exist arbitrarily close to every point of the path; and the points with non-zero winding number form a region whose area (as an iterated integral) is |getArea|. So orientation by area sign and point-in-polygon by winding number agree for every simple polyline, and combinePolylines on crossing simple polylines encloses exactly the set operation on their regions.", "quantifier": "all closed polylines of any number of lines and arcs (arcs up to a half circle) whose path does not pass through any point twice; all points of the plane off the path", "why_tests_cant": "It is a statement about every simple curve and every point of the plane; a test samples finitely many points of a few shapes.", "anchors": ["include/cavc/polyline.hpp: getWindingNumber, getArea", "include/cavc/polylinecombine.hpp: combinePolylines"]}
{"id": "C55", "title": "getArea is the integral of getWindingNumber", "statement": "For every closed polyline, self-intersecting or not, getArea equals the integral over the plane of getWindingNumber: overlapping loops count as often as they are wound around, clockwise loops count negatively. On all but finitely many horizontal lines the path has finitely many points and the winding number is integrable, and the integrals over the lines integrate to getArea.", "quantifier": "all closed polylines of lines and arcs (arcs up to a half circle), with any self intersections, and any square around the origin that contains the path", "why_tests_cant": "It relates two different algorithms (the shoelace sum with circular segments and the ray crossing rules) for every polyline and infinitely many points.", "anchors": ["include/cavc/polyline.hpp: getArea, getWindingNumber"]}
{"id": "C56", "title": "The areas of boolean results are the areas of the set operations", "statement": "combinePolylines(A, B, mode) for crossing simple closed polylines: getArea added up over all result polylines (remaining and subtracted), times the orientation of A, is the area (iterated integral of the indicator function) of the union, intersection or difference of the two enclosed regions; for XOR it is area(A minus B) - area(B minus A), the second part being returned with the opposite direction.", "quantifier": "all closed polylines A, B of lines and arcs (arcs up to a half circle) that do not touch themselves, have any orientations and cross in at least one point in general position; all four modes; every std::sort and hash map iteration order", "why_tests_cant": "Tests compare some areas with precomputed numbers; the equality with the true area of the set operation must hold for every pair of polylines.", "anchors": ["include/cavc/polylinecombine.hpp: combinePolylines", "include/cavc/polyline.hpp: getArea, getWindingNumber"]}
{"id": "C57", "title": "parallelOffset returns exactly the stretches of the raw offset that pass the distance and crossing tests", "statement": "parallelOffset(pl, d, hasSelfIntersects): the raw offset polyline is cut exactly at the points it passes through twice (and, with hasSelfIntersects, where it meets the raw offset to the other side); the segments of the results are exactly the segments of those stretches that are kept. A stretch is kept only if all its vertexes and the tested mid point are more than |d| - 2e-4 away from the input, and dropped only if one of them is at most |d| - 1e-4 away (or lies next to the side of an arc's sector), or a segment of it intersects the input, or (without hasSelfIntersects) it is a loop shorter than 0.01. Without cut points the raw offset is returned as a whole or not at all. No point of the results lies off the raw offset.", "quantifier": "all closed polylines of lines and arcs (up to a half circle), all offsets |d| >= 1e-4, both values of hasSelfIntersects, whose raw offset is in general position; every std::sort and hash map iteration order", "why_tests_cant": "Tests check a few shapes; that no stretch is lost, duplicated or kept without passing the tests must hold for every polyline and every order of intersections.", "anchors": ["include/cavc/polylineoffset.hpp: parallelOffset, slicesFromRawOffset, dualSliceAtIntersectsForOffset, stitchOffsetSlicesTogether, createRawOffsetPline"]}
{"id": "C58", "title": "The two parallel offsets together are exactly the points at the offset distance", "statement": "For a closed polyline of straight segments: every point of every polyline returned by parallelOffset(pl, d) is at distance exactly |d| from the polyline (nearest point), and the results of parallelOffset(pl, d) and parallelOffset(pl, -d) together contain every point of the plane at distance exactly |d| from the polyline (except possibly the isolated points where raw offsets cross).", "quantifier": "all closed polylines of straight segments with any number of vertexes and with or without self intersections, all offsets |d| >= 1e-4 such that the raw offsets are in general position and the tested points are not within 2e-4 of the distance; all points of the plane", "why_tests_cant": "It compares the result with a set of infinitely many points, for every polyline and distance.", "anchors": ["include/cavc/polylineoffset.hpp: parallelOffset, createUntrimmedOffsetSegments, createRawOffsetPline, slicesFromRawOffset, dualSliceAtIntersectsForOffset, pointValidForOffset, stitchOffsetSlicesTogether"]}
{"id": "C59", "title": "Offsets of a simple polygon lie on the requested side, and reach every point there", "statement": "For a closed polyline of straight segments that does not touch itself: every point of every polyline returned by parallelOffset(pl, d) is at distance exactly |d| from the polyline and on its left (d > 0) or right (d < 0), which is the inside exactly when d and the signed area have the same sign; and every point on that side at distance exactly |d| is on one of the returned polylines (except possibly the isolated points where the raw offset crosses itself, and loops shorter than 0.01 when self intersections are not expected).", "quantifier": "all simple closed polylines of straight segments with any number of vertexes, both orientations, all offsets |d| >= 1e-4 to either side for which the raw offset is in general position and the tested points are not within 2e-4 of the distance; all points of the plane", "why_tests_cant": "Inside and outside are global notions; a wrong side, a missing piece or a spurious piece can occur for a particular shape and distance only.", "anchors": ["include/cavc/polylineoffset.hpp: parallelOffset, createRawOffsetPline, slicesFromRawOffset, pointValidForOffset, stitchOffsetSlicesTogether", "include/cavc/polyline.hpp: getArea, getWindingNumber"]}
{"id": "C60", "title": "Offsetting islands: which loops are kept, where they are cut and what is stitched", "statement": "ParallelOffsetIslands::compute(input, delta). Let the offset loops be the parallel offsets (by |delta|) of all input loops, less the clockwise offsets of counter clockwise inputs. An offset loop that touches no other offset loop (their bounding rectangles overlap and findIntersects reports something) is returned unchanged iff its first vertex passes the distance test of C37 (farther than |delta| up to 1e-4) against every input loop other than its parent. Every other offset loop is cut exactly at the points where findIntersects (or the ends of joined coincident stretches) says it meets another offset loop; a piece between two consecutive cuts is kept iff the midpoint of (the last segment of) the piece is at least |delta| from every input loop other than its parent. The kept pieces, in some order, are all that is stitched; stitched loops with |area| >= 1e-4 are returned, classified by the sign of their area, together with an up to date spatial index, and nothing else is returned.", "quantifier": "all input loop sets with valid indexes, all deltas, all states of the object, all sort and hash orders; offset loops whose cuts are more than 1e-5 per coordinate away from their vertexes and at most 2^24 loops", "why_tests_cant": "the number of loops, of touching pairs and of cuts is unbounded, every pair is found through two spatial indexes and a visited set, and the cut tables come out of hash maps in any order", "anchors": ["include/cavc/polylineoffsetislands.hpp: ParallelOffsetIslands::compute, createOffsetLoops, createSlicePoints, createSlicesFromLoop, pointOnOffsetValid"]}
{"id": "C61", "title": "Boolean operations on inputs that touch, cross or overlap in any way", "statement": "combinePolylines(A, B, mode) for closed polylines. If findIntersects reports nothing, the result is decided by containment of the first vertexes alone. If the joined overlaps are one run that ends where it starts, A and B count as the same curve: union and intersection return A, exclude and xor nothing. In every other case - including inputs that only share part of their boundary - A is cut at every intersect and at both ends of every overlap, B likewise; the parts of A and B on the wanted side of the other polyline (by their test point), the overlaps taken from A, and the overlaps again in the direction of B, with B turned round iff it does not run as the mode needs (along A for union and intersection, against A for exclude and xor), are exactly what is stitched, with the selector of the mode; the stitched rings are the result (for a union those turning against A are the subtracted ones).", "quantifier": "all closed polylines A, B (crossing, touching, overlapping, nested, disjoint), all modes, all sort and hash orders, with 10*|A|*|B| <= 2^24", "why_tests_cant": "overlaps and crossings can be combined in unboundedly many ways, and the decision between the containment rule and stitching must be right for all of them", "anchors": ["include/cavc/polylinecombine.hpp: combinePolylines, processForCombine, collectSlices", "include/cavc/polylineintersects.hpp: sortAndjoinCoincidentSlices"]}
{"id": "C62", "title": "Joins at arcs are made at the crossing nearest to the corner", "statement": "createRawOffsetPline, corner where one or both offset segments are arcs. Line and arc: the join point is where the line meets the circle of the arc, of two such points the one nearer to the input corner (the foot of the centre near tangency). If the point is on the segment and in the sector of the arc, the path is cut there: a previously added arc keeps its circle and ends at the point, a following arc continues as the rest of its circle; the vertex that ended the first segment does not appear. If there is no common point the ends are joined by an arc about the corner. If the point is off the ends: from a line into an arc, an arc join when it is beyond the end of the line and outside the arc, otherwise a straight link (an arc join when the first segment is a collapsed arc); from an arc, an arc join. Two arcs: as above with the common point of the two circles nearest to the corner, which must be in both sectors; on the same circle the path just goes on with the second arc.", "quantifier": "all pairs of offset segments of which at least one is an arc of at most a half circle, all corners and all paths built so far, both join directions; exact reals", "why_tests_cant": "The choice between two crossing points and between cutting, rounding and linking depends on real geometry with uncountably many configurations; tests visit finitely many corners.", "anchors": ["include/cavc/polylineoffset.hpp: lineToArcJoin, arcToLineJoin, arcToArcJoin, connectUsingArc"]}
{"id": "C63", "title": "End circles cut an open raw offset exactly where they meet it", "statement": "offsetCircleIntersectsWithPline(pline, offset, centre) for an open polyline, the step of parallelOffset that cuts the raw offset of an open polyline at the circles of radius |offset| about the first and last input vertex. Every reported pair (segment, point) is a point of that segment that is not within 1e-5 of its start, and is on the circle (or, within the tolerance of the intersection routines, where the segment touches it). Every point of a segment that is on the circle and not within 1e-5 of the start of the segment is reported with that segment, provided the segment is not nearly tangent to the circle elsewhere and the circles are not the same. Nothing already in the output is lost, no access is out of range.", "quantifier": "all open polylines of lines and arcs of at most a half circle, of any length, all centres and distances; exact reals", "why_tests_cant": "cuts missed or invented depend on real geometry and on the spatial index returning every segment near the circle, for polylines of any size", "anchors": ["include/cavc/polylineoffset.hpp: internal::offsetCircleIntersectsWithPline"]}
{"id": "C64", "title": "The offset of an open polyline consists of the kept stretches of the raw offset, cut at exactly the right points", "statement": "parallelOffset(pl, d) of an open polyline. The raw offset is cut at exactly the points where it crosses itself, crosses the raw offset to the other side, or meets one of the circles of radius |d| about the two end points of the input. The resulting stretches cover the raw offset. The returned polylines are open and consist of exactly the segments of the kept stretches, each once, and nothing else. Every tested point of a kept stretch (all its vertexes and the middle of its last segment; of the stretch at the start of the raw offset all vertexes but the last but one) keeps the distance |d| - 1e-4 from the input; every stretch that was dropped has a tested point closer than |d| to the input, or one of its segments intersects the input.", "quantifier": "all open polylines of lines and arcs of at most a half circle with any number of vertexes, all offsets |d| >= 1e-4 such that the raw offset is in general position (finitely many cuts, away from vertexes and from each other); any sort and hash order; exact reals", "why_tests_cant": "It states which curve is returned for every polyline and distance; the slices depend on all intersections found and on the order of the hash table.", "anchors": ["include/cavc/polylineoffset.hpp: parallelOffset, dualSliceAtIntersectsForOffset, offsetCircleIntersectsWithPline, stitchOffsetSlicesTogether"]}
{"id": "C65", "title": "The offset of an open straight polyline is exactly the part of the offset curve the input does not come close to", "statement": "parallelOffset(pl, d) of an open polyline of straight segments. Every point of every returned polyline is at distance exactly |d| from the input: the library removes every part of the raw offset that comes closer, although it only tests vertexes and one midpoint per slice. Conversely every point of the raw offset that keeps its distance from the input is on a returned polyline, apart from the finitely many cut points and the two ends. Offsetting to both sides gives, together, all points of the plane at distance |d| from the input, apart from points on the circles of radius |d| about the two end points of the input (the round caps, which the library never draws) and points where the raw offsets meet themselves or each other.", "quantifier": "all open polylines of straight segments with any number of vertexes, all offsets |d| >= 1e-4, such that the corners are clear of the tolerances, the raw offset is in general position and no final test point falls into the tolerance band of 2e-4 below |d|; both values of the has-self-intersections flag; any sort and hash order; exact reals", "why_tests_cant": "It is a statement about every point of the result and of the plane, for all polylines and distances; tests sample some points of a few results.", "anchors": ["include/cavc/polylineoffset.hpp: parallelOffset, createRawOffsetPline, dualSliceAtIntersectsForOffset, offsetCircleIntersectsWithPline, stitchOffsetSlicesTogether"]}
{"id": "C66", "title": "Island offsets bound exactly the region permitted by all input loops", "statement": "ParallelOffsetIslands::compute(input, delta). Take the returned loops, together with the stitched loops of absolute area below 1e-4 that the library throws away. Every point of them keeps distance at least |delta| from every input loop on its left side and is at distance exactly |delta| from one. Conversely every such point is on one of them, apart from the finitely many points where two offset loops meet. And at every point on none of them the winding numbers add up, relative to the background, to 1 if the point is at least |delta| away from every input loop on its left side and to 0 otherwise: the returned loops are the boundary of the region left over by all input loops, each part of it once and with the right orientation, although the library tests one vertex per uncut loop and one midpoint per slice and stitches by end points only.", "quantifier": "all sets of input loops with valid indexes each lying on the left side of the others, all |delta| >= 1e-4, such that the offset loops of each single input loop are right, the offset loops are in general position to each other (arcs allowed) and no test point falls into the tolerance band; any state of the object, any sort and hash order; exact reals", "why_tests_cant": "It is a statement about all points of the plane and all arrangements of any number of loops; tests compare the areas and lengths of a few results.", "anchors": ["include/cavc/polylineoffsetislands.hpp: ParallelOffsetIslands::compute, createOffsetLoops, createOffsetLoopsIndex, createSlicePoints, pointOnOffsetValid, createSlicesFromLoop", "include/cavc/polylinecombine.hpp: stitchOrderedSlicesIntoClosedPolylines"]}
{"id": "C67", "title": "Offsetting a simple closed straight polyline bounds exactly the region that is left over", "statement": "parallelOffset(input, d) for a closed polyline of straight segments without self contact. Every returned polyline is closed. Every point of them is on the side of the input to which the offset moves, at distance exactly |d| from it, and every such point (apart from the finitely many points where the raw offset is cut) is on one of them. And at every point on none of them the winding numbers of the results add up, relative to whether the side asked for is the unbounded one, to 1 if the point is on that side and further than |d| from the input and to 0 if it is nearer than |d| or on the other side: the returned polylines are the boundary of the eroded (or grown) region, every part of it once, with the orientation of the input, and no open chain is left although the slices are only selected by tests at sample points and stitched by end points.", "quantifier": "all simple closed straight polylines, all offsets |d| >= 1e-4 of either sign, both values of the self intersect hint, all query points, such that the raw offset and its dual are in general position and no test point falls into the tolerance band; any sort and hash order; exact reals", "why_tests_cant": "It is a statement about all points of the plane, all simple polygons and all distances; tests compare area, length and extents of the results of a few inputs.", "anchors": ["include/cavc/polylineoffset.hpp: parallelOffset, createRawOffsetPline, dualSliceAtIntersectsForOffset, slicesFromRawOffset, stitchOffsetSlicesTogether", "include/cavc/polyline.hpp: getWindingNumber"]}
{"id": "C68", "title": "The offsets of a simple closed straight polyline are simple loops with the area of the region that is left over", "statement": "parallelOffset(input, d) for a closed polyline of straight segments without self contact. Every returned polyline is closed, encloses a nonzero area and is a simple loop: the winding number of a point off it is 0 or the sign of its area, so it can itself be offset again or combined. Two returned polylines have at most finitely many points in common. An offset to the inside keeps the orientation: every result turns the same way as the input, none of them is an inverted leftover of a collapsed corner. And the signed areas of the results add up to the area of the set of points that lie on the side asked for and at least |d| away from the input (inside a square that contains the raw offset; for an offset to the outside the area of that square less what the results enclose).", "quantifier": "all simple closed straight polylines, all offsets |d| >= 1e-4 of either sign, both values of the self intersect hint, such that the raw offset and its dual are in general position and no test point falls into the tolerance band; any sort and hash order; exact reals", "why_tests_cant": "Simplicity and area equality range over all points of the plane and over all polygons and distances; the tests only compare the areas of the results of a few inputs with recorded numbers.", "anchors": ["include/cavc/polylineoffset.hpp: parallelOffset, createRawOffsetPline, dualSliceAtIntersectsForOffset, slicesFromRawOffset, stitchOffsetSlicesTogether", "include/cavc/polyline.hpp: getWindingNumber", "include/cavc/polyline.hpp: getArea"]}
{"id": "C69", "title": "Island offsets terminate without failure", "statement": "ParallelOffsetIslands::compute(input, delta) returns for every set of input loops: no loop guard fires, no out-of-range access, no null spatial index, no failing index over a degenerate stitched loop, in whatever order the hash map hands out the cut segments and std::sort orders ties, provided the offset of every single input loop returns (C40), the offset loops can be indexed, and the number of cuts times the loop size stays within the 2^24 limit of the spatial index. In particular it returns whenever the offset loops have at most 127 vertices in total.", "quantifier": "all loop sets, deltas, states of the object left by earlier calls, tie orders and hash map orders; no assumption on how the offset loops cross, touch or overlap", "why_tests_cant": "loop guards, index failures and out-of-range reads show only on particular contact patterns (overlapping stretches, cuts on vertices, cuts on one segment only) and iteration orders; tests visit a handful of these", "anchors": ["include/cavc/polylineoffsetislands.hpp: ParallelOffsetIslands::compute, createOffsetLoops, createOffsetLoopsIndex, createSlicePoints, createSlicesFromLoop", "include/cavc/polylinecombine.hpp: stitchOrderedSlicesIntoClosedPolylines", "include/cavc/staticspatialindex.hpp"]}
{"id": "C70", "title": "Scaling and translating a polyline acts on all answers as the similarity", "statement": "Scaling a polyline by s > 0 (scalePolyline) and translating it by v (translatePolyline): a point is on the path iff its image is on the new path, getWindingNumber of every point (also of points on the path) equals that of its image, getArea is multiplied by s^2, getExtents is mapped, getPathLength is multiplied by s unless a segment is shorter than 1e-8 before or after. A mere translation changes nothing else at all: the length is the same for every polyline, closestPoint returns the same index and distance and the translated point, and pruneSingularities, invertDirection and convertArcsToLines commute with it, and the intersection of two segments (intrPlineSegs: kind and points, for line/line, line/arc, arc/arc and coincident arcs) is the translated one; findIntersects on two translated polylines (with the index of the translated first one) reports the translated intersections and overlapping stretches with the same segment indexes, up to the order in the lists; createRawOffsetPline of the translated polyline is the translated raw offset polyline, vertex by vertex. The spatial index of the translated polyline (createApproxSpatialIndex) is the same tree over the translated boxes, its queries return the same items in the same order, and allSelfIntersects and findIntersects return the translated answers in the same order. parallelOffset of the translated polyline returns exactly the translated results: the same polylines, vertex by vertex and in the same order (given that the standard sort inspects elements only through the comparison and the map order depends on the keys only).", "quantifier": "all polylines with line and arc segments of any bulge (also degenerate ones), all scale factors and offsets, all query points; exact reals", "why_tests_cant": "Universal over polylines, similarities and query points.", "anchors": ["include/cavc/polyline.hpp: scalePolyline, translatePolyline, getWindingNumber, getExtents, getPathLength, getArea, ClosestPoint, pruneSingularities, invertDirection, convertArcsToLines", "include/cavc/plinesegment.hpp: intrPlineSegs, createFastApproxBoundingBox, segMidpoint, splitAtPoint", "include/cavc/polylineintersects.hpp: findIntersects", "include/cavc/polylineoffset.hpp: createRawOffsetPline, createUntrimmedOffsetSegments", "include/cavc/staticspatialindex.hpp: StaticSpatialIndex", "include/cavc/polylineintersects.hpp: allSelfIntersects", "include/cavc/polylineoffset.hpp: parallelOffset"]}
