# Formal model of CavalierContours in Rocq (Coq 8.16.1)

## 1. What is modelled

All algorithmic functions of `include/cavc/*.hpp` and all functions of `src/cavaliercontours.cpp` are
modelled one by one; every definition cites its file and lines.

| model file | code |
|------------|------|
| `Base.v` | C++ effects: `res A = Ok a \| UB \| Fuel`, vector access/update, loops |
| `Num.v` | the scalar type: class `OrdOps` (order only) and `RealOps` (arithmetic, libm); instances below |
| `MathUtils.v` | `mathutils.hpp`, `vector.hpp`, `vector2.hpp`, `intrcircle2circle2.hpp`, `intrlineseg2circle2.hpp`, `intrlineseg2lineseg2.hpp` |
| `SpatialIndex.v` | `staticspatialindex.hpp` (constructor, add, finish, Hilbert code, sort, queries, visitors) |
| `PlineSegment.v` | `plinesegment.hpp` |
| `Polyline.v` | `polyline.hpp` |
| `Intersects.v` | `polylineintersects.hpp` |
| `Combine.v` | `polylinecombine.hpp` |
| `Offset.v` | `polylineoffset.hpp` |
| `Islands.v` | `polylineoffsetislands.hpp` |
| `CApi.v` | `src/cavaliercontours.cpp` over an explicit heap |

The C++ is a set of templates over `Real`; the model is a set of Gallina functions over `RealOps`.
Which scalar a theorem is about:

* theorems that say "any scalar implementation" (C02, C06, C07, C11, C21, C29, C32, C33, C36_closed,
  C36_union_orientation, C40_short/shape, C41_history_independent/classification, C42, C43, C45 ...)
  quantify over every instance of `RealOps`, in particular over IEEE doubles with any libm;
* the spatial index theorems (C01, C03, C04) quantify over every order satisfying `OrdLaws`; instances
  are proved for exact reals and for IEEE binary64 without NaN (`F64OrdLaws`);
* geometric theorems are about `ROps`: exact real numbers (`R` with +-infinity where the code uses it).
  They say what the algorithm computes when arithmetic is exact. **Rounding of doubles is not covered
  by these theorems.** The thresholds of the code (1e-8, 1e-5, 1e-4) are kept literally, so the theorems do say
  where the tolerances of the code matter; several `_refuted` theorems show inputs on which the expected statement
  is false of the code because of them.

Conventions

* `UB` = out of range access, use of a freed or uninitialised cell, float to integer conversion out of
  range, `back()/pop_back()` of an empty vector. `Fuel` = a loop's guard (`CAVC_ASSERT(loopCount <= max)`) fires,
  or a loop without guard runs longer than a bound which theorems show is never reached. A theorem concluding `= Ok _`
  therefore contains memory safety and termination.
* Other `CAVC_ASSERT`s are compiled out in release builds; they are preconditions in the theorems (C45
  discusses one that does not protect).
* `std::size_t` is `nat`; `numeric_limits<size_t>::max()` as a sentinel is `None`. Wrap-around of 64 bit
  sizes is not modelled; 32 bit wrap-around of the C API and the Hilbert code is.
* The single precision arithmetic in the index's node count is modelled with `Flocq` (`Float32.v`: binary32, round to nearest even), exactly.
* `std::sort` is a parameter: any function returning a sorted permutation (class `StdLaws`; only what
  C++ guarantees, and only for comparators that are strict weak orders). `std::unordered_map` iteration
  order is an arbitrary permutation parameter. Theorems quantify over both. `InsertionStd` shows the laws are satisfiable.
* Visitors are state passing functions with an arbitrary state type.
* `std::vector` capacity growth is a parameter (`VecPolicy`) required only to provide enough room.

Not modelled: exceptions and allocation failure; `operator<<`/logging; iterator invalidation other than
through the heap model of the C API; moved-from vectors inside `ParallelOffsetIslands::compute` (they are
never read again before being cleared); performance; rounding (see above); the build system, tests and
examples; the hash function (only the iteration order matters).

Fidelity of the hand written model. `tools/validate/run.sh` extracts the generic model to OCaml, instantiates
it with IEEE doubles and libm and replays the expectations of the repository's own unit tests (polyline functions, boolean
operations, parallel offset, islands, spatial index): 2690 checks agree, none differ. No theorem depends on this.
`QRun.v`/`Runs.v` run the generic model inside Coq on rationals to exhibit concrete, non-trivial cases that meet the hypotheses.

## 2. Trusted base

* Coq 8.16.1's kernel (including its bytecode VM for the few `vm_compute` steps).
* The axioms `Print Assumptions` lists; `ASSUMPTIONS.md` (generated by `tools/assumptions.py`) lists them per theorem. They are
  standard library axioms only: `ClassicalDedekindReals.sig_forall_dec`, `ClassicalDedekindReals.sig_not_dec`,
  `FunctionalExtensionality.functional_extensionality_dep`, `Classical_Prop.classic` (the first three are Coq's construction of the
  reals, the last comes with Coquelicot's analysis and Flocq and is used in proofs by cases). No axiom, parameter or admitted proof of our own.
  vcheck's list also names the opaque module fields of `Rdefinitions` and `ssrunder` in the standard library.
* Libraries used: Coq standard library, Coquelicot (continuity, derivatives, Riemann integral), Flocq (binary32/64).
* The faithfulness of the model (citations and the validation runs above).

## 3. Properties: model and proof

| id | modelled by | how it is proved |
|----|-------------|------------------|
| C01 | `construct/add/finish/query` | invariant: the finished tree is well formed (each node's box bounds its children, children ranges partition the level below); the explicit stack traversal is simulated by recursion over levels; query = filter of the items |
| C02 | `visitQuery` | simulation with the collecting visitor |
| C03, C04 | `visitItemBoxes`, `visitBoundingBoxes` | sort permutes boxes and indices in lock step; tree invariant |
| C05 | float32 node count | exactness of round to nearest division below 2^24 (Flocq); counterexample by computation |
| C06 | `sort` (Hoare partition) | partition invariant, termination measure |
| C07 | `hilbertXYToIndex` bit operations | equality with the recursive Hilbert curve, then bijectivity and adjacency |
| C08 | Hilbert cast in `finish` | interval reasoning; counterexample |
| C09-C11 | `MathUtils.v` | floor arithmetic, algebra |
| C12-C16 | `PlineSegment.v` | algebra and trigonometry; segments are specified by their parametrisation (`Spec.v`: `segPoint`, `onSeg`) |
| C17-C20 | intersections | algebra; tolerance explicit in `onLineTol`, `onArcTol` |
| C21, C22 | `Polyline.v` | list induction; trace = list of (start, bulge, end) |
| C23 | `getArea` | equals a Riemann integral (Coquelicot) of (x dy - y dx)/2, per segment antiderivatives |
| C24, C25 | `getWindingNumber` | swept angle as Riemann integral of the angular speed; lifting per segment |
| C26-C29 | extents, closest point, arcs to lines, prune | real analysis, list induction |
| C30, C31, C46 | `findIntersects`, self intersects | C01 exactness + C15 boxes; the loops are rewritten to folds over the tested pairs |
| C32 | `sortAndjoinCoincidentSlices` | loop invariant over the joined lists; the direction test is compared with the geometric direction (`PropsDirection.v`, with a counterexample for arcs) |
| C33 | `sliceAtIntersects` | map of cuts = association list; `stretches` is an independent description of the pieces between cuts |
| C34 | `stitchOrderedSlicesIntoClosedPolylines` | refinement to the relation `stitched`/`walk`; rings |
| C35 | `combinePolylines`, disjoint paths | winding number constant along paths (C47), first/last hit of a ray; no Jordan curve theorem needed |
| C36 | `combinePolylines` | composition of C30-C34, counting bounds; `PropsSelfCombine.v` follows the pipeline for A combined with itself |
| C50 | `combinePolylines`, crossing inputs | pieces of segments (`PropsPieces.v`), runs between cuts (`PropsTrace.v`), C47 along a run, stitching joins exactly because crossings are apart |
| C51 | `createRawOffsetPline` and the joins | complete case analysis of the line/line join (`line_join`), invariant `chain` along the raw polyline (`PropsJoins.v`); trims via rotation algebra (`PropsTrims.v`) |
| C52 | `combinePolylines`, crossing simple inputs | kept and dropped runs cover each input (`PropsCover.v`), stitching uses every slice because starts and ends balance at every crossing (`PropsEuler.v`, `PropsBalance.v`), the turning of kept runs is a closed-curve integral which the local crossing count determines (`PropsRegionOps.v`) |
| C53 | `combinePolylines`, `getArea`, `getPathLength` | area and length are additive along a segment (Green integral, constant speed), so kept + dropped parts give the whole input; the four results are permutations of kept and dropped parts (`PropsRegionArea.v`) |
| C54 | `getWindingNumber`, `getArea`, `combinePolylines` | near a point of the path the plane splits into two sectors with winding numbers differing by one (turning angle of the two arms, `PropsJordan.v`); this property is propagated along the path, so only two values occur, one of them 0 (far points); the sign of the area follows from C55 (`PropsWindArea.v`) |
| C55 | `getArea`, `getWindingNumber` | every segment is cut into at most two parts that are graphs over y; on a horizontal line the turning angle of such a part is a step function, whose integral is x dy along the part; summing up, the angle parts telescope to 2 pi times the winding number and the x dy parts to the area (`PropsWindArea.v`) |
| C56 | `combinePolylines`, `getArea` | C55 for every result polyline and C52 for the sum of the winding numbers (`PropsRegionMeasure.v`) |
| C57 | `parallelOffset`, `slicesFromRawOffset`, `dualSliceAtIntersectsForOffset`, `stitchOffsetSlicesTogether` | the cuts are the double points (C25-style exactness of the self intersects, `PropsOffsetCuts.v`); the slice loop walks from cut to cut (`PropsOffsetRuns.v`); the stitching keeps every segment (`PropsOffsetParts.v`, `PropsOffsetResult.v`) |
| C58 | `parallelOffset` on straight closed polylines | the raw offset consists of trimmed edges, corner arcs and links to the original vertexes (`PropsRawStructure.v`); every point at distance d is on a raw offset (`PropsRawGeom.v`, `PropsRawPoints.v`); whether a point of the raw offset keeps its distance is locally constant except at double points (`PropsOffsetConst.v`), so one tested point decides a stretch (`PropsOffsetExact.v`) |
| C59 | `parallelOffset` on simple straight closed polylines | on a small circle around a point of the path the winding number is c on the left of the path and c - 1 on the right (`circle_arcs` in `PropsJordan.v`); the segment from a clear raw offset point to its nearest input point crosses nothing (`ray`), so the point has the value of its side; c follows from the sign of the area (C54); completeness from C58_curve_on_raw (`PropsOffsetSide.v`) |
| C60 | `ParallelOffsetIslands::compute` in full | the offset loops are `allOffsets` filtered (`offsets_exact`); an invariant over the double loop of `createSlicePoints` says that the sets found are exactly the touching pairs (`collect_exact`, through `C01_query_exact` for the index of loops); the cut table of one loop is the table of its meetings (`fill_exact`, `sort_tbl`), so the slices are the accepted stretches of `PropsSlices.sliceOne_exact` (`slices_exact`) |
| C61 | `combinePolylines` whatever the contact | `C32_exact` describes the joined overlaps as maximal runs of linked stretches (invariant `state` of the join loop, `PropsCoincidentRuns.v`); `C30`, `C33_safe`/`C33_exact` and the definition of `collectSlices` give the slices of each pass (`PropsContact.v`) |
| C62 | joins where an arc is involved | `PropsArcJoins.v`: C18/C19 turn the computed crossing into `meetLC`/`meetCC` (nearest to the corner), C51_trim_start/_end turn the trimmed bulges into `restFrom`/`cutBack`; case analysis of the three joins |
| C63 | end circle cuts of open polylines | `PropsEndCuts.v`: C18/C19 and the sector test per segment (`seg_cuts`), the query of the index returns every segment whose box meets the box of the circle (pline_index, C15) |
| C64 | open offsets, end to end | `PropsOpenTrace.v` (cut stretches of an open polyline), `PropsOpenRuns.v` (the slicing loops produce them), `PropsOpenCuts.v` (the cuts found are exactly the openDouble/common/circle points), `PropsOpenParts.v`, `PropsOpenResult.v` (C64). Finding: the first slice never tests its last-but-one vertex nor the segment before it |
| C65 | open straight offsets are the offset curve | `PropsOpenRaw.v` (which segments the raw offset of an open polyline has: one per edge, trimmed at met corners, plus one arc or link per unmet corner), `PropsOpenPoints.v` (the points of each), `PropsOpenConst.v` (between cuts the raw offset keeps its distance everywhere or nowhere), `PropsOpenExact.v` (C65: the one tested midpoint therefore decides the whole stretch; conversely every point at distance exactly d is on one of the two raw offsets or on an end circle); `PropsOpenHits.v` (no false alarms of the crossing test); `PropsOpenExample.v` (a hook meeting all hypotheses, with one kept and two dropped stretches) |
| C66 | island offsets bound the permitted region | `PropsManyBalance.v` (parts of many closed curves, kept where a product of winding-number sums of the other curves is 1: the kept parts balance at every point, and their total turn around a point is that product), `PropsIslandBoxes.v`, `PropsIslandExact.v` (specification: permitted points, joint offset curve; splitting a loop at its meeting points), `PropsIslandRegion.v` (loops are cut exactly where they meet others; permission does not change along a stretch, and the distance test at one point decides it), `PropsIslandResult.v` (counting the slices, stitching uses up all of them, C66), `PropsIslandStraight.v` (for straight simple loops C67 and C68 supply the correctness of the single offsets), `PropsIslandExample.v` (Example `C66_crescent`: a disc with a round hole meets all hypotheses of C60, C66 and C69; the result encloses exactly the crescent of permitted points) |
| C67 | offsetting a simple polygon bounds the left-over region | `PropsTurnBalance.v` (a set of kept stretches of which everywhere a small circle sees the same change of a turn function as of the indicator of the region: then no loose end is left and the difference is constant), `PropsOffsetGerm.v` (at a point of the raw offset passed once, the side away from the input is clear and the other is not), `PropsOffsetRegion.v` (specification `leftOver`; kept parts of C57 balance, hence all results are closed and their winding numbers give the indicator; Example `C67_chamfer`) |
| C68 | the offsets of a simple polygon are simple loops with the area of the left-over region | `PropsOffsetLoops.v` (the turn number of one result changes by at most one across any of its points, always in the same sense, and only next to a point of the left-over region, so it takes two values; inner offsets: the left-over region is bounded, so the value far away is 0 and the sign is that of the input; areas by integrating C67 over a square; Example `C68_chamfer`) |
| C69 | ParallelOffsetIslands::compute returns | `PropsIslandTotal.v`: every step is total: the offset loops (C40), their index, collecting the cut points of each pair of loops (counted), cutting a loop (the walk reaches its own cut again at the latest), stitching (C34), indexing the stitched loops (a closed polyline of non-zero area has a hull of positive width and height) |
| C70 | scaling and translating act as the similarity | `PropsSimilar.v`: the image of a polyline under the library's two functions; every segment formula commutes with the map (comparisons are of differences or of scaled quantities), then through the visiting order of C21; closest points start from a state that is not mapped, so the independence of the state (C27) is used; `PropsSimilarPairs.v`: the same for the pairwise segment intersection, boxes, midpoints and splits under translation; `PropsSimilarFind.v`: `findIntersects` through its description in C30; `PropsSimilarOffset.v`: offsetting and joining of segments, then `createRawOffsetPline`, function by function; `PropsSimilarIndex.v`: building (Hilbert values, sort, node boxes) and querying the index commute with moving the boxes; `PropsSimilarSelf.v`: hence `allSelfIntersects` and `findIntersects` with the order of the answers; `PropsSimilarParallel.v`: validity tests, slicing, stitching and so `parallelOffset`, for every standard library whose sort sees its elements through the comparison only and whose map order depends on keys only (`oblivious`, an explicit hypothesis; Example `C70_oblivious`); Example `C70_hypotheses` |
| C37, C49 | offset distance and crossing tests | C01 + C14 + C15 |
| C38 | offset stitching | refinement to a relation, each slice once |
| C39 | `createUntrimmedOffsetSegments` | algebra |
| C40, C48 | `parallelOffset` | loop invariants through raw offset, self intersects, slicing, stitching; counting bounds for termination |
| C41 | `ParallelOffsetIslands::compute` | filter invariants, state of the object threaded through a history; cutting a loop is shown to be the same walk as C33 (`PropsIslandSlices.v`) |
| C42-C45 | `CApi.v` | heap model; refinement of pure sequences; ownership invariant over arbitrary client histories |
| C47 | `getWindingNumber` | continuity of the swept angle, integrality |

A statement that is false of the code is not dropped: the property says so and a `_refuted` theorem (or one naming the effect, such as
`C05_overflow_reachable`, `C08_degenerate_is_UB`, `C38_one_vertex_result`, `C45_bypass`) exhibits the input.

## 4. Adequacy checks

* Every theorem with hypotheses has a concrete instance next to it (Examples in the same file, `Runs.v`, `C50_squares`, `C35_circles`, ...).
* Mutation testing: `seeded/LOG.jsonl` lists the edits made to the model in a scratch copy (wrong boundary, missed case, swapped argument, dropped
  update), the claim each breaks, the theorems whose proofs then fail and what was tightened when none did.
