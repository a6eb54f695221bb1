# (id, file, definition, old, new, claim)
M=[]
def m(f,d,old,new,claim): M.append((f,d,old,new,claim))
MU,PS,PL,SI,IN,CO,OF,IS,CA="MathUtils PlineSegment Polyline SpatialIndex Intersects Combine Offset Islands CApi".split()
m(MU,"normalizeRadians","angle - tfloor (angle / tau) * tau","angle - tau","C09 normalized angle in range")
m(MU,"deltaAngle","if diff >? pi then diff - tau","if diff >? tau then diff - tau","C09 delta in (-pi,pi]")
m(MU,"quadraticSolutions","if b <? t0 then (- b + sqrtDiscr) / denom else","if b <? t0 then (- b - sqrtDiscr) / denom else","C10 both roots (c = 0, b < 0)")
m(MU,"nextWrappingIndex","(S index =? n)%nat then","(index =? n)%nat then","C11 successor modulo size")
m(MU,"closestPointOnLineSeg","if c2 <? c1 + realThreshold then p1","if c2 <? c1 + realThreshold then p0","C14 nearest point of a line segment")
m(MU,"leftExpr","(vx p1 - vx p0) * (vy point - vy p0) - ","(vx p1 - vx p0) * (vy point - vy p0) + ","C24 winding number")
m(MU,"pointWithinArcSweepAngle","isRightOrCoincident center arcEnd point realThreshold\n  else","isLeftOrCoincident center arcEnd point realThreshold\n  else","C14 closest point on arcs")
m(PS,"arcRadiusAndCenter","if bulgeIsNeg v1 then (- offsX, - offsY)","if bulgeIsPos v1 then (- offsX, - offsY)","C12 arc centre side")
m(PS,"splitAtPoint","let theta2 := deltaAngle a arcEndAngle in","let theta2 := deltaAngle arcStartAngle arcEndAngle in","C13 second part of a split")
m(PS,"splitAtPoint","mkSplit v1 (mkVtx (pos v2) t0)","mkSplit v1 (mkVtx (pos v2) (bulge v1))","C13 split at the end point")
m(PS,"intrLineSeg2LineSeg2"," ||\n       (r1 + realThreshold <? t0) || (r1 >? t1 + realThreshold)\n"," ||\n       (r1 + realThreshold <? t0)\n","C17 no false intersect beyond the end of a segment")
m(PS,"intrLineSeg2LineSeg2","let '(r0, r1) := if r0 >? r1 then (r1, r0) else (r0, r1) in\n","","C17 opposing collinear segments")
m(PS,"intrLineSeg2Circle2","LC1 (- b / (t2 * a))","LC1 (b / (t2 * a))","C18 tangent point")
m(PS,"intrCircle2Circle2"," ||\n          (d + realThreshold <? tabs (radius1 - radius2)) then CCNone"," then CCNone","C19 nested circles do not intersect")
m(PS,"intrCircle2Circle2","let y1 := vy midPoint - yTerm in","let y1 := vy midPoint + yTerm in","C19 points on both circles")
m(PS,"createFastApproxBoundingBox","(tmax exMax pxMax) (tmax eyMax pyMax)","(tmin exMax pxMax) (tmax eyMax pyMax)","C15 box encloses the segment")
m(PS,"createFastApproxBoundingBox","let offsX := b * (py v2 - py v1) / t2 in","let offsX := - b * (py v2 - py v1) / t2 in","C15 box encloses the segment")
m(PS,"segLength","tabs (radius arc * deltaAngle startAngle endAngle)","radius arc * deltaAngle startAngle endAngle","C16 length of cw arcs")
m(PS,"segMidpoint","if bulgeIsPos v1 then a1 + angleOffset else a1 - angleOffset","a1 + angleOffset","C16 midpoint of cw arcs")
m(PS,"coincidentArcsIntr","ArcOverlap (pos u1) (pos v2)","ArcOverlap (pos u1) (pos u2)","C20 overlap end points on both arcs")
m(PS,"processLineArcIntr","if ok1 && ok2 then TwoIntersects q1 q2\n      else if ok1","if ok1","C20 second intersect not lost")
m(PS,"intrPlineSegs","else if uIsLine then processLineArcIntr (pos u1) (pos u2) v1 v2","else if uIsLine then processLineArcIntr (pos u1) (pos u2) u1 u2","C20 arc/line pairs")
m(PL,"visitSegIndices","visitSeg_loop (S (size pl)) (size pl) visitor 0 (size pl - 1) st\n","visitSeg_loop (S (size pl)) (size pl) visitor 1 0 st\n","C21 closing segment visited")
m(PL,"visitSeg_loop","if go then visitSeg_loop fuel' n visitor (i + 1)%nat i st","if go then visitSeg_loop fuel' n visitor (i + 1)%nat (i - 1)%nat st","C21 consecutive vertices")
m(PL,"scalePolyline","mkVtx (vscale scaleFactor (pos v)) (bulge v)","mkVtx (vscale scaleFactor (pos v)) (bulge v * scaleFactor)","scaling keeps the shape of arcs")
m(PL,"translatePolyline","(vx offset + px v) (vy offset + py v) (bulge v)","(vx offset + px v) (vx offset + py v) (bulge v)","translation by the given vector")
m(PL,"extents_step","let arcXMin := if within pi then","let arcXMin := if within (t2 * pi) then","C26 extents enclose arcs")
m(PL,"extents_step","(if x1 >? xMax result then x1 else xMax result)","(if x1 >? xMax result then xMax result else x1)","C26 extents enclose path")
m(PL,"area_step","if bulgeIsNeg v1 then - doubleArcSegArea else doubleArcSegArea","doubleArcSegArea","C23 area of cw arcs")
m(PL,"area_step","let sagitta := b * triangleBase / t2 in","let sagitta := b * triangleBase in","C23 area")
m(PL,"getArea","visitSegIndices pl (area_step pl) t0 / t2","visitSegIndices pl (area_step pl) t0","C23 area")
m(PL,"closest_step","xltb (inj dist2) (cpDistance st)","xltb (cpDistance st) (inj dist2)","C27 minimum")
m(PL,"closestPoint_compute","(xsqrt (cpDistance st))","(cpDistance st)","C27 distance")
m(PL,"closestPoint_compute","(mkCP (cpIndex prev) (cpPoint prev) xinf) in","(mkCP (cpIndex prev) (cpPoint prev) (cpDistance prev)) in","C27 history independence")
m(PL,"convertArcs_step","tacos (t1 - error / radius arc)","tacos (t1 - t2 * error / radius arc)","C28 error bound")
m(PL,"convertArcs_step","if bulgeIsNeg v1 then - segmentSubAngle else segmentSubAngle","segmentSubAngle","C28 cw arcs")
m(PL,"prune_loop","(setBulge last (bulge v)) vs'","last vs'","C29 surviving vertex has the last bulge")
m(PL,"pruneSingularities","then mkPline (isClosed pl) (removelast r)","then mkPline (isClosed pl) (tl r)","C29 closing vertex")
m(PL,"shiftBulges","setBulge v (- bulge w)","setBulge v (bulge w)","C22 reversed path")
m(PL,"shiftBulges","[setBulge v (- firstBulge)]","[v]","C22 reversed path (closing segment)")
m(PL,"createApproxSpatialIndex","(seq 0 (size pl - 1)) ix in","(seq 0 (size pl - 2)) ix in","C30/C01 index holds each segment")
m(PL,"lineWinding","if (py v2 >? vy point) &&","if (py v2 >=? vy point) &&","C24 half open crossing rule")
m(PL,"arcWinding","if pointIsLeft then (if negb inCircle then 1%Z else 0%Z) else 0%Z\n","if pointIsLeft then (if inCircle then 1%Z else 0%Z) else 0%Z\n","C24 cw arcs upward")
m(PL,"arcWinding","if (px v2 <? vx point) && (vx point <? px v1) && inCircle then 1%Z","if (px v1 <? vx point) && (vx point <? px v2) && inCircle then 1%Z","C24 ccw arc below the point")
m(PL,"getWindingNumber","if negb (isClosed pl) || (size pl <? 2)%nat then 0%Z","if (size pl <? 2)%nat then 0%Z","C24/25 open polylines have winding number 0")
m(PL,"getPathLength","(true, result + segLength (at_ pl i) (at_ pl j))","(true, segLength (at_ pl i) (at_ pl j))","C16 path length is the sum")
m(PL,"addOrReplaceIfSamePos","(rev t ++ [setBulge lv (bulge v)])","(rev t ++ [lv])","replaced vertex takes the new bulge")
m(SI,"noOverlap","xltb (bMaxX b) (bMinX q) || xltb (bMaxY b) (bMinY q)","xltb (bMaxX b) (bMinX q)","C01 exact query")
m(SI,"noOverlap","xltb (bMaxX q) (bMinX b)","negb (xltb (bMinX b) (bMaxX q))","C01 touching boxes")
m(SI,"queryNode_loop","if negb go then Ok (true, st, stack)\n          else queryNode_loop k' ix q","if negb go then Ok (false, st, stack)\n          else queryNode_loop k' ix q","C02 early stop")
m(SI,"query_loop","Nat.min (nodeIndex + NodeSize * 4) lb in\n      let! (done","(nodeIndex + NodeSize * 4) in\n      let! (done","C01 last node of a level")
m(SI,"nodeBox_loop","(if xltb (bMaxY nb) (bMaxY b) then bMaxY b else bMaxY nb)","(if xltb (bMaxY nb) (bMaxY b) then bMaxX b else bMaxY nb)","C01/C04 node boxes")
m(SI,"swap","let! bxs := rset bxs j bi in\n","","C06 boxes move with indices")
m(SI,"sort","let! s := sort fuel' NodeSize s left j in\n        sort fuel' NodeSize s (j + 1) right","sort fuel' NodeSize s left j","C06 blocks in Hilbert order")
m(SI,"sort","if right / NodeSize <=? left / NodeSize then Ok s","if right / NodeSize <=? left / NodeSize + 1 then Ok s","C06 blocks in Hilbert order")
m(SI,"partition_loop","partition_loop fuel' pivot s (i + 1) j'","partition_loop fuel' pivot s i j'","C06")
m(SI,"hilbertXYToIndex","let i0 := x ^^ y in","let i0 := x in","C07 bijection")
m(SI,"hilSpread","let i := (i ||| shl32 i 2) & 0x33333333 in","let i := (i ||| shl32 i 2) & 0x3333333F in","C07 bijection")
m(SI,"finish","if m_numItems ix <=? NodeSize then","if m_numItems ix <=? NodeSize + 1 then","C01/C04 tree shape at NodeSize+1 items")
m(SI,"add","(if xltb (m_maxX ix) maxX then maxX else m_maxX ix)","(if xltb (m_maxX ix) minX then minX else m_maxX ix)","C03 index extents")
m(SI,"levelBounds_loop","let numNodes := numNodes + n in","let numNodes := numNodes + n + 1 in","C05 allocation")
m(SI,"visitItemBoxes","let! end_ := rgetI (m_levelBounds ix) 0 in","let! end_ := rgetI (m_levelBounds ix) 1 in","C03 only items")
m(SI,"visitQuery","(4 * m_numNodes ix - 4) (m_numLevels ix - 1) st [].\n\n(** staticspatialindex.hpp:190","(4 * m_numNodes ix - 4) 0 st [].\n\n(** staticspatialindex.hpp:190","C01")
m(IN,"orientCoinc","Ok (if dist1 >? dist2","Ok (if dist2 >? dist1","C32 orientation along pline1")
m(IN,"startSlice","[negb sameDirection]","[sameDirection]","C32 opposing flag")
m(IN,"joinLoop","let! st := endSlice pline2 prev st in\n        let! st := startSlice","let! st := endSlice pline2 intr st in\n        let! st := startSlice","C32 end points")
m(IN,"joinEnds","(removelast sl ++ [joined]) starts'","(s0 :: removelast sl ++ [joined]) starts'","C32 parallel lists")
m(IN,"testAndAddIntersect","let keep p := if negb (fuzzyEqual p (pos v2) realPrecision) then","let keep p := if (fuzzyEqual p (pos v2) realPrecision) then","C46 shared vertex not reported")
m(IN,"localSelfIntersects","testAndAddIntersect pline output (size pline - 1) 0 1","Ok output","C46 pair (last, first)")
m(IN,"globalIndexVisitor","else if pairMem hitStart i visited then Ok (visited, output)\n","","C31 once")
m(IN,"globalIndexVisitor","pairMem hitStart i visited","pairMem i hitStart visited","C31 once")
m(IN,"globalPairIntrs","negb (fuzzyEqual (pos v1) p realThreshold || fuzzyEqual (pos u1) p realThreshold)","negb (fuzzyEqual (pos v1) p realThreshold || fuzzyEqual (pos u2) p realThreshold)","C31 reported points")
m(IN,"findPair","then [(prevWrappingIndex i1 (size pline1), i2)] else [] in","then [(i1, i2)] else [] in","C30 duplicates")
m(IN,"findPair","(fCoinc st ++ [mkCIntr i1 i2 p q])","(fCoinc st ++ [mkCIntr i2 i1 p q])","C30 indices")
m(IN,"isDuplicate","if negb (pairMem (sIndex1 intr) (sIndex2 intr) dups) then Ok false","if pairMem (sIndex1 intr) (sIndex2 intr) dups then Ok true","C30 duplicates")
m(IN,"findSegVisitor","let fuzz := realPrecision in","let fuzz := - realPrecision in","C30 candidate search")
m(CO,"midSlices","if spStart prevPt then result\n        else if","if","C33 coincident part not emitted")
m(CO,"sliceOne","if pred (segMidpoint a b) then Ok (result ++ [currSlice]) else Ok result","Ok (result ++ [currSlice])","C33/C47 slices satisfy the predicate")
m(CO,"sliceLoop","Ok (addOrReplaceIfSamePos currSlice (mkVtx (spPos p) t0))","Ok currSlice","C33 slice ends at the intersect")
m(CO,"sliceLoop","| None => sliceLoop fuel' pline m currSlice (nextWrappingIndex index (size pline))","| None => sliceLoop fuel' pline m currSlice (index + 1)","C33 wraps")
m(CO,"closePline","if (size pl <? 3)%nat then","if (size pl <? 2)%nat then","C34/C36 at least 2 vertices")
m(CO,"closePline","setClosed p true","setClosed p false","C36 closed")
m(CO,"stitchLoop","let! visited := rset visited c true in\n","","C34 each slice at most once")
m(CO,"stitchLoop","let! p := popBack currPline in\n                let! visited","let p := currPline in\n                let! visited","C34 join vertex not duplicated")
m(CO,"stitchIndex","(inj (px v - joinThreshold)) (inj (py v - joinThreshold))\n             (inj (px v + joinThreshold))","(inj (px v)) (inj (py v - joinThreshold))\n             (inj (px v + joinThreshold))","C34 joined ends within the threshold; all candidates found")
m(CO,"splitByOrientation","mkComb (filter (fun p => negb (flipped p)) l) (filter flipped l)","mkComb (filter flipped l) (filter (fun p => negb (flipped p)) l)","C36 union classification")
m(CO,"unionAndIntersectSelector","if (startOfCoincidentSlicesIdx <=? currSliceIndex)%nat then Ok None","if (startOfCoincidentSlicesIdx <? currSliceIndex)%nat then Ok None","C34 coincident slices not chained")
m(CO,"excludeAndXORSelector","else if (currSliceIndex <? startB)%nat then\n    match find isB","else if (currSliceIndex <? startB)%nat then\n    match find isA","C34 exclude alternates between A and B")
m(CO,"collectSlices","negb (Bool.eqb setOpposingOrientation (plineOpposingDirections ci))","Bool.eqb setOpposingOrientation (plineOpposingDirections ci)","C36/C47 orientation of B slices")
m(CO,"combinePolylines","Ok (if isAInsideB then mkComb [plineB] []\n            else if isBInsideA then mkComb [plineA] []\n            else mkComb [plineA; plineB] [])","Ok (if isAInsideB then mkComb [plineA] []\n            else if isBInsideA then mkComb [plineA] []\n            else mkComb [plineA; plineB] [])","C35 union")
m(CO,"combinePolylines","Ok (if isAInsideB then mkComb [] []\n            else if isBInsideA then mkComb [plineA] [plineB]","Ok (if isAInsideB then mkComb [] []\n            else if isBInsideA then mkComb [plineA] []","C35 exclude hole")
m(CO,"combinePolylines","collectSlices plineA plineB ci pointInB pointInA false","collectSlices plineA plineB ci pointInB (fun pt => negb (pointInA pt)) false","C36/C47 intersect keeps B inside A")
m(CO,"combinePolylines","Ok (mkComb (rem1 ++ rem2) [])","Ok (mkComb rem1 [])","C36 XOR has both parts")
m(CO,"combinePolylines","| Intersect =>\n      if completelyCoincident ci then Ok (mkComb [plineA] [])","| Intersect =>\n      if completelyCoincident ci then Ok (mkComb [] [])","C36 intersect with self")
m(CO,"pushCoinc2","if o then mpush (sIndex2 ep) (mkSP (ipos ep) true)","if o then mpush (sIndex2 ep) (mkSP (ipos ep) false)","C33 coincident parts of B are not emitted")
m(OF,"offsetLine","let offsetV := vscale offset (unitPerp edge) in","let offsetV := vscale (- offset) (unitPerp edge) in","C39 offset side")
m(OF,"offsetArc","if bulgeIsNeg v1 then offset else - offset in","if bulgeIsPos v1 then offset else - offset in","C39 offset side of arcs")
m(OF,"offsetArc","if radiusAfterOffset <? realThreshold","if radiusAfterOffset <? - realThreshold","C39 collapsed arcs")
m(OF,"createUntrimmedOffsetSegments","Ok (segs ++ [offsetSegment offset v1 v2])","Ok segs","C39 one segment per input segment")
m(OF,"bulgeForConnection","if isCCW then absBulge else - absBulge","if isCCW then - absBulge else absBulge","joins go round the corner")
m(OF,"bulgeForConnection","ttan (absSweepAngle / t4)","ttan (absSweepAngle / t2)","join arcs at the offset distance")
m(OF,"lineToLineJoin","if (r0 >? t1) && falseIntersect r1 then byArc else byLine","byLine","joins: arcs at convex corners")
m(OF,"lineToLineJoin","| LLTrue p => addOrReplaceIfSamePos result (mkVtx p t0)","| LLTrue p => addOrReplaceIfSamePos result (mkVtx (pos v2) t0)","joins: trimmed at the intersection")
m(OF,"trimmedArcVertex","mkVtx intersect (ttan (theta / t4))","mkVtx intersect (bulge u1)","joins: trimmed arc keeps its circle")
m(OF,"trimPrev","(setBulge prevVertex (ttan (updatedPrevTheta / t4)))","prevVertex","joins: trimmed arc keeps its circle")
m(OF,"closeRaw","then Ok (mkPline (isClosed result) (tl (vertexes result)))","then Ok result","C40 raw offset without repeated first vertex")
m(OF,"pointValidForOffset","Ok (distSquared cp point >? minDist)","Ok (distSquared cp point <? minDist)","C37")
m(OF,"pointValidForOffset","let absOffset := tabs offset - offsetThreshold in","let absOffset := tabs offset / t2 in","C37 distance")
m(OF,"pointValidForOffset","(inj (vx point - absOffset)) (inj (vy point - absOffset))","(inj (vx point)) (inj (vy point - absOffset))","C37 all segments tested")
m(OF,"intersectsOrigPline","match intrPlineSegs v1 v2 u1 u2 with NoIntersect => false | _ => true end","match intrPlineSegs v1 v2 u1 u2 with NoIntersect | OneIntersect _ => false | _ => true end","C49")
m(OF,"midOffsetSlices","let! ok2 := ptValid ts (pos b) in","let! ok2 := ptValid ts (pos a) in","C48 end points tested")
m(OF,"midOffsetSlices","let! h := hitsOrig ts a b in Ok (negb h)","Ok true","C49/C48 crossing test applied")
m(OF,"offsetSliceLoop","if negb ok then Ok (false, currSlice)\n      else\n        let! lv := lastVertex currSlice in","if negb ok then Ok (true, currSlice)\n      else\n        let! lv := lastVertex currSlice in","C48 vertices tested")
m(OF,"offsetSliceLoop","if wraps then offsetSliceLoop fuel' ts raw wraps m currSlice 0","if wraps then offsetSliceLoop fuel' ts raw wraps m currSlice 1","slices follow the raw offset")
m(OF,"offsetSliceOne","let! ok := ptValid ts lastPt in\n      if negb ok then Ok result","let! ok := ptValid ts p0 in\n      if negb ok then Ok result","C48 start point tested")
m(OF,"slicesFromRawOffset","if negb ok then Ok [] else wholeRaw raw true","wholeRaw raw true","C48 whole raw offset tested")
m(OF,"slicesFromRawOffset","mpush (sIndex2 si) (ipos si)\n                                        (mpush (sIndex1 si) (ipos si) m)","(mpush (sIndex1 si) (ipos si) m)","both segments of a self intersect are cut")
m(OF,"dualSliceAtIntersectsForOffset","let m := fold_left (fun m si => mpushSorted (sIndex1 si) (ipos si) m) dualIntrs m in\n","","dual intersects cut the raw offset")
m(OF,"stitchOffsetLoop","let! visited := rset visited nxt true in\n","","C38 each slice once")
m(OF,"stitchOffsetLoop","then Ok (visited, result ++ [mkPline true (removelast currPline)])","then Ok (visited, result ++ [mkPline true currPline])","C38 closing vertex")
m(OF,"stitchOffsetLoop","visited result (removelast currPline) nxt","visited result currPline nxt","C38 join vertex")
m(OF,"stitchCmp","if (d1 =? d2)%nat then negb e1 && e2 else (d1 <? d2)%nat","if (d1 =? d2)%nat then negb e1 && e2 else (d2 <? d1)%nat","stitching takes the next slice along the polyline")
m(OF,"parallelOffset","if isClosed pline && negb hasSelfIntersects then","if negb hasSelfIntersects then","C40 open inputs give open results")
m(OF,"parallelOffset","createRawOffsetPline pline (- offset)","createRawOffsetPline pline offset","dual offset on the other side")
m(IS,"addCcwOffset","if getArea offset <? t0 then Ok ccw\n  else","","C41 inverted offsets dropped")
m(IS,"addCwOffset","if getArea offset <? t0 then Ok (ccw, cw","if t0 <? getArea offset then Ok (ccw, cw","C41 classification")
m(IS,"createOffsetLoops","let cw0 := @nil offsetLoop in","let cw0 := o_cw o in","C41 history independence")
m(IS,"createSlicePoints","([], [], repeat [] total) in","(o_visited o, [], repeat [] total) in","C41 history independence")
m(IS,"slicePointsPair","else if pairMem j i visited then Ok st\n","","pairs of loops intersected once")
m(IS,"pointOnOffsetValid","else if (i =? skipIndex)%nat then Ok true","else if (i =? skipIndex)%nat then Ok false","C41 untouched loops kept")
m(IS,"pointOnOffsetValid","else if (i =? skipIndex)%nat then Ok true\n","else if (i <? skipIndex)%nat then Ok true\n","C41 distance from every other loop")
m(IS,"processLoop","if negb ok then Ok st\n","if ok then Ok st\n","C41 validity of untouched loops")
m(IS,"dissOne","if negb ok then Ok result","if ok then Ok result","C41 slices valid")
m(IS,"midDissSlices","else valid (segMidpoint a b)) in","else Ok true) in","C41 slices valid")
m(IS,"addStitched","if area <? t0 then Ok (mkLoopSet (ccwLoops r) (cwLoops r","if t0 <? area then Ok (mkLoopSet (ccwLoops r) (cwLoops r","C41 classification")
m(IS,"fillDiss","mpush (sIndex2 (lspIntr p))","mpush (sIndex1 (lspIntr p))","slice points on the right segments")
m(IS,"createOffsetLoops","Ok (S parentIndex, ccw, cw)) (cwLoops input) (parentIndex, ccw, cw0)","Ok (S parentIndex, ccw, cw)) (cwLoops input) (0%nat, ccw, cw0)","C41 parent index of cw loops")
m(CA,"freeP","let! ps := rset (hPlines h) a None in Ok (mkHeap ps (hLists h)).","Ok h.","C43 freed")
m(CA,"list_release","setL h l (firstn i ps ++ skipn (S i) ps)","setL h l ps","C43 released element leaves the list")
m(CA,"list_delete","let! h := mfold freeP ps h in\n","","C43 no leak")
m(CA,"pline_remove_range","skipn (N.to_nat (start_index + count)) vs)","skipn (N.to_nat count) vs)","C42/C45")
m(CA,"pline_add_vertex","(reserveCap (ccap p) (S (size (cdata p))))","(ccap p)","C42 capacity")
m(CA,"pline_clear","(mkPline (isClosed (cdata p)) [])","(mkPline false [])","C42 clear keeps the closed flag")
m(CA,"api_parallel_offset","negb (Z.land option_flags 1 =? 0)%Z","(Z.land option_flags 1 =? 0)%Z","C44 flag")
m(CA,"modeOfInt","else if (combine_mode =? 1)%Z then Exclude\n  else if (combine_mode =? 2)%Z then Intersect","else if (combine_mode =? 2)%Z then Exclude\n  else if (combine_mode =? 1)%Z then Intersect","C44 mode")
m(CA,"api_combine_plines","combinePolylines (cdata pa) (cdata pb)","combinePolylines (cdata pb) (cdata pa)","C44 argument order")
m(CA,"api_combine_plines","Ok (h, r, s).","Ok (h, s, r).","C44 outputs")
m(CA,"copyToPline","(mkPline (isClosed (cdata p)) data)","(mkPline (isClosed (cdata p)) (vertexes (cdata p) ++ data))","C42 set_vertex_data replaces")
m(CA,"api_get_closest_point","Ok (toU32 (cpIndex c), cpPoint c, cpDistance c)","Ok (toU32 (cpIndex c + 1), cpPoint c, cpDistance c)","C44 closest point")
M += [
('Offset','lineToLineJoin','if (r0 >? t1) && falseIntersect r1 then byArc else byLine','if (r0 >? t1) && falseIntersect r1 then byLine else byArc','C51 outside corners are rounded, others are not'),
('Offset','lineToLineJoin','| LLTrue p => addOrReplaceIfSamePos result (mkVtx p t0)','| LLTrue p => byLine','C51 inside corners are cut at the crossing'),
('Offset','connectUsingArc','bulgeForConnection (origV2Pos s1) sp ep ccw','bulgeForConnection (origV2Pos s1) ep sp ccw','C51 arc about the corner (swapped ends have the same angle; no effect expected for angles below a half turn)'),
('Offset','connectUsingArc','let b := bulgeForConnection (origV2Pos s1)','let b := bulgeForConnection (origV2Pos s2)','C51 arc about the corner'),
('Offset','createRawOffsetPline','let ccw := offset <? t0 in','let ccw := offset >? t0 in','C51 arcs turn the way the input turns'),
('Offset','closeRaw','then setPos r0 updatedFirstPos\n           else mkVtx updatedFirstPos (ttan (updatedTheta / t4))','then setPos r0 updatedFirstPos\n           else setPos r0 updatedFirstPos','C51 trimmed arc keeps its circle at the closing join'),
('Offset','closeRaw','if negb firstVertexReplaced then','if firstVertexReplaced then','C51 closing join moves the first vertex'),
('Combine','collectSlices','let partB := if inv then map invertDirection partB else partB in','let partB := partB in','C52 kept parts of B get the direction the result needs'),
('Combine','combinePolylines','pointInB (fun pt => negb (pointInA pt)) true in','pointInB (fun pt => negb (pointInA pt)) false in','C52 second half of XOR directed'),
('Combine','combinePolylines','(fun pt => negb (pointInB pt)) pointInA true in\n        let! rem := stitch','(fun pt => negb (pointInB pt)) pointInA false in\n        let! rem := stitch','C52 exclude reverses the parts of B'),
('Combine','stitchLoop','(mkPline (isClosed p) (vertexes p ++ vertexes cs)) c','(mkPline (isClosed p) (vertexes p ++ tl (vertexes cs))) c','C52 no vertex lost at a junction'),
('Combine','splitByOrientation','mkComb (filter (fun p => negb (flipped p)) l) (filter flipped l)','mkComb (filter (fun p => negb (flipped p)) l) []','C52 holes of the union are not lost'),
('Combine','combinePolylines','Ok (splitByOrientation (ciPline1IsCW ci) rem)','Ok (splitByOrientation (ciPline1IsCW ci) (firstn 1 rem))','C52 every loop of the result is returned'),
('Combine','processForCombine','let cw2 := getArea pline2 <? t0 in','let cw2 := getArea pline1 <? t0 in','C52 orientation of B considered'),
('Combine','sliceAtIntersects','mfold (sliceOne pline m pred) (map_order m) result','mfold (sliceOne pline m pred) (tl (map_order m)) result','C52 every stretch considered'),
('Combine','stitchFrom','let! s := rget slices i in\n    stitchLoop','let! s := rget slices 0 in\n    stitchLoop','C52 every slice starts its own loop'),
('Combine','combinePolylines','(fun pt => negb (pointInB pt)) (fun pt => negb (pointInA pt)) false in','(fun pt => negb (pointInB pt)) pointInA false in','C52 union keeps the parts outside'),
("Offset","midOffsetSlices","midOffsetSlices ts sIndex endVertex b rest' result","midOffsetSlices ts sIndex endVertex prevVertex rest' result","C57: the stretches of the raw offset between cuts do not overlap"),
("Offset","offsetSliceOne","if negb (length siList =? 1)%nat","if (2 <? length siList)%nat","C57: every stretch between two cuts of one segment is considered"),
("Offset","offsetSliceOne","let lastPt := last rest p0 in","let lastPt := p0 in","C57: the last stretch of a segment starts at its last cut"),
("Offset","offsetSliceOne","then getPathLength currSlice >? tlit 1 100 else true","then getPathLength currSlice >? tlit 10 1 else true","C57/C58: only loops shorter than 0.01 are dropped"),
("Offset","offsetSliceLoop","let! ok := ptValid ts (segMidpoint (updatedStart split) sliceEndVertex) in\n                if negb ok then Ok (false, currSlice)\n                else\n                  let! currSlice := setLastVertex","let! ok := ptValid ts ipos in\n                if negb ok then Ok (false, currSlice)\n                else\n                  let! currSlice := setLastVertex","C57/C58: the mid point of the last piece of a stretch is tested"),
("Offset","parallelOffset","dualSliceAtIntersectsForOffset pline rawOffset dualRawOffset offset","dualSliceAtIntersectsForOffset pline dualRawOffset rawOffset offset","C57/C58: the results lie on the raw offset to the requested side"),
("Offset","wholeRaw","(if closeIt then [setBulge r0 t0] else [])","[]","C57: an uncut raw offset is returned as a closed polyline"),
("Offset","sortVLookup","distSquared a (pos v) <? distSquared b (pos v)","distSquared b (pos v) <? distSquared a (pos v)","C57: the cuts of a segment are visited in order along the segment"),
("Offset","dualSliceAtIntersectsForOffset","let m := fold_left (fun m si => mpushSorted (sIndex2 si) (ipos si)\n                                      (mpushSorted (sIndex1 si) (ipos si) m)) selfIntrs m in","let m := fold_left (fun m si => (mpushSorted (sIndex1 si) (ipos si) m)) selfIntrs m in","C57: with hasSelfIntersects both branches are cut at a double point"),
("Offset","lineToLineJoin","if (r0 >? t1) && falseIntersect r1 then byArc else byLine","if (r0 >? t1) then byArc else byLine","C58: links at corners whose offsets miss each other on the inside"),
]
# --- campaign over definitions not mutated before (176-) ---
m(MU,"fuzzyInRange","(value <? maxValue + epsilon)","(value <? maxValue - epsilon)","C17 a point of a segment's end is on the segment")
m(MU,"angleIsBetween","midSweep <? endSweep + epsilon","midSweep <? endSweep - epsilon","C09/C26 end points of a sweep are within it")
m(MU,"angleIsWithinSweep","if sweepAngle <? t0 then angleIsBetween endAngle startAngle testAngle epsilon","if sweepAngle <? t0 then angleIsBetween startAngle endAngle testAngle epsilon","C26 extents of clockwise arcs")
m(MU,"prevWrappingIndex","if (index =? 0)%nat then (n - 1)%nat else","if (index =? 0)%nat then n else","C11 predecessor modulo size")
m(MU,"vdiv","else mkV t0 t0","else v","division by zero gives the zero vector")
m(MU,"fuzzyEqual","fuzzyEqualR (vx v1) (vx v2) epsilon && fuzzyEqualR","fuzzyEqualR (vx v1) (vx v2) epsilon || fuzzyEqualR","both coordinates are compared")
m(MU,"unitPerp","normalize (mkV (- vy v) (vx v))","normalize (mkV (vy v) (- vx v))","C39 offset to the left for positive distance")
m(PS,"isInSegment","if fuzzyEqualR (vx segStart) (vx segEnd) realThreshold then","if negb (fuzzyEqualR (vx segStart) (vx segEnd) realThreshold) then","C17 point on a segment")
m(PS,"intrLineSeg2LineSeg2","if isInSegment v1 u1 u2 then LLTrue v1 else LLNone","if isInSegment v1 u1 u2 then LLTrue u1 else LLNone","C17 degenerate second segment")
m(PS,"intrLineSeg2LineSeg2","if (tabs a >? realThreshold) || (tabs b >? realThreshold) then LLNone","if (tabs a >? realThreshold) && (tabs b >? realThreshold) then LLNone","C17 parallel apart lines")
m(PS,"intrLineSeg2LineSeg2","if tabs (r1 - r0) <? realThreshold then LLTrue (vadd v1 (vscale r0 v))","if tabs (r1 - r0) <? realThreshold then LLTrue v1","C17 collinear segments sharing one point")
m(PS,"intrLineSeg2Circle2","- t2 * k * vy p0 + k * k) - radius","- t2 * h * vy p0 + k * k) - radius","C18 points on the circle")
m(PS,"intrLineSeg2Circle2","if fuzzyEqualR (xh * xh + yk * yk) (radius * radius) realThreshold then LC1 t0 else LC0","if fuzzyEqualR (xh * xh + yk * yk) (radius * radius) realThreshold then LC0 else LC1 t0","C18 degenerate segment")
m(PS,"intrCircle2Circle2","if fuzzyEqualR radius1 radius2 realThreshold then CCCoincident else CCNone","CCCoincident","C19 concentric circles of different radii")
m(PS,"splitAtPoint","mkSplit (mkVtx point t0) (mkVtx point (bulge v1))","mkSplit (mkVtx point (bulge v1)) (mkVtx point (bulge v1))","C13 split at the start")
m(PS,"segTangentVector","mkV (- (vy pointOnSeg - vy (center arc))) (vx pointOnSeg - vx (center arc))","mkV (vy pointOnSeg - vy (center arc)) (vx pointOnSeg - vx (center arc))","C16 tangent direction")
m(PS,"closestPointOnSeg","if dist1 <? dist2 then pos v1 else pos v2","if dist2 <? dist1 then pos v1 else pos v2","C14 closest end point")
m(PS,"closestPointOnSeg","vadd (vscale (radius arc) vToPoint) (center arc)","vadd (vscale (radius arc) vToPoint) point","C14 closest point of an arc")
m(PS,"coincidentArcsIntr","else startAndSweepAngle (pos u2) c2 (- bulge u1) in","else startAndSweepAngle (pos u2) c2 (bulge u1) in","C20 opposing coincident arcs")
m(PS,"coincidentArcsIntr","else if arc2EndsInArc1Sweep then ArcOverlap (pos v1) (pos u2)","else if arc2EndsInArc1Sweep then ArcOverlap (pos v2) (pos u2)","C20 overlap of arcs")
m(PS,"intrPlineSegs","SegmentOverlap (pointFromParametric (pos u1) (pos u2) r0)","SegmentOverlap (pointFromParametric (pos v1) (pos v2) r0)","C20 overlap end points")
m(PS,"expand","(xMax bb + val) (yMax bb + val)","(xMax bb + val) (yMax bb - val)","C15 expanded box encloses the box")
m(PL,"addVertex","(vertexes pl ++ [v])","(v :: vertexes pl)","vertexes are appended in order")
m(PL,"setLastVertex","| _ :: t => Ok (mkPline (isClosed pl) (rev t ++ [v]))","| _ :: t => Ok (mkPline (isClosed pl) (t ++ [v]))","only the last vertex is replaced")
m(PL,"getExtents","(mkAABB (px v0) (py v0) (px v0) (py v0)) in","(mkAABB t0 t0 t0 t0) in","C26 extents are tight")
m(PL,"closestPoint","closestPoint_compute (mkCP 0 vzero xinf) pl point","closestPoint_compute (mkCP 1 vzero xinf) pl point","C27 initial state irrelevant (no observable effect expected)")
m(PL,"arcPoints","(seq 1 (segmentCount - 1))","(seq 1 segmentCount)","C28 no duplicate end point")
m(PL,"arcPoints","let ang := tofnat i * subAngle + startAngle in","let ang := tofnat i * subAngle in","C28 points on the arc")
m(PL,"convertArcsToLines","Ok (mkPline (isClosed pl) (vs ++ [lv]))","Ok (mkPline (isClosed pl) vs)","C28 end point of an open polyline")
m(PL,"convertArcs_step","if radius arc <? error + realThreshold then Ok (error, vs ++ [v1])","if radius arc <? error + realThreshold then Ok (error, vs)","C28 small arcs keep their start vertex")
m(PL,"invertDirection","(shiftBulges (bulge (hd vdflt r)) r)","(shiftBulges (bulge (last r vdflt)) r)","C29 reversed arcs")
m(SI,"scanDown","if N.ltb pivot v then","if N.leb pivot v then","C04/C05 partition terminates in range")
m(SI,"level_loop","(Some nodeIndex) in","(Some (bsMPos s)) in","C01 node records its first child")
m(SI,"levels_loop","levels_loop k' NodeSize lb (i + 1) s","levels_loop k' NodeSize lb i s","C01 levels")
m(SI,"construct","(repeat None numNodes) (repeat None numNodes) 0)","(repeat None numNodes) (repeat None numNodes) 4)","C01 first item at position 0")
m(SI,"visitItemBoxes_loop","visitItemBoxes_loop k' ix visitor end_ (i + 4) st","visitItemBoxes_loop k' ix visitor end_ (i + 8) st","C03 every item visited")
m(SI,"bbNode_loop","else if m_numItems ix * 4 <=? nodeIndex then","else if m_numItems ix * 4 <? nodeIndex then","C03 all boxes visited")
m(SI,"bb_loop","if stopped then Ok st\n      else","if false then Ok st\n      else","visiting stops when the visitor says so")
m(SI,"query","(fun rs index => (true, rs ++ [index])) results","(fun rs index => (true, rs ++ [index])) []","C01 results appended to the caller's vector")
m(SI,"hilbertValue","xhil (m_minY ix) (m_maxY ix) (bMinY b) (bMaxY b)","xhil (m_minY ix) (m_maxY ix) (bMinX b) (bMaxX b)","Hilbert value of the box centre")
m(SI,"ceilDivF_Z","(SFdiv 24 128 (f32_of_Z n) (f32_of_Z ns))","(SFdiv 24 128 (f32_of_Z (n - 1)) (f32_of_Z ns))","C02 level sizes")
m(IN,"coincCmp","distSquared sp (cpoint1 a) <? distSquared sp (cpoint1 b)","distSquared sp (cpoint2 b) <? distSquared sp (cpoint1 a)","C32 coincident stretches in path order")
m(IN,"coincCmp","then (cIndex1 a <? cIndex1 b)%nat","then (cIndex1 b <? cIndex1 a)%nat","C32 coincident stretches in path order")
m(IN,"endSlice","(csEnds r ++ [mkIntr (cIndex1 intr) i2 (cpoint2 intr)])","(csEnds r ++ [mkIntr (cIndex1 intr) i2 (cpoint1 intr)])","C32 slice end point")
m(IN,"endSlice","if fuzzyEqual (pos u1) (cpoint2 intr) realPrecision\n            then prev","if fuzzyEqual (pos u1) (cpoint1 intr) realPrecision\n            then prev","C32 slice end index on the second polyline")
m(IN,"startSlice","if fuzzyEqual (pos v1) (cpoint1 intr) realPrecision\n            then prevWrappingIndex","if fuzzyEqual (pos v2) (cpoint1 intr) realPrecision\n            then prevWrappingIndex","C32 slice start index")
m(IN,"sortAndjoinCoincidentSlices","joinEnds r\n      end","Ok r\n      end","C32 slices wrapping around the start are joined")
m(IN,"globalItemVisitor","(xsubt (bMinX b) realThreshold) (xsubt (bMinY b) realThreshold)","(bMaxX b) (xsubt (bMinY b) realThreshold)","C31 all self intersects found")
m(IN,"globalSelfIntersects","if (size pline <? 3)%nat then Ok output","if (size pline <? 5)%nat then Ok output","C31 all self intersects found")
m(IN,"allSelfIntersects","globalSelfIntersects NodeSize pline output ix.","globalSelfIntersects NodeSize pline [] ix.","C31 local self intersects kept")
m(IN,"localSelfIntersects","if fuzzyEqualR (bulge v0) (- bulge v1) realThreshold","if fuzzyEqualR (bulge v0) (bulge v1) realThreshold","C31 two vertex overlapping loop")
m(IN,"localSelfIntersects","(seq 2 (size pline - 2)) output in","(seq 2 (size pline - 3)) output in","C31 local self intersects")
m(IN,"removeIf","Ok (if b then t else a :: t)","Ok (if b then a :: t else t)","C30 duplicates removed")
m(IN,"findIntersects","Ok (intrs, fCoinc st)","Ok (fIntrs st, fCoinc st)","C30 duplicates removed")
m(CO,"mpush","if k =? k' then (k', vs ++ [v]) :: m'","if k =? k' then (k', [v]) :: m'","C33 all cut points kept")
m(CO,"completelyCoincident","fuzzyEqual (ipos s) (ipos e) realPrecision","negb (fuzzyEqual (ipos s) (ipos e) realPrecision)","C35 coincident polylines")
m(CO,"anyIntersects","negb (length (ciSlices ci) =? 0)%nat || negb (length (ciIntrs ci) =? 0)%nat","negb (length (ciIntrs ci) =? 0)%nat","C35 coincident contact counts as intersecting")
m(CO,"buildLookup","mpush (sIndex1 i) (mkSP (ipos i) true) m) (ciStarts ci) m in","mpush (sIndex1 i) (mkSP (ipos i) false) m) (ciStarts ci) m in","C34 coincident stretches not sliced twice")
m(CO,"invertOpposing","Ok ((if o then invertDirection s else s) :: r)","Ok ((if o then s else invertDirection s) :: r)","C35 coincident slices follow the second polyline")
m(CO,"sortLookup","distSquared (spPos a) (pos v)\n                                      <? distSquared (spPos b) (pos v)","distSquared (spPos b) (pos v)\n                                      <? distSquared (spPos a) (pos v)","C33 cut points in path order")
m(CO,"stitchFirstAvailable","let! a := rget available 0 in Ok (Some a).\n\n(** adding","Ok (Some 0%nat).\n\n(** adding","C41 selector picks an available slice")
m(OF,"lineToArcJoin","if dist1 <? dist2 then processIntersect r0 i1 else processIntersect r1 i2\n  end.\n\n(** trimming","if dist2 <? dist1 then processIntersect r0 i1 else processIntersect r1 i2\n  end.\n\n(** trimming","join at the intersection nearest to the corner (line to arc)")
m(OF,"lineToArcJoin","else if (t >? t1) && negb trueArcIntersect then byArc\n    else if","else if","line to arc join rounds outside corners")
m(OF,"arcToLineJoin","let! result := trimPrev (center arc) v2 intersect result in\n","","C39 previous arc trimmed")
m(OF,"arcToArcJoin","if trueArcIntersect1 && trueArcIntersect2 then","if trueArcIntersect1 || trueArcIntersect2 then","C39 join only at a point on both arcs")
m(OF,"arcToArcJoin","| CCCoincident => Ok (addOrReplaceIfSamePos result u1)","| CCCoincident => Ok result","C39 tangent arcs of the same circle")
m(OF,"joinSegs","else if s1IsLine then Ok (lineToArcJoin s1 s2 ccw result)","else if s1IsLine then arcToLineJoin s1 s2 ccw result","C39 join kind")
m(OF,"joinAll","joinAll ccw s rest' result","joinAll ccw prev rest' result","C39 consecutive segments joined")
m(OF,"circleIntrSeg","(tabs t >? realPrecision)\n","(tabs t <? realPrecision)\n","C42 end circle cuts of open polylines")
m(OF,"circleIntrSeg","Ok (output ++ keep r0 ++ keep r1)","Ok (output ++ keep r0)","end circle cuts of open polylines")
m(OF,"offsetCircleIntersectsWithPline","mfold (circleIntrSeg pline r circleCenter) q output","mfold (circleIntrSeg pline r circleCenter) q []","both end circles are used")
m(OF,"dualSliceAtIntersectsForOffset","offsetCircleIntersectsWithPline raw offset (pos l) rawIx out","Ok out","the last vertex's circle is used")
m(OF,"mpushSorted","else if (k <? k')%nat then (k, [v]) :: m\n","else if (k' <? k)%nat then (k, [v]) :: m\n","ordered map")
m(OF,"firstSliceLoop","let! h := hitsOrig ts (updatedStart split) sliceEndVertex in\n              if h then Ok []\n              else","","first slice crossing test")
m(OF,"firstSliceLoop","let! ok := ptValid ts (pos v) in\n          if negb ok then Ok []\n          else\n            let! h := (if","let! h := (if","first slice vertexes keep the distance")
m(OF,"firstSliceLoop","(addOrReplaceIfSamePos firstSlice v) (S index)","firstSlice (S index)","first slice contains the traversed vertexes")
m(OF,"firstSliceLoop","if negb (index =? 0)%nat\n","if (index =? 0)%nat\n","first slice crossing test")
m(OF,"indexDist","(origMaxIndex - c + o)%nat","(o + c)%nat","stitching order of offset slices")
m(OF,"stitchOffsetFrom","if vis then Ok st\n  else","if negb vis then Ok st\n  else","C38 each slice used once")
m(OF,"stitchOffsetSlicesTogether","if fuzzyEqual (pos a) (pos b) joinThreshold\n        then","if negb (fuzzyEqual (pos a) (pos b) joinThreshold)\n        then","C38 single closed slice")
m(OF,"offsetSliceOne","Ok (if valid then result ++ [mkOSl (Some sIndex) currSlice] else result)","Ok (if valid then result ++ [mkOSl (Some 0%nat) currSlice] else result)","slice start index recorded")
m(OF,"dualSliceAtIntersectsForOffset","mfold (offsetSliceOne ts raw (isClosed orig) false m) m first","mfold (offsetSliceOne ts raw true false m) m first","open raw offsets do not wrap around")
m(OF,"dualSliceAtIntersectsForOffset","then firstSliceLoop (S (size raw)) ts raw m emptyPline 0 else Ok []) in","then Ok [] else Ok []) in","first part of an open offset kept")
m(OF,"dualSliceAtIntersectsForOffset","mpushSorted (cIndex1 ci) (cpoint2 ci)\n                                      (mpushSorted (cIndex1 ci) (cpoint1 ci) m)","(mpushSorted (cIndex1 ci) (cpoint1 ci) m)","coincident stretches cut at both ends")
m(OF,"createRawOffsetPline","else Ok (addOrReplaceIfSamePos result (osV2 (last rest seg0)))) in","else Ok result) in","open raw offset reaches the end")
m(OF,"createRawOffsetPline","if (length rawOffsets =? 1)%nat && collapsedArc seg0 then Ok emptyPline","if (length rawOffsets =? 1)%nat then Ok emptyPline","offset of a single segment")
m(IS,"getOffsetLoop","else rget (o_cw o) (i - length (o_ccw o))","else rget (o_cw o) i","C41 loop numbering")
m(IS,"getParentLoop","else rget (cwLoops input) (i - length (ccwLoops input))","else rget (cwLoops input) i","C42 parent numbering")
m(IS,"createOffsetLoopsIndex","let! ix := mfold addLoop (o_cw o) ix in\n","","islands index holds every loop")
m(IS,"lookupPush","rset l i (li ++ [x])","rset l i [x]","all intersecting pairs recorded")
m(IS,"slicePointsPair","let! lk := lookupPush lk j (length sets - 1) in\n","","both loops of a pair are cut")
m(IS,"dissLoop","otherLoopIndex p)\n      | None","0%nat)\n      | None","end loop index (not used by compute: no observable effect expected)")
m(IS,"sortDiss","distSquared (dpos a) (pos v)\n                                      <? distSquared (dpos b) (pos v)","distSquared (dpos b) (pos v)\n                                      <? distSquared (dpos a) (pos v)","island cuts in path order")
m(IS,"createSlicesFromLoop","pointOnOffsetValid input (parentLoopIndex loop) pt absDelta","pointOnOffsetValid input loopIndex pt absDelta","C43 slices tested against all other input loops")
m(IS,"compute","(seq 0 (totalOffsetLoopsCount o))\n            (o, mkLoopSet","(seq 0 (length (o_ccw o)))\n            (o, mkLoopSet","clockwise loops processed")
m(IS,"addStitched","if tabs area <? tlit 1 10000 then Ok r","if tabs area >? tlit 1 10000 then Ok r","stitched island loops kept")
m(IS,"dissOne","let lastPt := last rest p0 in","let lastPt := p0 in","island slices start at the last cut of a segment")
m(CA,"toU32","(2 ^ 32)%N.\n\n(** std","(2 ^ 16)%N.\n\n(** std","counts are reported modulo 2^32")
m(CA,"reserveCap","if n <=? cap then cap else vec_grow cap n","if n <=? cap then n else vec_grow cap n","capacity never shrinks")
m(CA,"moveToList","(h, a :: as_)","(h, as_ ++ [a])","results listed in order")
m(CA,"pline_new","allocP h (mkCP_ (setClosed (cdata p) is_closed) (ccap p))","allocP h (mkCP_ (cdata p) (ccap p))","C44 is_closed argument")
m(CA,"pline_set_capacity","(mkCP_ (cdata p) (reserveCap (ccap p) sz))","(mkCP_ (mkPline (isClosed (cdata p)) (firstn sz (vertexes (cdata p)))) (reserveCap (ccap p) sz))","setting the capacity keeps the vertexes")
m(CA,"pline_vertex_data","Ok (firstn (N.to_nat (toU32 (size (cdata p)))) (vertexes (cdata p)))","Ok (vertexes (cdata p) ++ [])","vertex data truncated to the 32 bit count (equal below 2^32)")
m(CA,"remove_range_asserts","N.ltb start_index (N.of_nat sz)","N.leb start_index (N.of_nat sz)","C46 assertion of remove_range")
m(CA,"pline_set_is_closed","(mkCP_ (setClosed (cdata p) c) (ccap p))","(mkCP_ (setClosed (cdata p) (negb c)) (ccap p))","closed flag set as requested")
m(CA,"list_get","let! ps := getL h l in rget ps i.","let! ps := getL h l in rget (rev ps) i.","list order")
m(CA,"api_get_extents","Ok (getExtents (cdata p))","Ok (getExtents (pruneSingularities (cdata p) realPrecision))","extents of the stored polyline")
m(CA,"allocL","(mkHeap (hPlines h) (hLists h ++ [Some l]), length (hLists h))","(mkHeap (hPlines h) (hLists h ++ [Some l]), 0)","fresh list handle")
m(CA,"setP","let! ps := rset (hPlines h) a (Some p) in Ok (mkHeap ps (hLists h)).","Ok (mkHeap (hPlines h ++ [Some p]) (hLists h)).","updates are in place")

# --- against C62, C63, C39_line_degenerate ---
m(MU,"vdiv","else mkV t0 t0","else mkV t1 t0","C39: a zero length segment is not moved")
m(OF,"circleIntrSeg","if negb (falseIntersect t) && (tabs t >? realPrecision)\n                  then [(sIndex,","if negb (falseIntersect t)\n                  then [(sIndex,","C63: no cut at the start of a segment")
m(OF,"circleIntrSeg","| CCTwo p q => Ok (output ++ keep p ++ keep q)\n    | CCCoincident => Ok output","| CCTwo p q => Ok (output ++ keep p)\n    | CCCoincident => Ok output","C63: both crossings of an arc")
m(OF,"circleIntrSeg","let! v2 := vget pline (sIndex + 1) in\n  if bulgeIsZero v1 then\n    let keep","let! v2 := vget pline sIndex in\n  if bulgeIsZero v1 then\n    let keep","C63: end of the segment")
m(OF,"offsetCircleIntersectsWithPline","(inj (vx circleCenter + r)) (inj (vy circleCenter + r)) [] in\n  mfold","(inj (vx circleCenter)) (inj (vy circleCenter + r)) [] in\n  mfold","C63: segments right of the centre are cut too")
# 290.. : open offsets (C64)
m(OF,"firstSliceLoop","let! ok := ptValid ts ipos in\n          if negb ok then Ok []\n          else\n            let! v := vget raw index in","let! v := vget raw index in","C64: the cut ending the first stretch keeps its distance")
m(OF,"firstSliceLoop","let! ok := ptValid ts (segMidpoint (updatedStart split) sliceEndVertex) in\n            if negb ok then Ok []\n            else\n              let! h := hitsOrig ts (updatedStart split) sliceEndVertex in","let! h := hitsOrig ts (updatedStart split) sliceEndVertex in","C64: the middle of the last segment of the first stretch keeps its distance")
m(OF,"firstSliceLoop","let! ipos := rget l 0 in\n          let! ok := ptValid ts ipos in\n          if negb ok then Ok []\n          else\n            let! v := vget raw index in","let! ipos := rget (rev l) 0 in\n          let! ok := ptValid ts ipos in\n          if negb ok then Ok []\n          else\n            let! v := vget raw index in","C64: the first stretch ends at the first cut")
m(OF,"firstSliceLoop","let sliceEndVertex := mkVtx ipos t0 in\n            let! ok := ptValid ts (segMidpoint (updatedStart split)","let sliceEndVertex := mkVtx (pos nv) t0 in\n            let! ok := ptValid ts (segMidpoint (updatedStart split)","C64: the first stretch ends at the cut")
m(OF,"firstSliceLoop","let firstSlice := addOrReplaceIfSamePos firstSlice (updatedStart split) in\n","","C64: the first stretch contains the vertex before the cut")
m(OF,"firstSliceLoop","addOrReplaceIfSamePos firstSlice (updatedStart split) in","addOrReplaceIfSamePos firstSlice v in","C64: the last segment of the first stretch is the cut segment")
m(OF,"dualSliceAtIntersectsForOffset","let! f := vget orig 0 in","let! f := vget raw 0 in","C64: the end circles are about the ends of the input")
m(OF,"dualSliceAtIntersectsForOffset","let! out := offsetCircleIntersectsWithPline raw offset (pos f) rawIx [] in\n","let out := [] in\n","C64: the circle about the first point cuts")
m(OF,"dualSliceAtIntersectsForOffset","let m := fold_left (fun m '(k, p) => mpushSorted k p m) circ [] in","let m := fold_left (fun m '(k, p) => mpushSorted k p m) [] [] in","C64: end circle cuts are used")
m(OF,"stitchOffsetLoop","if closedPolyline && fuzzyEqual (pos a) (pos b) realPrecision","if fuzzyEqual (pos a) (pos b) realPrecision","C64: results of an open polyline are open (a kept stretch may form a loop)")
m(OF,"stitchOffsetSlicesTogether","if closedPolyline then\n        let! a","if true then\n        let! a","C64: results of an open polyline are open")
m(OF,"parallelOffset","let! dualRawOffset := createRawOffsetPline pline (- offset) in","let! dualRawOffset := createRawOffsetPline pline offset in","C64: the dual is on the other side")
m(IS,"fillDiss","mkDP (loopIndex2 s) (ipos (lspIntr p))","mkDP (loopIndex1 s) (ipos (lspIntr p))","other loop recorded for a cut (not used by compute: no observable effect expected)")
m(IS,"fillDiss","mpush (sIndex1 (lspIntr p))\n","mpush (sIndex2 (lspIntr p))\n","C60: cuts of the first loop are on its own segments")
m(IS,"fillDiss","if (loopIndex =? loopIndex1 s)%nat","if (loopIndex =? loopIndex2 s)%nat","C60: cuts assigned to the segments of the right loop")
m(IS,"dissLoop","| None => dissLoop fuel' pline m currSlice (nextWrappingIndex index (size pline))","| None => dissLoop fuel' pline m currSlice (S index)","C60/C69: a stretch runs through the closing segment")
m(IS,"dissLoop","let! p := rget l 0 in","let p := last l (mkDP 0%nat (mkV t0 t0)) in","C60: a stretch ends at the first cut it reaches")
m(IS,"dissLoop","let! nv := vget pline (nextWrappingIndex index (size pline)) in","let! nv := vget pline (S index) in","C69: no read behind the last vertex")
m(IS,"dissLoop","let! currSlice := setLastVertex currSlice (updatedStart split) in\n","","C60: the last arc of a stretch is shortened to the cut")
m(IS,"dissLoop","let currSlice := addOrReplaceIfSamePos currSlice v in\n","","C60: a stretch contains the vertices between its cuts")
m(IS,"dissOne","let! a := vget curr (size curr - 2) in","let! a := vget curr 0 in","C66: a stretch is judged by the middle of its last segment")
m(IS,"dissOne","if (1 <? size curr)%nat then","if (2 <? size curr)%nat then","C60: stretches of one segment are kept")
m(IS,"dissOne","dissLoop (S (size pline))","dissLoop (size pline - 1)","C69: the guard never fires")
m(IS,"dissOne","(if negb (length intrsList =? 1)%nat","(if false","C60: stretches between two cuts of one segment")
m(IS,"midDissSlices","midDissSlices valid loopIndex segEnd b p rest' result","midDissSlices valid loopIndex segEnd a p rest' result","C60: stretches between cuts of one segment")
m(IS,"midDissSlices","mkPline false [a; b]","mkPline false [b; a]","C60: direction of the stretches")
m(IS,"processLoop","if (length lk =? 0)%nat then","if (length lk <=? 1)%nat then","C66: a loop meeting one other loop is cut")
m(IS,"processLoop","else if (i <? length (o_ccw o))%nat","else if (i <=? length (o_ccw o))%nat","C41/C60: classification of uncut loops")
m(IS,"processLoop","let! v0 := vget (lpoly loop) 0 in","let! v0 := vget (lpoly loop) 1 in","C60: an uncut loop is judged by its first vertex")
m(IS,"compute","let absDelta := tabs offsetDelta in","let absDelta := offsetDelta in","C41/C66: the sign of the offset does not matter")
m(IS,"slicePointsPair","if negb (length intrs =? 0)%nat || negb (length coinc =? 0)%nat then","if negb (length intrs =? 0)%nat then","C60: loops that overlap along a stretch only are cut")
m(IS,"slicePointsPair","Ok (pts ++ map (fun x => mkLSP x false) (csStarts cs)\n                   ++ map","Ok (pts ++ map","C60: cuts at the starts of overlaps")
m(IS,"createSlicePoints","let! q := query defaultNodeSize oix (m_minX index1) (m_minY index1)\n                  (m_maxX index1) (m_maxY index1) [] in","let! q := query defaultNodeSize oix (m_minX index1) (m_minY index1)\n                  (m_minX index1) (m_minY index1) [] in","C60: all overlapping loops are found")
m(IS,"pointOnOffsetValid","(seq 0 (length (ccwLoops input) + length (cwLoops input)))","(seq 0 (length (ccwLoops input)))","C66: slices tested against holes too")
m(IS,"addStitched","if tabs area <? tlit 1 10000 then Ok r","if area <? tlit 1 10000 then Ok r","C66: clockwise stitched loops kept")
m(CA,"pline_capacity","let! p := getP h a in Ok (toU32 (ccap p)).","let! p := getP h a in Ok (toU32 (size (cdata p))).","C48: capacity reported, not the count")
m(CA,"pline_vertex_count","let! p := getP h a in Ok (toU32 (size (cdata p))).","let! p := getP h a in Ok (toU32 (ccap p)).","C48: vertex count reported, not the capacity")
m(CA,"pline_delete","match a with None => Ok h | Some a => freeP h a end","match a with None => UB | Some a => freeP h a end","C49: deleting a null pointer is allowed")
m(CA,"pline_set_vertex_data","let! p := getP h a in setP h a (copyToPline p data).","let! p := getP h a in setP h a (copyToPline p (vertexes (cdata p) ++ data)).","C48: set_vertex_data replaces the vertexes")
m(CA,"list_count","let! ps := getL h l in Ok (toU32 (length ps)).","let! ps := getL h l in Ok (toU32 (length (hPlines h))).","C49: number of polylines in a list")
m(CA,"api_get_area","Ok (getArea (cdata p))","Ok (tabs (getArea (cdata p)))","C48: the C function returns the signed area")
m(CA,"api_get_winding_number","Ok (getWindingNumber (cdata p) pt)","Ok (- getWindingNumber (cdata p) pt)%Z","C48: the C function returns the winding number")
m(CA,"api_get_path_length","Ok (getPathLength (cdata p))","Ok (getArea (cdata p))","C48: the C function returns the length")
m(IS,"totalOffsetLoopsCount","(length (o_ccw o) + length (o_cw o))%nat","(length (o_ccw o))%nat","C69: the loop index has room for clockwise loops")
m(OF,"falseIntersect","(t <? t0) || (t >? t1)","(t <? t0) || (t >? t0)","C52: crossing inside a segment is not false")
m(OF,"falseIntersect","(t <? t0) || (t >? t1)","(t >? t1)","C52: crossing before the start is false")
m(OF,"offsetSegment","if bulgeIsZero v1 then offsetLine offset v1 v2 else offsetArc offset v1 v2","if bulgeIsPos v1 then offsetArc offset v1 v2 else offsetLine offset v1 v2","C34: clockwise arcs offset as arcs")
m(OF,"mkOrigTests","(pointValidForOffset defaultNodeSize orig offset ix)","(fun _ => Ok true)","C36: slice points keep their distance")
m(CO,"plineOpposingDirections","negb (Bool.eqb (ciPline1IsCW ci) (ciPline2IsCW ci))","Bool.eqb (ciPline1IsCW ci) (ciPline2IsCW ci)","C45: slices of the second polyline turned when needed")
m(CO,"stitchOrderedSlices","(seq 0 (length slices))\n            (repeat","(seq 1 (length slices - 1))\n            (repeat","C31: every slice is used")
m(IN,"pairMem","(x =? a)%nat && (y =? b)%nat","(x =? a)%nat || (y =? b)%nat","C25: no pair of segments is skipped")
m(PL,"distToArcCenterLessThanRadius","dist2 <? radius arc * radius arc","dist2 <? radius arc","C24: inside test of arcs")
m(PL,"addAABB","add ix (inj (xMin bb)) (inj (yMin bb)) (inj (xMax bb)) (inj (yMax bb)).","add ix (inj (xMin bb)) (inj (yMin bb)) (inj (yMax bb)) (inj (xMax bb)).","C22: index boxes enclose the segments")
m(PL,"popBack","| _ :: t => Ok (mkPline (isClosed pl) (rev t))","| _ :: t => Ok (mkPline (isClosed pl) t)","C33: removing the last vertex keeps the order")
m(PS,"tminmax","if b <? a then (b, a) else (a, b)","if a <? b then (b, a) else (a, b)","C17: interval of a segment")
m(PS,"bulgeIsNeg","bool := bulge v <? t0.","bool := t0 <? bulge v.","C12: sign of the bulge")
m(MU,"midpoint","((vx p0 + vx p1) / t2) ((vy p0 + vy p1) / t2)","((vx p0 + vx p1) / t2) ((vy p0 - vy p1) / t2)","C16: midpoint of a line segment")
m(MU,"pointFromParametric","vadd p0 (vscale t (vsub p1 p0))","vadd p1 (vscale t (vsub p1 p0))","C18: point of a line at a parameter")
m(MU,"angle","tatan2 (vy p1 - vy p0) (vx p1 - vx p0)","tatan2 (vy p0 - vy p1) (vx p1 - vx p0)","C12: angle of a direction")
m(MU,"isLeftOrEqual","leftExpr p0 p1 point >=? t0","leftExpr p0 p1 point >? t0","C24: points on a chord of a clockwise arc")
m(MU,"distSquared","let d := vsub p1 p0 in dot d d","let d := vsub p1 p0 in vx d * vx d","C14: distances")
m(SI,"visitBoundingBoxes","m_numLevels ix - 1) st [].\nEnd Visit.","m_numLevels ix) st [].\nEnd Visit.","C03: boxes of all levels visited")
m(SI,"addAll","add ix (bMinX b) (bMinY b) (bMaxX b) (bMaxY b)","add ix (bMinX b) (bMinY b) (bMinX b) (bMaxY b)","C01: query finds overlapping boxes")
m(SI,"computeNumLevels","computeNumLevels_loop (numItems + 2) NodeSize numItems 1","computeNumLevels_loop (numItems + 2) NodeSize numItems 0","C02: level array large enough")
m(SI,"computeNumLevels_loop","if negb (n =? 1) then computeNumLevels_loop fuel' NodeSize n levelBoundsSize","if negb (n <=? 2) then computeNumLevels_loop fuel' NodeSize n levelBoundsSize","C02: level array large enough")
m(SI,"shr2","p / 4","p / 2","C01: node of a position")

m(PL,"scalePolyline","(bulge v)) (vertexes pl)).\n\n(** polyline.hpp:75-80","(scaleFactor * bulge v)) (vertexes pl)).\n\n(** polyline.hpp:75-80","C70: scaling leaves the bulges")
m(PL,"translatePolyline","(vy offset + py v) (bulge v)","(vx offset + py v) (bulge v)","C70: translation adds the offset to both coordinates")
