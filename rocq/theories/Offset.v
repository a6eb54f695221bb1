(** * Model of /repo/include/cavc/polylineoffset.hpp *)
From Coq Require Import ZArith List Bool Arith.
From Verif Require Import Base Num MathUtils PlineSegment SpatialIndex Polyline Intersects Combine.
Import ListNotations.

Section Offset.
Context {RO : RealOps} {SL : StdLib}.
Local Open Scope t_scope.

(** struct PlineOffsetSegment, polylineoffset.hpp:14-19 *)
Record offsetSeg := mkOS { osV1 : vertex; osV2 : vertex; origV2Pos : vec; collapsedArc : bool }.

(** lambda lineVisitor, polylineoffset.hpp:30-41 *)
Definition offsetLine (offset : T) (v1 v2 : vertex) : offsetSeg :=
  let edge := vsub (pos v2) (pos v1) in
  let offsetV := vscale offset (unitPerp edge) in
  mkOS (mkVtx (vadd (pos v1) offsetV) (bulge v1))
       (mkVtx (vadd (pos v2) offsetV) (bulge v2)) (pos v2) false.

(** lambda arcVisitor, polylineoffset.hpp:43-68 *)
Definition offsetArc (offset : T) (v1 v2 : vertex) : offsetSeg :=
  let arc := arcRadiusAndCenter v1 v2 in
  let offs := if bulgeIsNeg v1 then offset else - offset in
  let radiusAfterOffset := radius arc + offs in
  let v1ToCenter := normalize (vsub (pos v1) (center arc)) in
  let v2ToCenter := normalize (vsub (pos v2) (center arc)) in
  let p1 := vadd (vscale offs v1ToCenter) (pos v1) in
  let p2 := vadd (vscale offs v2ToCenter) (pos v2) in
  if radiusAfterOffset <? realThreshold
  then mkOS (mkVtx p1 t0) (mkVtx p2 (bulge v2)) (pos v2) true
  else mkOS (mkVtx p1 (bulge v1)) (mkVtx p2 (bulge v2)) (pos v2) false.

(** lambda offsetVisitor, polylineoffset.hpp:70-76 *)
Definition offsetSegment (offset : T) (v1 v2 : vertex) : offsetSeg :=
  if bulgeIsZero v1 then offsetLine offset v1 v2 else offsetArc offset v1 v2.

(** polylineoffset.hpp:22-87 (called with at least 2 vertexes, line 486) *)
Definition createUntrimmedOffsetSegments (pline : polyline) (offset : T)
  : res (list offsetSeg) :=
  let! segs := mmap (fun i =>
      let! v1 := vget pline (i - 1) in
      let! v2 := vget pline i in
      Ok (offsetSegment offset v1 v2)) (seq 1 (size pline - 1)) in
  if isClosed pline then
    let! v1 := lastVertex pline in
    let! v2 := vget pline 0 in
    Ok (segs ++ [offsetSegment offset v1 v2])
  else Ok segs.

(** polylineoffset.hpp:89 *)
Definition falseIntersect (t : T) : bool := (t <? t0) || (t >? t1).

(** polylineoffset.hpp:93-105 *)
Definition bulgeForConnection (arcCenter sp ep : vec) (isCCW : bool) : T :=
  let a1 := angle arcCenter sp in
  let a2 := angle arcCenter ep in
  let absSweepAngle := tabs (deltaAngle a1 a2) in
  let absBulge := ttan (absSweepAngle / t4) in
  if isCCW then absBulge else - absBulge.

(** lambdas connectUsingArc, polylineoffset.hpp:167-174, 238-245, 311-318 (identical);
    the lambda of lineToLineJoin (116-123) has an end vertex with bulge 0 instead of u1 *)
Definition connectUsingArc (ccw : bool) (s1 s2 : offsetSeg) (endV : vertex)
    (result : polyline) : polyline :=
  let sp := pos (osV2 s1) in
  let ep := pos (osV1 s2) in
  let b := bulgeForConnection (origV2Pos s1) sp ep ccw in
  addOrReplaceIfSamePos (addOrReplaceIfSamePos result (mkVtx sp b)) endV.

(** polylineoffset.hpp:107-154 *)
Definition lineToLineJoin (s1 s2 : offsetSeg) (ccw : bool) (result : polyline) : polyline :=
  let v1 := osV1 s1 in let v2 := osV2 s1 in
  let u1 := osV1 s2 in let u2 := osV2 s2 in
  let byArc := connectUsingArc ccw s1 s2 (mkVtx (pos u1) t0) result in
  let byLine :=
    addOrReplaceIfSamePos (addOrReplaceIfSamePos result (mkVtx (pos v2) t0)) u1 in
  if collapsedArc s1 || collapsedArc s2 then byArc
  else
    match intrLineSeg2LineSeg2 (pos v1) (pos v2) (pos u1) (pos u2) with
    | LLNone => byLine
    | LLTrue p => addOrReplaceIfSamePos result (mkVtx p t0)
    | LLCoincident _ _ => addOrReplaceIfSamePos result (mkVtx (pos v2) t0)
    | LLFalse r0 r1 _ =>
        if (r0 >? t1) && falseIntersect r1 then byArc else byLine
    end.

(** vertex trimmed at an intersect, keeping the remaining sweep of u1 -> u2,
    polylineoffset.hpp:184-193 and 343-353 *)
Definition trimmedArcVertex (c : vec) (u1 u2 : vertex) (intersect : vec) : vertex :=
  let a := angle c intersect in
  let arcEndAngle := angle c (pos u2) in
  let theta := deltaAngle a arcEndAngle in
  if Bool.eqb (theta >? t0) (bulgeIsPos u1)
  then mkVtx intersect (ttan (theta / t4))
  else mkVtx intersect (bulge u1).

(** polylineoffset.hpp:156-225 *)
Definition lineToArcJoin (s1 s2 : offsetSeg) (ccw : bool) (result : polyline) : polyline :=
  let v1 := osV1 s1 in let v2 := osV2 s1 in
  let u1 := osV1 s2 in let u2 := osV2 s2 in
  let byArc := connectUsingArc ccw s1 s2 u1 result in
  let arc := arcRadiusAndCenter u1 u2 in
  let processIntersect := fun (t : T) (intersect : vec) =>
    let trueSegIntersect := negb (falseIntersect t) in
    let trueArcIntersect :=
      pointWithinArcSweepAngle (center arc) (pos u1) (pos u2) (bulge u1) intersect in
    if trueSegIntersect && trueArcIntersect then
      addOrReplaceIfSamePos result (trimmedArcVertex (center arc) u1 u2 intersect)
    else if (t >? t1) && negb trueArcIntersect then byArc
    else if collapsedArc s1 then byArc
    else addOrReplaceIfSamePos (addOrReplaceIfSamePos result (mkVtx (pos v2) t0)) u1 in
  match intrLineSeg2Circle2 (pos v1) (pos v2) (radius arc) (center arc) with
  | LC0 => byArc
  | LC1 r0 => processIntersect r0 (pointFromParametric (pos v1) (pos v2) r0)
  | LC2 r0 r1 =>
      let i1 := pointFromParametric (pos v1) (pos v2) r0 in
      let dist1 := distSquared i1 (origV2Pos s1) in
      let i2 := pointFromParametric (pos v1) (pos v2) r1 in
      let dist2 := distSquared i2 (origV2Pos s1) in
      if dist1 <? dist2 then processIntersect r0 i1 else processIntersect r1 i2
  end.

(** trimming the previously added arc vertex, polylineoffset.hpp:254-268 and 327-340 *)
Definition trimPrev (c : vec) (v2 : vertex) (intersect : vec) (result : polyline)
  : res polyline :=
  let! prevVertex := lastVertex result in
  if negb (bulgeIsZero prevVertex) && negb (fuzzyEqual (pos prevVertex) (pos v2) realThreshold)
  then
    let a := angle c intersect in
    let prevArc := arcRadiusAndCenter prevVertex v2 in
    let prevArcStartAngle := angle (center prevArc) (pos prevVertex) in
    let updatedPrevTheta := deltaAngle prevArcStartAngle a in
    if Bool.eqb (updatedPrevTheta >? t0) (bulgeIsPos prevVertex)
    then setLastVertex result (setBulge prevVertex (ttan (updatedPrevTheta / t4)))
    else Ok result
  else Ok result.

(** polylineoffset.hpp:227-296 *)
Definition arcToLineJoin (s1 s2 : offsetSeg) (ccw : bool) (result : polyline) : res polyline :=
  let v1 := osV1 s1 in let v2 := osV2 s1 in
  let u1 := osV1 s2 in let u2 := osV2 s2 in
  let byArc := connectUsingArc ccw s1 s2 u1 result in
  let arc := arcRadiusAndCenter v1 v2 in
  let processIntersect := fun (t : T) (intersect : vec) =>
    let trueSegIntersect := negb (falseIntersect t) in
    let trueArcIntersect :=
      pointWithinArcSweepAngle (center arc) (pos v1) (pos v2) (bulge v1) intersect in
    if trueSegIntersect && trueArcIntersect then
      let! result := trimPrev (center arc) v2 intersect result in
      Ok (addOrReplaceIfSamePos result (mkVtx intersect t0))
    else Ok byArc in
  match intrLineSeg2Circle2 (pos u1) (pos u2) (radius arc) (center arc) with
  | LC0 => Ok byArc
  | LC1 r0 => processIntersect r0 (pointFromParametric (pos u1) (pos u2) r0)
  | LC2 r0 r1 =>
      let origPoint := if collapsedArc s2 then pos u1 else origV2Pos s1 in
      let i1 := pointFromParametric (pos u1) (pos u2) r0 in
      let dist1 := distSquared i1 origPoint in
      let i2 := pointFromParametric (pos u1) (pos u2) r1 in
      let dist2 := distSquared i2 origPoint in
      if dist1 <? dist2 then processIntersect r0 i1 else processIntersect r1 i2
  end.

(** polylineoffset.hpp:298-382 *)
Definition arcToArcJoin (s1 s2 : offsetSeg) (ccw : bool) (result : polyline) : res polyline :=
  let v1 := osV1 s1 in let v2 := osV2 s1 in
  let u1 := osV1 s2 in let u2 := osV2 s2 in
  let arc1 := arcRadiusAndCenter v1 v2 in
  let arc2 := arcRadiusAndCenter u1 u2 in
  let byArc := connectUsingArc ccw s1 s2 u1 result in
  let processIntersect := fun (intersect : vec) =>
    let trueArcIntersect1 :=
      pointWithinArcSweepAngle (center arc1) (pos v1) (pos v2) (bulge v1) intersect in
    let trueArcIntersect2 :=
      pointWithinArcSweepAngle (center arc2) (pos u1) (pos u2) (bulge u1) intersect in
    if trueArcIntersect1 && trueArcIntersect2 then
      let! result := trimPrev (center arc1) v2 intersect result in
      Ok (addOrReplaceIfSamePos result (trimmedArcVertex (center arc2) u1 u2 intersect))
    else Ok byArc in
  match intrCircle2Circle2 (radius arc1) (center arc1) (radius arc2) (center arc2) with
  | CCNone => Ok byArc
  | CCOne p => processIntersect p
  | CCTwo p q =>
      let dist1 := distSquared p (origV2Pos s1) in
      let dist2 := distSquared q (origV2Pos s1) in
      if dist1 <? dist2 then processIntersect p else processIntersect q
  | CCCoincident => Ok (addOrReplaceIfSamePos result u1)
  end.

(** lambda joinResultVisitor, polylineoffset.hpp:506-520 *)
Definition joinSegs (ccw : bool) (s1 s2 : offsetSeg) (result : polyline) : res polyline :=
  let s1IsLine := bulgeIsZero (osV1 s1) in
  let s2IsLine := bulgeIsZero (osV1 s2) in
  if s1IsLine && s2IsLine then Ok (lineToLineJoin s1 s2 ccw result)
  else if s1IsLine then Ok (lineToArcJoin s1 s2 ccw result)
  else if s2IsLine then arcToLineJoin s1 s2 ccw result
  else arcToArcJoin s1 s2 ccw result.

(** loop over consecutive segments, polylineoffset.hpp:530 and 534-538; returns the size
    of the result after the first join too (line 532) *)
Fixpoint joinAll (ccw : bool) (prev : offsetSeg) (rest : list offsetSeg) (result : polyline)
  : res polyline :=
  match rest with
  | [] => Ok result
  | s :: rest' =>
      let! result := joinSegs ccw prev s result in
      joinAll ccw s rest' result
  end.

(** closing join of a closed polyline, polylineoffset.hpp:540-587 *)
Definition closeRaw (ccw : bool) (firstVertexReplaced : bool) (sLast sFirst : offsetSeg)
    (result : polyline) : res polyline :=
  let! lv := lastVertex result in
  let! closing := joinSegs ccw sLast sFirst (mkPline false [lv]) in
  let! c0 := vget closing 0 in
  let! result := setLastVertex result c0 in
  let! result := popBack (mkPline (isClosed result)
                            (vertexes result ++ tl (vertexes closing))) in
  let! result :=
    (if negb firstVertexReplaced then
       let! cl := lastVertex closing in
       let updatedFirstPos := pos cl in
       let! r0 := vget result 0 in
       if bulgeIsZero r0 then
         let! vs := rset (vertexes result) 0 (setPos r0 updatedFirstPos) in
         Ok (mkPline (isClosed result) vs)
       else if (1 <? size result)%nat then
         let! r1 := vget result 1 in
         let arc := arcRadiusAndCenter r0 r1 in
         let a1 := angle (center arc) updatedFirstPos in
         let a2 := angle (center arc) (pos r1) in
         let updatedTheta := deltaAngle a1 a2 in
         let nv :=
           if ((updatedTheta <? t0) && bulgeIsPos r0) || ((updatedTheta >? t0) && bulgeIsNeg r0)
           then setPos r0 updatedFirstPos
           else mkVtx updatedFirstPos (ttan (updatedTheta / t4)) in
         let! vs := rset (vertexes result) 0 nv in
         Ok (mkPline (isClosed result) vs)
       else Ok result
     else Ok result) in
  if (1 <? size result)%nat then
    let! r0 := vget result 0 in
    let! r1 := vget result 1 in
    if fuzzyEqual (pos r0) (pos r1) realPrecision
    then Ok (mkPline (isClosed result) (tl (vertexes result)))
    else Ok result
  else Ok result.

(** polylineoffset.hpp:482-599 *)
Definition createRawOffsetPline (pline : polyline) (offset : T) : res polyline :=
  if (size pline <? 2)%nat then Ok emptyPline
  else
    let! rawOffsets := createUntrimmedOffsetSegments pline offset in
    match rawOffsets with
    | [] => Ok emptyPline
    | seg0 :: rest =>
        if (length rawOffsets =? 1)%nat && collapsedArc seg0 then Ok emptyPline
        else
          let ccw := offset <? t0 in
          let result := mkPline (isClosed pline) [osV1 seg0] in
          let! (result, replaced) :=
            (match rest with
             | [] => Ok (result, true)
             | seg1 :: rest' =>
                 let! result := joinSegs ccw seg0 seg1 result in
                 let replaced := (size result =? 1)%nat in
                 let! result := joinAll ccw seg1 rest' result in
                 Ok (result, replaced)
             end) in
          let! result :=
            (if isClosed pline && (1 <? size result)%nat
             then closeRaw ccw replaced (last rest seg0) seg0 result
             else Ok (addOrReplaceIfSamePos result (osV2 (last rest seg0)))) in
          Ok (if (size result =? 1)%nat then mkPline (isClosed result) [] else result)
    end.

(** one candidate segment of offsetCircleIntersectsWithPline, polylineoffset.hpp:409-454.
    Note the unwrapped [pline[sIndex + 1]] of line 411. *)
Definition circleIntrSeg (pline : polyline) (circleRadius : T) (circleCenter : vec)
    (output : list (nat * vec)) (sIndex : nat) : res (list (nat * vec)) :=
  let! v1 := vget pline sIndex in
  let! v2 := vget pline (sIndex + 1) in
  if bulgeIsZero v1 then
    let keep t := if negb (falseIntersect t) && (tabs t >? realPrecision)
                  then [(sIndex, pointFromParametric (pos v1) (pos v2) t)] else [] in
    match intrLineSeg2Circle2 (pos v1) (pos v2) circleRadius circleCenter with
    | LC0 => Ok output
    | LC1 r0 => Ok (output ++ keep r0)
    | LC2 r0 r1 => Ok (output ++ keep r0 ++ keep r1)
    end
  else
    let arc := arcRadiusAndCenter v1 v2 in
    let keep p := if negb (fuzzyEqual (pos v1) p realPrecision) &&
                     pointWithinArcSweepAngle (center arc) (pos v1) (pos v2) (bulge v1) p
                  then [(sIndex, p)] else [] in
    match intrCircle2Circle2 (radius arc) (center arc) circleRadius circleCenter with
    | CCNone => Ok output
    | CCOne p => Ok (output ++ keep p)
    | CCTwo p q => Ok (output ++ keep p ++ keep q)
    | CCCoincident => Ok output
    end.

(** polylineoffset.hpp:384-455 *)
Definition offsetCircleIntersectsWithPline (pline : polyline) (offset : T) (circleCenter : vec)
    (ix : index) (output : list (nat * vec)) : res (list (nat * vec)) :=
  let r := tabs offset in
  let! q := query defaultNodeSize ix (inj (vx circleCenter - r)) (inj (vy circleCenter - r))
              (inj (vx circleCenter + r)) (inj (vy circleCenter + r)) [] in
  mfold (circleIntrSeg pline r circleCenter) q output.

(** polylineoffset.hpp:458-479 with the default offsetTol *)
Definition pointValidForOffset (NodeSize : nat) (pline : polyline) (offset : T) (ix : index)
    (point : vec) : res bool :=
  let absOffset := tabs offset - offsetThreshold in
  let minDist := absOffset * absOffset in
  let! r := visitQuery NodeSize ix
    (inj (vx point - absOffset)) (inj (vy point - absOffset))
    (inj (vx point + absOffset)) (inj (vy point + absOffset))
    (fun (_ : res bool) i =>
       let r := (let! v1 := vget pline i in
                 let! v2 := vget pline (nextWrappingIndex i (size pline)) in
                 let cp := closestPointOnSeg v1 v2 point in
                 Ok (distSquared cp point >? minDist)) in
       (match r with Ok b => b | _ => false end, r))
    (Ok true) in
  r.

(** lambda intersectsOrigPline, polylineoffset.hpp:664-680 and 908-924 *)
Definition intersectsOrigPline (NodeSize : nat) (orig : polyline) (ix : index)
    (v1 v2 : vertex) : res bool :=
  let bb := createFastApproxBoundingBox v1 v2 in
  let! r := visitQuery NodeSize ix
    (inj (xMin bb)) (inj (yMin bb)) (inj (xMax bb)) (inj (yMax bb))
    (fun (_ : res bool) i =>
       let r := (let! u1 := vget orig i in
                 let! u2 := vget orig (nextWrappingIndex i (size orig)) in
                 Ok (match intrPlineSegs v1 v2 u1 u2 with NoIntersect => false | _ => true end)) in
       (match r with Ok b => negb b | _ => false end, r))
    (Ok false) in
  r.

(** struct OpenPolylineSlice, polylineoffset.hpp:602-608;
    [None] = numeric_limits<size_t>::max() *)
Record openSlice := mkOSl { intrStartIndex : option nat; slPline : polyline }.

Definition vlookup := list (nat * list vec).

(** sorting each list by distance from the segment start, polylineoffset.hpp:656-662,
    900-906 *)
Definition sortVLookup (pline : polyline) (m : vlookup) : res vlookup :=
  mmap (fun '(k, l) =>
          let! v := vget pline k in
          Ok (k, std_sort (fun a b => distSquared a (pos v) <? distSquared b (pos v)) l)) m.

(** The geometric validity tests with their fixed arguments. *)
Record tests := mkTests { ptValid : vec -> res bool; hitsOrig : vertex -> vertex -> res bool }.

(** slices between consecutive intersects on one segment, polylineoffset.hpp:697-735 and
    1000-1038 *)
Fixpoint midOffsetSlices (ts : tests) (sIndex : nat) (endVertex prevVertex : vertex)
    (rest : list vec) (result : list openSlice) : res (list openSlice) :=
  match rest with
  | [] => Ok result
  | p :: rest' =>
      let split := splitAtPoint prevVertex endVertex p in
      let a := updatedStart split in
      let b := splitVertex split in
      let! keep :=
        (if fuzzyEqual (pos a) (pos b) realPrecision then Ok false
         else
           let! ok1 := ptValid ts (pos a) in
           if negb ok1 then Ok false
           else
             let! ok2 := ptValid ts (pos b) in
             if negb ok2 then Ok false
             else
               let! ok3 := ptValid ts (segMidpoint a b) in
               if negb ok3 then Ok false
               else let! h := hitsOrig ts a b in Ok (negb h)) in
      let result := if keep then result ++ [mkOSl (Some sIndex) (mkPline false [a; b])]
                    else result in
      midOffsetSlices ts sIndex endVertex b rest' result
  end.

(** while loops of polylineoffset.hpp:754-810 ([wraps] = true) and 1057-1123 ([wraps] =
    originalPline.isClosed()).  Result: (isValidPline, currSlice).  Fuel as in
    [sliceLoop]: running out fires the CAVC_ASSERT of lines 756 / 1059. *)
Fixpoint offsetSliceLoop (fuel : nat) (ts : tests) (raw : polyline) (wraps : bool) (m : vlookup)
    (currSlice : polyline) (index : nat) : res (bool * polyline) :=
  match fuel with
  | 0%nat => Fuel
  | S fuel' =>
      let! v := vget raw index in
      let! ok := ptValid ts (pos v) in
      if negb ok then Ok (false, currSlice)
      else
        let! lv := lastVertex currSlice in
        let! h := hitsOrig ts lv v in
        if h then Ok (false, currSlice)
        else
          let currSlice := addOrReplaceIfSamePos currSlice v in
          match mfind index m with
          | Some l =>
              let! ipos := rget l 0 in
              let! ok := ptValid ts ipos in
              if negb ok then Ok (false, currSlice)
              else
                let! nv := vget raw (nextWrappingIndex index (size raw)) in
                let! lv := lastVertex currSlice in
                let split := splitAtPoint lv nv ipos in
                let sliceEndVertex := mkVtx ipos t0 in
                let! ok := ptValid ts (segMidpoint (updatedStart split) sliceEndVertex) in
                if negb ok then Ok (false, currSlice)
                else
                  let! currSlice := setLastVertex currSlice (updatedStart split) in
                  Ok (true, addOrReplaceIfSamePos currSlice sliceEndVertex)
          | None =>
              if (S index =? size raw)%nat then
                if wraps then offsetSliceLoop fuel' ts raw wraps m currSlice 0
                else Ok (true, currSlice)
              else offsetSliceLoop fuel' ts raw wraps m currSlice (S index)
          end
  end.

(** loop bodies, polylineoffset.hpp:682-823 ([shortCheck] = true) and 985-1128
    ([shortCheck] = false) *)
Definition offsetSliceOne (ts : tests) (raw : polyline) (wraps shortCheck : bool) (m : vlookup)
    (result : list openSlice) (kv : nat * list vec) : res (list openSlice) :=
  let '(sIndex, siList) := kv in
  let! startVertex := vget raw sIndex in
  let nextIndex := nextWrappingIndex sIndex (size raw) in
  let! endVertex := vget raw nextIndex in
  match siList with
  | [] => UB
  | p0 :: rest =>
      let! result :=
        (if negb (length siList =? 1)%nat
         then midOffsetSlices ts sIndex endVertex
                (splitVertex (splitAtPoint startVertex endVertex p0)) rest result
         else Ok result) in
      let lastPt := last rest p0 in
      let! ok := ptValid ts lastPt in
      if negb ok then Ok result
      else
        let split := splitAtPoint startVertex endVertex lastPt in
        let! (valid, currSlice) :=
          offsetSliceLoop (S (size raw)) ts raw wraps m
            (mkPline false [splitVertex split]) nextIndex in
        let valid := valid && (1 <? size currSlice)%nat in
        let! valid :=
          (if valid && shortCheck then
             let! a := vget currSlice 0 in
             let! b := lastVertex currSlice in
             Ok (if fuzzyEqual (pos a) (pos b) realThreshold
                 then getPathLength currSlice >? tlit 1 100 else true)
           else Ok valid) in
        Ok (if valid then result ++ [mkOSl (Some sIndex) currSlice] else result)
  end.

Definition mkOrigTests (orig : polyline) (offset : T) (ix : index) : tests :=
  mkTests (pointValidForOffset defaultNodeSize orig offset ix)
          (intersectsOrigPline defaultNodeSize orig ix).

(** raw offset copied as one open slice closed onto its first vertex,
    polylineoffset.hpp:636-639 and 890-895 *)
Definition wholeRaw (raw : polyline) (closeIt : bool) : res (list openSlice) :=
  let! r0 := vget raw 0 in
  Ok [mkOSl None (mkPline false
        (vertexes raw ++ (if closeIt then [setBulge r0 t0] else [])))].

(** polylineoffset.hpp:611-826 *)
Definition slicesFromRawOffset (orig raw : polyline) (offset : T) : res (list openSlice) :=
  if (size raw <? 2)%nat then Ok []
  else
    let! origIx := createApproxSpatialIndex orig in
    let! rawIx := createApproxSpatialIndex raw in
    let! selfIntrs := allSelfIntersects defaultNodeSize raw [] rawIx in
    let ts := mkOrigTests orig offset origIx in
    if (length selfIntrs =? 0)%nat then
      let! r0 := vget raw 0 in
      let! ok := ptValid ts (pos r0) in
      if negb ok then Ok [] else wholeRaw raw true
    else
      let m := fold_left (fun m si => mpush (sIndex2 si) (ipos si)
                                        (mpush (sIndex1 si) (ipos si) m)) selfIntrs [] in
      let! m := sortVLookup raw m in
      mfold (offsetSliceOne ts raw true true m) (map_order m) [].

(** std::map insertion (sorted by key), [lookup[k].push_back(v)] *)
Fixpoint mpushSorted {V} (k : nat) (v : V) (m : list (nat * list V)) : list (nat * list V) :=
  match m with
  | [] => [(k, [v])]
  | (k', vs) :: m' =>
      if (k =? k')%nat then (k', vs ++ [v]) :: m'
      else if (k <? k')%nat then (k, [v]) :: m
      else (k', vs) :: mpushSorted k v m'
  end.

(** while loop building the first slice of an open polyline, polylineoffset.hpp:933-982 *)
Fixpoint firstSliceLoop (fuel : nat) (ts : tests) (raw : polyline) (m : vlookup)
    (firstSlice : polyline) (index : nat) : res (list openSlice) :=
  match fuel with
  | 0%nat => Fuel
  | S fuel' =>
      match mfind index m with
      | None =>
          let! v := vget raw index in
          let! ok := ptValid ts (pos v) in
          if negb ok then Ok []
          else
            let! h := (if negb (index =? 0)%nat
                       then let! lv := lastVertex firstSlice in hitsOrig ts lv v
                       else Ok false) in
            if h then Ok []
            else firstSliceLoop fuel' ts raw m (addOrReplaceIfSamePos firstSlice v) (S index)
      | Some l =>
          let! ipos := rget l 0 in
          let! ok := ptValid ts ipos in
          if negb ok then Ok []
          else
            let! v := vget raw index in
            let! nv := vget raw (index + 1) in
            let split := splitAtPoint v nv ipos in
            let sliceEndVertex := mkVtx ipos t0 in
            let! ok := ptValid ts (segMidpoint (updatedStart split) sliceEndVertex) in
            if negb ok then Ok []
            else
              let! h := hitsOrig ts (updatedStart split) sliceEndVertex in
              if h then Ok []
              else
                let firstSlice := addOrReplaceIfSamePos firstSlice (updatedStart split) in
                Ok [mkOSl (Some 0%nat) (addOrReplaceIfSamePos firstSlice sliceEndVertex)]
      end
  end.

(** polylineoffset.hpp:829-1131 *)
Definition dualSliceAtIntersectsForOffset (orig raw dual : polyline) (offset : T)
  : res (list openSlice) :=
  if (size raw <? 2)%nat then Ok []
  else
    let! origIx := createApproxSpatialIndex orig in
    let! rawIx := createApproxSpatialIndex raw in
    let! selfIntrs := allSelfIntersects defaultNodeSize raw [] rawIx in
    let! (dualIntrs, dualCoinc) := findIntersects defaultNodeSize raw dual rawIx [] [] in
    let! circ :=
      (if negb (isClosed orig) then
         let! f := vget orig 0 in
         let! l := lastVertex orig in
         let! out := offsetCircleIntersectsWithPline raw offset (pos f) rawIx [] in
         offsetCircleIntersectsWithPline raw offset (pos l) rawIx out
       else Ok []) in
    let m := fold_left (fun m '(k, p) => mpushSorted k p m) circ [] in
    let m := fold_left (fun m si => mpushSorted (sIndex2 si) (ipos si)
                                      (mpushSorted (sIndex1 si) (ipos si) m)) selfIntrs m in
    let m := fold_left (fun m si => mpushSorted (sIndex1 si) (ipos si) m) dualIntrs m in
    let m := fold_left (fun m ci => mpushSorted (cIndex1 ci) (cpoint2 ci)
                                      (mpushSorted (cIndex1 ci) (cpoint1 ci) m)) dualCoinc m in
    let ts := mkOrigTests orig offset origIx in
    if (length m =? 0)%nat then
      let! r0 := vget raw 0 in
      let! ok := ptValid ts (pos r0) in
      if negb ok then Ok [] else wholeRaw raw (isClosed orig)
    else
      let! m := sortVLookup raw m in
      let! first :=
        (if negb (isClosed orig)
         then firstSliceLoop (S (size raw)) ts raw m emptyPline 0 else Ok []) in
      mfold (offsetSliceOne ts raw (isClosed orig) false m) m first.

(** lambda indexDistAndEqualInitial, polylineoffset.hpp:1202-1216.  Simplification: the
    wrapping distance uses natural subtraction (recorded indices are at most origMaxIndex,
    so size_t arithmetic does not wrap); the SIZE_MAX marker only occurs when there is a
    single slice, which returns before this point. *)
Definition indexDist (origMaxIndex : nat) (curr other : option nat) : nat :=
  match curr, other with
  | Some c, Some o => if (c <=? o)%nat then (o - c)%nat else (origMaxIndex - c + o)%nat
  | _, _ => 0%nat
  end.

(** comparator of polylineoffset.hpp:1218-1229 *)
Definition stitchCmp (slices : list openSlice) (origMaxIndex : nat) (currStart : option nat)
    (initial : vec) (i1 i2 : nat) : bool :=
  let d i :=
    match nth_error slices i with
    | Some s => (indexDist origMaxIndex currStart (intrStartIndex s),
                 fuzzyEqual (pos (last (vertexes (slPline s)) vdflt)) initial realPrecision)
    | None => (0%nat, false)
    end in
  let '(d1, e1) := d i1 in
  let '(d2, e2) := d i2 in
  if (d1 =? d2)%nat then negb e1 && e2 else (d1 <? d2)%nat.

(** while loop, polylineoffset.hpp:1182-1248.  Fuel: running out fires the CAVC_ASSERT of
    line 1184. *)
Fixpoint stitchOffsetLoop (fuel : nat) (slices : list openSlice) (closedPolyline : bool)
    (origMaxIndex : nat) (joinThreshold : T) (ix : index) (initial : vec)
    (visited : list bool) (result : list polyline) (currPline : list vertex) (currIndex : nat)
  : res (list bool * list polyline) :=
  match fuel with
  | 0%nat => Fuel
  | S fuel' =>
      let! s := rget slices currIndex in
      let! endV := lastVertex (slPline s) in
      let currPline := currPline ++ vertexes (slPline s) in
      let! q := query defaultNodeSize ix
                  (inj (px endV - joinThreshold)) (inj (py endV - joinThreshold))
                  (inj (px endV + joinThreshold)) (inj (py endV + joinThreshold)) [] in
      let! q := removeIf (rget visited) q in
      match std_sort (stitchCmp slices origMaxIndex (intrStartIndex s) initial) q with
      | [] =>
          if (1 <? length currPline)%nat then
            let! a := rget currPline 0 in
            let! b := lastVertex (mkPline false currPline) in
            if closedPolyline && fuzzyEqual (pos a) (pos b) realPrecision
            then Ok (visited, result ++ [mkPline true (removelast currPline)])
            else Ok (visited, result ++ [mkPline false currPline])
          else Ok (visited, result)
      | nxt :: _ =>
          let! visited := rset visited nxt true in
          stitchOffsetLoop fuel' slices closedPolyline origMaxIndex joinThreshold ix initial
            visited result (removelast currPline) nxt
      end
  end.

(** body of the loop over all slices, polylineoffset.hpp:1170-1249 *)
Definition stitchOffsetFrom (slices : list openSlice) (closedPolyline : bool)
    (origMaxIndex : nat) (joinThreshold : T) (ix : index)
    (st : list bool * list polyline) (i : nat) : res (list bool * list polyline) :=
  let '(visited, result) := st in
  let! vis := rget visited i in
  if vis then Ok st
  else
    let! visited := rset visited i true in
    let! s := rget slices i in
    let! v0 := vget (slPline s) 0 in
    stitchOffsetLoop (S (length slices)) slices closedPolyline origMaxIndex joinThreshold ix
      (pos v0) visited result [] i.

(** polylineoffset.hpp:1134-1252 *)
Definition stitchOffsetSlicesTogether (slices : list openSlice) (closedPolyline : bool)
    (origMaxIndex : nat) (joinThreshold : T) : res (list polyline) :=
  match slices with
  | [] => Ok []
  | [s] =>
      if closedPolyline then
        let! a := vget (slPline s) 0 in
        let! b := lastVertex (slPline s) in
        if fuzzyEqual (pos a) (pos b) joinThreshold
        then let! p := popBack (slPline s) in Ok [setClosed p true]
        else Ok [slPline s]
      else Ok [slPline s]
  | _ =>
      let! ix := stitchIndex (map slPline slices) joinThreshold in
      let! (_, result) :=
        mfold (stitchOffsetFrom slices closedPolyline origMaxIndex joinThreshold ix)
          (seq 0 (length slices)) (repeat false (length slices), []) in
      Ok result
  end.

(** polylineoffset.hpp:1256-1273; [size() - 1] of an empty raw offset wraps to SIZE_MAX in
    the code and is 0 here: unused, there are no slices then *)
Definition parallelOffset (pline : polyline) (offset : T) (hasSelfIntersects : bool)
  : res (list polyline) :=
  if (size pline <? 2)%nat then Ok []
  else
    let! rawOffset := createRawOffsetPline pline offset in
    if isClosed pline && negb hasSelfIntersects then
      let! slices := slicesFromRawOffset pline rawOffset offset in
      stitchOffsetSlicesTogether slices (isClosed pline) (size rawOffset - 1) sliceJoinThreshold
    else
      let! dualRawOffset := createRawOffsetPline pline (- offset) in
      let! slices := dualSliceAtIntersectsForOffset pline rawOffset dualRawOffset offset in
      stitchOffsetSlicesTogether slices (isClosed pline) (size rawOffset - 1) sliceJoinThreshold.

End Offset.
