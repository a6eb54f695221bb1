(** * Model of /repo/include/cavc/intrlineseg2lineseg2.hpp, intrlineseg2circle2.hpp,
      intrcircle2circle2.hpp and plinesegment.hpp *)
From Coq Require Import ZArith List Bool Arith.
From Verif Require Import Base Num MathUtils.
Import ListNotations.

Section PlineSegment.
Context {RO : RealOps}.
Local Open Scope t_scope.

(** std::min / std::max / std::minmax({a,b}) *)
Definition tmin (a b : T) : T := if b <? a then b else a.
Definition tmax (a b : T) : T := if a <? b then b else a.
Definition tminmax (a b : T) : T * T := if b <? a then (b, a) else (a, b).

(** ** intrlineseg2lineseg2.hpp *)

(** intrlineseg2lineseg2.hpp:7-28.  Fields documented as undefined for a result type
    are absent from the corresponding constructor. *)
Inductive llResult :=
| LLNone
| LLTrue (point : vec)
| LLCoincident (t0 t1 : T)
| LLFalse (t0 t1 : T) (point : vec).

(** lambda isInSegment, intrlineseg2lineseg2.hpp:47-58 *)
Definition isInSegment (pt segStart segEnd : vec) : bool :=
  if fuzzyEqualR (vx segStart) (vx segEnd) realThreshold then
    let '(mn, mx) := tminmax (vy segStart) (vy segEnd) in
    fuzzyInRange mn (vy pt) mx realThreshold
  else
    let '(mn, mx) := tminmax (vx segStart) (vx segEnd) in
    fuzzyInRange mn (vx pt) mx realThreshold.

(** intrlineseg2lineseg2.hpp:30-150 *)
Definition intrLineSeg2LineSeg2 (u1 u2 v1 v2 : vec) : llResult :=
  let u := vsub u2 u1 in
  let v := vsub v2 v1 in
  let d := perpDot u v in
  let w := vsub u1 v1 in
  if tabs d >? realThreshold then
    let r0 := perpDot v w / d in
    let r1 := perpDot u w / d in
    let point := vadd v1 (vscale r1 v) in
    if (r0 + realThreshold <? t0) || (r0 >? t1 + realThreshold) ||
       (r1 + realThreshold <? t0) || (r1 >? t1 + realThreshold)
    then LLFalse r0 r1 point
    else LLTrue point
  else
    let a := perpDot u w in
    let b := perpDot v w in
    if (tabs a >? realThreshold) || (tabs b >? realThreshold) then LLNone
    else
      let uIsPoint := fuzzyEqual u1 u2 realThreshold in
      let vIsPoint := fuzzyEqual v1 v2 realThreshold in
      if uIsPoint && vIsPoint then
        if fuzzyEqual u1 v1 realThreshold then LLTrue u1 else LLNone
      else if uIsPoint then
        if isInSegment u1 v1 v2 then LLTrue u1 else LLNone
      else if vIsPoint then
        if isInSegment v1 u1 u2 then LLTrue v1 else LLNone
      else
        let w2 := vsub u2 v1 in
        let '(r0, r1) :=
          if tabs (vx v) <? realThreshold then (vy w / vy v, vy w2 / vy v)
          else (vx w / vx v, vx w2 / vx v) in
        let '(r0, r1) := if r0 >? r1 then (r1, r0) else (r0, r1) in
        if (r0 >? t1 + realThreshold) || (r1 + realThreshold <? t0) then LLNone
        else
          let r0 := tmax r0 t0 in
          let r1 := tmin r1 t1 in
          if tabs (r1 - r0) <? realThreshold then LLTrue (vadd v1 (vscale r0 v))
          else LLCoincident r0 r1.

(** ** intrlineseg2circle2.hpp *)

(** intrlineseg2circle2.hpp:5-12 *)
Inductive lcResult :=
| LC0
| LC1 (t0 : T)
| LC2 (t0 t1 : T).

(** intrlineseg2circle2.hpp:19-66 *)
Definition intrLineSeg2Circle2 (p0 p1 : vec) (radius : T) (circleCenter : vec) : lcResult :=
  let dx := vx p1 - vx p0 in
  let dy := vy p1 - vy p0 in
  let h := vx circleCenter in
  let k := vy circleCenter in
  let a := dx * dx + dy * dy in
  if tabs a <? realThreshold then
    let xh := vx p0 - h in
    let yk := vy p0 - k in
    if fuzzyEqualR (xh * xh + yk * yk) (radius * radius) realThreshold then LC1 t0 else LC0
  else
    let b := t2 * (dx * (vx p0 - h) + dy * (vy p0 - k)) in
    let c := (vx p0 * vx p0 - t2 * h * vx p0 + h * h) +
             (vy p0 * vy p0 - t2 * k * vy p0 + k * k) - radius * radius in
    let discr := b * b - t4 * a * c in
    if tabs discr <? realThreshold then LC1 (- b / (t2 * a))
    else if discr <? t0 then LC0
    else let '(s0, s1) := quadraticSolutions a b c discr in LC2 s0 s1.

(** ** intrcircle2circle2.hpp *)

(** intrcircle2circle2.hpp:5-23 *)
Inductive ccResult :=
| CCNone
| CCOne (point1 : vec)
| CCTwo (point1 point2 : vec)
| CCCoincident.

(** intrcircle2circle2.hpp:26-76 *)
Definition intrCircle2Circle2 (radius1 : T) (center1 : vec) (radius2 : T) (center2 : vec)
  : ccResult :=
  let cv := vsub center2 center1 in
  let d2 := dot cv cv in
  let d := tsqrt d2 in
  if d <? realThreshold then
    if fuzzyEqualR radius1 radius2 realThreshold then CCCoincident else CCNone
  else if (d >? radius1 + radius2 + realThreshold) ||
          (d + realThreshold <? tabs (radius1 - radius2)) then CCNone
  else
    let rad1Sq := radius1 * radius1 in
    let a := (rad1Sq - radius2 * radius2 + d2) / (t2 * d) in
    let midPoint := vadd center1 (vdiv (vscale a cv) d) in
    let diff := rad1Sq - a * a in
    if diff <? t0 then CCOne midPoint
    else
      let h := tsqrt diff in
      let hOverD := h / d in
      let xTerm := hOverD * vy cv in
      let yTerm := hOverD * vx cv in
      let x1 := vx midPoint + xTerm in
      let y1 := vy midPoint - yTerm in
      let x2 := vx midPoint - xTerm in
      let y2 := vy midPoint + yTerm in
      let point1 := mkV x1 y1 in
      let point2 := mkV x2 y2 in
      if fuzzyEqual point1 point2 realThreshold then CCOne point1 else CCTwo point1 point2.

(** ** plinesegment.hpp *)

(** PlineVertex, plinesegment.hpp:13-42 *)
Record vertex := mkVtx { pos : vec; bulge : T }.
Definition px (v : vertex) : T := vx (pos v).
Definition py (v : vertex) : T := vy (pos v).
Definition mkVertex (x y b : T) : vertex := mkVtx (mkV x y) b.
Definition setBulge (v : vertex) (b : T) : vertex := mkVtx (pos v) b.
Definition setPos (v : vertex) (p : vec) : vertex := mkVtx p (bulge v).

(** plinesegment.hpp:29-31 *)
Definition bulgeIsZero (v : vertex) : bool := tabs (bulge v) <? realPrecision.
(** plinesegment.hpp:33 *)
Definition bulgeIsNeg (v : vertex) : bool := bulge v <? t0.
(** plinesegment.hpp:34 *)
Definition bulgeIsPos (v : vertex) : bool := bulge v >? t0.

(** AABB, plinesegment.hpp:45-57 *)
Record aabb := mkAABB { xMin : T; yMin : T; xMax : T; yMax : T }.
(** plinesegment.hpp:51-56 *)
Definition expand (bb : aabb) (val : T) : aabb :=
  mkAABB (xMin bb - val) (yMin bb - val) (xMax bb + val) (yMax bb + val).

(** plinesegment.hpp:60-63 *)
Record arcRC := mkArc { radius : T; center : vec }.

(** plinesegment.hpp:66-90 *)
Definition arcRadiusAndCenter (v1 v2 : vertex) : arcRC :=
  let b := tabs (bulge v1) in
  let v := vsub (pos v2) (pos v1) in
  let d := vlength v in
  let r := d * (b * b + t1) / (t4 * b) in
  let s := b * d / t2 in
  let m := r - s in
  let offsX := - m * vy v / d in
  let offsY := m * vx v / d in
  let '(offsX, offsY) := if bulgeIsNeg v1 then (- offsX, - offsY) else (offsX, offsY) in
  mkArc r (mkV (px v1 + vx v / t2 + offsX) (py v1 + vy v / t2 + offsY)).

(** plinesegment.hpp:93-98 *)
Record splitResult := mkSplit { updatedStart : vertex; splitVertex : vertex }.

(** plinesegment.hpp:101-131 *)
Definition splitAtPoint (v1 v2 : vertex) (point : vec) : splitResult :=
  if bulgeIsZero v1 then mkSplit v1 (mkVtx point t0)
  else if fuzzyEqual (pos v1) (pos v2) realPrecision ||
          fuzzyEqual (pos v1) point realPrecision then
    mkSplit (mkVtx point t0) (mkVtx point (bulge v1))
  else if fuzzyEqual (pos v2) point realPrecision then
    mkSplit v1 (mkVtx (pos v2) t0)
  else
    let arcCenter := center (arcRadiusAndCenter v1 v2) in
    let a := angle arcCenter point in
    let arcStartAngle := angle arcCenter (pos v1) in
    let theta1 := deltaAngle arcStartAngle a in
    let bulge1 := ttan (theta1 / t4) in
    let arcEndAngle := angle arcCenter (pos v2) in
    let theta2 := deltaAngle a arcEndAngle in
    let bulge2 := ttan (theta2 / t4) in
    mkSplit (mkVtx (pos v1) bulge1) (mkVtx point bulge2).

(** plinesegment.hpp:133-148 *)
Definition segTangentVector (v1 v2 : vertex) (pointOnSeg : vec) : vec :=
  if bulgeIsZero v1 then vsub (pos v2) (pos v1)
  else
    let arc := arcRadiusAndCenter v1 v2 in
    if bulgeIsPos v1 then
      mkV (- (vy pointOnSeg - vy (center arc))) (vx pointOnSeg - vx (center arc))
    else
      mkV (vy pointOnSeg - vy (center arc)) (- (vx pointOnSeg - vx (center arc))).

(** plinesegment.hpp:151-180 *)
Definition closestPointOnSeg (v1 v2 : vertex) (point : vec) : vec :=
  if bulgeIsZero v1 then closestPointOnLineSeg (pos v1) (pos v2) point
  else
    let arc := arcRadiusAndCenter v1 v2 in
    if fuzzyEqual point (center arc) realThreshold then pos v1
    else if pointWithinArcSweepAngle (center arc) (pos v1) (pos v2) (bulge v1) point then
      let vToPoint := normalize (vsub point (center arc)) in
      vadd (vscale (radius arc) vToPoint) (center arc)
    else
      let dist1 := distSquared (pos v1) point in
      let dist2 := distSquared (pos v2) point in
      if dist1 <? dist2 then pos v1 else pos v2.

(** plinesegment.hpp:184-260 *)
Definition createFastApproxBoundingBox (v1 v2 : vertex) : aabb :=
  let '(exMin, exMax) := if px v1 <? px v2 then (px v1, px v2) else (px v2, px v1) in
  let '(eyMin, eyMax) := if py v1 <? py v2 then (py v1, py v2) else (py v2, py v1) in
  if bulgeIsZero v1 then mkAABB exMin eyMin exMax eyMax
  else
    let b := bulge v1 in
    let offsX := b * (py v2 - py v1) / t2 in
    let offsY := - b * (px v2 - px v1) / t2 in
    let pt1X := px v1 + offsX in
    let pt2X := px v2 + offsX in
    let pt1Y := py v1 + offsY in
    let pt2Y := py v2 + offsY in
    let '(pxMin, pxMax) := if pt1X <? pt2X then (pt1X, pt2X) else (pt2X, pt1X) in
    let '(pyMin, pyMax) := if pt1Y <? pt2Y then (pt1Y, pt2Y) else (pt2Y, pt1Y) in
    mkAABB (tmin exMin pxMin) (tmin eyMin pyMin) (tmax exMax pxMax) (tmax eyMax pyMax).

(** plinesegment.hpp:263-276 *)
Definition segLength (v1 v2 : vertex) : T :=
  if fuzzyEqual (pos v1) (pos v2) realThreshold then t0
  else if bulgeIsZero v1 then tsqrt (distSquared (pos v1) (pos v2))
  else
    let arc := arcRadiusAndCenter v1 v2 in
    let startAngle := angle (center arc) (pos v1) in
    let endAngle := angle (center arc) (pos v2) in
    tabs (radius arc * deltaAngle startAngle endAngle).

(** plinesegment.hpp:279-292 *)
Definition segMidpoint (v1 v2 : vertex) : vec :=
  if bulgeIsZero v1 then midpoint (pos v1) (pos v2)
  else
    let arc := arcRadiusAndCenter v1 v2 in
    let a1 := angle (center arc) (pos v1) in
    let a2 := angle (center arc) (pos v2) in
    let angleOffset := tabs (deltaAngle a1 a2 / t2) in
    let midAngle := if bulgeIsPos v1 then a1 + angleOffset else a1 - angleOffset in
    pointOnCircle (radius arc) (center arc) midAngle.

(** plinesegment.hpp:294-307 (TangentIntersect is never produced by the code; points
    documented as unset for a type are absent) *)
Inductive segIntr :=
| NoIntersect
| OneIntersect (point1 : vec)
| TwoIntersects (point1 point2 : vec)
| SegmentOverlap (point1 point2 : vec)
| ArcOverlap (point1 point2 : vec).

(** lambda processLineArcIntr, plinesegment.hpp:317-363 *)
Definition processLineArcIntr (p0 p1 : vec) (a1 a2 : vertex) : segIntr :=
  let arc := arcRadiusAndCenter a1 a2 in
  let pointInSweep := fun t : T =>
    if (t + realThreshold <? t0) || (t >? t1 + realThreshold) then (false, vzero)
    else
      let p := pointFromParametric p0 p1 t in
      (pointWithinArcSweepAngle (center arc) (pos a1) (pos a2) (bulge a1) p, p) in
  match intrLineSeg2Circle2 p0 p1 (radius arc) (center arc) with
  | LC0 => NoIntersect
  | LC1 r0 =>
      let '(ok, p) := pointInSweep r0 in if ok then OneIntersect p else NoIntersect
  | LC2 r0 r1 =>
      let '(ok1, q1) := pointInSweep r0 in
      let '(ok2, q2) := pointInSweep r1 in
      if ok1 && ok2 then TwoIntersects q1 q2
      else if ok1 then OneIntersect q1
      else if ok2 then OneIntersect q2
      else NoIntersect
  end.

(** lambda startAndSweepAngle, plinesegment.hpp:394-398 *)
Definition startAndSweepAngle (sp c : vec) (b : T) : T * T :=
  (normalizeRadians (angle c sp), t4 * tatan b).

(** case Circle2Circle2IntrType::Coincident, plinesegment.hpp:436-495 *)
Definition coincidentArcsIntr (v1 v2 u1 u2 : vertex) (c1 c2 : vec) : segIntr :=
  let '(arc1Start, arc1Sweep) := startAndSweepAngle (pos v1) c1 (bulge v1) in
  let '(arc2Start, arc2Sweep) :=
    if Bool.eqb (bulgeIsNeg v1) (bulgeIsNeg u1)
    then startAndSweepAngle (pos u1) c2 (bulge u1)
    else startAndSweepAngle (pos u2) c2 (- bulge u1) in
  let arc1End := arc1Start + arc1Sweep in
  let arc2End := arc2Start + arc2Sweep in
  if tabs (deltaAngle arc1Start arc2End) <? realThreshold then OneIntersect (pos v1)
  else if tabs (deltaAngle arc2Start arc1End) <? realThreshold then OneIntersect (pos u1)
  else
    let arc2StartsInArc1Sweep := angleIsWithinSweep arc1Start arc1Sweep arc2Start realThreshold in
    let arc2EndsInArc1Sweep := angleIsWithinSweep arc1Start arc1Sweep arc2End realThreshold in
    if arc2StartsInArc1Sweep && arc2EndsInArc1Sweep then ArcOverlap (pos u1) (pos u2)
    else if arc2StartsInArc1Sweep then ArcOverlap (pos u1) (pos v2)
    else if arc2EndsInArc1Sweep then ArcOverlap (pos v1) (pos u2)
    else if angleIsWithinSweep arc2Start arc2Sweep arc1Start realThreshold
      then ArcOverlap (pos v1) (pos v2)
      else NoIntersect.

(** plinesegment.hpp:309-500 *)
Definition intrPlineSegs (v1 v2 u1 u2 : vertex) : segIntr :=
  let vIsLine := bulgeIsZero v1 in
  let uIsLine := bulgeIsZero u1 in
  if vIsLine && uIsLine then
    match intrLineSeg2LineSeg2 (pos v1) (pos v2) (pos u1) (pos u2) with
    | LLNone => NoIntersect
    | LLTrue p => OneIntersect p
    | LLCoincident r0 r1 =>
        SegmentOverlap (pointFromParametric (pos u1) (pos u2) r0)
                       (pointFromParametric (pos u1) (pos u2) r1)
    | LLFalse _ _ _ => NoIntersect
    end
  else if vIsLine then processLineArcIntr (pos v1) (pos v2) u1 u2
  else if uIsLine then processLineArcIntr (pos u1) (pos u2) v1 v2
  else
    let arc1 := arcRadiusAndCenter v1 v2 in
    let arc2 := arcRadiusAndCenter u1 u2 in
    let bothArcsSweepPoint := fun pt =>
      pointWithinArcSweepAngle (center arc1) (pos v1) (pos v2) (bulge v1) pt &&
      pointWithinArcSweepAngle (center arc2) (pos u1) (pos u2) (bulge u1) pt in
    match intrCircle2Circle2 (radius arc1) (center arc1) (radius arc2) (center arc2) with
    | CCNone => NoIntersect
    | CCOne p => if bothArcsSweepPoint p then OneIntersect p else NoIntersect
    | CCTwo p q =>
        let in1 := bothArcsSweepPoint p in
        let in2 := bothArcsSweepPoint q in
        if in1 && in2 then TwoIntersects p q
        else if in1 then OneIntersect p
        else if in2 then OneIntersect q
        else NoIntersect
    | CCCoincident => coincidentArcsIntr v1 v2 u1 u2 (center arc1) (center arc2)
    end.

End PlineSegment.
