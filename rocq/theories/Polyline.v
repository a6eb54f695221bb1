(** * Model of /repo/include/cavc/polyline.hpp *)
From Coq Require Import ZArith List Bool Arith.
From Verif Require Import Base Num MathUtils PlineSegment SpatialIndex.
Import ListNotations.

Section Polyline.
Context {RO : RealOps}.
Local Open Scope t_scope.

(** class Polyline, polyline.hpp:16-65 *)
Record polyline := mkPline { isClosed : bool; vertexes : list vertex }.

(** polyline.hpp:19 *)
Definition emptyPline : polyline := mkPline false [].
(** polyline.hpp:31 *)
Definition size (pl : polyline) : nat := length (vertexes pl).
(** polyline.hpp:28-29 *)
Definition addVertex (pl : polyline) (v : vertex) : polyline :=
  mkPline (isClosed pl) (vertexes pl ++ [v]).
(** value used for out-of-range reads of the total accessor below *)
Definition vdflt : vertex := mkVertex t0 t0 t0.
(** operator[], polyline.hpp:22-23.  Total version, used where the index comes from
    visitSegIndices (which only passes in-range indices, see theorem C21). *)
Definition at_ (pl : polyline) (i : nat) : vertex := nth i (vertexes pl) vdflt.
(** operator[] with bounds check *)
Definition vget (pl : polyline) (i : nat) : res vertex := rget (vertexes pl) i.
(** polyline.hpp:33-34: [m_vertexes.back()], UB when empty *)
Definition lastVertex (pl : polyline) : res vertex :=
  match rev (vertexes pl) with [] => UB | v :: _ => Ok v end.
(** assignment through [lastVertex()] *)
Definition setLastVertex (pl : polyline) (v : vertex) : res polyline :=
  match rev (vertexes pl) with
  | [] => UB
  | _ :: t => Ok (mkPline (isClosed pl) (rev t ++ [v]))
  end.
(** [vertexes().pop_back()], UB when empty *)
Definition popBack (pl : polyline) : res polyline :=
  match rev (vertexes pl) with
  | [] => UB
  | _ :: t => Ok (mkPline (isClosed pl) (rev t))
  end.
Definition setClosed (pl : polyline) (c : bool) : polyline := mkPline c (vertexes pl).

(** while loop of visitSegIndices, polyline.hpp:56-59 *)
Fixpoint visitSeg_loop {St : Type} (fuel : nat) (n : nat)
    (visitor : St -> nat -> nat -> bool * St) (i j : nat) (st : St) : St :=
  match fuel with
  | 0%nat => st
  | S fuel' =>
      if (i <? n)%nat then
        let '(go, st) := visitor st j i in
        if go then visitSeg_loop fuel' n visitor (i + 1)%nat i st else st
      else st
  end.

(** polyline.hpp:42-60.  The loop runs at most [size] times, fuel [size + 1] is exact. *)
Definition visitSegIndices {St : Type} (pl : polyline)
    (visitor : St -> nat -> nat -> bool * St) (st : St) : St :=
  if (size pl <? 2)%nat then st
  else if isClosed pl
    then visitSeg_loop (S (size pl)) (size pl) visitor 0 (size pl - 1) st
    else visitSeg_loop (S (size pl)) (size pl) visitor 1 0 st.

(** polyline.hpp:68-72 *)
Definition scalePolyline (pl : polyline) (scaleFactor : T) : polyline :=
  mkPline (isClosed pl)
    (map (fun v => mkVtx (vscale scaleFactor (pos v)) (bulge v)) (vertexes pl)).

(** polyline.hpp:75-80 *)
Definition translatePolyline (pl : polyline) (offset : vec) : polyline :=
  mkPline (isClosed pl)
    (map (fun v => mkVertex (vx offset + px v) (vy offset + py v) (bulge v)) (vertexes pl)).

(** visitor of getExtents, polyline.hpp:92-158 *)
Definition extents_step (pl : polyline) (result : aabb) (i j : nat) : bool * aabb :=
  let v1 := at_ pl i in
  let upd result x0 y0 x1 y1 :=
    mkAABB (if x0 <? xMin result then x0 else xMin result)
           (if y0 <? yMin result then y0 else yMin result)
           (if x1 >? xMax result then x1 else xMax result)
           (if y1 >? yMax result then y1 else yMax result) in
  if bulgeIsZero v1 then
    (true, upd result (px v1) (py v1) (px v1) (py v1))
  else
    let v2 := at_ pl j in
    let arc := arcRadiusAndCenter v1 v2 in
    let startAngle := angle (center arc) (pos v1) in
    let endAngle := angle (center arc) (pos v2) in
    let sweepAngle := deltaAngle startAngle endAngle in
    let sweepAngle :=
      if (sweepAngle >? t0) && (bulge v1 <? t0) then sweepAngle - t2 * pi else sweepAngle in
    let within a := angleIsWithinSweep startAngle sweepAngle a realThreshold in
    let arcYMax := if within (tlit 1 2 * pi) then vy (center arc) + radius arc
                   else tmax (py v1) (py v2) in
    let arcXMin := if within pi then vx (center arc) - radius arc
                   else tmin (px v1) (px v2) in
    let arcYMin := if within (tlit 3 2 * pi) then vy (center arc) - radius arc
                   else tmin (py v1) (py v2) in
    let arcXMax := if within (t2 * pi) then vx (center arc) + radius arc
                   else tmax (px v1) (px v2) in
    (true, upd result arcXMin arcYMin arcXMax arcYMax).

(** polyline.hpp:84-163; the result is a box of Reals with infinities *)
Definition getExtents (pl : polyline) : box :=
  match vertexes pl with
  | [] => mkBox xinf xinf xninf xninf
  | v0 :: _ =>
      let r := visitSegIndices pl (extents_step pl) (mkAABB (px v0) (py v0) (px v0) (py v0)) in
      mkBox (inj (xMin r)) (inj (yMin r)) (inj (xMax r)) (inj (yMax r))
  end.

(** visitor of getArea, polyline.hpp:182-206 *)
Definition area_step (pl : polyline) (doubleAreaTotal : T) (i j : nat) : bool * T :=
  let v1 := at_ pl i in
  let v2 := at_ pl j in
  let doubleArea := px v1 * py v2 - py v1 * px v2 in
  let doubleArea :=
    if negb (bulgeIsZero v1) then
      let b := tabs (bulge v1) in
      let sweepAngle := t4 * tatan b in
      let triangleBase := vlength (vsub (pos v2) (pos v1)) in
      let radius := triangleBase * (b * b + t1) / (t4 * b) in
      let sagitta := b * triangleBase / t2 in
      let triangleHeight := radius - sagitta in
      let doubleSectorArea := sweepAngle * radius * radius in
      let doubleTriangleArea := triangleBase * triangleHeight in
      let doubleArcSegArea := doubleSectorArea - doubleTriangleArea in
      let doubleArcSegArea := if bulgeIsNeg v1 then - doubleArcSegArea else doubleArcSegArea in
      doubleArea + doubleArcSegArea
    else doubleArea in
  (true, doubleAreaTotal + doubleArea).

(** polyline.hpp:167-211 *)
Definition getArea (pl : polyline) : T :=
  if negb (isClosed pl) || (size pl <? 2)%nat then t0
  else visitSegIndices pl (area_step pl) t0 / t2.

(** ClosestPoint members, polyline.hpp:267-269 *)
Record closestPt := mkCP { cpIndex : nat; cpPoint : vec; cpDistance : X }.

(** visitor of ClosestPoint::compute, polyline.hpp:232-244 *)
Definition closest_step (pl : polyline) (point : vec) (st : closestPt) (i j : nat)
  : bool * closestPt :=
  let cp := closestPointOnSeg (at_ pl i) (at_ pl j) point in
  let diffVec := vsub point cp in
  let dist2 := dot diffVec diffVec in
  (true, if xltb (inj dist2) (cpDistance st) then mkCP i cp (inj dist2) else st).

(** ClosestPoint::compute, polyline.hpp:221-257, on an object in state [prev] *)
Definition closestPoint_compute (prev : closestPt) (pl : polyline) (point : vec)
  : res closestPt :=
  if (size pl =? 1)%nat then
    let! v0 := vget pl 0 in
    Ok (mkCP 0 (pos v0) (inj (vlength (vsub point (pos v0)))))
  else
    let st := visitSegIndices pl (closest_step pl point)
                (mkCP (cpIndex prev) (cpPoint prev) xinf) in
    let nextIndex := nextWrappingIndex (cpIndex st) (size pl) in
    let! nv := vget pl nextIndex in
    let idx := if fuzzyEqual (cpPoint st) (pos nv) realThreshold then nextIndex
               else cpIndex st in
    let idx := if negb (isClosed pl) && (1 <? size pl)%nat && (idx =? size pl - 1)%nat
               then (idx - 1)%nat else idx in
    Ok (mkCP idx (cpPoint st) (xsqrt (cpDistance st))).

(** ClosestPoint constructor, polyline.hpp:217-219 with the member initialisers of
    lines 267-268 (m_distance is overwritten before being read) *)
Definition closestPoint (pl : polyline) (point : vec) : res closestPt :=
  closestPoint_compute (mkCP 0 vzero xinf) pl point.

(** inner loop adding the intermediate arc points, polyline.hpp:307-311;
    [is] = the values 1 .. segmentCount-1 of i *)
Definition arcPoints (arc : arcRC) (startAngle subAngle : T) (segmentCount : nat) : list vertex :=
  map (fun i =>
         let ang := tofnat i * subAngle + startAngle in
         mkVertex (radius arc * tcos ang + vx (center arc))
                  (radius arc * tsin ang + vy (center arc)) t0)
      (seq 1 (segmentCount - 1)).

(** visitor of convertArcsToLines, polyline.hpp:279-315; the state is
    ([error], result vertexes), wrapped in [res] for the size_t conversion of line 297 *)
Definition convertArcs_step (pl : polyline) (st : res (T * list vertex)) (i j : nat)
  : bool * res (T * list vertex) :=
  (true,
   let! (error, vs) := st in
   let v1 := at_ pl i in
   let v2 := at_ pl j in
   if bulgeIsZero v1 then Ok (error, vs ++ [v1])
   else
     let arc := arcRadiusAndCenter v1 v2 in
     if radius arc <? error + realThreshold then Ok (error, vs ++ [v1])
     else
       let startAngle := angle (center arc) (pos v1) in
       let endAngle := angle (center arc) (pos v2) in
       let dAngle := tabs (deltaAngle startAngle endAngle) in
       let error := tabs error in
       let segmentSubAngle := tabs (t2 * tacos (t1 - error / radius arc)) in
       let! segmentCount := ofOption (tceilnat (dAngle / segmentSubAngle)) in
       let segmentSubAngle := dAngle / tofnat segmentCount in
       let segmentSubAngle := if bulgeIsNeg v1 then - segmentSubAngle else segmentSubAngle in
       Ok (error, vs ++ [mkVertex (px v1) (py v1) t0] ++
                  arcPoints arc startAngle segmentSubAngle segmentCount)).

(** polyline.hpp:276-323 *)
Definition convertArcsToLines (pl : polyline) (error : T) : res polyline :=
  let! (_, vs) := visitSegIndices pl (convertArcs_step pl) (Ok (error, [])) in
  if negb (isClosed pl) then
    let! lv := lastVertex pl in
    Ok (mkPline (isClosed pl) (vs ++ [lv]))
  else Ok (mkPline (isClosed pl) vs).

(** for loop of pruneSingularities, polyline.hpp:342-348; [acc] is the result so far
    without its last vertex, [last] its last vertex *)
Fixpoint prune_loop (epsilon : T) (acc : list vertex) (last : vertex) (vs : list vertex)
  : list vertex :=
  match vs with
  | [] => acc ++ [last]
  | v :: vs' =>
      if fuzzyEqual (pos last) (pos v) epsilon
      then prune_loop epsilon acc (setBulge last (bulge v)) vs'
      else prune_loop epsilon (acc ++ [last]) v vs'
  end.

(** polyline.hpp:328-357 *)
Definition pruneSingularities (pl : polyline) (epsilon : T) : polyline :=
  match vertexes pl with
  | [] => mkPline (isClosed pl) []
  | v0 :: vs =>
      let r := prune_loop epsilon [] v0 vs in
      if isClosed pl && (1 <? length r)%nat then
        if fuzzyEqual (pos (last r vdflt)) (pos (hd vdflt r)) epsilon
        then mkPline (isClosed pl) (removelast r)
        else mkPline (isClosed pl) r
      else mkPline (isClosed pl) r
  end.

(** bulge shifting loop of invertDirection, polyline.hpp:371-375: position i-1 gets the
    negated bulge of position i, the last gets the negated first bulge *)
Fixpoint shiftBulges (firstBulge : T) (vs : list vertex) : list vertex :=
  match vs with
  | [] => []
  | [v] => [setBulge v (- firstBulge)]
  | v :: ((w :: _) as vs') => setBulge v (- bulge w) :: shiftBulges firstBulge vs'
  end.

(** polyline.hpp:362-376 *)
Definition invertDirection (pl : polyline) : polyline :=
  if (size pl <? 2)%nat then pl
  else
    let r := rev (vertexes pl) in
    mkPline (isClosed pl) (shiftBulges (bulge (hd vdflt r)) r).

(** NodeSize of StaticSpatialIndex<Real>, staticspatialindex.hpp:12 (default argument) *)
Definition defaultNodeSize : nat := 16.

Definition addAABB (ix : index) (bb : aabb) : res index :=
  add ix (inj (xMin bb)) (inj (yMin bb)) (inj (xMax bb)) (inj (yMax bb)).

(** polyline.hpp:381-401.  For an empty polyline [size() - 1] wraps; the model returns
    UB there (excluded by the CAVC_ASSERT of line 382). *)
Definition createApproxSpatialIndex (pl : polyline) : res index :=
  if (size pl =? 0)%nat then UB
  else
    let segmentCount := if isClosed pl then size pl else (size pl - 1)%nat in
    let! ix := construct defaultNodeSize segmentCount in
    let! ix := mfold (fun ix i =>
                 let! v1 := vget pl i in
                 let! v2 := vget pl (i + 1) in
                 addAABB ix (createFastApproxBoundingBox v1 v2))
               (seq 0 (size pl - 1)) ix in
    let! ix := (if isClosed pl then
                  let! v1 := lastVertex pl in
                  let! v2 := vget pl 0 in
                  addAABB ix (createFastApproxBoundingBox v1 v2)
                else Ok ix) in
    finish defaultNodeSize ix.

(** polyline.hpp:404-417 *)
Definition getPathLength (pl : polyline) : T :=
  if (size pl <? 2)%nat then t0
  else visitSegIndices pl
         (fun result i j => (true, result + segLength (at_ pl i) (at_ pl j))) t0.

(** lambda lineVisitor, polyline.hpp:431-440: change of the winding number *)
Definition lineWinding (v1 v2 : vertex) (point : vec) : Z :=
  if py v1 <=? vy point then
    if (py v2 >? vy point) && isLeft (pos v1) (pos v2) point then 1%Z else 0%Z
  else if (py v2 <=? vy point) && negb (isLeft (pos v1) (pos v2) point) then (-1)%Z
  else 0%Z.

(** lambda distToArcCenterLessThanRadius, polyline.hpp:443-447 *)
Definition distToArcCenterLessThanRadius (v1 v2 : vertex) (pt : vec) : bool :=
  let arc := arcRadiusAndCenter v1 v2 in
  let dist2 := distSquared (center arc) pt in
  dist2 <? radius arc * radius arc.

(** lambda arcVisitor, polyline.hpp:449-530: change of the winding number *)
Definition arcWinding (v1 v2 : vertex) (point : vec) : Z :=
  let isCCW := bulgeIsPos v1 in
  let pointIsLeft := if isCCW then isLeft (pos v1) (pos v2) point
                     else isLeftOrEqual (pos v1) (pos v2) point in
  let inCircle := distToArcCenterLessThanRadius v1 v2 point in
  if py v1 <=? vy point then
    if py v2 >? vy point then
      if isCCW then
        if pointIsLeft then 1%Z
        else if inCircle then 1%Z else 0%Z
      else
        if pointIsLeft then (if negb inCircle then 1%Z else 0%Z) else 0%Z
    else
      if isCCW && negb pointIsLeft then
        if (px v2 <? vx point) && (vx point <? px v1) && inCircle then 1%Z else 0%Z
      else if negb isCCW && pointIsLeft then
        if (px v1 <? vx point) && (vx point <? px v2) && inCircle then (-1)%Z else 0%Z
      else 0%Z
  else
    if py v2 <=? vy point then
      if isCCW then
        if negb pointIsLeft then (if negb inCircle then (-1)%Z else 0%Z) else 0%Z
      else
        if pointIsLeft then (if inCircle then (-1)%Z else 0%Z) else (-1)%Z
    else
      if isCCW && negb pointIsLeft then
        if (px v1 <? vx point) && (vx point <? px v2) && inCircle then 1%Z else 0%Z
      else if negb isCCW && pointIsLeft then
        if (px v2 <? vx point) && (vx point <? px v1) && inCircle then (-1)%Z else 0%Z
      else 0%Z.

(** polyline.hpp:424-547 (int overflow of the counter is not modelled) *)
Definition getWindingNumber (pl : polyline) (point : vec) : Z :=
  if negb (isClosed pl) || (size pl <? 2)%nat then 0%Z
  else visitSegIndices pl
         (fun w i j =>
            let v1 := at_ pl i in
            let v2 := at_ pl j in
            (true, (w + (if bulgeIsZero v1 then lineWinding v1 v2 point
                         else arcWinding v1 v2 point))%Z)) 0%Z.

(** internal::addOrReplaceIfSamePos, polyline.hpp:551-564 (epsilon = realPrecision at
    every call site) *)
Definition addOrReplaceIfSamePos (pl : polyline) (v : vertex) : polyline :=
  match rev (vertexes pl) with
  | [] => addVertex pl v
  | lv :: t =>
      if fuzzyEqual (pos lv) (pos v) realPrecision
      then mkPline (isClosed pl) (rev t ++ [setBulge lv (bulge v)])
      else addVertex pl v
  end.

End Polyline.
