(** * Model of /repo/include/cavc/polylineintersects.hpp *)
From Coq Require Import ZArith List Bool Arith.
From Verif Require Import Base Num MathUtils PlineSegment SpatialIndex Polyline.
Import ListNotations.

(** Implementation-defined behaviour of the C++ standard library used by the code:
    [std_sort cmp l] is the result of std::sort (unspecified order of equivalent
    elements), [map_order l] is the iteration order of an unordered_map whose entries
    were inserted in the order [l].  Theorems quantify over all instances satisfying
    the laws they need ([StdLaws]). *)
Class StdLib := {
  std_sort : forall A : Type, (A -> A -> bool) -> list A -> list A;
  map_order : forall A : Type, list (nat * A) -> list (nat * A)
}.
Arguments std_sort {StdLib A}.
Arguments map_order {StdLib A}.

Section Intersects.
Context {RO : RealOps} {SL : StdLib}.
Local Open Scope t_scope.

(** struct PlineIntersect, polylineintersects.hpp:14-25 *)
Record pIntr := mkIntr { sIndex1 : nat; sIndex2 : nat; ipos : vec }.
(** struct PlineCoincidentIntersect, polylineintersects.hpp:28-41 *)
Record cIntr := mkCIntr { cIndex1 : nat; cIndex2 : nat; cpoint1 : vec; cpoint2 : vec }.

(** struct CoincidentSlicesResult, polylineintersects.hpp:50-55 *)
Record coincSlices := mkCS {
  csSlices : list polyline;
  csStarts : list pIntr;
  csEnds : list pIntr;
  csOpposing : list bool }.

(** loop body orienting point1/point2, polylineintersects.hpp:67-75 *)
Definition orientCoinc (pline1 : polyline) (intr : cIntr) : res cIntr :=
  let! v := vget pline1 (cIndex1 intr) in
  let sp := pos v in
  let dist1 := distSquared sp (cpoint1 intr) in
  let dist2 := distSquared sp (cpoint2 intr) in
  Ok (if dist1 >? dist2
      then mkCIntr (cIndex1 intr) (cIndex2 intr) (cpoint2 intr) (cpoint1 intr)
      else intr).

(** comparator, polylineintersects.hpp:78-87 (indices already checked by the loop
    above, so the total accessor is used) *)
Definition coincCmp (pline1 : polyline) (a b : cIntr) : bool :=
  if negb (cIndex1 a =? cIndex1 b)%nat then (cIndex1 a <? cIndex1 b)%nat
  else
    let sp := pos (at_ pline1 (cIndex1 a)) in
    distSquared sp (cpoint1 a) <? distSquared sp (cpoint1 b).

(** lambda startCoincidentSliceAt, polylineintersects.hpp:96-132.  State: the result
    collected so far and the vertexes of currCoincidentSlice (empty when called). *)
Definition startSlice (pline1 pline2 : polyline) (intr : cIntr)
    (st : coincSlices * list vertex) : res (coincSlices * list vertex) :=
  let '(r, curr) := st in
  let! v1 := vget pline1 (cIndex1 intr) in
  let! v2 := vget pline1 (nextWrappingIndex (cIndex1 intr) (size pline1)) in
  let! u1 := vget pline2 (cIndex2 intr) in
  let! u2 := vget pline2 (nextWrappingIndex (cIndex2 intr) (size pline2)) in
  let tv1 := segTangentVector v1 v2 (pos v1) in
  let tv2 := segTangentVector u1 u2 (pos u1) in
  let dotP := dot tv1 tv2 in
  let sameDirection := dotP >? t0 in
  let split1 := splitAtPoint v1 v2 (cpoint1 intr) in
  let split2 := splitAtPoint v1 v2 (cpoint2 intr) in
  let curr := curr ++ [splitVertex split1; splitVertex split2] in
  let spos := pos (splitVertex split1) in
  let i1 := if fuzzyEqual (pos v1) (cpoint1 intr) realPrecision
            then prevWrappingIndex (cIndex1 intr) (size pline1) else cIndex1 intr in
  let i2 := if fuzzyEqual (pos u1) spos realPrecision
            then prevWrappingIndex (cIndex2 intr) (size pline2) else cIndex2 intr in
  Ok (mkCS (csSlices r) (csStarts r ++ [mkIntr i1 i2 spos]) (csEnds r)
           (csOpposing r ++ [negb sameDirection]), curr).

(** lambda endCoincidentSliceAt, polylineintersects.hpp:134-151 *)
Definition endSlice (pline2 : polyline) (intr : cIntr)
    (st : coincSlices * list vertex) : res (coincSlices * list vertex) :=
  let '(r, curr) := st in
  let! u1 := vget pline2 (cIndex2 intr) in
  let i2 := if fuzzyEqual (pos u1) (cpoint2 intr) realPrecision
            then prevWrappingIndex (cIndex2 intr) (size pline2) else cIndex2 intr in
  Ok (mkCS (csSlices r ++ [mkPline false curr]) (csStarts r)
           (csEnds r ++ [mkIntr (cIndex1 intr) i2 (cpoint2 intr)]) (csOpposing r), []).

(** loop of polylineintersects.hpp:154-173; [prev] = coincidentIntrs[i-1] *)
Fixpoint joinLoop (pline1 pline2 : polyline) (prev : cIntr) (rest : list cIntr)
    (st : coincSlices * list vertex) : res (coincSlices * list vertex) :=
  match rest with
  | [] => endSlice pline2 prev st       (* line 176: cap off last slice *)
  | intr :: rest' =>
      let! v1 := vget pline1 (cIndex1 intr) in
      let! v2 := vget pline1 (nextWrappingIndex (cIndex1 intr) (size pline1)) in
      let! lv := lastVertex (mkPline false (snd st)) in
      if fuzzyEqual (cpoint1 intr) (pos lv) realPrecision then
        let split1 := splitAtPoint v1 v2 (cpoint1 intr) in
        let split2 := splitAtPoint v1 v2 (cpoint2 intr) in
        joinLoop pline1 pline2 intr rest'
          (fst st, removelast (snd st) ++ [splitVertex split1; splitVertex split2])
      else
        let! st := endSlice pline2 prev st in
        let! st := startSlice pline1 pline2 intr st in
        joinLoop pline1 pline2 intr rest' st
  end.

(** joining the last slice with the first, polylineintersects.hpp:178-197 *)
Definition joinEnds (r : coincSlices) : res coincSlices :=
  if (1 <? length (csSlices r))%nat then
    match csSlices r, csStarts r, csEnds r, csOpposing r with
    | s0 :: sl, _ :: starts', e0 :: ends', _ :: opp' =>
        let lastSlice := last sl s0 in
        let! lv := lastVertex lastSlice in
        let! fv := vget s0 0 in
        if fuzzyEqual (pos lv) (pos fv) realPrecision then
          let joined := mkPline (isClosed lastSlice)
                          (removelast (vertexes lastSlice) ++ vertexes s0) in
          Ok (mkCS (removelast sl ++ [joined]) starts' (removelast ends' ++ [e0]) opp')
        else Ok r
    | _, _, _, _ => UB
    end
  else Ok r.

(** polylineintersects.hpp:57-200 *)
Definition sortAndjoinCoincidentSlices (coincidentIntrs : list cIntr)
    (pline1 pline2 : polyline) : res coincSlices :=
  let empty := mkCS [] [] [] [] in
  match coincidentIntrs with
  | [] => Ok empty
  | _ =>
      let! oriented := mmap (orientCoinc pline1) coincidentIntrs in
      match std_sort (coincCmp pline1) oriented with
      | [] => UB
      | intr0 :: rest =>
          let! st := startSlice pline1 pline2 intr0 (empty, []) in
          let! (r, _) := joinLoop pline1 pline2 intr0 rest st in
          joinEnds r
      end
  end.

(** lambda testAndAddIntersect, polylineintersects.hpp:223-259 *)
Definition testAndAddIntersect (pline : polyline) (output : list pIntr) (i j k : nat)
  : res (list pIntr) :=
  let! v1 := vget pline i in
  let! v2 := vget pline j in
  let! v3 := vget pline k in
  if fuzzyEqual (pos v1) (pos v2) realPrecision then Ok (output ++ [mkIntr i j (pos v1)])
  else
    let keep p := if negb (fuzzyEqual p (pos v2) realPrecision) then [mkIntr i j p] else [] in
    match intrPlineSegs v1 v2 v2 v3 with
    | NoIntersect => Ok output
    | OneIntersect p => Ok (output ++ keep p)
    | TwoIntersects p q => Ok (output ++ keep p ++ keep q)
    | SegmentOverlap p _ | ArcOverlap p _ => Ok (output ++ [mkIntr i j p])
    end.

(** polylineintersects.hpp:205-272 *)
Definition localSelfIntersects (pline : polyline) (output : list pIntr) : res (list pIntr) :=
  if (size pline <? 2)%nat then Ok output
  else if (size pline =? 2)%nat then
    if isClosed pline then
      let! v0 := vget pline 0 in
      let! v1 := vget pline 1 in
      if fuzzyEqualR (bulge v0) (- bulge v1) realThreshold
      then Ok (output ++ [mkIntr 0 1 (pos v1); mkIntr 1 0 (pos v0)])
      else Ok output
    else Ok output
  else
    let! output :=
      mfold (fun out i => testAndAddIntersect pline out (i - 2) (i - 1) i)
            (seq 2 (size pline - 2)) output in
    if isClosed pline then
      let! output := testAndAddIntersect pline output (size pline - 2) (size pline - 1) 0 in
      testAndAddIntersect pline output (size pline - 1) 0 1
    else Ok output.

(** non-coincident points reported for one segment pair, filtered by intrAtStartPt,
    polylineintersects.hpp:319-350 *)
Definition globalPairIntrs (i h : nat) (v1 v2 u1 u2 : vertex) : list pIntr :=
  let keep p :=
    if negb (fuzzyEqual (pos v1) p realThreshold || fuzzyEqual (pos u1) p realThreshold)
    then [mkIntr i h p] else [] in
  match intrPlineSegs v1 v2 u1 u2 with
  | NoIntersect => []
  | OneIntersect p => keep p
  | TwoIntersects p q | SegmentOverlap p q | ArcOverlap p q => keep p ++ keep q
  end.

Definition pairMem (a b : nat) (l : list (nat * nat)) : bool :=
  existsb (fun '(x, y) => (x =? a)%nat && (y =? b)%nat) l.

(** lambda indexVisitor, polylineintersects.hpp:301-354; state = (visited pairs, output) *)
Definition globalIndexVisitor (pline : polyline) (i j : nat) (v1 v2 : vertex)
    (st : res (list (nat * nat) * list pIntr)) (hitStart : nat)
  : bool * res (list (nat * nat) * list pIntr) :=
  (true,
   let! (visited, output) := st in
   let hitEnd := nextWrappingIndex hitStart (size pline) in
   if ((i =? hitStart) || (i =? hitEnd) || (j =? hitStart) || (j =? hitEnd))%nat
   then Ok (visited, output)
   else if pairMem hitStart i visited then Ok (visited, output)
   else
     let visited := (i, hitStart) :: visited in
     let! u1 := vget pline hitStart in
     let! u2 := vget pline hitEnd in
     Ok (visited, output ++ globalPairIntrs i hitStart v1 v2 u1 u2)).

(** lambda visitor, polylineintersects.hpp:295-361 *)
Definition globalItemVisitor (NodeSize : nat) (ix : index) (pline : polyline)
    (st : res (list (nat * nat) * list pIntr)) (i : nat) (b : box)
  : bool * res (list (nat * nat) * list pIntr) :=
  (true,
   let! s := st in
   let j := nextWrappingIndex i (size pline) in
   let! v1 := vget pline i in
   let! v2 := vget pline j in
   let! r := visitQuery NodeSize ix
     (xsubt (bMinX b) realThreshold) (xsubt (bMinY b) realThreshold)
     (xaddt (bMaxX b) realThreshold) (xaddt (bMaxY b) realThreshold)
     (globalIndexVisitor pline i j v1 v2) (Ok s) in
   r).

(** polylineintersects.hpp:281-364 *)
Definition globalSelfIntersects (NodeSize : nat) (pline : polyline) (output : list pIntr)
    (ix : index) : res (list pIntr) :=
  if (size pline <? 3)%nat then Ok output
  else
    let! r := visitItemBoxes ix (globalItemVisitor NodeSize ix pline) (Ok ([], output)) in
    let! (_, output) := r in
    Ok output.

(** polylineintersects.hpp:368-373 *)
Definition allSelfIntersects (NodeSize : nat) (pline : polyline) (output : list pIntr)
    (ix : index) : res (list pIntr) :=
  let! output := localSelfIntersects pline output in
  globalSelfIntersects NodeSize pline output ix.

(** state of findIntersects: intersects, coincidentIntersects, possibleDuplicates *)
Record findSt := mkFind {
  fIntrs : list pIntr; fCoinc : list cIntr; fDups : list (nat * nat) }.

(** loop body for one candidate segment of pline1, polylineintersects.hpp:401-441 *)
Definition findPair (pline1 pline2 : polyline) (i2 : nat) (p2v1 p2v2 : vertex)
    (st : findSt) (i1 : nat) : res findSt :=
  let j1 := nextWrappingIndex i1 (size pline1) in
  let! p1v1 := vget pline1 i1 in
  let! p1v2 := vget pline1 j1 in
  let keep p :=
    if negb (fuzzyEqual (pos p1v1) p realThreshold || fuzzyEqual (pos p2v1) p realThreshold)
    then [mkIntr i1 i2 p] else [] in
  match intrPlineSegs p1v1 p1v2 p2v1 p2v2 with
  | NoIntersect => Ok st
  | OneIntersect p => Ok (mkFind (fIntrs st ++ keep p) (fCoinc st) (fDups st))
  | TwoIntersects p q =>
      Ok (mkFind (fIntrs st ++ keep p ++ keep q) (fCoinc st) (fDups st))
  | SegmentOverlap p q | ArcOverlap p q =>
      let dups1 :=
        if fuzzyEqual (pos p1v1) p realThreshold || fuzzyEqual (pos p1v1) q realThreshold
        then [(prevWrappingIndex i1 (size pline1), i2)] else [] in
      let dups2 :=
        if fuzzyEqual (pos p2v1) p realThreshold || fuzzyEqual (pos p2v1) q realThreshold
        then [(i1, prevWrappingIndex i2 (size pline2))] else [] in
      Ok (mkFind (fIntrs st) (fCoinc st ++ [mkCIntr i1 i2 p q]) (fDups st ++ dups1 ++ dups2))
  end.

(** lambda pline2SegVisitor, polylineintersects.hpp:389-445 *)
Definition findSegVisitor (NodeSize : nat) (pline1 pline2 : polyline) (ix : index)
    (st : res findSt) (i2 j2 : nat) : bool * res findSt :=
  (true,
   let! st := st in
   let! p2v1 := vget pline2 i2 in
   let! p2v2 := vget pline2 j2 in
   let bb := createFastApproxBoundingBox p2v1 p2v2 in
   let fuzz := realPrecision in
   let! queryResults :=
     query NodeSize ix (inj (xMin bb - fuzz)) (inj (yMin bb - fuzz))
                       (inj (xMax bb + fuzz)) (inj (yMax bb + fuzz)) [] in
   mfold (findPair pline1 pline2 i2 p2v1 p2v2) queryResults st).

(** remove_if predicate, polylineintersects.hpp:451-466 *)
Definition isDuplicate (pline1 pline2 : polyline) (dups : list (nat * nat)) (intr : pIntr)
  : res bool :=
  if negb (pairMem (sIndex1 intr) (sIndex2 intr) dups) then Ok false
  else
    let! e1 := vget pline1 (nextWrappingIndex (sIndex1 intr) (size pline1)) in
    if fuzzyEqual (ipos intr) (pos e1) realThreshold then Ok true
    else
      let! e2 := vget pline2 (nextWrappingIndex (sIndex2 intr) (size pline2)) in
      Ok (fuzzyEqual (ipos intr) (pos e2) realThreshold).

Fixpoint removeIf {A} (p : A -> res bool) (l : list A) : res (list A) :=
  match l with
  | [] => Ok []
  | a :: t => let! b := p a in let! t := removeIf p t in Ok (if b then t else a :: t)
  end.

(** polylineintersects.hpp:376-468; the output argument starts as [intrs0], [coinc0] *)
Definition findIntersects (NodeSize : nat) (pline1 pline2 : polyline) (ix : index)
    (intrs0 : list pIntr) (coinc0 : list cIntr) : res (list pIntr * list cIntr) :=
  let! st := visitSegIndices pline2 (findSegVisitor NodeSize pline1 pline2 ix)
               (Ok (mkFind intrs0 coinc0 [])) in
  let! intrs := removeIf (isDuplicate pline1 pline2 (fDups st)) (fIntrs st) in
  Ok (intrs, fCoinc st).

End Intersects.
