(** * Model of /repo/include/cavc/polylinecombine.hpp *)
From Coq Require Import ZArith List Bool Arith.
From Verif Require Import Base Num MathUtils PlineSegment SpatialIndex Polyline Intersects.
Import ListNotations.

(** ** unordered_map<size_t, vector<V>> as an association list in insertion order *)
Section Map.
Context {V : Type}.

(** [lookup[k].push_back(v)] *)
Fixpoint mpush (k : nat) (v : V) (m : list (nat * list V)) : list (nat * list V) :=
  match m with
  | [] => [(k, [v])]
  | (k', vs) :: m' => if k =? k' then (k', vs ++ [v]) :: m' else (k', vs) :: mpush k v m'
  end.

(** [lookup.find(k)] *)
Fixpoint mfind {W : Type} (k : nat) (m : list (nat * W)) : option W :=
  match m with
  | [] => None
  | (k', vs) :: m' => if k =? k' then Some vs else mfind k m'
  end.
End Map.

Section Combine.
Context {RO : RealOps} {SL : StdLib}.
Local Open Scope t_scope.

(** struct ProcessForCombineResult, polylinecombine.hpp:12-31 *)
Record combineInfo := mkInfo {
  ciSlices : list polyline;
  ciIntrs : list pIntr;
  ciStarts : list pIntr;
  ciEnds : list pIntr;
  ciOpposing : list bool;
  ciPline1IsCW : bool;
  ciPline2IsCW : bool }.

(** polylinecombine.hpp:20-24 *)
Definition completelyCoincident (ci : combineInfo) : bool :=
  match ciStarts ci, ciEnds ci with
  | [s], [e] => fuzzyEqual (ipos s) (ipos e) realPrecision
  | _, _ => false
  end.
(** polylinecombine.hpp:26 *)
Definition plineOpposingDirections (ci : combineInfo) : bool :=
  negb (Bool.eqb (ciPline1IsCW ci) (ciPline2IsCW ci)).
(** polylinecombine.hpp:28-30 *)
Definition anyIntersects (ci : combineInfo) : bool :=
  negb (length (ciSlices ci) =? 0)%nat || negb (length (ciIntrs ci) =? 0)%nat.

(** polylinecombine.hpp:33-60 *)
Definition processForCombine (NodeSize : nat) (pline1 pline2 : polyline) (ix : index)
  : res combineInfo :=
  let! (intrs, coinc) := findIntersects NodeSize pline1 pline2 ix [] [] in
  let cw1 := getArea pline1 <? t0 in
  let cw2 := getArea pline2 <? t0 in
  match coinc with
  | [] => Ok (mkInfo [] intrs [] [] [] cw1 cw2)
  | _ =>
      let! r := sortAndjoinCoincidentSlices coinc pline1 pline2 in
      Ok (mkInfo (csSlices r) intrs (csStarts r) (csEnds r) (csOpposing r) cw1 cw2)
  end.

(** struct SlicePoint, polylinecombine.hpp:62-68 *)
Record slicePoint := mkSP { spPos : vec; spStart : bool }.

Definition lookup := list (nat * list slicePoint).

(** polylinecombine.hpp:91-101; an index past the end of a parallel vector is UB *)
Fixpoint pushCoinc2 (starts ends : list pIntr) (opp : list bool) (m : lookup) : res lookup :=
  match starts with
  | [] => Ok m
  | sp :: starts' =>
      match ends, opp with
      | ep :: ends', o :: opp' =>
          let m :=
            if o then mpush (sIndex2 ep) (mkSP (ipos ep) true)
                        (mpush (sIndex2 sp) (mkSP (ipos sp) false) m)
            else mpush (sIndex2 ep) (mkSP (ipos ep) false)
                   (mpush (sIndex2 sp) (mkSP (ipos sp) true) m) in
          pushCoinc2 starts' ends' opp' m
      | _, _ => UB
      end
  end.

(** filling intersectsLookup, polylinecombine.hpp:80-114 *)
Definition buildLookup (ci : combineInfo) (useSecondIndex : bool) : res lookup :=
  if useSecondIndex then
    let m := fold_left (fun m i => mpush (sIndex2 i) (mkSP (ipos i) false) m) (ciIntrs ci) [] in
    pushCoinc2 (ciStarts ci) (ciEnds ci) (ciOpposing ci) m
  else
    let m := fold_left (fun m i => mpush (sIndex1 i) (mkSP (ipos i) false) m) (ciIntrs ci) [] in
    let m := fold_left (fun m i => mpush (sIndex1 i) (mkSP (ipos i) true) m) (ciStarts ci) m in
    Ok (fold_left (fun m i => mpush (sIndex1 i) (mkSP (ipos i) false) m) (ciEnds ci) m).

(** sorting each list by distance from the segment start, polylinecombine.hpp:117-123 *)
Definition sortLookup (pline : polyline) (m : lookup) : res lookup :=
  mmap (fun '(k, l) =>
          let! v := vget pline k in
          Ok (k, std_sort (fun a b => distSquared (spPos a) (pos v)
                                      <? distSquared (spPos b) (pos v)) l)) m.

(** slices between consecutive intersects on one segment, polylinecombine.hpp:141-165;
    [prevPt] = intrsList[i-1] *)
Fixpoint midSlices (pred : vec -> bool) (segEnd : vertex) (prevVertex : vertex)
    (prevPt : slicePoint) (rest : list slicePoint) (result : list polyline) : list polyline :=
  match rest with
  | [] => result
  | p :: rest' =>
      let split := splitAtPoint prevVertex segEnd (spPos p) in
      let prevVertex := splitVertex split in
      let result :=
        if spStart prevPt then result
        else if fuzzyEqual (pos (updatedStart split)) (pos (splitVertex split)) realPrecision
          then result
        else if negb (pred (segMidpoint (updatedStart split) (splitVertex split))) then result
        else result ++ [mkPline false [updatedStart split; splitVertex split]] in
      midSlices pred segEnd prevVertex p rest' result
  end.

(** while loop following the polyline to the next intersect, polylinecombine.hpp:182-208.
    The guard [loopCount++ > maxLoopCount] admits maxLoopCount + 1 iterations; running out
    of them fires the CAVC_ASSERT of line 184: outcome [Fuel]. *)
Fixpoint sliceLoop (fuel : nat) (pline : polyline) (m : lookup) (currSlice : polyline)
    (index : nat) : res polyline :=
  match fuel with
  | 0%nat => Fuel
  | S fuel' =>
      let! v := vget pline index in
      let currSlice := addOrReplaceIfSamePos currSlice v in
      match mfind index m with
      | Some l =>
          match l with
          | [] => UB
          | p :: _ =>
              let! nv := vget pline (nextWrappingIndex index (size pline)) in
              let! lv := lastVertex currSlice in
              let split := splitAtPoint lv nv (spPos p) in
              let! currSlice := setLastVertex currSlice (updatedStart split) in
              Ok (addOrReplaceIfSamePos currSlice (mkVtx (spPos p) t0))
          end
      | None => sliceLoop fuel' pline m currSlice (nextWrappingIndex index (size pline))
      end
  end.

(** body of the loop over the lookup, polylinecombine.hpp:125-216 *)
Definition sliceOne (pline : polyline) (m : lookup) (pred : vec -> bool)
    (result : list polyline) (kv : nat * list slicePoint) : res (list polyline) :=
  let '(sIndex, intrsList) := kv in
  let! v1 := vget pline sIndex in
  let nextIndex := nextWrappingIndex sIndex (size pline) in
  let! v2 := vget pline nextIndex in
  match intrsList with
  | [] => UB
  | p0 :: rest =>
      let result :=
        if negb (length intrsList =? 1)%nat
        then midSlices pred v2 (splitVertex (splitAtPoint v1 v2 (spPos p0))) p0 rest result
        else result in
      let lastPt := last rest p0 in
      if spStart lastPt then Ok result
      else
        let split := splitAtPoint v1 v2 (spPos lastPt) in
        let! currSlice :=
          sliceLoop (S (size pline)) pline m (mkPline false [splitVertex split]) nextIndex in
        if (1 <? size currSlice)%nat then
          let! a := vget currSlice (size currSlice - 2) in
          let! b := lastVertex currSlice in
          if pred (segMidpoint a b) then Ok (result ++ [currSlice]) else Ok result
        else Ok result
  end.

(** polylinecombine.hpp:75-217 *)
Definition sliceAtIntersects (pline : polyline) (ci : combineInfo) (useSecondIndex : bool)
    (pred : vec -> bool) (result : list polyline) : res (list polyline) :=
  let! m := buildLookup ci useSecondIndex in
  let! m := sortLookup pline m in
  mfold (sliceOne pline m pred) (map_order m) result.

(** struct CollectedSlices, polylinecombine.hpp:223-228 *)
Record collected := mkColl {
  slicesRemaining : list polyline;
  startOfPlineBSlicesIdx : nat;
  startOfPlineACoincidentSlicesIdx : nat;
  startOfPlineBCoincidentSlicesIdx : nat }.

(** inverting plineB's coincident slices, polylinecombine.hpp:257-263 *)
Fixpoint invertOpposing (slices : list polyline) (opp : list bool) : res (list polyline) :=
  match slices with
  | [] => Ok []
  | s :: slices' =>
      match opp with
      | [] => UB
      | o :: opp' =>
          let! r := invertOpposing slices' opp' in
          Ok ((if o then invertDirection s else s) :: r)
      end
  end.

(** polylinecombine.hpp:230-278 (simplification: the vector is kept as its four
    consecutive parts until the end) *)
Definition collectSlices (plineA plineB : polyline) (ci : combineInfo)
    (predA predB : vec -> bool) (setOpposingOrientation : bool) : res collected :=
  let! partA := sliceAtIntersects plineA ci false predA [] in
  let! partB := sliceAtIntersects plineB ci true predB [] in
  let partCA := ciSlices ci in
  let! partCB := invertOpposing (ciSlices ci) (ciOpposing ci) in
  let inv := negb (Bool.eqb setOpposingOrientation (plineOpposingDirections ci)) in
  let partB := if inv then map invertDirection partB else partB in
  let partCB := if inv then map invertDirection partCB else partCB in
  Ok (mkColl (partA ++ partB ++ partCA ++ partCB)
        (length partA) (length partA + length partB)
        (length partA + length partB + length partCA)).

(** struct StitchFirstAvailable, polylinecombine.hpp:280-285.  Selectors return [None] for
    numeric_limits<size_t>::max() ("discard"); reading available[0] of an empty vector is
    UB, the callers never pass an empty one (line 366). *)
Definition stitchFirstAvailable (_ : nat) (available : list nat) : res (option nat) :=
  let! a := rget available 0 in Ok (Some a).

(** adding the slice start points to the index, polylinecombine.hpp:301-310 *)
Definition stitchIndex (slices : list polyline) (joinThreshold : T) : res index :=
  let! ix := construct defaultNodeSize (length slices) in
  let! ix := mfold (fun ix slice =>
      let! v := vget slice 0 in
      add ix (inj (px v - joinThreshold)) (inj (py v - joinThreshold))
             (inj (px v + joinThreshold)) (inj (py v + joinThreshold))) slices ix in
  finish defaultNodeSize ix.

(** lambda closePline, polylinecombine.hpp:318-328 *)
Definition closePline (result : list polyline) (pl : polyline) : res (list polyline) :=
  if (size pl <? 3)%nat then Ok result
  else let! p := popBack pl in Ok (result ++ [setClosed p true]).

(** while loop, polylinecombine.hpp:345-388.  Fuel = maxLoopCount + 1 iterations; running
    out fires the CAVC_ASSERT of line 347: outcome [Fuel]. *)
Fixpoint stitchLoop (fuel : nat) (selector : nat -> list nat -> res (option nat))
    (joinThreshold : T) (slices : list polyline) (ix : index) (beginning : nat)
    (visited : list bool) (result : list polyline) (currPline : polyline) (curr : nat)
  : res (list bool * list polyline) :=
  match fuel with
  | 0%nat => Fuel
  | S fuel' =>
      let! lv := lastVertex currPline in
      let! q := query defaultNodeSize ix
                  (inj (px lv - joinThreshold)) (inj (py lv - joinThreshold))
                  (inj (px lv + joinThreshold)) (inj (py lv + joinThreshold)) [] in
      let! q := removeIf (fun i => if (i =? beginning)%nat then Ok false
                                   else rget visited i) q in
      match q with
      | [] => Ok (visited, result)
      | _ =>
          let! sel := selector curr q in
          match sel with
          | None => Ok (visited, result)
          | Some c =>
              if (c =? beginning)%nat then
                let! result := closePline result currPline in Ok (visited, result)
              else
                let! cs := rget slices c in
                let! p := popBack currPline in
                let! visited := rset visited c true in
                stitchLoop fuel' selector joinThreshold slices ix beginning visited result
                  (mkPline (isClosed p) (vertexes p ++ vertexes cs)) c
          end
      end
  end.

(** body of the loop over all slices, polylinecombine.hpp:331-389 *)
Definition stitchFrom (selector : nat -> list nat -> res (option nat)) (joinThreshold : T)
    (slices : list polyline) (ix : index) (st : list bool * list polyline) (i : nat)
  : res (list bool * list polyline) :=
  let '(visited, result) := st in
  let! vis := rget visited i in
  if vis then Ok st
  else
    let! visited := rset visited i true in
    let! s := rget slices i in
    stitchLoop (S (length slices)) selector joinThreshold slices ix i visited result
      (mkPline false (vertexes s)) i.

(** polylinecombine.hpp:290-392 *)
Definition stitchOrderedSlices (slices : list polyline)
    (selector : nat -> list nat -> res (option nat)) (joinThreshold : T)
  : res (list polyline) :=
  if (length slices =? 0)%nat then Ok []
  else
    let! ix := stitchIndex slices joinThreshold in
    let! (_, result) :=
      mfold (stitchFrom selector joinThreshold slices ix) (seq 0 (length slices))
            (repeat false (length slices), []) in
    Ok result.

(** polylinecombine.hpp:432-450 *)
Definition unionAndIntersectSelector (startOfCoincidentSlicesIdx : nat)
    (currSliceIndex : nat) (available : list nat) : res (option nat) :=
  match find (fun i => i <? startOfCoincidentSlicesIdx)%nat available with
  | None =>
      if (startOfCoincidentSlicesIdx <=? currSliceIndex)%nat then Ok None
      else let! a := rget available 0 in Ok (Some a)
  | Some i => Ok (Some i)
  end.

(** polylinecombine.hpp:452-525 *)
Definition excludeAndXORSelector (startB startAC startBC : nat)
    (currSliceIndex : nat) (available : list nat) : res (option nat) :=
  let isB := fun i => ((startB <=? i) && (i <? startAC))%nat in
  let isA := fun i => (i <? startB)%nat in
  if (startAC <=? currSliceIndex)%nat then
    if (currSliceIndex <? startBC)%nat then
      match find isB available with
      | Some i => Ok (Some i)
      | None =>
          match find isA available with
          | Some i => Ok (Some i)
          | None => Ok None
          end
      end
    else
      match find isA available with
      | Some i => Ok (Some i)
      | None =>
          match find (fun i => i <? startAC)%nat available with
          | Some i => Ok (Some i)
          | None => Ok None
          end
      end
  else if (currSliceIndex <? startB)%nat then
    match find isB available with
    | Some i => Ok (Some i)
    | None => let! a := rget available 0 in Ok (Some a)
    end
  else
    match find isA available with
    | Some i => Ok (Some i)
    | None => let! a := rget available 0 in Ok (Some a)
    end.

(** polylinecombine.hpp:401 *)
Inductive combineMode := Union | Exclude | Intersect | XOR.

(** polylinecombine.hpp:406-409 *)
Record combineResult := mkComb { remaining : list polyline; subtracted : list polyline }.

(** performUnion's classification loop, polylinecombine.hpp:553-562 *)
Definition splitByOrientation (pline1IsCW : bool) (l : list polyline) : combineResult :=
  let flipped p := negb (Bool.eqb (getArea p <? t0) pline1IsCW) in
  mkComb (filter (fun p => negb (flipped p)) l) (filter flipped l).

(** polylinecombine.hpp:412-684 *)
Definition combinePolylines (plineA plineB : polyline) (mode : combineMode)
  : res combineResult :=
  let! ixA := createApproxSpatialIndex plineA in
  let! ci := processForCombine defaultNodeSize plineA plineB ixA in
  let pointInA pt := negb (getWindingNumber plineA pt =? 0)%Z in
  let pointInB pt := negb (getWindingNumber plineB pt =? 0)%Z in
  let! isAInsideB := (let! a := vget plineA 0 in Ok (pointInB (pos a))) in
  let! isBInsideA := (let! b := vget plineB 0 in Ok (pointInA (pos b))) in
  let stitch cs sel := stitchOrderedSlices (slicesRemaining cs) sel sliceJoinThreshold in
  let unionSel cs := unionAndIntersectSelector (startOfPlineACoincidentSlicesIdx cs) in
  let xorSel cs := excludeAndXORSelector (startOfPlineBSlicesIdx cs)
       (startOfPlineACoincidentSlicesIdx cs) (startOfPlineBCoincidentSlicesIdx cs) in
  match mode with
  | Union =>
      if completelyCoincident ci then Ok (mkComb [plineA] [])
      else if negb (anyIntersects ci) then
        Ok (if isAInsideB then mkComb [plineB] []
            else if isBInsideA then mkComb [plineA] []
            else mkComb [plineA; plineB] [])
      else
        let! cs := collectSlices plineA plineB ci
                     (fun pt => negb (pointInB pt)) (fun pt => negb (pointInA pt)) false in
        let! rem := stitch cs (unionSel cs) in
        Ok (splitByOrientation (ciPline1IsCW ci) rem)
  | Exclude =>
      if completelyCoincident ci then Ok (mkComb [] [])
      else if negb (anyIntersects ci) then
        Ok (if isAInsideB then mkComb [] []
            else if isBInsideA then mkComb [plineA] [plineB]
            else mkComb [plineA] [])
      else
        let! cs := collectSlices plineA plineB ci
                     (fun pt => negb (pointInB pt)) pointInA true in
        let! rem := stitch cs (xorSel cs) in
        Ok (mkComb rem [])
  | Intersect =>
      if completelyCoincident ci then Ok (mkComb [plineA] [])
      else if negb (anyIntersects ci) then
        Ok (if isAInsideB then mkComb [plineA] []
            else if isBInsideA then mkComb [plineB] []
            else mkComb [] [])
      else
        let! cs := collectSlices plineA plineB ci pointInB pointInA false in
        let! rem := stitch cs (unionSel cs) in
        Ok (mkComb rem [])
  | XOR =>
      if completelyCoincident ci then Ok (mkComb [] [])
      else if negb (anyIntersects ci) then
        Ok (if isAInsideB then mkComb [plineB] [plineA]
            else if isBInsideA then mkComb [plineA] [plineB]
            else mkComb [plineA; plineB] [])
      else
        let! cs1 := collectSlices plineA plineB ci
                      (fun pt => negb (pointInB pt)) pointInA true in
        let! rem1 := stitch cs1 (xorSel cs1) in
        let! cs2 := collectSlices plineA plineB ci
                      pointInB (fun pt => negb (pointInA pt)) true in
        let! rem2 := stitch cs2 (xorSel cs2) in
        Ok (mkComb (rem1 ++ rem2) [])
  end.

End Combine.
