(** * Model of /repo/include/cavc/polylineoffsetislands.hpp *)
From Coq Require Import ZArith List Bool Arith.
From Verif Require Import Base Num MathUtils PlineSegment SpatialIndex Polyline Intersects
  Combine Offset.
Import ListNotations.

Section Islands.
Context {RO : RealOps} {SL : StdLib}.
Local Open Scope t_scope.

(** struct OffsetLoop, polylineoffsetislands.hpp:10-14 *)
Record offsetLoop := mkLoop { parentLoopIndex : nat; lpoly : polyline; lindex : index }.
(** struct OffsetLoopSet, polylineoffsetislands.hpp:16-19 *)
Record loopSet := mkLoopSet { ccwLoops : list offsetLoop; cwLoops : list offsetLoop }.

(** struct LoopSlicePoint, polylineoffsetislands.hpp:28-32 *)
Record loopSlicePoint := mkLSP { lspIntr : pIntr; noSliceAfterForIndex1 : bool }.
(** struct SlicePointSet, polylineoffsetislands.hpp:35-42 *)
Record slicePointSet := mkSPS {
  loopIndex1 : nat; loopIndex2 : nat; slicePoints : list loopSlicePoint }.
(** struct DissectionPoint, polylineoffsetislands.hpp:59-62 *)
Record dissPoint := mkDP { otherLoopIndex : nat; dpos : vec }.
(** struct DissectedSlice, polylineoffsetislands.hpp:64-73 *)
Record dissSlice := mkDS {
  dsPline : polyline; sliceParentIndex : nat; startLoopIndex : nat; endLoopIndex : nat }.

(** Mutable members of a ParallelOffsetIslands object, polylineoffsetislands.hpp:79-100
    (m_queryStack / m_queryResults are cleared by their users before being read;
    m_offsetLoopsIndex is replaced on each use). *)
Record islandsObj := mkObj {
  o_ccw : list offsetLoop;
  o_cw : list offsetLoop;
  o_index : option index;
  o_visited : list (nat * nat);
  o_sets : list slicePointSet;
  o_lookup : list (list nat);
  o_diss : list (nat * list dissPoint) }.

(** A freshly constructed object *)
Definition newObj : islandsObj := mkObj [] [] None [] [] [] [].

(** polylineoffsetislands.hpp:45-48 *)
Definition getOffsetLoop (o : islandsObj) (i : nat) : res offsetLoop :=
  if (i <? length (o_ccw o))%nat then rget (o_ccw o) i
  else rget (o_cw o) (i - length (o_ccw o)).

(** polylineoffsetislands.hpp:50-53 *)
Definition getParentLoop (input : loopSet) (i : nat) : res offsetLoop :=
  if (i <? length (ccwLoops input))%nat then rget (ccwLoops input) i
  else rget (cwLoops input) (i - length (ccwLoops input)).

(** polylineoffsetislands.hpp:85 *)
Definition totalOffsetLoopsCount (o : islandsObj) : nat :=
  (length (o_ccw o) + length (o_cw o))%nat.

(** loop over the offsets of one counter clockwise input loop, lines 111-118 *)
Definition addCcwOffset (parentIndex : nat) (ccw : list offsetLoop) (offset : polyline)
  : res (list offsetLoop) :=
  if getArea offset <? t0 then Ok ccw
  else
    let! ix := createApproxSpatialIndex offset in
    Ok (ccw ++ [mkLoop parentIndex offset ix]).

(** loop over the offsets of one clockwise input loop, lines 126-133 *)
Definition addCwOffset (parentIndex : nat) (st : list offsetLoop * list offsetLoop)
    (offset : polyline) : res (list offsetLoop * list offsetLoop) :=
  let '(ccw, cw) := st in
  let! ix := createApproxSpatialIndex offset in
  if getArea offset <? t0 then Ok (ccw, cw ++ [mkLoop parentIndex offset ix])
  else Ok (ccw ++ [mkLoop parentIndex offset ix], cw).

(** polylineoffsetislands.hpp:103-136 *)
Definition createOffsetLoops (o : islandsObj) (input : loopSet) (absDelta : T)
  : res islandsObj :=
  let ccw0 := @nil offsetLoop in          (* m_ccwOffsetLoops.clear() *)
  let! (parentIndex, ccw) :=
    mfold (fun '(parentIndex, ccw) loop =>
             let! offsets := parallelOffset (lpoly loop) absDelta false in
             let! ccw := mfold (addCcwOffset parentIndex) offsets ccw in
             Ok (S parentIndex, ccw)) (ccwLoops input) (0%nat, ccw0) in
  let cw0 := @nil offsetLoop in           (* m_cwOffsetLoops.clear() *)
  let! (_, ccw, cw) :=
    mfold (fun '(parentIndex, ccw, cw) loop =>
             let! offsets := parallelOffset (lpoly loop) absDelta false in
             let! (ccw, cw) := mfold (addCwOffset parentIndex) offsets (ccw, cw) in
             Ok (S parentIndex, ccw, cw)) (cwLoops input) (parentIndex, ccw, cw0) in
  Ok (mkObj ccw cw (o_index o) (o_visited o) (o_sets o) (o_lookup o) (o_diss o)).

(** polylineoffsetislands.hpp:138-151 *)
Definition createOffsetLoopsIndex (o : islandsObj) : res islandsObj :=
  let addLoop := fun ix l =>
    add ix (m_minX (lindex l)) (m_minY (lindex l)) (m_maxX (lindex l)) (m_maxY (lindex l)) in
  let! ix := construct defaultNodeSize (totalOffsetLoopsCount o) in
  let! ix := mfold addLoop (o_ccw o) ix in
  let! ix := mfold addLoop (o_cw o) ix in
  let! ix := finish defaultNodeSize ix in
  Ok (mkObj (o_ccw o) (o_cw o) (Some ix) (o_visited o) (o_sets o) (o_lookup o) (o_diss o)).

(** m_slicePointsLookup[i].push_back(x) *)
Definition lookupPush (l : list (list nat)) (i x : nat) : res (list (list nat)) :=
  let! li := rget l i in rset l i (li ++ [x]).

(** loop body for one candidate loop pair, polylineoffsetislands.hpp:169-209 *)
Definition slicePointsPair (o : islandsObj) (i : nat) (loop1 : offsetLoop)
    (st : list (nat * nat) * list slicePointSet * list (list nat)) (j : nat)
  : res (list (nat * nat) * list slicePointSet * list (list nat)) :=
  let '(visited, sets, lk) := st in
  if (i =? j)%nat then Ok st
  else if pairMem j i visited then Ok st
  else
    let visited := (i, j) :: visited in
    let! loop2 := getOffsetLoop o j in
    let! (intrs, coinc) :=
      findIntersects defaultNodeSize (lpoly loop1) (lpoly loop2) (lindex loop1) [] [] in
    if negb (length intrs =? 0)%nat || negb (length coinc =? 0)%nat then
      let pts := map (fun x => mkLSP x false) intrs in
      let! pts :=
        (if negb (length coinc =? 0)%nat then
           let! cs := sortAndjoinCoincidentSlices coinc (lpoly loop1) (lpoly loop2) in
           Ok (pts ++ map (fun x => mkLSP x false) (csStarts cs)
                   ++ map (fun x => mkLSP x true) (csEnds cs))
         else Ok pts) in
      let sets := sets ++ [mkSPS i j pts] in
      let! lk := lookupPush lk i (length sets - 1) in
      let! lk := lookupPush lk j (length sets - 1) in
      Ok (visited, sets, lk)
    else Ok (visited, sets, lk).

(** polylineoffsetislands.hpp:153-211 *)
Definition createSlicePoints (o : islandsObj) : res islandsObj :=
  let total := totalOffsetLoopsCount o in
  let! oix := ofOption (o_index o) in
  let! (visited, sets, lk) :=
    mfold (fun st i =>
      let! loop1 := getOffsetLoop o i in
      let index1 := lindex loop1 in
      let! q := query defaultNodeSize oix (m_minX index1) (m_minY index1)
                  (m_maxX index1) (m_maxY index1) [] in
      mfold (slicePointsPair o i loop1) q st)
      (seq 0 total)
      (* the three members are cleared, the lookup resized to total *)
      ([], [], repeat [] total) in
  Ok (mkObj (o_ccw o) (o_cw o) (o_index o) visited sets lk (o_diss o)).

(** polylineoffsetislands.hpp:213-230 *)
Definition pointOnOffsetValid (input : loopSet) (skipIndex : nat) (pt : vec) (absDelta : T)
  : res bool :=
  mfold (fun ok i =>
           if negb ok then Ok false
           else if (i =? skipIndex)%nat then Ok true
           else
             let! parent := getParentLoop input i in
             pointValidForOffset defaultNodeSize (lpoly parent) absDelta (lindex parent) pt)
        (seq 0 (length (ccwLoops input) + length (cwLoops input))) true.

(** slices between consecutive dissection points of one segment,
    polylineoffsetislands.hpp:279-303 *)
Fixpoint midDissSlices (valid : vec -> res bool) (loopIndex : nat)
    (segEnd prevVertex : vertex) (prevPt : dissPoint) (rest : list dissPoint)
    (result : list dissSlice) : res (list dissSlice) :=
  match rest with
  | [] => Ok result
  | p :: rest' =>
      let split := splitAtPoint prevVertex segEnd (dpos p) in
      let a := updatedStart split in
      let b := splitVertex split in
      let! keep :=
        (if fuzzyEqual (pos a) (pos b) realPrecision then Ok false
         else valid (segMidpoint a b)) in
      let result :=
        if keep
        then result ++ [mkDS (mkPline false [a; b]) loopIndex
                             (otherLoopIndex prevPt) (otherLoopIndex p)]
        else result in
      midDissSlices valid loopIndex segEnd b p rest' result
  end.

(** while loop, polylineoffsetislands.hpp:318-345; returns the slice and endLoopIndex.
    Fuel: running out fires the CAVC_ASSERT of line 320. *)
Fixpoint dissLoop (fuel : nat) (pline : polyline) (m : list (nat * list dissPoint))
    (currSlice : polyline) (index : nat) : res (polyline * nat) :=
  match fuel with
  | 0%nat => Fuel
  | S fuel' =>
      let! v := vget pline index in
      let currSlice := addOrReplaceIfSamePos currSlice v in
      match mfind index m with
      | Some l =>
          let! p := rget l 0 in
          let! nv := vget pline (nextWrappingIndex index (size pline)) in
          let! lv := lastVertex currSlice in
          let split := splitAtPoint lv nv (dpos p) in
          let! currSlice := setLastVertex currSlice (updatedStart split) in
          Ok (addOrReplaceIfSamePos currSlice (mkVtx (dpos p) t0), otherLoopIndex p)
      | None => dissLoop fuel' pline m currSlice (nextWrappingIndex index (size pline))
      end
  end.

(** loop body, polylineoffsetislands.hpp:263-356 *)
Definition dissOne (valid : vec -> res bool) (loopIndex : nat) (pline : polyline)
    (m : list (nat * list dissPoint)) (result : list dissSlice) (kv : nat * list dissPoint)
  : res (list dissSlice) :=
  let '(sIndex, intrsList) := kv in
  let! v1 := vget pline sIndex in
  let nextIndex := nextWrappingIndex sIndex (size pline) in
  let! v2 := vget pline nextIndex in
  match intrsList with
  | [] => UB
  | p0 :: rest =>
      let! result :=
        (if negb (length intrsList =? 1)%nat
         then midDissSlices valid loopIndex v2 (splitVertex (splitAtPoint v1 v2 (dpos p0)))
                p0 rest result
         else Ok result) in
      let lastPt := last rest p0 in
      let split := splitAtPoint v1 v2 (dpos lastPt) in
      let! (curr, endIdx) :=
        dissLoop (S (size pline)) pline m (mkPline false [splitVertex split]) nextIndex in
      if (1 <? size curr)%nat then
        let! a := vget curr (size curr - 2) in
        let! b := lastVertex curr in
        let! ok := valid (segMidpoint a b) in
        if negb ok then Ok result
        else Ok (result ++ [mkDS curr loopIndex (otherLoopIndex lastPt) endIdx])
      else Ok result
  end.

(** filling m_loopDissectionPoints, polylineoffsetislands.hpp:238-251 *)
Definition fillDiss (o : islandsObj) (loopIndex : nat) : res (list (nat * list dissPoint)) :=
  let! setIdxs := rget (o_lookup o) loopIndex in
  mfold (fun m setIndex =>
    let! s := rget (o_sets o) setIndex in
    if (loopIndex =? loopIndex1 s)%nat
    then Ok (fold_left (fun m p => mpush (sIndex1 (lspIntr p))
                          (mkDP (loopIndex2 s) (ipos (lspIntr p))) m) (slicePoints s) m)
    else Ok (fold_left (fun m p => mpush (sIndex2 (lspIntr p))
                          (mkDP (loopIndex1 s) (ipos (lspIntr p))) m) (slicePoints s) m))
    setIdxs [].

(** sorting by distance from the segment start, polylineoffsetislands.hpp:254-260 *)
Definition sortDiss (pline : polyline) (m : list (nat * list dissPoint))
  : res (list (nat * list dissPoint)) :=
  mmap (fun '(k, l) =>
          let! v := vget pline k in
          Ok (k, std_sort (fun a b => distSquared (dpos a) (pos v)
                                      <? distSquared (dpos b) (pos v)) l)) m.

(** polylineoffsetislands.hpp:232-357; returns the object with its updated
    m_loopDissectionPoints (cleared first) *)
Definition createSlicesFromLoop (o : islandsObj) (input : loopSet) (loopIndex : nat)
    (absDelta : T) (result : list dissSlice) : res (islandsObj * list dissSlice) :=
  let! loop := getOffsetLoop o loopIndex in
  let pline := lpoly loop in
  let! m := fillDiss o loopIndex in
  let! m := sortDiss pline m in
  let! result :=
    mfold (dissOne (fun pt => pointOnOffsetValid input (parentLoopIndex loop) pt absDelta)
             loopIndex pline m) (map_order m) result in
  Ok (mkObj (o_ccw o) (o_cw o) (o_index o) (o_visited o) (o_sets o) (o_lookup o) m, result).

(** loop over all offset loops, polylineoffsetislands.hpp:378-394 *)
Definition processLoop (input : loopSet) (absDelta : T)
    (st : islandsObj * loopSet * list dissSlice) (i : nat)
  : res (islandsObj * loopSet * list dissSlice) :=
  let '(o, r, slices) := st in
  let! lk := rget (o_lookup o) i in
  if (length lk =? 0)%nat then
    let! loop := getOffsetLoop o i in
    let! v0 := vget (lpoly loop) 0 in
    let! ok := pointOnOffsetValid input (parentLoopIndex loop) (pos v0) absDelta in
    if negb ok then Ok st
    else if (i <? length (o_ccw o))%nat
      then Ok (o, mkLoopSet (ccwLoops r ++ [loop]) (cwLoops r), slices)
      else Ok (o, mkLoopSet (ccwLoops r) (cwLoops r ++ [loop]), slices)
  else
    let! (o, slices) := createSlicesFromLoop o input i absDelta slices in
    Ok (o, r, slices).

(** loop over the stitched results, polylineoffsetislands.hpp:403-414 *)
Definition addStitched (r : loopSet) (p : polyline) : res loopSet :=
  let area := getArea p in
  if tabs area <? tlit 1 10000 then Ok r
  else
    let! ix := createApproxSpatialIndex p in
    if area <? t0 then Ok (mkLoopSet (ccwLoops r) (cwLoops r ++ [mkLoop 0 p ix]))
    else Ok (mkLoopSet (ccwLoops r ++ [mkLoop 0 p ix]) (cwLoops r)).

(** ParallelOffsetIslands::compute on an object in state [o],
    polylineoffsetislands.hpp:359-417 *)
Definition compute (o : islandsObj) (input : loopSet) (offsetDelta : T)
  : res (islandsObj * loopSet) :=
  let absDelta := tabs offsetDelta in
  let! o := createOffsetLoops o input absDelta in
  if (totalOffsetLoopsCount o =? 0)%nat then Ok (o, mkLoopSet [] [])
  else
    let! o := createOffsetLoopsIndex o in
    let! o := createSlicePoints o in
    let! (o, r, slices) :=
      mfold (processLoop input absDelta) (seq 0 (totalOffsetLoopsCount o))
            (o, mkLoopSet [] [], []) in
    let! stitched :=
      stitchOrderedSlices (map dsPline slices) stitchFirstAvailable sliceJoinThreshold in
    let! r := mfold addStitched stitched r in
    Ok (o, r).

End Islands.
