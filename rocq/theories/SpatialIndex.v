(** * Model of /repo/include/cavc/staticspatialindex.hpp *)
From Coq Require Import ZArith NArith List Bool Arith.
From Coq Require Import Floats.SpecFloat.
From Verif Require Import Base Num.
Import ListNotations.

(** ** Single-precision level arithmetic, staticspatialindex.hpp:30,354
    [static_cast<std::size_t>(std::ceil(static_cast<float>(n) / NodeSize))].
    binary32 = precision 24, emax 128 (FLT_EVAL_METHOD = 0). *)
Definition f32_of_Z (z : Z) : spec_float := binary_normalize 24 128 z 0 false.

(** ceil and conversion to an integer of a non-negative finite float *)
Definition sf_ceilZ (f : spec_float) : Z :=
  match f with
  | S754_finite false m e =>
      if (0 <=? e)%Z then (Zpos m * 2 ^ e)%Z
      else (- ((- Zpos m) / 2 ^ (- e)))%Z
  | _ => 0%Z
  end.

Definition ceilDivF_Z (n ns : Z) : Z :=
  sf_ceilZ (SFdiv 24 128 (f32_of_Z n) (f32_of_Z ns)).

Definition ceilDivF (n ns : nat) : nat :=
  Z.to_nat (ceilDivF_Z (Z.of_nat n) (Z.of_nat ns)).

(** ** Hilbert curve index, staticspatialindex.hpp:281-334 (uint32 arithmetic:
    left shifts are truncated to 32 bits; right shifts and bit operations of
    32-bit values need no truncation). *)
Section Hilbert.
Local Open Scope N_scope.
Definition shl32 (x k : N) : N := N.land (N.shiftl x k) 0xFFFFFFFF.
Local Notation "x ^^ y" := (N.lxor x y) (at level 40, left associativity).
Local Notation "x & y" := (N.land x y) (at level 40, left associativity).
Local Notation "x '|||' y" := (N.lor x y) (at level 50, left associativity).
Local Notation "x >> k" := (N.shiftr x k) (at level 40, left associativity).

(** staticspatialindex.hpp:323-326 / 328-331: bit interleaving helper *)
Definition hilSpread (i : N) : N :=
  let i := (i ||| shl32 i 8) & 0x00FF00FF in
  let i := (i ||| shl32 i 4) & 0x0F0F0F0F in
  let i := (i ||| shl32 i 2) & 0x33333333 in
  (i ||| shl32 i 1) & 0x55555555.

(** staticspatialindex.hpp:281-334 *)
Definition hilbertXYToIndex (x y : N) : N :=
  let a := x ^^ y in
  let b := 0xFFFF ^^ a in
  let c := 0xFFFF ^^ (x ||| y) in
  let d := x & (y ^^ 0xFFFF) in
  let A := a ||| (b >> 1) in
  let B := (a >> 1) ^^ a in
  let C := ((c >> 1) ^^ (b & (d >> 1))) ^^ c in
  let D := ((a & (c >> 1)) ^^ (d >> 1)) ^^ d in
  let a := A in let b := B in let c := C in let d := D in
  let A := (a & (a >> 2)) ^^ (b & (b >> 2)) in
  let B := (a & (b >> 2)) ^^ (b & ((a ^^ b) >> 2)) in
  let C := C ^^ ((a & (c >> 2)) ^^ (b & (d >> 2))) in
  let D := D ^^ ((b & (c >> 2)) ^^ ((a ^^ b) & (d >> 2))) in
  let a := A in let b := B in let c := C in let d := D in
  let A := (a & (a >> 4)) ^^ (b & (b >> 4)) in
  let B := (a & (b >> 4)) ^^ (b & ((a ^^ b) >> 4)) in
  let C := C ^^ ((a & (c >> 4)) ^^ (b & (d >> 4))) in
  let D := D ^^ ((b & (c >> 4)) ^^ ((a ^^ b) & (d >> 4))) in
  let a := A in let b := B in let c := C in let d := D in
  let C := C ^^ ((a & (c >> 8)) ^^ (b & (d >> 8))) in
  let D := D ^^ ((b & (c >> 8)) ^^ ((a ^^ b) & (d >> 8))) in
  let a := C ^^ (C >> 1) in
  let b := D ^^ (D >> 1) in
  let i0 := x ^^ y in
  let i1 := b ||| (0xFFFF ^^ (i0 ||| a)) in
  shl32 (hilSpread i1) 1 ||| hilSpread i0.
End Hilbert.

Section Index.
Context {O : OrdOps}.

(** Four consecutive Reals of m_boxes (minX, minY, maxX, maxY).  Simplification:
    the code always reads/writes m_boxes in aligned groups of four, so one cell of
    the model is such a group; positions keep the factor 4 of the code. *)
Record box := mkBox { bMinX : X; bMinY : X; bMaxX : X; bMaxY : X }.

(** members, staticspatialindex.hpp:337-348 ([None] = uninitialised memory) *)
Record index := mkIndex {
  m_minX : X; m_minY : X; m_maxX : X; m_maxY : X;
  m_numItems : nat;
  m_numLevels : nat;
  m_levelBounds : list (option nat);
  m_numNodes : nat;
  m_boxes : list (option box);
  m_indices : list (option nat);
  m_pos : nat
}.

(** [pos >> 2] *)
Definition shr2 (p : nat) : nat := p / 4.

(** computeNumLevels do-while loop, staticspatialindex.hpp:350-359 *)
Fixpoint computeNumLevels_loop (fuel NodeSize n levelBoundsSize : nat) : res nat :=
  match fuel with
  | 0 => Fuel
  | S fuel' =>
      let n := ceilDivF n NodeSize in
      let levelBoundsSize := levelBoundsSize + 1 in
      if negb (n =? 1) then computeNumLevels_loop fuel' NodeSize n levelBoundsSize
      else Ok levelBoundsSize
  end.

(** staticspatialindex.hpp:350-359 *)
Definition computeNumLevels (NodeSize numItems : nat) : res nat :=
  computeNumLevels_loop (numItems + 2) NodeSize numItems 1.

(** constructor do-while loop filling m_levelBounds, staticspatialindex.hpp:28-34 *)
Fixpoint levelBounds_loop (fuel NodeSize n numNodes i : nat) (lb : list (option nat))
  : res (nat * list (option nat)) :=
  match fuel with
  | 0 => Fuel
  | S fuel' =>
      let n := ceilDivF n NodeSize in
      let numNodes := numNodes + n in
      let! lb := rset lb i (Some (numNodes * 4)) in
      let i := i + 1 in
      if negb (n =? 1) then levelBounds_loop fuel' NodeSize n numNodes i lb
      else Ok (numNodes, lb)
  end.

(** constructor, staticspatialindex.hpp:14-43 *)
Definition construct (NodeSize numItems : nat) : res index :=
  let! numLevels := computeNumLevels NodeSize numItems in
  let! lb := rset (repeat None numLevels) 0 (Some (numItems * 4)) in
  let! (numNodes, lb) := levelBounds_loop (numItems + 2) NodeSize numItems numItems 1 lb in
  Ok (mkIndex xinf xinf xninf xninf numItems numLevels lb numNodes
        (repeat None numNodes) (repeat None numNodes) 0).

(** staticspatialindex.hpp:50-66 *)
Definition add (ix : index) (minX minY maxX maxY : X) : res index :=
  let index := shr2 (m_pos ix) in
  let! indices := rset (m_indices ix) index (Some index) in
  let! boxes := rset (m_boxes ix) (shr2 (m_pos ix)) (Some (mkBox minX minY maxX maxY)) in
  Ok (mkIndex
        (if xltb minX (m_minX ix) then minX else m_minX ix)
        (if xltb minY (m_minY ix) then minY else m_minY ix)
        (if xltb (m_maxX ix) maxX then maxX else m_maxX ix)
        (if xltb (m_maxY ix) maxY then maxY else m_maxY ix)
        (m_numItems ix) (m_numLevels ix) (m_levelBounds ix) (m_numNodes ix)
        boxes indices (m_pos ix + 4)).

(** The three arrays handled by sort/swap. *)
Record sortSt := mkSort {
  sValues : list N; sBoxes : list (option box); sIndices : list (option nat) }.

(** staticspatialindex.hpp:391-416 *)
Definition swap (s : sortSt) (i j : nat) : res sortSt :=
  let! vi := rget (sValues s) i in
  let! vj := rget (sValues s) j in
  let! vals := rset (sValues s) i vj in
  let! vals := rset vals j vi in
  let! bi := rget (sBoxes s) i in
  let! bj := rget (sBoxes s) j in
  let! bxs := rset (sBoxes s) i bj in
  let! bxs := rset bxs j bi in
  let! ei := rget (sIndices s) i in
  let! ej := rget (sIndices s) j in
  let! ixs := rset (sIndices s) i ej in
  let! ixs := rset ixs j ei in
  Ok (mkSort vals bxs ixs).

(** [do i++; while (values[i] < pivot);] entered with the already incremented i,
    staticspatialindex.hpp:376-378 (the initial [left - 1] wraps and is
    incremented back before the first read) *)
Fixpoint scanUp (fuel : nat) (values : list N) (pivot : N) (i : nat) : res nat :=
  match fuel with
  | 0 => Fuel
  | S fuel' =>
      let! v := rget values i in
      if N.ltb v pivot then scanUp fuel' values pivot (i + 1) else Ok i
  end.

(** [do j--; while (values[j] > pivot);] entered with the already decremented j,
    staticspatialindex.hpp:379-381; decrementing 0 wraps to SIZE_MAX: out of range *)
Fixpoint scanDown (fuel : nat) (values : list N) (pivot : N) (j : nat) : res nat :=
  match fuel with
  | 0 => Fuel
  | S fuel' =>
      let! v := rget values j in
      if N.ltb pivot v then
        match j with 0 => UB | S j' => scanDown fuel' values pivot j' end
      else Ok j
  end.

(** the [while (true)] partition loop, staticspatialindex.hpp:375-385; [i], [j] are
    the values after the pending increment/decrement *)
Fixpoint partition_loop (fuel : nat) (pivot : N) (s : sortSt) (i j : nat)
  : res (nat * sortSt) :=
  match fuel with
  | 0 => Fuel
  | S fuel' =>
      let! i := scanUp (S (length (sValues s))) (sValues s) pivot i in
      let! j := scanDown (S (length (sValues s))) (sValues s) pivot j in
      if j <=? i then Ok (j, s)
      else
        let! s := swap s i j in
        match j with
        | 0 => UB
        | S j' => partition_loop fuel' pivot s (i + 1) j'
        end
  end.

(** staticspatialindex.hpp:362-389 *)
Fixpoint sort (fuel : nat) (NodeSize : nat) (s : sortSt) (left right : nat) : res sortSt :=
  match fuel with
  | 0 => Fuel
  | S fuel' =>
      if right / NodeSize <=? left / NodeSize then Ok s
      else
        let! pivot := rget (sValues s) (Nat.div2 (left + right)) in
        let! (j, s) := partition_loop (S (right - left)) pivot s left right in
        let! s := sort fuel' NodeSize s left j in
        sort fuel' NodeSize s (j + 1) right
  end.

(** Hilbert value of one item, staticspatialindex.hpp:89-106 *)
Definition hilbertValue (ix : index) (b : box) : res N :=
  let! hx := ofOption (xhil (m_minX ix) (m_maxX ix) (bMinX b) (bMaxX b)) in
  let! hy := ofOption (xhil (m_minY ix) (m_maxY ix) (bMinY b) (bMaxY b)) in
  Ok (hilbertXYToIndex hx hy).

(** inner for loop computing a node's bounding box, staticspatialindex.hpp:126-139;
    [k] counts the remaining iterations [j < NodeSize] *)
Fixpoint nodeBox_loop (k : nat) (boxes : list (option box)) (pos end_ : nat) (nb : box)
  : res (nat * box) :=
  match k with
  | 0 => Ok (pos, nb)
  | S k' =>
      if pos <? end_ then
        let! b := rgetI boxes (shr2 pos) in
        nodeBox_loop k' boxes (pos + 4) end_
          (mkBox (if xltb (bMinX b) (bMinX nb) then bMinX b else bMinX nb)
                 (if xltb (bMinY b) (bMinY nb) then bMinY b else bMinY nb)
                 (if xltb (bMaxX nb) (bMaxX b) then bMaxX b else bMaxX nb)
                 (if xltb (bMaxY nb) (bMaxY b) then bMaxY b else bMaxY nb))
      else Ok (pos, nb)
  end.

(** State of the tree construction: read position [pos], arrays, write position m_pos *)
Record buildSt := mkBuild {
  bsPos : nat; bsBoxes : list (option box); bsIndices : list (option nat); bsMPos : nat }.

(** [while (pos < end)] loop of one level, staticspatialindex.hpp:118-147 *)
Fixpoint level_loop (fuel NodeSize end_ : nat) (s : buildSt) : res buildSt :=
  match fuel with
  | 0 => Fuel
  | S fuel' =>
      if bsPos s <? end_ then
        let nodeIndex := bsPos s in
        let! (pos, nb) := nodeBox_loop NodeSize (bsBoxes s) (bsPos s) end_
                             (mkBox xinf xinf xninf xninf) in
        let! ixs := rset (bsIndices s) (shr2 (bsMPos s)) (Some nodeIndex) in
        let! bxs := rset (bsBoxes s) (shr2 (bsMPos s)) (Some nb) in
        level_loop fuel' NodeSize end_ (mkBuild pos bxs ixs (bsMPos s + 4))
      else Ok s
  end.

(** [for (i = 0; i < m_numLevels - 1; i++)], staticspatialindex.hpp:114-148 *)
Fixpoint levels_loop (k NodeSize : nat) (lb : list (option nat)) (i : nat) (s : buildSt)
  : res buildSt :=
  match k with
  | 0 => Ok s
  | S k' =>
      let! end_ := rgetI lb i in
      let! s := level_loop (S (length (bsBoxes s))) NodeSize end_ s in
      levels_loop k' NodeSize lb (i + 1) s
  end.

(** staticspatialindex.hpp:68-149 *)
Definition finish (NodeSize : nat) (ix : index) : res index :=
  if m_numItems ix <=? NodeSize then
    let! ixs := rset (m_indices ix) (shr2 (m_pos ix)) (Some 0) in
    let! bxs := rset (m_boxes ix) (shr2 (m_pos ix))
                  (Some (mkBox (m_minX ix) (m_minY ix) (m_maxX ix) (m_maxY ix))) in
    Ok (mkIndex (m_minX ix) (m_minY ix) (m_maxX ix) (m_maxY ix) (m_numItems ix)
          (m_numLevels ix) (m_levelBounds ix) (m_numNodes ix) bxs ixs (m_pos ix + 4))
  else
    let! hvals := mmap (fun i => let! b := rgetI (m_boxes ix) i in hilbertValue ix b)
                    (seq 0 (m_numItems ix)) in
    let! s := sort (m_numItems ix + 1) NodeSize (mkSort hvals (m_boxes ix) (m_indices ix))
                0 (m_numItems ix - 1) in
    let! s := levels_loop (m_numLevels ix - 1) NodeSize (m_levelBounds ix) 0
                (mkBuild 0 (sBoxes s) (sIndices s) (m_pos ix)) in
    Ok (mkIndex (m_minX ix) (m_minY ix) (m_maxX ix) (m_maxY ix) (m_numItems ix)
          (m_numLevels ix) (m_levelBounds ix) (m_numNodes ix)
          (bsBoxes s) (bsIndices s) (bsMPos s)).

(** ** Visiting *)

(** bounding box test, staticspatialindex.hpp:252-253 (true = no intersect) *)
Definition noOverlap (q b : box) : bool :=
  xltb (bMaxX q) (bMinX b) || xltb (bMaxY q) (bMinY b) ||
  xltb (bMaxX b) (bMinX q) || xltb (bMaxY b) (bMinY q).

Section Visit.
Context {St : Type}.

(** for loop over one node, staticspatialindex.hpp:249-268.  The stack is a list with
    the top first; [push_back(index); push_back(level-1)] is [level-1 :: index :: _].
    At most NodeSize iterations since [end <= nodeIndex + 4 NodeSize].
    Result: (done, visitor state, stack). *)
Fixpoint queryNode_loop (k : nat) (ix : index) (q : box) (visitor : St -> nat -> bool * St)
    (nodeIndex level end_ pos : nat) (st : St) (stack : list nat)
  : res (bool * St * list nat) :=
  match k with
  | 0 => Ok (false, st, stack)
  | S k' =>
      if pos <? end_ then
        let! index := rgetI (m_indices ix) (shr2 pos) in
        let! b := rgetI (m_boxes ix) (shr2 pos) in
        if noOverlap q b then
          queryNode_loop k' ix q visitor nodeIndex level end_ (pos + 4) st stack
        else if nodeIndex <? m_numItems ix * 4 then
          let '(go, st) := visitor st index in
          if negb go then Ok (true, st, stack)
          else queryNode_loop k' ix q visitor nodeIndex level end_ (pos + 4) st stack
        else
          queryNode_loop k' ix q visitor nodeIndex level end_ (pos + 4) st
            ((level - 1) :: index :: stack)
      else Ok (false, st, stack)
  end.

(** [while (!done)], staticspatialindex.hpp:245-278 *)
Fixpoint query_loop (fuel NodeSize : nat) (ix : index) (q : box)
    (visitor : St -> nat -> bool * St) (nodeIndex level : nat) (st : St) (stack : list nat)
  : res St :=
  match fuel with
  | 0 => Fuel
  | S fuel' =>
      let! lb := rgetI (m_levelBounds ix) level in
      let end_ := Nat.min (nodeIndex + NodeSize * 4) lb in
      let! (done, st, stack) :=
        queryNode_loop NodeSize ix q visitor nodeIndex level end_ nodeIndex st stack in
      match stack with
      | level' :: nodeIndex' :: stack' =>
          if done then Ok st
          else query_loop fuel' NodeSize ix q visitor nodeIndex' level' st stack'
      | _ => Ok st
      end
  end.

(** staticspatialindex.hpp:232-279 (visitQuery; the caller-supplied stack is cleared) *)
Definition visitQuery (NodeSize : nat) (ix : index) (minX minY maxX maxY : X)
    (visitor : St -> nat -> bool * St) (st : St) : res St :=
  query_loop (S (m_numNodes ix)) NodeSize ix (mkBox minX minY maxX maxY) visitor
    (4 * m_numNodes ix - 4) (m_numLevels ix - 1) st [].

(** staticspatialindex.hpp:190-196; [k] = number of remaining cells *)
Fixpoint visitItemBoxes_loop (k : nat) (ix : index) (visitor : St -> nat -> box -> bool * St)
    (end_ i : nat) (st : St) : res St :=
  match k with
  | 0 => Fuel
  | S k' =>
      if i <? end_ then
        let! index := rgetI (m_indices ix) (shr2 i) in
        let! b := rgetI (m_boxes ix) (shr2 i) in
        let '(go, st) := visitor st index b in
        if negb go then Ok st
        else visitItemBoxes_loop k' ix visitor end_ (i + 4) st
      else Ok st
  end.

Definition visitItemBoxes (ix : index) (visitor : St -> nat -> box -> bool * St) (st : St)
  : res St :=
  let! end_ := rgetI (m_levelBounds ix) 0 in
  visitItemBoxes_loop (S (m_numNodes ix)) ix visitor end_ 0 st.

(** visitBoundingBoxes inner loop, staticspatialindex.hpp:164-174;
    result (stopped, state, stack) *)
Fixpoint bbNode_loop (k : nat) (ix : index) (visitor : St -> nat -> box -> bool * St)
    (nodeIndex level end_ pos : nat) (st : St) (stack : list nat)
  : res (bool * St * list nat) :=
  match k with
  | 0 => Ok (false, st, stack)
  | S k' =>
      if pos <? end_ then
        let! index := rgetI (m_indices ix) (shr2 pos) in
        let! b := rgetI (m_boxes ix) (shr2 pos) in
        let '(go, st) := visitor st level b in
        if negb go then Ok (true, st, stack)
        else if m_numItems ix * 4 <=? nodeIndex then
          bbNode_loop k' ix visitor nodeIndex level end_ (pos + 4) st
            ((level - 1) :: index :: stack)
        else bbNode_loop k' ix visitor nodeIndex level end_ (pos + 4) st stack
      else Ok (false, st, stack)
  end.

Fixpoint bb_loop (fuel NodeSize : nat) (ix : index) (visitor : St -> nat -> box -> bool * St)
    (nodeIndex level : nat) (st : St) (stack : list nat) : res St :=
  match fuel with
  | 0 => Fuel
  | S fuel' =>
      let! lb := rgetI (m_levelBounds ix) level in
      let end_ := Nat.min (nodeIndex + NodeSize * 4) lb in
      let! (stopped, st, stack) :=
        bbNode_loop NodeSize ix visitor nodeIndex level end_ nodeIndex st stack in
      if stopped then Ok st
      else
        match stack with
        | level' :: nodeIndex' :: stack' =>
            bb_loop fuel' NodeSize ix visitor nodeIndex' level' st stack'
        | _ => Ok st
        end
  end.

(** staticspatialindex.hpp:154-185 *)
Definition visitBoundingBoxes (NodeSize : nat) (ix : index)
    (visitor : St -> nat -> box -> bool * St) (st : St) : res St :=
  bb_loop (S (m_numNodes ix)) NodeSize ix visitor
    (4 * m_numNodes ix - 4) (m_numLevels ix - 1) st [].
End Visit.

(** staticspatialindex.hpp:199-206 / 210-218: [results] is appended to *)
Definition query (NodeSize : nat) (ix : index) (minX minY maxX maxY : X) (results : list nat)
  : res (list nat) :=
  visitQuery NodeSize ix minX minY maxX maxY
    (fun rs index => (true, rs ++ [index])) results.

(** A complete build: construct, add every box in order, finish
    (the protocol required by the CAVC_ASSERTs of lines 15, 69 and 234). *)
Definition addAll (ix : index) (bs : list box) : res index :=
  mfold (fun ix b => add ix (bMinX b) (bMinY b) (bMaxX b) (bMaxY b)) bs ix.

Definition build (NodeSize : nat) (bs : list box) : res index :=
  let! ix := construct NodeSize (length bs) in
  let! ix := addAll ix bs in
  finish NodeSize ix.

End Index.
