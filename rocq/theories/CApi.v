(** * Model of /repo/src/cavaliercontours.cpp (declared in cavaliercontours.h)

    The C API hands out pointers to heap objects.  An address is a natural number; the
    heap maps addresses to objects, [None] marks freed memory.  Any access to a freed
    or never allocated address is UB, freeing a freed address is UB (double free).
    Not modelled: allocation failure, the try/catch wrappers (std::terminate on
    std::exception, lines 8-15), and null handles (excluded by the CAVC_ASSERTs) except for
    [delete nullptr] (no effect). *)
From Coq Require Import ZArith NArith List Bool Arith.
From Verif Require Import Base Num MathUtils PlineSegment SpatialIndex Polyline Intersects
  Combine Offset.
Import ListNotations.

(** Growth policy of std::vector: [vec_grow cap n] is the new capacity when [n > cap]
    elements are needed (law used by theorems: [n <= vec_grow cap n]). *)
Class VecPolicy := { vec_grow : nat -> nat -> nat }.

Section CApi.
Context {RO : RealOps} {SL : StdLib} {VP : VecPolicy}.

(** static_cast<uint32_t>(size) *)
Definition toU32 (n : nat) : N := N.modulo (N.of_nat n) (2 ^ 32)%N.

(** std::vector::reserve / growth on push_back *)
Definition reserveCap (cap n : nat) : nat := if n <=? cap then cap else vec_grow cap n.

(** struct cavc_pline, cavaliercontours.cpp:17-21, with the capacity of its vector *)
Record cpline := mkCP_ { cdata : polyline; ccap : nat }.

(** struct cavc_pline_list, cavaliercontours.cpp:23-25: the unique_ptrs as addresses *)
Record heap := mkHeap { hPlines : list (option cpline); hLists : list (option (list nat)) }.
Definition emptyHeap : heap := mkHeap [] [].

(** dereference of a cavc_pline* *)
Definition getP (h : heap) (a : nat) : res cpline := rgetI (hPlines h) a.
Definition setP (h : heap) (a : nat) (p : cpline) : res heap :=
  let! _ := getP h a in
  let! ps := rset (hPlines h) a (Some p) in Ok (mkHeap ps (hLists h)).
(** [new cavc_pline] *)
Definition allocP (h : heap) (p : cpline) : heap * nat :=
  (mkHeap (hPlines h ++ [Some p]) (hLists h), length (hPlines h)).
(** [delete pline] *)
Definition freeP (h : heap) (a : nat) : res heap :=
  let! _ := getP h a in
  let! ps := rset (hPlines h) a None in Ok (mkHeap ps (hLists h)).
Definition getL (h : heap) (a : nat) : res (list nat) := rgetI (hLists h) a.
Definition setL (h : heap) (a : nat) (l : list nat) : res heap :=
  let! _ := getL h a in
  let! ls := rset (hLists h) a (Some l) in Ok (mkHeap (hPlines h) ls).
Definition allocL (h : heap) (l : list nat) : heap * nat :=
  (mkHeap (hPlines h) (hLists h ++ [Some l]), length (hLists h)).

(** move_to_list, cavaliercontours.cpp:28-34.  The cavc_pline constructor of line 20 copies
    (its parameter is an lvalue), so the capacity of the copy is at least the size; it is
    modelled as a fresh reservation. *)
Fixpoint moveToList (h : heap) (plines : list polyline) : heap * list nat :=
  match plines with
  | [] => (h, [])
  | p :: ps =>
      let '(h, a) := allocP h (mkCP_ p (reserveCap 0 (size p))) in
      let '(h, as_) := moveToList h ps in
      (h, a :: as_)
  end.

(** copy_to_pline, cavaliercontours.cpp:37-45; [data] = the vertex_count vertexes the
    caller's array holds *)
Definition copyToPline (p : cpline) (data : list vertex) : cpline :=
  mkCP_ (mkPline (isClosed (cdata p)) data) (reserveCap (ccap p) (length data)).

(** cavc_pline_new, lines 57-68; [data = None]: null vertex_data *)
Definition pline_new (h : heap) (data : option (list vertex)) (vertex_count : nat)
    (is_closed : bool) : heap * nat :=
  let p := mkCP_ emptyPline 0 in
  let p := match data with
           | Some vs => copyToPline p (firstn vertex_count vs)
           | None => mkCP_ (cdata p) (reserveCap (ccap p) vertex_count)
           end in
  allocP h (mkCP_ (setClosed (cdata p) is_closed) (ccap p)).

(** cavc_pline_delete, lines 70-74 ([None]: null pointer) *)
Definition pline_delete (h : heap) (a : option nat) : res heap :=
  match a with None => Ok h | Some a => freeP h a end.

(** cavc_pline_capacity, lines 76-81 *)
Definition pline_capacity (h : heap) (a : nat) : res N :=
  let! p := getP h a in Ok (toU32 (ccap p)).
(** cavc_pline_set_capacity, lines 83-88 *)
Definition pline_set_capacity (h : heap) (a : nat) (sz : nat) : res heap :=
  let! p := getP h a in setP h a (mkCP_ (cdata p) (reserveCap (ccap p) sz)).
(** cavc_pline_vertex_count, lines 90-95 *)
Definition pline_vertex_count (h : heap) (a : nat) : res N :=
  let! p := getP h a in Ok (toU32 (size (cdata p))).
(** cavc_pline_vertex_data, lines 97-102 and 48-55: writes the first (size mod 2^32)
    vertexes into the caller's array *)
Definition pline_vertex_data (h : heap) (a : nat) : res (list vertex) :=
  let! p := getP h a in
  Ok (firstn (N.to_nat (toU32 (size (cdata p)))) (vertexes (cdata p))).
(** cavc_pline_is_closed, lines 104-109 *)
Definition pline_is_closed (h : heap) (a : nat) : res bool :=
  let! p := getP h a in Ok (isClosed (cdata p)).
(** cavc_pline_set_vertex_data, lines 111-117 *)
Definition pline_set_vertex_data (h : heap) (a : nat) (data : list vertex) : res heap :=
  let! p := getP h a in setP h a (copyToPline p data).
(** cavc_pline_add_vertex, lines 119-124 *)
Definition pline_add_vertex (h : heap) (a : nat) (v : vertex) : res heap :=
  let! p := getP h a in
  setP h a (mkCP_ (addVertex (cdata p) v) (reserveCap (ccap p) (S (size (cdata p))))).
(** the two range assertions of lines 128-129; [start_index + count] is 32-bit *)
Definition remove_range_asserts (sz : nat) (start_index count : N) : bool :=
  N.ltb start_index (N.of_nat sz) &&
  N.leb (N.modulo (start_index + count) (2 ^ 32)) (N.of_nat sz).
(** cavc_pline_remove_range, lines 126-135: erase of [start, start + count) is UB when the
    range is not inside the vector *)
Definition pline_remove_range (h : heap) (a : nat) (start_index count : N) : res heap :=
  let! p := getP h a in
  let vs := vertexes (cdata p) in
  if N.leb (start_index + count) (N.of_nat (length vs)) then
    setP h a (mkCP_ (mkPline (isClosed (cdata p))
                       (firstn (N.to_nat start_index) vs ++
                        skipn (N.to_nat (start_index + count)) vs)) (ccap p))
  else UB.
(** cavc_pline_clear, lines 137-142 *)
Definition pline_clear (h : heap) (a : nat) : res heap :=
  let! p := getP h a in setP h a (mkCP_ (mkPline (isClosed (cdata p)) []) (ccap p)).
(** cavc_pline_set_is_closed, lines 144-149 *)
Definition pline_set_is_closed (h : heap) (a : nat) (c : bool) : res heap :=
  let! p := getP h a in setP h a (mkCP_ (setClosed (cdata p) c) (ccap p)).

(** cavc_pline_list_delete, lines 151-155: deletes the list and every pline it owns *)
Definition list_delete (h : heap) (l : option nat) : res heap :=
  match l with
  | None => Ok h
  | Some l =>
      let! ps := getL h l in
      let! h := mfold freeP ps h in
      let! ls := rset (hLists h) l None in
      Ok (mkHeap (hPlines h) ls)
  end.
(** cavc_pline_list_count, lines 157-162 *)
Definition list_count (h : heap) (l : nat) : res N :=
  let! ps := getL h l in Ok (toU32 (length ps)).
(** cavc_pline_list_get, lines 164-170 *)
Definition list_get (h : heap) (l i : nat) : res nat :=
  let! ps := getL h l in rget ps i.
(** cavc_pline_list_release, lines 172-180 *)
Definition list_release (h : heap) (l i : nat) : res (heap * nat) :=
  let! ps := getL h l in
  let! target := rget ps i in
  let! h := setL h l (firstn i ps ++ skipn (S i) ps) in
  Ok (h, target).

(** cavc_parallel_offset, lines 182-192; returns the address stored in *output *)
Definition api_parallel_offset (h : heap) (a : nat) (delta : T) (option_flags : Z)
  : res (heap * nat) :=
  let! p := getP h a in
  let mayHaveSelfIntersects := negb (Z.land option_flags 1 =? 0)%Z in
  let! results := parallelOffset (cdata p) delta mayHaveSelfIntersects in
  let '(h, ps) := moveToList h results in
  Ok (allocL h ps).

(** switch of lines 201-217 *)
Definition modeOfInt (combine_mode : Z) : combineMode :=
  if (combine_mode =? 0)%Z then Union
  else if (combine_mode =? 1)%Z then Exclude
  else if (combine_mode =? 2)%Z then Intersect
  else if (combine_mode =? 3)%Z then XOR
  else Union.

(** cavc_combine_plines, lines 194-225; returns the addresses stored in *remaining and
    *subtracted *)
Definition api_combine_plines (h : heap) (a b : nat) (combine_mode : Z)
  : res (heap * nat * nat) :=
  let! pa := getP h a in
  let! pb := getP h b in
  let! results := combinePolylines (cdata pa) (cdata pb) (modeOfInt combine_mode) in
  let '(h, rs) := moveToList h (remaining results) in
  let '(h, ss) := moveToList h (subtracted results) in
  let '(h, r) := allocL h rs in
  let '(h, s) := allocL h ss in
  Ok (h, r, s).

(** cavc_get_path_length / area / winding_number / extents, lines 227-258 *)
Definition api_get_path_length (h : heap) (a : nat) : res T :=
  let! p := getP h a in Ok (getPathLength (cdata p)).
Definition api_get_area (h : heap) (a : nat) : res T :=
  let! p := getP h a in Ok (getArea (cdata p)).
Definition api_get_winding_number (h : heap) (a : nat) (pt : vec) : res Z :=
  let! p := getP h a in Ok (getWindingNumber (cdata p) pt).
Definition api_get_extents (h : heap) (a : nat) : res box :=
  let! p := getP h a in Ok (getExtents (cdata p)).
(** cavc_get_closest_point, lines 260-272 *)
Definition api_get_closest_point (h : heap) (a : nat) (pt : vec) : res (N * vec * X) :=
  let! p := getP h a in
  let! c := closestPoint (cdata p) pt in
  Ok (toU32 (cpIndex c), cpPoint c, cpDistance c).

End CApi.
