(** * Concrete runs of the generic model on rationals (non-vacuity of the generic theorems) *)
From Coq Require Import ZArith QArith Qround List Bool Arith.
From Verif Require Import Base Num QRun MathUtils PlineSegment SpatialIndex Polyline Intersects StdLaws Combine Offset Islands.
Import ListNotations.

(** A square with a square hole, then two overlapping squares on the same object *)
Section Run.
#[local] Existing Instance QOps.
Definition v (x y : Z) := mkVtx (mkV (inject_Z x) (inject_Z y)) 0%Q.
Definition sq := mkPline true [v 0 0; v 10 0; v 10 10; v 0 10]%Z.
Definition sq2 := mkPline true [v 5 5; v 15 5; v 15 15; v 5 15]%Z.
Definition hole := mkPline true [v 4 4; v 4 6; v 6 6; v 6 4]%Z.
Definition run : res (list (list (Z * Z)) * list (list (Z * Z)) * list (list (Z * Z))) :=
  let! i1 := createApproxSpatialIndex sq in
  let! i2 := createApproxSpatialIndex hole in
  let! i3 := createApproxSpatialIndex sq2 in
  let! (o, r1) := compute newObj (mkLoopSet [mkLoop 0 sq i1] [mkLoop 0 hole i2]) 1%Q in
  let! (o2, r2) := compute o (mkLoopSet [mkLoop 0 sq i1; mkLoop 0 sq2 i3] []) 1%Q in
  let show := map (fun l => map (fun v => (Qfloor (vx (pos v)), Qfloor (vy (pos v)))) (vertexes (lpoly l))) in
  Ok (show (ccwLoops r1), show (cwLoops r1), show (ccwLoops r2)).
Definition p (x y : Z) := (x, y).

Example C41_run : run = Ok ([[p 1 1; p 9 1; p 9 9; p 1 9]], [[p 3 4; p 3 6; p 4 7; p 6 7; p 7 6; p 7 4; p 6 3; p 4 3]],
  [[p 6 9; p 1 9; p 1 1; p 9 1; p 9 6; p 9 9]; [p 6 9; p 6 6; p 9 6; p 14 6; p 14 14; p 6 14]])%Z.
Proof. vm_compute. reflexivity. Qed.

(** C51: the raw offset of a square, inwards (sharp corners) and outwards (each corner joined by an arc) *)
Definition rawRun (d : Q) : res (bool * list (Z * Z) * list bool) :=
  let! r := createRawOffsetPline sq d in
  Ok (isClosed r, map (fun v => (Qfloor (vx (pos v)), Qfloor (vy (pos v)))) (vertexes r), map (fun v => bulgeIsZero v) (vertexes r)).

Example C51_run_in : rawRun 1%Q = Ok (true, [p 1 1; p 9 1; p 9 9; p 1 9], [true; true; true; true])%Z.
Proof. vm_compute. reflexivity. Qed.

Example C51_run_out : rawRun (-1)%Q = Ok (true, [p 0 (-1); p 10 (-1); p 11 0; p 11 10; p 10 11; p 0 11; p (-1) 10; p (-1) 0], [true; false; true; false; true; false; true; false])%Z.
Proof. vm_compute. reflexivity. Qed.
End Run.
