(** * Model of /repo/include/cavc/mathutils.hpp, vector.hpp (N = 2) and vector2.hpp *)
From Coq Require Import ZArith List Bool Arith.
From Verif Require Import Base Num.
Import ListNotations.

Section MathUtils.
Context {RO : RealOps}.
Local Open Scope t_scope.

(** integer literals [Real(k)] *)
Definition t0 : T := tlit 0 1.
Definition t1 : T := tlit 1 1.
Definition t2 : T := tlit 2 1.
Definition t4 : T := tlit 4 1.

(** mathutils.hpp:10 *)
Definition realThreshold : T := tlit 1 100000000.
(** mathutils.hpp:14 *)
Definition realPrecision : T := tlit 1 100000.
(** mathutils.hpp:17 *)
Definition sliceJoinThreshold : T := tlit 1 10000.
(** mathutils.hpp:20 *)
Definition offsetThreshold : T := tlit 1 10000.
(** mathutils.hpp:22 ([pi] is the nearest Real; exact in the real instance) *)
Definition pi : T := tpi.
(** mathutils.hpp:24 *)
Definition tau : T := t2 * pi.

(** mathutils.hpp:26-28 *)
Definition fuzzyEqualR (x y epsilon : T) : bool := tabs (x - y) <? epsilon.

(** mathutils.hpp:31-33 *)
Definition fuzzyInRange (minValue value maxValue epsilon : T) : bool :=
  (value + epsilon >? minValue) && (value <? maxValue + epsilon).

(** mathutils.hpp:36-42 *)
Definition normalizeRadians (angle : T) : T :=
  if (angle >=? t0) && (angle <=? tau) then angle
  else angle - tfloor (angle / tau) * tau.

(** mathutils.hpp:45-52 *)
Definition deltaAngle (angle1 angle2 : T) : T :=
  let diff := normalizeRadians (angle2 - angle1) in
  if diff >? pi then diff - tau else diff.

(** mathutils.hpp:56-62 *)
Definition angleIsBetween (startAngle endAngle testAngle epsilon : T) : bool :=
  let endSweep := normalizeRadians (endAngle - startAngle) in
  let midSweep := normalizeRadians (testAngle - startAngle) in
  midSweep <? endSweep + epsilon.

(** mathutils.hpp:65-73 *)
Definition angleIsWithinSweep (startAngle sweepAngle testAngle epsilon : T) : bool :=
  let endAngle := startAngle + sweepAngle in
  if sweepAngle <? t0 then angleIsBetween endAngle startAngle testAngle epsilon
  else angleIsBetween startAngle endAngle testAngle epsilon.

(** mathutils.hpp:77-95 *)
Definition quadraticSolutions (a b c discr : T) : T * T :=
  let sqrtDiscr := tsqrt discr in
  let denom := t2 * a in
  let sol1 := if b <? t0 then (- b + sqrtDiscr) / denom else (- b - sqrtDiscr) / denom in
  let sol2 := (c / a) / sol1 in
  (sol1, sol2).

(** mathutils.hpp:97-103; [n] = container.size().  For n = 0, [size() - 1] is SIZE_MAX,
    so the branch is not taken and index + 1 is returned. *)
Definition nextWrappingIndex (index n : nat) : nat :=
  if (S index =? n)%nat then 0%nat else S index.

(** mathutils.hpp:105-111; simplification: for n = 0 and index = 0 the code returns
    SIZE_MAX, the model 0 (never called that way). *)
Definition prevWrappingIndex (index n : nat) : nat :=
  if (index =? 0)%nat then (n - 1)%nat else (index - 1)%nat.

(** ** vector.hpp with N = 2 *)

(** vector.hpp:7-111 *)
Record vec := mkV { vx : T; vy : T }.

(** vector.hpp:60-64 *)
Definition vzero : vec := mkV t0 t0.

(** vector.hpp:113-120 *)
Definition fuzzyZero (v : vec) (epsilon : T) : bool :=
  (tabs (vx v) <? epsilon) && (tabs (vy v) <? epsilon).

(** vector.hpp:122-132 *)
Definition fuzzyEqual (v1 v2 : vec) (epsilon : T) : bool :=
  fuzzyEqualR (vx v1) (vx v2) epsilon && fuzzyEqualR (vy v1) (vy v2) epsilon.

(** vector.hpp:147-150,180-185 *)
Definition vadd (a b : vec) : vec := mkV (vx a + vx b) (vy a + vy b).
(** vector.hpp:153-159 *)
Definition vsub (a b : vec) : vec := mkV (vx a - vx b) (vy a - vy b).
(** vector.hpp:162-171,196-201: [v[i] *= scalar] *)
Definition vscale (s : T) (v : vec) : vec := mkV (vx v * s) (vy v * s).
(** vector.hpp:174-177,204-216 *)
Definition vdiv (v : vec) (s : T) : vec :=
  if negb (s =? t0) then
    let invScalar := t1 / s in mkV (vx v * invScalar) (vy v * invScalar)
  else mkV t0 t0.
(** vector.hpp:247-253 *)
Definition dot (a b : vec) : T := vx a * vx b + vy a * vy b.
(** vector.hpp:255-257 *)
Definition vlength (v : vec) : T := tsqrt (dot v v).
(** vector.hpp:259-264 (the returned length is never used by callers) *)
Definition normalize (v : vec) : vec := vdiv v (tsqrt (dot v v)).

(** ** vector2.hpp *)

(** vector2.hpp:10-12 *)
Definition perp (v : vec) : vec := mkV (- vy v) (vx v).
(** vector2.hpp:15-19 *)
Definition unitPerp (v : vec) : vec := normalize (mkV (- vy v) (vx v)).
(** vector2.hpp:22-24 *)
Definition perpDot (v0 v1 : vec) : T := vx v0 * vy v1 - vy v0 * vx v1.
(** vector2.hpp:27-30 *)
Definition distSquared (p0 p1 : vec) : T := let d := vsub p1 p0 in dot d d.
(** vector2.hpp:33-35 *)
Definition angle (p0 p1 : vec) : T := tatan2 (vy p1 - vy p0) (vx p1 - vx p0).
(** vector2.hpp:38-40 *)
Definition midpoint (p0 p1 : vec) : vec :=
  mkV ((vx p0 + vx p1) / t2) ((vy p0 + vy p1) / t2).
(** vector2.hpp:43-47 *)
Definition pointOnCircle (radius : T) (center : vec) (ang : T) : vec :=
  mkV (vx center + radius * tcos ang) (vy center + radius * tsin ang).
(** vector2.hpp:50-53 *)
Definition pointFromParametric (p0 p1 : vec) (t : T) : vec := vadd p0 (vscale t (vsub p1 p0)).

(** vector2.hpp:56-75 *)
Definition closestPointOnLineSeg (p0 p1 point : vec) : vec :=
  let v := vsub p1 p0 in
  let w := vsub point p0 in
  let c1 := dot w v in
  if c1 <? realThreshold then p0
  else
    let c2 := dot v v in
    if c2 <? c1 + realThreshold then p1
    else
      let b := c1 / c2 in
      vadd p0 (vscale b v).

(** the expression shared by the four predicates below *)
Definition leftExpr (p0 p1 point : vec) : T :=
  (vx p1 - vx p0) * (vy point - vy p0) - (vy p1 - vy p0) * (vx point - vx p0).
(** vector2.hpp:78-82 *)
Definition isLeft (p0 p1 point : vec) : bool := leftExpr p0 p1 point >? t0.
(** vector2.hpp:85-89 *)
Definition isLeftOrEqual (p0 p1 point : vec) : bool := leftExpr p0 p1 point >=? t0.
(** vector2.hpp:93-98 *)
Definition isLeftOrCoincident (p0 p1 point : vec) (epsilon : T) : bool :=
  leftExpr p0 p1 point >? - epsilon.
(** vector2.hpp:102-107 *)
Definition isRightOrCoincident (p0 p1 point : vec) (epsilon : T) : bool :=
  leftExpr p0 p1 point <? epsilon.

(** vector2.hpp:110-122 *)
Definition pointWithinArcSweepAngle (center arcStart arcEnd : vec) (bulge : T) (point : vec)
  : bool :=
  if bulge >? t0 then
    isLeftOrCoincident center arcStart point realThreshold &&
    isRightOrCoincident center arcEnd point realThreshold
  else
    isRightOrCoincident center arcStart point realThreshold &&
    isLeftOrCoincident center arcEnd point realThreshold.

End MathUtils.
