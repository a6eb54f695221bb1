(** * Spec: the geometric meaning of polyline segments (independent of the code's formulas) *)
From Coq Require Import ZArith Reals Lra List Bool.
From Verif Require Import Base Num MathUtils PlineSegment RGeom.
Import ListNotations.
Open Scope R_scope.

(** rotation of [p] about [c] by the angle [th] (counter clockwise positive) *)
Definition rot (c : vec) (th : R) (p : vec) : vec :=
  mkV (vx c + cos th * (vx p - vx c) - sin th * (vy p - vy c))
      (vy c + sin th * (vx p - vx c) + cos th * (vy p - vy c)).

(** point of the straight segment *)
Definition lerp (p q : vec) (t : R) : vec :=
  mkV (vx p + t * (vx q - vx p)) (vy p + t * (vy q - vy p)).

(** a segment is straight iff its bulge is below the library's arc threshold 1e-5 *)
Definition isLine (v : vertex) : Prop := Rabs (bulge v) < 1 / 100000.

(** sweep angle of an arc with bulge b: the bulge is the tangent of a quarter of it *)
Definition sweep (b : R) : R := 4 * atan b.

(** [c] is the centre of the arc from p1 to p2 with bulge b *)
Definition arcCentre (p1 p2 : vec) (b : R) (c : vec) : Prop := rot c (sweep b) p1 = p2.

(** [q] is the point of the segment v1->v2 at the fraction [t] of its path *)
Definition segPoint (v1 v2 : vertex) (t : R) (q : vec) : Prop :=
  (isLine v1 /\ q = lerp (pos v1) (pos v2) t) \/
  (~ isLine v1 /\ exists c, arcCentre (pos v1) (pos v2) (bulge v1) c /\
                            q = rot c (t * sweep (bulge v1)) (pos v1)).

(** the points of a segment *)
Definition onSeg (v1 v2 : vertex) (q : vec) : Prop := exists t, 0 <= t <= 1 /\ segPoint v1 v2 t q.

(** Euclidean distance *)
Definition dist (p q : vec) : R := sqrt ((vx p - vx q) ^ 2 + (vy p - vy q) ^ 2).
