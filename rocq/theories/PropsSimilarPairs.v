(** * C70, continued: translated segments and intersections of segments *)
From Coq Require Import ZArith Reals Lra Lia List Bool Arith Permutation.
From Verif Require Import Base Num MathUtils PlineSegment SpatialIndex Polyline RGeom Spec PropsMath ArcGeom PropsPolyline PropsArea PropsRegion PropsSimilar.
Import ListNotations.
Open Scope R_scope.

Section Pairs.
Variable v : vec.
Local Notation im := (image 1 v).
Local Notation imw := (imv 1 v).

Lemma lt_im k x y : Rltb (k + x * 1) (k + y * 1) = Rltb x y. Proof. apply Rltb_im; lra. Qed.
Lemma lt_im_e k x y e : Rltb (k + x * 1) (k + y * 1 + e) = Rltb x (y + e). Proof. apply Rltb_eq. split; lra. Qed.

Lemma isInSegment_im p a b : isInSegment (im p) (im a) (im b) = isInSegment p a b.
Proof.
  assert (F : forall k x y, fuzzyEqualR (k + x * 1) (k + y * 1) realThreshold = fuzzyEqualR x y realThreshold).
  { intros k x y. unfold fuzzyEqualR. cbn [tltb tabs tsub ROps]. f_equal. f_equal. ring. }
  assert (G : forall k x y z, (let '(mn, mx) := tminmax (k + x * 1) (k + y * 1) in fuzzyInRange mn (k + z * 1) mx realThreshold) = (let '(mn, mx) := tminmax x y in fuzzyInRange mn z mx realThreshold)).
  { intros k x y z. unfold tminmax. cbn [tltb ROps]. rewrite lt_im. destruct (Rltb y x); unfold fuzzyInRange; cbn [tltb tadd ROps]; rewrite !lt_im_e; reflexivity. }
  unfold isInSegment, image. cbn [vx vy]. rewrite F. destruct (fuzzyEqualR _ _ _); apply G.
Qed.

Definition imLL (r : llResult) : llResult := match r with LLTrue p => LLTrue (im p) | LLFalse a b p => LLFalse a b (im p) | r => r end.
Lemma line_line_im u1 u2 v1 v2 : intrLineSeg2LineSeg2 (im u1) (im u2) (im v1) (im v2) = imLL (intrLineSeg2LineSeg2 u1 u2 v1 v2).
Proof.
  unfold intrLineSeg2LineSeg2. cbv zeta. rewrite !vsub_im1, !fuzzy_im, !isInSegment_im.
  destruct (tltb _ _); [destruct (_ || _)%bool; cbn [imLL]; now rewrite vadd_im1|].
  destruct (_ || _)%bool; [reflexivity|]. destruct (_ && _)%bool; [now destruct (fuzzyEqual _ _ _)|]. destruct (fuzzyEqual _ _ _); [now destruct (isInSegment _ _ _)|]. destruct (fuzzyEqual _ _ _); [now destruct (isInSegment _ _ _)|].
  match goal with |- context [let '(r0, r1) := if ?c then ?a else ?b in _] => destruct (if c then a else b) as [r0 r1] end. match goal with |- context [let '(r0, r1) := if ?c then ?a else ?b in _] => destruct (if c then a else b) as [q0 q1] end.
  destruct (_ || _)%bool; [reflexivity|]. destruct (tltb _ _); cbn [imLL]; [now rewrite vadd_im1|reflexivity].
Qed.

Lemma line_circle_im p0 p1 r c : intrLineSeg2Circle2 (im p0) (im p1) r (im c) = intrLineSeg2Circle2 p0 p1 r c.
Proof.
  unfold intrLineSeg2Circle2, image. cbv zeta. cbn [vx vy]. cbn [tsub tadd tmul ROps]. rewrite !t2_R.
  assert (E : forall k x y, k + x * 1 - (k + y * 1) = x - y) by (intros; ring). rewrite !E.
  assert (Q : forall k x y, (k + x * 1) * (k + x * 1) - 2 * (k + y * 1) * (k + x * 1) + (k + y * 1) * (k + y * 1) = x * x - 2 * y * x + y * y) by (intros; ring). rewrite !Q. reflexivity.
Qed.

Lemma param_im p0 p1 t : pointFromParametric (im p0) (im p1) t = im (pointFromParametric p0 p1 t).
Proof. unfold pointFromParametric. now rewrite vsub_im1, vadd_im1. Qed.
Lemma sweep_im c a b bl p : pointWithinArcSweepAngle (im c) (im a) (im b) bl (im p) = pointWithinArcSweepAngle c a b bl p.
Proof. unfold pointWithinArcSweepAngle, isLeftOrCoincident, isRightOrCoincident. now rewrite !left_im1. Qed.

Definition imIntr (r : segIntr) : segIntr :=
  match r with NoIntersect => NoIntersect | OneIntersect p => OneIntersect (im p) | TwoIntersects p q => TwoIntersects (im p) (im q) | SegmentOverlap p q => SegmentOverlap (im p) (im q) | ArcOverlap p q => ArcOverlap (im p) (im q) end.

Lemma line_arc_im p0 p1 a1 a2 : processLineArcIntr (im p0) (im p1) (imw a1) (imw a2) = imIntr (processLineArcIntr p0 p1 a1 a2).
Proof.
  unfold processLineArcIntr. rewrite arc_im1. cbv zeta. cbn [radius center]. rewrite line_circle_im. destruct (intrLineSeg2Circle2 p0 p1 _ _) as [|r0|r0 r1]; [reflexivity| |]; cbn [imv pos bulge]; rewrite ?param_im, ?sweep_im.
  - destruct (_ || _)%bool; [reflexivity|]. now destruct (pointWithinArcSweepAngle _ _ _ _ _).
  - destruct (_ || _)%bool, (_ || _)%bool; repeat (match goal with |- context [pointWithinArcSweepAngle ?a ?b ?c ?d ?e] => destruct (pointWithinArcSweepAngle a b c d e) end); reflexivity.
Qed.

Definition imCC (r : ccResult) : ccResult := match r with CCNone => CCNone | CCOne p => CCOne (im p) | CCTwo p q => CCTwo (im p) (im q) | CCCoincident => CCCoincident end.
Lemma circle_circle_im r1 c1 r2 c2 : intrCircle2Circle2 r1 (im c1) r2 (im c2) = imCC (intrCircle2Circle2 r1 c1 r2 c2).
Proof.
  unfold intrCircle2Circle2. cbv zeta. rewrite vsub_im1, vadd_im1. destruct (tltb _ realThreshold); [now destruct (fuzzyEqualR _ _ _)|]. destruct (_ || _)%bool; [reflexivity|]. destruct (tltb _ t0); [reflexivity|].
  set (m := vadd c1 _). match goal with |- context [tadd (vx m) ?x] => set (xt := x) end. match goal with |- context [tsub (vy m) ?y] => set (yt := y) end. clearbody m xt yt.
  assert (E1 : mkV (tadd (vx (im m)) xt) (tsub (vy (im m)) yt) = im (mkV (tadd (vx m) xt) (tsub (vy m) yt))) by (unfold image; apply vec_eq; rcbn; rring).
  assert (E2 : mkV (tsub (vx (im m)) xt) (tadd (vy (im m)) yt) = im (mkV (tsub (vx m) xt) (tadd (vy m) yt))) by (unfold image; apply vec_eq; rcbn; rring).
  rewrite E1, E2, fuzzy_im. destruct (fuzzyEqual _ _ _); reflexivity.
Qed.

Lemma coincident_im v1 v2 u1 u2 c1 c2 : coincidentArcsIntr (imw v1) (imw v2) (imw u1) (imw u2) (im c1) (im c2) = imIntr (coincidentArcsIntr v1 v2 u1 u2 c1 c2).
Proof.
  unfold coincidentArcsIntr, startAndSweepAngle. change (bulgeIsNeg (imw v1)) with (bulgeIsNeg v1). change (bulgeIsNeg (imw u1)) with (bulgeIsNeg u1). cbn [imv pos bulge]. rewrite !angle_im by lra.
  match goal with |- context [let '(r0, r1) := if ?c then ?a else ?b in _] => destruct (if c then a else b) as [s2 w2] end. cbv zeta.
  repeat (match goal with |- (if ?c then _ else _) = imIntr (if ?c then _ else _) => destruct c; [reflexivity|] end). reflexivity.
Qed.

(** intersecting the translated segments gives the translated result, in every case *)
Theorem C70_translate_segments v1 v2 u1 u2 : intrPlineSegs (imw v1) (imw v2) (imw u1) (imw u2) = imIntr (intrPlineSegs v1 v2 u1 u2).
Proof.
  unfold intrPlineSegs. change (bulgeIsZero (imw v1)) with (bulgeIsZero v1). change (bulgeIsZero (imw u1)) with (bulgeIsZero u1). cbv zeta. destruct (bulgeIsZero v1), (bulgeIsZero u1); cbn [andb].
  - cbn [imv pos]. rewrite line_line_im. destruct (intrLineSeg2LineSeg2 _ _ _ _) as [|p|a b|a b p]; cbn [imLL imIntr]; rewrite ?param_im; reflexivity.
  - cbn [imv pos]. apply line_arc_im.
  - cbn [imv pos]. apply line_arc_im.
  - rewrite !arc_im1. cbn [radius center]. rewrite circle_circle_im. destruct (intrCircle2Circle2 _ _ _ _) as [|p|p q|]; cbn [imCC]; [reflexivity| | |apply coincident_im]; cbn [imv pos bulge]; rewrite !sweep_im.
    + now destruct (_ && _)%bool.
    + repeat (match goal with |- context [pointWithinArcSweepAngle ?a ?b ?c ?d ?e] => destruct (pointWithinArcSweepAngle a b c d e) end); reflexivity.
Qed.

Definition imAABB (b : aabb) : aabb := imBox 1 v b.
Lemma box_im v1 v2 : createFastApproxBoundingBox (imw v1) (imw v2) = imAABB (createFastApproxBoundingBox v1 v2).
Proof.
  unfold createFastApproxBoundingBox. change (bulgeIsZero (imw v1)) with (bulgeIsZero v1).
  assert (O : forall (k x y : @T ROps), (if tltb (k + x * 1) (k + y * 1) then (k + x * 1, k + y * 1) else (k + y * 1, k + x * 1)) = (let '(a, b) := if tltb x y then (x, y) else (y, x) in (k + a * 1, k + b * 1))) by (intros k x y; cbn [tltb ROps]; rewrite lt_im; now destruct (Rltb x y)).
  unfold px, py. cbn [imv pos bulge]. set (a := pos v1). set (b := pos v2). unfold image. cbn [vx vy]. rewrite !O.
  destruct (if tltb (vx a) (vx b) then _ else _) as [exMin exMax]. destruct (if tltb (vy a) (vy b) then _ else _) as [eyMin eyMax]. destruct (bulgeIsZero v1); [reflexivity|]. cbv zeta.
  assert (D : forall (k x y : @T ROps), tsub (k + x * 1) (k + y * 1) = tsub x y) by (intros k x y; rcbn; rring). rewrite !D.
  assert (A : forall (k x y : @T ROps), tadd (k + x * 1) y = k + tadd x y * 1) by (intros k x y; rcbn; rring). rewrite !A, !O.
  match goal with |- context [let '(r0, r1) := (let '(_, _) := if ?c then ?x else ?y in _) in _] => destruct (if c then x else y) as [pxMin pxMax] end.
  match goal with |- context [let '(r0, r1) := (let '(_, _) := if ?c then ?x else ?y in _) in _] => destruct (if c then x else y) as [pyMin pyMax] end.
  rewrite !tmin_im, !tmax_im by lra. reflexivity.
Qed.

Lemma circlePt_im r c a : pointOnCircle r (im c) a = im (pointOnCircle r c a).
Proof. unfold pointOnCircle, image. apply vec_eq; rcbn; rring. Qed.
Lemma segMidpoint_im v1 v2 : segMidpoint (imw v1) (imw v2) = im (segMidpoint v1 v2).
Proof.
  unfold segMidpoint. change (bulgeIsZero (imw v1)) with (bulgeIsZero v1). change (bulgeIsPos (imw v1)) with (bulgeIsPos v1). rewrite arc_im1. cbv zeta. cbn [radius center imv pos]. rewrite !angle_im by lra. destruct (bulgeIsZero v1); [|apply circlePt_im].
  unfold midpoint, image. apply vec_eq; rcbn; rfield.
Qed.
Lemma split_im v1 v2 p : splitAtPoint (imw v1) (imw v2) (im p) = mkSplit (imw (updatedStart (splitAtPoint v1 v2 p))) (imw (splitVertex (splitAtPoint v1 v2 p))).
Proof.
  unfold splitAtPoint. change (bulgeIsZero (imw v1)) with (bulgeIsZero v1). rewrite arc_im1. cbv zeta. cbn [center imv pos bulge]. rewrite !fuzzy_im, !angle_im by lra.
  repeat (match goal with |- context [if ?c then _ else _] => destruct c; [reflexivity|] end). reflexivity.
Qed.
End Pairs.
