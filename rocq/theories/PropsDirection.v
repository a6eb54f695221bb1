(** * C32: what the direction flag of a joined coincident slice means *)
From Coq Require Import ZArith Reals Lra Lia List Bool Arith Permutation.
From Verif Require Import Base Num MathUtils PlineSegment SpatialIndex Polyline Intersects RGeom Spec PropsMath ArcGeom Polar PropsSegment PropsClosest PropsIntr PropsPlineIntr PropsCoincident.
Import ListNotations.
Open Scope R_scope.

Definition startDir (v1 v2 : vertex) : vec := segTangentVector v1 v2 (pos v1).
Definition dotR (a b : vec) : R := vx a * vx b + vy a * vy b.

(** the flag compares the directions at the two segment starts *)
Lemma sameWay_R pl1 pl2 c : sameWay pl1 pl2 c = true <->
  0 < dotR (startDir (at_ pl1 (cIndex1 c)) (nextV pl1 (cIndex1 c))) (startDir (at_ pl2 (cIndex2 c)) (nextV pl2 (cIndex2 c))).
Proof. unfold sameWay, startDir, dotR, dot. rcbn. apply Rltb_spec. Qed.

(** for parallel straight segments: positive iff the segments point the same way *)
Theorem C32_direction_line v1 v2 u1 u2 : isLine v1 -> isLine u1 -> pos v1 <> pos v2 -> pos u1 <> pos u2 ->
  (vx (pos v2) - vx (pos v1)) * (vy (pos u2) - vy (pos u1)) - (vy (pos v2) - vy (pos v1)) * (vx (pos u2) - vx (pos u1)) = 0 ->
  (0 < dotR (startDir v1 v2) (startDir u1 u2) <->
   exists k, 0 < k /\ vx (pos u2) - vx (pos u1) = k * (vx (pos v2) - vx (pos v1)) /\ vy (pos u2) - vy (pos u1) = k * (vy (pos v2) - vy (pos v1))).
Proof.
  intros L1 L2 N1 N2 Hc. unfold startDir, segTangentVector. rewrite (proj2 (bulgeIsZero_R _) L1), (proj2 (bulgeIsZero_R _) L2). unfold dotR, vsub. rcbn.
  apply vec_ne, sumsq_pos in N1. apply vec_ne, sumsq_pos in N2.
  set (a := vx (pos v2) - vx (pos v1)) in *. set (b := vy (pos v2) - vy (pos v1)) in *. set (c := vx (pos u2) - vx (pos u1)) in *. set (d := vy (pos u2) - vy (pos u1)) in *.
  split.
  - intros Hd. exists ((a * c + b * d) / (a * a + b * b)). split; [now apply Rdiv_lt_0_compat|]. split.
    + apply Rmult_eq_reg_r with (a * a + b * b); [|lra]. replace ((a * c + b * d) / (a * a + b * b) * a * (a * a + b * b)) with (a * a * c + b * (a * d)) by (field; lra).
      replace (a * d) with (b * c) by lra. ring.
    + apply Rmult_eq_reg_r with (a * a + b * b); [|lra]. replace ((a * c + b * d) / (a * a + b * b) * b * (a * a + b * b)) with (b * b * d + a * (b * c)) by (field; lra).
      replace (b * c) with (a * d) by lra. ring.
  - intros (k & Hk & -> & ->). replace (a * (k * a) + b * (k * b)) with (k * (a * a + b * b)) by ring. now apply Rmult_lt_0_compat.
Qed.

(** for arcs of one circle: the flag tells the direction of travel iff the two arcs start less than a quarter turn apart; if they start more than
    a quarter turn apart it tells the opposite *)
Theorem C32_direction_arc v1 v2 u1 u2 c : ~ isLine v1 -> ~ isLine u1 -> pos v1 <> pos v2 -> pos u1 <> pos u2 ->
  arcCentre (pos v1) (pos v2) (bulge v1) c -> arcCentre (pos u1) (pos u2) (bulge u1) c ->
  let apart := dotR (vsub (pos v1) c) (vsub (pos u1) c) in
  (0 < apart -> (0 < dotR (startDir v1 v2) (startDir u1 u2) <-> (0 < bulge v1 <-> 0 < bulge u1))) /\
  (apart < 0 -> (0 < dotR (startDir v1 v2) (startDir u1 u2) <-> ~ (0 < bulge v1 <-> 0 < bulge u1))).
Proof.
  intros L1 L2 N1 N2 C1 C2 apart. pose proof (notLine_ne _ L1) as B1. pose proof (notLine_ne _ L2) as B2.
  assert (E1 : center (arcRadiusAndCenter v1 v2) = c) by (rewrite (ctr_unique _ _ _ _ B1 C1); now apply center_R).
  assert (E2 : center (arcRadiusAndCenter u1 u2) = c) by (rewrite (ctr_unique _ _ _ _ B2 C2); now apply center_R).
  unfold startDir, segTangentVector. rewrite (proj2 (bulgeIsZero_false _) L1), (proj2 (bulgeIsZero_false _) L2), E1, E2.
  unfold bulgeIsPos. rcbn. unfold apart, dotR, vsub. rcbn. 
  set (a := vx (pos v1) - vx c). set (b := vy (pos v1) - vy c). set (x := vx (pos u1) - vx c). set (y := vy (pos u1) - vy c).
  set (D := a * x + b * y).
  assert (Q : forall (P Q : Prop) d, (P /\ Q \/ ~ P /\ ~ Q) /\ d = D \/ (P /\ ~ Q \/ ~ P /\ Q) /\ d = - D ->
     (0 < D -> (0 < d <-> (P <-> Q))) /\ (D < 0 -> (0 < d <-> ~ (P <-> Q)))).
  { intros P Q d [[H ->]|[H ->]]; split; intros HD; split; intros H'; try lra; try tauto; exfalso; tauto. }
  apply Q. destruct (Rltb 0 (bulge v1)) eqn:P1; destruct (Rltb 0 (bulge u1)) eqn:P2; rbool; cbn [vx vy]; unfold D.
  - left. split; [left; lra|ring].
  - right. split; [left; lra|ring].
  - right. split; [right; lra|ring].
  - left. split; [right; lra|ring].
Qed.

(** consequence: two circles with the same centre, radius and direction of travel whose first arcs overlap, flagged as running opposite ways *)
Theorem C32_direction_wrong :
  let A := mkPline true [mkVertex 1 0 1; mkVertex (-1) 0 1] in let B := mkPline true [mkVertex (-3 / 5) (4 / 5) 1; mkVertex (3 / 5) (-4 / 5) 1] in
  let c := mkV 0 0 in let overlap := mkCIntr 0 0 (mkV (-3 / 5) (4 / 5)) (mkV (-1) 0) in
  arcCentre (pos (at_ A 0)) (pos (at_ A 1)) (bulge (at_ A 0)) c /\ arcCentre (pos (at_ B 0)) (pos (at_ B 1)) (bulge (at_ B 0)) c /\
  dist c (pos (at_ A 0)) = 1 /\ dist c (pos (at_ B 0)) = 1 /\ 0 < bulge (at_ A 0) /\ 0 < bulge (at_ B 0) /\
  onSeg (at_ A 0) (at_ A 1) (cpoint1 overlap) /\ onSeg (at_ A 0) (at_ A 1) (cpoint2 overlap) /\ onSeg (at_ B 0) (at_ B 1) (cpoint1 overlap) /\ onSeg (at_ B 0) (at_ B 1) (cpoint2 overlap) /\
  sameWay A B overlap = false.
Proof.
  intros A B c o.
  assert (Sw : sweep 1 = PI) by (unfold sweep; rewrite atan_1'; field).
  assert (C1 : arcCentre (pos (at_ A 0)) (pos (at_ A 1)) (bulge (at_ A 0)) c).
  { unfold arcCentre. cbn [at_ A vertexes nth pos bulge mkVertex]. rewrite Sw. unfold rot, c. cbn [vx vy]. rewrite cos_PI, sin_PI. apply vec_eq; cbn [vx vy]; rring. }
  assert (C2 : arcCentre (pos (at_ B 0)) (pos (at_ B 1)) (bulge (at_ B 0)) c).
  { unfold arcCentre. cbn [at_ B vertexes nth pos bulge mkVertex]. rewrite Sw. unfold rot, c. cbn [vx vy]. rewrite cos_PI, sin_PI. apply vec_eq; cbn [vx vy]; rfield. }
  assert (LA : ~ isLine (at_ A 0)) by (unfold isLine; cbn [at_ A vertexes nth bulge mkVertex]; rewrite Rabs_R1; lra).
  assert (LB : ~ isLine (at_ B 0)) by (unfold isLine; cbn [at_ B vertexes nth bulge mkVertex]; rewrite Rabs_R1; lra).
  assert (D1 : dist c (pos (at_ A 0)) = 1) by (apply dist_eq; [lra|]; cbn; lra).
  assert (D2 : dist c (pos (at_ B 0)) = 1) by (apply dist_eq; [lra|]; cbn; lra).
  do 6 (split; [first [assumption|cbn; lra]|]).
  (* the point at angle th of the unit circle *)
  assert (OnA : forall th, 0 <= th <= PI -> onSeg (at_ A 0) (at_ A 1) (mkV (cos th) (sin th))).
  { intros th Hth. exists (th / PI). pose proof PI_RGT_0 as P. split; [split; [apply Rmult_le_pos; [lra|left; now apply Rinv_0_lt_compat]|apply Rmult_le_reg_r with PI; [auto|]; unfold Rdiv; rewrite Rmult_assoc, Rinv_l by lra; lra]|].
    right. split; [auto|]. exists c. split; [auto|]. cbn [at_ A vertexes nth pos bulge mkVertex]. rewrite Sw. replace (th / PI * PI) with th by (field; lra). unfold rot, c. apply vec_eq; cbn [vx vy]; rring. }
  assert (OnB : forall th, 0 <= th <= PI -> onSeg (at_ B 0) (at_ B 1) (rot c th (mkV (-3 / 5) (4 / 5)))).
  { intros th Hth. exists (th / PI). pose proof PI_RGT_0 as P. split; [split; [apply Rmult_le_pos; [lra|left; now apply Rinv_0_lt_compat]|apply Rmult_le_reg_r with PI; [auto|]; unfold Rdiv; rewrite Rmult_assoc, Rinv_l by lra; lra]|].
    right. split; [auto|]. exists c. split; [auto|]. cbn [at_ B vertexes nth pos bulge mkVertex]. rewrite Sw. replace (th / PI * PI) with th by (field; lra). reflexivity. }
  pose proof PI_RGT_0 as P.
  assert (Hac : cos (acos (-3 / 5)) = -3 / 5) by (apply cos_acos; lra).
  assert (Hbd : 0 <= acos (-3 / 5) <= PI) by apply acos_bound.
  assert (Hsn : sin (acos (-3 / 5)) = 4 / 5).
  { rewrite sin_acos by lra. replace (1 - (-3 / 5)²) with ((4 / 5) * (4 / 5)) by (unfold Rsqr; field). apply sqrt_square. lra. }
  split. { cbn [cpoint1 o]. rewrite <- Hac at 1. rewrite <- Hsn. now apply OnA. }
  split. { cbn [cpoint2 o]. replace (mkV (-1) 0) with (mkV (cos PI) (sin PI)) by (rewrite cos_PI, sin_PI; reflexivity). apply OnA. lra. }
  split. { cbn [cpoint1 o]. replace (mkV (-3 / 5) (4 / 5)) with (rot c 0 (mkV (-3 / 5) (4 / 5))) by apply rot_0. apply OnB. lra. }
  split.
  { cbn [cpoint2 o]. set (th := PI - acos (-3 / 5)). replace (mkV (-1) 0) with (rot c th (mkV (-3 / 5) (4 / 5))); [apply OnB; unfold th; lra|].
    unfold rot, c. cbn [vx vy]. unfold th. rewrite Rtrigo_facts.sin_pi_minus, Hsn. rewrite Rtrigo_facts.cos_pi_minus, Hac. apply vec_eq; cbn [vx vy]; rfield. }
  destruct (sameWay A B o) eqn:E; [|reflexivity]. exfalso. apply sameWay_R in E.
  assert (NA : pos (at_ A 0) <> pos (at_ A 1)) by (cbn; intros H; injection H; lra).
  assert (NB : pos (at_ B 0) <> pos (at_ B 1)) by (cbn; intros H; injection H; lra).
  destruct (C32_direction_arc _ _ _ _ c LA LB NA NB C1 C2) as [_ H]. 
  apply H in E; [|cbn; unfold dotR; cbn; lra]. apply E. cbn. lra.
Qed.
