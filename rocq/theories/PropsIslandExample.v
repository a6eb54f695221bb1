(** * C66, C69: an example. A disc of radius 70 with a round hole of radius 20 off the centre, offset by 20: the two offset circles cross, and the result is one crescent *)
From Coq Require Import ZArith Reals Lra List Bool Arith Lia Permutation.
From Coquelicot Require Import Coquelicot.
From Verif Require Import Base Num MathUtils PlineSegment SpatialIndex Polyline Intersects Combine Offset Islands StdLaws RGeom Spec PropsMath ArcGeom Polar PropsSegment PropsClosest PropsIntr PropsPlineIntr PropsPolyline PropsArea Turning PropsWinding PropsRegion PropsPlineIndex PropsExtents PropsCoincident PropsSlices PropsStitch PropsCombine PropsPieces PropsTrace PropsBoolOps PropsEuler PropsFindIntr PropsSelfIntr PropsOffset PropsOffsetSlices PropsOffsetSegs PropsRawOffset PropsParallel PropsParallelTotal PropsOffsetRuns PropsOffsetCuts PropsCover PropsRunPoints PropsBalance PropsJordan PropsWindArea PropsOffsetParts PropsOffsetResult PropsOffsetConst PropsOffsetExact PropsOffsetExample PropsOffsetSide PropsIslands PropsIslandSlices PropsRegionOps PropsManyBalance PropsIslandCuts PropsIslandBoxes PropsIslandTotal PropsIslandExact PropsIslandRegion PropsIslandResult.
Import ListNotations.
Open Scope R_scope.

(** a circle of radius r around (k, 0), counter clockwise for s = 1 and clockwise for s = -1 *)
Definition circ (s k r : R) : polyline := mkPline true [mkVertex (k - r) 0 s; mkVertex (k + r) 0 s].

Definition cc (k : R) : vec := mkV k 0.
Definition vA (s k r : R) : vertex := mkVertex (k - r) 0 s.
Definition vB (s k r : R) : vertex := mkVertex (k + r) 0 s.

Section Circ.
Variables (s k r : R).
Hypothesis Hs : s = 1 \/ s = - (1).
Hypothesis Hr : 0 < r.
Local Notation c := (cc k).
Local Notation A := (vA s k r).
Local Notation B := (vB s k r).

Lemma cs_segs : pathSegs (circ s k r) = [(A, B); (B, A)].
Proof. reflexivity. Qed.
Lemma cs_abs : Rabs s = 1.
Proof. destruct Hs as [-> | ->]; [apply Rabs_R1|rewrite Rabs_Ropp; apply Rabs_R1]. Qed.
Lemma cs_sweep : sweep s = s * PI.
Proof. unfold sweep. destruct Hs as [-> | ->]; rewrite ?atan_opp, atan_1; field. Qed.
Lemma cs_arc v : bulge v = s -> ~ Rabs (bulge v) < 1 / 100000.
Proof. intros ->. rewrite cs_abs. lra. Qed.

Lemma cs_ctrAB : ctr (pos A) (pos B) (bulge A) = c.
Proof. unfold ctr, cK, vA, vB, cc, mkVertex. destruct Hs as [-> | ->]; apply vec_eq; rcbn; field. Qed.
Lemma cs_ctrBA : ctr (pos B) (pos A) (bulge B) = c.
Proof. unfold ctr, cK, vA, vB, cc, mkVertex. destruct Hs as [-> | ->]; apply vec_eq; rcbn; field. Qed.

Lemma cs_trig t : cos (t * (s * PI)) = cos (t * PI) /\ sin (t * (s * PI)) = s * sin (t * PI).
Proof.
  destruct Hs as [-> | ->]; [rewrite !Rmult_1_l; auto|]. replace (t * (- (1) * PI)) with (- (t * PI)) by ring. rewrite cos_neg, sin_neg. split; [auto|ring].
Qed.
Lemma cs_pathAB t : segPath A B t = mkV (k - r * cos (t * PI)) (- (s * (r * sin (t * PI)))).
Proof. unfold segPath. destruct (Rlt_dec _ _) as [H|_]; [destruct (cs_arc A eq_refl H)|]. rewrite cs_ctrAB. unfold vA, cc, rot. cbn [bulge pos mkVertex vx vy]. rewrite cs_sweep. destruct (cs_trig t) as [-> ->]. apply vec_eq; rcbn; ring. Qed.
Lemma cs_pathBA t : segPath B A t = mkV (k + r * cos (t * PI)) (s * (r * sin (t * PI))).
Proof. unfold segPath. destruct (Rlt_dec _ _) as [H|_]; [destruct (cs_arc B eq_refl H)|]. rewrite cs_ctrBA. unfold vB, cc, rot. cbn [bulge pos mkVertex vx vy]. rewrite cs_sweep. destruct (cs_trig t) as [-> ->]. apply vec_eq; rcbn; ring. Qed.

Lemma dist_c q : 0 <= dist c q /\ dist c q * dist c q = (vx q - k) * (vx q - k) + vy q * vy q.
Proof.
  split; [apply dist_nonneg|]. unfold dist. rewrite sqrt_sqrt by (apply Rplus_le_le_0_compat; apply pow2_ge_0). unfold cc. cbn [vx vy]. ring.
Qed.
Lemma dist_c_is q u : 0 <= u -> (dist c q = u <-> (vx q - k) * (vx q - k) + vy q * vy q = u * u).
Proof. intros Hu. destruct (dist_c q) as [D0 D]. split; [intros E; rewrite <- E; lra|]. intros E. apply Rsqr_inj; auto. unfold Rsqr. lra. Qed.

(** points of the two halves *)
Lemma half q : dist c q = r -> exists t, 0 <= t <= 1 /\ vx q = k + r * cos (t * PI) /\ Rabs (vy q) = r * sin (t * PI).
Proof.
  intros Hd. apply dist_c_is in Hd; [|lra]. pose proof PI_RGT_0. exists (acos ((vx q - k) / r) / PI). assert (Hx : -1 <= (vx q - k) / r <= 1).
  { assert (- r <= vx q - k <= r) by nra. split; [apply (Rmult_le_reg_r r); [lra|]; unfold Rdiv; rewrite Rmult_assoc, Rinv_l by lra; lra|apply (Rmult_le_reg_r r); [lra|]; unfold Rdiv; rewrite Rmult_assoc, Rinv_l by lra; lra]. }
  pose proof (acos_bound ((vx q - k) / r)) as Hb. replace (acos ((vx q - k) / r) / PI * PI) with (acos ((vx q - k) / r)) by (field; lra).
  split; [split; [apply Rmult_le_pos; [lra|left; apply Rinv_0_lt_compat; lra]|apply (Rmult_le_reg_r PI); [lra|]; unfold Rdiv; rewrite Rmult_assoc, Rinv_l by lra; lra]|].
  rewrite cos_acos by auto. split; [rfield; lra|]. rewrite sin_acos by auto. apply Rsqr_inj; [apply Rabs_pos|apply Rmult_le_pos; [lra|apply sqrt_pos]|]. rewrite <- Rsqr_abs.
  assert (0 <= 1 - Rsqr ((vx q - k) / r)) by (unfold Rsqr; nra). rewrite Rsqr_mult, Rsqr_sqrt by auto. unfold Rsqr in *. replace (r * r * (1 - (vx q - k) / r * ((vx q - k) / r))) with (r * r - (vx q - k) * (vx q - k)) by (rfield; lra). lra.
Qed.

Lemma sinp t : 0 <= t <= 1 -> 0 <= sin (t * PI).
Proof. intros Ht. pose proof PI_RGT_0. apply sin_ge_0; nra. Qed.
Lemma sscale y : s * (s * y) = y.
Proof. destruct Hs as [-> | ->]; ring. Qed.

Lemma on_AB q : onSeg A B q <-> dist c q = r /\ s * vy q <= 0.
Proof.
  rewrite onSeg_path. split.
  - intros (t & Ht & E). rewrite cs_pathAB in E. subst q. split.
    + apply dist_c_is; [lra|]. cbn [vx vy]. pose proof (sin2_cos2 (t * PI)) as T. unfold Rsqr in T. destruct Hs as [-> | ->]; nra.
    + cbn [vy]. pose proof (sinp t Ht). replace (s * - (s * (r * sin (t * PI)))) with (- (s * (s * (r * sin (t * PI))))) by ring. rewrite sscale. nra.
  - intros [Hd Hy]. destruct (half q Hd) as (t & Ht & Ex & Ey). exists (1 - t). split; [lra|]. rewrite cs_pathAB. replace ((1 - t) * PI) with (PI - t * PI) by ring. rewrite cos_minus, sin_minus, cos_PI, sin_PI.
    apply vec_eq; cbn [vx vy]; [lra|]. assert (E : vy q = - s * Rabs (vy q)); [|rewrite E, Ey; lra]. destruct Hs as [-> | ->]; [rewrite Rabs_left1 by lra; lra|rewrite Rabs_right by lra; lra].
Qed.
Lemma on_BA q : onSeg B A q <-> dist c q = r /\ 0 <= s * vy q.
Proof.
  rewrite onSeg_path. split.
  - intros (t & Ht & E). rewrite cs_pathBA in E. subst q. split.
    + apply dist_c_is; [lra|]. cbn [vx vy]. pose proof (sin2_cos2 (t * PI)) as T. unfold Rsqr in T. destruct Hs as [-> | ->]; nra.
    + cbn [vy]. pose proof (sinp t Ht). rewrite sscale. nra.
  - intros [Hd Hy]. destruct (half q Hd) as (t & Ht & Ex & Ey). exists t. split; [lra|]. rewrite cs_pathBA.
    apply vec_eq; cbn [vx vy]; [lra|]. assert (E : vy q = s * Rabs (vy q)); [|rewrite E, Ey; lra]. destruct Hs as [-> | ->]; [rewrite Rabs_right by lra; lra|rewrite Rabs_left1 by lra; lra].
Qed.

Lemma cs_path q : onPath (circ s k r) q <-> dist c q = r.
Proof.
  split.
  - intros (v1 & v2 & Hin & O). rewrite cs_segs in Hin. destruct Hin as [E|[E|[]]]; injection E as <- <-; [now apply on_AB in O|now apply on_BA in O].
  - intros Hd. destruct (Rle_dec (s * vy q) 0) as [L|L]; [exists A, B|exists B, A]; rewrite cs_segs; (split; [cbn; auto|]); [apply on_AB; auto|apply on_BA; split; [auto|lra]].
Qed.

Lemma cs_small : smallBulges (circ s k r).
Proof. unfold smallBulges, circ. cbn [vertexes]. pose proof cs_abs. repeat constructor; cbn [bulge mkVertex]; lra. Qed.
Lemma cs_closed : closedPline (circ s k r).
Proof. split; [reflexivity|]. cbn. lia. Qed.

Lemma cs_neg v : bulge v = s -> bulgeIsNeg v = Rltb s 0.
Proof. intros E. unfold bulgeIsNeg. rewrite E. rcbn. reflexivity. Qed.

Lemma cs_data (v1 v2 : vertex) : bulge v1 = s -> (pos v1 = mkV (k - r) 0 /\ pos v2 = mkV (k + r) 0) \/ (pos v1 = mkV (k + r) 0 /\ pos v2 = mkV (k - r) 0) -> arcRadiusAndCenter v1 v2 = mkArc r c.
Proof.
  intros Eb H. unfold arcRadiusAndCenter, px, py. rewrite (cs_neg v1 Eb), Eb. cbn [tabs ROps]. rewrite cs_abs.
  assert (El : vlength (vsub (pos v2) (pos v1)) = 2 * r).
  { unfold vlength, vsub, dot. destruct H as [[-> ->]|[-> ->]]; rcbn; [replace ((k + r - (k - r)) * (k + r - (k - r)) + (0 - 0) * (0 - 0)) with (2 * r * (2 * r)) by ring|replace ((k - r - (k + r)) * (k - r - (k + r)) + (0 - 0) * (0 - 0)) with (2 * r * (2 * r)) by ring]; apply sqrt_square; lra. }
  rewrite El. destruct H as [[-> ->]|[-> ->]]; unfold vsub, cc; rcbn; destruct (Rltb s 0); f_equal; try (apply vec_eq; rcbn); field; lra.
Qed.

Lemma cs_radAB : arcRadiusAndCenter A B = mkArc r c.
Proof. apply cs_data; [reflexivity|]. left. split; reflexivity. Qed.
Lemma cs_radBA : arcRadiusAndCenter B A = mkArc r c.
Proof. apply cs_data; [reflexivity|]. right. split; reflexivity. Qed.

(** ** Winding numbers *)
Definition sz : Z := if Rlt_dec 0 s then 1%Z else (-1)%Z.

Lemma cs_arcb v : bulge v = s -> bulgeIsZero v = false.
Proof. intros E. unfold bulgeIsZero. rewrite E. apply Rltb_false. rcbn. rewrite cs_abs. lra. Qed.
Lemma cs_posb v : bulge v = s -> bulgeIsPos v = Rltb 0 s.
Proof. intros E. unfold bulgeIsPos. rewrite E. rcbn. reflexivity. Qed.

Lemma cs_centre : getWindingNumber (circ s k r) c = sz.
Proof.
  change (getWindingNumber (circ s k r) c) with (0 + (if bulgeIsZero B then lineWinding B A c else arcWinding B A c) + (if bulgeIsZero A then lineWinding A B c else arcWinding A B c))%Z.
  rewrite !cs_arcb by reflexivity. unfold arcWinding, distToArcCenterLessThanRadius. rewrite cs_radAB, cs_radBA, !cs_posb by reflexivity. cbn [center radius].
  unfold sz, vA, vB, cc, isLeft, isLeftOrEqual, leftExpr, px, py, distSquared, mkVertex, vsub, dot. cbn [pos vx vy]. cbn [tadd tsub tmul tleb tltb ROps]. rewrite t0_R.
  destruct Hs as [-> | ->].
  - destruct (Rlt_dec 0 1) as [_|F]; [|lra]. rewrite (proj2 (Rltb_spec 0 1)) by lra.
    repeat match goal with |- context [Rltb ?x ?y] => first [rewrite (proj2 (Rltb_spec x y)) by nra|rewrite (proj2 (Rltb_false x y)) by nra] | |- context [Rleb ?x ?y] => first [rewrite (proj2 (Rleb_spec x y)) by nra|rewrite (proj2 (Rleb_false x y)) by nra] end. reflexivity.
  - destruct (Rlt_dec 0 (- (1))) as [F|_]; [lra|]. rewrite (proj2 (Rltb_false 0 (- (1)))) by lra.
    repeat match goal with |- context [Rltb ?x ?y] => first [rewrite (proj2 (Rltb_spec x y)) by nra|rewrite (proj2 (Rltb_false x y)) by nra] | |- context [Rleb ?x ?y] => first [rewrite (proj2 (Rleb_spec x y)) by nra|rewrite (proj2 (Rleb_false x y)) by nra] end. reflexivity.
Qed.

Lemma cs_join q : dist c q < r -> joinable (circ s k r) c q.
Proof.
  intros Hq. exists (lerp c q). split; [split; [apply lerp_0|split; [apply lerp_1|]]|].
  - intros t _. unfold lerp. cbn [vx vy]. split; apply (ex_derive_continuous (V := R_NormedModule)); auto_derive; auto.
  - intros t Ht O. apply cs_path in O. assert (dist c (lerp c q t) = t * dist c q). { unfold dist, lerp. cbn [vx vy]. rewrite <- (sqrt_square t) at 3 by lra. rewrite <- sqrt_mult_alt by nra. f_equal. ring. }
    pose proof (dist_nonneg c q). nra.
Qed.
Lemma cs_inside q : dist c q < r -> getWindingNumber (circ s k r) q = sz.
Proof. intros Hq. rewrite <- (C47_constant_along_paths _ c q cs_small (cs_join q Hq)). apply cs_centre. Qed.

Lemma cs_outside q : r < dist c q -> getWindingNumber (circ s k r) q = 0%Z.
Proof.
  intros Hq. assert (0 < dist c q) as P by lra. destruct (dist_c q) as [_ DD].
  apply (ray_zero _ q ((vx q - k) / dist c q) (vy q / dist c q) cs_small).
  - transitivity ((dist c q * dist c q) / (dist c q * dist c q)); [rewrite DD at 1|]; rfield; lra.
  - intros u Hu O. apply cs_path in O. apply dist_c_is in O; [|lra]. cbn [vx vy] in O. set (d := dist c q) in *. 
    assert (E : (vx q + u * ((vx q - k) / d) - k) * (vx q + u * ((vx q - k) / d) - k) + (vy q + u * (vy q / d)) * (vy q + u * (vy q / d)) = (1 + u / d) * (1 + u / d) * (d * d)) by (rewrite DD; rfield; lra).
    rewrite E in O. assert (0 <= u / d) by (apply Rmult_le_pos; [lra|left; apply Rinv_0_lt_compat; lra]). assert ((1 + u / d) * d = d + u) by (field; lra). nra.
Qed.

Definition ends (v1 v2 : vertex) : Prop := (pos v1 = mkV (k - r) 0 /\ pos v2 = mkV (k + r) 0) \/ (pos v1 = mkV (k + r) 0 /\ pos v2 = mkV (k - r) 0).
Lemma ends_len v1 v2 : ends v1 v2 -> vlength (vsub (pos v2) (pos v1)) = 2 * r.
Proof.
  intros H. unfold vlength, vsub, dot. destruct H as [[-> ->]|[-> ->]]; rcbn; [replace ((k + r - (k - r)) * (k + r - (k - r)) + (0 - 0) * (0 - 0)) with (2 * r * (2 * r)) by ring|replace ((k - r - (k + r)) * (k - r - (k + r)) + (0 - 0) * (0 - 0)) with (2 * r * (2 * r)) by ring]; apply sqrt_square; lra.
Qed.

Lemma cs_areaOf v1 v2 : bulge v1 = s -> ends v1 v2 -> areaOf (seg3 (v1, v2)) = s * (PI * r * r).
Proof.
  intros Eb H. pose proof (ends_len v1 v2 H) as El. unfold areaOf, seg3, area_step, at_. cbn [fst snd nth vertexes pos bulge]. unfold px, py. cbn [pos bulge]. rewrite cs_arcb by exact Eb. cbn [negb]. rewrite cs_neg by exact Eb. rewrite Eb.
  match goal with |- context [vlength ?e] => replace (vlength e) with (2 * r) by (symmetry; exact El) end. cbn [tabs ROps]. rewrite cs_abs. cbn [tatan ROps]. rewrite atan_1. rcbn.
  assert (E0 : vx (pos v1) * vy (pos v2) - vy (pos v1) * vx (pos v2) = 0) by (destruct H as [[-> ->]|[-> ->]]; cbn [vx vy]; ring).
  rewrite E0. destruct Hs as [E|E]; rewrite E; [rewrite (proj2 (Rltb_false 1 0)) by lra|rewrite (proj2 (Rltb_spec (- (1)) 0)) by lra]; field.
Qed.

Lemma cs_area : getArea (circ s k r) = s * (PI * r * r).
Proof.
  rewrite getArea_sum by reflexivity. unfold trace. rewrite cs_segs. cbn [map]. rewrite !sumR_cons, !cs_areaOf; try reflexivity; [change (sumR []) with 0; rfield|right; split; reflexivity|left; split; reflexivity].
Qed.
Lemma cs_area_sign : (s = 1 -> 0 < getArea (circ s k r)) /\ (s = - (1) -> getArea (circ s k r) < 0).
Proof. rewrite cs_area. assert (H : 0 < PI * r * r) by (apply Rmult_lt_0_compat; [apply Rmult_lt_0_compat; [apply PI_RGT_0|]|]; exact Hr). split; intros E; rewrite E; rcbn; lra. Qed.

End Circ.

(** ** Offsetting a circle *)
Section Off.
Variables (s k r d : R).
Hypothesis Hs : s = 1 \/ s = - (1).
Hypothesis Hr : 0 < r.
Hypothesis Hd : 1 <= r - s * d.
Hypothesis Hd0 : 1 / 10000 <= d.
Local Notation r' := (r - s * d).
Local Notation A := (vA s k r).
Local Notation B := (vB s k r).
Local Notation A' := (vA s k r').
Local Notation B' := (vB s k r').

Lemma norm_is (x : R) : x <> 0 -> normalize (mkV x 0) = mkV (x / Rabs x) 0.
Proof.
  intros Hx. unfold normalize, vdiv, vlength, dot. rcbn. replace (x * x + 0 * 0) with (Rsqr x) by (unfold Rsqr; ring). rewrite sqrt_Rsqr_abs. destruct (Reqb (Rabs x) 0) eqn:E0; [apply Reqb_spec in E0; now apply Rabs_no_R0 in Hx|]. cbn [negb]. unfold Rdiv. rewrite Rmult_1_l, Rmult_0_l. reflexivity.
Qed.

Lemma off_offs v1 : bulge v1 = s -> (if bulgeIsNeg v1 then d else - d) = - (s * d).
Proof. intros E. rewrite (cs_neg s v1 E). destruct Hs as [-> | ->]; [rewrite (proj2 (Rltb_false 1 0)) by lra; ring|rewrite (proj2 (Rltb_spec (- (1)) 0)) by lra; ring]. Qed.

Lemma off_AB : offsetSegment d A B = mkOS A' B' (pos B) false.
Proof.
  unfold offsetSegment. rewrite (cs_arcb s Hs) by reflexivity. unfold offsetArc. rewrite (cs_radAB s k r Hs Hr). cbn [radius center].
  replace (vsub (pos A) (cc k)) with (mkV (- r) 0) by (unfold vA, cc, vsub, mkVertex; apply vec_eq; rcbn; ring). replace (vsub (pos B) (cc k)) with (mkV r 0) by (unfold vB, cc, vsub, mkVertex; apply vec_eq; rcbn; ring).
  rewrite !norm_is by lra. rewrite Rabs_Ropp, Rabs_right by lra. rewrite (cs_neg s A eq_refl). cbn [topp tadd tltb ROps].
 
  destruct Hs as [E1|E1]; [rewrite (proj2 (Rltb_false s 0)) by lra|rewrite (proj2 (Rltb_spec s 0)) by lra]; (rewrite (proj2 (Rltb_false _ _)) by (unfold realThreshold; cbn [tlit ROps]; rewrite E1 in Hd; lra));
    unfold vA, vB, vadd, vscale, mkVertex; cbn [pos bulge vx vy]; f_equal; f_equal; apply vec_eq; rcbn; rewrite ?E1; rfield; lra.
Qed.
Lemma off_BA : offsetSegment d B A = mkOS B' A' (pos A) false.
Proof.
  unfold offsetSegment. rewrite (cs_arcb s Hs) by reflexivity. unfold offsetArc. rewrite (cs_radBA s k r Hs Hr). cbn [radius center].
  replace (vsub (pos A) (cc k)) with (mkV (- r) 0) by (unfold vA, cc, vsub, mkVertex; apply vec_eq; rcbn; ring). replace (vsub (pos B) (cc k)) with (mkV r 0) by (unfold vB, cc, vsub, mkVertex; apply vec_eq; rcbn; ring).
  rewrite !norm_is by lra. rewrite Rabs_Ropp, Rabs_right by lra. rewrite (cs_neg s B eq_refl). cbn [topp tadd tltb ROps].
 
  destruct Hs as [E1|E1]; [rewrite (proj2 (Rltb_false s 0)) by lra|rewrite (proj2 (Rltb_spec s 0)) by lra]; (rewrite (proj2 (Rltb_false _ _)) by (unfold realThreshold; cbn [tlit ROps]; rewrite E1 in Hd; lra));
    unfold vA, vB, vadd, vscale, mkVertex; cbn [pos bulge vx vy]; f_equal; f_equal; apply vec_eq; rcbn; rewrite ?E1; rfield; lra.
Qed.

Lemma cc_self : intrCircle2Circle2 r' (cc k) r' (cc k) = CCCoincident.
Proof.
  unfold intrCircle2Circle2, vsub, dot, cc, fuzzyEqualR, realThreshold. rcbn. replace ((k - k) * (k - k) + (0 - 0) * (0 - 0)) with 0 by ring. rewrite sqrt_0. rewrite (proj2 (Rltb_spec _ _)) by lra. rewrite (proj2 (Rltb_spec _ _)); [reflexivity|]. rewrite Rminus_diag_eq, Rabs_R0 by reflexivity. lra.
Qed.

Lemma join_AB ccw p q cl vs : joinSegs ccw (mkOS A' B' p false) (mkOS B' A' q false) (mkPline cl (vs ++ [A'])) = Ok (mkPline cl (vs ++ [A'; B'])).
Proof.
  unfold joinSegs. cbn [osV1]. rewrite !(cs_arcb s Hs) by reflexivity. cbn [andb]. unfold arcToArcJoin. cbn [osV1 osV2]. rewrite (cs_radAB s k _ Hs), (cs_radBA s k _ Hs) by lra. cbn [radius center]. rewrite cc_self.
  unfold addOrReplaceIfSamePos. cbn [vertexes isClosed]. rewrite rev_app_distr. cbn [rev app]. 
  assert (F : fuzzyEqual (pos A') (pos B') realPrecision = false).
  { unfold fuzzyEqual, fuzzyEqualR, vA, vB, mkVertex, realPrecision. cbn [pos vx vy]. cbn [tabs tsub tltb tlit ROps]. apply andb_false_iff. left. apply Rltb_false. rewrite Rabs_left by lra. lra. }
  rewrite F. unfold addVertex. cbn [isClosed vertexes]. rewrite <- app_assoc. reflexivity.
Qed.
Lemma join_BA ccw p q cl vs : joinSegs ccw (mkOS B' A' p false) (mkOS A' B' q false) (mkPline cl (vs ++ [B'])) = Ok (mkPline cl (vs ++ [B'; A'])).
Proof.
  unfold joinSegs. cbn [osV1]. rewrite !(cs_arcb s Hs) by reflexivity. cbn [andb]. unfold arcToArcJoin. cbn [osV1 osV2]. rewrite (cs_radAB s k _ Hs), (cs_radBA s k _ Hs) by lra. cbn [radius center]. rewrite cc_self.
  unfold addOrReplaceIfSamePos. cbn [vertexes isClosed]. rewrite rev_app_distr. cbn [rev app]. 
  assert (F : fuzzyEqual (pos B') (pos A') realPrecision = false).
  { unfold fuzzyEqual, fuzzyEqualR, vA, vB, mkVertex, realPrecision. cbn [pos vx vy]. cbn [tabs tsub tltb tlit ROps]. apply andb_false_iff. left. apply Rltb_false. rewrite Rabs_right by lra. lra. }
  rewrite F. unfold addVertex. cbn [isClosed vertexes]. rewrite <- app_assoc. reflexivity.
Qed.

Lemma angA : angle (cc k) (pos A') = PI.
Proof.
  unfold angle, cc, vA, mkVertex. cbn [pos vx vy]. cbn [tatan2 tsub ROps]. unfold Ratan2. replace (0 - 0) with (0 : R) by rring. replace (k - r' - k) with (- r') by rring.
  destruct (Rlt_dec 0 (- r')) as [F|_]; [lra|]. destruct (Rlt_dec (- r') 0) as [_|F]; [|lra]. destruct (Rle_dec 0 0) as [_|F]; [|lra]. unfold Rdiv. rewrite Rmult_0_l, atan_0. apply Rplus_0_l.
Qed.
Lemma angB : angle (cc k) (pos B') = 0.
Proof.
  unfold angle, cc, vB, mkVertex. cbn [pos vx vy]. cbn [tatan2 tsub ROps]. unfold Ratan2. replace (0 - 0) with (0 : R) by rring. replace (k + r' - k) with r' by rring.
  destruct (Rlt_dec 0 r') as [_|F]; [|lra]. unfold Rdiv. rewrite Rmult_0_l. apply atan_0.
Qed.
Lemma delta_half : deltaAngle PI 0 = PI.
Proof.
  destruct (C09_deltaAngle PI 0) as [B (z & E)]. pose proof PI_RGT_0. assert (z = 1)%Z; [|subst z; lra].
  assert (0 < IZR z < 2) as [H1 H2] by (split; apply (Rmult_lt_reg_r PI); lra). apply lt_IZR in H1, H2. lia.
Qed.

Lemma far_AB : fuzzyEqual (pos A') (pos B') realPrecision = false.
Proof. unfold fuzzyEqual, fuzzyEqualR, vA, vB, mkVertex, realPrecision. cbn [pos vx vy]. cbn [tabs tsub tltb tlit ROps]. apply andb_false_iff. left. apply Rltb_false. rewrite Rabs_left by lra. lra. Qed.

Lemma close_circle ccw p q : closeRaw ccw false (mkOS B' A' p false) (mkOS A' B' q false) (mkPline true [A'; B']) = Ok (circ s k r').
Proof.
  unfold closeRaw. change (lastVertex (mkPline true [A'; B'])) with (Ok B'). cbn [bind]. change (mkPline false [B']) with (mkPline false ([] ++ [B'])). rewrite join_BA. cbn [app bind].
  change (vget (mkPline false [B'; A']) 0) with (Ok B'). cbn [bind]. change (setLastVertex (mkPline true [A'; B']) B') with (Ok (mkPline true [A'; B'])). cbn [bind isClosed vertexes tl app].
  change (popBack (mkPline true [A'; B'; A'])) with (Ok (mkPline true [A'; B'])). cbn [bind negb].
  change (lastVertex (mkPline false [B'; A'])) with (Ok A'). cbn [bind]. change (vget (mkPline true [A'; B']) 0) with (Ok A'). change (vget (mkPline true [A'; B']) 1) with (Ok B'). cbn [bind]. rewrite (cs_arcb s Hs) by reflexivity.
  change (1 <? size (mkPline true [A'; B']))%nat with true. cbn iota. rewrite (cs_radAB s k _ Hs) by lra. cbn [center]. rewrite angA, angB, delta_half. rewrite (cs_posb s A' eq_refl), (cs_neg s A' eq_refl).
  match goal with |- context [rset _ _ ?v] => replace v with A' end.
  - change (rset (vertexes (mkPline true [A'; B'])) 0 A') with (Ok [A'; B']). cbn [bind isClosed]. change (1 <? size (mkPline true [A'; B']))%nat with true. cbn iota. change (vget (mkPline true [A'; B']) 0) with (Ok A'). change (vget (mkPline true [A'; B']) 1) with (Ok B'). cbn [bind].
    rewrite far_AB. reflexivity.
  - pose proof PI_RGT_0. rcbn. rewrite (proj2 (Rltb_false PI 0)) by lra. rewrite (proj2 (Rltb_spec 0 PI)) by lra. cbn [andb orb]. destruct Hs as [E|E]; rewrite E.
    + rewrite (proj2 (Rltb_false 1 0)) by lra. unfold vA, mkVertex. cbn [pos]. f_equal. rewrite tan_PI4. reflexivity.
    + rewrite (proj2 (Rltb_spec (- (1)) 0)) by lra. reflexivity.
Qed.

Lemma raw_circle : createRawOffsetPline (circ s k r) d = Ok (circ s k r').
Proof.
  unfold createRawOffsetPline. change (size (circ s k r) <? 2)%nat with false. cbn iota.
  change (createUntrimmedOffsetSegments (circ s k r) d) with (Ok [offsetSegment d A B; offsetSegment d B A]). rewrite off_AB, off_BA. cbn [bind length Nat.eqb andb osV1]. change (isClosed (circ s k r)) with true.
  change (mkPline true [A']) with (mkPline true ([] ++ [A'])). rewrite join_AB. cbn [app bind joinAll]. change (size (mkPline true [A'; B']) =? 1)%nat with false. change (1 <? size (mkPline true [A'; B']))%nat with true. cbn [andb last].
  rewrite close_circle. cbn [bind]. reflexivity.
Qed.
End Off.

Section Closest.
Variables (s k r : R).
Hypothesis Hs : s = 1 \/ s = - (1).
Hypothesis Hr : 0 < r.

Lemma cs_okArc v1 v2 : In (v1, v2) (pathSegs (circ s k r)) -> okArc v1 v2.
Proof.
  intros Hin. assert (Eb : bulge v1 = s) by (destruct Hin as [E|[E|[]]]; injection E as <- <-; reflexivity). split; [now apply (cs_arc s Hs)|]. rewrite Eb, (cs_abs s Hs). split; [lra|].
  destruct Hin as [E|[E|[]]]; injection E as <- <-; cbn [pos mkVertex]; intros E; injection E; lra.
Qed.
Lemma cs_okPath : okPath (circ s k r).
Proof. intros v1 v2 Hin. right. now apply cs_okArc. Qed.
Lemma cs_indexable : indexable (circ s k r).
Proof. unfold indexable. cbn. split; [lia|]. split; [lia|]. left. lia. Qed.
Lemma cs_rad v1 v2 : In (v1, v2) (pathSegs (circ s k r)) -> arcRadiusAndCenter v1 v2 = mkArc r (cc k).
Proof. intros Hin. destruct Hin as [E|[E|[]]]; injection E as <- <-; [apply (cs_radAB s k r Hs Hr)|apply (cs_radBA s k r Hs Hr)]. Qed.
Lemma cs_ends v1 v2 : In (v1, v2) (pathSegs (circ s k r)) -> dist (cc k) (pos v1) = r /\ dist (cc k) (pos v2) = r.
Proof. intros Hin. destruct Hin as [E|[E|[]]]; injection E as <- <-; split; apply dist_c_is; cbn [pos mkVertex vx vy]; try lra; ring. Qed.

Lemma cs_closest v1 v2 p : In (v1, v2) (pathSegs (circ s k r)) -> dist (cc k) (closestPointOnSeg v1 v2 p) = r.
Proof.
  intros Hin. assert (Eb : bulge v1 = s) by (destruct Hin as [E|[E|[]]]; injection E as <- <-; reflexivity). destruct (cs_ends _ _ Hin) as [E1 E2]. unfold closestPointOnSeg. rewrite (cs_arcb s Hs v1 Eb), (cs_rad _ _ Hin). cbn [center radius].
  destruct (fuzzyEqual _ _ _) eqn:F; [exact E1|]. destruct (pointWithinArcSweepAngle _ _ _ _ _); [|destruct (distSquared (pos v1) p <? distSquared (pos v2) p)%t; auto].
  assert (N : p <> cc k). { intros ->. apply not_true_iff_false in F. apply F. apply fuzzyEqual_R. rewrite !Rminus_diag_eq, Rabs_R0 by reflexivity. unfold realThreshold. rcbn. lra. }
  destruct (dist_c k p) as [D0 DD]. assert (P : 0 < dist (cc k) p). { apply Rnot_le_lt. intros H. apply N. assert (dist (cc k) p = 0) as Z by (apply Rle_antisym; assumption). rewrite Z in DD. pose proof (Rle_0_sqr (vx p - k)) as Q1. pose proof (Rle_0_sqr (vy p)) as Q2. unfold Rsqr in Q1, Q2. assert (H1 : Rsqr (vx p - k) = 0) by (unfold Rsqr; lra). assert (H2 : Rsqr (vy p) = 0) by (unfold Rsqr; lra). apply Rsqr_0_uniq in H1, H2. unfold cc. apply vec_eq; cbn [vx vy]; lra. }
  assert (EN : normalize (vsub p (cc k)) = mkV ((vx p - k) / dist (cc k) p) (vy p / dist (cc k) p)).
  { unfold normalize, vdiv, vlength. replace (tsqrt (dot (vsub p (cc k)) (vsub p (cc k)))) with (dist (cc k) p). 
    - unfold vsub, cc. rcbn. destruct (Reqb _ 0) eqn:E0; [apply Reqb_spec in E0; unfold cc in P; lra|]. cbn [negb]. apply vec_eq; cbn [vx vy]; unfold Rdiv; lra.
    - unfold dist, vsub, dot, cc. rcbn. f_equal. ring. }
  rewrite EN. apply dist_c_is; [lra|]. unfold vadd, vscale, cc. rcbn. set (u := dist (cc k) p) in *. unfold cc in u. fold u in DD. change (dist (mkV k 0) p) with u. clearbody u.
  transitivity (r * r * (u * u) / (u * u)); [rewrite DD at 1; rfield; lra|rfield; lra].
Qed.
End Closest.

(** a raw offset without self intersections is one slice *)
Lemma slices_no_cut {SL : StdLib} pl raw d ix rix : (2 <= length (vertexes raw))%nat -> createApproxSpatialIndex pl = Ok ix -> createApproxSpatialIndex raw = Ok rix ->
  allSelfIntersects defaultNodeSize raw [] rix = Ok [] -> pointValidForOffset defaultNodeSize pl d ix (pos (at_ raw 0)) = Ok true ->
  slicesFromRawOffset pl raw d = Ok [wholeSlice raw true].
Proof.
  intros H2 Eix Erix Es Ev. unfold slicesFromRawOffset, size. destruct (Nat.ltb_spec (length (vertexes raw)) 2); [lia|]. rewrite Eix, Erix. cbn [bind].
  match goal with |- context [bind ?m _] => replace m with (@Ok (list pIntr) []) by (symmetry; exact Es) end. cbn [bind length Nat.eqb].
  rewrite at_get by lia. cbn [bind mkOrigTests ptValid]. match goal with |- context [bind ?m _] => replace m with (Ok true) by (symmetry; exact Ev) end. cbn [bind negb]. unfold wholeRaw. rewrite at_get by lia. cbn [bind]. 
  unfold wholeSlice. rewrite t0_R. reflexivity.
Qed.

Lemma offset_no_cut {SL : StdLib} {SLaws : StdLaws SL} pl raw d : isClosed pl = true -> (2 <= length (vertexes pl))%nat -> (2 <= length (vertexes raw))%nat -> createRawOffsetPline pl d = Ok raw ->
  slicesFromRawOffset pl raw d = Ok [wholeSlice raw true] -> parallelOffset pl d false = Ok [mkPline true (vertexes raw)].
Proof.
  intros Hc H2 H2' E1 E2. unfold parallelOffset, size. destruct (Nat.ltb_spec (length (vertexes pl)) 2); [lia|]. rewrite E1. cbn [bind]. rewrite Hc. cbn [negb andb]. rewrite E2. cbn [bind]. now apply whole_result.
Qed.

Section Off2.
Context {SL : StdLib} {SLaws : StdLaws SL}.
Variables (s k r d : R).
Hypothesis Hs : s = 1 \/ s = - (1).
Hypothesis Hr : 0 < r.
Hypothesis Hd : 1 <= r - s * d.
Hypothesis Hd0 : 1 / 10000 <= d.
Local Notation r' := (r - s * d).

Lemma first_ok : exists ix, createApproxSpatialIndex (circ s k r) = Ok ix /\ pointValidForOffset defaultNodeSize (circ s k r) d ix (pos (vA s k r')) = Ok true.
Proof.
  destruct (C37_offset_distance (circ s k r) (pos (vA s k r')) d (cs_indexable s k r) (cs_okPath s k r Hs Hr) (cs_small s k r Hs)) as (ix & b & Eix & Eb & _ & F); [rewrite Rabs_right; lra|].
  exists ix. split; [exact Eix|]. destruct b; [exact Eb|]. exfalso. destruct (F eq_refl) as (v1 & v2 & Hin & D & _). rewrite Rabs_right in D by lra.
  pose proof (cs_closest s k r Hs Hr v1 v2 (pos (vA s k r')) Hin) as E. set (cp := closestPointOnSeg v1 v2 (pos (vA s k r'))) in *.
  assert (E' : dist (cc k) (pos (vA s k r')) = r') by (apply dist_c_is; [lra|]; cbn [pos vA mkVertex vx vy]; ring).
  pose proof (dist_tri (cc k) (pos (vA s k r')) cp) as T1. pose proof (dist_tri (cc k) cp (pos (vA s k r'))) as T2. rewrite (dist_sym' cp) in T2. destruct Hs as [E0|E0]; rewrite E0 in *; lra.
Qed.

Lemma no_self rix : allSelfIntersects defaultNodeSize (circ s k r') [] rix = Ok [].
Proof.
  unfold allSelfIntersects. destruct (C46_small (circ s k r') []) as [[E _]|(_ & _ & _ & E)]; [cbn; lia| |].
  - match goal with |- context [bind ?m _] => assert (Em : m = Ok []) by exact E; rewrite Em end. cbn [bind]. apply C31_small. cbn. lia.
  - exfalso. change (Rabs (s + s) < 1 / 100000000) in E. apply Rabs_lt_iff in E. destruct Hs; lra.
Qed.

Lemma offset_circle : parallelOffset (circ s k r) d false = Ok [circ s k r'].
Proof.
  destruct first_ok as (ix & Eix & Ev). destruct (pline_index (circ s k r') (cs_indexable s k r')) as (rix & Erix & _). 
  change [circ s k r'] with [mkPline true (vertexes (circ s k r'))]. apply offset_no_cut; [reflexivity|cbn; lia|cbn; lia|exact (raw_circle s k r d Hs Hr Hd)|].
  apply (slices_no_cut _ _ d ix rix); [cbn; lia|exact Eix|exact Erix|exact (no_self rix)|]. change (at_ (circ s k r') 0) with (vA s k r'). exact Ev.
Qed.
End Off2.

(** ** The four halves of the two offset circles *)
Section Sweep.
Variables (s k r : R) (p : vec).
Hypothesis Hs : s = 1 \/ s = - (1).
Hypothesis Hr : 1 <= r.
Ltac sweeps := unfold pointWithinArcSweepAngle, isLeftOrCoincident, isRightOrCoincident, leftExpr, vA, vB, cc, mkVertex; cbn [pos vx vy]; cbn [tadd tsub tmul tleb tltb topp tlit tabs ROps]; unfold realThreshold; cbn [tlit ROps]; rewrite ?t0_R.
Ltac bools := repeat match goal with |- context [Rltb ?x ?y] => first [rewrite (proj2 (Rltb_spec x y)) by nra|rewrite (proj2 (Rltb_false x y)) by nra] | |- context [Rleb ?x ?y] => first [rewrite (proj2 (Rleb_spec x y)) by nra|rewrite (proj2 (Rleb_false x y)) by nra] end.
Lemma in_AB : s * vy p <= - (1) -> pointWithinArcSweepAngle (cc k) (pos (vA s k r)) (pos (vB s k r)) s p = true.
Proof. intros H. sweeps. destruct Hs as [E|E]; rewrite E in *; bools; reflexivity. Qed.
Lemma in_BA : 1 <= s * vy p -> pointWithinArcSweepAngle (cc k) (pos (vB s k r)) (pos (vA s k r)) s p = true.
Proof. intros H. sweeps. destruct Hs as [E|E]; rewrite E in *; bools; reflexivity. Qed.
Lemma off_AB' : 1 <= s * vy p -> pointWithinArcSweepAngle (cc k) (pos (vA s k r)) (pos (vB s k r)) s p = false.
Proof. intros H. sweeps. destruct Hs as [E|E]; rewrite E in *; bools; reflexivity. Qed.
Lemma off_BA' : s * vy p <= - (1) -> pointWithinArcSweepAngle (cc k) (pos (vB s k r)) (pos (vA s k r)) s p = false.
Proof. intros H. sweeps. destruct Hs as [E|E]; rewrite E in *; bools; reflexivity. Qed.
End Sweep.

Definition P1 : vec := mkV (- (30)) 40.
Definition P2 : vec := mkV (- (30)) (- (40)).
Definition cA : polyline := circ 1 0 50.
Definition cB : polyline := circ (- (1)) (- (30)) 40.

Lemma cross_circles : intrCircle2Circle2 50 (cc 0) 40 (cc (- (30))) = CCTwo P1 P2.
Proof.
  unfold intrCircle2Circle2, cc, vsub, vadd, vscale, vdiv, dot, realThreshold. rcbn.
  replace ((- (30) - 0) * (- (30) - 0) + (0 - 0) * (0 - 0)) with (30 * 30) by ring. rewrite sqrt_square by lra.
  rewrite (proj2 (Rltb_false 30 _)) by lra. rewrite (proj2 (Rltb_false _ 30)) by lra. rewrite (proj2 (Rltb_false _ _)) by (rewrite Rabs_right; lra). cbn [orb].
  rewrite (proj2 (Reqb_false 30 0)) by lra. cbn [negb].
  set (a := (50 * 50 - 40 * 40 + 30 * 30) / (2 * 30)). assert (Ea : a = 30) by (unfold a; field). clearbody a. subst a.
  rewrite (proj2 (Rltb_false _ 0)) by lra. replace (50 * 50 - 30 * 30) with (40 * 40) by ring. rewrite sqrt_square by lra. rcbn.
  match goal with |- (if fuzzyEqual ?a ?b _ then _ else _) = _ => assert (Ep : a = P1) by (unfold P1; apply vec_eq; rcbn; field); assert (Eq : b = P2) by (unfold P2; apply vec_eq; rcbn; field); rewrite Ep, Eq end.
  assert (F : fuzzyEqual P1 P2 (1 / 100000000) = false). { apply not_true_iff_false. intros F. apply fuzzyEqual_R in F. destruct F as [_ F]. unfold P1, P2 in F. cbn [vx vy] in F. rewrite Rabs_right in F; lra. }
  match goal with |- (if ?b then _ else _) = _ => replace b with false by (symmetry; exact F) end. reflexivity.
Qed.

Lemma common_AB q : dist (cc 0) q = 50 -> dist (cc (- (30))) q = 40 -> q = P1 \/ q = P2.
Proof.
  intros H1 H2. apply dist_c_is in H1; [|lra]. apply dist_c_is in H2; [|lra]. assert (Ex : vx q = - (30)) by lra. assert (Ey : (vy q - 40) * (vy q + 40) = 0) by (rewrite Ex in H1; lra).
  apply Rmult_integral in Ey. destruct Ey as [E|E]; [left|right]; unfold P1, P2; apply vec_eq; cbn [vx vy]; lra.
Qed.
Lemma common_in : dist (cc 0) P1 = 50 /\ dist (cc (- (30))) P1 = 40 /\ dist (cc 0) P2 = 50 /\ dist (cc (- (30))) P2 = 40.
Proof. repeat split; apply dist_c_is; unfold P1, P2; cbn [vx vy]; lra. Qed.

Definition s1 : (1 : R) = 1 \/ (1 : R) = - (1) := or_introl eq_refl.
Definition s2 : - (1) = 1 \/ - (1) = - (1) := or_intror eq_refl.
Lemma r50 : 0 < 50. Proof. lra. Qed.
Lemma r40 : 0 < 40. Proof. lra. Qed.

Lemma circles_exact a1 a2 b1 b2 : In (a1, a2) (pathSegs cA) -> In (b1, b2) (pathSegs cB) -> exactPair a1 a2 b1 b2.
Proof.
  intros Ha Hb. pose proof (cs_rad 1 0 50 s1 r50 a1 a2 Ha) as Ra. pose proof (cs_rad (- (1)) (- (30)) 40 s2 r40 b1 b2 Hb) as Rb.
  assert (Ba : bulge a1 = 1) by (destruct Ha as [E|[E|[]]]; injection E as <- <-; reflexivity). assert (Bb : bulge b1 = - (1)) by (destruct Hb as [E|[E|[]]]; injection E as <- <-; reflexivity).
  destruct common_in as (C1 & C2 & C3 & C4). unfold exactPair, overlapsOf, crossPoints, intrPlineSegs. rewrite (cs_arcb 1 s1 a1 Ba), (cs_arcb _ s2 b1 Bb). cbn [andb]. rewrite Ra, Rb. cbn [radius center]. rewrite cross_circles, Ba, Bb.
  assert (Y1 : vy P1 = 40) by reflexivity. assert (Y2 : vy P2 = - (40)) by reflexivity.
  destruct Ha as [E|[E|[]]]; injection E as <- <-; destruct Hb as [E|[E|[]]]; injection E as <- <-.
  - change (mkVertex (0 - 50) 0 1) with (vA 1 0 50). change (mkVertex (0 + 50) 0 1) with (vB 1 0 50). change (mkVertex (- (30) - 40) 0 (- (1))) with (vA (- (1)) (- (30)) 40). change (mkVertex (- (30) + 40) 0 (- (1))) with (vB (- (1)) (- (30)) 40).
    rewrite (off_AB' 1 0 50 P1 s1) by lra. rewrite (in_AB 1 0 50 P2 s1) by lra. rewrite (in_AB (- (1)) (- (30)) 40 P1 s2) by lra. rewrite (off_AB' (- (1)) (- (30)) 40 P2 s2) by lra. cbn [andb].
    split; [reflexivity|]. intros q. rewrite (on_AB 1 0 50 s1 r50), (on_AB (- (1)) (- (30)) 40 s2 r40). split; [intros []|]. intros [[D1 H1] [D2 H2]]. exfalso. destruct (common_AB q D1 D2) as [-> | ->]; lra.
  - change (mkVertex (0 - 50) 0 1) with (vA 1 0 50). change (mkVertex (0 + 50) 0 1) with (vB 1 0 50). change (mkVertex (- (30) - 40) 0 (- (1))) with (vA (- (1)) (- (30)) 40). change (mkVertex (- (30) + 40) 0 (- (1))) with (vB (- (1)) (- (30)) 40).
    rewrite (off_AB' 1 0 50 P1 s1) by lra. rewrite (in_AB 1 0 50 P2 s1) by lra. rewrite (off_BA' (- (1)) (- (30)) 40 P1 s2) by lra. rewrite (in_BA (- (1)) (- (30)) 40 P2 s2) by lra. cbn [andb].
    split; [reflexivity|]. intros q. rewrite (on_AB 1 0 50 s1 r50), (on_BA (- (1)) (- (30)) 40 s2 r40). split; [intros [<-|[]]; split; (split; [assumption|lra])|]. intros [[D1 H1] [D2 H2]]. destruct (common_AB q D1 D2) as [-> | ->]; [lra|now left].
  - change (mkVertex (0 - 50) 0 1) with (vA 1 0 50). change (mkVertex (0 + 50) 0 1) with (vB 1 0 50). change (mkVertex (- (30) - 40) 0 (- (1))) with (vA (- (1)) (- (30)) 40). change (mkVertex (- (30) + 40) 0 (- (1))) with (vB (- (1)) (- (30)) 40).
    rewrite (in_BA 1 0 50 P1 s1) by lra. rewrite (off_BA' 1 0 50 P2 s1) by lra. rewrite (in_AB (- (1)) (- (30)) 40 P1 s2) by lra. rewrite (off_AB' (- (1)) (- (30)) 40 P2 s2) by lra. cbn [andb].
    split; [reflexivity|]. intros q. rewrite (on_BA 1 0 50 s1 r50), (on_AB (- (1)) (- (30)) 40 s2 r40). split; [intros [<-|[]]; split; (split; [assumption|lra])|]. intros [[D1 H1] [D2 H2]]. destruct (common_AB q D1 D2) as [-> | ->]; [now left|lra].
  - change (mkVertex (0 - 50) 0 1) with (vA 1 0 50). change (mkVertex (0 + 50) 0 1) with (vB 1 0 50). change (mkVertex (- (30) - 40) 0 (- (1))) with (vA (- (1)) (- (30)) 40). change (mkVertex (- (30) + 40) 0 (- (1))) with (vB (- (1)) (- (30)) 40).
    rewrite (in_BA 1 0 50 P1 s1) by lra. rewrite (off_BA' 1 0 50 P2 s1) by lra. rewrite (off_BA' (- (1)) (- (30)) 40 P1 s2) by lra. rewrite (in_BA (- (1)) (- (30)) 40 P2 s2) by lra. cbn [andb].
    split; [reflexivity|]. intros q. rewrite (on_BA 1 0 50 s1 r50), (on_BA (- (1)) (- (30)) 40 s2 r40). split; [intros []|]. intros [[D1 H1] [D2 H2]]. exfalso. destruct (common_AB q D1 D2) as [-> | ->]; lra.
Qed.

(** ** The region permitted by a circle *)
Lemma clear_circ s k r d z : (s = 1 \/ s = - (1)) -> 0 < r -> 0 < d -> s * dist (cc k) z <= s * r - d -> clearBy (circ s k r) d z.
Proof.
  intros Hs Hr Hd H p Hp. apply (cs_path s k r Hs Hr) in Hp. pose proof (dist_tri (cc k) z p) as T1. pose proof (dist_tri (cc k) p z) as T2. rewrite (dist_sym' p z) in T2. destruct Hs as [E|E]; rewrite E in H; lra.
Qed.

(** the point of the circle in the direction of z *)
Lemma toward s k r z : (s = 1 \/ s = - (1)) -> 0 < r -> 0 < dist (cc k) z -> exists p, onPath (circ s k r) p /\ dist z p = Rabs (r - dist (cc k) z).
Proof.
  intros Hs Hr Hz. destruct (dist_c k z) as [D0 DD]. set (u := dist (cc k) z) in *. exists (mkV (k + r / u * (vx z - k)) (r / u * vy z)). split.
  - apply (cs_path s k r Hs Hr). apply dist_c_is; [lra|]. cbn [vx vy]. transitivity (r * r * (u * u) / (u * u)); [rewrite DD at 1; rfield; lra|rfield; lra].
  - unfold dist. cbn [vx vy]. rewrite <- sqrt_Rsqr_abs. f_equal. unfold Rsqr. transitivity ((r - u) * (r - u) * (u * u) / (u * u)); [rewrite DD at 1; rfield; lra|rfield; lra].
Qed.

Section Permit.
Variables (s k r d : R) (P : offsetLoop).
Hypothesis Hs : s = 1 \/ s = - (1).
Hypothesis Hr : 0 < r.
Hypothesis Hd : 1 <= r - s * d.
Hypothesis Hd0 : 0 < d.
Hypothesis HP : lpoly P = circ s k r.

Lemma side_circ z : onSide (circ s k r) d z <-> s * dist (cc k) z < s * r.
Proof using Hs Hr Hd Hd0.
  clear P HP.
  destruct (cs_area_sign s k r Hs Hr) as [S1 S2]. unfold onSide. destruct Hs as [E|E].
  - specialize (S1 E). destruct (Rlt_dec 0 _) as [_|N]; [|exfalso; apply N; now apply Rmult_lt_0_compat]. rewrite E. split.
    + intros [N W]. rewrite (cs_path 1 k r (or_introl eq_refl) Hr) in N.  destruct (Rtotal_order (dist (cc k) z) r) as [H|[H|H]]; [lra|tauto|]. exfalso. apply W. now apply (cs_outside 1 k r (or_introl eq_refl) Hr).
    + intros H. split; [rewrite (cs_path 1 k r (or_introl eq_refl) Hr); lra|]. rewrite (cs_inside 1 k r (or_introl eq_refl) Hr) by lra. unfold sz. destruct (Rlt_dec 0 1); discriminate.
  - specialize (S2 E). destruct (Rlt_dec 0 _) as [L|_]; [exfalso; assert (0 < d * - getArea (circ s k r)) by (apply Rmult_lt_0_compat; lra); lra|]. rewrite E. split.
    + intros [N W]. rewrite (cs_path (- (1)) k r (or_intror eq_refl) Hr) in N. destruct (Rtotal_order (dist (cc k) z) r) as [H|[H|H]]; [|tauto|lra]. exfalso. rewrite (cs_inside (- (1)) k r (or_intror eq_refl) Hr) in W by lra. unfold sz in W. destruct (Rlt_dec 0 (- (1))); discriminate.
    + intros H. split; [rewrite (cs_path (- (1)) k r (or_intror eq_refl) Hr); lra|]. apply (cs_outside (- (1)) k r (or_intror eq_refl) Hr). lra.
Qed.

Lemma permit_circ z : permitted P d z <-> s * dist (cc k) z <= s * r - d.
Proof using Hs Hr Hd Hd0 HP.
  unfold permitted. rewrite HP, side_circ. split.
  - intros [C S]. destruct (Rlt_dec 0 (dist (cc k) z)) as [Hz|Hz].
    + destruct (toward s k r z Hs Hr Hz) as (p & Op & Dp). specialize (C p Op). rewrite Dp in C. destruct Hs as [E|E]; rewrite E in *; [rewrite Rabs_right in C; lra|rewrite Rabs_left in C; lra].
    + pose proof (dist_nonneg (cc k) z). assert (Z : dist (cc k) z = 0) by lra. rewrite Z in *. destruct Hs as [E|E]; rewrite E in *; lra.
  - intros H. split; [apply clear_circ; auto|]. destruct Hs as [E|E]; rewrite E in *; lra.
Qed.

Lemma at_circ z : dist (cc k) z = r - s * d -> atDistance (circ s k r) d z /\ onSide (circ s k r) d z.
Proof using Hs Hr Hd Hd0.
  clear P HP.
  intros Hz. split; [split|].
  - apply clear_circ; auto. rewrite Hz. destruct Hs as [E|E]; rewrite E in *; lra.
  - destruct (toward s k r z Hs Hr ltac:(lra)) as (p & Op & Dp). exists p. split; [exact Op|]. rewrite Dp, Hz. destruct Hs as [E|E]; rewrite E in *; [rewrite Rabs_right|rewrite Rabs_left]; lra.
  - apply side_circ. rewrite Hz. destruct Hs as [E|E]; rewrite E in *; lra.
Qed.

(** the offset circle winds around the permitted points *)
Lemma wind_circ z : ~ onPath (circ s k (r - s * d)) z -> let w := (background P + getWindingNumber (circ s k (r - s * d)) z)%Z in (permitted P d z -> w = 1%Z) /\ (~ permitted P d z -> w = 0%Z).
Proof using Hs Hr Hd Hd0 HP.
  intros N. rewrite (cs_path s k _ Hs) in N by lra. cbv zeta. rewrite permit_circ. unfold background. rewrite HP. destruct (cs_area_sign s k r Hs Hr) as [S1 S2].
  assert (Hr' : 0 < r - s * d) by lra. destruct (Rtotal_order (dist (cc k) z) (r - s * d)) as [H|[H|H]]; [|tauto|].
  - rewrite (cs_inside s k _ Hs Hr' z H). unfold sz. destruct Hs as [E|E]; [specialize (S1 E)|specialize (S2 E)]; destruct (Rlt_dec _ 0) as [L|L]; destruct (Rlt_dec 0 s) as [L'|L']; try lra; cbv zeta; split; intros X; try reflexivity; exfalso; rewrite E in H, X; lra.
  - rewrite (cs_outside s k _ Hs Hr' z H). destruct Hs as [E|E]; [specialize (S1 E)|specialize (S2 E)]; destruct (Rlt_dec _ 0) as [L|L]; try lra; cbv zeta; split; intros X; try reflexivity; exfalso; rewrite E in H, X; lra.
Qed.
End Permit.

(** ** The disc with a hole, and its two offset circles *)
Definition disc : polyline := circ 1 0 70.
Definition hole : polyline := circ (- (1)) (- (30)) 20.

Section Crescent.
Context {SL : StdLib} {SLaws : StdLaws SL}.
Variables (ixO ixH ixA ixB : index).
Hypothesis EO : createApproxSpatialIndex disc = Ok ixO.
Hypothesis EH : createApproxSpatialIndex hole = Ok ixH.
Hypothesis EA : createApproxSpatialIndex cA = Ok ixA.
Hypothesis EB : createApproxSpatialIndex cB = Ok ixB.
Let lO := mkLoop 0 disc ixO.
Let lH := mkLoop 0 hole ixH.
Let lA := mkLoop 0 cA ixA.
Let lB := mkLoop 1 cB ixB.
Let input := mkLoopSet [lO] [lH].
Let L := [lA; lB].

Lemma r70 : 0 < 70. Proof. lra. Qed.
Lemma r20 : 0 < 20. Proof. lra. Qed.
Lemma e50 : 70 - 1 * 20 = 50. Proof. lra. Qed.
Lemma e40 : 20 - - (1) * 20 = 40. Proof. lra. Qed.

Lemma off_disc : parallelOffset disc 20 false = Ok [cA].
Proof. unfold cA. rewrite <- e50. apply (offset_circle 1 0 70 20 s1); lra. Qed.
Lemma off_hole : parallelOffset hole 20 false = Ok [cB].
Proof. unfold cB. rewrite <- e40. apply (offset_circle (- (1)) (- (30)) 20 20 s2); lra. Qed.

Lemma areaA : 0 < getArea cA. Proof. exact (proj1 (cs_area_sign 1 0 50 s1 r50) eq_refl). Qed.
Lemma areaB : getArea cB < 0. Proof. exact (proj2 (cs_area_sign (- (1)) (- (30)) 40 s2 r40) eq_refl). Qed.

Lemma ex_loops : offsetLoops input 20 L.
Proof.
  split; [|intros l [<-|[<-|[]]]; assumption]. unfold allOffsets, input, numbered, offsetsOf. cbn [ccwLoops cwLoops app length seq List.combine flat_map fst snd lpoly lO lH]. rewrite off_disc, off_hole. cbn [map app filter snd fst].
  assert (A1 : Rltb (getArea cA) 0 = false) by (apply Rltb_false; pose proof areaA; lra). assert (A2 : Rltb (getArea cB) 0 = true) by (apply Rltb_spec, areaB). rewrite A1, A2. reflexivity.
Qed.

Lemma ex_input l : In l (ccwLoops input ++ cwLoops input) -> wellMade l.
Proof.
  intros [<-|[<-|[]]]; unfold wellMade; cbn [lpoly lindex lO lH].
  - split; [exact EO|]. split; [apply cs_indexable|]. split; [exact (cs_okPath 1 0 70 s1 r70)|exact (cs_small 1 0 70 s1)].
  - split; [exact EH|]. split; [apply cs_indexable|]. split; [exact (cs_okPath (- (1)) (- (30)) 20 s2 r20)|exact (cs_small (- (1)) (- (30)) 20 s2)].
Qed.

Lemma ex_inputs k P : inputLoop input k P -> (k = 0%nat /\ P = lO) \/ (k = 1%nat /\ P = lH).
Proof. unfold inputLoop, input. cbn [ccwLoops cwLoops app]. destruct k as [|[|k]]; cbn [nth_error]; intros E; [injection E as <-; auto|injection E as <-; auto|destruct k; discriminate]. Qed.
Lemma ex_L i l : nth_error L i = Some l -> (i = 0%nat /\ l = lA) \/ (i = 1%nat /\ l = lB).
Proof. unfold L. destruct i as [|[|i]]; cbn [nth_error]; intros E; [injection E as <-; auto|injection E as <-; auto|destruct i; discriminate]. Qed.

Lemma onA q : onPath cA q <-> dist (cc 0) q = 50. Proof. exact (cs_path 1 0 50 s1 r50 q). Qed.
Lemma onB q : onPath cB q <-> dist (cc (- (30))) q = 40. Proof. exact (cs_path (- (1)) (- (30)) 40 s2 r40 q). Qed.

Lemma ex_meeting i q : meeting L i q <-> (i < 2)%nat /\ (q = P1 \/ q = P2).
Proof.
  destruct common_in as (C1 & C2 & C3 & C4). split.
  - intros (j & li & lj & Hi & Hj & Hne & O1 & O2). destruct (ex_L _ _ Hi) as [[-> ->]|[-> ->]]; destruct (ex_L _ _ Hj) as [[-> ->]|[-> ->]]; try congruence; (split; [lia|]).
    + apply onA in O1. apply onB in O2. now apply common_AB.
    + apply onB in O1. apply onA in O2. now apply common_AB.
  - intros [Hi Hq]. assert (OA : onPath cA q) by (apply onA; destruct Hq as [-> | ->]; assumption). assert (OB : onPath cB q) by (apply onB; destruct Hq as [-> | ->]; assumption).
    assert (Ei : i = 0%nat \/ i = 1%nat) by lia. destruct Ei as [-> | ->]; [exists 1%nat, lA, lB|exists 0%nat, lB, lA]; repeat split; auto.
Qed.

Lemma circ_rad s k r v1 v2 : (s = 1 \/ s = - (1)) -> 0 < r -> In (v1, v2) (pathSegs (circ s k r)) -> radOf v1 v2 = r.
Proof.
  intros Hs Hr Hin. destruct (cs_ends s k r Hr v1 v2 Hin) as [E _]. unfold radOf, ctrOf. replace (ctr (pos v1) (pos v2) (bulge v1)) with (cc k); [exact E|]. symmetry.
  destruct Hin as [E'|[E'|[]]]; injection E' as <- <-; [apply (cs_ctrAB s k r Hs)|apply (cs_ctrBA s k r Hs)].
Qed.

Lemma dist_x (p q : vec) e : e <= Rabs (vx p - vx q) \/ e <= Rabs (vy p - vy q) -> e <= dist p q.
Proof. exact (dist_coord p q e). Qed.

Lemma circ_spaced s k r (X : vec -> Prop) : (s = 1 \/ s = - (1)) -> 1 <= r <= 1000 -> (forall q, X q -> q = P1 \/ q = P2) -> spaced (circ s k r) X.
Proof.
  intros Hs Hr HX. assert (Y : forall q, X q -> vy q = 40 \/ vy q = - (40)) by (intros q Hq; destruct (HX q Hq) as [-> | ->]; [left|right]; reflexivity).
  assert (V : forall v, In v (vertexes (circ s k r)) -> vy (pos v) = 0) by (intros v [<-|[<-|[]]]; reflexivity).
  assert (G : forall (a b : R), (a = 40 \/ a = - (40)) -> b = 0 -> 1 <= Rabs (a - b) /\ 1 <= Rabs (b - a)) by (intros a b Ha ->; destruct Ha as [-> | ->]; split; first [rewrite Rabs_right; lra|rewrite Rabs_left; lra]).
  assert (S : forall v1 v2, In (v1, v2) (pathSegs (circ s k r)) -> In v1 (vertexes (circ s k r)) /\ In v2 (vertexes (circ s k r))) by (intros v1 v2 [E|[E|[]]]; injection E as <- <-; cbn; auto).
  split; [|split].
  - intros v1 v2 [E|[E|[]]]; injection E as <- <-; left; cbn [pos mkVertex vx]; [rewrite Rabs_left; lra|rewrite Rabs_right; lra].
  - intros v q Hv Hq. right. destruct (G (vy q) (vy (pos v)) (Y q Hq) (V v Hv)). lra.
  - intros v1 v2 q Hin Hq O. destruct (S v1 v2 Hin) as [V1 V2]. unfold longArc. rewrite (circ_rad s k r v1 v2 Hs ltac:(lra) Hin). repeat split; intros.
    + apply Rle_trans with 1; [lra|]. apply dist_x. right. apply (G (vy q) (vy (pos v1)) (Y q Hq) (V v1 V1)).
    + apply Rle_trans with 1; [lra|]. apply dist_x. right. apply (G (vy q) (vy (pos v2)) (Y q Hq) (V v2 V2)).
    + apply Rle_trans with 1; [lra|]. apply dist_x. right. destruct (HX q Hq) as [-> | ->]; destruct (HX q' H) as [-> | ->]; try congruence; unfold P1, P2; cbn [vy]; first [rewrite Rabs_right; lra|rewrite Rabs_left; lra].
Qed.

Lemma ex_position : loopsPosition L.
Proof.
  split.
  - intros l [<-|[<-|[]]]; cbn [lpoly lA lB]; (split; [apply cs_closed|split; [|apply cs_indexable]]); [exact (cs_small 1 0 50 s1)|exact (cs_small (- (1)) (- (30)) 40 s2)].
  - intros i j li lj a1 a2 b1 b2 Hij Hi Hj Ha Hb. destruct (ex_L _ _ Hi) as [[-> ->]|[-> ->]]; destruct (ex_L _ _ Hj) as [[-> ->]|[-> ->]]; try lia. now apply circles_exact.
  - intros i li Hi. destruct (ex_L _ _ Hi) as [[-> ->]|[-> ->]]; cbn [lpoly lA lB]; [apply (circ_spaced 1 0 50)|apply (circ_spaced (- (1)) (- (30)) 40)]; try apply s1; try apply s2; try lra; intros q Hq; apply ex_meeting in Hq; tauto.
  - intros i j q q' Hq Hq' Hne. apply ex_meeting in Hq, Hq'. right. destruct Hq as [_ [-> | ->]]; destruct Hq' as [_ [-> | ->]]; try congruence; unfold P1, P2; cbn [vy]; first [rewrite Rabs_right; lra|rewrite Rabs_left; lra].
Qed.

Lemma ex_few : fewMeetings L.
Proof. exists [P1; P2]. split; [intros i q Hq; apply ex_meeting in Hq; cbn; intuition|]. cbn. lia. Qed.

Lemma perm_O z : permitted lO 20 z <-> dist (cc 0) z <= 50.
Proof. rewrite (permit_circ 1 0 70 20 lO s1 r70 ltac:(lra) ltac:(lra) eq_refl). split; intros; lra. Qed.
Lemma perm_H z : permitted lH 20 z <-> 40 <= dist (cc (- (30))) z.
Proof. rewrite (permit_circ (- (1)) (- (30)) 20 20 lH s2 r20 ltac:(lra) ltac:(lra) eq_refl). split; intros; lra. Qed.

Lemma ex_exact : offsetsExact input 20 L.
Proof.
  split.
  - intros l z [<-|[<-|[]]] O; cbn [lpoly lA lB parentLoopIndex] in *.
    + apply onA in O. exists lO. split; [reflexivity|]. apply (at_circ 1 0 70 20 s1 r70); [lra|lra|rewrite e50; exact O].
    + apply onB in O. exists lH. split; [reflexivity|]. apply (at_circ (- (1)) (- (30)) 20 20 s2 r20); [lra|lra|rewrite e40; exact O].
  - intros k P z Hk N. destruct (ex_inputs _ _ Hk) as [[-> ->]|[-> ->]].
    + pose proof (N lA (or_introl eq_refl) eq_refl) as NA. cbn [lpoly lA] in NA. unfold L. cbn [filter lA lB parentLoopIndex Nat.eqb map lpoly]. unfold windingSum. cbn [map fold_right]. rewrite Z.add_0_r.
      unfold cA in *. rewrite <- e50 in *. apply (wind_circ 1 0 70 20 lO s1 r70); [lra|lra|reflexivity|exact NA].
    + pose proof (N lB (or_intror (or_introl eq_refl)) eq_refl) as NB. cbn [lpoly lB] in NB. unfold L. cbn [filter lA lB parentLoopIndex Nat.eqb map lpoly]. unfold windingSum. cbn [map fold_right]. rewrite Z.add_0_r.
      unfold cB in *. rewrite <- e40 in *. apply (wind_circ (- (1)) (- (30)) 20 20 lH s2 r20); [lra|lra|reflexivity|exact NB].
Qed.

Lemma centres z : dist (cc 0) z <= dist (cc (- (30))) z + 30 /\ dist (cc (- (30))) z <= dist (cc 0) z + 30.
Proof.
  assert (E : dist (cc 0) (cc (- (30))) = 30) by (apply dist_is; unfold cc; cbn [vx vy]; lra). assert (E' : dist (cc (- (30))) (cc 0) = 30) by (apply dist_is; unfold cc; cbn [vx vy]; lra).
  pose proof (dist_tri (cc 0) (cc (- (30))) z) as T1. pose proof (dist_tri (cc (- (30))) (cc 0) z) as T2. lra.
Qed.

Lemma ex_arranged : arranged input 20.
Proof.
  intros i k Pi Pk y Hi Hk Hne O. pose proof (centres y) as [T1 T2]. destruct (ex_inputs _ _ Hi) as [[-> ->]|[-> ->]]; destruct (ex_inputs _ _ Hk) as [[-> ->]|[-> ->]]; try congruence; cbn [lpoly lO lH] in *.
  - apply (cs_path 1 0 70 s1 r70) in O. apply (side_circ (- (1)) (- (30)) 20 20 s2 r20); lra.
  - apply (cs_path (- (1)) (- (30)) 20 s2 r20) in O. apply (side_circ 1 0 70 20 s1 r70); lra.
Qed.

Lemma circ_seg s k r n t : (s = 1 \/ s = - (1)) -> seg (circ s k r) n t = mkV (k - r * cos (t * PI)) (- (s * (r * sin (t * PI)))) \/ seg (circ s k r) n t = mkV (k + r * cos (t * PI)) (s * (r * sin (t * PI))).
Proof.
  intros Hs. unfold seg, vert. cbn [circ vertexes length]. rewrite Nat.add_0_r, (Nat.add_mod n 1 2) by lia. pose proof (Nat.mod_upper_bound n 2 ltac:(lia)) as H. destruct (n mod 2)%nat as [|[|m]]; [left; exact (cs_pathAB s k r Hs t)|right; exact (cs_pathBA s k r Hs t)|lia].
Qed.
Lemma circ_seg2 s k r n : (s = 1 \/ s = - (1)) -> (forall t, seg (circ s k r) n t = mkV (k - r * cos (t * PI)) (- (s * (r * sin (t * PI))))) \/ (forall t, seg (circ s k r) n t = mkV (k + r * cos (t * PI)) (s * (r * sin (t * PI)))).
Proof.
  intros Hs. unfold seg, vert. cbn [circ vertexes length]. rewrite Nat.add_0_r, (Nat.add_mod n 1 2) by lia. pose proof (Nat.mod_upper_bound n 2 ltac:(lia)) as H. destruct (n mod 2)%nat as [|[|m]]; [left; exact (cs_pathAB s k r Hs)|right; exact (cs_pathBA s k r Hs)|lia].
Qed.

Lemma half_angle b C : 0 <= b <= 1 -> cos (b * PI) = C -> 0 <= cos (b / 2 * PI) /\ 0 <= sin (b / 2 * PI) /\ cos (b / 2 * PI) * cos (b / 2 * PI) = (1 + C) / 2 /\ sin (b / 2 * PI) * sin (b / 2 * PI) = (1 - C) / 2.
Proof.
  intros Hb E. pose proof PI_RGT_0. assert (B1 : 0 <= b / 2 * PI) by (apply Rmult_le_pos; lra). assert (B2 : b / 2 * PI <= 1 / 2 * PI) by (apply Rmult_le_compat_r; lra).
  split; [apply cos_ge_0; lra|]. split; [apply sin_ge_0; lra|]. replace (b * PI) with (2 * (b / 2 * PI)) in E by field. pose proof (cos_2a_cos (b / 2 * PI)) as E1. pose proof (cos_2a_sin (b / 2 * PI)) as E2. rewrite E in E1, E2. split; lra.
Qed.

(** the middle of the last segment of a stretch of the circle *)
Lemma circ_mid s k r (X : vec -> Prop) l : (s = 1 \/ s = - (1)) -> 1 <= r <= 1000 -> (forall q, X q -> q = P1 \/ q = P2) -> part (circ s k r) X l ->
  exists ch sh C, 0 <= ch /\ 0 <= sh /\ ch * ch = (1 + C) / 2 /\ sh * sh = (1 - C) / 2 /\
    ((r * C = k + 30 /\ lastMid l = mkV (k - r * ch) (- (s * (r * sh)))) \/ (r * C = - (30) - k /\ lastMid l = mkV (k + r * ch) (s * (r * sh)))).
Proof.
  intros Hs Hr HX (n & a & d & b & Hn & Hd & R & _ & Xa & Xb). rewrite (lastMid_run (circ s k r) X n a d b l (cs_closed s k r) (cs_small s k r Hs) (circ_spaced s k r X Hs Hr HX) R).
  assert (Vx : forall q, X q -> vx q = - (30)) by (intros q Hq; destruct (HX q Hq) as [-> | ->]; reflexivity). pose proof PI_RGT_0.
  destruct R as (Ha & Hb & R). destruct d as [|d].
  - exfalso. destruct R as (_ & _ & _ & Hab & _). rewrite Nat.add_0_r in Xb. apply Vx in Xa, Xb.
    assert (D : cos (b * PI) < cos (a * PI)) by (apply cos_decreasing_1; nra). destruct (circ_seg2 s k r n Hs) as [E|E]; rewrite E in Xa, Xb; cbn [vx] in Xa, Xb; nra.
  - cbn [runMid]. apply Vx in Xb. destruct (circ_seg2 s k r (n + S d) Hs) as [E|E]; rewrite E in Xb; rewrite E; cbn [vx] in Xb; exists (cos (b / 2 * PI)), (sin (b / 2 * PI)), (cos (b * PI)); destruct (half_angle b _ Hb eq_refl) as (H1 & H2 & H3 & H4);
      (do 4 (split; [assumption|])); [left|right]; (split; [lra|reflexivity]).
Qed.

Lemma no_side s k r v1 v2 p : (s = 1 \/ s = - (1)) -> 1 <= r -> In (v1, v2) (pathSegs (circ s k r)) -> 1 <= vy p \/ vy p <= - (1) -> ~ nearSectorSide v1 v2 p.
Proof.
  intros Hs Hr Hin Hy (_ & c & Hc & N). assert (Eb : bulge v1 = s) by (destruct Hin as [E|[E|[]]]; injection E as <- <-; reflexivity).
  apply ctr_unique in Hc; [|rewrite Eb; destruct Hs as [-> | ->]; lra]. assert (Ec : c = cc k). { rewrite Hc. destruct Hin as [E|[E|[]]]; injection E as <- <-; [apply (cs_ctrAB s k r Hs)|apply (cs_ctrBA s k r Hs)]. }
  clear Hc. subst c. assert (G : forall u, u = r * vy p \/ u = - (r * vy p) -> ~ Rabs u < 1 / 100000000).
  { intros u Hu H. apply Rabs_lt_iff in H. destruct Hy; destruct Hu as [-> | ->]; nra. }
  destruct Hin as [E|[E|[]]]; injection E as <- <-; unfold cc in N; cbn [pos mkVertex vx vy] in N; destruct N as [N|N]; revert N; apply G; first [left; ring|right; ring].
Qed.

Lemma ex_decisive : decisiveIslands input 20 L.
Proof.
  intros i li p k P Hi Hj Hk Hne. assert (HX : forall i q, meeting L i q -> q = P1 \/ q = P2) by (intros i0 q Hq; apply ex_meeting in Hq; tauto).
  destruct (ex_L _ _ Hi) as [[-> ->]|[-> ->]]; destruct (ex_inputs _ _ Hk) as [[-> ->]|[-> ->]]; cbn [parentLoopIndex lA lB] in Hne; try congruence; clear Hk Hne; cbn [lpoly lO lH].
  - destruct Hj as [->|(l & Hl & ->)].
    + right. exists (mkV (- (50)) 0). split; [apply (cs_path (- (1)) (- (30)) 20 s2 r20); apply dist_c_is; cbn [vx vy]; lra|]. rewrite (dist_is _ _ 0); [lra|lra|]. change (pos (at_ (lpoly lA) 0)) with (mkV (0 - 50) 0). cbn [vx vy]. lra.
    + cbn [lpoly lA] in Hl. destruct (circ_mid 1 0 50 _ l s1 ltac:(lra) (HX 0%nat) Hl) as (ch & sh & C & H1 & H2 & H3 & H4 & [[HC ->]|[HC ->]]).
      * right. assert (EC : C = 3 / 5) by lra. subst C. exists (mkV (- (46)) (- (12))). split; [apply (cs_path (- (1)) (- (30)) 20 s2 r20); apply dist_c_is; cbn [vx vy]; lra|].
        assert (B1 : 89 / 100 <= ch <= 9 / 10) by (split; nra). assert (B2 : 44 / 100 <= sh <= 45 / 100) by (split; nra).
        apply Rle_trans with 15; [|lra]. unfold dist. cbn [vx vy]. rewrite <- (sqrt_square 15) by lra. apply sqrt_le_1_alt. nra.
      * left. assert (EC : C = - (3 / 5)) by lra. subst C. assert (B1 : 44 / 100 <= ch <= 45 / 100) by (split; nra). assert (B2 : 89 / 100 <= sh <= 9 / 10) by (split; nra). split.
        -- apply (clear_circ (- (1)) (- (30)) 20 20); [apply s2|lra|lra|]. assert (40 <= dist (cc (- (30))) (mkV (0 + 50 * ch) (1 * (50 * sh)))); [|lra]. apply Rle_trans with (Rabs (vy (cc (- (30))) - 1 * (50 * sh))); [unfold cc; cbn [vy]; rewrite Rabs_left; lra|]. apply dist_x. right. cbn [vy]. lra.
        -- intros v1 v2 Hin. apply (no_side (- (1)) (- (30)) 20 v1 v2 _ s2); [lra|exact Hin|]. cbn [vy]. lra.
  - destruct Hj as [->|(l & Hl & ->)].
    + right. exists (mkV (- (70)) 0). split; [apply (cs_path 1 0 70 s1 r70); apply dist_c_is; cbn [vx vy]; lra|]. rewrite (dist_is _ _ 0); [lra|lra|]. change (pos (at_ (lpoly lB) 0)) with (mkV (- (30) - 40) 0). cbn [vx vy]. lra.
    + cbn [lpoly lB] in Hl. destruct (circ_mid (- (1)) (- (30)) 40 _ l s2 ltac:(lra) (HX 1%nat) Hl) as (ch & sh & C & H1 & H2 & H3 & H4 & [[HC ->]|[HC ->]]).
      * right. assert (EC : C = 0) by lra. subst C. exists (mkV (- (56)) 42). split; [apply (cs_path 1 0 70 s1 r70); apply dist_c_is; cbn [vx vy]; lra|].
        assert (B1 : 7 / 10 <= ch <= 71 / 100) by (split; nra). assert (B2 : 7 / 10 <= sh <= 71 / 100) by (split; nra).
        apply Rle_trans with 15; [|lra]. unfold dist. cbn [vx vy]. rewrite <- (sqrt_square 15) by lra. apply sqrt_le_1_alt. nra.
      * left. assert (EC : C = 0) by lra. subst C. assert (B1 : 7 / 10 <= ch <= 71 / 100) by (split; nra). assert (B2 : 7 / 10 <= sh <= 71 / 100) by (split; nra). split.
        -- apply (clear_circ 1 0 70 20); [apply s1|lra|lra|]. assert (dist (cc 0) (mkV (- (30) + 40 * ch) (- (1) * (40 * sh))) <= 50); [|lra]. unfold dist, cc. cbn [vx vy]. rewrite <- (sqrt_square 50) by lra. apply sqrt_le_1_alt. nra.
        -- intros v1 v2 Hin. apply (no_side 1 0 70 v1 v2 _ s1); [lra|exact Hin|]. cbn [vy]. lra.
Qed.

Lemma areaO : 0 < getArea disc. Proof. exact (proj1 (cs_area_sign 1 0 70 s1 r70) eq_refl). Qed.

Lemma ex_manageable : manageable L.
Proof. split; [cbn; lia|left; cbn; lia]. Qed.

Lemma ex_permitted q : permittedByAll input 20 q <-> dist (cc 0) q <= 50 /\ 40 <= dist (cc (- (30))) q.
Proof.
  split.
  - intros H. split; [apply perm_O, (H 0%nat); reflexivity|apply perm_H, (H 1%nat); reflexivity].
  - intros [H1 H2] k P Hk. destruct (ex_inputs _ _ Hk) as [[_ ->]|[_ ->]]; [now apply perm_O|now apply perm_H].
Qed.

Lemma ex_background : backgroundAll input = 0%Z.
Proof. unfold backgroundAll. destruct (pdec _) as [H|_]; [|reflexivity]. exfalso. specialize (H 0%nat lO eq_refl). cbn [lpoly lO] in H. pose proof areaO. lra. Qed.

Lemma ex_run o : exists o' r, compute o input 20 = Ok (o', r).
Proof.
  assert (E20 : Rabs 20 = 20) by (apply Rabs_right; lra). apply (C69_islands_return o input 20 L 2); rewrite ?E20.
  - intros l Hl. pose proof (ex_input l Hl) as (A & B & _). split; [split; assumption|]. destruct Hl as [<-|[<-|[]]]; [exists [cA]; exact off_disc|exists [cB]; exact off_hole].
  - exact ex_loops.
  - exact ex_manageable.
  - intros l [<-|[<-|[]]]; (split; [apply cs_indexable|cbn; lia]).
  - assert (B : (totalCuts L <= 4 * loopVertexes L * loopVertexes L)%nat).
    { apply totalCuts_bound. intros l [<-|[<-|[]]]; (split; [apply cs_indexable|assumption]). }
    change (loopVertexes L) with 4%nat in B. change (2 ^ 24)%Z with 16777216%Z. lia.
Qed.

Lemma crescent o : exists o' r, compute o input 20 = Ok (o', r) /\ exists tiny : list polyline, (forall p, In p tiny -> Rabs (getArea p) < 1 / 10000) /\
  let curves := map lpoly (ccwLoops r ++ cwLoops r) ++ tiny in
  forall q, q <> P1 -> q <> P2 -> (forall p, In p curves -> ~ onPath p q) ->
    (dist (cc 0) q <= 50 /\ 40 <= dist (cc (- (30))) q -> windingSum curves q = 1%Z) /\
    (~ (dist (cc 0) q <= 50 /\ 40 <= dist (cc (- (30))) q) -> windingSum curves q = 0%Z).
Proof.
  destruct (ex_run o) as (o' & r & E). exists o', r. split; [exact E|]. assert (E20 : Rabs 20 = 20) by (apply Rabs_right; lra).
  destruct (C66_islands_region o input 20 o' r L) as (tiny & Ht & _ & _ & _ & HW); rewrite ?E20.
  - exact ex_input.
  - lra.
  - exact ex_loops.
  - exact ex_manageable.
  - exact ex_few.
  - exact ex_position.
  - exact ex_exact.
  - exact ex_arranged.
  - exact ex_decisive.
  - exact E.
  - exists tiny. split; [exact Ht|]. cbv zeta in HW |- *. intros q N1 N2 Off. rewrite E20 in HW. destruct (HW q) as [W1 W0]; [|exact Off|].
    + intros i Hi. apply ex_meeting in Hi. destruct Hi as [_ [H|H]]; congruence.
    + rewrite ex_background in W1, W0. split; intros H.
      * apply W1, ex_permitted, H.
      * apply W0. intros H'. apply H, ex_permitted, H'.
Qed.
End Crescent.

(** The hypotheses of C60, C66 and C69 hold together for a disc of radius 70 with a round hole of radius 20 beside its centre and the offset distance 20: the call returns, and its
    result encloses exactly the crescent of the points at most 50 from the first centre and at least 40 from the second. *)
Example C66_crescent {SL : StdLib} {SLaws : StdLaws SL} o : exists ixO ixH, createApproxSpatialIndex disc = Ok ixO /\ createApproxSpatialIndex hole = Ok ixH /\
  let input := mkLoopSet [mkLoop 0 disc ixO] [mkLoop 0 hole ixH] in
  exists o' r, compute o input 20 = Ok (o', r) /\ exists tiny : list polyline, (forall p, In p tiny -> Rabs (getArea p) < 1 / 10000) /\
  let curves := map lpoly (ccwLoops r ++ cwLoops r) ++ tiny in
  forall q, q <> P1 -> q <> P2 -> (forall p, In p curves -> ~ onPath p q) ->
    (dist (mkV 0 0) q <= 50 /\ 40 <= dist (mkV (- (30)) 0) q -> windingSum curves q = 1%Z) /\
    (~ (dist (mkV 0 0) q <= 50 /\ 40 <= dist (mkV (- (30)) 0) q) -> windingSum curves q = 0%Z).
Proof.
  destruct (pline_index disc (cs_indexable _ _ _)) as (ixO & EO & _). destruct (pline_index hole (cs_indexable _ _ _)) as (ixH & EH & _).
  destruct (pline_index cA (cs_indexable _ _ _)) as (ixA & EA & _). destruct (pline_index cB (cs_indexable _ _ _)) as (ixB & EB & _).
  exists ixO, ixH. split; [exact EO|]. split; [exact EH|]. exact (crescent ixO ixH ixA ixB EO EH EA EB o).
Qed.
