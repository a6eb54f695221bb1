(** * C14: closestPointOnSeg *)
From Coq Require Import ZArith Reals Lra Lia Psatz List Bool.
From Verif Require Import Base Num MathUtils PlineSegment RGeom Spec PropsMath ArcGeom Polar PropsSegment.
Import ListNotations.
Open Scope R_scope.

Lemma dist_nonneg p q : 0 <= dist p q.
Proof. apply sqrt_pos. Qed.
Lemma dist_sq p q : dist p q * dist p q = (vx p - vx q) * (vx p - vx q) + (vy p - vy q) * (vy p - vy q).
Proof.
  unfold dist. rewrite sqrt_sqrt; [rring|].
  replace ((vx p - vx q) ^ 2 + (vy p - vy q) ^ 2) with
    ((vx p - vx q) * (vx p - vx q) + (vy p - vy q) * (vy p - vy q)) by ring. apply sumsq_nonneg.
Qed.
Lemma dist_sym p q : dist p q = dist q p.
Proof. unfold dist. f_equal. ring. Qed.
Lemma dist_eq a p q : 0 <= a -> a * a = (vx p - vx q) * (vx p - vx q) + (vy p - vy q) * (vy p - vy q) ->
  dist p q = a.
Proof.
  intros Ha E. unfold dist. apply sqrt_lem_1; auto.
  - replace ((vx p - vx q) ^ 2 + (vy p - vy q) ^ 2) with
    ((vx p - vx q) * (vx p - vx q) + (vy p - vy q) * (vy p - vy q)) by ring. apply sumsq_nonneg.
  - rewrite E. ring.
Qed.
Lemma dist_le a b c d : dist a b * dist a b <= dist c d * dist c d -> dist a b <= dist c d.
Proof. intros H. pose proof (dist_nonneg a b). pose proof (dist_nonneg c d). nra. Qed.
Lemma dist_le_num a b k : 0 <= k -> dist a b * dist a b <= k * k -> dist a b <= k.
Proof. intros H H'. pose proof (dist_nonneg a b). nra. Qed.

Lemma cauchy a b c d : (a * c + b * d) * (a * c + b * d) <= (a * a + b * b) * (c * c + d * d).
Proof. pose proof (sq_nonneg (a * d - b * c)). nra. Qed.

Lemma dist_triangle p q r : dist p r <= dist p q + dist q r.
Proof.
  pose proof (dist_nonneg p q). pose proof (dist_nonneg q r).
  apply dist_le_num; [lra|].
  pose proof (dist_sq p q) as A. pose proof (dist_sq q r) as B. pose proof (dist_sq p r) as C.
  pose proof (cauchy (vx p - vx q) (vy p - vy q) (vx q - vx r) (vy q - vy r)) as K.
  rewrite <- A, <- B in K.
  set (u := (vx p - vx q) * (vx q - vx r) + (vy p - vy q) * (vy q - vy r)) in *.
  assert (u <= dist p q * dist q r).
  { assert (0 <= dist p q * dist q r) by now apply Rmult_le_pos.
    assert (E : dist p q * dist p q * (dist q r * dist q r) = (dist p q * dist q r) * (dist p q * dist q r)) by ring.
    rewrite E in K. nra. }
  assert (E : dist p r * dist p r = dist p q * dist p q + dist q r * dist q r + 2 * u).
  { rewrite A, B, C. unfold u. rring. }
  rewrite E. nra.
Qed.

(** ** Lines *)
Lemma near_start (wx wy ux uy t e : R) : 0 < e -> 0 <= t <= 1 -> wx * ux + wy * uy < e * e ->
  sqrt (wx * wx + wy * wy) <= sqrt ((wx - t * ux) * (wx - t * ux) + (wy - t * uy) * (wy - t * uy)) + e.
Proof.
  intros He Ht Hc.
  set (A := sqrt (wx * wx + wy * wy)). set (B := sqrt ((wx - t * ux) * (wx - t * ux) + (wy - t * uy) * (wy - t * uy))).
  assert (A0 : 0 <= A) by apply sqrt_pos. assert (B0 : 0 <= B) by apply sqrt_pos.
  assert (A2 : A * A = wx * wx + wy * wy) by (apply sqrt_sqrt, sumsq_nonneg).
  assert (B2 : B * B = (wx - t * ux) * (wx - t * ux) + (wy - t * uy) * (wy - t * uy)) by (apply sqrt_sqrt, sumsq_nonneg).
  set (m := sqrt (t * ux * (t * ux) + t * uy * (t * uy))).
  assert (m0 : 0 <= m) by apply sqrt_pos.
  assert (m2 : m * m = t * ux * (t * ux) + t * uy * (t * uy)) by (apply sqrt_sqrt, sumsq_nonneg).
  clearbody A B m.
  pose proof (cauchy wx wy (t * ux) (t * uy)) as K. rewrite <- A2, <- m2 in K.
  set (c := wx * ux + wy * uy) in *.
  assert (K' : t * c <= A * m).
  { replace (wx * (t * ux) + wy * (t * uy)) with (t * c) in K by (unfold c; ring).
    assert (0 <= A * m) by now apply Rmult_le_pos. nra. }
  assert (B2' : B * B = A * A - 2 * (t * c) + m * m) by (rewrite B2, A2, m2; unfold c; ring).
  assert (Hm : A <= B + m) by nra.
  apply Rnot_lt_le. intros Hlt.
  assert (Htc : t * c <= e * e) by nra.
  nra.
Qed.

Theorem C14_line (v1 v2 : vertex) (p : vec) : isLine v1 ->
  let r := closestPointOnSeg v1 v2 p in
  onSeg v1 v2 r /\
  (forall q, onSeg v1 v2 q -> dist p r <= dist p q + 1 / 10000) /\
  (let d := (vx p - vx (pos v1)) * (vx (pos v2) - vx (pos v1)) +
            (vy p - vy (pos v1)) * (vy (pos v2) - vy (pos v1)) in
   1 / 100000000 <= d ->
   d + 1 / 100000000 <= dist (pos v1) (pos v2) * dist (pos v1) (pos v2) ->
   forall q, onSeg v1 v2 q -> dist p r <= dist p q).
Proof.
  intros Hl r. unfold r, closestPointOnSeg. rewrite (proj2 (bulgeIsZero_R v1) Hl).
  unfold closestPointOnLineSeg, dot, vsub, vadd, vscale. rcbn.
  rewrite (dist_sq (pos v1) (pos v2)). destruct p as [x y].
  assert (Hseg : forall q, onSeg v1 v2 q -> exists t, 0 <= t <= 1 /\ q = lerp (pos v1) (pos v2) t).
  { intros q (t & Ht & Hq). apply (segPoint_line _ _ _ _ Hl) in Hq. eauto. }
  assert (Hon : forall t, 0 <= t <= 1 -> onSeg v1 v2 (lerp (pos v1) (pos v2) t)).
  { intros t Ht. exists t. split; auto. now apply segPoint_line. }
  cbn [vx vy]. unfold isLine in Hl. clear r.
  destruct (pos v1) as [x1 y1], (pos v2) as [x2 y2]. cbn [vx vy].
  set (c1 := (x - x1) * (x2 - x1) + (y - y1) * (y2 - y1)).
  set (c2 := (x2 - x1) * (x2 - x1) + (y2 - y1) * (y2 - y1)).
  assert (Ec2 : (x1 - x2) * (x1 - x2) + (y1 - y2) * (y1 - y2) = c2) by (unfold c2; ring).
  rewrite Ec2.
  assert (L0 : lerp {| vx := x1; vy := y1 |} {| vx := x2; vy := y2 |} 0 = {| vx := x1; vy := y1 |}).
  { unfold lerp. apply vec_eq; rcbn; rring. }
  assert (L1 : lerp {| vx := x1; vy := y1 |} {| vx := x2; vy := y2 |} 1 = {| vx := x2; vy := y2 |}).
  { unfold lerp. apply vec_eq; rcbn; rring. }
  destruct (Rltb c1 (1 / 100000000)) eqn:E1; rbool.
  - split; [|split].
    + rewrite <- L0. apply Hon. lra.
    + intros q Hq. destruct (Hseg q Hq) as (t & Ht & ->).
      pose proof (near_start (x - x1) (y - y1) (x2 - x1) (y2 - y1) t (1 / 10000) ltac:(lra) Ht) as N.
      unfold dist, lerp. rcbn.
      replace ((x - x1) ^ 2 + (y - y1) ^ 2) with ((x - x1) * (x - x1) + (y - y1) * (y - y1)) by ring.
      replace ((x - (x1 + t * (x2 - x1))) ^ 2 + (y - (y1 + t * (y2 - y1))) ^ 2)
        with ((x - x1 - t * (x2 - x1)) * (x - x1 - t * (x2 - x1)) + (y - y1 - t * (y2 - y1)) * (y - y1 - t * (y2 - y1))) by ring.
      apply N. fold c1. lra.
    + intros Hd. exfalso. lra.
  - destruct (Rltb c2 (c1 + 1 / 100000000)) eqn:E2; rbool.
    + split; [|split].
      * rewrite <- L1. apply Hon. lra.
      * intros q Hq. destruct (Hseg q Hq) as (t & Ht & ->).
        pose proof (near_start (x - x2) (y - y2) (x1 - x2) (y1 - y2) (1 - t) (1 / 10000) ltac:(lra) ltac:(lra)) as N.
        unfold dist, lerp. rcbn.
        replace ((x - x2) ^ 2 + (y - y2) ^ 2) with ((x - x2) * (x - x2) + (y - y2) * (y - y2)) by ring.
        replace ((x - (x1 + t * (x2 - x1))) ^ 2 + (y - (y1 + t * (y2 - y1))) ^ 2)
          with ((x - x2 - (1 - t) * (x1 - x2)) * (x - x2 - (1 - t) * (x1 - x2)) + (y - y2 - (1 - t) * (y1 - y2)) * (y - y2 - (1 - t) * (y1 - y2))) by ring.
        apply N. unfold c1, c2 in *. lra.
      * intros Hd Hd'. exfalso. lra.
    + set (b := c1 / c2).
      assert (Hc2 : 0 < c2) by lra.
      assert (Eb : c1 = b * c2) by (unfold b; field; lra).
      assert (Hb : 0 <= b <= 1).
      { split; [apply Rlt_le, Rdiv_lt_0_compat; lra|]. apply Rmult_le_reg_r with c2; lra. }
      assert (Er : {| vx := x1 + (x2 - x1) * b; vy := y1 + (y2 - y1) * b |} = lerp {| vx := x1; vy := y1 |} {| vx := x2; vy := y2 |} b).
      { unfold lerp. apply vec_eq; rcbn; rring. }
      rewrite Er.
      assert (Hmin : forall q, onSeg v1 v2 q -> dist {| vx := x; vy := y |} (lerp {| vx := x1; vy := y1 |} {| vx := x2; vy := y2 |} b) <= dist {| vx := x; vy := y |} q).
      { intros q Hq. destruct (Hseg q Hq) as (t & Ht & ->). apply dist_le. rewrite !dist_sq. unfold lerp. rcbn.
        assert (E : forall s, (x - (x1 + s * (x2 - x1))) * (x - (x1 + s * (x2 - x1))) +
            (y - (y1 + s * (y2 - y1))) * (y - (y1 + s * (y2 - y1))) =
            (x - x1) * (x - x1) + (y - y1) * (y - y1) - 2 * s * c1 + s * s * c2).
        { intros s. unfold c1, c2. ring. }
        rewrite !E, Eb. pose proof (sq_nonneg (t - b)). nra. }
      split; [now apply Hon|]. split.
      * intros q Hq. specialize (Hmin q Hq). lra.
      * intros _ _ q Hq. now apply Hmin.
Qed.

(** ** Arcs *)
Definition sgn (b : R) : R := if Rlt_dec 0 b then 1 else -1.

Lemma sgn_sq b : sgn b * sgn b = 1.
Proof. unfold sgn. destruct (Rlt_dec 0 b); lra. Qed.
Lemma sgn_sweep b : b <> 0 -> sweep b = sgn b * Rabs (sweep b).
Proof.
  intros Hb. unfold sgn. destruct (Rlt_dec 0 b) as [H|H].
  - pose proof (sweep_pos b H). rewrite Rabs_pos_eq; lra.
  - pose proof (sweep_neg b ltac:(lra)). rewrite Rabs_left; lra.
Qed.

(** direction of a point from the centre, measured from the arc start in arc direction *)
Lemma sector_param c p1 p s : s * s = 1 -> p1 <> c -> p <> c ->
  exists g, 0 <= g < 2 * PI /\
    vx p - vx c = dist c p / dist c p1 * (vx (rot c (s * g) p1) - vx c) /\
    vy p - vy c = dist c p / dist c p1 * (vy (rot c (s * g) p1) - vy c).
Proof.
  intros Hs H1 H. destruct (angle_polar c p H) as (A & B & D). destruct (angle_polar c p1 H1) as (A1 & B1 & D1).
  set (d := s * (angle c p - angle c p1)).
  assert (Hn : exists g, 0 <= g < 2 * PI /\ congruent d g).
  { destruct (C09_normalizeRadians d) as (N1 & N2 & _).
    destruct (Req_dec (normalizeRadians d) (2 * PI)) as [E|E].
    - exists 0. pose proof PI_RGT_0. split; [lra|]. eapply congruent_trans; [exact N2|].
      exists (-1)%Z. rewrite E. simpl. lra.
    - exists (normalizeRadians d). split; auto. lra. }
  destruct Hn as (g & Hg & Hc). exists g. split; auto.
  assert (Hcg : congruent (angle c p1 + s * g) (angle c p)).
  { destruct Hc as [k ->]. assert (S : s = 1 \/ s = -1) by (assert ((s - 1) * (s + 1) = 0) by lra; apply Rmult_integral in H0; destruct H0; [left|right]; lra).
    destruct S as [-> | ->]; unfold d.
    - exists (- k)%Z. rewrite opp_IZR. lra.
    - exists k. lra. }
  rewrite A, B, <- (congruent_cos _ _ Hcg), <- (congruent_sin _ _ Hcg).
  unfold rot. rcbn. rewrite A1, B1, cos_plus, sin_plus. split; field; lra.
Qed.

Lemma cross_rot c p1 p s g : s * s = 1 -> dist c p1 <> 0 ->
  vx p - vx c = dist c p / dist c p1 * (vx (rot c (s * g) p1) - vx c) ->
  vy p - vy c = dist c p / dist c p1 * (vy (rot c (s * g) p1) - vy c) ->
  forall a, leftExpr c (rot c (s * a) p1) p = s * (dist c p1 * dist c p * sin (g - a)).
Proof.
  intros Hs Hd Hx Hy a. unfold leftExpr. rcbn. rewrite Hx, Hy.
  assert (E : s * sin (g - a) = sin (s * (g - a))).
  { assert (S : s = 1 \/ s = -1) by (assert (Q : (s - 1) * (s + 1) = 0) by lra; apply Rmult_integral in Q; destruct Q; [left|right]; lra).
    destruct S as [-> | ->].
    - now rewrite !Rmult_1_l. - replace (-1 * (g - a)) with (- (g - a)) by ring. rewrite sin_neg. ring. }
  replace (s * (dist c p1 * dist c p * sin (g - a))) with (dist c p1 * dist c p * (s * sin (g - a))) by ring.
  rewrite E. replace (s * (g - a)) with (s * g - s * a) by ring. rewrite sin_minus.
  unfold rot. rcbn. pose proof (dist_sq c p1) as Q.
  set (r := dist c p1) in *. set (ro := dist c p). clearbody r ro.
  set (ex := vx p1 - vx c) in *. set (ey := vy p1 - vy c) in *.
  assert (Q' : r * r = ex * ex + ey * ey) by (rewrite Q; unfold ex, ey; ring).
  transitivity (ro / r * ((ex * ex + ey * ey) * (cos (s * a) * sin (s * g) - sin (s * a) * cos (s * g)))); [unfold ex, ey; field; auto|].
  rewrite <- Q'. field. auto.
Qed.

Lemma dist_rot_sq c p1 p s g : s * s = 1 -> dist c p1 <> 0 ->
  vx p - vx c = dist c p / dist c p1 * (vx (rot c (s * g) p1) - vx c) ->
  vy p - vy c = dist c p / dist c p1 * (vy (rot c (s * g) p1) - vy c) ->
  forall a, dist p (rot c (s * a) p1) * dist p (rot c (s * a) p1) =
    dist c p * dist c p + dist c p1 * dist c p1 - 2 * dist c p * dist c p1 * cos (g - a).
Proof.
  intros Hs Hd Hx Hy a. rewrite dist_sq.
  assert (E : cos (g - a) = cos (s * (g - a))).
  { assert (S : s = 1 \/ s = -1) by (assert (Q : (s - 1) * (s + 1) = 0) by lra; apply Rmult_integral in Q; destruct Q; [left|right]; lra).
    destruct S as [-> | ->].
    - now rewrite !Rmult_1_l. - replace (-1 * (g - a)) with (- (g - a)) by ring. now rewrite cos_neg. }
  rewrite E. replace (s * (g - a)) with (s * g - s * a) by ring. rewrite cos_minus.
  pose proof (dist_sq c p1) as Q. pose proof (sin2_cos2 (s * a)) as Ta. pose proof (sin2_cos2 (s * g)) as Tg.
  unfold Rsqr in *.
  assert (Ex : vx p = vx c + dist c p / dist c p1 * (vx (rot c (s * g) p1) - vx c)) by lra.
  assert (Ey : vy p = vy c + dist c p / dist c p1 * (vy (rot c (s * g) p1) - vy c)) by lra.
  rewrite Ex, Ey. clear Ex Ey Hx Hy.
  unfold rot. rcbn.
  set (r := dist c p1) in *. set (ro := dist c p). clearbody r ro.
  set (ca := cos (s * a)) in *. set (sa := sin (s * a)) in *. set (cg := cos (s * g)) in *. set (sg := sin (s * g)) in *.
  set (ex := vx p1 - vx c) in *. set (ey := vy p1 - vy c) in *.
  assert (Q' : r * r = ex * ex + ey * ey) by (rewrite Q; unfold ex, ey; ring).
  transitivity (ro / r * (ro / r) * (sg * sg + cg * cg) * (ex * ex + ey * ey) + (sa * sa + ca * ca) * (ex * ex + ey * ey)
    - 2 * (ro / r) * (ex * ex + ey * ey) * (cg * ca + sg * sa)); [unfold ex, ey; field; auto|].
  rewrite Ta, Tg, <- Q'. field. auto.
Qed.

Lemma sweep_test v1 v2 p : bulge v1 <> 0 ->
  pointWithinArcSweepAngle (center (arcRadiusAndCenter v1 v2)) (pos v1) (pos v2) (bulge v1) p = true <->
  - (1 / 100000000) < sgn (bulge v1) * leftExpr (center (arcRadiusAndCenter v1 v2)) (pos v1) p /\
  sgn (bulge v1) * leftExpr (center (arcRadiusAndCenter v1 v2)) (pos v2) p < 1 / 100000000.
Proof.
  intros Hb. unfold pointWithinArcSweepAngle, isLeftOrCoincident, isRightOrCoincident, sgn. rcbn.
  destruct (Rltb 0 (bulge v1)) eqn:E; rbool.
  - destruct (Rlt_dec 0 (bulge v1)); [|contradiction]. rewrite andb_true_iff, !Rltb_spec. rewrite !Rmult_1_l. tauto.
  - destruct (Rlt_dec 0 (bulge v1)); [lra|]. rewrite andb_true_iff, !Rltb_spec.
    split; intros [A B]; split; lra.
Qed.

Lemma cos_between g a th : 0 <= a <= th -> th <= g <= 2 * PI ->
  cos (g - a) <= cos g \/ cos (g - a) <= cos (g - th).
Proof.
  intros Ha Hg. pose proof PI_RGT_0. destruct (Rle_dec (g - a) PI).
  - right. apply cos_decr_1; lra.
  - left. apply cos_incr_1; lra.
Qed.

Theorem C14_arc (v1 v2 : vertex) (p : vec) :
  ~ isLine v1 -> Rabs (bulge v1) <= 1 -> pos v1 <> pos v2 ->
  let c := center (arcRadiusAndCenter v1 v2) in
  let r := closestPointOnSeg v1 v2 p in
  fuzzyEqual p c (1 / 100000000) = false ->
  (** never farther than any point of the arc *)
  (forall q, onSeg v1 v2 q -> dist p r <= dist p q) /\
  (** and a point of the arc, if p is in the sector or not within the tolerance of its two sides *)
  ((exists k q, 0 <= k /\ onSeg v1 v2 q /\ vx p - vx c = k * (vx q - vx c) /\ vy p - vy c = k * (vy q - vy c)) \/
   (1 / 100000000 <= Rabs (leftExpr c (pos v1) p) /\ 1 / 100000000 <= Rabs (leftExpr c (pos v2) p)) ->
   onSeg v1 v2 r).
Proof.
  intros Hl Hb1 Hne c r Hf. pose proof (notLine_ne _ Hl) as Hb.
  pose proof (not_fuzzy_ne _ _ (1 / 100000000) ltac:(lra) Hf) as Hpc.
  assert (Ec : c = ctr (pos v1) (pos v2) (bulge v1)) by (unfold c; now apply center_R).
  pose proof (ctr_spec (pos v1) (pos v2) _ Hb) as Hctr. unfold arcCentre in Hctr. rewrite <- Ec in Hctr.
  pose proof (ctr_ne (pos v1) (pos v2) _ Hb Hne) as Nc. rewrite <- Ec in Nc.
  pose proof (dist_ctr _ _ Hb Hne) as Hrad. rewrite <- Ec in Hrad.
  set (s := sgn (bulge v1)) in *. assert (Hs : s * s = 1) by apply sgn_sq.
  set (Th := Rabs (sweep (bulge v1))).
  assert (Esw : sweep (bulge v1) = s * Th) by (now apply sgn_sweep).
  pose proof (sweep_le_pi _ Hb1) as Hsw.
  assert (HTh : 0 < Th <= PI).
  { split.
    - apply Rabs_pos_lt. intros E. unfold sweep in E.
      destruct (Rtotal_order (bulge v1) 0) as [L|[L|L]]; auto.
      + pose proof (atan_neg _ L). lra. + pose proof (atan_pos _ L). lra.
    - unfold Th. apply Rabs_le. lra. }
  destruct (sector_param c (pos v1) p s Hs Nc Hpc) as (g & Hg & Gx & Gy).
  destruct (angle_polar c (pos v1) Nc) as (_ & _ & D1). destruct (angle_polar c p Hpc) as (_ & _ & Dp).
  set (R1 := dist c (pos v1)) in *. set (Rp := dist c p) in *.
  assert (Hcr := cross_rot c (pos v1) p s g Hs ltac:(fold R1; lra) Gx Gy).
  assert (Hdq := dist_rot_sq c (pos v1) p s g Hs ltac:(fold R1; lra) Gx Gy). fold R1 Rp in Hcr, Hdq.
  assert (C1 : leftExpr c (pos v1) p = s * (R1 * Rp * sin g)).
  { specialize (Hcr 0). rewrite Rmult_0_r, rot_0, Rminus_0_r in Hcr. exact Hcr. }
  assert (C2 : leftExpr c (pos v2) p = s * (R1 * Rp * sin (g - Th))).
  { specialize (Hcr Th). rewrite <- Esw, Hctr in Hcr. exact Hcr. }
  assert (Hon : forall a, 0 <= a <= Th -> onSeg v1 v2 (rot c (s * a) (pos v1))).
  { intros a Ha. exists (a / Th). split.
    - split; [apply Rmult_le_pos; [lra|apply Rlt_le, Rinv_0_lt_compat; lra]|].
      apply Rmult_le_reg_r with Th; [lra|]. unfold Rdiv. rewrite Rmult_assoc, Rinv_l; lra.
    - apply segPoint_arc; auto. rewrite <- Ec, Esw. f_equal. field. lra. }
  assert (Hq : forall q, onSeg v1 v2 q -> exists a, 0 <= a <= Th /\ q = rot c (s * a) (pos v1)).
  { intros q (t & Ht & H). apply (segPoint_arc _ _ _ _ Hl) in H. exists (t * Th). split; [nra|].
    rewrite H, <- Ec, Esw. f_equal. ring. }
  assert (Hsin : forall x, (0 <= x < 2 * PI -> 0 <= sin x -> x <= PI)).
  { intros x Hx Hsx. apply Rnot_lt_le. intros H. pose proof (sin_lt_0 x ltac:(lra) ltac:(lra)). lra. }
  assert (HRR : 0 < R1 * Rp) by (apply Rmult_lt_0_compat; auto).
  unfold r, closestPointOnSeg. rewrite (proj2 (bulgeIsZero_false v1) Hl). rcbn. fold c. rewrite Hf.
  destruct (pointWithinArcSweepAngle c (pos v1) (pos v2) (bulge v1) p) eqn:Ew.
  - apply sweep_test in Ew; auto. fold c s in Ew. rewrite C1, C2 in Ew.
    replace (s * (s * (R1 * Rp * sin g))) with (R1 * Rp * sin g) in Ew by (rewrite <- Rmult_assoc, Hs; ring).
    replace (s * (s * (R1 * Rp * sin (g - Th)))) with (R1 * Rp * sin (g - Th)) in Ew by (rewrite <- Rmult_assoc, Hs; ring).
    assert (Er : vadd (vscale (radius (arcRadiusAndCenter v1 v2)) (normalize (vsub p c))) c = rot c (s * g) (pos v1)).
    { unfold normalize, vdiv, vsub, vscale, vadd, dot. rcbn.
      assert (Hsq : sqrt ((vx p - vx c) * (vx p - vx c) + (vy p - vy c) * (vy p - vy c)) = Rp).
      { unfold Rp, dist. f_equal. ring. }
      rewrite Hsq. assert (Reqb Rp 0 = false) as -> by (apply Reqb_false; lra). cbn [negb vx vy].
      rewrite <- Hrad. fold R1. rewrite Gx, Gy. apply vec_eq; cbn [vx vy]; apply Rminus_diag_uniq; field; lra. }
    rewrite Er. split.
    + intros q Hqq. destruct (Hq q Hqq) as (a & Ha & ->). apply dist_le. rewrite !Hdq.
      rewrite Rminus_eq_0, cos_0. pose proof (COS_bound (g - a)). nra.
    + intros [(k & q & Hk & Hqq & Kx & Ky)|[T1 T2]].
      * destruct (Hq q Hqq) as (a & Ha & ->).
        replace (rot c (s * g) (pos v1)) with (rot c (s * a) (pos v1)); [now apply Hon|].
        assert (Dq : dist c (rot c (s * a) (pos v1)) = R1) by apply dist_rot.
        assert (Ek : k * R1 = Rp).
        { symmetry. unfold Rp. apply dist_eq; [apply Rmult_le_pos; lra|].
          pose proof (dist_sq c (rot c (s * a) (pos v1))) as Q. rewrite Dq in Q.
          transitivity (k * k * (R1 * R1)); [ring|]. rewrite Q.
          replace (vx c - vx p) with (- (vx p - vx c)) by ring. replace (vy c - vy p) with (- (vy p - vy c)) by ring.
          rewrite Kx, Ky. ring. }
        assert (Ek' : k = Rp / R1) by (rewrite <- Ek; field; lra).
        rewrite Kx in Gx. rewrite Ky in Gy. rewrite Ek' in Gx, Gy.
        assert (HK : Rp / R1 <> 0) by (apply Rgt_not_eq, Rdiv_lt_0_compat; lra).
        apply Rmult_eq_reg_l in Gx; auto. apply Rmult_eq_reg_l in Gy; auto.
        apply vec_eq; rcbn; lra.
      * apply Hon. split; [lra|].
        rewrite C1 in T1. rewrite C2 in T2. rewrite Rabs_mult in T1, T2.
        assert (Rabs s = 1) by (unfold s, sgn; destruct (Rlt_dec 0 (bulge v1)); [apply Rabs_pos_eq|rewrite Rabs_left]; lra).
        rewrite H, Rmult_1_l in T1, T2.
        assert (S1 : 0 <= sin g).
        { apply Rnot_lt_le. intros Hn. assert (R1 * Rp * sin g < 0) by nra. rewrite Rabs_left in T1 by auto. lra. }
        assert (S2 : sin (g - Th) <= 0).
        { apply Rnot_lt_le. intros Hn. assert (0 < R1 * Rp * sin (g - Th)) by nra. rewrite Rabs_pos_eq in T2 by lra. lra. }
        pose proof (Hsin g Hg S1) as Hgp. apply Rnot_lt_le. intros Hn.
        destruct (Req_dec (g - Th) PI) as [Hp|Hp]; [lra|].
        pose proof (sin_gt_0 (g - Th) ltac:(lra) ltac:(lra)). lra.
  - assert (Hout : Th < g).
    { apply Rnot_le_lt. intros Hle. assert (pointWithinArcSweepAngle c (pos v1) (pos v2) (bulge v1) p = true); [|congruence].
      apply sweep_test; auto. fold c s. rewrite C1, C2.
      replace (s * (s * (R1 * Rp * sin g))) with (R1 * Rp * sin g) by (rewrite <- Rmult_assoc, Hs; ring).
      replace (s * (s * (R1 * Rp * sin (g - Th)))) with (R1 * Rp * sin (g - Th)) by (rewrite <- Rmult_assoc, Hs; ring).
      pose proof (sin_ge_0 g ltac:(lra) ltac:(lra)).
      pose proof (sin_ge_0 (Th - g) ltac:(lra) ltac:(lra)) as HS.
      replace (g - Th) with (- (Th - g)) by ring. rewrite sin_neg. split; nra. }
    assert (Ed : forall x, distSquared x p = dist p x * dist p x).
    { intros x. rewrite dist_sq. unfold distSquared, dot, vsub. rcbn. rring. }
    rewrite !Ed.
    assert (D1' : dist p (pos v1) * dist p (pos v1) = Rp * Rp + R1 * R1 - 2 * Rp * R1 * cos g).
    { specialize (Hdq 0). rewrite Rmult_0_r, rot_0, Rminus_0_r in Hdq. exact Hdq. }
    assert (D2' : dist p (pos v2) * dist p (pos v2) = Rp * Rp + R1 * R1 - 2 * Rp * R1 * cos (g - Th)).
    { specialize (Hdq Th). rewrite <- Esw, Hctr in Hdq. exact Hdq. }
    assert (On1 : onSeg v1 v2 (pos v1)).
    { specialize (Hon 0 ltac:(lra)). now rewrite Rmult_0_r, rot_0 in Hon. }
    assert (On2 : onSeg v1 v2 (pos v2)).
    { specialize (Hon Th ltac:(lra)). now rewrite <- Esw, Hctr in Hon. }
    assert (Hmin : forall q, onSeg v1 v2 q -> dist p (pos v1) <= dist p q \/ dist p (pos v2) <= dist p q).
    { intros q Hqq. destruct (Hq q Hqq) as (a & Ha & ->).
      destruct (cos_between g a Th Ha ltac:(lra)) as [K|K]; [left|right]; apply dist_le;
        rewrite Hdq, ?D1', ?D2'; nra. }
    destruct (Rltb (dist p (pos v1) * dist p (pos v1)) (dist p (pos v2) * dist p (pos v2))) eqn:E; rbool.
    + split; auto. intros q Hqq. destruct (Hmin q Hqq); auto.
      assert (dist p (pos v1) <= dist p (pos v2)) by (apply dist_le; lra). lra.
    + split; auto. intros q Hqq. destruct (Hmin q Hqq); auto.
      assert (dist p (pos v2) <= dist p (pos v1)) by (apply dist_le; lra). lra.
Qed.

(** next to the centre (within 1e-8 per coordinate) the arc start is returned: nearly minimal *)
Theorem C14_arc_centre (v1 v2 : vertex) (p : vec) :
  ~ isLine v1 -> Rabs (bulge v1) <= 1 -> pos v1 <> pos v2 ->
  fuzzyEqual p (center (arcRadiusAndCenter v1 v2)) (1 / 100000000) = true ->
  let r := closestPointOnSeg v1 v2 p in
  onSeg v1 v2 r /\ (forall q, onSeg v1 v2 q -> dist p r <= dist p q + 4 / 100000000).
Proof.
  intros Hl Hb1 Hne Hf r. pose proof (notLine_ne _ Hl) as Hb.
  unfold r, closestPointOnSeg. rewrite (proj2 (bulgeIsZero_false v1) Hl). rcbn. rewrite Hf.
  set (c := center (arcRadiusAndCenter v1 v2)) in *.
  assert (Ec : c = ctr (pos v1) (pos v2) (bulge v1)) by (unfold c; now apply center_R).
  split.
  - exists 0. split; [lra|]. apply segPoint_arc; auto. now rewrite Rmult_0_l, rot_0.
  - intros q (t & Ht & Hq). apply (segPoint_arc _ _ _ _ Hl) in Hq. rewrite <- Ec in Hq.
    assert (Dq : dist c q = dist c (pos v1)) by (rewrite Hq; apply dist_rot).
    apply fuzzyEqual_R in Hf. destruct Hf as [F1 F2]. apply Rabs_lt_iff in F1, F2.
    assert (Dpc : dist p c <= 2 / 100000000).
    { apply dist_le_num; [lra|]. rewrite dist_sq. nra. }
    pose proof (dist_triangle p c (pos v1)) as T1. pose proof (dist_triangle c p q) as T2.
    rewrite (dist_sym c p) in T2. lra.
Qed.

(** Within the tolerance of the sweep test the result need not be a point of the arc: for an
    arc of radius 1/2 from angle 0 to about 106 degrees and a query point 1.1e-8 left of the centre the
    code returns the circle point at 180 degrees. *)
Theorem C14_arc_off_refuted :
  let v1 := mkVertex (1 / 2) 0 (1 / 2) in
  let v2 := mkVertex (- 7 / 50) (12 / 25) 0 in
  let p := mkV (- 11 / 1000000000) 0 in
  ~ isLine v1 /\ Rabs (bulge v1) <= 1 /\ pos v1 <> pos v2 /\
  fuzzyEqual p (center (arcRadiusAndCenter v1 v2)) (1 / 100000000) = false /\
  closestPointOnSeg v1 v2 p = mkV (- 1 / 2) 0 /\
  ~ onSeg v1 v2 (closestPointOnSeg v1 v2 p).
Proof.
  intros v1 v2 p.
  assert (Hl : ~ isLine v1).
  { unfold isLine, v1. cbn [bulge mkVertex]. rewrite Rabs_pos_eq; lra. }
  assert (Hb1 : Rabs (bulge v1) <= 1) by (unfold v1; cbn [bulge mkVertex]; rewrite Rabs_pos_eq; lra).
  assert (Hne : pos v1 <> pos v2).
  { unfold v1, v2. cbn [pos mkVertex]. intros E. injection E. intros. lra. }
  pose proof (notLine_ne _ Hl) as Hb.
  assert (Ec : center (arcRadiusAndCenter v1 v2) = mkV 0 0).
  { rewrite center_R by auto. unfold ctr, cK, v1, v2. apply vec_eq; cbn [vx vy pos bulge mkVertex]; lra. }
  assert (Er : radius (arcRadiusAndCenter v1 v2) = 1 / 2).
  { rewrite <- dist_ctr by auto. rewrite <- center_R by auto. rewrite Ec. apply dist_eq; [lra|].
    unfold v1. cbn [vx vy pos mkVertex]. lra. }
  assert (Hf : fuzzyEqual p (mkV 0 0) (1 / 100000000) = false).
  { apply not_true_iff_false. rewrite fuzzyEqual_R. unfold p. cbn [vx vy]. intros [F _].
    apply Rabs_lt_iff in F. lra. }
  assert (Ecl : closestPointOnSeg v1 v2 p = mkV (- 1 / 2) 0).
  { unfold closestPointOnSeg. rewrite (proj2 (bulgeIsZero_false v1) Hl). rcbn.
    assert (Hw : pointWithinArcSweepAngle (center (arcRadiusAndCenter v1 v2)) (pos v1) (pos v2) (bulge v1) p = true).
    { apply sweep_test; auto. rewrite Ec. unfold sgn, v1, v2, p, leftExpr. cbn [bulge mkVertex pos]. rcbn.
      destruct (Rlt_dec 0 (1 / 2)); lra. }
    rewrite Hw, Ec, Er, Hf. unfold normalize, vdiv, vsub, vscale, vadd, dot, p. rcbn.
    assert (Hs : sqrt ((- 11 / 1000000000 - 0) * (- 11 / 1000000000 - 0) + (0 - 0) * (0 - 0)) = 11 / 1000000000).
    { apply sqrt_lem_1; lra. }
    rewrite Hs. assert (Reqb (11 / 1000000000) 0 = false) as -> by (apply Reqb_false; lra).
    cbn [negb vx vy]. apply vec_eq; cbn [vx vy]; lra. }
  rewrite Ec. repeat (split; [assumption|]). rewrite Ecl.
  intros Hon. pose proof (C15_bounding_box v1 v2 _ Hb1 Hon) as [[Hx _] _].
  unfold createFastApproxBoundingBox in Hx. rewrite (proj2 (bulgeIsZero_false v1) Hl) in Hx.
  unfold v1, v2, px, py in Hx. cbn [pos bulge mkVertex] in Hx. rcbn.
  repeat match goal with H : context [if Rltb ?a ?b then _ else _] |- _ => destruct (Rltb a b) eqn:?; rbool; try lra end.
  all: cbn [xMin] in Hx; unfold tmin in Hx; rcbn;
  repeat match goal with H : context [if Rltb ?a ?b then _ else _] |- _ => destruct (Rltb a b) eqn:?; rbool; try lra end.
Qed.
