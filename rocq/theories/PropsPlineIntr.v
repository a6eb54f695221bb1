(** * C20: points reported by intrPlineSegs are on both segments (and common points are reported) *)
From Coq Require Import ZArith Reals Lra Lia Psatz List Bool.
From Verif Require Import Base Num MathUtils PlineSegment RGeom Spec PropsMath ArcGeom Polar PropsSegment PropsClosest PropsIntr.
Import ListNotations.
Open Scope R_scope.

(** ** Specification *)
(** [p] is seen from the centre [c] inside the sector of the arc v1 -> v2, each of the two sides
    being moved outwards by the cross product tolerance [tol] *)
Definition inSector (tol : R) (v1 v2 : vertex) (c p : vec) : Prop :=
  - tol < sgn (bulge v1) * cross c (pos v1) c p /\ sgn (bulge v1) * cross c (pos v2) c p < tol.
(** [p] is on the line segment p0 p1 extended by the parametric tolerance *)
Definition onLineTol (p0 p1 p : vec) : Prop := exists t, inRange t /\ p = lerp p0 p1 t.
(** [p] is on the circle of the arc and in its sector *)
Definition onArcTol (v1 v2 : vertex) (p : vec) : Prop :=
  exists c, arcCentre (pos v1) (pos v2) (bulge v1) c /\ dist c p = dist c (pos v1) /\ inSector eps v1 v2 c p.

(** an arc as the code accepts it *)
Definition okArc (v1 v2 : vertex) : Prop := ~ isLine v1 /\ Rabs (bulge v1) <= 1 /\ pos v1 <> pos v2.

Lemma leftExpr_cross c a p : leftExpr c a p = cross c a c p.
Proof. unfold leftExpr, cross. rcbn. reflexivity. Qed.

Lemma okArc_sweep v1 v2 : okArc v1 v2 -> 0 < Rabs (sweep (bulge v1)) <= PI.
Proof.
  intros (Hl & Hb1 & _). pose proof (notLine_ne _ Hl) as Hb. pose proof (sweep_le_pi _ Hb1) as Hsw. split.
  - apply Rabs_pos_lt. intros E. unfold sweep in E.
    destruct (Rtotal_order (bulge v1) 0) as [L|[L|L]]; auto.
    + pose proof (atan_neg _ L). lra. + pose proof (atan_pos _ L). lra.
  - apply Rabs_le. lra.
Qed.

Lemma okArc_onSeg v1 v2 q : okArc v1 v2 ->
  onSeg v1 v2 q <-> exists a, 0 <= a <= Rabs (sweep (bulge v1)) /\
    q = rot (ctr (pos v1) (pos v2) (bulge v1)) (sgn (bulge v1) * a) (pos v1).
Proof.
  intros Hok. pose proof (okArc_sweep _ _ Hok) as HTh. destruct Hok as (Hl & Hb1 & Hne).
  pose proof (notLine_ne _ Hl) as Hb. pose proof (sgn_sweep _ Hb) as Esw.
  set (Th := Rabs (sweep (bulge v1))) in *. split.
  - intros (t & Ht & H). apply (segPoint_arc _ _ _ _ Hl) in H. exists (t * Th). split; [nra|].
    rewrite H, Esw. f_equal. ring.
  - intros (a & Ha & ->). exists (a / Th). split.
    + split; [apply Rmult_le_pos; [lra|apply Rlt_le, Rinv_0_lt_compat; lra]|].
      apply Rmult_le_reg_r with Th; [lra|]. unfold Rdiv. rewrite Rmult_assoc, Rinv_l; lra.
    + apply segPoint_arc; auto. rewrite Esw. f_equal. field. lra.
Qed.

(** the frame of an arc: for every point of the circle, its angle from the start in arc direction *)
Lemma arc_param v1 v2 p : okArc v1 v2 -> let c := ctr (pos v1) (pos v2) (bulge v1) in
  dist c p = dist c (pos v1) ->
  exists g, 0 <= g < 2 * PI /\ p = rot c (sgn (bulge v1) * g) (pos v1).
Proof.
  intros (Hl & _ & Hne) c Hd. pose proof (notLine_ne _ Hl) as Hb.
  pose proof (ctr_ne (pos v1) (pos v2) _ Hb Hne) as Nc. fold c in Nc.
  destruct (angle_polar c (pos v1) Nc) as (_ & _ & D1).
  assert (Hpc : p <> c) by (apply dist_pos_ne; rewrite Hd; auto).
  destruct (sector_param c (pos v1) p (sgn (bulge v1)) (sgn_sq _) Nc Hpc) as (g & Hg & Gx & Gy).
  exists g. split; auto. rewrite Hd in Gx, Gy.
  replace (dist c (pos v1) / dist c (pos v1)) with 1 in Gx, Gy by (field; lra).
  apply vec_eq; rcbn; lra.
Qed.

Lemma sector_angles v1 v2 g : okArc v1 v2 -> let c := ctr (pos v1) (pos v2) (bulge v1) in
  let p := rot c (sgn (bulge v1) * g) (pos v1) in
  let r2 := dist c (pos v1) * dist c (pos v1) in
  sgn (bulge v1) * cross c (pos v1) c p = r2 * sin g /\
  sgn (bulge v1) * cross c (pos v2) c p = r2 * sin (g - Rabs (sweep (bulge v1))).
Proof.
  intros (Hl & _ & Hne) c p r2. pose proof (notLine_ne _ Hl) as Hb.
  pose proof (ctr_spec (pos v1) (pos v2) _ Hb) as Hctr. unfold arcCentre in Hctr. fold c in Hctr.
  pose proof (ctr_ne (pos v1) (pos v2) _ Hb Hne) as Nc. fold c in Nc.
  destruct (angle_polar c (pos v1) Nc) as (_ & _ & D1).
  assert (Dp : dist c p = dist c (pos v1)) by apply dist_rot.
  assert (Gx : vx p - vx c = dist c p / dist c (pos v1) * (vx (rot c (sgn (bulge v1) * g) (pos v1)) - vx c)).
  { fold p. rewrite Dp. field. lra. }
  assert (Gy : vy p - vy c = dist c p / dist c (pos v1) * (vy (rot c (sgn (bulge v1) * g) (pos v1)) - vy c)).
  { fold p. rewrite Dp. field. lra. }
  pose proof (cross_rot c (pos v1) p (sgn (bulge v1)) g (sgn_sq _) ltac:(lra) Gx Gy) as Hcr.
  pose proof (sgn_sq (bulge v1)) as Hs.
  split; rewrite <- leftExpr_cross.
  - specialize (Hcr 0). rewrite Rmult_0_r, rot_0, Rminus_0_r in Hcr. rewrite Hcr, Dp.
    rewrite <- Rmult_assoc, Hs. unfold r2. ring.
  - specialize (Hcr (Rabs (sweep (bulge v1)))). rewrite <- sgn_sweep, Hctr in Hcr by auto. rewrite Hcr, Dp.
    rewrite <- Rmult_assoc, Hs. unfold r2. ring.
Qed.

Lemma okArc_r2 v1 v2 : okArc v1 v2 -> let c := ctr (pos v1) (pos v2) (bulge v1) in
  0 < dist c (pos v1).
Proof.
  intros (Hl & _ & Hne) c. pose proof (notLine_ne _ Hl) as Hb.
  pose proof (ctr_ne (pos v1) (pos v2) _ Hb Hne) as Nc. fold c in Nc.
  now destruct (angle_polar c (pos v1) Nc) as (_ & _ & D1).
Qed.

(** The sector without tolerance is exactly the arc ... *)
Lemma sector_exact v1 v2 p : okArc v1 v2 -> let c := ctr (pos v1) (pos v2) (bulge v1) in
  onSeg v1 v2 p <-> dist c p = dist c (pos v1) /\
    0 <= sgn (bulge v1) * cross c (pos v1) c p /\ sgn (bulge v1) * cross c (pos v2) c p <= 0.
Proof.
  intros Hok c. pose proof (okArc_sweep _ _ Hok) as HT. pose proof (okArc_r2 _ _ Hok) as Hr. fold c in Hr.
  pose proof (sector_angles v1 v2) as SA.
  assert (Hrr : 0 < dist c (pos v1) * dist c (pos v1)) by (apply Rmult_lt_0_compat; auto).
  rewrite (okArc_onSeg _ _ _ Hok). fold c. split.
  - intros (a & Ha & ->). split; [apply dist_rot|]. destruct (SA a Hok) as [E1 E2]. fold c in E1, E2. rewrite E1, E2.
    split.
    + apply Rmult_le_pos; [lra|]. apply sin_ge_0; lra.
    + assert (0 <= sin (Rabs (sweep (bulge v1)) - a)) by (apply sin_ge_0; lra).
      replace (a - Rabs (sweep (bulge v1))) with (- (Rabs (sweep (bulge v1)) - a)) by ring. rewrite sin_neg.
      pose proof (Rmult_le_pos _ _ (Rlt_le _ _ Hrr) H). lra.
  - intros (Hd & H1 & H2). destruct (arc_param v1 v2 p Hok Hd) as (g & Hg & Ep). fold c in Ep.
    exists g. split; auto. subst p. destruct (SA g Hok) as [E1 E2]. fold c in E1, E2. rewrite E1 in H1. rewrite E2 in H2.
    set (Th := Rabs (sweep (bulge v1))) in *.
    assert (S1 : 0 <= sin g).
    { apply Rmult_le_reg_l with (dist c (pos v1) * dist c (pos v1)); lra. }
    assert (S2 : sin (g - Th) <= 0).
    { apply Rmult_le_reg_l with (dist c (pos v1) * dist c (pos v1)); lra. }
    assert (Hgp : g <= PI).
    { apply Rnot_lt_le. intros H. pose proof (sin_lt_0 g ltac:(lra) ltac:(lra)). lra. }
    split; [lra|]. apply Rnot_lt_le. intros H.
    pose proof (sin_gt_0 (g - Th) ltac:(lra) ltac:(lra)). lra.
Qed.

(** ... so the points of the arc are in the sector with tolerance *)
Lemma onSeg_onArcTol v1 v2 p : okArc v1 v2 -> onSeg v1 v2 p -> onArcTol v1 v2 p.
Proof.
  intros Hok H. apply sector_exact in H; auto. destruct H as (A & B & C).
  exists (ctr (pos v1) (pos v2) (bulge v1)). split.
  - apply ctr_spec. destruct Hok as (Hl & _). now apply notLine_ne.
  - split; auto. unfold inSector. pose proof eps_pos. lra.
Qed.

(** ** model facts *)
Lemma within_iff v1 v2 p : okArc v1 v2 ->
  pointWithinArcSweepAngle (center (arcRadiusAndCenter v1 v2)) (pos v1) (pos v2) (bulge v1) p = true <->
  inSector eps v1 v2 (ctr (pos v1) (pos v2) (bulge v1)) p.
Proof.
  intros (Hl & _ & Hne). pose proof (notLine_ne _ Hl) as Hb. rewrite sweep_test by auto.
  rewrite (center_R v1 v2 Hb Hne). rewrite !leftExpr_cross. reflexivity.
Qed.

Lemma arc_tol_intro v1 v2 p : okArc v1 v2 -> let c := ctr (pos v1) (pos v2) (bulge v1) in
  dist c p = dist c (pos v1) ->
  inSector eps v1 v2 c p -> onArcTol v1 v2 p.
Proof.
  intros (Hl & _) c Hd Hs. exists c. split; auto. apply ctr_spec. now apply notLine_ne.
Qed.

Lemma pfp_lerp p0 p1 t : pointFromParametric p0 p1 t = lerp p0 p1 t.
Proof. unfold pointFromParametric, lerp, vadd, vscale, vsub. apply vec_eq; rcbn; rring. Qed.

(** the point is on the extended segment and near (within the tangency tolerance) the circle *)
Definition nearTangent (p0 p1 : vec) (v1 v2 : vertex) (p : vec) : Prop :=
  exists c, arcCentre (pos v1) (pos v2) (bulge v1) c /\
    inSector eps v1 v2 c p /\
    ((4 * len2 p0 p1 * Rabs (power c (dist c (pos v1)) p) < eps /\
      forall t, dist c p <= dist c (lerp p0 p1 t)) \/
     (len2 p0 p1 < eps /\ p = p0 /\ Rabs (power c (dist c (pos v1)) p) < eps)).

(** ** C20, line and arc *)
Definition lineArcSpec (p0 p1 : vec) (a1 a2 : vertex) (res : segIntr) : Prop :=
  (* soundness *)
  match res with
  | NoIntersect => True
  | OneIntersect p => onLineTol p0 p1 p /\ (onArcTol a1 a2 p \/ nearTangent p0 p1 a1 a2 p)
  | TwoIntersects p q => p <> q /\ onLineTol p0 p1 p /\ onArcTol a1 a2 p /\ onLineTol p0 p1 q /\ onArcTol a1 a2 q
  | _ => False
  end /\
  (* completeness *)
  (forall q t, 0 <= t <= 1 -> q = lerp p0 p1 t -> onSeg a1 a2 q ->
     res = OneIntersect q \/ (exists q', res = TwoIntersects q q' \/ res = TwoIntersects q' q) \/
     (* the line is a tangent up to the tolerance, or a point *)
     len2 p0 p1 < eps \/
     exists c s, arcCentre (pos a1) (pos a2) (bulge a1) c /\
       (forall t', dist c (lerp p0 p1 s) <= dist c (lerp p0 p1 t')) /\
       4 * len2 p0 p1 * Rabs (power c (dist c (pos a1)) (lerp p0 p1 s)) < eps).

Lemma process_line_arc p0 p1 a1 a2 : okArc a1 a2 -> lineArcSpec p0 p1 a1 a2 (processLineArcIntr p0 p1 a1 a2).
Proof.
  intros Hok. pose proof eps_pos as He. pose proof Hok as (Hl & Hb1 & Hne). pose proof (notLine_ne _ Hl) as Hb.
  pose proof (okArc_r2 _ _ Hok) as Hr. cbv zeta in Hr.
  pose proof (ctr_spec (pos a1) (pos a2) _ Hb) as Hctr.
  pose proof (center_R a1 a2 Hb Hne) as Ec. pose proof (dist_ctr a1 a2 Hb Hne) as Hrad.
  unfold processLineArcIntr. rcbn. fold eps. rewrite <- Hrad. rewrite Ec.
  pose proof (C18_line_circle p0 p1 (center (arcRadiusAndCenter a1 a2)) (dist (center (arcRadiusAndCenter a1 a2)) (pos a1))
    (dist_nonneg _ _)) as H18. rewrite Ec in H18.
  assert (W : forall p, pointWithinArcSweepAngle (ctr (pos a1) (pos a2) (bulge a1)) (pos a1) (pos a2) (bulge a1) p = true <->
     inSector eps a1 a2 (ctr (pos a1) (pos a2) (bulge a1)) p).
  { intros p. rewrite <- (within_iff a1 a2 p Hok). now rewrite Ec. }
  set (c := ctr (pos a1) (pos a2) (bulge a1)) in *.
  set (P := fun t : R => if (Rltb (t + eps) 0 || Rltb (1 + eps) t)%bool then (false, vzero)
     else (pointWithinArcSweepAngle c (pos a1) (pos a2) (bulge a1) (pointFromParametric p0 p1 t), pointFromParametric p0 p1 t)).
  assert (HP : forall t p, P t = (true, p) -> p = lerp p0 p1 t /\ inRange t /\ inSector eps a1 a2 c p).
  { intros t p. unfold P. destruct (Rltb (t + eps) 0 || Rltb (1 + eps) t)%bool eqn:E; [discriminate|].
    intros H. injection H as H1 H2. rewrite pfp_lerp in *. subst p. apply W in H1. rbool. unfold inRange.
    split; auto. split; auto. lra. }
  assert (HC : forall t q, 0 <= t <= 1 -> q = lerp p0 p1 t -> onSeg a1 a2 q -> P t = (true, q)).
  { intros t q Ht Hq Hs. unfold P. rewrite pfp_lerp, <- Hq.
    rewrite (proj2 (Rltb_false _ _)) by lra. rewrite (proj2 (Rltb_false _ _)) by lra. cbn [orb].
    f_equal. apply W. apply sector_exact in Hs; auto. unfold inSector. fold c in Hs. lra. }
  assert (HD : forall q, onSeg a1 a2 q -> dist c q = dist c (pos a1)).
  { intros q Hq. now apply sector_exact in Hq. }
  assert (HG : forall t : R, (if (Rltb (t + eps) 0 || Rltb (1 + eps) t)%bool then (false, vzero)
     else (pointWithinArcSweepAngle c (pos a1) (pos a2) (bulge a1) (pointFromParametric p0 p1 t), pointFromParametric p0 p1 t)) = P t)
    by reflexivity.
  clearbody P.
  destruct (intrLineSeg2Circle2 p0 p1 (dist c (pos a1)) c) as [|s|s0 s1] eqn:EI.
  - split; [exact I|]. intros q t Ht Hq Hs. right; right.
    destruct H18 as [[_ H]|[H _]]; [|now left]. specialize (H t). rewrite <- Hq, (HD q Hs) in H. lra.
  - rewrite HG. destruct (P s) as [b p] eqn:EP.
    split.
    + destruct b; [|exact I]. destruct (HP _ _ EP) as (-> & Hin & Hsec). split; [exists s; auto|].
      right. exists c. split; auto. split; auto. destruct H18 as [(A & B & C)|(A & -> & C)]; [left; auto|right].
      assert (E0 : lerp p0 p1 0 = p0) by (unfold lerp; apply vec_eq; cbn [vx vy]; rring). rewrite E0. auto.
    + intros q t Ht Hq Hs. right; right. destruct H18 as [(A & B & C)|(A & -> & C)]; [right|left; auto].
      exists c, s. auto.
  - destruct H18 as (A & B & C).
    assert (OK : forall s p, P s = (true, p) -> s = s0 \/ s = s1 -> onLineTol p0 p1 p /\ onArcTol a1 a2 p).
    { intros s p EP Hs. destruct (HP _ _ EP) as (-> & Hin & Hsec). split; [exists s; auto|].
      apply arc_tol_intro; auto. apply C. auto. }
    assert (CM : forall q t, 0 <= t <= 1 -> q = lerp p0 p1 t -> onSeg a1 a2 q -> P s0 = (true, q) \/ P s1 = (true, q)).
    { intros q t Ht Hq Hs. pose proof (HC t q Ht Hq Hs) as HPt.
      assert (Ht' : t = s0 \/ t = s1) by (apply C; rewrite <- Hq; auto).
      destruct Ht' as [-> | ->]; auto. }
    rewrite !HG. destruct (P s0) as [b0 q0] eqn:E0, (P s1) as [b1 q1] eqn:E1.
    assert (N : b0 = true -> b1 = true -> q0 <> q1).
    { intros -> ->. destruct (HP _ _ E0) as (-> & _), (HP _ _ E1) as (-> & _). unfold lerp. intros E. injection E as F1 F2.
      assert (M : len2 p0 p1 * ((s0 - s1) * (s0 - s1)) = 0).
      { unfold len2. transitivity (((s0 - s1) * (vx p1 - vx p0)) * ((s0 - s1) * (vx p1 - vx p0)) +
          ((s0 - s1) * (vy p1 - vy p0)) * ((s0 - s1) * (vy p1 - vy p0))); [ring|].
        replace ((s0 - s1) * (vx p1 - vx p0)) with 0 by lra. replace ((s0 - s1) * (vy p1 - vy p0)) with 0 by lra. ring. }
      apply Rmult_integral in M. destruct M as [M|M]; [lra|]. apply Rmult_integral in M. destruct M; lra. }
    destruct b0, b1; cbn [andb].
    + destruct (OK _ _ E0 ltac:(auto)), (OK _ _ E1 ltac:(auto)). split; [tauto|].
      intros q t Ht Hq Hs. right; left.
      destruct (CM q t Ht Hq Hs) as [K|K]; injection K as ->; eexists; eauto.
    + destruct (OK _ _ E0 ltac:(auto)). split; [tauto|]. intros q t Ht Hq Hs.
      destruct (CM q t Ht Hq Hs) as [K|K]; [|discriminate]. injection K as ->. auto.
    + destruct (OK _ _ E1 ltac:(auto)). split; [tauto|]. intros q t Ht Hq Hs.
      destruct (CM q t Ht Hq Hs) as [K|K]; [discriminate|]. injection K as ->. auto.
    + split; auto. intros q t Ht Hq Hs. destruct (CM q t Ht Hq Hs) as [K|K]; discriminate.
Qed.

Theorem C20_line_arc (v1 v2 u1 u2 : vertex) : isLine v1 -> okArc u1 u2 ->
  lineArcSpec (pos v1) (pos v2) u1 u2 (intrPlineSegs v1 v2 u1 u2).
Proof.
  intros Hv Hu. unfold intrPlineSegs. rewrite (proj2 (bulgeIsZero_R v1) Hv).
  rewrite (proj2 (bulgeIsZero_false u1) (proj1 Hu)). cbn [andb]. now apply process_line_arc.
Qed.
Theorem C20_arc_line (v1 v2 u1 u2 : vertex) : okArc v1 v2 -> isLine u1 ->
  lineArcSpec (pos u1) (pos u2) v1 v2 (intrPlineSegs v1 v2 u1 u2).
Proof.
  intros Hv Hu. unfold intrPlineSegs. rewrite (proj2 (bulgeIsZero_R u1) Hu).
  rewrite (proj2 (bulgeIsZero_false v1) (proj1 Hv)). cbn [andb]. now apply process_line_arc.
Qed.

(** ** C20, two arcs of different circles *)
Definition ctrOf (v1 v2 : vertex) : vec := ctr (pos v1) (pos v2) (bulge v1).
Definition radOf (v1 v2 : vertex) : R := dist (ctrOf v1 v2) (pos v1).

Theorem C20_arc_arc (v1 v2 u1 u2 : vertex) (c1 c2 : vec) : okArc v1 v2 -> okArc u1 u2 ->
  arcCentre (pos v1) (pos v2) (bulge v1) c1 -> arcCentre (pos u1) (pos u2) (bulge u1) c2 ->
  let r1 := dist c1 (pos v1) in let r2 := dist c2 (pos u1) in
  ~ (dist c1 c2 < eps /\ Rabs (r1 - r2) < eps) ->
  let res := intrPlineSegs v1 v2 u1 u2 in
  (* soundness *)
  match res with
  | NoIntersect => True
  | OneIntersect p =>
      (onArcTol v1 v2 p /\ onArcTol u1 u2 p) \/
      (* tangent circles up to the tolerance *)
      (inSector eps v1 v2 c1 p /\ inSector eps u1 u2 c2 p /\ (forall q, ~ onBoth c1 r1 c2 r2 q) /\
         0 <= dist c1 p - r1 <= eps * Rmax 1 ((r1 + r2) / dist c1 c2) /\
         0 <= dist c2 p - r2 <= eps * Rmax 1 ((r1 + r2) / dist c1 c2))
  | TwoIntersects p q => p <> q /\ onArcTol v1 v2 p /\ onArcTol u1 u2 p /\ onArcTol v1 v2 q /\ onArcTol u1 u2 q
  | _ => False
  end /\
  (* completeness *)
  (forall q, onSeg v1 v2 q -> onSeg u1 u2 q ->
     res = OneIntersect q \/ (exists q', res = TwoIntersects q q' \/ res = TwoIntersects q' q) \/
     (* all the common points of the circles are within the tolerance of each other *)
     (exists p, forall q', onBoth c1 r1 c2 r2 q' -> Rabs (vx p - vx q') < eps /\ Rabs (vy p - vy q') < eps)).
Proof.
  intros Hv Hu HC1 HC2 r1 r2 Hnc res. pose proof eps_pos as He.
  pose proof (notLine_ne _ (proj1 Hv)) as Bv. pose proof (notLine_ne _ (proj1 Hu)) as Bu.
  pose proof (ctr_unique _ _ _ _ Bv HC1) as E1. pose proof (ctr_unique _ _ _ _ Bu HC2) as E2.
  pose proof (center_R v1 v2 Bv (proj2 (proj2 Hv))) as Ec1. pose proof (center_R u1 u2 Bu (proj2 (proj2 Hu))) as Ec2.
  pose proof (dist_ctr v1 v2 Bv (proj2 (proj2 Hv))) as R1. pose proof (dist_ctr u1 u2 Bu (proj2 (proj2 Hu))) as R2.
  rewrite <- E1 in Ec1, R1. rewrite <- E2 in Ec2, R2. fold r1 in R1. fold r2 in R2.
  assert (Er : intrPlineSegs v1 v2 u1 u2 = res) by reflexivity. clearbody res. unfold intrPlineSegs in Er. rewrite (proj2 (bulgeIsZero_false v1) (proj1 Hv)) in Er.
  rewrite (proj2 (bulgeIsZero_false u1) (proj1 Hu)) in Er. cbn [andb] in Er.
  rewrite <- R1, <- R2, Ec1, Ec2 in Er.
  pose proof (C19_circle_circle c1 c2 r1 r2 (dist_nonneg _ _) (dist_nonneg _ _)) as H19.
  pose proof (C19_coincident_iff c1 c2 r1 r2) as Hco.
  set (B := fun pt => (pointWithinArcSweepAngle c1 (pos v1) (pos v2) (bulge v1) pt &&
     pointWithinArcSweepAngle c2 (pos u1) (pos u2) (bulge u1) pt)%bool) in Er.
  assert (HB : forall p, B p = true <-> inSector eps v1 v2 c1 p /\ inSector eps u1 u2 c2 p).
  { intros p. unfold B. rewrite andb_true_iff.
    pose proof (within_iff v1 v2 p Hv) as W1. pose proof (within_iff u1 u2 p Hu) as W2.
    rewrite Ec1, <- E1 in W1. rewrite Ec2, <- E2 in W2. tauto. }
  assert (HS : forall q, onSeg v1 v2 q -> onSeg u1 u2 q -> B q = true /\ onBoth c1 r1 c2 r2 q).
  { intros q Q1 Q2. apply sector_exact in Q1; auto. apply sector_exact in Q2; auto.
    rewrite <- E1 in Q1. rewrite <- E2 in Q2. rewrite HB. unfold inSector, onBoth. fold r1 in Q1. fold r2 in Q2.
    split; [split; lra|tauto]. }
  assert (HT : forall p, B p = true -> onBoth c1 r1 c2 r2 p -> onArcTol v1 v2 p /\ onArcTol u1 u2 p).
  { intros p Hp [O1 O2]. apply HB in Hp. split; [exists c1|exists c2]; tauto. }
  assert (HG : forall pt, (pointWithinArcSweepAngle c1 (pos v1) (pos v2) (bulge v1) pt &&
     pointWithinArcSweepAngle c2 (pos u1) (pos u2) (bulge u1) pt)%bool = B pt) by reflexivity.
  clearbody B.
  destruct (intrCircle2Circle2 r1 c1 r2 c2) as [|p|p q|]; subst res.
  - split; auto. intros q Q1 Q2. destruct (HS q Q1 Q2) as [_ K]. destruct (H19 q K).
  - rewrite HG. split.
    + destruct (B p) eqn:Ep; auto. destruct H19 as [[O _]|(N & K)]; [left; auto|right]. apply HB in Ep. tauto.
    + intros q Q1 Q2. destruct (HS q Q1 Q2) as [_ K]. right; right. exists p. destruct H19 as [[_ O]|[N _]]; auto.
      destruct (N q K).
  - destruct H19 as [Hne All].
    assert (CM : forall x, onSeg v1 v2 x -> onSeg u1 u2 x -> B x = true /\ (x = p \/ x = q)).
    { intros x Q1 Q2. destruct (HS x Q1 Q2) as [K1 K2]. split; auto. now apply All. }
    assert (Op : onBoth c1 r1 c2 r2 p) by (apply All; auto). assert (Oq : onBoth c1 r1 c2 r2 q) by (apply All; auto).
    pose proof (fun H => HT p H Op) as HTp. pose proof (fun H => HT q H Oq) as HTq.
    rewrite !HG. destruct (B p) eqn:Ep, (B q) eqn:Eq; cbn [andb].
    + specialize (HTp eq_refl). specialize (HTq eq_refl). split; [tauto|].
      intros x Q1 Q2. right; left. destruct (CM x Q1 Q2) as [_ [-> | ->]]; eexists; eauto.
    + specialize (HTp eq_refl). split; [tauto|]. intros x Q1 Q2. destruct (CM x Q1 Q2) as [Bx [-> | ->]]; [auto|congruence].
    + specialize (HTq eq_refl). split; [tauto|]. intros x Q1 Q2. destruct (CM x Q1 Q2) as [Bx [-> | ->]]; [congruence|auto].
    + split; auto. intros x Q1 Q2. destruct (CM x Q1 Q2) as [Bx [-> | ->]]; congruence.
  - exfalso. apply Hnc, Hco. reflexivity.
Qed.

(** ** C20, two lines *)
Lemma intr_ll v1 v2 u1 u2 : isLine v1 -> isLine u1 ->
  intrPlineSegs v1 v2 u1 u2 =
  match intrLineSeg2LineSeg2 (pos v1) (pos v2) (pos u1) (pos u2) with
  | LLNone => NoIntersect
  | LLTrue p => OneIntersect p
  | LLCoincident r0 r1 => SegmentOverlap (lerp (pos u1) (pos u2) r0) (lerp (pos u1) (pos u2) r1)
  | LLFalse _ _ _ => NoIntersect
  end.
Proof.
  intros Hv Hu. unfold intrPlineSegs. rewrite (proj2 (bulgeIsZero_R v1) Hv), (proj2 (bulgeIsZero_R u1) Hu).
  cbn [andb]. destruct (intrLineSeg2LineSeg2 _ _ _ _); rewrite ?pfp_lerp; reflexivity.
Qed.

Theorem C20_line_line (v1 v2 u1 u2 : vertex) : isLine v1 -> isLine u1 ->
  eps < Rabs (cross (pos v1) (pos v2) (pos u1) (pos u2)) ->
  let res := intrPlineSegs v1 v2 u1 u2 in
  match res with
  | NoIntersect => True
  | OneIntersect p => onLineTol (pos v1) (pos v2) p /\ onLineTol (pos u1) (pos u2) p
  | _ => False
  end /\
  (forall q, onSeg v1 v2 q -> onSeg u1 u2 q -> res = OneIntersect q).
Proof.
  intros Hv Hu Hc res. assert (Er : intrPlineSegs v1 v2 u1 u2 = res) by reflexivity. clearbody res.
  rewrite intr_ll in Er by auto. destruct (C17_transversal _ _ _ _ Hc) as (s & t & p & A & B & U & T & F).
  split.
  - destruct (Rle_lt_dec (- eps) s) as [S1|S1]; [destruct (Rle_lt_dec s (1 + eps)) as [S2|S2]; [
     destruct (Rle_lt_dec (- eps) t) as [T1|T1]; [destruct (Rle_lt_dec t (1 + eps)) as [T2|T2]|]|]|].
    1:{ rewrite T in Er by (unfold inRange; lra). subst res. split; [exists s|exists t]; unfold inRange; split; auto; lra. }
    all: rewrite F in Er by (unfold inRange; lra); subst res; exact I.
  - intros q (a & Ha & Qa) (b & Hb & Qb). apply segPoint_line in Qa; auto. apply segPoint_line in Qb; auto.
    rewrite (C17_complete _ _ _ _ q a b Hc Ha Hb) in Er by auto. auto.
Qed.

Definition nearLine (a b p : vec) : Prop := Rabs (cross a b a p) <= 3 * eps.

Theorem C20_line_line_parallel (v1 v2 u1 u2 : vertex) : isLine v1 -> isLine u1 ->
  Rabs (cross (pos v1) (pos v2) (pos u1) (pos u2)) <= eps ->
  let rep p := nearLine (pos v1) (pos v2) p /\ nearLine (pos u1) (pos u2) p /\
    (onLineTol (pos u1) (pos u2) p \/ (p = pos v1 /\ fuzzyEqual (pos v1) (pos v2) eps = true)) in
  match intrPlineSegs v1 v2 u1 u2 with
  | NoIntersect => True
  | OneIntersect p => rep p
  | SegmentOverlap p q => rep p /\ rep q
  | _ => False
  end.
Proof.
  intros Hv Hu Hc rep. rewrite intr_ll by auto. pose proof eps_pos as He.
  unfold intrLineSeg2LineSeg2, perpDot, vsub, vadd, vscale. rcbn.
  fold (cross (pos v1) (pos v2) (pos u1) (pos u2)). fold (cross (pos v1) (pos v2) (pos u1) (pos v1)).
  fold (cross (pos u1) (pos u2) (pos u1) (pos v1)). fold eps.
  rewrite (proj2 (Rltb_false _ _) Hc).
  destruct (Rltb eps (Rabs (cross (pos v1) (pos v2) (pos u1) (pos v1))) ||
            Rltb eps (Rabs (cross (pos u1) (pos u2) (pos u1) (pos v1))))%bool eqn:E; [exact I|].
  apply orb_false_iff in E. destruct E as [Ea Eb]. apply Rltb_false in Ea, Eb.
  assert (V0 : nearLine (pos v1) (pos v2) (pos v1)).
  { unfold nearLine. replace (cross _ _ _ _) with 0 by (unfold cross; ring). rewrite Rabs_R0. lra. }
  assert (V1 : nearLine (pos u1) (pos u2) (pos v1)) by (unfold nearLine; lra).
  assert (U0 : forall t, nearLine (pos u1) (pos u2) (lerp (pos u1) (pos u2) t)).
  { intros t. unfold nearLine. replace (cross _ _ _ _) with 0 by (unfold cross, lerp; rcbn; ring). rewrite Rabs_R0. lra. }
  assert (U1 : forall t, - eps <= t <= 1 + eps -> nearLine (pos v1) (pos v2) (lerp (pos u1) (pos u2) t)).
  { intros t Ht. unfold nearLine.
    replace (cross (pos v1) (pos v2) (pos v1) (lerp (pos u1) (pos u2) t)) with
      (t * cross (pos v1) (pos v2) (pos u1) (pos u2) - cross (pos v1) (pos v2) (pos u1) (pos v1))
      by (unfold cross, lerp; rcbn; ring).
    unfold nearLine in V0.
    set (x := cross (pos v1) (pos v2) (pos u1) (pos u2)) in *. set (y := cross (pos v1) (pos v2) (pos u1) (pos v1)) in *.
    clearbody x y. clear - Hc Ea Ht He.
    assert (E1 : eps < 1) by (unfold eps; lra).
    pose proof (Rabs_pos x).
    apply Rle_trans with (Rabs (t * x) + Rabs y).
    - replace (t * x - y) with (t * x + - y) by ring. eapply Rle_trans; [apply Rabs_triang|]. rewrite Rabs_Ropp. lra.
    - rewrite Rabs_mult. assert (Rabs t <= 1 + eps) by (apply Rabs_le; lra). pose proof (Rabs_pos t).
      assert (Rabs t * Rabs x <= (1 + eps) * eps) by (apply Rmult_le_compat; lra).
      assert (eps * eps <= 1 * eps) by (apply Rmult_le_compat_r; lra). lra. }
  destruct (fuzzyEqual (pos v1) (pos v2) eps) eqn:Fv; destruct (fuzzyEqual (pos u1) (pos u2) eps) eqn:Fu; cbn [andb].
  - destruct (fuzzyEqual (pos v1) (pos u1) eps); [|exact I]. unfold rep. auto.
  - destruct (isInSegment (pos v1) (pos u1) (pos u2)); [|exact I]. unfold rep. auto.
  - destruct (isInSegment (pos u1) (pos v1) (pos v2)); [|exact I]. unfold rep.
    assert (E0 : pos u1 = lerp (pos u1) (pos u2) 0) by (unfold lerp; apply vec_eq; cbn [vx vy]; rring).
    pose proof (U1 0 ltac:(lra)) as N1. pose proof (U0 0) as N2. rewrite <- E0 in N1, N2.
    split; [auto|]. split; [auto|]. left. exists 0. unfold inRange. split; [lra|]. auto.
  - match goal with |- context [let '(_, _) := ?x in _] => destruct x as [a b] end.
    assert (Q : exists lo hi, (if Rltb b a then (b, a) else (a, b)) = (lo, hi) /\ lo <= hi).
    { destruct (Rltb b a) eqn:E; rbool; do 2 eexists; split; eauto; lra. }
    destruct Q as (lo & hi & -> & Hlh).
    destruct (Rltb (1 + eps) lo || Rltb (hi + eps) 0)%bool eqn:E; [exact I|].
    apply orb_false_iff in E. destruct E as [E1 E2]. apply Rltb_false in E1, E2.
    assert (Hmx : 0 <= tmax lo 0 <= 1 + eps).
    { unfold tmax. rcbn. destruct (Rltb lo 0) eqn:E'; rbool; lra. }
    assert (Hmn : - eps <= tmin hi 1 <= 1).
    { unfold tmin. rcbn. destruct (Rltb 1 hi) eqn:E'; rbool; lra. }
    destruct (Rltb (Rabs (tmin hi 1 - tmax lo 0)) eps) eqn:E'.
    + assert (El : mkV (vx (pos u1) + (vx (pos u2) - vx (pos u1)) * tmax lo 0)
                       (vy (pos u1) + (vy (pos u2) - vy (pos u1)) * tmax lo 0) = lerp (pos u1) (pos u2) (tmax lo 0)).
      { unfold lerp. apply vec_eq; cbn [vx vy]; rring. }
      rewrite El. unfold rep. split; [apply U1; lra|]. split; [apply U0|]. left. eexists. split; [|reflexivity].
      unfold inRange. lra.
    + apply Rltb_false in E'.
      split; (split; [apply U1; lra|]; split; [apply U0|]; left; eexists; split; [|reflexivity]; unfold inRange; lra).
Qed.

(** The extent along the first segment is not guaranteed: for nearly vertical segments whose |dx| is
    just above 1e-8 the overlap is computed from the x coordinates, and a reported overlap
    point can be far from the first segment. *)
Theorem C20_near_vertical_overlap_refuted :
  let v1 := mkVertex (1 / 100000000) (9 / 10) 0 in let v2 := mkVertex (3 / 100000000) (19 / 10) 0 in
  let u1 := mkVertex 0 0 0 in let u2 := mkVertex (2 / 100000000) 1 0 in
  isLine v1 /\ isLine u1 /\
  exists p q, intrPlineSegs v1 v2 u1 u2 = SegmentOverlap p q /\
    forall x, onSeg v1 v2 x -> 4 / 10 <= dist p x.
Proof.
  intros v1 v2 u1 u2.
  assert (Hv : isLine v1) by (unfold isLine, v1; cbn [bulge mkVertex]; rewrite Rabs_R0; lra).
  assert (Hu : isLine u1) by (unfold isLine, u1; cbn [bulge mkVertex]; rewrite Rabs_R0; lra).
  split; auto. split; auto.
  exists (lerp (pos u1) (pos u2) (1 / 2)), (lerp (pos u1) (pos u2) 1). split.
  - rewrite intr_ll by auto.
    assert (K : intrLineSeg2LineSeg2 (pos v1) (pos v2) (pos u1) (pos u2) = LLCoincident (1 / 2) 1); [|rewrite K; reflexivity].
    unfold intrLineSeg2LineSeg2, perpDot, vsub, vadd, vscale, u1, u2, v1, v2. rcbn. cbn [pos mkVertex]. rcbn. fold eps.
    assert (He : eps = 1 / 100000000) by reflexivity.
    rewrite (proj2 (Rltb_false eps (Rabs _))).
    2:{ apply Rabs_le. lra. }
    rewrite (proj2 (Rltb_false eps (Rabs _))).
    2:{ apply Rabs_le. lra. }
    rewrite (proj2 (Rltb_false eps (Rabs _))).
    2:{ apply Rabs_le. lra. }
    cbn [orb].
    assert (F1 : fuzzyEqual (mkV eps (9 / 10)) (mkV (3 / 100000000) (19 / 10)) eps = false).
    { apply not_true_iff_false. rewrite fuzzyEqual_R. cbn [vx vy]. intros [_ F]. apply Rabs_lt_iff in F. lra. }
    assert (F2 : fuzzyEqual (mkV 0 0) (mkV (2 / 100000000) 1) eps = false).
    { apply not_true_iff_false. rewrite fuzzyEqual_R. cbn [vx vy]. intros [_ F]. apply Rabs_lt_iff in F. lra. }
    rewrite F1, F2. cbn [andb].
    rewrite (proj2 (Rltb_false (Rabs _) eps)).
    2:{ rewrite Rabs_pos_eq; lra. }
    replace ((eps - 0) / (2 / 100000000 - 0)) with (1 / 2) by lra.
    replace ((3 / 100000000 - 0) / (2 / 100000000 - 0)) with (3 / 2) by lra.
    rewrite (proj2 (Rltb_false (3 / 2) (1 / 2))) by lra.
    rewrite (proj2 (Rltb_false (1 + eps) (1 / 2))) by lra.
    rewrite (proj2 (Rltb_false (3 / 2 + eps) 0)) by lra. cbn [orb].
    unfold tmax, tmin. rcbn.
    rewrite (proj2 (Rltb_false (1 / 2) 0)) by lra.
    rewrite (proj2 (Rltb_spec 1 (3 / 2))) by lra.
    rewrite (proj2 (Rltb_false _ _)); [reflexivity|]. rewrite Rabs_pos_eq; lra.
  - intros x (t & Ht & Hx). apply segPoint_line in Hx; auto. subst x.
    rewrite dist_as. apply Rle_trans with (sqrt ((4 / 10) * (4 / 10))); [rewrite sqrt_square; lra|].
    apply sqrt_le_1_alt. unfold lerp, u1, u2, v1, v2. cbn [pos mkVertex]. rcbn.
    match goal with |- _ <= ?a * ?a + ?b * ?b => assert (4 / 10 <= b) by lra; pose proof (sq_nonneg a); 
      assert (4 / 10 * (4 / 10) <= b * b) by (apply Rmult_le_compat; lra); lra end.
Qed.

(** ** C20, two arcs of the same circle with the same direction *)
(** [p] is on the arc extended by the angular tolerance at both ends *)
Definition onArcAng (v1 v2 : vertex) (p : vec) : Prop :=
  exists c a, arcCentre (pos v1) (pos v2) (bulge v1) c /\
    - eps <= a <= Rabs (sweep (bulge v1)) + eps /\ p = rot c (sgn (bulge v1) * a) (pos v1).

Lemma okArc_sweep_eps v1 v2 : okArc v1 v2 -> 2 * eps < Rabs (sweep (bulge v1)).
Proof.
  intros (Hl & Hb1 & _). pose proof (notLine_ne _ Hl) as Hb.
  assert (B : 1 / 100000 <= Rabs (bulge v1)) by (apply Rnot_lt_le; exact Hl).
  assert (S : Rabs (sweep (bulge v1)) = 4 * atan (Rabs (bulge v1))).
  { unfold sweep. destruct (Rabs_cases (bulge v1)) as [[P E]|[P E]]; rewrite E.
    - rewrite Rabs_pos_eq; auto. pose proof (atan_pos (bulge v1)). lra.
    - rewrite atan_opp. rewrite Rabs_left; [lra|]. pose proof (atan_neg (bulge v1)). lra. }
  rewrite S. set (b := Rabs (bulge v1)) in *. clearbody b.
  destruct (atan_bound b) as [_ Bd].
  assert (Ha : 0 < atan b) by (apply atan_pos; lra).
  (* sin (atan b) = b cos(atan b) >= b/2 *)
  destruct (bulge_trig b) as (Hc & Hs & E).
  assert (Hcos : 1 / 2 <= cos (atan b)).
  { apply Rnot_lt_le. intros L. assert (cos (atan b) * cos (atan b) < 1 / 4) by nra.
    assert (1 + b * b <= 2) by nra. assert ((cos (atan b) * cos (atan b)) * (1 + b * b) <= 1 / 4 * 2).
    { apply Rmult_le_compat; try lra. apply sq_nonneg. pose proof (sq_nonneg b). lra. }
    lra. }
  assert (Hsin : sin (atan b) < atan b) by (apply sin_lt_x; auto).
  rewrite Hs in Hsin. unfold eps. assert (b * (1 / 2) <= b * cos (atan b)) by (apply Rmult_le_compat_l; lra). lra.
Qed.

Lemma norm_angle_bounds c p : 0 <= normalizeRadians (angle c p) < 2 * PI /\
  congruent (angle c p) (normalizeRadians (angle c p)).
Proof.
  pose proof (angle_bounds c p) as B. destruct (C09_normalizeRadians (angle c p)) as (N1 & N2 & N3 & N4).
  split; auto. destruct (Rle_lt_dec 0 (angle c p)) as [L|L].
  - rewrite N3; lra.
  - pose proof (N4 ltac:(lra)). lra.
Qed.

Lemma rot_of_angle c p p1 th : p <> c -> p1 <> c -> dist c p = dist c p1 ->
  congruent (angle c p1 + th) (angle c p) -> p = rot c th p1.
Proof.
  intros Hp H1 Hd Hc. rewrite <- (pointOnCircle_rot c th p1 H1).
  assert (E : p = rot c 0 p) by now rewrite rot_0. rewrite E at 1. rewrite <- (pointOnCircle_rot c 0 p Hp).
  rewrite Rplus_0_r, Hd. unfold pointOnCircle. rcbn. now rewrite (congruent_cos _ _ Hc), (congruent_sin _ _ Hc).
Qed.

Section WithinSweep.
Context (s A T0 X : R) (Hs : s = 1 \/ s = -1) (HT : 0 < T0 <= PI).

Lemma aws_unfold : angleIsWithinSweep A (s * T0) X eps =
  if Rlt_dec 0 s then Rltb (normalizeRadians (X - A)) (T0 + eps)
  else Rltb (normalizeRadians (X - (A - T0))) (T0 + eps).
Proof.
  pose proof PI_RGT_0. unfold angleIsWithinSweep, angleIsBetween. rcbn. destruct Hs as [-> | ->].
  - destruct (Rlt_dec 0 1); [|lra]. rewrite Rmult_1_l. rewrite (proj2 (Rltb_false _ _)) by lra.
    replace (A + T0 - A) with T0 by ring. destruct (C09_normalizeRadians T0) as (_ & _ & N & _).
    rewrite (N ltac:(lra)). reflexivity.
  - destruct (Rlt_dec 0 (-1)); [lra|]. replace (-1 * T0) with (- T0) by ring.
    rewrite (proj2 (Rltb_spec _ _)) by lra. replace (A - (A + - T0)) with T0 by ring.
    destruct (C09_normalizeRadians T0) as (_ & _ & N & _).
    rewrite (N ltac:(lra)). reflexivity.
Qed.

Lemma aws_true : angleIsWithinSweep A (s * T0) X eps = true ->
  exists y k, s * (X - A) = y + IZR k * (2 * PI) /\ - eps < y < T0 + eps.
Proof.
  pose proof eps_pos as He. rewrite aws_unfold. destruct Hs as [-> | ->].
  - destruct (Rlt_dec 0 1); [|lra]. intros H. apply Rltb_spec in H.
    destruct (C09_normalizeRadians (X - A)) as (N1 & [k N2] & _).
    exists (normalizeRadians (X - A)), (- k)%Z. rewrite opp_IZR. split; lra.
  - destruct (Rlt_dec 0 (-1)); [lra|]. intros H. apply Rltb_spec in H.
    destruct (C09_normalizeRadians (X - (A - T0))) as (N1 & [k N2] & _).
    exists (T0 - normalizeRadians (X - (A - T0))), k. split; lra.
Qed.

Lemma aws_false : angleIsWithinSweep A (s * T0) X eps = false ->
  exists y k, s * (X - A) = y + IZR k * (2 * PI) /\ T0 <= y <= 2 * PI /\ (y = 2 * PI -> X - A = 2 * PI).
Proof.
  pose proof eps_pos as He. pose proof PI_RGT_0. rewrite aws_unfold. destruct Hs as [-> | ->].
  - destruct (Rlt_dec 0 1); [|lra]. intros H'. apply Rltb_false in H'.
    destruct (C09_normalizeRadians (X - A)) as (N1 & [k N2] & N3 & N4).
    exists (normalizeRadians (X - A)), (- k)%Z. rewrite opp_IZR. split; [lra|]. split; [lra|]. intros E.
    destruct (Rle_lt_dec 0 (X - A)) as [L1|L1]; [destruct (Rle_lt_dec (X - A) (2 * PI)) as [L2|L2]|].
    + rewrite <- E. symmetry. apply N3. lra.
    + pose proof (N4 ltac:(lra)). lra. + pose proof (N4 ltac:(lra)). lra.
  - destruct (Rlt_dec 0 (-1)); [lra|]. intros H'. apply Rltb_false in H'.
    destruct (C09_normalizeRadians (X - (A - T0))) as (N1 & [k N2] & _).
    exists (T0 - normalizeRadians (X - (A - T0)) + 2 * PI), (k - 1)%Z. rewrite minus_IZR. split; [lra|]. split; lra.
Qed.
End WithinSweep.

(** |deltaAngle| below the tolerance means nearly congruent *)
Lemma delta_small a b : Rabs (deltaAngle a b) < eps <-> exists k, Rabs (b - a + IZR k * (2 * PI)) < eps.
Proof.
  destruct (C09_deltaAngle a b) as [B [k E]]. split.
  - intros H. exists k. rewrite <- E. auto.
  - intros [j H]. assert (Ej : deltaAngle a b = b - a + IZR j * (2 * PI)); [|now rewrite Ej].
    pose proof PI_RGT_0. assert (eps < 1) by (unfold eps; lra). pose proof PI2_1.
    apply Rabs_lt_iff in H. rewrite E. f_equal.
    assert (J : (j - k = 0)%Z).
    { assert (D : -1 < IZR (j - k) < 1).
      { rewrite minus_IZR. split; apply Rmult_lt_reg_r with (2 * PI); lra. }
      destruct D as [D1 D2]. apply lt_IZR in D1, D2. lia. }
    replace j with k by lia. reflexivity.
Qed.

Lemma IZR_cases m (x y : R) : x = y + IZR m * (2 * PI) -> (0 <= m)%Z /\ y <= x \/ (m <= -1)%Z /\ x <= y - 2 * PI.
Proof.
  intros E. pose proof PI_RGT_0. destruct (Z_lt_le_dec m 0) as [L|L].
  - right. split; [lia|]. assert (IZR m <= -1) by (apply IZR_le; lia).
    assert (IZR m * (2 * PI) <= -1 * (2 * PI)) by (apply Rmult_le_compat_r; lra). lra.
  - left. split; auto. assert (0 <= IZR m) by (apply IZR_le; lia).
    pose proof (Rmult_le_pos (IZR m) (2 * PI)). lra.
Qed.

Theorem C20_coincident_same_direction (v1 v2 u1 u2 : vertex) (c : vec) : okArc v1 v2 -> okArc u1 u2 ->
  arcCentre (pos v1) (pos v2) (bulge v1) c -> arcCentre (pos u1) (pos u2) (bulge u1) c ->
  dist c (pos v1) = dist c (pos u1) -> (0 < bulge v1 <-> 0 < bulge u1) ->
  match intrPlineSegs v1 v2 u1 u2 with
  | NoIntersect => forall q, ~ (onSeg v1 v2 q /\ onSeg u1 u2 q)
  | OneIntersect p => onArcAng v1 v2 p /\ onArcAng u1 u2 p
  | ArcOverlap p q => onArcAng v1 v2 p /\ onArcAng u1 u2 p /\ onArcAng v1 v2 q /\ onArcAng u1 u2 q
  | _ => False
  end.
Proof.
  intros Hv Hu HC1 HC2 Hd Hsg. pose proof eps_pos as He. pose proof PI_RGT_0 as HPI.
  pose proof (notLine_ne _ (proj1 Hv)) as Bv. pose proof (notLine_ne _ (proj1 Hu)) as Bu.
  pose proof (ctr_unique _ _ _ _ Bv HC1) as E1. pose proof (ctr_unique _ _ _ _ Bu HC2) as E2.
  pose proof (center_R v1 v2 Bv (proj2 (proj2 Hv))) as Ec1. pose proof (center_R u1 u2 Bu (proj2 (proj2 Hu))) as Ec2.
  pose proof (dist_ctr v1 v2 Bv (proj2 (proj2 Hv))) as R1. pose proof (dist_ctr u1 u2 Bu (proj2 (proj2 Hu))) as R2.
  pose proof (okArc_r2 _ _ Hv) as P1. pose proof (okArc_r2 _ _ Hu) as P2. cbv zeta in P1, P2.
  pose proof (okArc_onSeg v1 v2) as OV. pose proof (okArc_onSeg u1 u2) as OU.
  rewrite <- E1 in Ec1, R1, P1, OV. rewrite <- E2 in Ec2, R2, P2, OU.
  apply dist_pos_ne in P1, P2.
  unfold intrPlineSegs. rewrite (proj2 (bulgeIsZero_false v1) (proj1 Hv)).
  rewrite (proj2 (bulgeIsZero_false u1) (proj1 Hu)). cbn [andb].
  rewrite <- R1, <- R2, Ec1, Ec2, <- Hd.
  rewrite (proj2 (C19_coincident_iff c c (dist c (pos v1)) (dist c (pos v1)))).
  2:{ split.
      - assert (dist c c = 0) as -> by (rewrite dist_as; replace (_ + _) with 0 by ring; apply sqrt_0). auto.
      - rewrite Rminus_eq_0, Rabs_R0. auto. }
  set (s := sgn (bulge v1)). assert (Esg : sgn (bulge u1) = s).
  { unfold s, sgn. destruct (Rlt_dec 0 (bulge v1)), (Rlt_dec 0 (bulge u1)); auto; tauto. }
  assert (Hs : s = 1 \/ s = -1) by (unfold s, sgn; destruct (Rlt_dec 0 (bulge v1)); auto).
  assert (Hss : s * s = 1) by apply sgn_sq.
  unfold coincidentArcsIntr, startAndSweepAngle.
  assert (Eneg : Bool.eqb (bulgeIsNeg v1) (bulgeIsNeg u1) = true).
  { apply Bool.eqb_true_iff. unfold bulgeIsNeg. rcbn.
    destruct (Rltb (bulge v1) 0) eqn:X1, (Rltb (bulge u1) 0) eqn:X2; auto; rbool; exfalso; lra. }
  rewrite Eneg. rcbn. fold eps.
  fold (sweep (bulge v1)). fold (sweep (bulge u1)).
  rewrite (sgn_sweep _ Bv), (sgn_sweep _ Bu), Esg. fold s.
  pose proof (okArc_sweep _ _ Hv) as HTv. pose proof (okArc_sweep _ _ Hu) as HTu.
  pose proof (okArc_sweep_eps _ _ Hv) as HEv. pose proof (okArc_sweep_eps _ _ Hu) as HEu.
  destruct (norm_angle_bounds c (pos v1)) as [B1 N1]. destruct (norm_angle_bounds c (pos u1)) as [B2 N2].
  set (A1 := normalizeRadians (angle c (pos v1))) in *. set (A2 := normalizeRadians (angle c (pos u1))) in *.
  set (x := s * (A2 - A1)).
  assert (Hu1 : pos u1 = rot c (s * x) (pos v1)).
  { replace (s * x) with (A2 - A1) by (unfold x; rewrite <- Rmult_assoc, Hss; ring).
    apply rot_of_angle; auto. destruct N1 as [k1 N1], N2 as [k2 N2]. rewrite N1, N2. exists (- k2 + k1)%Z.
    rewrite plus_IZR, opp_IZR. rring. }
  assert (Hv2 : pos v2 = rot c (s * Rabs (sweep (bulge v1))) (pos v1)).
  { unfold s. rewrite <- (sgn_sweep _ Bv). symmetry. exact HC1. }
  assert (Hu2 : pos u2 = rot c (s * Rabs (sweep (bulge u1))) (pos u1)).
  { rewrite <- Esg. rewrite <- (sgn_sweep _ Bu). symmetry. exact HC2. }
  set (Tv := Rabs (sweep (bulge v1))) in *. set (Tu := Rabs (sweep (bulge u1))) in *.
  assert (Shift : forall t k p, rot c (s * (t + IZR k * (2 * PI))) p = rot c (s * t) p).
  { intros t k p. apply rot_congruent. destruct Hs as [-> | ->]; [exists (- k)%Z|exists k]; rewrite ?opp_IZR; ring. }
  (* membership from angles in the frame of v1 *)
  assert (MV : forall t y k, t = y + IZR k * (2 * PI) -> - eps <= y <= Tv + eps -> onArcAng v1 v2 (rot c (s * t) (pos v1))).
  { intros t y k -> Hy. exists c, y. fold s Tv. rewrite Shift. auto. }
  assert (MU : forall t y k, t - x = y + IZR k * (2 * PI) -> - eps <= y <= Tu + eps -> onArcAng u1 u2 (rot c (s * t) (pos v1))).
  { intros t y k Ht Hy. exists c, y. rewrite Esg. fold Tu. split; auto. split; auto.
    rewrite <- (Shift y k). rewrite <- Ht. rewrite Hu1, rot_rot. f_equal. ring. }
  assert (Pv1 : pos v1 = rot c (s * 0) (pos v1)) by (now rewrite Rmult_0_r, rot_0).
  assert (Pu2 : pos u2 = rot c (s * (x + Tu)) (pos v1)).
  { rewrite Hu2, Hu1, rot_rot. f_equal. ring. }
  assert (SV1 : onArcAng v1 v2 (pos v1)).
  { rewrite Pv1. apply (MV 0 0 0%Z); lra. }
  assert (SV2 : onArcAng v1 v2 (pos v2)).
  { rewrite Hv2. apply (MV Tv Tv 0%Z); lra. }
  assert (SU1 : onArcAng u1 u2 (pos u1)).
  { rewrite Hu1. apply (MU x 0 0%Z); lra. }
  assert (SU2 : onArcAng u1 u2 (pos u2)).
  { rewrite Pu2. apply (MU (x + Tu) Tu 0%Z); lra. }
  (* the tests in the frame *)
  assert (D1 : Rabs (deltaAngle A1 (A2 + s * Tu)) < eps <-> exists k, Rabs (x + Tu + IZR k * (2 * PI)) < eps).
  { rewrite delta_small. assert (K : forall k, Rabs (A2 + s * Tu - A1 + IZR k * (2 * PI)) = Rabs (x + Tu + s * IZR k * (2 * PI))).
    { intros k. rewrite <- (Rmult_1_l (Rabs (x + _ + _))). replace 1 with (Rabs s) by (destruct Hs as [-> | ->]; [apply Rabs_R1|rewrite Rabs_left; lra]).
      rewrite <- Rabs_mult. f_equal. unfold x. transitivity (s * s * (A2 - A1) + s * Tu + s * s * IZR k * (2 * PI)); [rewrite Hss; ring|ring]. }
    destruct Hs as [Es|Es]; split; intros [k Hk].
    - exists k. rewrite K, Es in Hk. rewrite Rmult_1_l in Hk. auto.
    - exists k. rewrite K, Es, Rmult_1_l. auto.
    - exists (- k)%Z. rewrite K, Es in Hk. rewrite opp_IZR. replace (- IZR k) with (-1 * IZR k) by ring. auto.
    - exists (- k)%Z. rewrite K, Es, opp_IZR. replace (-1 * - IZR k) with (IZR k) by ring. auto. }
  assert (D2 : Rabs (deltaAngle A2 (A1 + s * Tv)) < eps <-> exists k, Rabs (Tv - x + IZR k * (2 * PI)) < eps).
  { rewrite delta_small. assert (K : forall k, Rabs (A1 + s * Tv - A2 + IZR k * (2 * PI)) = Rabs (Tv - x + s * IZR k * (2 * PI))).
    { intros k. rewrite <- (Rmult_1_l (Rabs (Tv - _ + _))). replace 1 with (Rabs s) by (destruct Hs as [-> | ->]; [apply Rabs_R1|rewrite Rabs_left; lra]).
      rewrite <- Rabs_mult. f_equal. unfold x. transitivity (- (s * s * (A2 - A1)) + s * Tv + s * s * IZR k * (2 * PI)); [rewrite Hss; ring|ring]. }
    destruct Hs as [Es|Es]; split; intros [k Hk].
    - exists k. rewrite K, Es in Hk. rewrite Rmult_1_l in Hk. auto.
    - exists k. rewrite K, Es, Rmult_1_l. auto.
    - exists (- k)%Z. rewrite K, Es in Hk. rewrite opp_IZR. replace (- IZR k) with (-1 * IZR k) by ring. auto.
    - exists (- k)%Z. rewrite K, Es, opp_IZR. replace (-1 * - IZR k) with (IZR k) by ring. auto. }
  assert (X2 : s * (A2 + s * Tu - A1) = x + Tu).
  { unfold x. replace (s * (A2 + s * Tu - A1)) with (s * (A2 - A1) + s * s * Tu) by ring. rewrite Hss. ring. }
  assert (X3 : s * (A1 - A2) = - x) by (unfold x; ring).
  destruct (Rltb (Rabs (deltaAngle A1 (A2 + s * Tu))) eps) eqn:F1.
  { apply Rltb_spec, D1 in F1. destruct F1 as [k F1]. split; auto. rewrite Pv1.
    apply Rabs_lt_iff in F1. apply (MU 0 (Tu - (x + Tu + IZR k * (2 * PI))) k); lra. }
  destruct (Rltb (Rabs (deltaAngle A2 (A1 + s * Tv))) eps) eqn:F2.
  { apply Rltb_spec, D2 in F2. destruct F2 as [k F2]. split; auto. rewrite Hu1.
    apply Rabs_lt_iff in F2. apply (MV x (Tv - (Tv - x + IZR k * (2 * PI))) k); lra. }
  assert (G1 : forall k, eps <= Rabs (x + Tu + IZR k * (2 * PI))).
  { intros k. apply Rnot_lt_le. intros G. apply Rltb_false in F1. assert (Rabs (deltaAngle A1 (A2 + s * Tu)) < eps) by (apply D1; eauto). lra. }
  assert (G2 : forall k, eps <= Rabs (Tv - x + IZR k * (2 * PI))).
  { intros k. apply Rnot_lt_le. intros G. apply Rltb_false in F2. assert (Rabs (deltaAngle A2 (A1 + s * Tv)) < eps) by (apply D2; eauto). lra. }
  clear D1 D2 F1 F2.
  destruct (angleIsWithinSweep A1 (s * Tv) A2 eps) eqn:W1; destruct (angleIsWithinSweep A1 (s * Tv) (A2 + s * Tu) eps) eqn:W2;
    cbn [andb].
  - apply aws_true in W1; auto. apply aws_true in W2; auto. rewrite X2 in W2. fold x in W1.
    destruct W1 as (y1 & k1 & W1 & Y1), W2 as (y2 & k2 & W2 & Y2).
    split; [|split; [auto|split; [|auto]]].
    + rewrite Hu1. apply (MV x y1 k1); lra. + rewrite Pu2. apply (MV _ y2 k2); lra.
  - apply aws_true in W1; auto. apply aws_false in W2; auto. rewrite X2 in W2. fold x in W1.
    destruct W1 as (y1 & k1 & W1 & Y1), W2 as (y2 & k2 & W2 & Y2 & _).
    split; [|split; [auto|split; [auto|]]].
    + rewrite Hu1. apply (MV x y1 k1); lra.
    + rewrite Hv2. apply (MU Tv (Tv - y1) (- k1)%Z); [rewrite opp_IZR; lra|]. split; [lra|].
      destruct (IZR_cases (k2 - k1) (y1 + Tu) y2) as [[_ Q]|[_ Q]]; [rewrite minus_IZR; lra|lra|lra].
  - apply aws_false in W1; auto. apply aws_true in W2; auto. rewrite X2 in W2. fold x in W1.
    destruct W1 as (y1 & k1 & W1 & Y1 & _), W2 as (y2 & k2 & W2 & Y2).
    split; [auto|split; [|split; [|auto]]].
    + rewrite Pv1. apply (MU 0 (Tu - y2) (- k2)%Z); [rewrite opp_IZR; lra|]. split; [|lra].
      destruct (IZR_cases (k1 - k2) (y2 - Tu) y1) as [[_ Q]|[_ Q]]; [rewrite minus_IZR; lra|lra|lra].
    + rewrite Pu2. apply (MV _ y2 k2); lra.
  - apply aws_false in W1; auto. apply aws_false in W2; auto. rewrite X2 in W2. fold x in W1.
    destruct W1 as (y1 & k1 & W1 & Y1 & Z1), W2 as (y2 & k2 & W2 & Y2 & Z2).
    destruct (angleIsWithinSweep A2 (s * Tu) A1 eps) eqn:W3.
    + apply aws_true in W3; auto. rewrite X3 in W3. destruct W3 as (y3 & k3 & W3 & Y3).
      split; [auto|split; [|split; [auto|]]].
      * rewrite Pv1. apply (MU 0 y3 k3); lra.
      * rewrite Hv2. apply (MU Tv (Tv + y3) k3); [lra|]. split; [lra|].
        destruct (IZR_cases (k2 + k3) (Tu - y3) y2) as [[_ Q]|[_ Q]]; [rewrite plus_IZR; lra|lra|].
        exfalso. specialize (G1 k3). replace (x + Tu + IZR k3 * (2 * PI)) with (Tu - y3) in G1 by lra.
        rewrite Rabs_left1 in G1 by lra. lra.
    + apply aws_false in W3; auto. rewrite X3 in W3. destruct W3 as (y3 & k3 & W3 & Y3 & Z3).
      intros q [Q1 Q2]. apply OV in Q1; auto. apply OU in Q2; auto. fold s Tv in Q1. rewrite Esg in Q2. fold Tu in Q2.
      destruct Q1 as (a & Ha & Qa), Q2 as (b & Hb & Qb). rewrite Hu1, rot_rot in Qb.
      assert (Hab : exists k, a - b = x + IZR k * (2 * PI)).
      { assert (HH : rot c (s * a) (pos v1) = rot c (s * b + s * x) (pos v1)) by congruence.
        pose proof (angle_rot c (s * a) _ P1) as C1. pose proof (angle_rot c (s * b + s * x) _ P1) as C2.
        rewrite <- HH in C2. destruct C1 as [m1 C1], C2 as [m2 C2].
        destruct Hs as [Es|Es]; rewrite Es in *; [exists (m2 - m1)%Z|exists (m1 - m2)%Z]; rewrite minus_IZR; lra. }
      destruct Hab as [m Hab].
      destruct (Rle_lt_dec b a) as [L|L].
      * (* u1 within v *)
        destruct (IZR_cases (k1 + m) (a - b) y1) as [[_ Q]|[_ Q]]; [rewrite plus_IZR; lra| |].
        -- specialize (G2 (- m)%Z). rewrite opp_IZR in G2. replace (Tv - x + - IZR m * (2 * PI)) with (Tv - (a - b)) in G2 by lra.
           rewrite Rabs_pos_eq in G2 by lra. lra.
        -- assert (E : y1 = 2 * PI) by lra. specialize (Z1 E). lra.
      * destruct (IZR_cases (k3 - m) (b - a) y3) as [[_ Q]|[_ Q]]; [rewrite minus_IZR; lra| |].
        -- specialize (G1 m). replace (x + Tu + IZR m * (2 * PI)) with (Tu - (b - a)) in G1 by lra.
           rewrite Rabs_pos_eq in G1 by lra. lra.
        -- lra.
Qed.

(** For coincident arcs of opposite direction the property is false: the code reverses the second arc
    for the tests but still reports its original start point.  Here the arcs touch at v2 = u2, and u1 is
    reported, which is at a distance of more than 1/2 from the first arc. *)
Theorem C20_coincident_opposite_refuted :
  let v1 := mkVertex 1 0 (1 / 2) in let v2 := mkVertex (- 7 / 25) (24 / 25) 0 in
  let u1 := mkVertex (- 527 / 625) (- 336 / 625) (- (1 / 2)) in let u2 := mkVertex (- 7 / 25) (24 / 25) 0 in
  okArc v1 v2 /\ okArc u1 u2 /\ intrPlineSegs v1 v2 u1 u2 = OneIntersect (pos u1) /\
  (forall q, onSeg v1 v2 q -> 1 / 2 < dist (pos u1) q) /\
  onSeg v1 v2 (pos v2) /\ onSeg u1 u2 (pos v2).
Proof.
  intros v1 v2 u1 u2.
  assert (Hv : okArc v1 v2).
  { unfold okArc, isLine, v1, v2. cbn [bulge pos mkVertex]. rewrite Rabs_pos_eq by lra.
    split; [lra|]. split; [lra|]. intros E. injection E. lra. }
  assert (Hu : okArc u1 u2).
  { unfold okArc, isLine, u1, u2. cbn [bulge pos mkVertex]. rewrite Rabs_left by lra.
    split; [lra|]. split; [lra|]. intros E. injection E. lra. }
  split; auto. split; auto.
  pose proof (notLine_ne _ (proj1 Hv)) as Bv. pose proof (notLine_ne _ (proj1 Hu)) as Bu.
  set (c := mkV 0 0 : vec). pose proof eps_pos as He. pose proof PI_RGT_0 as HPI.
  assert (Cs : cos (sweep (1 / 2)) = - 7 / 25) by (rewrite cos_sweep; lra).
  assert (Sn : sin (sweep (1 / 2)) = 24 / 25) by (rewrite sin_sweep; lra).
  assert (HC1 : arcCentre (pos v1) (pos v2) (bulge v1) c).
  { unfold arcCentre, rot, v1, v2, c. cbn [bulge pos mkVertex vx vy]. rewrite Cs, Sn. apply vec_eq; cbn [vx vy]; lra. }
  assert (Esw : sweep (- (1 / 2)) = - sweep (1 / 2)) by (unfold sweep; rewrite atan_opp; ring).
  assert (HC2 : arcCentre (pos u1) (pos u2) (bulge u1) c).
  { unfold arcCentre, rot, u1, u2, c. cbn [bulge pos mkVertex vx vy]. rewrite Esw, cos_neg, sin_neg, Cs, Sn.
    apply vec_eq; cbn [vx vy]; lra. }
  assert (D1 : dist c (pos v1) = 1).
  { rewrite dist_as. unfold c, v1. cbn [pos mkVertex vx vy]. replace (_ + _) with 1 by lra. apply sqrt_1. }
  assert (D2 : dist c (pos u1) = 1).
  { rewrite dist_as. unfold c, u1. cbn [pos mkVertex vx vy]. replace (_ + _) with 1 by lra. apply sqrt_1. }
  assert (Hmem : forall a b, okArc a b -> onSeg a b (pos b)).
  { intros a b Hok. exists 1. split; [lra|]. apply segPoint_arc; [apply Hok|]. rewrite Rmult_1_l.
    symmetry. apply ctr_spec. apply notLine_ne, Hok. }
  split; [|split; [|split; [now apply Hmem|apply (Hmem u1 u2 Hu)]]].
  - pose proof (ctr_unique _ _ _ _ Bv HC1) as E1. pose proof (ctr_unique _ _ _ _ Bu HC2) as E2.
    pose proof (center_R v1 v2 Bv (proj2 (proj2 Hv))) as Ec1. pose proof (center_R u1 u2 Bu (proj2 (proj2 Hu))) as Ec2.
    pose proof (dist_ctr v1 v2 Bv (proj2 (proj2 Hv))) as R1. pose proof (dist_ctr u1 u2 Bu (proj2 (proj2 Hu))) as R2.
    rewrite <- E1 in Ec1, R1. rewrite <- E2 in Ec2, R2.
    unfold intrPlineSegs. rewrite (proj2 (bulgeIsZero_false v1) (proj1 Hv)).
    rewrite (proj2 (bulgeIsZero_false u1) (proj1 Hu)). cbn [andb].
    rewrite <- R1, <- R2, Ec1, Ec2, D1, D2.
    rewrite (proj2 (C19_coincident_iff c c 1 1)).
    2:{ split.
        - assert (dist c c = 0) as -> by (rewrite dist_as; replace (_ + _) with 0 by ring; apply sqrt_0). auto.
        - rewrite Rminus_eq_0, Rabs_R0. auto. }
    unfold coincidentArcsIntr, startAndSweepAngle.
    assert (Eneg : Bool.eqb (bulgeIsNeg v1) (bulgeIsNeg u1) = false).
    { unfold bulgeIsNeg, v1, u1. cbn [bulge mkVertex]. rcbn.
      rewrite (proj2 (Rltb_false _ _)) by lra. rewrite (proj2 (Rltb_spec _ _)) by lra. reflexivity. }
    rewrite Eneg. rcbn. fold eps.
    change (bulge v1) with (1 / 2). change (bulge u1) with (- (1 / 2)). rewrite Ropp_involutive.
    fold (sweep (1 / 2)).
    destruct (norm_angle_bounds c (pos v1)) as [_ [k1 N1]]. destruct (norm_angle_bounds c (pos u2)) as [_ [k2 N2]].
    assert (Ne : pos v1 <> c) by (apply dist_pos_ne; lra).
    pose proof (angle_rot c (sweep (1 / 2)) (pos v1) Ne) as [k3 N3].
    assert (Er : rot c (sweep (1 / 2)) (pos v1) = pos u2) by exact HC1. rewrite Er in N3.
    set (A1 := normalizeRadians (angle c (pos v1))) in *. set (A2 := normalizeRadians (angle c (pos u2))) in *.
    set (S := sweep (1 / 2)) in *.
    assert (F1 : Rltb (Rabs (deltaAngle A1 (A2 + S))) eps = false).
    { apply Rltb_false, Rnot_lt_le. intros L. apply delta_small in L. destruct L as [k L]. apply Rabs_lt_iff in L.
      assert (C : congruent (2 * S) (A2 + S - A1 + IZR k * (2 * PI))).
      { exists (k2 + k3 - k1 + k)%Z. rewrite !plus_IZR, minus_IZR, plus_IZR. lra. }
      pose proof (congruent_cos _ _ C) as CC. rewrite cos_2a, Cs, Sn in CC.
      assert (0 < cos (A2 + S - A1 + IZR k * (2 * PI))).
      { pose proof PI2_1. assert (eps < 1) by (unfold eps; lra). apply cos_gt_0; lra. }
      lra. }
    assert (F2 : Rltb (Rabs (deltaAngle A2 (A1 + S))) eps = true).
    { apply Rltb_spec, delta_small. exists (- k1 + k2 + k3)%Z. rewrite !plus_IZR, opp_IZR.
      replace (_ + _) with 0 by lra. rewrite Rabs_R0. auto. }
    rewrite F1, F2. reflexivity.
  - intros q Hq. apply sector_exact in Hq; auto.
    rewrite <- (ctr_unique _ _ _ _ Bv HC1) in Hq. destruct Hq as (_ & Hq & _).
    assert (Sg : sgn (bulge v1) = 1) by (unfold sgn, v1; cbn [bulge mkVertex]; destruct (Rlt_dec 0 (1 / 2)); lra).
    rewrite Sg in Hq. unfold cross, c, v1 in Hq. cbn [pos mkVertex vx vy] in Hq.
    rewrite dist_as. apply Rlt_le_trans with (sqrt (336 / 625 * (336 / 625))); [rewrite sqrt_square; lra|].
    apply sqrt_le_1_alt. unfold u1. cbn [pos mkVertex vx vy].
    match goal with |- _ <= ?a * ?a + ?b * ?b => assert (336 / 625 <= b) by lra; pose proof (sq_nonneg a);
      assert (336 / 625 * (336 / 625) <= b * b) by (apply Rmult_le_compat; lra); lra end.
Qed.

(** non-vacuity: two crossing arcs, and a line through an arc *)
Example C20_hypotheses_met :
  okArc (mkVertex 1 0 1) (mkVertex (-1) 0 0) /\ okArc (mkVertex 0 0 1) (mkVertex 2 0 0) /\
  isLine (mkVertex 0 0 0) /\
  onSeg (mkVertex 1 0 1) (mkVertex (-1) 0 0) (mkV 0 1).
Proof.
  assert (H1 : okArc (mkVertex 1 0 1) (mkVertex (-1) 0 0)).
  { unfold okArc, isLine. cbn [bulge pos mkVertex]. rewrite Rabs_R1. split; [lra|]. split; [lra|]. intros E. injection E. lra. }
  split; auto. split.
  { unfold okArc, isLine. cbn [bulge pos mkVertex]. rewrite Rabs_R1. split; [lra|]. split; [lra|]. intros E. injection E. lra. }
  split. { unfold isLine. cbn [bulge mkVertex]. rewrite Rabs_R0. lra. }
  apply sector_exact; auto. cbn [bulge pos mkVertex].
  assert (Ec : ctr (mkV 1 0) (mkV (-1) 0) 1 = mkV 0 0).
  { symmetry. apply ctr_unique; [lra|]. unfold arcCentre, rot. rewrite cos_sweep, sin_sweep. apply vec_eq; rcbn; lra. }
  rewrite Ec. split.
  - rewrite !dist_as. cbn [vx vy]. f_equal. lra.
  - unfold sgn. destruct (Rlt_dec 0 1); [|lra]. unfold cross. rcbn. lra.
Qed.
