(** * C13 - C16: plinesegment.hpp over exact reals *)
From Coq Require Import ZArith Reals Lra Lia Psatz List Bool.
From Verif Require Import Base Num MathUtils PlineSegment RGeom Spec PropsMath ArcGeom Polar.
Import ListNotations.
Open Scope R_scope.

Lemma not_fuzzy_ne (a b : vec) e : 0 < e -> fuzzyEqual a b e = false -> a <> b.
Proof.
  intros He H E. subst b. assert (fuzzyEqual a a e = true); [|congruence].
  apply fuzzyEqual_R. rewrite !Rminus_eq_0, Rabs_R0. split; exact He.
Qed.

Lemma ctr_ne p1 p2 b : b <> 0 -> p1 <> p2 -> p1 <> ctr p1 p2 b.
Proof.
  intros Hb H E. apply H. pose proof (ctr_spec p1 p2 b Hb) as Hc. unfold arcCentre in Hc.
  rewrite <- E in Hc. rewrite <- Hc. unfold rot. apply vec_eq; rcbn; rring.
Qed.

Lemma dist_ctr v1 v2 : bulge v1 <> 0 -> pos v1 <> pos v2 ->
  dist (ctr (pos v1) (pos v2) (bulge v1)) (pos v1) = radius (arcRadiusAndCenter v1 v2).
Proof.
  intros Hb Hne. destruct (C12_arc_centre_radius v1 v2 Hb Hne) as (_ & H & _).
  now rewrite center_R in H.
Qed.

(** ** C13 *)
(** two consecutive segments [v1 -> w], [w -> v2] trace the segment [v1 -> v2] *)
Definition tracesSplit (v1 v2 u w : vertex) (t : R) : Prop :=
  (forall s q, segPoint v1 v2 (s * t) q <-> segPoint u w s q) /\
  (forall s q, segPoint v1 v2 (t + s * (1 - t)) q <-> segPoint w v2 s q).

Theorem C13_split_line (v1 v2 : vertex) (t : R) (p : vec) :
  isLine v1 -> segPoint v1 v2 t p ->
  let r := splitAtPoint v1 v2 p in
  pos (updatedStart r) = pos v1 /\ pos (splitVertex r) = p /\
  tracesSplit v1 v2 (updatedStart r) (splitVertex r) t.
Proof.
  intros Hl Hp. unfold splitAtPoint. apply bulgeIsZero_R in Hl as Hz. rewrite Hz. cbn [updatedStart splitVertex pos].
  split; auto. split; auto. apply (segPoint_line _ _ _ _ Hl) in Hp. subst p. split; intros s q.
  - rewrite !segPoint_line by auto. cbn. split; intros ->; apply vec_eq; unfold lerp; rcbn; rring.
  - rewrite segPoint_line by auto. rewrite segPoint_line.
    2:{ unfold isLine. cbn [bulge]. rewrite t0_R, Rabs_R0. lra. }
    cbn. split; intros ->; apply vec_eq; unfold lerp; rcbn; rring.
Qed.

Lemma tan_atan_range x : - (PI / 2) < x < PI / 2 -> atan (tan x) = x.
Proof. intros H. apply atan_tan. lra. Qed.

(** For arcs up to a half circle.  The hypotheses say that the split point is a point of the arc that the
    code does not identify with an end point (both coordinates within 1e-5); the sub-arcs must
    themselves be arcs (bulge at least 1e-5) for the library to treat them as such. *)
Theorem C13_split_arc (v1 v2 : vertex) (t : R) (p : vec) :
  ~ isLine v1 -> Rabs (bulge v1) <= 1 -> 0 <= t <= 1 -> segPoint v1 v2 t p ->
  fuzzyEqual (pos v1) (pos v2) (1 / 100000) = false ->
  fuzzyEqual (pos v1) p (1 / 100000) = false -> fuzzyEqual (pos v2) p (1 / 100000) = false ->
  let r := splitAtPoint v1 v2 p in
  let u := updatedStart r in let w := splitVertex r in
  pos u = pos v1 /\ pos w = p /\ 0 < t < 1 /\
  sweep (bulge u) = t * sweep (bulge v1) /\ sweep (bulge w) = (1 - t) * sweep (bulge v1) /\
  center (arcRadiusAndCenter u w) = center (arcRadiusAndCenter v1 v2) /\
  center (arcRadiusAndCenter w v2) = center (arcRadiusAndCenter v1 v2) /\
  radius (arcRadiusAndCenter u w) = radius (arcRadiusAndCenter v1 v2) /\
  radius (arcRadiusAndCenter w v2) = radius (arcRadiusAndCenter v1 v2) /\
  (~ isLine u -> ~ isLine w -> tracesSplit v1 v2 u w t).
Proof.
  intros Hl Hb1 Ht Hp F12 F1 F2 r u w.
  pose proof (notLine_ne _ Hl) as Hb.
  pose proof (not_fuzzy_ne _ _ (1 / 100000) ltac:(lra) F12) as N12.
  pose proof (not_fuzzy_ne _ _ (1 / 100000) ltac:(lra) F1) as N1.
  pose proof (not_fuzzy_ne _ _ (1 / 100000) ltac:(lra) F2) as N2.
  apply (segPoint_arc _ _ _ _ Hl) in Hp.
  set (c := ctr (pos v1) (pos v2) (bulge v1)) in *.
  set (th := sweep (bulge v1)) in *.
  pose proof (ctr_spec (pos v1) (pos v2) _ Hb) as Hc. unfold arcCentre in Hc. fold c th in Hc.
  pose proof (ctr_ne (pos v1) (pos v2) _ Hb N12) as Nc. fold c in Nc.
  pose proof (sweep_le_pi _ Hb1) as Hth. fold th in Hth.
  assert (Ht' : 0 < t < 1).
  { split.
    - destruct (Req_dec t 0) as [E|E]; [|lra]. subst t. rewrite Rmult_0_l, rot_0 in Hp. now subst p.
    - destruct (Req_dec t 1) as [E|E]; [|lra]. subst t. rewrite Rmult_1_l, Hc in Hp. now subst p. }
  assert (Hth0 : th <> 0).
  { intros E. unfold th in E. unfold sweep in E.
    destruct (Rtotal_order (bulge v1) 0) as [L|[L|L]]; auto.
    - pose proof (atan_neg _ L). lra. - pose proof (atan_pos _ L). lra. }
  pose proof PI_RGT_0 as HPI.
  assert (T1 : - PI < t * th < PI) by nra.
  assert (T2 : - PI < (1 - t) * th < PI) by nra.
  assert (Np : p <> c).
  { apply dist_pos_ne. rewrite Hp, dist_rot. apply (angle_polar c (pos v1) Nc). }
  assert (P2 : pos v2 = rot c ((1 - t) * th) p).
  { rewrite <- Hc, Hp, rot_rot. f_equal. ring. }
  assert (Er : r = mkSplit (mkVtx (pos v1) (tan (t * th / 4))) (mkVtx p (tan ((1 - t) * th / 4)))).
  { unfold r, splitAtPoint. rewrite (proj2 (bulgeIsZero_false v1) Hl). rcbn.
    rewrite F12, F1, F2. cbn [orb]. rewrite center_R by auto. fold c.
    rewrite Hp at 1. rewrite delta_rot_eq by (auto; lra).
    rewrite P2. rewrite delta_rot_eq by (auto; lra). reflexivity. }
  assert (Bu : bulge u = tan (t * th / 4)) by (unfold u; now rewrite Er).
  assert (Bw : bulge w = tan ((1 - t) * th / 4)) by (unfold w; now rewrite Er).
  assert (Pu : pos u = pos v1) by (unfold u; now rewrite Er).
  assert (Pw : pos w = p) by (unfold w; now rewrite Er).
  assert (Su : sweep (bulge u) = t * th).
  { unfold sweep. rewrite Bu, tan_atan_range by lra. field. }
  assert (Sw : sweep (bulge w) = (1 - t) * th).
  { unfold sweep. rewrite Bw, tan_atan_range by lra. field. }
  assert (Nu : bulge u <> 0).
  { intros E. rewrite E in Su. unfold sweep in Su. rewrite atan_0 in Su. nra. }
  assert (Nw : bulge w <> 0).
  { intros E. rewrite E in Sw. unfold sweep in Sw. rewrite atan_0 in Sw. nra. }
  assert (Cu : ctr (pos u) (pos w) (bulge u) = c).
  { symmetry. apply ctr_unique; auto. unfold arcCentre. now rewrite Pu, Pw, Su. }
  assert (Cw : ctr (pos w) (pos v2) (bulge w) = c).
  { symmetry. apply ctr_unique; auto. unfold arcCentre. now rewrite Pw, Sw. }
  split; [exact Pu|]. split; [exact Pw|]. split; [exact Ht'|]. split; [exact Su|]. split; [exact Sw|].
  split. { rewrite !center_R; auto. rewrite Pu, Pw; auto. }
  split. { rewrite !center_R; auto. rewrite Pw; auto. }
  split. { rewrite <- !dist_ctr; auto; rewrite ?Cu; fold c; rewrite ?Pu, ?Pw; auto. }
  split. { rewrite <- !dist_ctr; auto; rewrite ?Cw, ?Pw; auto. fold c. rewrite Hp. apply dist_rot. }
  intros Lu Lw. split; intros s q.
  - rewrite !segPoint_arc by auto. rewrite Cu, Su, Pu. fold c th.
    replace (s * t * th) with (s * (t * th)) by ring. reflexivity.
  - rewrite !segPoint_arc by auto. rewrite Cw, Sw, Pw. fold c th. rewrite Hp, rot_rot.
    replace (s * ((1 - t) * th) + t * th) with ((t + s * (1 - t)) * th) by ring. reflexivity.
Qed.

(** ** C16 *)
Theorem C16_segLength (v1 v2 : vertex) :
  fuzzyEqual (pos v1) (pos v2) (1 / 100000000) = false -> Rabs (bulge v1) <= 1 ->
  (isLine v1 -> segLength v1 v2 = dist (pos v1) (pos v2)) /\
  (~ isLine v1 -> segLength v1 v2 = radius (arcRadiusAndCenter v1 v2) * Rabs (sweep (bulge v1))).
Proof.
  intros F Hb. unfold segLength. rcbn. rewrite F.
  pose proof (not_fuzzy_ne _ _ (1 / 100000000) ltac:(lra) F) as N12. split; intros Hl.
  - apply bulgeIsZero_R in Hl. rewrite Hl. unfold distSquared, dist, dot, vsub. rcbn. f_equal. ring.
  - rewrite (proj2 (bulgeIsZero_false v1) Hl). pose proof (notLine_ne _ Hl) as Hne.
    pose proof (radius_pos v1 v2 Hne N12) as Hr.
    rewrite center_R by auto. set (c := ctr _ _ _). set (th := sweep _).
    pose proof (ctr_spec (pos v1) (pos v2) _ Hne) as Hc. unfold arcCentre in Hc. fold c th in Hc.
    pose proof (ctr_ne (pos v1) (pos v2) _ Hne N12) as Nc. fold c in Nc.
    pose proof (sweep_le_pi _ Hb) as Hth. fold th in Hth.
    rewrite Rabs_mult, (Rabs_pos_eq (radius _)) by lra. f_equal.
    rewrite <- Hc. destruct (Req_dec th (- PI)) as [E|E].
    + rewrite E. rewrite (rot_congruent c (- PI) PI) by (exists 1%Z; simpl; lra).
      rewrite delta_rot_eq by (auto; pose proof PI_RGT_0; lra). now rewrite Rabs_Ropp.
    + rewrite delta_rot_eq by (auto; lra). reflexivity.
Qed.

Theorem C16_segMidpoint (v1 v2 : vertex) :
  Rabs (bulge v1) <= 1 -> (~ isLine v1 -> pos v1 <> pos v2) ->
  segPoint v1 v2 (1 / 2) (segMidpoint v1 v2).
Proof.
  intros Hb Hd. unfold segMidpoint. destruct (bulgeIsZero v1) eqn:Ez.
  - apply bulgeIsZero_R in Ez. apply segPoint_line; auto.
    unfold midpoint, lerp. apply vec_eq; rcbn; lra.
  - apply bulgeIsZero_false in Ez. specialize (Hd Ez). apply segPoint_arc; auto.
    pose proof (notLine_ne _ Ez) as Hne. rewrite <- (dist_ctr _ _ Hne Hd).
    rewrite center_R by auto. set (c := ctr _ _ _). set (th := sweep _).
    pose proof (ctr_spec (pos v1) (pos v2) _ Hne) as Hc. unfold arcCentre in Hc. fold c th in Hc.
    pose proof (ctr_ne (pos v1) (pos v2) _ Hne Hd) as Nc. fold c in Nc.
    pose proof (sweep_le_pi _ Hb) as Hth. fold th in Hth. pose proof PI_RGT_0 as HPI.
    assert (Hdel : Rabs (deltaAngle (angle c (pos v1)) (angle c (pos v2)) / 2) = Rabs th / 2).
    { rewrite <- Hc. unfold Rdiv. rewrite Rabs_mult, (Rabs_pos_eq (/ 2)) by lra. f_equal.
      destruct (Req_dec th (- PI)) as [E|E].
      - rewrite E. rewrite (rot_congruent c (- PI) PI) by (exists 1%Z; simpl; lra).
        rewrite delta_rot_eq by (auto; lra). now rewrite Rabs_Ropp.
      - rewrite delta_rot_eq by (auto; lra). reflexivity. }
    unfold bulgeIsPos. rcbn. rewrite Hdel. rewrite <- pointOnCircle_rot by auto.
    f_equal. destruct (Rltb 0 (bulge v1)) eqn:E; rbool.
    + pose proof (sweep_pos _ E) as P. fold th in P. rewrite Rabs_pos_eq by lra. lra.
    + pose proof (sweep_neg (bulge v1) ltac:(lra)) as P. fold th in P. rewrite Rabs_left by lra. lra.
Qed.

(** ** C15 *)
Definition inBox (bb : aabb) (q : vec) : Prop :=
  xMin bb <= vx q <= xMax bb /\ yMin bb <= vy q <= yMax bb.

Lemma tmin_le (a b : R) : tmin a b <= a /\ tmin a b <= b.
Proof. unfold tmin. rcbn. destruct (Rltb b a) eqn:E; rbool; lra. Qed.
Lemma tmax_ge (a b : R) : a <= tmax a b /\ b <= tmax a b.
Proof. unfold tmax. rcbn. destruct (Rltb a b) eqn:E; rbool; lra. Qed.

(** coefficients of the arc point in the rectangle chord x sagitta *)
Lemma arc_in_rectangle b t : b <> 0 -> Rabs b <= 1 -> 0 <= t <= 1 ->
  let psi := 2 * atan b in let u := (2 * t - 1) * psi in
  0 <= 1 / 2 + sin u / (2 * sin psi) <= 1 /\
  exists be, 0 <= be <= 1 /\ (cos psi - cos u) / (2 * sin psi) = - be * (b / 2).
Proof.
  intros Hb Hb1 Ht psi u.
  pose proof (sweep_le_pi _ Hb1) as Hs. unfold sweep in Hs.
  assert (Hpsi : - (PI / 2) <= psi <= PI / 2) by (unfold psi; lra).
  assert (Hsin : sin psi <> 0) by now apply sin_half_ne.
  assert (Hps : psi <> 0) by (intros E; apply Hsin; rewrite E; apply sin_0).
  assert (Hcp : 0 <= cos psi) by (apply cos_ge_0; lra).
  pose proof (COS_bound u) as CB. pose proof (COS_bound psi) as CB'.
  assert (Hcos1 : cos psi < 1).
  { destruct CB' as [_ [L|L]]; auto. exfalso. apply Hsin.
    pose proof (sin2_cos2 psi) as E. unfold Rsqr in E. rewrite L in E. nra. }
  assert (Hb2 : sin psi * b = 1 - cos psi).
  { unfold psi. rewrite sin_half, cos_half. field. nra. }
  assert (Hcu : cos psi <= cos u /\ (- 1 <= sin u / sin psi <= 1)).
  { destruct (Rle_dec 0 psi) as [Hp|Hp].
    - assert (Hu : - psi <= u <= psi) by (unfold u; nra).
      assert (Sp : 0 < sin psi) by (apply sin_gt_0; lra).
      assert (S1 : sin u <= sin psi) by (apply sin_incr_1; lra).
      assert (S2 : sin (- psi) <= sin u) by (apply sin_incr_1; lra). rewrite sin_neg in S2.
      split.
      + destruct (Rle_dec 0 u).
        * apply cos_decr_1; lra.
        * rewrite <- (cos_neg u). apply cos_decr_1; lra.
      + split.
        * apply Rmult_le_reg_r with (sin psi); auto. unfold Rdiv. rewrite Rmult_assoc, Rinv_l; lra.
        * apply Rmult_le_reg_r with (sin psi); auto. unfold Rdiv. rewrite Rmult_assoc, Rinv_l; lra.
    - assert (Hu : psi <= u <= - psi) by (unfold u; nra).
      assert (Sp : 0 < sin (- psi)) by (apply sin_gt_0; lra).
      assert (S1 : sin u <= sin (- psi)) by (apply sin_incr_1; lra).
      assert (S2 : sin psi <= sin u) by (apply sin_incr_1; lra).
      rewrite sin_neg in *.
      split.
      + rewrite <- (cos_neg psi). destruct (Rle_dec 0 u).
        * apply cos_decr_1; lra.
        * rewrite <- (cos_neg u). apply cos_decr_1; lra.
      + assert (E : sin u / sin psi = - (sin u / - sin psi)) by (field; lra). rewrite E.
        assert (Q : -1 <= sin u / - sin psi <= 1); [|lra].
        split; apply Rmult_le_reg_r with (- sin psi); auto;
          unfold Rdiv; rewrite Rmult_assoc, Rinv_l; lra. }
  destruct Hcu as [Hcu Hsu]. split.
  - replace (sin u / (2 * sin psi)) with (sin u / sin psi / 2) by (field; auto). lra.
  - exists ((cos u - cos psi) / (1 - cos psi)). split.
    + split; [apply Rmult_le_pos; [lra|apply Rlt_le, Rinv_0_lt_compat; lra]|].
      apply Rmult_le_reg_r with (1 - cos psi); [lra|]. unfold Rdiv. rewrite Rmult_assoc, Rinv_l; lra.
    + assert (Eb : b = (1 - cos psi) / sin psi) by (field_simplify_eq; [lra|auto]).
      clearbody u. clearbody psi. rewrite Eb.
      field. split; lra.
Qed.

Lemma between_lerp (a b t lo hi : R) : 0 <= t <= 1 -> lo <= a <= hi -> lo <= b <= hi ->
  lo <= a + t * (b - a) <= hi.
Proof. intros. nra. Qed.

Lemma ordered_pair (a b : R) : exists lo hi : R,
  (if Rltb a b then (a, b) else (b, a)) = (lo, hi) /\ lo <= a <= hi /\ lo <= b <= hi.
Proof. destruct (Rltb a b) eqn:E; rbool; do 2 eexists; (split; [reflexivity|lra]). Qed.

Theorem C15_bounding_box (v1 v2 : vertex) (q : vec) :
  Rabs (bulge v1) <= 1 -> onSeg v1 v2 q -> inBox (createFastApproxBoundingBox v1 v2) q.
Proof.
  intros Hb (t & Ht & Hq). unfold createFastApproxBoundingBox, px, py. rcbn.
  set (x1 := vx (pos v1)) in *. set (x2 := vx (pos v2)) in *.
  set (y1 := vy (pos v1)) in *. set (y2 := vy (pos v2)) in *.
  pose proof (ordered_pair x1 x2) as Hex. pose proof (ordered_pair y1 y2) as Hey.
  destruct Hex as (exMin & exMax & -> & E1 & E2). destruct Hey as (eyMin & eyMax & -> & E3 & E4).
  destruct (bulgeIsZero v1) eqn:Ez.
  - apply bulgeIsZero_R in Ez. apply (segPoint_line _ _ _ _ Ez) in Hq. subst q.
    unfold inBox, lerp. rcbn. fold x1 x2 y1 y2. split; apply between_lerp; auto.
  - apply bulgeIsZero_false in Ez. pose proof (notLine_ne _ Ez) as Hne.
    apply (segPoint_arc _ _ _ _ Ez) in Hq. rewrite arc_frame in Hq by auto. rcbn. fold x1 x2 y1 y2 in Hq.
    destruct (arc_in_rectangle _ t Hne Hb Ht) as (A & be & Bb & B).
    rewrite B in Hq. set (al := sin _ / _) in *. clearbody al. clear B.
    set (b := bulge v1) in *.
    set (ox := b * (y2 - y1) / 2). set (oy := - b * (x2 - x1) / 2).
    pose proof (ordered_pair (x1 + ox) (x2 + ox)) as Hpx. pose proof (ordered_pair (y1 + oy) (y2 + oy)) as Hpy.
    destruct Hpx as (pxMin & pxMax & -> & P1 & P2). destruct Hpy as (pyMin & pyMax & -> & P3 & P4).
    unfold inBox. cbn [xMin xMax yMin yMax].
    pose proof (tmin_le exMin pxMin). pose proof (tmin_le eyMin pyMin).
    pose proof (tmax_ge exMax pxMax). pose proof (tmax_ge eyMax pyMax).
    set (l1 := tmin exMin pxMin) in *. set (l2 := tmin eyMin pyMin) in *.
    set (h1 := tmax exMax pxMax) in *. set (h2 := tmax eyMax pyMax) in *.
    subst q. cbn [vx vy]. split.
    + replace ((x1 + x2) / 2 + al * (x2 - x1) - - be * (b / 2) * (y2 - y1))
        with (let m := x1 + (1 / 2 + al) * (x2 - x1) in m + be * (m + ox - m)) by (cbv zeta; unfold ox; field).
      cbv zeta. apply between_lerp; auto.
      * apply between_lerp; auto; lra.
      * replace (x1 + (1 / 2 + al) * (x2 - x1) + ox) with (x1 + ox + (1 / 2 + al) * (x2 + ox - (x1 + ox))) by ring.
        apply between_lerp; auto; lra.
    + replace ((y1 + y2) / 2 + al * (y2 - y1) + - be * (b / 2) * (x2 - x1))
        with (let m := y1 + (1 / 2 + al) * (y2 - y1) in m + be * (m + oy - m)) by (cbv zeta; unfold oy; field).
      cbv zeta. apply between_lerp; auto.
      * apply between_lerp; auto; lra.
      * replace (y1 + (1 / 2 + al) * (y2 - y1) + oy) with (y1 + oy + (1 / 2 + al) * (y2 + oy - (y1 + oy))) by ring.
        apply between_lerp; auto; lra.
Qed.

(** At the end points.  Within 1e-5 of the end the first part is the whole segment and the second is the
    end point alone; within 1e-5 of the start (or when the ends coincide) the first part is the split point
    alone and the second runs from it to the end with the bulge unchanged, so that it is the whole segment
    when the split point is the start itself. *)
Theorem C13_split_arc_at_end (v1 v2 : vertex) (p : vec) :
  ~ isLine v1 -> fuzzyEqual (pos v1) (pos v2) (1 / 100000) = false ->
  fuzzyEqual (pos v1) p (1 / 100000) = false -> fuzzyEqual (pos v2) p (1 / 100000) = true ->
  let r := splitAtPoint v1 v2 p in
  let u := updatedStart r in let w := splitVertex r in
  pos u = pos v1 /\ pos w = pos v2 /\
  (forall s q, segPoint u w s q <-> segPoint v1 v2 s q) /\
  (forall s q, segPoint w v2 s q <-> q = pos v2).
Proof.
  intros Hl F12 F1 F2 r u w.
  assert (Hz : bulgeIsZero v1 = false) by (apply not_true_iff_false; intros E; apply bulgeIsZero_R in E; auto).
  unfold u, w, r, splitAtPoint. rewrite Hz, !prec_R. rewrite F12, F1, F2.
  cbn [orb updatedStart splitVertex pos]. split; auto. split; auto.
  split; intros s q; [reflexivity|].
  rewrite segPoint_line by (unfold isLine; cbn [bulge]; rewrite t0_R, Rabs_R0; lra). cbn [pos].
  split; intros ->; unfold lerp; [|symmetry]; apply vec_eq; rcbn; rring.
Qed.

Theorem C13_split_arc_at_start (v1 v2 : vertex) (p : vec) :
  ~ isLine v1 -> fuzzyEqual (pos v1) p (1 / 100000) = true ->
  let r := splitAtPoint v1 v2 p in
  let u := updatedStart r in let w := splitVertex r in
  pos u = p /\ pos w = p /\ bulge w = bulge v1 /\
  (forall s q, segPoint u w s q <-> q = p) /\
  (p = pos v1 -> forall s q, segPoint w v2 s q <-> segPoint v1 v2 s q).
Proof.
  intros Hl F1 r u w.
  assert (Hz : bulgeIsZero v1 = false) by (apply not_true_iff_false; intros E; apply bulgeIsZero_R in E; auto).
  unfold u, w, r, splitAtPoint. rewrite Hz, !prec_R. rewrite F1, orb_true_r.
  cbn [updatedStart splitVertex pos bulge]. repeat (split; auto).
  - intros E. rewrite segPoint_line in E by (unfold isLine; cbn [bulge]; rewrite t0_R, Rabs_R0; lra). cbn [pos] in E.
    rewrite E. unfold lerp. apply vec_eq; rcbn; rring.
  - intros ->. rewrite segPoint_line by (unfold isLine; cbn [bulge]; rewrite t0_R, Rabs_R0; lra). cbn [pos].
    unfold lerp. apply vec_eq; rcbn; rring.
  - subst p. destruct v1. exact (fun H => H).
  - subst p. destruct v1. exact (fun H => H).
Qed.

(** ** Non-vacuity: an arc of radius 1/2 about the origin, split at its midpoint (3/10, 4/10). *)
Example C13_hypotheses_met :
  let v1 := mkVertex (1 / 2) 0 (1 / 2) in
  let v2 := mkVertex (- 7 / 50) (12 / 25) 0 in
  let p := mkV (3 / 10) (4 / 10) in
  ~ isLine v1 /\ Rabs (bulge v1) <= 1 /\ segPoint v1 v2 (1 / 2) p /\
  fuzzyEqual (pos v1) (pos v2) (1 / 100000) = false /\
  fuzzyEqual (pos v1) p (1 / 100000) = false /\ fuzzyEqual (pos v2) p (1 / 100000) = false.
Proof.
  intros v1 v2 p.
  assert (Hl : ~ isLine v1) by (unfold isLine, v1; cbn [bulge mkVertex]; rewrite Rabs_pos_eq; lra).
  split; [exact Hl|]. split; [unfold v1; cbn [bulge mkVertex]; rewrite Rabs_pos_eq; lra|].
  split.
  - apply segPoint_arc; auto. unfold v1, v2, p. cbn [bulge mkVertex pos].
    replace (1 / 2 * sweep (1 / 2)) with (2 * atan (1 / 2)) by (unfold sweep; lra).
    unfold rot, ctr, cK. rewrite cos_half, sin_half. apply vec_eq; cbn [vx vy]; lra.
  - unfold v1, v2, p. cbn [mkVertex pos].
    repeat split; apply not_true_iff_false; rewrite fuzzyEqual_R; cbn [vx vy];
    intros [F1 F2]; apply Rabs_lt_iff in F1; apply Rabs_lt_iff in F2; lra.
Qed.
