(** * C51: joining the offset segments (raw offset polyline) *)
From Coq Require Import ZArith Reals Lra Lia List Bool Arith Permutation.
From Verif Require Import Base Num MathUtils PlineSegment SpatialIndex Polyline Intersects Combine Offset RGeom Spec PropsMath ArcGeom Polar PropsSegment PropsClosest PropsIntr PropsPlineIntr PropsPolyline PropsCoincident PropsPlineIndex PropsSlices PropsRegion PropsPieces PropsOffsetSegs PropsOffsetSlices PropsRawOffset.
Import ListNotations.
Open Scope R_scope.

(** ** the connecting arc *)

(** the end [ep] is the start [sp] turned about [c] by [th], at most a half turn, counter clockwise exactly when [ccw] *)
Definition turnsTo (c sp ep : vec) (th : R) (ccw : bool) : Prop :=
  rot c th sp = ep /\ if ccw then 0 <= th <= PI else - PI < th <= 0.

Lemma tan_quarter_bound th : - PI <= th <= PI -> - (PI / 2) < th / 4 < PI / 2.
Proof. intros. pose proof PI_RGT_0. lra. Qed.

Lemma connection_bulge c sp ep th ccw : sp <> c -> turnsTo c sp ep th ccw -> bulgeForConnection c sp ep ccw = tan (th / 4).
Proof.
  intros Hne [<- Hth]. pose proof PI_RGT_0. unfold bulgeForConnection. rewrite delta_rot_eq; [|exact Hne|destruct ccw; lra]. rcbn.
  destruct ccw; [rewrite Rabs_right by lra; reflexivity|]. rewrite Rabs_left1 by lra. replace (- th / 4) with (- (th / 4)) by lra. rewrite tan_neg. ring.
Qed.

(** a round join is the arc about the corner: every point of it is the start turned about the corner by a part of the turn *)
Theorem C51_round_join (c sp ep : vec) (th : R) (ccw : bool) (b2 t : R) (q : vec) :
  sp <> c -> turnsTo c sp ep th ccw -> let v := mkVtx sp (bulgeForConnection c sp ep ccw) in
  ~ isLine v -> segPoint v (mkVtx ep b2) t q -> q = rot c (t * th) sp /\ dist c q = dist c sp.
Proof.
  intros Hne Ht v Hl H. pose proof (notLine_ne _ Hl) as Hb.
  assert (Eb : bulge v = tan (th / 4)) by (unfold v; cbn [bulge]; now apply connection_bulge).
  assert (Sw : sweep (bulge v) = th).
  { rewrite Eb. unfold sweep. rewrite atan_tan; [lra|]. apply tan_quarter_bound. destruct Ht as [_ Ht]. destruct ccw; lra. }
  apply segPoint_arc in H; [|exact Hl]. cbn [pos] in H.
  assert (Ec : c = ctr (pos v) ep (bulge v)).
  { apply ctr_unique; [exact Hb|]. unfold arcCentre. rewrite Sw. exact (proj1 Ht). }
  rewrite <- Ec, Sw in H. cbn [v pos] in H. subst q. split; [reflexivity|apply dist_rot].
Qed.

(** ** straight segments *)
Definition shift (p : vec) (x y : R) : vec := mkV (vx p + x) (vy p + y).

(** left unit normal of a -> b *)
Definition nrmX (a b : vec) : R := - (vy b - vy a) / dist a b.
Definition nrmY (a b : vec) : R := (vx b - vx a) / dist a b.

Lemma dist_pos' (a b : vec) : a <> b -> 0 < dist a b.
Proof. intros H. unfold dist. apply sqrt_lt_R0. assert (Hp := sumsq_pos _ _ (vec_ne a b H)). nra. Qed.

Lemma nrm_unit a b : a <> b -> nrmX a b * nrmX a b + nrmY a b * nrmY a b = 1.
Proof.
  intros H. pose proof (dist_pos' a b H) as Hp. pose proof (dist_sq a b) as E. unfold nrmX, nrmY.
  replace (- (vy b - vy a) / dist a b * (- (vy b - vy a) / dist a b) + (vx b - vx a) / dist a b * ((vx b - vx a) / dist a b))
    with (((vx a - vx b) * (vx a - vx b) + (vy a - vy b) * (vy a - vy b)) / (dist a b * dist a b)) by (field; lra).
  rewrite E. field. rewrite <- E. nra.
Qed.

Lemma offsetLine_R (v1 v2 : vertex) (d : R) : isLine v1 -> pos v1 <> pos v2 ->
  offsetSegment d v1 v2 = mkOS (mkVtx (shift (pos v1) (d * nrmX (pos v1) (pos v2)) (d * nrmY (pos v1) (pos v2))) (bulge v1))
    (mkVtx (shift (pos v2) (d * nrmX (pos v1) (pos v2)) (d * nrmY (pos v1) (pos v2))) (bulge v2)) (pos v2) false.
Proof.
  intros L Hne. unfold offsetSegment. rewrite (proj2 (bulgeIsZero_R v1) L). unfold offsetLine.
  pose proof (dist_pos' _ _ Hne) as Hp.
  assert (En : unitPerp (vsub (pos v2) (pos v1)) = mkV (nrmX (pos v1) (pos v2)) (nrmY (pos v1) (pos v2))).
  { unfold unitPerp, normalize, vdiv, vsub, dot. rcbn.
    assert (El : sqrt (- (vy (pos v2) - vy (pos v1)) * - (vy (pos v2) - vy (pos v1)) + (vx (pos v2) - vx (pos v1)) * (vx (pos v2) - vx (pos v1))) = dist (pos v1) (pos v2)) by (unfold dist; f_equal; ring).
    rewrite El. assert (Reqb (dist (pos v1) (pos v2)) 0 = false) as -> by (apply Reqb_false; lra). cbn [negb vx vy]. unfold nrmX, nrmY. apply vec_eq; cbn [vx vy]; rfield; lra. }
  rewrite En. unfold vadd, vscale, shift. rcbn.
  f_equal; f_equal; apply vec_eq; cbn [vx vy]; rring.
Qed.

Lemma shift_dist p x y : dist (shift p x y) p = sqrt (x * x + y * y).
Proof. unfold dist, shift. cbn [vx vy]. f_equal. ring. Qed.

Lemma shift_nrm_dist p a b d : a <> b -> dist (shift p (d * nrmX a b) (d * nrmY a b)) p = Rabs d.
Proof.
  intros H. rewrite shift_dist. pose proof (nrm_unit a b H) as E.
  replace (d * nrmX a b * (d * nrmX a b) + d * nrmY a b * (d * nrmY a b)) with (d * d * (nrmX a b * nrmX a b + nrmY a b * nrmY a b)) by ring.
  rewrite E, Rmult_1_r. rewrite <- (sqrt_Rsqr_abs d). reflexivity.
Qed.

(** the turn of the direction at the corner b of a -> b -> c *)
Definition turn (a b c : vec) : R := (vx b - vx a) * (vy c - vy b) - (vy b - vy a) * (vx c - vx b).

(** at an outside corner, where the offset segments have to be extended to meet, the end of the first one turns about the corner onto the start of
    the second one by less than a half turn in the direction of [ccw = d < 0] *)
Lemma outside_corner a b c d s t : a <> b -> b <> c -> turn a b c <> 0 -> 1 < s ->
  let v1 := shift a (d * nrmX a b) (d * nrmY a b) in let v2 := shift b (d * nrmX a b) (d * nrmY a b) in
  let u1 := shift b (d * nrmX b c) (d * nrmY b c) in let u2 := shift c (d * nrmX b c) (d * nrmY b c) in
  lerp v1 v2 s = lerp u1 u2 t ->
  v2 <> b /\ exists th, turnsTo b v2 u1 th (Rltb d 0) /\ 0 < Rabs th < PI /\ (0 < th <-> 0 < turn a b c) /\
    sin th = turn a b c / (dist a b * dist b c).
Proof.
  intros Hab Hbc HK Hs v1 v2 u1 u2 E.
  pose proof (dist_pos' a b Hab) as P1. pose proof (dist_pos' b c Hbc) as P2. pose proof (dist_sq a b) as Q1. pose proof (dist_sq b c) as Q2.
  pose proof (nrm_unit a b Hab) as U1. pose proof (nrm_unit b c Hbc) as U2.
  set (L1 := dist a b) in *. set (L2 := dist b c) in *.
  set (x1 := vx b - vx a). set (y1 := vy b - vy a). set (x2 := vx c - vx b). set (y2 := vy c - vy b).
  assert (Q1' : L1 * L1 = x1 * x1 + y1 * y1) by (rewrite Q1; unfold x1, y1; ring).
  assert (Q2' : L2 * L2 = x2 * x2 + y2 * y2) by (rewrite Q2; unfold x2, y2; ring).
  assert (EK : turn a b c = x1 * y2 - y1 * x2) by reflexivity.
  (* the cosine of the turn *)
  set (C := (x1 * x2 + y1 * y2) / (L1 * L2)). set (S := turn a b c / (L1 * L2)).
  assert (Hcs : C * C + S * S = 1).
  { unfold C, S. rewrite EK. replace ((x1 * x2 + y1 * y2) / (L1 * L2) * ((x1 * x2 + y1 * y2) / (L1 * L2)) + (x1 * y2 - y1 * x2) / (L1 * L2) * ((x1 * y2 - y1 * x2) / (L1 * L2)))
      with (((x1 * x1 + y1 * y1) * (x2 * x2 + y2 * y2)) / ((L1 * L1) * (L2 * L2))) by (field; lra).
    rewrite Q1', Q2'. field. rewrite <- Q1', <- Q2'. split; nra. }
  assert (HS : S <> 0). { unfold S. intros Z. apply HK. apply (Rmult_eq_reg_r (/ (L1 * L2))); [|apply Rinv_neq_0_compat; nra]. rewrite Rmult_0_l. exact Z. }
  assert (HC : C < 1) by nra.
  assert (Hcross : (s - 1) * turn a b c = - d * (L2 * (1 - C))).
  { unfold lerp, v1, v2, u1, u2, shift, nrmX, nrmY in E. fold L1 L2 in E. cbn [vx vy] in E. injection E as E1 E2. fold x1 y1 x2 y2 in E1, E2.
    unfold C. rewrite EK.
    replace (- d * (L2 * (1 - (x1 * x2 + y1 * y2) / (L1 * L2)))) with (- d * (L2 * L2 / L2 - (x1 * x2 + y1 * y2) / L1)) by (field; lra).
    rewrite Q2'.
    assert (E1' : (s - 1) * x1 = t * x2 + d * (- y2 / L2) - d * (- y1 / L1)) by (unfold x1, x2 in *; lra).
    assert (E2' : (s - 1) * y1 = t * y2 + d * (x2 / L2) - d * (x1 / L1)) by (unfold y1, y2 in *; lra).
    replace ((s - 1) * (x1 * y2 - y1 * x2)) with (((s - 1) * x1) * y2 - ((s - 1) * y1) * x2) by ring. rewrite E1', E2'. field. lra. }
  assert (Hsg : (0 < turn a b c <-> d < 0) /\ d <> 0).
  { assert (0 < L2 * (1 - C)) by (apply Rmult_lt_0_compat; lra). destruct (Rtotal_order d 0) as [Hd|[Hd|Hd]].
    - split; [|lra]. split; [auto|]. intros _. assert (0 < - d * (L2 * (1 - C))) by (apply Rmult_lt_0_compat; lra). nra.
    - exfalso. rewrite Hd, Ropp_0, Rmult_0_l in Hcross. apply Rmult_integral in Hcross. destruct Hcross; [lra|auto].
    - split; [|lra]. split; [|lra]. intros Ht. assert (0 < (s - 1) * turn a b c) by (apply Rmult_lt_0_compat; lra). assert (0 < d * (L2 * (1 - C))) by (apply Rmult_lt_0_compat; lra). lra. }
  destruct Hsg as [Hsg Hd0].
  assert (Nv : v2 <> b).
  { intros Z. assert (Z' : dist v2 b = 0) by (rewrite Z; unfold dist; replace ((vx b - vx b) ^ 2 + (vy b - vy b) ^ 2) with 0 by ring; apply sqrt_0).
    unfold v2 in Z'. rewrite shift_nrm_dist in Z' by auto. apply (Rabs_no_R0 d); auto. }
  split; [exact Nv|].
  (* an angle with that cosine and sine *)
  set (th := angle (mkV 0 0) (mkV C S)).
  assert (Nz : mkV C S <> mkV 0 0) by (intros Z; injection Z as _ Z; auto).
  destruct (angle_polar (mkV 0 0) (mkV C S) Nz) as (A1 & A2 & _). fold th in A1, A2. cbn [vx vy] in A1, A2.
  assert (D1 : dist (mkV 0 0) (mkV C S) = 1). { unfold dist. cbn [vx vy]. rewrite <- sqrt_1. f_equal. lra. }
  rewrite D1 in A1, A2. assert (Ec : cos th = C) by lra. assert (Es : sin th = S) by lra.
  pose proof (angle_bounds (mkV 0 0) (mkV C S)) as Bd. fold th in Bd.
  assert (Hth : (0 < th <-> 0 < S)).
  { split; intros H.
    - destruct (Rle_lt_or_eq_dec th PI (proj2 Bd)) as [l|e]; [rewrite <- Es; apply sin_gt_0; auto|]. exfalso. apply HS. rewrite <- Es, e. apply sin_PI.
    - apply Rnot_le_lt. intros N. assert (0 <= sin (- th)) by (apply sin_ge_0; lra). rewrite sin_neg in *. lra. }
  assert (HthP : th <> PI) by (intros Z; apply HS; rewrite <- Es, Z; apply sin_PI).
  assert (Hth0 : th <> 0) by (intros Z; apply HS; rewrite <- Es, Z; apply sin_0).
  assert (HSK : 0 < S <-> 0 < turn a b c).
  { unfold S. assert (0 < / (L1 * L2)) by (apply Rinv_0_lt_compat; nra). unfold Rdiv. split; intros; nra. }
  exists th. split.
  - split.
    + unfold rot, v2, u1, shift, nrmX, nrmY. fold L1 L2. rewrite Ec, Es. cbn [vx vy]. unfold C, S. rewrite EK. fold x1 y1 x2 y2.
      apply vec_eq; cbn [vx vy].
      * replace (vx b + (x1 * x2 + y1 * y2) / (L1 * L2) * (vx b + d * (- y1 / L1) - vx b) - (x1 * y2 - y1 * x2) / (L1 * L2) * (vy b + d * (x1 / L1) - vy b))
          with (vx b + d * (- y2 * (x1 * x1 + y1 * y1) / (L1 * L1) / L2)) by (field; lra). rewrite <- Q1'. rfield. lra.
      * replace (vy b + (x1 * y2 - y1 * x2) / (L1 * L2) * (vx b + d * (- y1 / L1) - vx b) + (x1 * x2 + y1 * y2) / (L1 * L2) * (vy b + d * (x1 / L1) - vy b))
          with (vy b + d * (x2 * (x1 * x1 + y1 * y1) / (L1 * L1) / L2)) by (field; lra). rewrite <- Q1'. rfield. lra.
    + destruct (Rltb d 0) eqn:Ed; rbool.
      * assert (0 < th) by tauto. lra.
      * assert (~ 0 < th) by (intros H; apply Hth, HSK, Hsg in H; lra). lra.
  - split; [split; [apply Rabs_pos_lt; auto|apply Rabs_def1; lra]|]. split; [tauto|exact Es].
Qed.

(** ** neighbourhoods *)

(** [p] is within [r] of the segment a -> b *)
Definition nearSeg (r : R) (a b p : vec) : Prop := exists s, 0 <= s <= 1 /\ dist p (lerp a b s) <= r.

Lemma nearSeg_le r r' a b p : r <= r' -> nearSeg r a b p -> nearSeg r' a b p.
Proof. intros H (s & Hs & Hd). exists s. split; [auto|lra]. Qed.

Lemma nearSeg_move r x a b p p' : dist p' p <= x -> nearSeg r a b p -> nearSeg (r + x) a b p'.
Proof. intros H (s & Hs & Hd). exists s. split; [auto|]. pose proof (dist_triangle p' p (lerp a b s)). lra. Qed.

Lemma dist_norm p q : dist p q = sqrt ((vx p - vx q) * (vx p - vx q) + (vy p - vy q) * (vy p - vy q)).
Proof. unfold dist. f_equal. ring. Qed.

Lemma dist_scaled p q p' q' k : 0 <= k -> vx p' - vx q' = k * (vx p - vx q) -> vy p' - vy q' = k * (vy p - vy q) -> dist p' q' = k * dist p q.
Proof.
  intros Hk E1 E2. apply dist_eq; [apply Rmult_le_pos; [auto|apply PropsClosest.dist_nonneg]|]. rewrite E1, E2.
  replace (k * dist p q * (k * dist p q)) with (k * k * (dist p q * dist p q)) by ring. rewrite dist_sq. ring.
Qed.

(** distances to points moving along segments are bounded by the weighted distances of the end points *)
Lemma dist_lerp p q x y s : 0 <= s <= 1 -> dist (lerp p q s) (lerp x y s) <= (1 - s) * dist p x + s * dist q y.
Proof.
  intros Hs. pose proof (dist_triangle (lerp p q s) (lerp x q s) (lerp x y s)) as T.
  rewrite (dist_scaled p x (lerp p q s) (lerp x q s) (1 - s)) in T; [|lra|unfold lerp; cbn [vx vy]; ring|unfold lerp; cbn [vx vy]; ring].
  rewrite (dist_scaled q y (lerp x q s) (lerp x y s) s) in T; [|lra|unfold lerp; cbn [vx vy]; ring|unfold lerp; cbn [vx vy]; ring]. exact T.
Qed.

Lemma lerp_lerp a b s1 s2 t : lerp (lerp a b s1) (lerp a b s2) t = lerp a b (s1 + t * (s2 - s1)).
Proof. unfold lerp. apply vec_eq; cbn [vx vy]; rring. Qed.

Lemma nearSeg_convex r a b p q t : 0 <= t <= 1 -> nearSeg r a b p -> nearSeg r a b q -> nearSeg r a b (lerp p q t).
Proof.
  intros Ht (s1 & H1 & D1) (s2 & H2 & D2). exists (s1 + t * (s2 - s1)). split; [nra|].
  rewrite <- lerp_lerp. pose proof (dist_lerp p q (lerp a b s1) (lerp a b s2) t Ht). nra.
Qed.

(** ** moving the ends of an arc *)
Lemma arc_end_dist b t : b <> 0 -> Rabs b <= 1 -> 0 <= t <= 1 ->
  let psi := 2 * atan b in let u := (2 * t - 1) * psi in
  let al := sin u / (2 * sin psi) in let be := (cos psi - cos u) / (2 * sin psi) in
  (1 / 2 + al) * (1 / 2 + al) + be * be <= 1 /\ (1 / 2 - al) * (1 / 2 - al) + be * be <= 1.
Proof.
  intros Hb Hb1 Ht psi u al be.
  assert (Hs : sin psi <> 0) by now apply sin_half_ne.
  assert (Hpsi : - (PI / 2) <= psi <= PI / 2). { pose proof (sweep_le_pi b Hb1). unfold sweep in *. unfold psi. lra. }
  assert (G : forall w, w = 1 \/ w = -1 -> (1 / 2 + w * al) * (1 / 2 + w * al) + be * be <= 1).
  2: { split; [pose proof (G 1 ltac:(lra)); nra|pose proof (G (-1) ltac:(lra)); nra]. }
  intros w Hw.
  assert (E : (1 / 2 + w * al) * (1 / 2 + w * al) + be * be = (1 - cos (psi + w * u)) / (2 * (sin psi * sin psi))).
  { unfold al, be. pose proof (sin2_cos2 psi) as E1. pose proof (sin2_cos2 u) as E2. unfold Rsqr in *.
    assert (Ew : cos (psi + w * u) = cos psi * cos u - w * (sin psi * sin u)). { destruct Hw as [->| ->]; [rewrite Rmult_1_l, cos_plus; ring|]. replace (psi + -1 * u) with (psi - u) by ring. rewrite cos_minus. ring. }
    assert (W2 : w * w = 1) by (destruct Hw as [->| ->]; ring).
    rewrite Ew. apply (Rmult_eq_reg_r (4 * (sin psi * sin psi))); [|nra].
    replace (((1 / 2 + w * (sin u / (2 * sin psi))) * (1 / 2 + w * (sin u / (2 * sin psi))) + (cos psi - cos u) / (2 * sin psi) * ((cos psi - cos u) / (2 * sin psi))) * (4 * (sin psi * sin psi)))
      with (sin psi * sin psi + 2 * w * sin u * sin psi + (w * w) * (sin u * sin u) + (cos psi - cos u) * (cos psi - cos u)) by (field; auto).
    replace ((1 - (cos psi * cos u - w * (sin psi * sin u))) / (2 * (sin psi * sin psi)) * (4 * (sin psi * sin psi))) with (2 * (1 - (cos psi * cos u - w * (sin psi * sin u)))) by (field; auto).
    rewrite W2. nra. }
  rewrite E. assert (S2 : 0 < 2 * (sin psi * sin psi)) by nra.
  apply (Rmult_le_reg_r (2 * (sin psi * sin psi))); [auto|]. unfold Rdiv. rewrite Rmult_assoc, Rinv_l, Rmult_1_r, Rmult_1_l by lra.
  replace (2 * (sin psi * sin psi)) with (1 - cos (2 * psi)) by (rewrite cos_2a_sin; ring).
  apply Rplus_le_compat_l, Ropp_le_contravar.
  (* cos (2 psi) <= cos (psi + w u) *)
  assert (Hx : exists x, 0 <= x <= 1 /\ psi + w * u = x * (2 * psi)). { exists ((1 + w * (2 * t - 1)) / 2). split; [destruct Hw as [->| ->]; lra|unfold u; destruct Hw as [->| ->]; lra]. }
  destruct Hx as (x & Hx & ->).
  destruct (Rle_lt_dec 0 psi) as [P|P].
  - apply cos_decr_1; try nra; pose proof PI_RGT_0; nra.
  - rewrite <- (cos_neg (2 * psi)), <- (cos_neg (x * (2 * psi))). apply cos_decr_1; try nra; pose proof PI_RGT_0; nra.
Qed.

Lemma cmul_dist k l x y : k * k + l * l <= 1 -> sqrt ((k * x - l * y) * (k * x - l * y) + (l * x + k * y) * (l * x + k * y)) <= sqrt (x * x + y * y).
Proof.
  intros H. apply sqrt_le_1_alt. replace ((k * x - l * y) * (k * x - l * y) + (l * x + k * y) * (l * x + k * y)) with ((k * k + l * l) * (x * x + y * y)) by ring.
  pose proof (sumsq_nonneg x y). nra.
Qed.

(** moving the ends of an arc of at most a half circle, keeping its bulge, moves no point further than the two ends together *)
Lemma arc_moved p1 p2 p1' p2' b t : b <> 0 -> Rabs b <= 1 -> 0 <= t <= 1 ->
  dist (rot (ctr p1' p2' b) (t * sweep b) p1') (rot (ctr p1 p2 b) (t * sweep b) p1) <= dist p1' p1 + dist p2' p2.
Proof.
  intros Hb Hb1 Ht. pose proof (arc_end_dist b t Hb Hb1 Ht) as [B1 B2].
  rewrite !arc_frame by auto. set (psi := 2 * atan b) in *. set (u := (2 * t - 1) * psi) in *.
  set (al := sin u / (2 * sin psi)) in *. set (be := (cos psi - cos u) / (2 * sin psi)) in *. cbv zeta in B1, B2.
  fold psi in B1, B2. fold u in B1, B2. fold al be in B1, B2.
  set (A := fun p q : vec => mkV ((vx p + vx q) / 2 + al * (vx q - vx p) - be * (vy q - vy p)) ((vy p + vy q) / 2 + al * (vy q - vy p) + be * (vx q - vx p))).
  change (dist (A p1' p2') (A p1 p2) <= dist p1' p1 + dist p2' p2).
  pose proof (dist_triangle (A p1' p2') (A p1 p2') (A p1 p2)) as T.
  assert (T1 : dist (A p1' p2') (A p1 p2') <= dist p1' p1).
  { rewrite !dist_norm. eapply Rle_trans; [|apply (cmul_dist (1 / 2 - al) (- be)); lra]. right. f_equal. unfold A. cbn [vx vy]. rfield. }
  assert (T2 : dist (A p1 p2') (A p1 p2) <= dist p2' p2).
  { rewrite !dist_norm. eapply Rle_trans; [|apply (cmul_dist (1 / 2 + al) be); lra]. right. f_equal. unfold A. cbn [vx vy]. rfield. }
  lra.
Qed.

(** ** the joins of straight segments *)

(** corners a -> b -> c handled: a clear turn, straight on, or a clear reversal *)
Definition corner (d : R) (a b c : vec) : Prop :=
  1 / 100000000 < Rabs (turn a b c) \/
  (exists k, c = shift b (k * (vx b - vx a)) (k * (vy b - vy a)) /\ (0 < k \/ k < 0 /\ 1 / 100000000 < 2 * Rabs d * dist a b)).

Definition tau : R := 15 / 1000000.

(** connecting vertex at the end of the first offset segment: straight, or an arc of at most a half circle about the corner *)
Definition connector (d : R) (b sp ep : vec) (v : vertex) : Prop :=
  pos v = sp /\ (isLine v \/ (~ isLine v /\ Rabs (bulge v) <= 1 /\ forall t, dist (rot (ctr sp ep (bulge v)) (t * sweep (bulge v)) sp) b = Rabs d)).

Lemma lerp_near a b x y t M : inRange t -> dist a b <= M -> forall d, sqrt (x * x + y * y) = Rabs d ->
  nearSeg (Rabs d + 1 / 100000000 * M) a b (lerp (shift a x y) (shift b x y) t).
Proof.
  intros Ht HM d Hd. unfold inRange, eps in Ht. pose proof (PropsClosest.dist_nonneg a b) as N.
  assert (El : lerp (shift a x y) (shift b x y) t = shift (lerp a b t) x y) by (unfold lerp, shift; apply vec_eq; cbn [vx vy]; rring).
  rewrite El. set (s := if Rle_dec t 0 then 0 else if Rle_dec 1 t then 1 else t).
  assert (Hs : 0 <= s <= 1) by (unfold s; destruct (Rle_dec t 0); [lra|]; destruct (Rle_dec 1 t); lra).
  assert (Hts : Rabs (t - s) <= 1 / 100000000). { unfold s. destruct (Rle_dec t 0); [rewrite Rabs_left1; lra|]. destruct (Rle_dec 1 t); [rewrite Rabs_right; lra|]. replace (t - t) with 0 by lra. rewrite Rabs_R0. lra. }
  exists s. split; [auto|]. eapply Rle_trans; [apply (dist_triangle _ (lerp a b t))|]. rewrite shift_dist, Hd. apply Rplus_le_compat_l.
  assert (E : dist (lerp a b t) (lerp a b s) = Rabs (t - s) * dist a b).
  { apply dist_eq; [apply Rmult_le_pos; [apply Rabs_pos|auto]|]. replace (Rabs (t - s) * dist a b * (Rabs (t - s) * dist a b)) with ((Rabs (t - s) * Rabs (t - s)) * (dist a b * dist a b)) by ring.
    rewrite dist_sq, <- Rabs_mult, Rabs_pos_eq by apply sq_nonneg. unfold lerp. cbn [vx vy]. ring. }
  rewrite E. apply Rmult_le_compat; auto. apply Rabs_pos.
Qed.

Lemma far_ne (a b : vec) : far a b -> a <> b.
Proof. intros [H|H] ->; replace (_ - _) with 0 in H by (cbn; ring); rewrite Rabs_R0 in H; lra. Qed.

Lemma far_fuzzy a b x y : far a b -> fuzzyEqual (shift a x y) (shift b x y) eps = false.
Proof.
  intros H. destruct (fuzzyEqual _ _ _) eqn:E; [|reflexivity]. apply fuzzyEqual_R in E. exfalso. unfold shift, eps in E. cbn [vx vy] in E.
  replace (vx a + x - (vx b + x)) with (vx a - vx b) in E by ring. replace (vy a + y - (vy b + y)) with (vy a - vy b) in E by ring. destruct H; lra.
Qed.

(** what the join of two straight offset segments does *)
Lemma line_join (d M : R) (A B C : vertex) r : isLine A -> isLine B -> let a := pos A in let b := pos B in let c := pos C in
  far a b -> far b c -> dist a b <= M -> dist b c <= M -> corner d a b c ->
  let s1 := offsetSegment d A B in let s2 := offsetSegment d B C in
  exists r', joinSegs (Rltb d 0) s1 s2 r = Ok r' /\
  ((exists v, r' = addOrReplaceIfSamePos r v /\ isLine v /\ nearSeg (Rabs d + 1 / 100000000 * M) a b (pos v) /\ nearSeg (Rabs d + 1 / 100000000 * M) b c (pos v) /\
      (pos v = pos (osV2 s1) \/ exists s t, inRange t /\ pos v = lerp (pos (osV1 s1)) (pos (osV2 s1)) s /\ pos v = lerp (pos (osV1 s2)) (pos (osV2 s2)) t)) \/
   (exists v u, r' = addOrReplaceIfSamePos (addOrReplaceIfSamePos r v) u /\ connector d b (pos (osV2 s1)) (pos (osV1 s2)) v /\ pos u = pos (osV1 s2) /\ isLine u)).
Proof.
  intros LA LB a b c Fab Fbc Mab Mbc Hc s1 s2.
  assert (Nab : a <> b) by now apply far_ne. assert (Nbc : b <> c) by now apply far_ne.
  assert (E1 := offsetLine_R A B d LA Nab). assert (E2 := offsetLine_R B C d LB Nbc). fold s1 in E1. fold s2 in E2. fold a b in E1. fold b c in E2.
  set (x1 := d * nrmX a b) in *. set (y1 := d * nrmY a b) in *. set (x2 := d * nrmX b c) in *. set (y2 := d * nrmY b c) in *.
  assert (N1 : sqrt (x1 * x1 + y1 * y1) = Rabs d) by (rewrite <- (shift_dist b); now apply shift_nrm_dist).
  assert (N2 : sqrt (x2 * x2 + y2 * y2) = Rabs d) by (rewrite <- (shift_dist b); now apply shift_nrm_dist).
  assert (L0 : forall p, isLine (mkVtx p 0)) by (intros p0; unfold isLine; cbn [bulge]; rewrite Rabs_R0; lra).
  assert (L1 : forall p, isLine (mkVtx p t0)) by (intros p0; unfold isLine; rcbn; rewrite Rabs_R0; lra).
  eexists. split.
  { unfold joinSegs. rewrite E1, E2. cbn [osV1 osV2 bulge]. unfold bulgeIsZero. cbn [bulge]. fold (bulgeIsZero A) (bulgeIsZero B). rewrite (proj2 (bulgeIsZero_R A) LA), (proj2 (bulgeIsZero_R B) LB). cbn [andb]. reflexivity. }
  unfold lineToLineJoin, connectUsingArc. cbn [osV1 osV2 collapsedArc origV2Pos pos orb].
  rewrite E1, E2. cbn [osV1 osV2 collapsedArc origV2Pos pos orb].
  assert (Byline : exists v u, addOrReplaceIfSamePos (addOrReplaceIfSamePos r (mkVtx (shift b x1 y1) t0)) (mkVtx (shift b x2 y2) (bulge B)) = addOrReplaceIfSamePos (addOrReplaceIfSamePos r v) u /\ connector d b (shift b x1 y1) (shift b x2 y2) v /\ pos u = shift b x2 y2 /\ isLine u).
  { do 2 eexists. split; [reflexivity|]. split; [split; [reflexivity|left; apply L1]|]. split; [reflexivity|exact LB]. }
  destruct (intrLineSeg2LineSeg2 (shift a x1 y1) (shift b x1 y1) (shift b x2 y2) (shift c x2 y2)) as [|p|ra rb|ra rb p] eqn:El.
  - right. exact Byline.
  - left. exists (mkVtx p t0). split; [reflexivity|]. split; [apply L1|]. cbn [pos].
    destruct Hc as [Hc|(k & Ek & Hk)].
    + assert (Hx : eps < Rabs (cross (shift a x1 y1) (shift b x1 y1) (shift b x2 y2) (shift c x2 y2))).
      { unfold cross, eps, shift. cbn [vx vy]. unfold turn in Hc. match goal with |- _ < Rabs ?z => replace z with ((vx b - vx a) * (vy c - vy b) - (vy b - vy a) * (vx c - vx b)) by ring end. exact Hc. }
      destruct (C17_transversal _ _ _ _ Hx) as (s & t & q & Es & Et & _ & HT & HF).
      assert (inRange s /\ inRange t) as [Is It].
      { destruct (Rlt_dec (s + eps) 0); [|destruct (Rlt_dec (1 + eps) s); [|destruct (Rlt_dec (t + eps) 0); [|destruct (Rlt_dec (1 + eps) t)]]].
        5: { unfold inRange. lra. }
        all: exfalso; rewrite HF in El; [discriminate|unfold inRange; lra]. }
      rewrite (HT (conj Is It)) in El. injection El as <-. split; [rewrite <- Es; now apply lerp_near|]. split; [rewrite <- Et; now apply lerp_near|]. right. exists s, t. auto.
    + destruct Hk as [Hk|[Hk Hbig]].
      * (* straight on: the second segment continues the first *)
        assert (En : x2 = x1 /\ y2 = y1).
        { assert (Dk : dist b c = k * dist a b) by (apply dist_scaled; [lra|rewrite Ek; unfold shift; cbn [vx vy]; ring|rewrite Ek; unfold shift; cbn [vx vy]; ring]).
          pose proof (dist_pos' a b Nab). unfold x2, y2, x1, y1, nrmX, nrmY. rewrite Dk, Ek. unfold shift. cbn [vx vy]. split; rfield; lra. }
        destruct En as [-> ->].
        pose proof (C17_collinear (shift a x1 y1) (shift b x1 y1) (shift b x1 y1) (shift c x1 y1) (- (1 / k)) 0) as Hcol.
        rewrite El in Hcol. destruct Hcol as (t & Ep & It & _ & Hu).
        { rewrite Ek. unfold lerp, shift. cbn [vx vy]. apply vec_eq; cbn [vx vy]; rfield; lra. }
        { unfold lerp, shift. apply vec_eq; cbn [vx vy]; rring. }
        { now apply far_fuzzy. }
        { now apply far_fuzzy. }
        assert (Hk0 : - (1 / k) <= 0) by (assert (0 < 1 / k) by (apply Rdiv_lt_0_compat; lra); lra).
        specialize (Hu 0). rewrite Rmin_left, Rmax_right in Hu by lra. specialize (Hu ltac:(lra)).
        split; [|split; [rewrite Ep; now apply lerp_near|]].
        2: { right. exists (1 + k * t), t. split; [auto|]. split; [|exact Ep]. rewrite Ep, Ek. unfold lerp, shift. apply vec_eq; cbn [vx vy]; rring. }
        assert (Nb : nearSeg (Rabs d + 1 / 100000000 * M) b c p) by (rewrite Ep; now apply lerp_near).
        exists 1. split; [lra|]. assert (lerp a b 1 = b) as -> by (unfold lerp; apply vec_eq; cbn [vx vy]; rring).
        assert (Es : lerp (shift b x1 y1) (shift c x1 y1) t = shift (lerp b c t) x1 y1) by (unfold lerp, shift; apply vec_eq; cbn [vx vy]; rring).
        rewrite Ep, Es. eapply Rle_trans; [apply (dist_triangle _ (lerp b c t))|]. rewrite shift_dist, N1. apply Rplus_le_compat_l.
        assert (E : dist (lerp b c t) b = Rabs t * dist b c).
        { apply dist_eq; [apply Rmult_le_pos; [apply Rabs_pos|apply PropsClosest.dist_nonneg]|]. replace (Rabs t * dist b c * (Rabs t * dist b c)) with ((Rabs t * Rabs t) * (dist b c * dist b c)) by ring.
          rewrite dist_sq, <- Rabs_mult, Rabs_pos_eq by apply sq_nonneg. unfold lerp. cbn [vx vy]. ring. }
        rewrite E. apply Rmult_le_compat; auto; [apply Rabs_pos|apply PropsClosest.dist_nonneg|]. unfold eps in Hu. rewrite Rabs_left1; lra.
      * (* reversal: the offset segments are parallel and apart *)
        exfalso. assert (Dk : dist b c = - k * dist a b) by (rewrite (dist_sym a b); apply dist_scaled; [lra|rewrite Ek; unfold shift; cbn [vx vy]; ring|rewrite Ek; unfold shift; cbn [vx vy]; ring]).
        pose proof (dist_pos' a b Nab) as Pab.
        assert (En : x2 = - x1 /\ y2 = - y1).
        { unfold x2, y2, x1, y1, nrmX, nrmY. rewrite Dk, Ek. unfold shift. cbn [vx vy]. split; rfield; lra. }
        destruct En as [Ex Ey]. rewrite Ex, Ey in El. unfold intrLineSeg2LineSeg2, perpDot, vsub in El. rcbn.
        rewrite Ek in El. unfold shift in El. cbn [vx vy] in El.
        match type of El with (if Rltb ?th (Rabs ?z) then _ else _) = _ => assert (Rltb th (Rabs z) = false) as Ef by (apply Rltb_false; replace z with 0 by ring; rewrite Rabs_R0; lra) end.
        rewrite Ef in El.
        match type of El with (if ?x || _ then _ else _) = _ => assert (x = true) as Eb end.
        { apply Rltb_spec. match goal with |- _ < Rabs ?z => replace z with (2 * d * ((dist a b * dist a b) / dist a b)) end.
          - replace (2 * d * (dist a b * dist a b / dist a b)) with (2 * d * dist a b) by (field; lra). rewrite !Rabs_mult, (Rabs_right 2), (Rabs_right (dist a b)) by lra. lra.
          - rewrite dist_sq. unfold x1, y1, nrmX, nrmY. field. lra. }
        rewrite Eb in El. discriminate.
  - left. exists (mkVtx (shift b x1 y1) t0). split; [reflexivity|]. split; [apply L1|]. cbn [pos].
    assert (Hd : dist (shift b x1 y1) b <= Rabs d + 1 / 100000000 * M) by (rewrite shift_dist, N1; pose proof (PropsClosest.dist_nonneg a b); lra).
    split; [exists 1|split; [exists 0|left; reflexivity]]; (split; [lra|]).
    + assert (lerp a b 1 = b) as -> by (unfold lerp; apply vec_eq; cbn [vx vy]; rring). exact Hd.
    + assert (lerp b c 0 = b) as -> by (unfold lerp; apply vec_eq; cbn [vx vy]; rring). exact Hd.
  - destruct (_ && _) eqn:Eb; [|right; exact Byline]. right.
    do 2 eexists. split; [reflexivity|]. split; [|split; [reflexivity|apply L1]]. split; [reflexivity|].
    apply andb_true_iff in Eb. destruct Eb as [Er _].
    assert (Hx : eps < Rabs (cross (shift a x1 y1) (shift b x1 y1) (shift b x2 y2) (shift c x2 y2))).
    { apply Rnot_le_lt. intros N. revert El. unfold intrLineSeg2LineSeg2, perpDot, vsub. rcbn.
      match goal with |- (if Rltb ?th (Rabs ?z) then _ else _) = _ -> _ => assert (Rltb th (Rabs z) = false) as Ef by (apply Rltb_false; exact N) end. rewrite Ef.
      repeat match goal with |- context [if ?x then _ else _] => destruct x; try discriminate end. }
    destruct (C17_transversal _ _ _ _ Hx) as (s & t & q & Es & Et & _ & HT & HF).
    assert (ra = s) as ->.
    { destruct (Rlt_dec (s + eps) 0); [|destruct (Rlt_dec (1 + eps) s); [|destruct (Rlt_dec (t + eps) 0); [|destruct (Rlt_dec (1 + eps) t)]]].
      5: { rewrite HT in El; [discriminate|unfold inRange; lra]. }
      all: rewrite HF in El; [injection El; auto|unfold inRange; lra]. }
    rcbn. apply Rltb_spec in Er.
    assert (HK : turn a b c <> 0).
    { intros Z. revert Hx. unfold cross, eps, shift. cbn [vx vy]. unfold turn in Z. match goal with |- _ < Rabs ?z -> _ => replace z with ((vx b - vx a) * (vy c - vy b) - (vy b - vy a) * (vx c - vx b)) by ring end. rewrite Z, Rabs_R0. lra. }
    destruct (outside_corner a b c d s t Nab Nbc HK Er ltac:(fold x1 y1 x2 y2; congruence)) as (Nv & th & Ht & Hth & _). fold x1 y1 in Nv, Ht. fold x2 y2 in Ht.
    set (v := mkVtx (shift b x1 y1) (bulgeForConnection b (shift b x1 y1) (shift b x2 y2) (Rltb d 0))).
    destruct (Rlt_dec (Rabs (bulge v)) (1 / 100000)) as [Hl|Hl]; [left; exact Hl|right]. split; [exact Hl|].
    assert (Eb : bulge v = tan (th / 4)) by (unfold v; cbn [bulge]; now apply connection_bulge).
    split.
    + apply sweep_small. change (Rabs (sweep (bulge v)) <= PI). rewrite Eb. unfold sweep. rewrite atan_tan; [replace (4 * (th / 4)) with th by lra; lra|].
      destruct Hth as [_ Hth]. apply Rabs_def2 in Hth. pose proof PI_RGT_0. lra.
    + intros t'. destruct (C51_round_join b (shift b x1 y1) (shift b x2 y2) th (Rltb d 0) 0 t' (rot (ctr (shift b x1 y1) (shift b x2 y2) (bulge v)) (t' * sweep (bulge v)) (shift b x1 y1)) Nv Ht Hl) as [_ Hd].
      { apply segPoint_arc; [exact Hl|]. reflexivity. }
      rewrite dist_sym. etransitivity; [exact Hd|]. rewrite dist_sym, shift_dist. exact N1.
Qed.

(** ** the invariant of the raw offset polyline *)

(** consecutive vertices are related *)
Fixpoint chain (G : vertex -> vec -> Prop) (vs : list vertex) : Prop :=
  match vs with v :: ((w :: _) as t) => G v (pos w) /\ chain G t | _ => True end.

Lemma chain_cons G v w t : chain G (v :: w :: t) <-> G v (pos w) /\ chain G (w :: t).
Proof. reflexivity. Qed.

Lemma chain_app (G : vertex -> vec -> Prop) l w w' t : pos w = pos w' -> chain G (l ++ [w]) -> chain G (w' :: t) -> chain G (l ++ w' :: t).
Proof.
  intros E. induction l as [|x l IH]; intros H1 H2; [exact H2|]. destruct l as [|y l].
  - cbn [app] in *. rewrite chain_cons in *. rewrite <- E. tauto.
  - cbn [app] in *. rewrite chain_cons in *. split; [tauto|]. apply IH; tauto.
Qed.

Lemma chain_cut (G : vertex -> vec -> Prop) l w t : chain G (l ++ w :: t) -> chain G (l ++ [w]) /\ chain G (w :: t).
Proof.
  induction l as [|x l IH]; intros H; [split; [exact I|exact H]|]. destruct l as [|y l]; cbn [app] in *.
  - destruct H as [H1 H2]. split; [split; [auto|exact I]|auto].
  - destruct H as [H1 H2]. destruct (IH H2) as [H3 H4]. split; [split; auto|auto].
Qed.

Lemma chain_mono (G G' : vertex -> vec -> Prop) vs : (forall v x, G v x -> G' v x) -> chain G vs -> chain G' vs.
Proof. intros H. induction vs as [|v [|w t] IH]; [auto|auto|]. rewrite !chain_cons. intros [H1 H2]. split; auto. Qed.

(** [vs'] continues [vs], only the bulge of the last vertex of [vs] may have changed *)
Definition keeps (vs vs' : list vertex) : Prop := exists l w w' t, vs = l ++ [w] /\ vs' = l ++ w' :: t /\ pos w' = pos w.

Lemma keeps_trans a b c : keeps a b -> keeps b c -> keeps a c.
Proof.
  intros (l & w & w' & t & -> & Hb & E1) (l2 & y & y' & t2 & Hb2 & -> & E2). subst b.
  destruct (exists_last (l := w' :: t) ltac:(discriminate)) as (t' & z & Et). rewrite Et in Hb2. rewrite app_assoc in Hb2. apply app_inj_tail in Hb2. destruct Hb2 as [<- ->].
  destruct t' as [|w2 t'].
  - cbn [app] in Et. injection Et as -> ->. exists l, w, y', t2. rewrite app_nil_r. split; [auto|]. split; [auto|congruence].
  - cbn [app] in Et. injection Et as -> Et. exists l, w, w2, (t' ++ y' :: t2). split; [auto|]. split; [|auto]. rewrite <- app_assoc. reflexivity.
Qed.

Lemma tau_fuzzy (p q : vec) : fuzzyEqual p q realPrecision = true -> dist p q <= tau.
Proof.
  intros H. apply fuzzyEqual_R in H. rewrite prec_R in H. destruct H as [H1 H2]. unfold tau. apply dist_le_num; [lra|]. rewrite dist_sq.
  apply Rabs_def2 in H1, H2. nra.
Qed.

(** adding a vertex *)
Lemma add_step (G : vertex -> vec -> Prop) r v l w : vertexes r = l ++ [w] -> chain G (l ++ [w]) -> G w (pos v) ->
  exists l' w', vertexes (addOrReplaceIfSamePos r v) = l' ++ [w'] /\ chain G (l' ++ [w']) /\ bulge w' = bulge v /\ dist (pos w') (pos v) <= tau /\ keeps (l ++ [w]) (l' ++ [w']) /\
    ((l' = l ++ [w] /\ w' = v) \/ (l' = l /\ pos w' = pos w)).
Proof.
  intros E Hc HG. destruct (addOrReplace_cases r v) as [[E1|(l2 & w2 & E1 & Ef & E2)] _].
  { rewrite E. intros Z. apply app_eq_nil in Z. destruct Z; discriminate. }
  - exists (l ++ [w]), v. rewrite E1, E. split; [auto|]. split; [|split; [auto|split]].
    + rewrite <- app_assoc. cbn [app]. apply (chain_app G l w w); auto. split; [auto|exact I].
    + replace (dist (pos v) (pos v)) with 0; [unfold tau; lra|]. unfold dist. replace ((vx (pos v) - vx (pos v)) ^ 2 + (vy (pos v) - vy (pos v)) ^ 2) with 0 by ring. now rewrite sqrt_0.
    + split; [|left; auto]. exists l, w, w, [v]. rewrite <- app_assoc. auto.
  - rewrite E in E1. apply app_inj_tail in E1. destruct E1 as [<- <-]. exists l, (mkVtx (pos w) (bulge v)). split; [exact E2|]. cbn [bulge pos].
    split; [apply (chain_app G l w); [reflexivity|auto|exact I]|]. split; [auto|]. split; [now apply tau_fuzzy|]. split; [|right; auto]. exists l, w, (mkVtx (pos w) (bulge v)), []. auto.
Qed.

Section Inv.
Variables (d M : R) (es : list (vec * vec)).
Hypothesis M0 : 0 <= M.
Let r0 : R := Rabs d + tau + 1 / 100000000 * M.

(** every point of the raw segment is within [r] of a segment of the input, in a form stable under moving its ends *)
Definition goodPair (r : R) (v : vertex) (x : vec) : Prop :=
  (isLine v /\ exists a b, In (a, b) es /\ nearSeg r a b (pos v) /\ nearSeg r a b x) \/
  (~ isLine v /\ Rabs (bulge v) <= 1 /\ exists a b sp ep, In (a, b) es /\ dist (pos v) sp + dist x ep <= r - Rabs d /\
     forall t, dist (rot (ctr sp ep (bulge v)) (t * sweep (bulge v)) sp) b = Rabs d).

Lemma goodPair_move r k v x x' : 0 <= k -> dist x' x <= k -> goodPair r v x -> goodPair (r + k) v x'.
Proof.
  intros Hk Hd [(L & a & b & He & N1 & N2)|(L & Hb & a & b & sp & ep & He & Hs & Ha)].
  - left. split; [auto|]. exists a, b. split; [auto|]. split; [apply (nearSeg_le r); [lra|auto]|now apply (nearSeg_move r k a b x)].
  - right. split; [auto|]. split; [auto|]. exists a, b, sp, ep. split; [auto|]. split; [|auto]. pose proof (dist_triangle x' x ep). lra.
Qed.

Lemma goodPair_le r r' v x : r <= r' -> goodPair r v x -> goodPair r' v x.
Proof.
  intros H [(L & a & b & He & N1 & N2)|(L & Hb & a & b & sp & ep & He & Hs & Ha)].
  - left. split; [auto|]. exists a, b. split; [auto|]. split; now apply (nearSeg_le r).
  - right. split; [auto|]. split; [auto|]. exists a, b, sp, ep. split; [auto|]. split; [lra|auto].
Qed.

Lemma goodPair_points r v w t q : goodPair r v (pos w) -> 0 <= t <= 1 -> segPoint v w t q -> exists a b, In (a, b) es /\ nearSeg r a b q.
Proof.
  intros [(L & a & b & He & N1 & N2)|(L & Hb & a & b & sp & ep & He & Hs & Ha)] Ht H; exists a, b; (split; [auto|]).
  - apply segPoint_line in H; [|exact L]. subst q. now apply nearSeg_convex.
  - apply segPoint_arc in H; [|exact L]. pose proof (arc_moved sp ep (pos v) (pos w) (bulge v) t (notLine_ne _ L) Hb Ht) as Hm. rewrite <- H in Hm.
    exists 1. split; [lra|]. assert (lerp a b 1 = b) as -> by (unfold lerp; apply vec_eq; cbn [vx vy]; rring).
    pose proof (dist_triangle q (rot (ctr sp ep (bulge v)) (t * sweep (bulge v)) sp) b) as T. rewrite (Ha t) in T. lra.
Qed.

Lemma r0_ge : Rabs d + tau <= r0. Proof. unfold r0. lra. Qed.

Lemma near_end a b p x : dist p b <= x -> nearSeg x a b p.
Proof. intros H. exists 1. split; [lra|]. assert (lerp a b 1 = b) as -> by (unfold lerp; apply vec_eq; cbn [vx vy]; rring). exact H. Qed.

Lemma near_start a b p x : dist p a <= x -> nearSeg x a b p.
Proof. intros H. exists 0. split; [lra|]. assert (lerp a b 0 = a) as -> by (unfold lerp; apply vec_eq; cbn [vx vy]; rring). exact H. Qed.

(** one join *)
Lemma join_step A B C r l w r' : isLine A -> isLine B -> let a := pos A in let b := pos B in let c := pos C in
  far a b -> far b c -> dist a b <= M -> dist b c <= M -> corner d a b c -> In (a, b) es -> In (b, c) es ->
  vertexes r = l ++ [w] -> chain (goodPair r0) (l ++ [w]) -> isLine w -> nearSeg r0 a b (pos w) ->
  joinSegs (Rltb d 0) (offsetSegment d A B) (offsetSegment d B C) r = Ok r' ->
  exists l' w', vertexes r' = l' ++ [w'] /\ chain (goodPair r0) (l' ++ [w']) /\ isLine w' /\ nearSeg r0 b c (pos w') /\ keeps (l ++ [w]) (l' ++ [w']).
Proof.
  intros LA LB a b c Fab Fbc Mab Mbc Hc Iab Ibc Ev Hch Lw Nw Ej. pose proof r0_ge as Hr.
  assert (N1 : dist (pos (osV2 (offsetSegment d A B))) b = Rabs d) by (rewrite offsetLine_R by (auto; now apply far_ne); cbn [osV2 pos]; apply shift_nrm_dist; now apply far_ne).
  assert (N2 : dist (pos (osV1 (offsetSegment d B C))) b = Rabs d) by (rewrite offsetLine_R by (auto; now apply far_ne); cbn [osV1 pos]; apply shift_nrm_dist; now apply far_ne).
  assert (T0 : 0 <= tau) by (unfold tau; lra).
  destruct (line_join d M A B C r LA LB Fab Fbc Mab Mbc Hc) as (r2 & E2 & [(v & Hv & Lv & Nv1 & Nv2 & _)|(v & u & Hvu & (Ep & Hcon) & Eu & Lu)]);
    (assert (r2 = r') as -> by congruence).
  - destruct (add_step (goodPair r0) r v l w Ev Hch) as (l' & w' & E1 & C1 & B1 & D1 & K1 & _).
    { left. split; [auto|]. exists a, b. split; [auto|]. split; [auto|]. apply (nearSeg_le (Rabs d + 1 / 100000000 * M)); [unfold r0; lra|exact Nv1]. }
    exists l', w'. rewrite Hv. split; [auto|]. split; [auto|]. split; [unfold isLine; rewrite B1; exact Lv|]. split; [|auto].
    unfold r0. replace (Rabs d + tau + 1 / 100000000 * M) with ((Rabs d + 1 / 100000000 * M) + tau) by ring. now apply (nearSeg_move _ tau b c (pos v)).
  - destruct (add_step (goodPair r0) r v l w Ev Hch) as (l1 & w1 & E1 & C1 & B1 & D1 & K1 & _).
    { left. split; [auto|]. exists a, b. split; [auto|]. split; [auto|]. apply near_end. rewrite Ep, N1. lra. }
    destruct (add_step (goodPair r0) (addOrReplaceIfSamePos r v) u l1 w1 E1 C1) as (l' & w' & E3 & C3 & B3 & D3 & K3 & _).
    { destruct Hcon as [Lv|(Lv & Hb & Ha)].
      - left. split; [unfold isLine; rewrite B1; exact Lv|]. exists a, b. split; [auto|]. split; apply near_end; [|rewrite Eu, N2; lra].
        pose proof (dist_triangle (pos w1) (pos v) b) as T. rewrite Ep, N1 in T. rewrite <- Ep in T at 1. lra.
      - right. split; [unfold isLine; rewrite B1; exact Lv|]. rewrite B1. split; [exact Hb|]. exists a, b, (pos (osV2 (offsetSegment d A B))), (pos (osV1 (offsetSegment d B C))). split; [auto|]. split; [|exact Ha].
        rewrite <- Ep, <- Eu. replace (dist (pos u) (pos u)) with 0; [lra|]. unfold dist. replace ((vx (pos u) - vx (pos u)) ^ 2 + (vy (pos u) - vy (pos u)) ^ 2) with 0 by ring. now rewrite sqrt_0. }
    exists l', w'. rewrite Hvu. split; [auto|]. split; [auto|]. split; [unfold isLine; rewrite B3; exact Lu|]. split; [|now apply (keeps_trans _ (l1 ++ [w1]))].
    apply near_start. pose proof (dist_triangle (pos w') (pos u) b) as T. rewrite Eu, N2 in T. rewrite <- Eu in T. lra.
Qed.

Definition off (e : vertex * vertex) : offsetSeg := offsetSegment d (fst e) (snd e).

(** consecutive triples *)
Fixpoint triples (l : list vertex) : list (vertex * vertex * vertex) :=
  match l with a :: ((b :: c :: _) as t) => (a, b, c) :: triples t | _ => [] end.

Definition okSegs (l : list (vertex * vertex)) : Prop := forall A B, In (A, B) l -> isLine A /\ far (pos A) (pos B) /\ dist (pos A) (pos B) <= M /\ In (pos A, pos B) es.
Definition okCorners (l : list (vertex * vertex * vertex)) : Prop := forall A B C, In (A, B, C) l -> corner d (pos A) (pos B) (pos C).

Lemma joins_ok : forall ws A B r l w, okSegs (openSegs A (B :: ws)) -> okCorners (triples (A :: B :: ws)) ->
  vertexes r = l ++ [w] -> chain (goodPair r0) (l ++ [w]) -> isLine w -> nearSeg r0 (pos A) (pos B) (pos w) ->
  forall r', joinAll (Rltb d 0) (off (A, B)) (map off (openSegs B ws)) r = Ok r' ->
  exists l' w' A' B', vertexes r' = l' ++ [w'] /\ chain (goodPair r0) (l' ++ [w']) /\ isLine w' /\ keeps (l ++ [w]) (l' ++ [w']) /\
    last (openSegs A (B :: ws)) (A, B) = (A', B') /\ nearSeg r0 (pos A') (pos B') (pos w').
Proof.
  induction ws as [|C ws IH]; intros A B r l w Hs Hc Ev Hch Lw Nw r' E.
  - cbn [openSegs map joinAll] in E. injection E as <-. exists l, w, A, B. split; [auto|]. split; [auto|]. split; [auto|]. split; [exists l, w, w, []; auto|]. split; [reflexivity|auto].
  - cbn [openSegs map joinAll] in E. destruct (joinSegs (Rltb d 0) (off (A, B)) (off (B, C)) r) as [r1| |] eqn:Ej; [|discriminate|discriminate]. cbn [bind] in E.
    destruct (Hs A B (or_introl eq_refl)) as (LA & FAB & MAB & IAB). destruct (Hs B C (or_intror (or_introl eq_refl))) as (LB & FBC & MBC & IBC).
    destruct (join_step A B C r l w r1 LA LB FAB FBC MAB MBC (Hc A B C (or_introl eq_refl)) IAB IBC Ev Hch Lw Nw Ej) as (l1 & w1 & E1 & C1 & L1 & N1 & K1).
    destruct (IH B C r1 l1 w1) with (r' := r') as (l' & w' & A' & B' & E2 & C2 & L2 & K2 & El & N2); auto.
    { intros X Y H. apply Hs. right. exact H. }
    { intros X Y Z H. apply Hc. right. exact H. }
    exists l', w', A', B'. split; [auto|]. split; [auto|]. split; [auto|]. split; [now apply (keeps_trans _ (l1 ++ [w1]))|]. split; [|auto].
    rewrite <- El. cbn [openSegs]. cbn [last]. destruct (openSegs C ws) as [|e t]; [reflexivity|]. clear. revert e. induction t as [|f t IH]; intros e; [reflexivity|]. cbn [last] in *. apply IH.
Qed.

(** the closing join, when the first vertex was not replaced *)
Lemma closeRaw_R ccw sl sf r l lv cl m z h t : vertexes r = l ++ [lv] -> l <> [] -> joinSegs ccw sl sf (mkPline false [lv]) = Ok cl -> vertexes cl = m ++ [z] ->
  l ++ m = h :: t -> isLine h ->
  closeRaw ccw false sl sf r = Ok (mkPline (isClosed r) (match t with
    | x :: _ => if fuzzyEqual (pos z) (pos x) realPrecision then t else setPos h (pos z) :: t
    | [] => [setPos h (pos z)] end)).
Proof.
  intros Ev Hl Ej Ec Em Lh. unfold closeRaw.
  destruct (get_last r) as (l1 & w1 & E1 & El & Es); [rewrite Ev; intros Z; apply app_eq_nil in Z; destruct Z; discriminate|].
  rewrite Ev in E1. apply app_inj_tail in E1. destruct E1 as [<- <-]. rewrite El. cbn [bind]. rewrite Ej. cbn [bind].
  assert (Nc : vertexes cl <> []) by (rewrite Ec; intros Z; apply app_eq_nil in Z; destruct Z; discriminate).
  destruct (vertexes cl) as [|c0 ct] eqn:Ecl; [contradiction|]. rewrite (vget_at cl 0) by (rewrite Ecl; cbn; lia). cbn [bind].
  assert (at_ cl 0 = c0) as -> by (unfold at_; now rewrite Ecl). rewrite Es. cbn [bind isClosed vertexes tl].
  assert (Eapp : (l ++ [c0]) ++ ct = (h :: t) ++ [z]) by (rewrite <- Em, <- !app_assoc; cbn [app]; now rewrite Ec).
  rewrite Eapp. unfold popBack. cbn [vertexes isClosed]. rewrite rev_app_distr. cbn [rev app]. rewrite rev_app_distr, rev_involutive. cbn [rev app bind negb].
  destruct (get_last cl) as (l2 & w2 & E2 & El2 & _); [rewrite Ecl; discriminate|]. rewrite Ecl, Ec in E2. apply app_inj_tail in E2. destruct E2 as [_ <-]. rewrite El2. cbn [bind].
  rewrite vget_at by (cbn [vertexes length]; lia). cbn [bind]. unfold at_ at 1. cbn [vertexes nth]. 
  assert (Ez : bulgeIsZero h = true) by now apply bulgeIsZero_R.
  change (at_ (mkPline (isClosed r) (h :: t)) 0) with h. rewrite Ez. rewrite rset_ok by (cbn; lia). cbn [bind upd isClosed vertexes].
  unfold size. cbn [vertexes length]. destruct t as [|x t]; [reflexivity|]. cbn [length Nat.ltb Nat.leb].
  rewrite !vget_at by (cbn [vertexes length]; lia). cbn [bind]. unfold at_. cbn [vertexes nth].
  assert (pos (setPos h (pos z)) = pos z) as -> by reflexivity. destruct (fuzzyEqual _ _ _); reflexivity.
Qed.

(** the first offset segment is not trimmed away at its start: the second one does not meet its line within 1e-5 of its start *)
Definition startKept (A B C : vertex) : Prop := forall s t,
  let s1 := off (A, B) in let s2 := off (B, C) in
  inRange t -> lerp (pos (osV1 s1)) (pos (osV2 s1)) s = lerp (pos (osV1 s2)) (pos (osV2 s2)) t -> far (pos (osV1 s1)) (lerp (pos (osV1 s2)) (pos (osV2 s2)) t).

Definition firstPair (a b : vec) (vs : list vertex) : Prop := exists h x t, vs = h :: x :: t /\ isLine h /\ nearSeg r0 a b (pos x).

Lemma keeps_first a b vs vs' : keeps vs vs' -> firstPair a b vs -> firstPair a b vs'.
Proof.
  intros (l & w & w' & t & -> & -> & E) (h & x & t' & E' & L & N). destruct l as [|h' [|x' l]]; cbn [app] in *; [discriminate| |].
  - injection E' as -> -> _. exists h, w', t. rewrite E. auto.
  - injection E' as -> -> _. exists h, x, (l ++ w' :: t). auto.
Qed.

Lemma far_not_fuzzy p q : far p q -> fuzzyEqual p q realPrecision = false.
Proof. intros H. destruct (fuzzyEqual p q realPrecision) eqn:E; [|reflexivity]. apply fuzzyEqual_R in E. rewrite prec_R in E. destruct H; lra. Qed.

Lemma keeps_add r v l w : vertexes r = l ++ [w] -> exists l' w', vertexes (addOrReplaceIfSamePos r v) = l' ++ [w'] /\ keeps (l ++ [w]) (l' ++ [w']).
Proof.
  intros E. destruct (add_step (fun _ _ => True) r v l w E) as (l' & w' & E1 & _ & _ & _ & K & _); [|exact I|eauto].
  clear. induction l as [|x [|y l] IH]; cbn; auto.
Qed.

(** the first join keeps the start of the first offset segment *)
Lemma first_join A B C r r' : isLine A -> isLine B -> far (pos A) (pos B) -> far (pos B) (pos C) -> dist (pos A) (pos B) <= M -> dist (pos B) (pos C) <= M ->
  corner d (pos A) (pos B) (pos C) -> startKept A B C ->
  vertexes r = [osV1 (off (A, B))] -> joinSegs (Rltb d 0) (off (A, B)) (off (B, C)) r = Ok r' -> firstPair (pos A) (pos B) (vertexes r').
Proof.
  intros LA LB FAB FBC MAB MBC Hc Hk Ev Ej. pose proof r0_ge as Hr. assert (T0 : 0 <= tau) by (unfold tau; lra).
  assert (Nab : pos A <> pos B) by now apply far_ne.
  assert (Lh : isLine (osV1 (off (A, B)))) by (unfold off; cbn [fst snd]; rewrite offsetLine_R by auto; exact LA).
  assert (N1 : dist (pos (osV2 (off (A, B)))) (pos B) = Rabs d) by (unfold off; cbn [fst snd]; rewrite offsetLine_R by auto; cbn [osV2 pos]; now apply shift_nrm_dist).
  assert (F1 : far (pos (osV1 (off (A, B)))) (pos (osV2 (off (A, B))))).
  { unfold off; cbn [fst snd]; rewrite offsetLine_R by auto. cbn [osV1 osV2 pos]. unfold far, shift in *. cbn [vx vy].
    set (x := d * nrmX (pos A) (pos B)). set (y := d * nrmY (pos A) (pos B)).
    replace (vx (pos A) + x - (vx (pos B) + x)) with (vx (pos A) - vx (pos B)) by ring. replace (vy (pos A) + y - (vy (pos B) + y)) with (vy (pos A) - vy (pos B)) by ring. exact FAB. }
  destruct (line_join d M A B C r LA LB FAB FBC MAB MBC Hc) as (r2 & E2 & [(v & Hv & Lv & Nv1 & Nv2 & Hp)|(v & u & Hvu & (Ep & Hcon) & Eu & Lu)]);
    (assert (r2 = r') as -> by (unfold off in Ej; cbn [fst snd] in Ej; congruence)).
  - assert (F : far (pos (osV1 (off (A, B)))) (pos v)). { destruct Hp as [->|(s & t & It & Es & Et)]; [exact F1|]. rewrite Et. apply (Hk s t It). unfold off. cbn [fst snd]. congruence. }
    rewrite Hv, (addOrReplace_new r [] (osV1 (off (A, B))) v Ev (far_not_fuzzy _ _ F)). cbn [vertexes app].
    exists (osV1 (off (A, B))), v, []. split; [auto|]. split; [auto|]. apply (nearSeg_le (Rabs d + 1 / 100000000 * M)); [unfold r0; lra|exact Nv1].
  - assert (F : far (pos (osV1 (off (A, B)))) (pos v)) by (rewrite Ep; exact F1).
    assert (E3 : vertexes (addOrReplaceIfSamePos r v) = [osV1 (off (A, B))] ++ [v]) by (rewrite (addOrReplace_new r [] (osV1 (off (A, B))) v Ev (far_not_fuzzy _ _ F)); reflexivity).
    destruct (keeps_add _ u _ _ E3) as (l' & w' & E4 & K). rewrite Hvu, E4. eapply keeps_first; [exact K|].
    exists (osV1 (off (A, B))), v, []. split; [auto|]. split; [auto|]. apply near_end. rewrite Ep. unfold off in N1; cbn [fst snd] in N1. rewrite N1. lra.
Qed.
End Inv.

(** ** Specification *)

(** the corners of the path, in path order *)
Definition cornersOf (pl : polyline) : list (vertex * vertex * vertex) :=
  triples (vertexes pl ++ if isClosed pl then firstn 2 (vertexes pl) else []).

(** a polyline of straight segments, none shorter than 1e-5 or longer than [M], with clear corners *)
Definition straight (d M : R) (pl : polyline) : Prop :=
  (2 <= length (vertexes pl))%nat /\ (forall v, In v (vertexes pl) -> isLine v) /\
  (forall A B, In (A, B) (pathSegs pl) -> far (pos A) (pos B) /\ dist (pos A) (pos B) <= M) /\
  (forall A B C, In (A, B, C) (cornersOf pl) -> corner d (pos A) (pos B) (pos C)).

Definition firstKept (d : R) (pl : polyline) : Prop := forall A B C rest, cornersOf pl = (A, B, C) :: rest -> startKept d A B C.

Lemma openSegs_snoc v0 vs w : openSegs v0 (vs ++ [w]) = openSegs v0 vs ++ [(last vs v0, w)].
Proof.
  revert v0. induction vs as [|v vs IH]; intros v0; [reflexivity|]. cbn [openSegs app]. rewrite IH. cbn [app]. do 2 f_equal. f_equal. destruct vs as [|x vs]; [reflexivity|]. clear.
  cbn [last]. revert x. induction vs as [|y vs IH]; intros x; [reflexivity|]. cbn [last] in *. apply IH.
Qed.

Lemma openSegs_app A l B ws : openSegs A (l ++ B :: ws) = openSegs A (l ++ [B]) ++ openSegs B ws.
Proof. revert A. induction l as [|x l IH]; intros A; [reflexivity|]. cbn [app openSegs]. now rewrite IH. Qed.

(** the path of a chain *)
Lemma chain_segs (G : vertex -> vec -> Prop) : forall ws v, chain G (v :: ws) -> forall X Y, In (X, Y) (openSegs v ws) -> G X (pos Y).
Proof.
  induction ws as [|w ws IH]; intros v H X Y Hi; [destruct Hi|]. destruct H as [H1 H2]. destruct Hi as [Hi|Hi]; [injection Hi as <- <-; auto|]. now apply (IH w).
Qed.

Lemma last_default {A} (l : list A) x y : l <> [] -> last l x = last l y.
Proof. induction l as [|a [|b l] IH]; intros H; [contradiction|reflexivity|]. cbn [last] in *. apply IH. discriminate. Qed.

Lemma last_in {A} (l : list A) x : l <> [] -> In (last l x) l.
Proof. intros H. destruct (exists_last H) as (l' & y & ->). rewrite last_last. apply in_or_app. right. left. auto. Qed.

Lemma triples_end l (a b x : vertex) : l <> [] -> In (last l x, a, b) (triples (l ++ [a; b])).
Proof.
  induction l as [|p l IH]; intros H; [contradiction|]. destruct l as [|q l]; [left; reflexivity|].
  assert (Hi := IH ltac:(discriminate)). cbn [last]. destruct l as [|s l]; [right; exact Hi|]. right. exact Hi.
Qed.

Lemma chain_last (G : vertex -> vec -> Prop) l x z : l <> [] -> chain G (l ++ [z]) -> G (last l x) (pos z).
Proof.
  intros H. destruct (exists_last H) as (l' & y & ->). rewrite last_last, <- app_assoc. cbn [app]. intros Hc. apply chain_cut in Hc. exact (proj1 (proj2 Hc)).
Qed.

Lemma chain_init (G : vertex -> vec -> Prop) l z : chain G (l ++ [z]) -> chain G l.
Proof. induction l as [|x [|y l] IH]; [intros; exact I|intros; exact I|]. cbn [app] in *. rewrite !chain_cons. intros [H1 H2]. split; [auto|]. now apply IH. Qed.

(** every point of the raw offset polyline is within |offset| (plus the merging tolerance) of the input *)
Theorem C51_raw_within (pl raw : polyline) (d M : R) : straight d M pl -> (isClosed pl = true -> firstKept d pl) ->
  createRawOffsetPline pl d = Ok raw ->
  forall q, onPath raw q -> exists p, onPath pl p /\ dist q p <= Rabs d + 5 / 100000 + 1 / 100000000 * M.
Proof.
  intros (Hn & Hl & Hs & Hc) Hk E.
  destruct (vertexes pl) as [|v0 [|v1 vs]] eqn:Ev; [cbn in Hn; lia|cbn in Hn; lia|].
  set (ws := if isClosed pl then vs ++ [v0] else vs).
  assert (Eseg : pathSegs pl = openSegs v0 (v1 :: ws)).
  { unfold pathSegs, ws. rewrite Ev. destruct (isClosed pl); [|now rewrite app_nil_r]. change (v1 :: vs ++ [v0]) with ((v1 :: vs) ++ [v0]). now rewrite openSegs_snoc. }
  assert (M0 : 0 <= M). { destruct (Hs v0 v1) as [_ H]; [rewrite Eseg; left; reflexivity|]. pose proof (PropsClosest.dist_nonneg (pos v0) (pos v1)). lra. }
  set (es := map (fun e : vertex * vertex => (pos (fst e), pos (snd e))) (pathSegs pl)).
  assert (Les : forall A B, In (A, B) (pathSegs pl) -> In (pos A, pos B) es) by (intros A B H; unfold es; apply (in_map (fun e : vertex * vertex => (pos (fst e), pos (snd e))) _ (A, B)); exact H).
  assert (Lst : forall A B, In (A, B) (pathSegs pl) -> isLine A).
  { intros A B H. apply Hl. rewrite <- Ev. clear -H Ev. unfold pathSegs in H. rewrite Ev in H. rewrite Ev. apply in_app_or in H. destruct H as [H|H].
    - assert (G : forall l v, In (A, B) (openSegs v l) -> In A (v :: l)). { induction l as [|x l IH]; intros v Hx; [destruct Hx|]. destruct Hx as [Hx|Hx]; [injection Hx as <- _; left; auto|right; apply IH; auto]. }
      now apply G.
    - destruct (isClosed pl); [|destruct H]. destruct H as [H|[]]. injection H as <- _. right. apply (last_in (v1 :: vs) v0). discriminate. }
  assert (Hos : okSegs M es (openSegs v0 (v1 :: ws))).
  { intros A B H. rewrite <- Eseg in H. destruct (Hs A B H). split; [now apply (Lst A B)|]. auto. }
  assert (Etr : forall x, In x (triples (v0 :: v1 :: ws)) -> In x (cornersOf pl)).
  { intros x Hx. unfold cornersOf, ws in *. rewrite Ev. destruct (isClosed pl); [|now rewrite app_nil_r]. cbn [firstn].
    clear -Hx. assert (G : forall l (a : vertex) x (y z : vertex), In x (triples (l ++ [a])) -> In x (triples (l ++ [a; y]))).
    { induction l as [|p [|q [|s l]] IH]; intros a x' y z H; cbn [app triples] in *; try contradiction; [destruct H as [H|[]]; left; auto|].
      destruct H as [H|H]; [left; auto|right; apply (IH a x' y z); auto]. }
    change (v0 :: v1 :: vs ++ [v0]) with ((v0 :: v1 :: vs) ++ [v0]) in Hx. apply (G _ _ _ v1 v1 Hx). }
  assert (Hoc : okCorners d (triples (v0 :: v1 :: ws))) by (intros A B C H; apply Hc, Etr, H).
  set (r0 := Rabs d + tau + 1 / 100000000 * M).
  (* it suffices to bound the pairs *)
  assert (Fin : forall X Y, goodPair d es (r0 + 2 * tau) X (pos Y) -> forall q, onSeg X Y q -> exists p, onPath pl p /\ dist q p <= Rabs d + 5 / 100000 + 1 / 100000000 * M).
  { intros X Y HG q (t & Ht & Hq). destruct (goodPair_points d es _ X Y t q HG Ht Hq) as (a & b & He & s & Hs2 & Hd). unfold es in He. apply in_map_iff in He. destruct He as ([A B] & Eab & He). cbn [fst snd] in Eab. injection Eab as <- <-.
    exists (lerp (pos A) (pos B) s). split; [|unfold r0, tau in Hd; lra]. exists A, B. split; [auto|]. exists s. split; [auto|]. apply segPoint_line; [now apply (Lst A B)|reflexivity]. }
  assert (T0 : 0 <= tau) by (unfold tau; lra).
  revert E. unfold createRawOffsetPline, size. rewrite Ev.
  assert (Elt : (length (v0 :: v1 :: vs) <? 2)%nat = false) by (apply Nat.ltb_ge; cbn [length]; lia). rewrite Elt.
  match goal with |- context [bind ?m _] => assert (E' : m = Ok (map (off d) (pathSegs pl))) by (apply C39_one_per_segment; rewrite Ev; cbn; lia); rewrite E' end. cbn [bind].
  rewrite Eseg. cbn [openSegs map].
  set (s0 := off d (v0, v1)).
  destruct (Hos v0 v1 (or_introl eq_refl)) as (L0 & F01 & M01 & I01).
  assert (N01 : pos v0 <> pos v1) by now apply far_ne.
  assert (Es0 : s0 = mkOS (mkVtx (shift (pos v0) (d * nrmX (pos v0) (pos v1)) (d * nrmY (pos v0) (pos v1))) (bulge v0)) (mkVtx (shift (pos v1) (d * nrmX (pos v0) (pos v1)) (d * nrmY (pos v0) (pos v1))) (bulge v1)) (pos v1) false) by (apply offsetLine_R; auto).
  assert (collapsedArc s0 = false) as -> by (rewrite Es0; reflexivity). rewrite andb_false_r.
  assert (Ls0 : isLine (osV1 s0)) by (rewrite Es0; exact L0).
  assert (Ns0 : nearSeg r0 (pos v0) (pos v1) (pos (osV1 s0))). { apply near_start. rewrite Es0. cbn [osV1 pos]. rewrite shift_nrm_dist by auto. unfold r0. lra. }
  assert (Et0 : tltb d t0 = Rltb d 0) by (rcbn; reflexivity). rewrite Et0.
  (* the joins *)
  assert (Joins : exists r1 b l w A' B', (match map (off d) (openSegs v1 ws) with
             | [] => Ok (mkPline (isClosed pl) [osV1 s0], true)
             | seg1 :: rest' =>
                 let! result := joinSegs (Rltb d 0) s0 seg1 (mkPline (isClosed pl) [osV1 s0]) in
                 let! result0 := joinAll (Rltb d 0) seg1 rest' result in
                 Ok (result0, (length (vertexes result) =? 1)%nat)
             end) = Ok (r1, b) /\ isClosed r1 = isClosed pl /\ vertexes r1 = l ++ [w] /\ chain (goodPair d es r0) (l ++ [w]) /\ isLine w /\
     last (openSegs v0 (v1 :: ws)) (v0, v1) = (A', B') /\ nearSeg r0 (pos A') (pos B') (pos w) /\
     (isClosed pl = true -> b = false /\ firstPair d M (pos v0) (pos v1) (l ++ [w]))).
  { destruct ws as [|v2 ws'] eqn:Ews; cbn [openSegs map].
    - do 2 eexists. exists [], (osV1 s0), v0, v1. split; [reflexivity|]. split; [reflexivity|]. split; [reflexivity|]. split; [exact I|]. split; [auto|]. split; [reflexivity|]. split; [auto|].
      intros Hcl. exfalso. unfold ws in Ews. rewrite Hcl in Ews. apply app_eq_nil in Ews. destruct Ews; discriminate.
    - set (r00 := mkPline (isClosed pl) [osV1 s0]).
      destruct (join_ok (Rltb d 0) s0 (off d (v1, v2)) r00 ltac:(cbn; lia)) as (ra & Ea & (Gc & _ & _)). rewrite Ea. cbn [bind].
      destruct (Hos v1 v2 (or_intror (or_introl eq_refl))) as (L1 & F12 & M12 & I12).
      destruct (join_step d M es M0 v0 v1 v2 r00 [] (osV1 s0) ra L0 L1 F01 F12 M01 M12 (Hoc _ _ _ (or_introl eq_refl)) I01 I12 eq_refl I Ls0 Ns0 Ea) as (la & wa & Eva & Ca & La & Na & Ka).
      destruct (joinAll_ok (Rltb d 0) (map (off d) (openSegs v2 ws')) (off d (v1, v2)) ra) as (rb & Eb & (Gcb & _ & _)); [rewrite Eva, app_length; cbn; lia|]. rewrite Eb. cbn [bind].
      destruct (joins_ok d M es M0 ws' v1 v2 ra la wa) with (r' := rb) as (lb & wb & A' & B' & Evb & Cb & Lb & Kb & Elst & Nb); auto.
      { intros X Y H. apply Hos. right. exact H. }
      { intros X Y Z H. apply Hoc. right. exact H. }
      do 2 eexists. exists lb, wb, A', B'. split; [reflexivity|]. split; [rewrite Gcb, Gc; reflexivity|]. split; [auto|]. split; [auto|]. split; [auto|].
      split; [rewrite <- Elst; cbn [openSegs last]; destruct (openSegs v2 ws'); [reflexivity|]; apply last_default; discriminate|]. split; [auto|].
      intros Hcl.
      assert (FP : firstPair d M (pos v0) (pos v1) (vertexes ra)).
      { apply (first_join d M M0 v0 v1 v2 r00 ra); auto; [apply Hoc; left; reflexivity|].
        unfold ws in Ews. rewrite Hcl in Ews.
        destruct vs as [|v2' vs']; cbn [app] in Ews; injection Ews as <- <-; refine (Hk Hcl v0 v1 _ _ _); unfold cornersOf; rewrite Ev, Hcl; reflexivity. }
      split; [destruct FP as (h & x & t & -> & _); reflexivity|]. rewrite Eva in FP. eapply keeps_first; [exact Kb|exact FP]. }
  destruct Joins as (r1 & b & l & w & A' & B' & Ej & Hcl1 & Ev1 & Ch1 & Lw & Elast & Nw & Hfirst).
  assert (Hcl0 : (length (vertexes r1) =? 0)%nat = false) by (rewrite Ev1, app_length; cbn [length]; apply Nat.eqb_neq; lia).
  match goal with |- bind ?m _ = _ -> _ => assert (Ej' : m = Ok (r1, b)) end.
  { rewrite <- Ej. clear. destruct (map (off d) (openSegs v1 ws)); [reflexivity|]. reflexivity. }
  rewrite Ej'. cbn [bind].
  assert (El : last (map (off d) (openSegs v1 ws)) s0 = off d (A', B')).
  { unfold s0. rewrite <- Elast. cbn [openSegs]. clear. generalize (v0, v1). induction (openSegs v1 ws) as [|e l IH]; intros e0; [reflexivity|]. cbn [map]. 
    destruct l as [|f l]; [reflexivity|]. exact (IH e0). }
  assert (Iab : In (A', B') (pathSegs pl)). { rewrite Eseg, <- Elast. apply last_in. discriminate. }
  assert (Hopen : isClosed pl = false -> forall raw', (let! result := Ok (addOrReplaceIfSamePos r1 (osV2 (off d (A', B')))) in Ok (if (length (vertexes result) =? 1)%nat then mkPline (isClosed result) [] else result)) = Ok raw' ->
    forall q, onPath raw' q -> exists p, onPath pl p /\ dist q p <= Rabs d + 5 / 100000 + 1 / 100000000 * M).
  { intros Hcl raw' E. cbn [bind] in E. injection E as E.
    destruct (Hs A' B' Iab) as [FAB _]. assert (NAB := far_ne _ _ FAB). pose proof (Lst A' B' Iab) as LA.
    destruct (add_step (goodPair d es r0) r1 (osV2 (off d (A', B'))) l w Ev1 Ch1) as (l' & w' & E2 & C2 & _).
    { left. split; [auto|]. exists (pos A'), (pos B'). split; [now apply Les|]. split; [auto|]. apply near_end. unfold off. cbn [fst snd]. rewrite offsetLine_R by auto. cbn [osV2 pos]. rewrite shift_nrm_dist by auto. unfold r0. lra. }
    assert (isClosed (addOrReplaceIfSamePos r1 (osV2 (off d (A', B')))) = false) as Hc2.
    { destruct (addOrReplace_cases r1 (osV2 (off d (A', B')))) as [_ Hx]; [rewrite Ev1; intros Z; apply app_eq_nil in Z; destruct Z; discriminate|]. congruence. }
    intros q (X & Y & HXY & Hq). destruct (Nat.eqb_spec (length (vertexes (addOrReplaceIfSamePos r1 (osV2 (off d (A', B')))))) 1) as [|_]; subst raw'.
    - destruct HXY.
    - unfold pathSegs in HXY. rewrite Hc2, E2 in HXY. destruct (l' ++ [w']) as [|y0 [|y1 ys]] eqn:Ey; [destruct HXY|destruct HXY|]. rewrite app_nil_r in HXY.
      apply (Fin X Y); [|exact Hq]. apply (goodPair_le d es r0); [lra|]. exact (chain_segs _ _ _ C2 X Y HXY). }
  destruct (isClosed pl) eqn:Hcl; cbn [andb]; [|rewrite El; intros E; apply Hopen; auto].
  destruct (Hfirst eq_refl) as [-> (h & x & t & Ehx & Lh & Nx)].
  assert (Elen : (1 <? length (vertexes r1))%nat = true) by (apply Nat.ltb_lt; rewrite Ev1, Ehx; cbn [length]; lia). rewrite Elen, El.
  (* the last segment ends at the first vertex *)
  assert (EAB : A' = last (v1 :: vs) v0 /\ B' = v0).
  { unfold ws in Elast. change (v1 :: vs ++ [v0]) with ((v1 :: vs) ++ [v0]) in Elast. rewrite openSegs_snoc, last_last in Elast. injection Elast as <- <-. auto. }
  destruct EAB as [EA ->].
  destruct (Hs A' v0 Iab) as [FA MA]. pose proof (Lst A' v0 Iab) as LA.
  destruct (join_ok (Rltb d 0) (off d (A', v0)) s0 (mkPline false [w]) ltac:(cbn; lia)) as (cl & Ecl & _).
  assert (HcA : corner d (pos A') (pos v0) (pos v1)).
  { apply Hc. unfold cornersOf. rewrite Hcl, Ev. cbn [firstn]. rewrite EA. change (last (v1 :: vs) v0) with (last (v0 :: v1 :: vs) v0). apply (triples_end (v0 :: v1 :: vs) v0 v1 v0). discriminate. }
  destruct (join_step d M es M0 A' v0 v1 (mkPline false [w]) [] w cl LA L0 FA F01 MA M01 HcA (Les _ _ Iab) I01 eq_refl I Lw Nw Ecl) as (m & z & Em & Cm & Lz & Nz & (l9 & w9 & w'' & t9 & E9 & Ekz & Epw)).
  destruct l9 as [|? l9]; [|destruct l9; discriminate]. cbn [app] in E9, Ekz. injection E9 as <-.
  assert (Chz : chain (goodPair d es r0) (l ++ m ++ [z])). { rewrite Ekz. apply (chain_app _ l w); [congruence|exact Ch1|]. rewrite <- Ekz. exact Cm. }
  destruct l as [|h' l']; [discriminate|]. cbn [app] in Ehx. injection Ehx as -> Ehx.
  rewrite (closeRaw_R (Rltb d 0) (off d (A', v0)) s0 r1 (h :: l') w cl m z h (l' ++ m) Ev1 ltac:(discriminate) Ecl Em eq_refl Lh). cbn [bind isClosed vertexes]. rewrite Hcl1.
  cbn [app] in Chz. rewrite app_assoc in Chz.
  destruct (l' ++ m) as [|x' T'] eqn:ET.
  { cbn [length Nat.eqb]. intros E. injection E as <-. intros q (X & Y & [] & _). }
  assert (Nx' : nearSeg r0 (pos v0) (pos v1) (pos x')).
  { destruct l' as [|y l']; cbn [app] in ET, Ehx; [|injection ET as <- _; injection Ehx as -> _; exact Nx].
    injection Ehx as <- _. rewrite ET in Ekz. cbn [app] in Ekz. injection Ekz as <- _. rewrite Epw. exact Nx. }
  change ((x' :: T') ++ [z]) with (x' :: T' ++ [z]) in Chz. 
  assert (ChT : chain (goodPair d es r0) ((x' :: T') ++ [z])) by (exact (proj2 Chz)). clear Chz.
  pose proof (chain_last _ (x' :: T') x' z ltac:(discriminate) ChT) as HL. pose proof (chain_init _ _ _ ChT) as HI.
  assert (Elx : last (x' :: T') x' = last T' x') by (destruct T'; reflexivity). rewrite Elx in HL.
  destruct (fuzzyEqual (pos z) (pos x') realPrecision) eqn:Ef.
  - intros E. injection E as <-. intros q (X & Y & HXY & Hq). apply (Fin X Y); [|exact Hq].
    destruct T' as [|y T']; [destruct HXY|]. cbn [length Nat.eqb] in HXY. unfold pathSegs in HXY. cbn [vertexes isClosed] in HXY. apply in_app_or in HXY. destruct HXY as [HXY|[HXY|[]]].
    + apply (goodPair_le d es r0); [lra|]. exact (chain_segs _ _ _ HI X Y HXY).
    + injection HXY as <- <-. apply (goodPair_le d es (r0 + tau)); [lra|]. apply (goodPair_move d es r0 tau _ (pos z)); [auto| |exact HL]. rewrite dist_sym. now apply tau_fuzzy.
  - intros E. injection E as <-. intros q (X & Y & HXY & Hq). apply (Fin X Y); [|exact Hq]. apply (goodPair_le d es r0); [lra|].
    cbn [length Nat.eqb] in HXY. unfold pathSegs in HXY. cbn [vertexes isClosed] in HXY. apply in_app_or in HXY. destruct HXY as [HXY|[HXY|[]]].
    + cbn [openSegs] in HXY. destruct HXY as [HXY|HXY]; [|exact (chain_segs _ _ _ HI X Y HXY)]. injection HXY as <- <-.
      left. split; [exact Lh|]. exists (pos v0), (pos v1). split; [auto|]. split; [exact Nz|exact Nx'].
    + injection HXY as HX HY. subst Y. cbn [setPos pos]. replace X with (last T' x'); [exact HL|]. rewrite <- HX. destruct T'; [reflexivity|]. apply last_default. discriminate.
Qed.

(** *** a concrete case: a square of side 2, offset inwards (d > 0) or outwards (d < 0) by up to 1 *)
Definition box : polyline := mkPline true [mkVertex 0 0 0; mkVertex 2 0 0; mkVertex 2 2 0; mkVertex 0 2 0].

Lemma dist_axis (p q : vec) l : 0 <= l -> (vx p - vx q) * (vx p - vx q) + (vy p - vy q) * (vy p - vy q) = l * l -> dist p q = l.
Proof. intros H E. rewrite dist_norm, E. now apply sqrt_square. Qed.

Lemma box_line x y : isLine (mkVertex x y 0).
Proof. unfold isLine. cbn [mkVertex bulge]. rewrite Rabs_R0. lra. Qed.

Example C51_box (d : R) : Rabs d <= 1 -> straight d 2 box /\ firstKept d box /\ exists raw, createRawOffsetPline box d = Ok raw.
Proof.
  intros Hd. assert (Hd' : -1 <= d <= 1) by (revert Hd; unfold Rabs; destruct (Rcase_abs d); lra). split; [|split].
  - split; [cbn; lia|]. split; [intros v [<-|[<-|[<-|[<-|[]]]]]; apply box_line|]. split.
    + intros A B H. cbn in H. unfold far. repeat (destruct H as [H|H]; [injection H as <- <-; cbn [mkVertex pos vx vy]; split;
        [first [left; apply Rle_trans with 2; [lra|]; unfold Rabs; destruct (Rcase_abs _); lra | right; apply Rle_trans with 2; [lra|]; unfold Rabs; destruct (Rcase_abs _); lra]
        |rewrite (dist_axis _ _ 2); cbn [vx vy]; [lra|lra|ring]]|]). destruct H.
    + intros A B C H. left. cbn in H. repeat (destruct H as [H|H]; [injection H as <- <- <-; unfold turn; cbn [mkVertex pos vx vy]; unfold Rabs; destruct (Rcase_abs _); lra|]). destruct H.
  - intros A B C rest E. cbn in E. injection E as <- <- <- _. intros s t s1 s2 Ht _. left.
    unfold s1, s2, off. cbn [fst snd]. rewrite !offsetLine_R; try apply box_line; try (intros Z; apply (f_equal vx) in Z; cbn in Z; lra); try (intros Z; apply (f_equal vy) in Z; cbn in Z; lra).
    cbn [osV1 osV2 mkVertex pos]. unfold lerp, shift, nrmX, nrmY. cbn [vx vy].
    rewrite (dist_axis _ _ 2) by (cbn [vx vy]; lra). rewrite (dist_axis _ _ 2) by (cbn [vx vy]; lra).
    match goal with |- _ <= Rabs ?x => replace x with (d - 2) by (field) end. rewrite Rabs_left; lra.
  - destruct (raw_ok box d) as (raw & E & _); eauto.
Qed.

(** ** What a corner becomes *)
(** The offset segments v1 -> v2 and u1 -> u2 of a -> b -> c, extended, meet at [p].
    - they cross (inside corner): the raw polyline goes through the crossing point only;
    - they meet beyond the end of the first (outside corner): an arc about the corner [b] from v2 to u1, turning the way the input turns;
    - one ends before meeting the other: a straight link from v2 to u1. *)
Theorem C51_corner (d s t : R) (A B C : vertex) : isLine A -> isLine B -> let a := pos A in let b := pos B in let c := pos C in
  a <> b -> b <> c -> 1 / 100000000 < Rabs (turn a b c) ->
  let v1 := shift a (d * nrmX a b) (d * nrmY a b) in let v2 := shift b (d * nrmX a b) (d * nrmY a b) in
  let u1 := shift b (d * nrmX b c) (d * nrmY b c) in let u2 := shift c (d * nrmX b c) (d * nrmY b c) in
  lerp v1 v2 s = lerp u1 u2 t ->
  let joined := joinSegs (Rltb d 0) (offsetSegment d A B) (offsetSegment d B C) in
  (inRange s -> inRange t -> exists v, (forall r, joined r = Ok (addOrReplaceIfSamePos r v)) /\ pos v = lerp v1 v2 s /\ isLine v) /\
  (1 + eps < s -> exists v u th, (forall r, joined r = Ok (addOrReplaceIfSamePos (addOrReplaceIfSamePos r v) u)) /\ pos v = v2 /\ pos u = u1 /\ isLine u /\
     rot b th v2 = u1 /\ 0 < Rabs th < PI /\ (0 < th <-> 0 < turn a b c) /\ sweep (bulge v) = th) /\
  (s < - eps \/ (s <= 1 /\ 1 + eps < t) -> exists v u, (forall r, joined r = Ok (addOrReplaceIfSamePos (addOrReplaceIfSamePos r v) u)) /\ pos v = v2 /\ pos u = u1 /\ isLine v /\ isLine u).
Proof.
  intros LA LB a b c Nab Nbc Hturn v1 v2 u1 u2 Emeet joined.
  assert (E1 := offsetLine_R A B d LA Nab). assert (E2 := offsetLine_R B C d LB Nbc). fold a b in E1. fold b c in E2. fold v1 v2 in E1. fold u1 u2 in E2.
  assert (L0 : forall p, isLine (mkVtx p 0)) by (intros p0; unfold isLine; cbn [bulge]; rewrite Rabs_R0; lra).
  assert (L1 : forall p, isLine (mkVtx p t0)) by (intros p0; unfold isLine; rcbn; rewrite Rabs_R0; lra).
  assert (Ej : forall r, joined r = Ok (lineToLineJoin (offsetSegment d A B) (offsetSegment d B C) (Rltb d 0) r)).
  { intros r. unfold joined, joinSegs. rewrite E1, E2. cbn [osV1 osV2 bulge]. unfold bulgeIsZero. cbn [bulge]. fold (bulgeIsZero A) (bulgeIsZero B). rewrite (proj2 (bulgeIsZero_R A) LA), (proj2 (bulgeIsZero_R B) LB). reflexivity. }
  clearbody joined.
  assert (Ej2 : forall r x, lineToLineJoin (offsetSegment d A B) (offsetSegment d B C) (Rltb d 0) r = x -> joined r = Ok x) by (intros r x <-; apply Ej).
  assert (Ej3 : forall (f : polyline -> polyline), (forall r, lineToLineJoin (offsetSegment d A B) (offsetSegment d B C) (Rltb d 0) r = f r) -> forall r, joined r = Ok (f r)) by (intros f H r; now rewrite Ej, H). clear Ej Ej2.
  unfold lineToLineJoin, connectUsingArc in Ej3. rewrite E1, E2 in Ej3. cbn [osV1 osV2 collapsedArc origV2Pos pos orb] in Ej3.
  assert (Hx : eps < Rabs (cross v1 v2 u1 u2)).
  { unfold cross, eps, v1, v2, u1, u2, shift. cbn [vx vy]. unfold turn in Hturn. match goal with |- _ < Rabs ?z => replace z with ((vx b - vx a) * (vy c - vy b) - (vy b - vy a) * (vx c - vx b)) by ring end. exact Hturn. }
  destruct (C17_transversal _ _ _ _ Hx) as (s' & t' & q & Es & Et & Huniq & HT & HF). destruct (Huniq s t Emeet) as [-> ->].
  pose proof eps_pos as He. split; [|split].
  - intros Is It. rewrite (HT (conj Is It)) in Ej3. eexists. split; [apply Ej3; reflexivity|]. split; [cbn [pos]; congruence|apply L1].
  - intros Hs. rewrite HF in Ej3 by (unfold inRange; lra).
    assert (HK : turn a b c <> 0) by (intros Z; rewrite Z, Rabs_R0 in Hturn; lra).
    destruct (outside_corner a b c d s' t' Nab Nbc HK ltac:(lra) Emeet) as (Nv & th & Ht & Hth & Hsgn & Hsin). fold v2 u1 in Ht, Nv.
    assert (Ft : falseIntersect t' = true).
    { unfold falseIntersect. rcbn. apply orb_true_iff. left. apply Rltb_spec.
      (* p - b = d n1 + (s-1) e1 = d n2 + t e2 ; take the cross product with both normals *)
      pose proof (dist_pos' a b Nab) as Pab. pose proof (dist_pos' b c Nbc) as Pbc.
      pose proof (nrm_unit a b Nab) as U1. pose proof (nrm_unit b c Nbc) as U2.
      apply (f_equal (fun z => (vx z, vy z))) in Emeet. injection Emeet as Ex Ey. unfold lerp, v1, v2, u1, u2, shift in Ex, Ey. cbn [vx vy] in Ex, Ey.
      assert (A1 : vx b - vx a = dist a b * nrmY a b) by (unfold nrmY; field; lra). assert (A2 : vy b - vy a = - (dist a b * nrmX a b)) by (unfold nrmX; field; lra).
      assert (B1 : vx c - vx b = dist b c * nrmY b c) by (unfold nrmY; field; lra). assert (B2 : vy c - vy b = - (dist b c * nrmX b c)) by (unfold nrmX; field; lra).
      set (l1 := dist a b) in *. set (l2 := dist b c) in *. set (m1 := nrmX a b) in *. set (n1 := nrmY a b) in *. set (m2 := nrmX b c) in *. set (n2 := nrmY b c) in *. clearbody l1 l2 m1 n1 m2 n2.
      assert (Gx : d * m1 + (s' - 1) * (l1 * n1) = d * m2 + t' * (l2 * n2)).
      { rewrite <- A1, <- B1. revert Ex. generalize (vx a) (vx b) (vx c). intros xa xb xc Ex. 
        replace (d * m1 + (s' - 1) * (xb - xa)) with (xa + d * m1 + s' * (xb + d * m1 - (xa + d * m1)) - xb) by ring. rewrite Ex. ring. }
      assert (Gy : d * n1 + (s' - 1) * - (l1 * m1) = d * n2 + t' * - (l2 * m2)).
      { rewrite <- A2, <- B2. revert Ey. generalize (vy a) (vy b) (vy c). intros xa xb xc Ey.
        replace (d * n1 + (s' - 1) * (xb - xa)) with (xa + d * n1 + s' * (xb + d * n1 - (xa + d * n1)) - xb) by ring. rewrite Ey. ring. }
      assert (Sq : (s' - 1) * l1 * ((s' - 1) * l1) = t' * l2 * (t' * l2)).
      { assert (Q1 : (d * m1 + (s' - 1) * (l1 * n1)) * (d * m1 + (s' - 1) * (l1 * n1)) + (d * n1 + (s' - 1) * - (l1 * m1)) * (d * n1 + (s' - 1) * - (l1 * m1)) = d * d * (m1 * m1 + n1 * n1) + (s' - 1) * l1 * ((s' - 1) * l1) * (m1 * m1 + n1 * n1)) by ring.
        assert (Q2 : (d * m2 + t' * (l2 * n2)) * (d * m2 + t' * (l2 * n2)) + (d * n2 + t' * - (l2 * m2)) * (d * n2 + t' * - (l2 * m2)) = d * d * (m2 * m2 + n2 * n2) + t' * l2 * (t' * l2) * (m2 * m2 + n2 * n2)) by ring.
        rewrite Gx, Gy, Q2, U1, U2 in Q1. lra. }
      assert (P1 : 0 < (s' - 1) * l1) by (apply Rmult_lt_0_compat; lra).
      destruct (Rlt_dec t' 0) as [|Ht0]; [assumption|exfalso].
      assert (P2 : 0 <= t' * l2) by (apply Rmult_le_pos; lra).
      assert (Eq : (s' - 1) * l1 = t' * l2) by (apply Rsqr_inj; [lra|lra|exact Sq]).
      (* then d (n1 - n2) = same e: the two unit vectors are parallel, the turn is 0 *)
      assert (R1 : d * (m1 - m2) = (s' - 1) * l1 * (n2 - n1)) by (rewrite Eq; rewrite Rmult_minus_distr_l; replace (t' * l2 * (n2 - n1)) with (t' * (l2 * n2) - t' * l2 * n1) by ring; rewrite <- Eq; lra).
      assert (R2 : d * (n1 - n2) = (s' - 1) * l1 * (m1 - m2)) by (replace ((s' - 1) * l1 * (m1 - m2)) with ((s' - 1) * (l1 * m1) - (s' - 1) * l1 * m2) by ring; rewrite Eq; lra).
      assert (Z : (d * d + (s' - 1) * l1 * ((s' - 1) * l1)) * ((m1 - m2) * (m1 - m2)) = 0 /\ (d * d + (s' - 1) * l1 * ((s' - 1) * l1)) * ((n1 - n2) * (n1 - n2)) = 0).
      { set (k := (s' - 1) * l1) in *. clearbody k. assert (S1 : d * (m1 - m2) * (m1 - m2) + k * (n1 - n2) * (m1 - m2) = 0) by (rewrite R1; ring). 
        split.
        - replace ((d * d + k * k) * ((m1 - m2) * (m1 - m2))) with (d * (d * (m1 - m2)) * (m1 - m2) + k * (k * (m1 - m2)) * (m1 - m2)) by ring. rewrite R1, <- R2. ring.
        - replace ((d * d + k * k) * ((n1 - n2) * (n1 - n2))) with (d * (d * (n1 - n2)) * (n1 - n2) + k * (k * (n1 - n2)) * (n1 - n2)) by ring. replace (k * (n1 - n2)) with (- (d * (m1 - m2))) by (rewrite R1; ring). rewrite R2. ring. }
      assert (Pk : 0 < d * d + (s' - 1) * l1 * ((s' - 1) * l1)) by (pose proof (sq_nonneg d); pose proof (Rmult_lt_0_compat _ _ P1 P1); lra).
      destruct Z as [Z1 Z2]. apply Rmult_integral in Z1. apply Rmult_integral in Z2. destruct Z1 as [Z1|Z1]; [lra|]. destruct Z2 as [Z2|Z2]; [lra|].
      assert (m1 = m2) by (apply Rmult_integral in Z1; lra). assert (n1 = n2) by (apply Rmult_integral in Z2; lra). subst m2 n2.
      apply HK. unfold turn. rewrite A1, A2, B1, B2. ring. }
    do 2 eexists. exists th. split; [apply Ej3; intros r; replace (tltb t1 s') with true by (symmetry; apply Rltb_spec; rcbn; lra); rewrite Ft; cbn [andb]; reflexivity|]. split; [reflexivity|]. split; [reflexivity|]. split; [apply L1|].
    split; [exact (proj1 Ht)|]. split; [exact Hth|]. split; [exact Hsgn|]. cbn [bulge].
    assert (Eb : bulgeForConnection b v2 u1 (Rltb d 0) = tan (th / 4)) by (now apply connection_bulge).
    match goal with |- sweep ?x = _ => replace x with (tan (th / 4)) by (symmetry; exact Eb) end.
    unfold sweep. rewrite atan_tan; [lra|]. destruct Hth as [_ Hth]. apply Rabs_def2 in Hth. pose proof PI_RGT_0. lra.
  - intros H. rewrite HF in Ej3 by (unfold inRange; lra).
    do 2 eexists. split; [apply Ej3; intros r; replace (tltb t1 s') with false by (symmetry; apply Rltb_false; rcbn; lra); cbn [andb]; reflexivity|]. split; [reflexivity|]. split; [reflexivity|]. split; [apply L1|exact LB].
Qed.

(** the corner (0,0) -> (2,0) -> (2,2), offset by [d]: an outside corner for d < 0, an inside corner for 0 < d <= 1 *)
Example C51_corner_box (d : R) : let a := mkV 0 0 in let b := mkV 2 0 in let c := mkV 2 2 in
  1 / 100000000 < Rabs (turn a b c) /\
  lerp (shift a (d * nrmX a b) (d * nrmY a b)) (shift b (d * nrmX a b) (d * nrmY a b)) (1 - d / 2) =
  lerp (shift b (d * nrmX b c) (d * nrmY b c)) (shift c (d * nrmX b c) (d * nrmY b c)) (d / 2).
Proof.
  intros a b c. split; [unfold turn, a, b, c; cbn [vx vy]; rewrite Rabs_right; lra|].
  unfold nrmX, nrmY, a, b, c. rewrite (dist_axis _ _ 2) by (cbn [vx vy]; lra). rewrite (dist_axis _ _ 2) by (cbn [vx vy]; lra).
  unfold lerp, shift. cbn [vx vy]. apply vec_eq; cbn [vx vy]; rfield.
Qed.
