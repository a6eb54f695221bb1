(** * C24, C25: getWindingNumber is the winding number *)
From Coq Require Import ZArith Reals Lra Lia List Bool Arith Permutation.
From Coquelicot Require Import Coquelicot.
From Verif Require Import Base Num MathUtils PlineSegment SpatialIndex Polyline RGeom Spec PropsMath ArcGeom Polar PropsSegment PropsClosest PropsIntr PropsPlineIntr PropsPolyline PropsArea Turning.
Import ListNotations.
Open Scope R_scope.

(** lra without the hypotheses that are implications *)
Ltac qlra := repeat match goal with
  | H : _ <-> _ |- _ => clear H
  | H : ?A -> ?B |- _ => match type of A with Prop => match B with False => fail 1 | _ => clear H end end
  | H : (_ -> _) /\ _ |- _ => clear H
  end; lra.

Lemma isLeft_R a b p : isLeft a b p = true <-> 0 < leftExpr a b p.
Proof. unfold isLeft. rcbn. apply Rltb_spec. Qed.
Lemma isLeft_F a b p : isLeft a b p = false <-> leftExpr a b p <= 0.
Proof. unfold isLeft. rcbn. split; intros H; [apply Rltb_false in H; lra|]. apply not_true_is_false. intros H'. apply Rltb_spec in H'. lra. Qed.
Lemma isLeftOrEqual_R a b p : isLeftOrEqual a b p = true <-> 0 <= leftExpr a b p.
Proof. unfold isLeftOrEqual. rcbn. apply Rleb_spec. Qed.
Lemma isLeftOrEqual_F a b p : isLeftOrEqual a b p = false <-> leftExpr a b p < 0.
Proof. unfold isLeftOrEqual. rcbn. split; intros H; [apply Rleb_false in H; lra|]. apply not_true_is_false. intros H'. apply Rleb_spec in H'. lra. Qed.

Ltac angcases H1 H2 :=
  destruct (Rlt_dec 0 H1) as [?L|?L]; destruct (Rlt_dec H1 0) as [?L|?L]; try lra.

Lemma line_contrib (v1 v2 : vertex) (p : vec) D : pos v1 <> p -> pos v2 <> p -> - PI < D < PI ->
  congruent (angU p (pos v2) - angU p (pos v1)) D ->
  D = angU p (pos v2) - angU p (pos v1) + 2 * PI * IZR (lineWinding v1 v2 p).
Proof.
  intros N1 N2 HD Hc. apply turn_unique; auto.
  destruct (left_angle p _ _ N1 N2) as [L1 L2]. pose proof (angU_low p _ N1) as W1. pose proof (angU_low p _ N2) as W2.
  pose proof (angU_bounds p (pos v1)) as B1. pose proof (angU_bounds p (pos v2)) as B2. pose proof PI_RGT_0.
  set (x := leftExpr (pos v1) (pos v2) p) in *.
  unfold lineWinding, py. rcbn.
  destruct (Rleb (vy (pos v1)) (vy p)) eqn:E1; rbool.
  - apply W1 in E1. destruct (Rltb (vy p) (vy (pos v2))) eqn:E2; rbool; cbn [andb].
    + assert (angU p (pos v2) < PI) by (apply Rnot_le_lt; intros Q; apply W2 in Q; qlra).
      destruct (isLeft (pos v1) (pos v2) p) eqn:E3.
      * apply isLeft_R in E3. fold x in E3. apply L1 in E3. simpl IZR. qlra.
      * apply isLeft_F in E3. fold x in E3. simpl IZR.
        assert (~ (- (2 * PI) < angU p (pos v2) - angU p (pos v1) < - PI)) by (intros Q; assert (0 < x) by (apply L1; auto); qlra). qlra.
    + apply W2 in E2. simpl IZR. qlra.
  - assert (angU p (pos v1) < PI) by (apply Rnot_le_lt; intros Q; apply W1 in Q; qlra).
    destruct (Rleb (vy (pos v2)) (vy p)) eqn:E2; rbool; cbn [andb].
    + apply W2 in E2. destruct (isLeft (pos v1) (pos v2) p) eqn:E3; cbn [negb].
      * apply isLeft_R in E3. fold x in E3. apply L1 in E3. simpl IZR. qlra.
      * apply isLeft_F in E3. fold x in E3. simpl IZR.
        assert (~ (0 < angU p (pos v2) - angU p (pos v1) < PI)) by (intros Q; assert (0 < x) by (apply L1; auto); qlra). qlra.
    + assert (angU p (pos v2) < PI) by (apply Rnot_le_lt; intros Q; apply W2 in Q; qlra). simpl IZR. qlra.
Qed.

Lemma inCircle_R (v1 v2 : vertex) (p : vec) : bulge v1 <> 0 -> pos v1 <> pos v2 ->
  distToArcCenterLessThanRadius v1 v2 p = true <->
  sq2 p (ctr (pos v1) (pos v2) (bulge v1)) < sq2 (pos v1) (ctr (pos v1) (pos v2) (bulge v1)).
Proof.
  intros Hb Hne. unfold distToArcCenterLessThanRadius. rewrite center_R by auto. pose proof (radius_sq v1 v2 Hb) as HR. 
  unfold distSquared, dot, vsub. rcbn. rewrite Rltb_spec. rewrite HR. unfold sq2.
  set (c := ctr _ _ _). replace ((vx c - vx p) * (vx c - vx p) + (vy c - vy p) * (vy c - vy p)) with
    ((vx p - vx c) * (vx p - vx c) + (vy p - vy c) * (vy p - vy c)) by ring.
  rewrite <- !Rsqr_pow2. reflexivity.
Qed.

Lemma inCircle_degenerate (v1 v2 : vertex) (p : vec) : pos v1 = pos v2 -> distToArcCenterLessThanRadius v1 v2 p = false.
Proof.
  intros E. unfold distToArcCenterLessThanRadius. pose proof (radius_R v1 v2) as HR.
  assert (Z : chord (pos v1) (pos v2) = 0).
  { unfold chord. rewrite E. replace (_ + _) with 0 by rring. apply sqrt_0. }
  rewrite Z in HR. replace (0 * (bulge v1 * bulge v1 + 1) / (4 * Rabs (bulge v1))) with 0 in HR by (unfold Rdiv; rring).
  rewrite HR. unfold distSquared, dot, vsub. rcbn. apply not_true_is_false. intros Q. apply Rltb_spec in Q.
  match type of Q with ?a * ?a + ?b * ?b < _ => pose proof (sumsq_nonneg a b) end. qlra.
Qed.

(** power of p with respect to the circle *)
Lemma power_chord (p1 p2 p : vec) b :
  sq2 p (ctr p1 p2 b) - sq2 p1 (ctr p1 p2 b) =
  (vx p1 - vx p) * (vx p2 - vx p) + (vy p1 - vy p) * (vy p2 - vy p) - 2 * cK b * leftExpr p1 p2 p.
Proof. unfold sq2, ctr, leftExpr. rcbn. field. Qed.

Lemma cK_pos b : 0 < b <= 1 -> 0 <= cK b.
Proof. intros H. unfold cK. apply Rmult_le_pos; [nra|]. left. apply Rinv_0_lt_compat. qlra. Qed.
Lemma cK_neg b : -1 <= b < 0 -> cK b <= 0.
Proof. intros H. unfold cK. replace ((1 - b * b) / (4 * b)) with (- ((1 - b * b) / (4 * - b))) by (field; qlra).
  assert (0 <= (1 - b * b) / (4 * - b)); [|qlra]. apply Rmult_le_pos; [nra|]. left. apply Rinv_0_lt_compat. qlra. Qed.

Lemma arc_contrib_out (v1 v2 : vertex) (p : vec) D : pos v1 <> p -> pos v2 <> p ->
  distToArcCenterLessThanRadius v1 v2 p = false -> - PI < D < PI ->
  congruent (angU p (pos v2) - angU p (pos v1)) D ->
  D = angU p (pos v2) - angU p (pos v1) + 2 * PI * IZR (arcWinding v1 v2 p).
Proof.
  intros N1 N2 Hin HD Hc. apply turn_unique; auto.
  destruct (left_angle p _ _ N1 N2) as [L1 L2]. pose proof (angU_low p _ N1) as W1. pose proof (angU_low p _ N2) as W2.
  pose proof (angU_bounds p (pos v1)) as B1. pose proof (angU_bounds p (pos v2)) as B2. pose proof PI_RGT_0.
  set (x := leftExpr (pos v1) (pos v2) p) in *.
  unfold arcWinding, py. rewrite Hin. rewrite !andb_false_r. rcbn. cbn [negb].
  set (ccw := bulgeIsPos v1).
  set (lft := if ccw then isLeft (pos v1) (pos v2) p else isLeftOrEqual (pos v1) (pos v2) p).
  assert (HL : (lft = true -> 0 <= x) /\ (lft = false -> x <= 0)).
  { unfold lft. destruct ccw.
    - split; intros Q; [apply isLeft_R in Q|apply isLeft_F in Q]; fold x in Q; rcbn; qlra.
    - split; intros Q; [apply isLeftOrEqual_R in Q|apply isLeftOrEqual_F in Q]; fold x in Q; rcbn; qlra. }
  clearbody lft. destruct HL as [HL1 HL2].
  destruct (Rleb (vy (pos v1)) (vy p)) eqn:E1; rbool.
  - apply W1 in E1. destruct (Rltb (vy p) (vy (pos v2))) eqn:E2; rbool.
    + assert (angU p (pos v2) < PI) by (apply Rnot_le_lt; intros Q; apply W2 in Q; qlra).
      assert (G : (if ccw then if lft then 1%Z else 0%Z else if lft then 1%Z else 0%Z) = (if lft then 1%Z else 0%Z)) by (destruct ccw, lft; reflexivity).
      rewrite G. destruct lft.
      * specialize (HL1 eq_refl). simpl IZR.
        assert (~ (- PI < angU p (pos v2) - angU p (pos v1) < 0)) by (intros Q; assert (x < 0) by (apply L2; auto); qlra). qlra.
      * specialize (HL2 eq_refl). simpl IZR.
        assert (~ (- (2 * PI) < angU p (pos v2) - angU p (pos v1) < - PI)) by (intros Q; assert (0 < x) by (apply L1; auto); qlra). qlra.
    + apply W2 in E2. assert (G : (if ccw && negb lft then 0%Z else if negb ccw && lft then 0%Z else 0%Z) = 0%Z) by (destruct ccw, lft; reflexivity).
      rewrite G. simpl IZR. qlra.
  - assert (angU p (pos v1) < PI) by (apply Rnot_le_lt; intros Q; apply W1 in Q; qlra).
    destruct (Rleb (vy (pos v2)) (vy p)) eqn:E2; rbool.
    + apply W2 in E2.
      assert (G : (if ccw then if negb lft then (-1)%Z else 0%Z else if lft then 0%Z else (-1)%Z) = (if lft then 0%Z else (-1)%Z)) by (destruct ccw, lft; reflexivity).
      rewrite G. destruct lft.
      * specialize (HL1 eq_refl). simpl IZR.
        assert (~ (PI < angU p (pos v2) - angU p (pos v1) < 2 * PI)) by (intros Q; assert (x < 0) by (apply L2; auto); qlra). qlra.
      * specialize (HL2 eq_refl). simpl IZR.
        assert (~ (0 < angU p (pos v2) - angU p (pos v1) < PI)) by (intros Q; assert (0 < x) by (apply L1; auto); qlra). qlra.
    + assert (angU p (pos v2) < PI) by (apply Rnot_le_lt; intros Q; apply W2 in Q; qlra).
      assert (G : (if ccw && negb lft then 0%Z else if negb ccw && lft then 0%Z else 0%Z) = 0%Z) by (destruct ccw, lft; reflexivity).
      rewrite G. simpl IZR. qlra.
Qed.

(** horizontal position from the angle *)
Lemma angU_x p q : q <> p ->
  (PI <= angU p q -> (vx p < vx q -> 3 * PI / 2 < angU p q) /\ (vx q < vx p -> angU p q < 3 * PI / 2)) /\
  (angU p q < PI -> (vx p < vx q -> angU p q < PI / 2) /\ (vx q < vx p -> PI / 2 < angU p q)).
Proof.
  intros H. destruct (angU_polar p q H) as (A & _ & D). pose proof (angU_bounds p q). pose proof PI_RGT_0.
  assert (Cp : vx p < vx q -> 0 < cos (angU p q)). { intros Q. apply Rmult_lt_reg_l with (dist p q); auto. qlra. }
  assert (Cn : vx q < vx p -> cos (angU p q) < 0). { intros Q. apply Rmult_lt_reg_l with (dist p q); auto. qlra. }
  set (a := angU p q) in *. split; intros Ha; split; intros Q.
  - apply Rnot_le_lt. intros L. specialize (Cp Q). pose proof (cos_le_0 a ltac:(qlra) ltac:(qlra)). qlra.
  - apply Rnot_le_lt. intros L. specialize (Cn Q).
    assert (0 <= cos (a - 2 * PI)) by (apply cos_ge_0; qlra). rewrite cos_minus, cos_2PI, sin_2PI in *. qlra.
  - apply Rnot_le_lt. intros L. specialize (Cp Q). pose proof (cos_le_0 a ltac:(qlra) ltac:(qlra)). qlra.
  - apply Rnot_le_lt. intros L. specialize (Cn Q). pose proof (cos_ge_0 a ltac:(qlra) ltac:(qlra)). qlra.
Qed.

Lemma obtuse_ccw (v1 v2 : vertex) (p : vec) : pos v1 <> pos v2 -> 0 < bulge v1 <= 1 ->
  distToArcCenterLessThanRadius v1 v2 p = true -> leftExpr (pos v1) (pos v2) p <= 0 ->
  (vx (pos v1) - vx p) * (vx (pos v2) - vx p) + (vy (pos v1) - vy p) * (vy (pos v2) - vy p) < 0.
Proof.
  intros Hne Hb Hin Q. pose proof (proj1 (inCircle_R v1 v2 p ltac:(qlra) Hne) Hin) as Hpow.
  pose proof (power_chord (pos v1) (pos v2) p (bulge v1)) as HP. pose proof (cK_pos _ Hb) as HK.
  assert (0 <= cK (bulge v1) * - leftExpr (pos v1) (pos v2) p) by (apply Rmult_le_pos; qlra). rcbn. qlra.
Qed.

Lemma obtuse_cw (v1 v2 : vertex) (p : vec) : pos v1 <> pos v2 -> -1 <= bulge v1 < 0 ->
  distToArcCenterLessThanRadius v1 v2 p = true -> 0 <= leftExpr (pos v1) (pos v2) p ->
  (vx (pos v1) - vx p) * (vx (pos v2) - vx p) + (vy (pos v1) - vy p) * (vy (pos v2) - vy p) < 0.
Proof.
  intros Hne Hb Hin Q. pose proof (proj1 (inCircle_R v1 v2 p ltac:(qlra) Hne) Hin) as Hpow.
  pose proof (power_chord (pos v1) (pos v2) p (bulge v1)) as HP. pose proof (cK_neg _ Hb) as HK.
  assert (0 <= - cK (bulge v1) * leftExpr (pos v1) (pos v2) p) by (apply Rmult_le_pos; qlra). rcbn. qlra.
Qed.

Lemma split_sign a b : a * b < 0 -> (a < 0 /\ 0 < b) \/ (0 < a /\ b < 0).
Proof.
  intros H. destruct (Rlt_dec a 0) as [A|A].
  - left. split; auto. apply Rnot_le_lt. intros B. assert (0 <= - a * - b) by (apply Rmult_le_pos; qlra). qlra.
  - right. assert (0 < a) by (destruct (Req_dec a 0) as [->|]; [rewrite Rmult_0_l in H|]; qlra). split; auto.
    apply Rnot_le_lt. intros B. assert (0 <= a * b) by (apply Rmult_le_pos; qlra). qlra.
Qed.

Lemma arc_contrib_ccw (v1 v2 : vertex) (p : vec) D : pos v1 <> p -> pos v2 <> p -> pos v1 <> pos v2 -> 0 < bulge v1 <= 1 ->
  distToArcCenterLessThanRadius v1 v2 p = true -> 0 < D < 2 * PI ->
  congruent (angU p (pos v2) - angU p (pos v1)) D ->
  D = angU p (pos v2) - angU p (pos v1) + 2 * PI * IZR (arcWinding v1 v2 p).
Proof.
  intros N1 N2 Hne Hb Hin HD Hc. apply turn_unique; auto.
  destruct (left_angle p _ _ N1 N2) as [L1 L2]. pose proof (angU_low p _ N1) as W1. pose proof (angU_low p _ N2) as W2.
  pose proof (angU_bounds p (pos v1)) as B1. pose proof (angU_bounds p (pos v2)) as B2. pose proof PI_RGT_0.
  pose proof (obtuse_ccw v1 v2 p Hne Hb Hin) as Hdot.
  assert (Hccw : bulgeIsPos v1 = true) by (unfold bulgeIsPos; rcbn; apply Rltb_spec; qlra).
  destruct (angU_x p _ N1) as [X1a X1b]. destruct (angU_x p _ N2) as [X2a X2b].
  assert (N0 : angU p (pos v2) - angU p (pos v1) <> 0).
  { intros E. rewrite E in Hc. assert (D = 0 + 2 * PI * IZR 0) by (apply turn_unique; auto; simpl IZR; qlra). simpl IZR in *. qlra. }
  set (A1 := angU p (pos v1)) in *. set (A2 := angU p (pos v2)) in *.
  set (x := leftExpr (pos v1) (pos v2) p) in *.
  unfold arcWinding, py, px. rewrite Hin. fold x. clear Hin.
  rewrite Hccw. clear Hccw Hb Hne. rcbn. cbn [negb andb].
  rewrite !andb_true_r.
  destruct (Rleb (vy (pos v1)) (vy p)) eqn:E1; rbool.
  - pose proof (proj1 W1 E1) as A1l. destruct (Rltb (vy p) (vy (pos v2))) eqn:E2; rbool.
    + assert (A2 < PI) by (apply Rnot_le_lt; intros Q; apply W2 in Q; qlra).
      assert (G : (if isLeft (pos v1) (pos v2) p then 1%Z else 1%Z) = 1%Z) by (now destruct (isLeft _ _ _)). rewrite G. simpl IZR. qlra.
    + pose proof (proj1 W2 E2) as A2l. specialize (X1a A1l). specialize (X2a A2l).
      destruct (Rlt_dec (A2 - A1) 0) as [Q|Q].
      * assert (Hx : x <= 0). { apply Rnot_lt_le. intros Qx. apply L1 in Qx. qlra. }
        specialize (Hdot Hx). assert (Hxx : (vx (pos v1) - vx p) * (vx (pos v2) - vx p) < 0).
        { assert (0 <= (vy p - vy (pos v1)) * (vy p - vy (pos v2))) by (apply Rmult_le_pos; qlra). qlra. }
        assert (Hor : vx (pos v2) < vx p /\ vx p < vx (pos v1)).
        { destruct (split_sign _ _ Hxx) as [[S1 S2]|[S1 S2]]; [exfalso|qlra].
          pose proof (proj2 X1a ltac:(qlra)). pose proof (proj1 X2a ltac:(qlra)). qlra. }
        clear Hxx Hdot.
        rewrite (proj2 (isLeft_F _ _ _) Hx). cbn [negb].
        rewrite (proj2 (Rltb_spec _ _) (proj1 Hor)), (proj2 (Rltb_spec _ _) (proj2 Hor)). cbn [andb]. simpl IZR. qlra.
      * assert (G : (Rltb (vx (pos v2)) (vx p) && Rltb (vx p) (vx (pos v1)))%bool = false).
        { apply not_true_is_false. intros G. apply andb_true_iff in G. destruct G as [G1 G2]. rbool.
          pose proof (proj1 X1a G2). pose proof (proj2 X2a G1). qlra. }
        rewrite G. assert (G' : (if negb (isLeft (pos v1) (pos v2) p) then 0%Z else 0%Z) = 0%Z) by (now destruct (isLeft _ _ _)).
        rewrite G'. simpl IZR. qlra.
  - assert (A1 < PI) by (apply Rnot_le_lt; intros Q; apply W1 in Q; qlra).
    destruct (Rleb (vy (pos v2)) (vy p)) eqn:E2; rbool.
    + apply W2 in E2. assert (G : (if negb (isLeft (pos v1) (pos v2) p) then 0%Z else 0%Z) = 0%Z) by (now destruct (isLeft _ _ _)).
      rewrite G. simpl IZR. qlra.
    + assert (A2 < PI) by (apply Rnot_le_lt; intros Q; apply W2 in Q; qlra).
      specialize (X1b ltac:(assumption)). specialize (X2b ltac:(assumption)).
      destruct (Rlt_dec (A2 - A1) 0) as [Q|Q].
      * assert (Hx : x <= 0). { apply Rnot_lt_le. intros Qx. apply L1 in Qx. qlra. }
        specialize (Hdot Hx). assert (Hxx : (vx (pos v1) - vx p) * (vx (pos v2) - vx p) < 0).
        { assert (0 <= (vy (pos v1) - vy p) * (vy (pos v2) - vy p)) by (apply Rmult_le_pos; qlra). qlra. }
        assert (Hor : vx (pos v1) < vx p /\ vx p < vx (pos v2)).
        { destruct (split_sign _ _ Hxx) as [[S1 S2]|[S1 S2]]; [qlra|exfalso].
          pose proof (proj1 X1b ltac:(qlra)). pose proof (proj2 X2b ltac:(qlra)). qlra. }
        clear Hxx Hdot.
        rewrite (proj2 (isLeft_F _ _ _) Hx). cbn [negb].
        rewrite (proj2 (Rltb_spec _ _) (proj1 Hor)), (proj2 (Rltb_spec _ _) (proj2 Hor)). cbn [andb]. simpl IZR. qlra.
      * assert (G : (Rltb (vx (pos v1)) (vx p) && Rltb (vx p) (vx (pos v2)))%bool = false).
        { apply not_true_is_false. intros G. apply andb_true_iff in G. destruct G as [G1 G2]. rbool.
          pose proof (proj2 X1b G1). pose proof (proj1 X2b G2). qlra. }
        rewrite G. assert (G' : (if negb (isLeft (pos v1) (pos v2) p) then 0%Z else 0%Z) = 0%Z) by (now destruct (isLeft _ _ _)).
        rewrite G'. simpl IZR. qlra.
Qed.

Lemma arc_contrib_cw (v1 v2 : vertex) (p : vec) D : pos v1 <> p -> pos v2 <> p -> pos v1 <> pos v2 -> -1 <= bulge v1 < 0 ->
  distToArcCenterLessThanRadius v1 v2 p = true -> - (2 * PI) < D < 0 ->
  congruent (angU p (pos v2) - angU p (pos v1)) D ->
  D = angU p (pos v2) - angU p (pos v1) + 2 * PI * IZR (arcWinding v1 v2 p).
Proof.
  intros N1 N2 Hne Hb Hin HD Hc. apply turn_unique; auto.
  destruct (left_angle p _ _ N1 N2) as [L1 L2]. pose proof (angU_low p _ N1) as W1. pose proof (angU_low p _ N2) as W2.
  pose proof (angU_bounds p (pos v1)) as B1. pose proof (angU_bounds p (pos v2)) as B2. pose proof PI_RGT_0.
  pose proof (obtuse_cw v1 v2 p Hne Hb Hin) as Hdot.
  assert (Hccw : bulgeIsPos v1 = false) by (unfold bulgeIsPos; rcbn; apply not_true_is_false; intros Q; apply Rltb_spec in Q; qlra).
  destruct (angU_x p _ N1) as [X1a X1b]. destruct (angU_x p _ N2) as [X2a X2b].
  assert (N0 : angU p (pos v2) - angU p (pos v1) <> 0).
  { intros E. rewrite E in Hc. assert (D = 0 + 2 * PI * IZR 0) by (apply turn_unique; auto; simpl IZR; qlra). simpl IZR in *. qlra. }
  set (A1 := angU p (pos v1)) in *. set (A2 := angU p (pos v2)) in *.
  set (x := leftExpr (pos v1) (pos v2) p) in *.
  unfold arcWinding, py, px. rewrite Hin. fold x. clear Hin.
  rewrite Hccw. clear Hccw Hb Hne. rcbn. cbn [negb andb].
  rewrite !andb_true_r.
  destruct (Rleb (vy (pos v1)) (vy p)) eqn:E1; rbool.
  - pose proof (proj1 W1 E1) as A1l. destruct (Rltb (vy p) (vy (pos v2))) eqn:E2; rbool.
    + assert (A2 < PI) by (apply Rnot_le_lt; intros Q; apply W2 in Q; qlra).
      assert (G : (if isLeftOrEqual (pos v1) (pos v2) p then 0%Z else 0%Z) = 0%Z) by (now destruct (isLeftOrEqual _ _ _)). rewrite G. simpl IZR. qlra.
    + pose proof (proj1 W2 E2) as A2l. specialize (X1a A1l). specialize (X2a A2l).
      destruct (Rlt_dec 0 (A2 - A1)) as [Q|Q].
      * assert (Hx : 0 <= x). { apply Rnot_lt_le. intros Qx. apply L2 in Qx. qlra. }
        specialize (Hdot Hx). assert (Hxx : (vx (pos v1) - vx p) * (vx (pos v2) - vx p) < 0).
        { assert (0 <= (vy p - vy (pos v1)) * (vy p - vy (pos v2))) by (apply Rmult_le_pos; qlra). qlra. }
        assert (Hor : vx (pos v1) < vx p /\ vx p < vx (pos v2)).
        { destruct (split_sign _ _ Hxx) as [[S1 S2]|[S1 S2]]; [qlra|exfalso].
          pose proof (proj1 X1a ltac:(qlra)). pose proof (proj2 X2a ltac:(qlra)). qlra. }
        clear Hxx Hdot.
        rewrite (proj2 (isLeftOrEqual_R _ _ _) Hx). cbn [negb].
        rewrite (proj2 (Rltb_spec _ _) (proj1 Hor)), (proj2 (Rltb_spec _ _) (proj2 Hor)). cbn [andb]. simpl IZR. qlra.
      * assert (G : (Rltb (vx (pos v1)) (vx p) && Rltb (vx p) (vx (pos v2)))%bool = false).
        { apply not_true_is_false. intros G. apply andb_true_iff in G. destruct G as [G1 G2]. rbool.
          pose proof (proj2 X1a G1). pose proof (proj1 X2a G2). qlra. }
        rewrite G. assert (G' : (if isLeftOrEqual (pos v1) (pos v2) p then 0%Z else 0%Z) = 0%Z) by (now destruct (isLeftOrEqual _ _ _)).
        rewrite G'. simpl IZR. qlra.
  - assert (A1 < PI) by (apply Rnot_le_lt; intros Q; apply W1 in Q; qlra).
    destruct (Rleb (vy (pos v2)) (vy p)) eqn:E2; rbool.
    + apply W2 in E2. assert (G : (if isLeftOrEqual (pos v1) (pos v2) p then (-1)%Z else (-1)%Z) = (-1)%Z) by (now destruct (isLeftOrEqual _ _ _)).
      rewrite G. simpl IZR. qlra.
    + assert (A2 < PI) by (apply Rnot_le_lt; intros Q; apply W2 in Q; qlra).
      specialize (X1b ltac:(assumption)). specialize (X2b ltac:(assumption)).
      destruct (Rlt_dec 0 (A2 - A1)) as [Q|Q].
      * assert (Hx : 0 <= x). { apply Rnot_lt_le. intros Qx. apply L2 in Qx. qlra. }
        specialize (Hdot Hx). assert (Hxx : (vx (pos v1) - vx p) * (vx (pos v2) - vx p) < 0).
        { assert (0 <= (vy (pos v1) - vy p) * (vy (pos v2) - vy p)) by (apply Rmult_le_pos; qlra). qlra. }
        assert (Hor : vx (pos v2) < vx p /\ vx p < vx (pos v1)).
        { destruct (split_sign _ _ Hxx) as [[S1 S2]|[S1 S2]]; [exfalso|qlra].
          pose proof (proj2 X1b ltac:(qlra)). pose proof (proj1 X2b ltac:(qlra)). qlra. }
        clear Hxx Hdot.
        rewrite (proj2 (isLeftOrEqual_R _ _ _) Hx). cbn [negb].
        rewrite (proj2 (Rltb_spec _ _) (proj1 Hor)), (proj2 (Rltb_spec _ _) (proj2 Hor)). cbn [andb]. simpl IZR. qlra.
      * assert (G : (Rltb (vx (pos v2)) (vx p) && Rltb (vx p) (vx (pos v1)))%bool = false).
        { apply not_true_is_false. intros G. apply andb_true_iff in G. destruct G as [G1 G2]. rbool.
          pose proof (proj1 X1b G2). pose proof (proj2 X2b G1). qlra. }
        rewrite G. assert (G' : (if isLeftOrEqual (pos v1) (pos v2) p then 0%Z else 0%Z) = 0%Z) by (now destruct (isLeftOrEqual _ _ _)).
        rewrite G'. simpl IZR. qlra.
Qed.

(** ** One segment *)
Lemma vec_dec (p q : vec) : p = q \/ p <> q.
Proof.
  destruct (Req_dec (vx p) (vx q)) as [Ex|Ex]; [destruct (Req_dec (vy p) (vy q)) as [Ey|Ey]|].
  - left. now apply vec_eq. - right. intros E. apply Ey. now rewrite E. - right. intros E. apply Ex. now rewrite E.
Qed.

Definition segWinding (v1 v2 : vertex) (p : vec) : Z := if bulgeIsZero v1 then lineWinding v1 v2 p else arcWinding v1 v2 p.

Lemma angSpeed_ext p (P Q : R -> vec) t : (forall u, P u = Q u) -> angSpeed p P t = angSpeed p Q t.
Proof.
  intros E. unfold angSpeed. rewrite E.
  rewrite (Derive_ext (fun u => vy (P u)) (fun u => vy (Q u))) by (intros; now rewrite E).
  rewrite (Derive_ext (fun u => vx (P u)) (fun u => vx (Q u))) by (intros; now rewrite E).
  reflexivity.
Qed.

Lemma lerp_0 p q : lerp p q 0 = p.
Proof. unfold lerp. apply vec_eq; rcbn; ring. Qed.
Lemma lerp_1 p q : lerp p q 1 = q.
Proof. unfold lerp. apply vec_eq; rcbn; ring. Qed.
Lemma seg_ends v1 v2 : onSeg v1 v2 (pos v1) /\ onSeg v1 v2 (pos v2).
Proof.
  destruct (Rlt_dec (Rabs (bulge v1)) (1 / 100000)) as [Hl|Hl].
  - split; [exists 0|exists 1]; (split; [lra|]); apply (segPoint_line v1 v2 _ _ Hl); [now rewrite lerp_0|now rewrite lerp_1].
  - pose proof (notLine_ne v1 Hl) as Hb. pose proof (ctr_spec (pos v1) (pos v2) _ Hb) as Hc. unfold arcCentre in Hc.
    split; [exists 0|exists 1]; (split; [lra|]); apply (segPoint_arc v1 v2 _ _ Hl).
    + now rewrite Rmult_0_l, rot_0. + now rewrite Rmult_1_l.
Qed.

Lemma seg_turn (v1 v2 : vertex) (p : vec) (P : R -> vec) : Rabs (bulge v1) <= 1 ->
  (forall t, segPoint v1 v2 t (P t)) -> ~ onSeg v1 v2 p ->
  is_RInt (angSpeed p P) 0 1 (angU p (pos v2) - angU p (pos v1) + 2 * PI * IZR (segWinding v1 v2 p)).
Proof.
  intros Hb1 HP Hoff. destruct (seg_ends v1 v2) as [O1 O2].
  assert (N1 : pos v1 <> p) by (intros E; apply Hoff; now rewrite <- E).
  assert (N2 : pos v2 <> p) by (intros E; apply Hoff; now rewrite <- E).
  destruct (Rlt_dec (Rabs (bulge v1)) (1 / 100000)) as [Hl|Hl].
  - unfold segWinding. rewrite (proj2 (bulgeIsZero_R v1) Hl).
    destruct (line_turn (pos v1) (pos v2) p) as (D & H1 & H2 & H3).
    { intros t Ht E. apply Hoff. exists t. split; auto. now apply (segPoint_line v1 v2 _ _ Hl). }
    rewrite <- (line_contrib v1 v2 p D); auto. apply is_RInt_ext with (2 := H1). intros t _. apply angSpeed_ext.
    intros u. symmetry. apply (segPoint_line v1 v2 _ _ Hl), HP.
  - unfold segWinding. rewrite (proj2 (bulgeIsZero_false v1) Hl).
    pose proof (notLine_ne v1 Hl) as Hb. pose proof (ctr_spec (pos v1) (pos v2) _ Hb) as Hc. unfold arcCentre in Hc.
    set (c := ctr (pos v1) (pos v2) (bulge v1)) in *. set (th := sweep (bulge v1)) in *.
    assert (EP : forall u, rot c (u * th) (pos v1) = P u).
    { intros u. symmetry. apply (segPoint_arc v1 v2 _ _ Hl), HP. }
    assert (E0 : rot c (0 * th) (pos v1) = pos v1) by (now rewrite Rmult_0_l, rot_0).
    assert (E1 : rot c (1 * th) (pos v1) = pos v2) by (now rewrite Rmult_1_l).
    assert (Goal' : exists D, is_RInt (angSpeed p (fun t => rot c (t * th) (pos v1))) 0 1 D /\
        D = angU p (pos v2) - angU p (pos v1) + 2 * PI * IZR (arcWinding v1 v2 p)).
    { destruct (vec_dec (pos v1) (pos v2)) as [Ed|Hne].
      - (* degenerate arc *)
        assert (Ec : c = pos v1). { unfold c, ctr. rewrite <- Ed. apply vec_eq; rcbn; field. }
        destruct (arc_turn_out c (pos v1) p th) as (D & H1 & H2 & H3).
        { unfold sq2. rewrite Ec. rewrite (Rminus_diag_eq (vx (pos v1)) (vx (pos v1))) by auto. rewrite (Rminus_diag_eq (vy (pos v1)) (vy (pos v1))) by auto.
          rewrite Rmult_0_l, Rplus_0_l. apply sumsq_pos. apply vec_ne. auto. }
        cbv beta in H3. rewrite E0, E1 in H3. exists D. split; auto. apply arc_contrib_out; auto. now apply inCircle_degenerate.
      - assert (Hok : okArc v1 v2) by (repeat split; auto).
        pose proof (sweep_le_pi _ Hb1) as Hsw. fold th in Hsw. pose proof PI_RGT_0.
        pose proof (inCircle_R v1 v2 p Hb Hne) as Hin. fold c in Hin.
        assert (Hbb : -1 <= bulge v1 <= 1) by (destruct (Rabs_cases (bulge v1)) as [[? E]|[? E]]; rewrite E in Hb1; lra).
        destruct (Rtotal_order (sq2 p c) (sq2 (pos v1) c)) as [L|[L|L]].
        + destruct (arc_turn_in c (pos v1) p th L) as (D & H1 & H2 & H3 & H4 & H5). cbv beta in H5. rewrite E0, E1 in H5.
          exists D. split; auto. destruct (Rlt_dec 0 (bulge v1)) as [Hp|Hp].
          * pose proof (sweep_pos _ Hp). apply arc_contrib_ccw; auto; [lra|now apply Hin|]. split; [now apply H3|unfold th in *; lra].
          * assert (Hn : bulge v1 < 0) by lra. pose proof (sweep_neg _ Hn). apply arc_contrib_cw; auto; [lra|now apply Hin|]. split; [unfold th in *; lra|now apply H4].
        + destruct (arc_turn_on v1 v2 p Hok Hoff L) as (D & H1 & H2 & H3). fold c th in H1, H3. cbv beta in H3. rewrite E0, E1 in H3.
          exists D. split; auto. apply arc_contrib_out; auto. apply not_true_is_false. intros Q. apply Hin in Q. lra.
        + destruct (arc_turn_out c (pos v1) p th L) as (D & H1 & H2 & H3). cbv beta in H3. rewrite E0, E1 in H3.
          exists D. split; auto. apply arc_contrib_out; auto. apply not_true_is_false. intros Q. apply Hin in Q. lra. }
    destruct Goal' as (D & H1 & <-). apply is_RInt_ext with (2 := H1). intros t _. apply angSpeed_ext. intros u. apply EP.
Qed.

(** ** C24 *)
Open Scope R_scope.
(** [P v1 v2] is any parametrisation of the segments; the angle swept, seen from [p], over
    one traversal of the path is 2 PI times the winding number *)
Theorem C24_winding_number (pl : polyline) (p : vec) (P : vertex -> vertex -> R -> vec) :
  isClosed pl = true -> List.Forall (fun v => Rabs (bulge v) <= 1) (vertexes pl) ->
  (forall v1 v2 t, In (v1, v2) (pathSegs pl) -> segPoint v1 v2 t (P v1 v2 t)) ->
  (forall v1 v2, In (v1, v2) (pathSegs pl) -> ~ onSeg v1 v2 p) ->
  (forall v1 v2, In (v1, v2) (pathSegs pl) -> ex_RInt (angSpeed p (P v1 v2)) 0 1) /\
  fold_right Rplus 0 (map (fun e => RInt (angSpeed p (P (fst e) (snd e))) 0 1) (pathSegs pl)) =
  2 * PI * IZR (getWindingNumber pl p).
Proof.
  intros Hc Hb HP Hoff.
  assert (Hst : forall v1 v2, In (v1, v2) (pathSegs pl) -> Rabs (bulge v1) <= 1).
  { intros v1 v2 He. pose proof (Permutation_in _ (Permutation_sym (vsegs_perm pl)) He) as Hv.
    unfold vsegs in Hv. apply in_map_iff in Hv. destruct Hv as ([i j] & E & Hi). cbn [fst snd] in E. injection E as <- <-.
    apply C21_indices in Hi. rewrite List.Forall_forall in Hb. apply Hb. apply nth_In. lia. }
  assert (Hint : forall v1 v2, In (v1, v2) (pathSegs pl) -> is_RInt (angSpeed p (P v1 v2)) 0 1 (angU p (pos v2) - angU p (pos v1) + 2 * PI * IZR (segWinding v1 v2 p))).
  { intros v1 v2 He. apply seg_turn; eauto. }
  split; [intros v1 v2 He; eexists; apply Hint; auto|].
  match goal with |- fold_right Rplus 0 ?l = _ => change (sumR l = 2 * PI * IZR (getWindingNumber pl p)) end.
  assert (E1 : map (fun e => RInt (angSpeed p (P (fst e) (snd e))) 0 1) (pathSegs pl) =
     map (fun e : vertex * vertex => (angU p (pos (snd e)) - angU p (pos (fst e))) + 2 * PI * IZR (segWinding (fst e) (snd e) p)) (pathSegs pl)).
  { apply map_ext_in. intros [v1 v2] He. cbn [fst snd]. apply is_RInt_unique. apply Hint; auto. }
  rewrite E1, sumR_plus. rewrite (closed_telescope pl (fun v => angU p (pos v))) by auto. rewrite Rplus_0_l.
  assert (E2 : forall l : list (vertex * vertex), sumR (map (fun e => 2 * PI * IZR (segWinding (fst e) (snd e) p)) l) =
    2 * PI * IZR (fold_right Z.add 0%Z (map (fun e => segWinding (fst e) (snd e) p) l))).
  { induction l as [|e l IH]; [unfold sumR; cbn; lra|]. cbn [map]. rewrite sumR_cons, IH. cbn [fold_right]. rewrite plus_IZR. ring. }
  rewrite E2. do 2 f_equal.
  unfold getWindingNumber. rewrite Hc. cbn [negb orb].
  rewrite (visit_fold pl (fun w v1 v2 => (w + segWinding v1 v2 p)%Z)).
  assert (E3 : forall (l : list (vertex * vertex)) (w : Z), fold_left (fun st (e : vertex * vertex) => (st + segWinding (fst e) (snd e) p)%Z) l w = (w + fold_right Z.add 0 (map (fun e => segWinding (fst e) (snd e) p) l))%Z).
  { induction l as [|e l IH]; intros w; cbn [fold_left map fold_right]; [lia|]. rewrite IH. lia. }
  rewrite E3. 
  assert (E4 : forall l l' : list Z, Permutation l l' -> fold_right Z.add 0%Z l = fold_right Z.add 0%Z l').
  { induction 1; cbn [fold_right]; lia. }
  rewrite (E4 _ _ (Permutation_map (fun e => segWinding (fst e) (snd e) p) (vsegs_perm pl))). 
  destruct (Nat.ltb_spec (size pl) 2) as [L|L]; [|lia].
  unfold pathSegs, size in *. destruct (vertexes pl) as [|a [|b l]]; cbn [length] in L; try lia; reflexivity.
Qed.

(** with bulges beyond half circles the claim is false: a 286 degree arc closed by its
    chord, seen from an inside point beside the chord, is reported as not winding *)
Theorem C24_large_bulge_refuted :
  let v1 := mkVertex (3 / 5) (- (4 / 5)) 3 in let v2 := mkVertex (- (3 / 5)) (- (4 / 5)) 0 in
  let pl := mkPline true [v1; v2] in let p := mkV (9 / 10) 0 in
  exists P : vertex -> vertex -> R -> vec,
  (forall a b t, In (a, b) (pathSegs pl) -> segPoint a b t (P a b t)) /\
  (forall a b, In (a, b) (pathSegs pl) -> ~ onSeg a b p) /\
  (forall a b, In (a, b) (pathSegs pl) -> ex_RInt (angSpeed p (P a b)) 0 1) /\
  getWindingNumber pl p = 0%Z /\
  0 < fold_right Rplus 0 (map (fun e => RInt (angSpeed p (P (fst e) (snd e))) 0 1) (pathSegs pl)).
Proof.
  intros v1 v2 pl p.
  assert (Hl1 : ~ isLine v1). { unfold isLine, v1. cbn [bulge mkVertex]. rewrite Rabs_right; lra. }
  assert (Hl2 : isLine v2). { unfold isLine, v2. cbn [bulge mkVertex]. rewrite Rabs_R0; lra. }
  assert (Ec : ctr (pos v1) (pos v2) (bulge v1) = mkV 0 0).
  { unfold ctr, cK, v1, v2, mkVertex. apply vec_eq; rcbn; field. }
  set (P := fun (a b : vertex) t => if Rlt_dec (Rabs (bulge a)) (1 / 100000) then lerp (pos a) (pos b) t
              else rot (ctr (pos a) (pos b) (bulge a)) (t * sweep (bulge a)) (pos a)).
  assert (EP1 : forall t, P v1 v2 t = rot (mkV 0 0) (t * sweep (bulge v1)) (pos v1)).
  { intros t. unfold P. destruct (Rlt_dec _ _) as [Q|Q]; [contradiction|]. now rewrite Ec. }
  assert (EP2 : forall t, P v2 v1 t = lerp (pos v2) (pos v1) t).
  { intros t. unfold P. destruct (Rlt_dec _ _) as [Q|Q]; [auto|contradiction]. }
  assert (Hsq : sq2 p (mkV 0 0) < sq2 (pos v1) (mkV 0 0)).
  { unfold sq2, p, v1, mkVertex. rcbn. lra. }
  assert (Off1 : ~ onSeg v1 v2 p).
  { intros (t & Ht & Q). apply (segPoint_arc _ _ _ _ Hl1) in Q. rewrite Ec in Q. rewrite Q, sq2_rot in Hsq. lra. }
  assert (Off2' : forall t, 0 <= t <= 1 -> lerp (pos v2) (pos v1) t <> p).
  { intros t Ht Q. apply (f_equal vy) in Q. unfold lerp, p, v1, v2, mkVertex in Q. rcbn. lra. }
  assert (Off2 : ~ onSeg v2 v1 p).
  { intros (t & Ht & Q). apply (segPoint_line _ _ _ _ Hl2) in Q. apply (Off2' t Ht). auto. }
  assert (Hs : 0 < sweep (bulge v1)). { apply sweep_pos. unfold v1, mkVertex. rcbn. lra. }
  destruct (arc_turn_in (mkV 0 0) (pos v1) p (sweep (bulge v1)) Hsq) as (D1 & I1 & _ & S1 & _ & _).
  specialize (S1 Hs).
  destruct (line_turn (pos v2) (pos v1) p Off2') as (D2 & I2 & B2 & C2).
  assert (N1 : pos v1 <> p). { intros Q. apply (f_equal vy) in Q. unfold p, v1, mkVertex in Q. rcbn. lra. }
  assert (N2 : pos v2 <> p). { intros Q. apply (f_equal vy) in Q. unfold p, v2, mkVertex in Q. rcbn. lra. }
  assert (S2 : 0 < D2).
  { pose proof (line_contrib v2 v1 p D2 N2 N1 B2 C2) as E.
    destruct (left_angle p _ _ N2 N1) as [L1 _].
    assert (Q : 0 < leftExpr (pos v2) (pos v1) p). { unfold leftExpr, p, v1, v2, mkVertex. rcbn. lra. }
    apply L1 in Q. clear L1.
    assert (W1 : PI <= angU p (pos v1)). { apply angU_low; auto. unfold p, v1, mkVertex. rcbn. lra. }
    assert (W2 : PI <= angU p (pos v2)). { apply angU_low; auto. unfold p, v2, mkVertex. rcbn. lra. }
    pose proof (angU_bounds p (pos v1)). pose proof (angU_bounds p (pos v2)). pose proof PI_RGT_0.
    assert (Ew : lineWinding v2 v1 p = 0%Z).
    { unfold lineWinding, p, v1, v2, mkVertex, py. rcbn. destruct (Rleb (- (4 / 5)) 0) eqn:E1; rbool; [|lra].
      destruct (Rltb 0 (- (4 / 5))) eqn:E2; rbool; [lra|]. reflexivity. }
    rewrite Ew in E. simpl IZR in E. lra. }
  assert (J1 : is_RInt (angSpeed p (P v1 v2)) 0 1 D1).
  { apply is_RInt_ext with (2 := I1). intros t _. apply angSpeed_ext. intros u. now rewrite EP1. }
  assert (J2 : is_RInt (angSpeed p (P v2 v1)) 0 1 D2).
  { apply is_RInt_ext with (2 := I2). intros t _. apply angSpeed_ext. intros u. now rewrite EP2. }
  assert (Es : pathSegs pl = [(v1, v2); (v2, v1)]) by reflexivity. rewrite Es.
  assert (All : forall (Q : vertex -> vertex -> Prop), Q v1 v2 -> Q v2 v1 -> forall a b, In (a, b) [(v1, v2); (v2, v1)] -> Q a b).
  { intros Q Q1 Q2 a b [E|[E|[]]]; injection E as <- <-; auto. }
  exists P. split; [|split; [|split; [|split]]].
  - intros a b t. revert a b. apply All.
    + apply (segPoint_arc _ _ _ _ Hl1). now rewrite EP1, Ec. + apply (segPoint_line _ _ _ _ Hl2). now rewrite EP2.
  - now apply All.
  - apply All; eexists; eauto.
  - unfold getWindingNumber, pl, size. cbn [isClosed negb orb vertexes length Nat.ltb Nat.leb].
    rewrite (visit_fold (mkPline true [v1; v2]) (fun w v1 v2 => (w + segWinding v1 v2 p)%Z)).
    assert (Ev : vsegs (mkPline true [v1; v2]) = [(v2, v1); (v1, v2)]) by reflexivity. rewrite Ev. cbn [fold_left fst snd].
    unfold segWinding. rewrite (proj2 (bulgeIsZero_R v2) Hl2), (proj2 (bulgeIsZero_false v1) Hl1).
    assert (Ew : lineWinding v2 v1 p = 0%Z).
    { unfold lineWinding, p, v1, v2, mkVertex, py. rcbn. destruct (Rleb (- (4 / 5)) 0) eqn:E1; rbool; [|lra].
      destruct (Rltb 0 (- (4 / 5))) eqn:E2; rbool; [lra|]. reflexivity. }
    assert (Ew2 : arcWinding v1 v2 p = 0%Z).
    { unfold arcWinding. set (ic := distToArcCenterLessThanRadius v1 v2 p). set (il := if bulgeIsPos v1 then isLeft (pos v1) (pos v2) p else isLeftOrEqual (pos v1) (pos v2) p). clearbody ic il.
      unfold bulgeIsPos, p, v1, v2, mkVertex, py, px. rcbn.
      destruct (Rltb 0 3) eqn:E3; rbool; [|lra].
      destruct (Rleb (- (4 / 5)) 0) eqn:E1; rbool; [|lra]. destruct (Rltb 0 (- (4 / 5))) eqn:E2; rbool; [lra|].
      destruct (Rltb (9 / 10) (3 / 5)) eqn:E4; rbool; [lra|]. cbn [andb negb]. rewrite andb_false_r. cbn [andb]. now destruct il. }
    rewrite Ew, Ew2. reflexivity.
  - cbn [map fold_right fst snd]. rewrite (is_RInt_unique _ _ _ _ J1), (is_RInt_unique _ _ _ _ J2). lra.
Qed.

(** ** C25 *)
Theorem C25_open_or_short (pl : polyline) (p : vec) : isClosed pl = false \/ (length (vertexes pl) < 2)%nat -> getWindingNumber pl p = 0%Z.
Proof.
  intros H. unfold getWindingNumber, size. destruct H as [->|H]; [reflexivity|].
  apply Nat.ltb_lt in H. rewrite H, orb_true_r. reflexivity.
Qed.

Lemma rev_turn (p : vec) (P : R -> vec) D : (forall t, ex_derive (fun u => vx (P u)) t) -> (forall t, ex_derive (fun u => vy (P u)) t) ->
  is_RInt (angSpeed p P) 0 1 D -> is_RInt (angSpeed p (fun t => P (1 - t))) 0 1 (- D).
Proof.
  intros DX DY H.
  apply is_RInt_ext with (fun t => - (angSpeed p P (1 - t))).
  { intros t _. unfold angSpeed.
    assert (E : forall f : R -> R, (forall t, ex_derive f t) -> Derive (fun u => f (1 - u)) t = - Derive f (1 - t)).
    { intros f Hf. apply is_derive_unique.
      pose proof (Derive_correct f (1 - t) (Hf _)) as Q.
      assert (Q1 : is_derive (fun u => 1 - u) t (-1)) by (auto_derive; auto; ring).
      pose proof (is_derive_comp f (fun u => 1 - u) t _ _ Q Q1) as Q2.
      eapply eq_ind; [exact Q2|]. unfold scal. cbn. unfold mult. cbn. asR. ring. }
    rewrite (E (fun u => vy (P u)) DY), (E (fun u => vx (P u)) DX). unfold Rdiv. cbn beta. asR. rcbn. ring. }
  assert (Q : is_RInt (angSpeed p P) (-1 * 0 + 1) (-1 * 1 + 1) (- D)).
  { replace (-1 * 0 + 1) with 1 by ring. replace (-1 * 1 + 1) with 0 by ring.
    change (- D) with (opp D). apply is_RInt_swap. exact H. }
  apply is_RInt_comp_lin in Q. apply is_RInt_ext with (2 := Q). intros t _. unfold scal. cbn. unfold mult. cbn.
  replace (-1 * t + 1) with (1 - t) by ring. asR. ring.
Qed.

Lemma seg_smooth v1 v2 (P : R -> vec) : (forall t, segPoint v1 v2 t (P t)) ->
  (forall t, ex_derive (fun u => vx (P u)) t) /\ (forall t, ex_derive (fun u => vy (P u)) t).
Proof.
  intros HP. destruct (Rlt_dec (Rabs (bulge v1)) (1 / 100000)) as [Hl|Hl].
  - assert (EP : forall u, lerp (pos v1) (pos v2) u = P u) by (intros u; symmetry; apply (segPoint_line v1 v2 _ _ Hl), HP).
    split; intros t.
    + apply ex_derive_ext with (fun u => vx (lerp (pos v1) (pos v2) u)); [intros u; now rewrite EP|]. unfold lerp. cbn [vx]. auto_derive. auto.
    + apply ex_derive_ext with (fun u => vy (lerp (pos v1) (pos v2) u)); [intros u; now rewrite EP|]. unfold lerp. cbn [vy]. auto_derive. auto.
  - set (c := ctr (pos v1) (pos v2) (bulge v1)). 
    assert (EP : forall u, rot c (u * sweep (bulge v1)) (pos v1) = P u) by (intros u; symmetry; apply (segPoint_arc v1 v2 _ _ Hl), HP).
    split; intros t.
    + apply ex_derive_ext with (fun u => vx (rot c (u * sweep (bulge v1)) (pos v1))); [intros u; now rewrite EP|]. eexists. apply arc_dX.
    + apply ex_derive_ext with (fun u => vy (rot c (u * sweep (bulge v1)) (pos v1))); [intros u; now rewrite EP|]. eexists. apply arc_dY.
Qed.

(** reversed segment *)
Lemma segPoint_rev p q b b' b'' t x : segPoint (mkVtx p b) (mkVtx q b') t x -> segPoint (mkVtx q (- b)) (mkVtx p b'') (1 - t) x.
Proof.
  intros [[Hl E]|[Hl (c & Hc & E)]]; cbn [pos bulge] in *.
  - left. unfold isLine in *. cbn [bulge] in *. split; [now rewrite Rabs_Ropp|]. rewrite E. unfold lerp. apply vec_eq; rcbn; ring.
  - right. unfold isLine in *. cbn [bulge pos] in *. split; [now rewrite Rabs_Ropp|]. exists c. rewrite sweep_opp. unfold arcCentre in *.
    rewrite sweep_opp. rewrite <- Hc. rewrite !rot_rot. split.
    + replace (- sweep b + sweep b) with 0 by ring. apply rot_0.
    + rewrite E. f_equal. ring.
Qed.

Lemma segWinding_rev p q b b' b'' x : Rabs b <= 1 -> ~ onSeg (mkVtx p b) (mkVtx q b') x ->
  segWinding (mkVtx q (- b)) (mkVtx p b'') x = (- segWinding (mkVtx p b) (mkVtx q b') x)%Z.
Proof.
  intros Hb Hoff. destruct (C23_parametrisation_exists (mkVtx p b) (mkVtx q b')) as [P HP].
  pose proof (seg_turn (mkVtx p b) (mkVtx q b') x P Hb HP Hoff) as I1.
  destruct (seg_smooth _ _ P HP) as [S1 S2]. apply (rev_turn x P _ S1 S2) in I1.
  assert (HP' : forall t, segPoint (mkVtx q (- b)) (mkVtx p b'') t (P (1 - t))).
  { intros t. replace t with (1 - (1 - t)) at 1 by ring. now apply segPoint_rev with b'. }
  assert (Hoff' : ~ onSeg (mkVtx q (- b)) (mkVtx p b'') x).
  { intros (t & Ht & Q). apply Hoff. exists (1 - t). split; [lra|]. apply (segPoint_rev q p (- b) b'' b') in Q. now rewrite Ropp_involutive in Q. }
  assert (Hb' : Rabs (- b) <= 1) by (now rewrite Rabs_Ropp).
  pose proof (seg_turn (mkVtx q (- b)) (mkVtx p b'') x (fun t => P (1 - t)) Hb' HP' Hoff') as I2.
  pose proof (is_RInt_unique _ _ _ _ I1) as U1. pose proof (is_RInt_unique _ _ _ _ I2) as U2. cbv beta in U1, U2.
  rewrite U1 in U2. cbn [pos] in U2. apply eq_IZR. rewrite opp_IZR. pose proof PI_RGT_0.
  apply Rmult_eq_reg_l with (2 * PI); [|lra]. lra.
Qed.

Lemma getWindingNumber_sum pl p : isClosed pl = true ->
  getWindingNumber pl p = fold_right Z.add 0%Z (map (fun e : vec * R * vec => let '(a, b, q) := e in segWinding (mkVtx a b) (mkVtx q 0) p) (trace pl)).
Proof.
  intros Hc. unfold trace. rewrite map_map.
  assert (Ew : forall e : vertex * vertex, (let '(a, b, q) := seg3 e in segWinding (mkVtx a b) (mkVtx q 0) p) = segWinding (fst e) (snd e) p).
  { intros [[a b] [q c]]. reflexivity. }
  rewrite (map_ext _ _ Ew).
  unfold getWindingNumber. rewrite Hc. cbn [negb orb].
  rewrite (visit_fold pl (fun w v1 v2 => (w + segWinding v1 v2 p)%Z)).
  assert (E3 : forall (l : list (vertex * vertex)) (w : Z), fold_left (fun st (e : vertex * vertex) => (st + segWinding (fst e) (snd e) p)%Z) l w = (w + fold_right Z.add 0 (map (fun e => segWinding (fst e) (snd e) p) l))%Z).
  { induction l as [|e l IH]; intros w; cbn [fold_left map fold_right]; [lia|]. rewrite IH. lia. }
  rewrite E3. 
  assert (E4 : forall l l' : list Z, Permutation l l' -> fold_right Z.add 0%Z l = fold_right Z.add 0%Z l').
  { induction 1; cbn [fold_right]; lia. }
  rewrite (E4 _ _ (Permutation_map (fun e => segWinding (fst e) (snd e) p) (vsegs_perm pl))). 
  destruct (Nat.ltb_spec (size pl) 2) as [L|L]; [|lia].
  unfold pathSegs, size in *. destruct (vertexes pl) as [|a [|b l]]; cbn [length] in L; try lia; reflexivity.
Qed.

Theorem C25_invert_negates (pl : polyline) (p : vec) :
  List.Forall (fun v => Rabs (bulge v) <= 1) (vertexes pl) ->
  (forall v1 v2, In (v1, v2) (pathSegs pl) -> ~ onSeg v1 v2 p) ->
  getWindingNumber (invertDirection pl) p = (- getWindingNumber pl p)%Z.
Proof.
  intros Hb Hoff. destruct (C22_closed_flag_and_size pl) as (Hc & Hl & _).
  destruct (isClosed pl) eqn:E; [|rewrite !C25_open_or_short by (auto; left; congruence); reflexivity].
  rewrite !getWindingNumber_sum by auto.
  assert (E4 : forall l l' : list Z, Permutation l l' -> fold_right Z.add 0%Z l = fold_right Z.add 0%Z l').
  { induction 1; cbn [fold_right]; lia. }
  match goal with |- fold_right Z.add 0%Z (map ?f _) = _ => rewrite (E4 _ _ (Permutation_map f (trace_invert_perm pl))) end.
  rewrite map_map. unfold trace. rewrite !map_map.
  assert (Hst : forall v1 v2, In (v1, v2) (pathSegs pl) -> Rabs (bulge v1) <= 1).
  { intros v1 v2 He. pose proof (Permutation_in _ (Permutation_sym (vsegs_perm pl)) He) as Hv.
    unfold vsegs in Hv. apply in_map_iff in Hv. destruct Hv as ([i j] & E' & Hi). cbn [fst snd] in E'. injection E' as <- <-.
    apply C21_indices in Hi. rewrite List.Forall_forall in Hb. apply Hb. apply nth_In. lia. }
  revert Hoff Hst. generalize (pathSegs pl) as l. induction l as [|[v1 v2] l IH]; intros Hoff Hst; [reflexivity|].
  cbn [map fold_right]. rewrite IH.
  - unfold seg3, rev3. cbn [fst snd]. rewrite (segWinding_rev (pos v1) (pos v2) (bulge v1) 0 0 p).
    + lia. + apply (Hst v1 v2). now left.
    + intros (t & Ht & Q). apply (Hoff v1 v2); [now left|]. exists t. split; auto.
  - intros a b Hi. apply Hoff. now right.
  - intros a b Hi. apply (Hst a b). now right.
Qed.

(** non-vacuity: the origin has winding number 1 in the unit disc, -1 in its inverse *)
Example C24_disc : getWindingNumber (mkPline true [mkVertex (-1) 0 1; mkVertex 1 0 1]) (mkV 0 (1 / 2)) = 1%Z.
Proof.
  rewrite getWindingNumber_sum by auto. unfold trace, pathSegs. cbn [vertexes isClosed openSegs app last map fold_right seg3 fst snd pos bulge mkVertex].
  unfold segWinding, bulgeIsZero, arcWinding, bulgeIsPos, py, px. cbn [pos bulge]. rcbn. rewrite Rabs_R1.
  destruct (Rltb 1 (1 / 100000)) eqn:E1; rbool; [lra|].
  destruct (Rltb 0 1) eqn:E2; rbool; [|lra].
  destruct (Rleb 0 (1 / 2)) eqn:E3; rbool; [|lra].
  destruct (Rltb (1 / 2) 0) eqn:E4; rbool; [lra|].
  destruct (Rltb 0 (-1)) eqn:E5; rbool; [lra|]. destruct (Rltb (-1) 0) eqn:E6; rbool; [|lra].
  cbn [andb negb].
  assert (L : forall q, isLeft (mkV 1 0) (mkV (-1) 0) (mkV 0 (1 / 2)) = q -> q = false).
  { intros q <-. apply isLeft_F. unfold leftExpr. rcbn. lra. }
  rewrite (L _ eq_refl). cbn [negb].
  assert (I : distToArcCenterLessThanRadius (mkVtx (mkV 1 0) 1) (mkVtx (mkV (-1) 0) 0) (mkV 0 (1 / 2)) = true).
  { apply inCircle_R; cbn [bulge pos]; [lra|intros E; injection E; lra|]. unfold sq2, ctr, cK. rcbn. lra. }
  rewrite I. destruct (isLeft (mkV (-1) 0) (mkV 1 0) (mkV 0 (1 / 2))); cbn [negb andb]; [destruct (Rltb 0 1); reflexivity|].
  destruct (Rltb 1 0) eqn:E7; rbool; [lra|]. reflexivity.
Qed.
