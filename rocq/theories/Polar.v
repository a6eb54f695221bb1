(** * Polar: atan2, angles of rotated points, deltaAngle of arc end points.
    No /repo code is modelled here. *)
From Coq Require Import ZArith Reals Lra Lia Psatz List Bool.
From Verif Require Import Base Num MathUtils PlineSegment RGeom Spec PropsMath ArcGeom.
Import ListNotations.
Open Scope R_scope.

Lemma polar_aux x z : 0 < x -> x = sqrt (x * x + (z * x) * (z * x)) * cos (atan z) /\
  z * x = sqrt (x * x + (z * x) * (z * x)) * sin (atan z).
Proof.
  intros Hx. destruct (bulge_trig z) as (Hc & Hs & E).
  assert (R : sqrt (x * x + (z * x) * (z * x)) = x / cos (atan z)).
  { apply sqrt_lem_1.
    - apply sumsq_nonneg.
    - apply Rlt_le, Rdiv_lt_0_compat; auto.
    - assert (Ec : x * x = x * x * (cos (atan z) * cos (atan z) * (1 + z * z))) by (rewrite E; ring).
      field_simplify_eq; [|lra]. rewrite !Rpow_mult_distr || idtac. nra. }
  rewrite R, Hs. split; field; lra.
Qed.

Lemma polar x y : x <> 0 \/ y <> 0 ->
  x = sqrt (x * x + y * y) * cos (Ratan2 y x) /\ y = sqrt (x * x + y * y) * sin (Ratan2 y x).
Proof.
  intros H. unfold Ratan2.
  destruct (Rlt_dec 0 x) as [H1|H1].
  - destruct (polar_aux x (y / x) H1) as [A B].
    replace (y / x * x) with y in A, B by (field; lra). split; auto.
  - destruct (Rlt_dec x 0) as [H2|H2].
    + destruct (polar_aux (- x) (y / x) ltac:(lra)) as [A B].
      replace (y / x * - x) with (- y) in A, B by (field; lra).
      replace (- x * - x + - y * - y) with (x * x + y * y) in A, B by ring.
      destruct (Rle_dec 0 y).
      * rewrite neg_cos, neg_sin. lra.
      * replace (atan (y / x) - PI) with (- (PI - atan (y / x))) by ring.
        rewrite cos_neg, sin_neg. rewrite Rtrigo_facts.cos_pi_minus, Rtrigo_facts.sin_pi_minus. lra.
    + assert (x = 0) by lra. subst x. replace (0 * 0 + y * y) with (y * y) by ring.
      destruct (Rlt_dec 0 y) as [H3|H3].
      * rewrite cos_PI2, sin_PI2, sqrt_square by lra. lra.
      * destruct (Rlt_dec y 0) as [H4|H4].
        -- rewrite cos_neg, sin_neg, cos_PI2, sin_PI2.
           replace (y * y) with (- y * - y) by ring. rewrite sqrt_square by lra. lra.
        -- exfalso. lra.
Qed.

Lemma Ratan2_bounds y x : - PI < Ratan2 y x <= PI.
Proof.
  unfold Ratan2. pose proof (atan_bound (y / x)) as [A B]. pose proof PI_RGT_0.
  destruct (Rlt_dec 0 x); [lra|]. destruct (Rlt_dec x 0) as [Hx|Hx].
  - assert (Hs : y / x = - (y / - x)) by (field; lra).
    destruct (Rle_dec 0 y) as [Hy|Hy].
    + split; [lra|]. destruct (Req_dec y 0) as [->|Hy0].
      * replace (0 / x) with 0 by (field; lra). rewrite atan_0. lra.
      * pose proof (atan_neg (y / x)). assert (0 < y / - x) by (apply Rdiv_lt_0_compat; lra). lra.
    + pose proof (atan_pos (y / x)).
      assert (0 < - y / - x) by (apply Rdiv_lt_0_compat; lra).
      assert (- y / - x = y / x) by (field; lra). lra.
  - destruct (Rlt_dec 0 y); [lra|]. destruct (Rlt_dec y 0); lra.
Qed.

Lemma cos_sin_congruent a b : cos a = cos b -> sin a = sin b -> congruent a b.
Proof.
  intros Hc Hs.
  destruct (C09_deltaAngle a b) as [[B1 B2] [k Hk]]. set (d := deltaAngle a b) in *. clearbody d.
  assert (Cd : cos d = 1).
  { replace d with (b - a + IZR k * (2 * PI)) by lra.
    rewrite <- (congruent_cos (b - a)) by (exists k; reflexivity).
    rewrite cos_minus, Hc, Hs. pose proof (sin2_cos2 b) as E. unfold Rsqr in E. lra. }
  assert (Hd : d = 0).
  { replace d with (2 * (d / 2)) in Cd by field. rewrite cos_2a_sin in Cd.
    assert (Z : sin (d / 2) = 0) by (pose proof (sq_nonneg (sin (d / 2))); nra).
    destruct (Rtotal_order d 0) as [L|[L|L]]; auto; exfalso.
    - assert (0 < sin (- (d / 2))) by (apply sin_gt_0; lra). rewrite sin_neg in *. lra.
    - assert (0 < sin (d / 2)) by (apply sin_gt_0; lra). lra. }
  exists (- k)%Z. rewrite opp_IZR. lra.
Qed.

Lemma polar_congruent r s a b : 0 < r -> 0 < s ->
  r * cos a = s * cos b -> r * sin a = s * sin b -> congruent a b.
Proof.
  intros Hr Hs H1 H2.
  pose proof (sin2_cos2 a) as Ea. pose proof (sin2_cos2 b) as Eb. unfold Rsqr in *.
  assert (r * r = s * s).
  { replace (r * r) with (r * cos a * (r * cos a) + r * sin a * (r * sin a)).
    - rewrite H1, H2. transitivity (s * s * (sin b * sin b + cos b * cos b)); [ring|rewrite Eb; ring].
    - transitivity (r * r * (sin a * sin a + cos a * cos a)); [ring|rewrite Ea; ring]. }
  assert (r = s) by nra. subst s.
  apply cos_sin_congruent; nra.
Qed.

(** the angle of a point seen from [c] *)
Lemma angle_polar (c p : vec) : p <> c ->
  vx p - vx c = dist c p * cos (angle c p) /\ vy p - vy c = dist c p * sin (angle c p) /\ 0 < dist c p.
Proof.
  intros H. unfold angle, dist. rcbn.
  assert (Hne : vx p - vx c <> 0 \/ vy p - vy c <> 0) by (apply vec_ne; auto).
  replace ((vx c - vx p) ^ 2 + (vy c - vy p) ^ 2)
    with ((vx p - vx c) * (vx p - vx c) + (vy p - vy c) * (vy p - vy c)) by ring.
  destruct (polar _ _ Hne) as [A B]. split; [exact A|]. split; [exact B|].
  apply sqrt_lt_R0. now apply sumsq_pos.
Qed.

Lemma angle_bounds (c p : vec) : - PI < angle c p <= PI.
Proof. apply Ratan2_bounds. Qed.

Lemma dist_rot c th p : dist c (rot c th p) = dist c p.
Proof.
  unfold dist. f_equal. unfold rot. rcbn.
  pose proof (sin2_cos2 th) as E. unfold Rsqr in E.
  transitivity ((sin th * sin th + cos th * cos th) * ((vx c - vx p) ^ 2 + (vy c - vy p) ^ 2)); [ring|].
  rewrite E. ring.
Qed.

Lemma dist_pos_ne c p : 0 < dist c p -> p <> c.
Proof.
  intros H ->. unfold dist in H. replace ((vx c - vx c) ^ 2 + (vy c - vy c) ^ 2) with 0 in H by ring.
  rewrite sqrt_0 in H. lra.
Qed.

Lemma angle_rot c th p : p <> c -> congruent (angle c p + th) (angle c (rot c th p)).
Proof.
  intros H. destruct (angle_polar c p H) as (A & B & D).
  assert (H' : rot c th p <> c) by (apply dist_pos_ne; now rewrite dist_rot).
  destruct (angle_polar c _ H') as (A' & B' & D').
  rewrite dist_rot in *. apply (polar_congruent (dist c p) (dist c p)); auto.
  - rewrite <- A'. unfold rot. rcbn. rewrite A, B, cos_plus. ring.
  - rewrite <- B'. unfold rot. rcbn. rewrite A, B, sin_plus. ring.
Qed.

(** deltaAngle between the angles of p and of its rotation *)
Lemma delta_rot c th p : p <> c -> congruent th (deltaAngle (angle c p) (angle c (rot c th p))).
Proof.
  intros H. destruct (C09_deltaAngle (angle c p) (angle c (rot c th p))) as [_ H2].
  eapply congruent_trans; [|exact H2]. destruct (angle_rot c th p H) as [k Hk].
  exists k. rewrite Hk. ring.
Qed.

Lemma delta_rot_eq c th p : p <> c -> - PI < th <= PI ->
  deltaAngle (angle c p) (angle c (rot c th p)) = th.
Proof.
  intros H Hth. symmetry. apply (congruent_unique' _ _ (- PI)).
  - now apply delta_rot. - lra.
  - destruct (C09_deltaAngle (angle c p) (angle c (rot c th p))) as [H2 _]. lra.
Qed.

Lemma rot_add_center c th p q : rot c th p = q -> congruent th 0 -> p = q.
Proof. intros <- H. rewrite (rot_congruent _ _ _ _ H). now rewrite rot_0. Qed.

Lemma pointOnCircle_rot c th p : p <> c ->
  pointOnCircle (dist c p) c (angle c p + th) = rot c th p.
Proof.
  intros H. destruct (angle_polar c p H) as (A & B & D).
  unfold pointOnCircle, rot. apply vec_eq; rcbn; rewrite A, B.
  - rewrite cos_plus. ring. - rewrite sin_plus. ring.
Qed.
