(** * C17, C18, C19: line/line, line/circle and circle/circle intersections over exact reals *)
From Coq Require Import ZArith Reals Lra Lia Psatz List Bool.
From Verif Require Import Base Num MathUtils PlineSegment RGeom Spec PropsMath ArcGeom Polar PropsSegment PropsClosest.
Import ListNotations.
Open Scope R_scope.

(** ** Specification *)
(** cross product of the directions a->b and c->d *)
Definition cross (a b c d : vec) : R :=
  (vx b - vx a) * (vy d - vy c) - (vy b - vy a) * (vx d - vx c).
Definition eps : R := 1 / 100000000.
(** parametric tolerance *)
Definition inRange (t : R) : Prop := - eps <= t <= 1 + eps.

Lemma eps_pos : 0 < eps. Proof. unfold eps. lra. Qed.

(** the lines through u1,u2 and v1,v2 meet in one point *)
Lemma lines_meet u1 u2 v1 v2 s t : cross u1 u2 v1 v2 <> 0 -> lerp u1 u2 s = lerp v1 v2 t ->
  s = cross v1 v2 v1 u1 / cross u1 u2 v1 v2 /\ t = cross u1 u2 v1 u1 / cross u1 u2 v1 v2.
Proof.
  intros Hd H. unfold lerp in H. injection H as H1 H2. unfold cross in *. rcbn.
  apply Rminus_diag_eq in H1, H2.
  set (d := (vx u2 - vx u1) * (vy v2 - vy v1) - (vy u2 - vy u1) * (vx v2 - vx v1)) in *.
  split; apply Rmult_eq_reg_r with d; auto; unfold Rdiv; rewrite Rmult_assoc, Rinv_l, Rmult_1_r by auto;
  apply Rminus_diag_uniq.
  - transitivity ((vx u1 + s * (vx u2 - vx u1) - (vx v1 + t * (vx v2 - vx v1))) * (vy v2 - vy v1) -
      (vy u1 + s * (vy u2 - vy u1) - (vy v1 + t * (vy v2 - vy v1))) * (vx v2 - vx v1)); [unfold d; ring|].
    rewrite H1, H2. ring.
  - transitivity ((vx u1 + s * (vx u2 - vx u1) - (vx v1 + t * (vx v2 - vx v1))) * (vy u2 - vy u1) -
      (vy u1 + s * (vy u2 - vy u1) - (vy v1 + t * (vy v2 - vy v1))) * (vx u2 - vx u1)); [unfold d; ring|].
    rewrite H1, H2. ring.
Qed.

Lemma lerp_meet u1 u2 v1 v2 : cross u1 u2 v1 v2 <> 0 ->
  lerp u1 u2 (cross v1 v2 v1 u1 / cross u1 u2 v1 v2) = lerp v1 v2 (cross u1 u2 v1 u1 / cross u1 u2 v1 v2).
Proof.
  intros Hd. unfold lerp. apply vec_eq; unfold cross in *; rcbn; rfield; exact Hd.
Qed.

(** ** C17 *)
Lemma ll_unfold u1 u2 v1 v2 : eps < Rabs (cross u1 u2 v1 v2) ->
  intrLineSeg2LineSeg2 u1 u2 v1 v2 =
  let r0 := cross v1 v2 v1 u1 / cross u1 u2 v1 v2 in
  let r1 := cross u1 u2 v1 u1 / cross u1 u2 v1 v2 in
  if Rltb (r0 + eps) 0 || Rltb (1 + eps) r0 || Rltb (r1 + eps) 0 || Rltb (1 + eps) r1
  then LLFalse r0 r1 (lerp v1 v2 r1) else LLTrue (lerp v1 v2 r1).
Proof.
  intros Hd. unfold intrLineSeg2LineSeg2, perpDot, vsub, vadd, vscale. rcbn.
  fold (cross u1 u2 v1 v2). fold eps. rewrite (proj2 (Rltb_spec _ _) Hd).
  fold (cross v1 v2 v1 u1). fold (cross u1 u2 v1 u1).
  assert (E : mkV (vx v1 + (vx v2 - vx v1) * (cross u1 u2 v1 u1 / cross u1 u2 v1 v2))
                  (vy v1 + (vy v2 - vy v1) * (cross u1 u2 v1 u1 / cross u1 u2 v1 v2))
              = lerp v1 v2 (cross u1 u2 v1 u1 / cross u1 u2 v1 v2)).
  { unfold lerp. apply vec_eq; cbn [vx vy]; rring. }
  rewrite E. reflexivity.
Qed.

Theorem C17_transversal (u1 u2 v1 v2 : vec) :
  eps < Rabs (cross u1 u2 v1 v2) ->
  exists s t p, lerp u1 u2 s = p /\ lerp v1 v2 t = p /\
    (forall s' t', lerp u1 u2 s' = lerp v1 v2 t' -> s' = s /\ t' = t) /\
    (inRange s /\ inRange t -> intrLineSeg2LineSeg2 u1 u2 v1 v2 = LLTrue p) /\
    (~ (inRange s /\ inRange t) -> intrLineSeg2LineSeg2 u1 u2 v1 v2 = LLFalse s t p).
Proof.
  intros Hd. assert (Hn : cross u1 u2 v1 v2 <> 0).
  { intros E. rewrite E, Rabs_R0 in Hd. pose proof eps_pos. lra. }
  rewrite ll_unfold by auto. cbv zeta.
  set (s := cross v1 v2 v1 u1 / cross u1 u2 v1 v2). set (t := cross u1 u2 v1 u1 / cross u1 u2 v1 v2).
  exists s, t, (lerp v1 v2 t). split; [now apply lerp_meet|]. split; auto.
  split; [intros; now apply lines_meet|].
  unfold inRange. clearbody s t.
  destruct (Rltb (s + eps) 0 || Rltb (1 + eps) s || Rltb (t + eps) 0 || Rltb (1 + eps) t)%bool eqn:E.
  - split; [|reflexivity]. intros [H1 H2]. exfalso.
    rewrite !orb_true_iff in E. destruct E as [[[E|E]|E]|E]; rbool; lra.
  - split; [reflexivity|]. intros H. exfalso. apply H. rbool. lra.
Qed.

(** soundness and completeness for true segments *)
Corollary C17_complete (u1 u2 v1 v2 p : vec) (s t : R) :
  eps < Rabs (cross u1 u2 v1 v2) -> 0 <= s <= 1 -> 0 <= t <= 1 ->
  lerp u1 u2 s = p -> lerp v1 v2 t = p -> intrLineSeg2LineSeg2 u1 u2 v1 v2 = LLTrue p.
Proof.
  intros Hd Hs Ht E1 E2. destruct (C17_transversal _ _ _ _ Hd) as (s' & t' & p' & A & B & U & T & _).
  destruct (U s t) as [-> ->]; [congruence|]. replace p with p' by congruence.
  apply T. unfold inRange. pose proof eps_pos. lra.
Qed.

(** exactly collinear segments, none of them a point *)
Theorem C17_collinear (u1 u2 v1 v2 : vec) (al be : R) :
  u1 = lerp v1 v2 al -> u2 = lerp v1 v2 be ->
  fuzzyEqual v1 v2 eps = false -> fuzzyEqual u1 u2 eps = false ->
  match intrLineSeg2LineSeg2 u1 u2 v1 v2 with
  | LLNone => forall t, ~ (0 <= t <= 1 /\ Rmin al be <= t <= Rmax al be)
  | LLTrue p => exists t, p = lerp v1 v2 t /\ inRange t /\ Rmin al be - eps <= t <= Rmax al be + eps /\
       (forall t', 0 <= t' <= 1 /\ Rmin al be <= t' <= Rmax al be -> t <= t' <= t + eps)
  | LLCoincident t0 t1 => forall t, (0 <= t <= 1 /\ Rmin al be <= t <= Rmax al be) <-> t0 <= t <= t1
  | LLFalse _ _ _ => False
  end.
Proof.
  intros Eu1 Eu2 Fv Fu. pose proof eps_pos as He.
  assert (Nv : vx v2 - vx v1 <> 0 \/ vy v2 - vy v1 <> 0).
  { apply vec_ne. intros E. subst v2. apply (not_fuzzy_ne _ _ eps He Fv). reflexivity. }
  assert (Z1 : cross u1 u2 v1 v2 = 0).
  { subst u1 u2. unfold cross, lerp. cbn [vx vy]. ring. }
  assert (Z2 : cross u1 u2 v1 u1 = 0).
  { subst u1 u2. unfold cross, lerp. cbn [vx vy]. ring. }
  assert (Z3 : cross v1 v2 v1 u1 = 0).
  { subst u1 u2. unfold cross, lerp. cbn [vx vy]. ring. }
  assert (Hsel : (if Rltb (Rabs (vx v2 - vx v1)) eps
     then ((vy u1 - vy v1) / (vy v2 - vy v1), (vy u2 - vy v1) / (vy v2 - vy v1))
     else ((vx u1 - vx v1) / (vx v2 - vx v1), (vx u2 - vx v1) / (vx v2 - vx v1))) = (al, be)).
  { subst u1 u2. unfold lerp. cbn [vx vy]. destruct (Rltb (Rabs (vx v2 - vx v1)) eps) eqn:E; rbool.
    - assert (vy v2 - vy v1 <> 0).
      { intros Ey. assert (fuzzyEqual v1 v2 eps = true); [|congruence].
        apply fuzzyEqual_R. rewrite (Rabs_minus_sym (vx v1)), (Rabs_minus_sym (vy v1)).
        rewrite Ey, Rabs_R0. auto. }
      f_equal; field; auto.
    - assert (vx v2 - vx v1 <> 0).
      { intros Ex. rewrite Ex, Rabs_R0 in E. lra. }
      f_equal; field; auto. }
  unfold intrLineSeg2LineSeg2, perpDot, vsub, vadd, vscale. rcbn.
  fold (cross u1 u2 v1 v2). fold (cross v1 v2 v1 u1). fold (cross u1 u2 v1 u1). fold eps.
  rewrite Z1, Z2, Z3, Rabs_R0.
  assert (Rltb eps 0 = false) as -> by (apply Rltb_false; lra). cbn [orb].
  rewrite Fv, Fu. cbn [andb]. rewrite Hsel.
  assert (Hsw : (if Rltb be al then (be, al) else (al, be)) = (Rmin al be, Rmax al be)).
  { destruct (Rltb be al) eqn:E; rbool.
    - rewrite Rmin_right, Rmax_left by lra. reflexivity.
    - rewrite Rmin_left, Rmax_right by lra. reflexivity. }
  rewrite Hsw. set (lo := Rmin al be). set (hi := Rmax al be).
  assert (Hlh : lo <= hi).
  { unfold lo, hi. apply Rle_trans with al; [apply Rmin_l|apply Rmax_l]. }
  clearbody lo hi. clear Hsw Hsel.
  destruct (Rltb (1 + eps) lo || Rltb (hi + eps) 0)%bool eqn:E.
  - intros t [H1 H2]. rewrite orb_true_iff in E. destruct E; rbool; lra.
  - rbool. assert (Hmx : tmax lo 0 = Rmax lo 0).
    { unfold tmax. rcbn. destruct (Rltb lo 0) eqn:E'; rbool; [rewrite Rmax_right|rewrite Rmax_left]; lra. }
    assert (Hmn : tmin hi 1 = Rmin hi 1).
    { unfold tmin. rcbn. destruct (Rltb 1 hi) eqn:E'; rbool; [rewrite Rmin_right|rewrite Rmin_left]; lra. }
    rewrite Hmx, Hmn. clear Hmx Hmn.
    set (a := Rmax lo 0). set (b := Rmin hi 1).
    assert (Ha : lo <= a /\ 0 <= a /\ (a = lo \/ a = 0)).
    { unfold a, Rmax. destruct (Rle_dec lo 0); lra. }
    assert (Hb : b <= hi /\ b <= 1 /\ (b = hi \/ b = 1)).
    { unfold b, Rmin. destruct (Rle_dec hi 1); lra. }
    clearbody a b.
    destruct (Rltb (Rabs (b - a)) eps) eqn:E'; rbool.
    + apply Rabs_lt_iff in E'. exists a. split.
      { unfold lerp. apply vec_eq; cbn [vx vy]; rring. }
      unfold inRange. split; [lra|]. split; [lra|]. intros t' Ht'. lra.
    + intros t. split; [intros Ht; lra|]. intros Ht. lra.
Qed.

(** Very short segments are treated as parallel whatever their directions: two crossing non-parallel
    segments of length about 3e-5 are reported as coincident although they share one point only. *)
Theorem C17_short_segments_refuted :
  let u1 := mkV 0 0 in let u2 := mkV (2 / 100000) (1 / 100000) in
  let v1 := mkV (1 / 100000) (- 1 / 100000) in let v2 := mkV (1 / 100000) (2 / 100000) in
  let p := mkV (1 / 100000) (1 / 200000) in
  lerp u1 u2 (1 / 2) = p /\ lerp v1 v2 (1 / 2) = p /\
  (forall s t, lerp u1 u2 s = lerp v1 v2 t -> s = 1 / 2 /\ t = 1 / 2) /\
  intrLineSeg2LineSeg2 u1 u2 v1 v2 = LLCoincident (1 / 3) (2 / 3).
Proof.
  intros u1 u2 v1 v2 p. split; [unfold lerp, u1, u2, p; apply vec_eq; cbn [vx vy]; lra|].
  split; [unfold lerp, v1, v2, p; apply vec_eq; cbn [vx vy]; lra|]. split.
  { unfold lerp, u1, u2, v1, v2. cbn [vx vy]. intros s t H. injection H. intros. lra. }
  unfold intrLineSeg2LineSeg2, perpDot, vsub, vadd, vscale, u1, u2, v1, v2, p. rcbn. fold eps.
  assert (He : eps = 1 / 100000000) by reflexivity.
  rewrite (proj2 (Rltb_false eps (Rabs _))).
  2:{ rewrite Rabs_pos_eq; lra. }
  rewrite (proj2 (Rltb_false eps (Rabs _))).
  2:{ rewrite Rabs_pos_eq; lra. }
  rewrite (proj2 (Rltb_false eps (Rabs _))).
  2:{ rewrite Rabs_pos_eq; lra. }
  cbn [orb].
  assert (F1 : fuzzyEqual (mkV 0 0) (mkV (2 / 100000) (1 / 100000)) eps = false).
  { apply not_true_iff_false. rewrite fuzzyEqual_R. cbn [vx vy]. intros [F _]. apply Rabs_lt_iff in F. lra. }
  assert (F2 : fuzzyEqual (mkV (1 / 100000) (-1 / 100000)) (mkV (1 / 100000) (2 / 100000)) eps = false).
  { apply not_true_iff_false. rewrite fuzzyEqual_R. cbn [vx vy]. intros [_ F]. apply Rabs_lt_iff in F. lra. }
  rewrite F1, F2. cbn [andb].
  rewrite (proj2 (Rltb_spec (Rabs _) eps)).
  2:{ rewrite Rminus_eq_0, Rabs_R0. lra. }
  replace ((0 - -1 / 100000) / (2 / 100000 - -1 / 100000)) with (1 / 3) by lra.
  replace ((1 / 100000 - -1 / 100000) / (2 / 100000 - -1 / 100000)) with (2 / 3) by lra.
  rewrite (proj2 (Rltb_false (2 / 3) (1 / 3))) by lra.
  rewrite (proj2 (Rltb_false (1 + eps) (1 / 3))) by lra.
  rewrite (proj2 (Rltb_false (2 / 3 + eps) 0)) by lra. cbn [orb].
  unfold tmax, tmin. rcbn.
  rewrite (proj2 (Rltb_false (1 / 3) 0)) by lra.
  rewrite (proj2 (Rltb_false 1 (2 / 3))) by lra.
  rewrite (proj2 (Rltb_false _ _)); [reflexivity|]. rewrite Rabs_pos_eq; lra.
Qed.

Example C17_hypotheses_met :
  eps < Rabs (cross (mkV 0 0) (mkV 2 2) (mkV 0 2) (mkV 2 0)) /\
  lerp (mkV 0 0) (mkV 2 2) (1 / 2) = mkV 1 1 /\ lerp (mkV 0 2) (mkV 2 0) (1 / 2) = mkV 1 1.
Proof.
  unfold cross, lerp, eps. cbn [vx vy]. split; [rewrite Rabs_left; lra|].
  split; apply vec_eq; cbn [vx vy]; lra.
Qed.

(** ** C18 *)
(** squared distance to the centre minus squared radius *)
Definition power (c : vec) (r : R) (p : vec) : R :=
  (vx p - vx c) * (vx p - vx c) + (vy p - vy c) * (vy p - vy c) - r * r.
Definition len2 (p0 p1 : vec) : R :=
  (vx p1 - vx p0) * (vx p1 - vx p0) + (vy p1 - vy p0) * (vy p1 - vy p0).

Lemma dist_as c p : dist c p =
  sqrt ((vx p - vx c) * (vx p - vx c) + (vy p - vy c) * (vy p - vy c)).
Proof. unfold dist. f_equal. rcbn. ring. Qed.

Lemma power_dist c r p : 0 <= r -> (power c r p = 0 <-> dist c p = r).
Proof.
  intros Hr. unfold power. rewrite dist_as. split.
  - intros H. apply Rsqr_inj; auto; [apply sqrt_pos|]. rewrite Rsqr_sqrt by apply sumsq_nonneg.
    unfold Rsqr. lra.
  - intros H. rewrite <- H. rewrite sqrt_sqrt by apply sumsq_nonneg. ring.
Qed.

Lemma power_dist_lt c r p : 0 <= r -> (0 < power c r p <-> r < dist c p).
Proof.
  intros Hr. unfold power. rewrite dist_as. split.
  - intros H. apply Rsqr_incrst_0; auto; [|apply sqrt_pos]. rewrite Rsqr_sqrt by apply sumsq_nonneg. unfold Rsqr. lra.
  - intros H. apply Rsqr_incrst_1 in H; auto; [|apply sqrt_pos].
    rewrite Rsqr_sqrt in H by apply sumsq_nonneg. unfold Rsqr in H. lra.
Qed.

Theorem C18_line_circle (p0 p1 c : vec) (r : R) : 0 <= r ->
  match intrLineSeg2Circle2 p0 p1 r c with
  | LC2 s0 s1 => eps <= len2 p0 p1 /\ s0 <> s1 /\
      forall t, dist c (lerp p0 p1 t) = r <-> t = s0 \/ t = s1
  | LC1 s =>
      (eps <= len2 p0 p1 /\ (forall t, dist c (lerp p0 p1 s) <= dist c (lerp p0 p1 t)) /\
         4 * len2 p0 p1 * Rabs (power c r (lerp p0 p1 s)) < eps) \/
      (len2 p0 p1 < eps /\ s = 0 /\ Rabs (power c r p0) < eps)
  | LC0 =>
      (eps <= len2 p0 p1 /\ forall t, r < dist c (lerp p0 p1 t)) \/
      (len2 p0 p1 < eps /\ eps <= Rabs (power c r p0))
  end.
Proof.
  intros Hr. unfold intrLineSeg2Circle2. rcbn. fold eps. pose proof eps_pos as He.
  set (dx := vx p1 - vx p0). set (dy := vy p1 - vy p0).
  assert (La : dx * dx + dy * dy = len2 p0 p1) by reflexivity.
  assert (Ha0 : 0 <= len2 p0 p1) by apply sumsq_nonneg.
  rewrite La. rewrite (Rabs_pos_eq (len2 p0 p1)) by auto.
  destruct (Rltb (len2 p0 p1) eps) eqn:E; rbool.
  - match goal with |- context [fuzzyEqualR ?x ?y eps] => destruct (fuzzyEqualR x y eps) eqn:F end.
    + apply fuzzyEqualR_R in F. right. auto.
    + right. split; auto. apply Rnot_lt_le. intros H. apply not_true_iff_false in F. apply F, fuzzyEqualR_R. exact H.
  - set (b := 2 * (dx * (vx p0 - vx c) + dy * (vy p0 - vy c))).
    match goal with |- context [quadraticSolutions _ _ ?x _] => set (cc := x) end.
    set (a := len2 p0 p1) in *.
    assert (P : forall t, power c r (lerp p0 p1 t) = a * t * t + b * t + cc).
    { intros t. unfold power, lerp, cc, b. rewrite <- La. unfold dx, dy. cbn [vx vy]. ring. }
    clearbody a b cc.
    destruct (Rltb (Rabs (b * b - 4 * a * cc)) eps) eqn:E1; rbool.
    + left. split; auto.
      assert (Q : power c r (lerp p0 p1 (- b / (2 * a))) = - (b * b - 4 * a * cc) / (4 * a)).
      { rewrite P. field. lra. }
      split.
      * intros t. assert (Q' : power c r (lerp p0 p1 (- b / (2 * a))) <= power c r (lerp p0 p1 t)).
        { assert (X : power c r (lerp p0 p1 t) - power c r (lerp p0 p1 (- b / (2 * a))) = a * ((t + b / (2 * a)) * (t + b / (2 * a)))).
          { rewrite !P. field. lra. }
          pose proof (sq_nonneg (t + b / (2 * a))).
          assert (0 <= a * ((t + b / (2 * a)) * (t + b / (2 * a)))) by (apply Rmult_le_pos; lra). lra. }
        unfold power in Q'. rewrite !dist_as. apply sqrt_le_1_alt. lra.
      * rewrite Q. replace (- (b * b - 4 * a * cc) / (4 * a)) with ((- (b * b - 4 * a * cc)) * / (4 * a)) by reflexivity.
        rewrite Rabs_mult, Rabs_Ropp. rewrite (Rabs_pos_eq (/ (4 * a))).
        2:{ left. apply Rinv_0_lt_compat. lra. }
        replace (4 * a * (Rabs (b * b - 4 * a * cc) * / (4 * a))) with (Rabs (b * b - 4 * a * cc)) by (field; lra). auto.
    + destruct (Rltb (b * b - 4 * a * cc) 0) eqn:E2; rbool.
      * left. split; auto. intros t. apply power_dist_lt; auto. rewrite P.
        replace (a * t * t + b * t + cc) with (a * ((t + b / (2 * a)) * (t + b / (2 * a))) + - (b * b - 4 * a * cc) / (4 * a)) by (field; lra).
        pose proof (sq_nonneg (t + b / (2 * a))).
        assert (0 <= a * ((t + b / (2 * a)) * (t + b / (2 * a)))) by (apply Rmult_le_pos; lra).
        assert (0 < - (b * b - 4 * a * cc) / (4 * a)) by (apply Rdiv_lt_0_compat; lra). lra.
      * assert (Hd : eps <= b * b - 4 * a * cc) by (rewrite Rabs_pos_eq in E1; lra).
        assert (Hne : ~ (b = 0 /\ cc = 0)).
        { intros [-> ->]. lra. }
        pose proof (C10_quadraticSolutions a b cc ltac:(lra) ltac:(lra) Hne) as H.
        pose proof (C10_roots_exact a b cc ltac:(lra) ltac:(lra) Hne) as H'.
        destruct (quadraticSolutions a b cc (b * b - 4 * a * cc)) as [s0 s1]. cbn [fst snd] in H'.
        split; auto. split.
        -- intros <-. pose proof (H 0). pose proof (H 1). pose proof (H (-1)).
           assert (cc = a * s0 * s0) by lra. assert (b = - 2 * a * s0) by nra.
           subst b. subst cc. nra.
        -- intros t. rewrite <- H'. rewrite <- P. symmetry. apply power_dist; auto.
Qed.

Example C18_hypotheses_met :
  intrLineSeg2Circle2 (mkV (-2) 0) (mkV 2 0) 1 (mkV 0 0) <> LC0 /\
  dist (mkV 0 0) (lerp (mkV (-2) 0) (mkV 2 0) (1 / 4)) = 1.
Proof.
  assert (D : dist (mkV 0 0) (lerp (mkV (-2) 0) (mkV 2 0) (1 / 4)) = 1).
  { unfold dist, lerp. rcbn. replace (_ + _) with 1 by lra. apply sqrt_1. }
  split; auto. intros H. pose proof (C18_line_circle (mkV (-2) 0) (mkV 2 0) (mkV 0 0) 1 ltac:(lra)) as K.
  rewrite H in K. destruct K as [[_ K]|[K _]].
  - specialize (K (1 / 4)). lra.
  - unfold len2, eps in K. cbn [vx vy] in K. lra.
Qed.

(** ** C19 *)
Definition onBoth (c1 : vec) (r1 : R) (c2 : vec) (r2 : R) (q : vec) : Prop :=
  dist c1 q = r1 /\ dist c2 q = r2.

Section C19.
Context (c1 c2 : vec) (r1 r2 : R) (H1 : 0 <= r1) (H2 : 0 <= r2).
Let X := vx c2 - vx c1.
Let Y := vy c2 - vy c1.
Let d := dist c1 c2.
Let a := (r1 * r1 - r2 * r2 + d * d) / (2 * d).
Let diff := r1 * r1 - a * a.

Lemma cc_d2 : X * X + Y * Y = d * d.
Proof. unfold d. rewrite dist_as. rewrite sqrt_sqrt by apply sumsq_nonneg. reflexivity. Qed.

Lemma cc_common_bounds q : onBoth c1 r1 c2 r2 q -> Rabs (r1 - r2) <= d <= r1 + r2.
Proof.
  intros [A B]. subst r1 r2. pose proof (dist_triangle c1 c2 q) as T1. pose proof (dist_triangle c2 c1 q) as T2.
  pose proof (dist_triangle c1 q c2) as T3. rewrite (dist_sym c2 c1) in T2. rewrite (dist_sym q c2) in T3.
  fold d in T1, T2, T3. split; [|exact T3]. apply Rabs_le. lra.
Qed.

Hypothesis Hd : 0 < d.

Lemma cc_frame q : onBoth c1 r1 c2 r2 q <->
  ((vx q - vx c1) * X + (vy q - vy c1) * Y = a * d /\
   ((vy q - vy c1) * X - (vx q - vx c1) * Y) * ((vy q - vy c1) * X - (vx q - vx c1) * Y) = diff * (d * d)).
Proof.
  unfold onBoth. rewrite <- !power_dist by auto. pose proof cc_d2 as D.
  assert (E : power c2 r2 q - power c1 r1 q = 2 * (a * d) - 2 * ((vx q - vx c1) * X + (vy q - vy c1) * Y)).
  { unfold a. replace (2 * ((r1 * r1 - r2 * r2 + d * d) / (2 * d) * d)) with (r1 * r1 - r2 * r2 + d * d) by (field; lra).
    rewrite <- D. unfold power, X, Y. ring. }
  assert (L : ((vx q - vx c1) * X + (vy q - vy c1) * Y) * ((vx q - vx c1) * X + (vy q - vy c1) * Y) +
    ((vy q - vy c1) * X - (vx q - vx c1) * Y) * ((vy q - vy c1) * X - (vx q - vx c1) * Y) = (power c1 r1 q + r1 * r1) * (d * d)).
  { rewrite <- D. unfold power. ring. }
  split.
  - intros [P1 P2]. rewrite P1, P2 in E. rewrite P1 in L.
    assert (E' : (vx q - vx c1) * X + (vy q - vy c1) * Y = a * d) by lra.
    split; auto. rewrite E' in L. unfold diff. lra.
  - intros [E' K]. rewrite E', K in L. unfold diff in L.
    assert (P1 : power c1 r1 q * (d * d) = 0) by lra.
    apply Rmult_integral in P1. destruct P1 as [P1|P1]; [|exfalso; nra].
    split; auto. rewrite E', P1 in E. lra.
Qed.

(** the point at frame coordinates (a,s) *)
Definition ccPt (s : R) : vec := mkV (vx c1 + (a * X - s * Y) / d) (vy c1 + (a * Y + s * X) / d).

Lemma ccPt_coords s : (vx (ccPt s) - vx c1) * X + (vy (ccPt s) - vy c1) * Y = a * d /\
  (vy (ccPt s) - vy c1) * X - (vx (ccPt s) - vx c1) * Y = s * d.
Proof.
  unfold ccPt. rcbn. pose proof cc_d2 as D. split.
  - transitivity (a * (X * X + Y * Y) / d); [field; lra|]. rewrite D. field. lra.
  - transitivity (s * (X * X + Y * Y) / d); [field; lra|]. rewrite D. field. lra.
Qed.

Lemma ccPt_of q s : (vx q - vx c1) * X + (vy q - vy c1) * Y = a * d ->
  (vy q - vy c1) * X - (vx q - vx c1) * Y = s * d -> q = ccPt s.
Proof.
  intros A B. pose proof cc_d2 as D. unfold ccPt.
  assert (E1 : (vx q - vx c1) * (d * d) = (a * X - s * Y) * d).
  { rewrite <- D. replace ((a * X - s * Y) * d) with (a * d * X - s * d * Y) by ring. rewrite <- A, <- B. ring. }
  assert (E2 : (vy q - vy c1) * (d * d) = (a * Y + s * X) * d).
  { rewrite <- D. replace ((a * Y + s * X) * d) with (a * d * Y + s * d * X) by ring. rewrite <- A, <- B. ring. }
  apply vec_eq; cbn [vx vy].
  - replace ((a * X - s * Y) / d) with ((a * X - s * Y) * d / (d * d)) by (field; lra). rewrite <- E1.
    apply Rminus_diag_uniq. field. lra.
  - replace ((a * Y + s * X) / d) with ((a * Y + s * X) * d / (d * d)) by (field; lra). rewrite <- E2.
    apply Rminus_diag_uniq. field. lra.
Qed.

Lemma cc_common q : onBoth c1 r1 c2 r2 q <-> exists s, s * s = diff /\ q = ccPt s.
Proof.
  rewrite cc_frame. split.
  - intros [A B]. exists (((vy q - vy c1) * X - (vx q - vx c1) * Y) / d). split.
    + replace (_ / d * (_ / d)) with (((vy q - vy c1) * X - (vx q - vx c1) * Y) * ((vy q - vy c1) * X - (vx q - vx c1) * Y) / (d * d)) by (field; lra).
      rewrite B. field. lra.
    + apply ccPt_of; auto. field. lra.
  - intros [s [E ->]]. destruct (ccPt_coords s) as [A B]. rewrite A, B, <- E. split; auto. ring.
Qed.

Lemma dist_ccPt0_1 : dist c1 (ccPt 0) = Rabs a.
Proof.
  rewrite dist_as. unfold ccPt. rcbn. replace (_ + _) with (a * a * (X * X + Y * Y) / (d * d)) by (field; lra).
  rewrite cc_d2. replace (a * a * (d * d) / (d * d)) with (Rsqr a) by (unfold Rsqr; field; lra). apply sqrt_Rsqr_abs.
Qed.

Lemma dist_ccPt0_2 : dist c2 (ccPt 0) = Rabs (d - a).
Proof.
  rewrite dist_as. unfold ccPt. rcbn.
  replace (vx c1 + (a * X - 0 * Y) / d - vx c2) with ((a / d - 1) * X) by (unfold X; field; lra).
  replace (vy c1 + (a * Y + 0 * X) / d - vy c2) with ((a / d - 1) * Y) by (unfold Y; field; lra).
  replace (_ + _) with ((a / d - 1) * (a / d - 1) * (X * X + Y * Y)) by ring.
  rewrite cc_d2. replace ((a / d - 1) * (a / d - 1) * (d * d)) with (Rsqr (d - a)) by (unfold Rsqr; field; lra). apply sqrt_Rsqr_abs.
Qed.

Lemma cc_unfold : eps <= d -> d <= r1 + r2 + eps -> Rabs (r1 - r2) <= d + eps ->
  intrCircle2Circle2 r1 c1 r2 c2 =
  if Rltb diff 0 then CCOne (ccPt 0) else
  if fuzzyEqual (ccPt (- sqrt diff)) (ccPt (sqrt diff)) eps then CCOne (ccPt (- sqrt diff))
  else CCTwo (ccPt (- sqrt diff)) (ccPt (sqrt diff)).
Proof.
  intros A B C. unfold intrCircle2Circle2, dot, vsub, vadd, vscale, vdiv. rcbn. fold X Y. fold eps.
  rewrite cc_d2. rewrite sqrt_square by lra.
  rewrite (proj2 (Rltb_false d eps)) by lra.
  rewrite (proj2 (Rltb_false _ _)) by lra.
  rewrite (proj2 (Rltb_false _ _)) by lra. cbn [orb].
  assert (Reqb d 0 = false) as -> by (apply not_true_iff_false; rewrite Reqb_spec; lra). cbn [negb vx vy].
  fold a. fold diff.
  destruct (Rltb diff 0) eqn:E.
  - f_equal. unfold ccPt. apply vec_eq; cbn [vx vy]; rfield; lra.
  - assert (P1 : mkV (vx c1 + X * a * (1 / d) + sqrt diff / d * Y) (vy c1 + Y * a * (1 / d) - sqrt diff / d * X) = ccPt (- sqrt diff)).
    { unfold ccPt. apply vec_eq; cbn [vx vy]; rfield; lra. }
    assert (P2 : mkV (vx c1 + X * a * (1 / d) - sqrt diff / d * Y) (vy c1 + Y * a * (1 / d) + sqrt diff / d * X) = ccPt (sqrt diff)).
    { unfold ccPt. apply vec_eq; cbn [vx vy]; rfield; lra. }
    rewrite P1, P2. reflexivity.
Qed.
End C19.

Lemma cc_near r1 r2 d : 0 <= r1 -> 0 <= r2 -> 0 < d -> d <= r1 + r2 + eps -> Rabs (r1 - r2) <= d + eps ->
  r1 * r1 < ((r1 * r1 - r2 * r2 + d * d) / (2 * d)) * ((r1 * r1 - r2 * r2 + d * d) / (2 * d)) ->
  0 <= Rabs ((r1 * r1 - r2 * r2 + d * d) / (2 * d)) - r1 <= eps * Rmax 1 ((r1 + r2) / d).
Proof.
  intros H1 H2 Hd A B C. pose proof eps_pos as He.
  assert (B' : r1 - r2 <= d + eps /\ r2 - r1 <= d + eps).
  { pose proof (Rle_abs (r1 - r2)). pose proof (Rle_abs (- (r1 - r2))) as Q. rewrite Rabs_Ropp in Q. lra. }
  set (a := (r1 * r1 - r2 * r2 + d * d) / (2 * d)) in *.
  assert (Ea : 2 * d * a = r1 * r1 - r2 * r2 + d * d) by (unfold a; field; lra).
  assert (Ha : r1 < Rabs a).
  { apply Rsqr_incrst_0; auto; [|apply Rabs_pos]. rewrite <- Rsqr_abs. exact C. }
  assert (Hm : 1 <= Rmax 1 ((r1 + r2) / d) /\ (r1 + r2) / d <= Rmax 1 ((r1 + r2) / d)) by (split; [apply Rmax_l|apply Rmax_r]).
  destruct Hm as [M1 M2]. set (M := Rmax 1 ((r1 + r2) / d)) in *. clearbody M.
  assert (M3 : r1 + r2 <= M * d).
  { apply Rmult_le_compat_r with (r := d) in M2; [|lra]. unfold Rdiv in M2. rewrite Rmult_assoc, Rinv_l, Rmult_1_r in M2 by lra. auto. }
  split; [lra|]. clearbody a.
  assert (M4 : eps * (r1 + r2) <= eps * (M * d)) by (apply Rmult_le_compat_l; lra).
  assert (M5 : (eps * d) * 1 <= (eps * d) * M).
  { apply Rmult_le_compat_l; [left; apply Rmult_lt_0_compat; lra|lra]. }
  apply Rmult_le_reg_l with (2 * d); [lra|].
  destruct (Rabs_cases a) as [[S E]|[S E]]; rewrite E in *; clear E.
  - assert (E1 : 2 * d * (a - r1) = (d - r1 - r2) * (d - r1 + r2)) by nra. rewrite E1.
    assert (P : 0 < (d - r1 - r2) * (d - r1 + r2)) by (rewrite <- E1; apply Rmult_lt_0_compat; lra).
    destruct (Rle_lt_dec d (r1 + r2)) as [L|L].
    + assert (N : d - r1 + r2 < 0).
      { destruct (Rlt_le_dec (d - r1 + r2) 0) as [|G]; auto. exfalso.
        pose proof (Rmult_le_pos (r1 + r2 - d) (d - r1 + r2) ltac:(lra) G). lra. }
      replace ((d - r1 - r2) * (d - r1 + r2)) with ((r1 + r2 - d) * (r1 - r2 - d)) by ring.
      apply Rle_trans with ((r1 + r2) * eps); [|pose proof (Rmult_le_pos eps (r1+r2)); lra].
      apply Rmult_le_compat; lra.
    + apply Rle_trans with (eps * (2 * d)); [|lra]. apply Rmult_le_compat; lra.
  - assert (E1 : 2 * d * (- a - r1) = (r2 - r1 - d) * (d + r1 + r2)) by nra. rewrite E1.
    assert (P : 0 < (r2 - r1 - d) * (d + r1 + r2)) by (rewrite <- E1; apply Rmult_lt_0_compat; lra).
    assert (N : 0 < r2 - r1 - d).
    { destruct (Rlt_le_dec 0 (r2 - r1 - d)) as [|G]; auto. exfalso.
      pose proof (Rmult_le_pos (r1 + d - r2) (d + r1 + r2) ltac:(lra) ltac:(lra)). lra. }
    apply Rle_trans with (eps * (2 * (r1 + r2))); [|lra]. apply Rmult_le_compat; lra.
Qed.

Theorem C19_circle_circle (c1 c2 : vec) (r1 r2 : R) : 0 <= r1 -> 0 <= r2 ->
  match intrCircle2Circle2 r1 c1 r2 c2 with
  | CCNone => forall q, ~ onBoth c1 r1 c2 r2 q
  | CCOne p =>
      (onBoth c1 r1 c2 r2 p /\
         forall q, onBoth c1 r1 c2 r2 q -> Rabs (vx p - vx q) < eps /\ Rabs (vy p - vy q) < eps) \/
      ((forall q, ~ onBoth c1 r1 c2 r2 q) /\
         0 <= dist c1 p - r1 <= eps * Rmax 1 ((r1 + r2) / dist c1 c2) /\
         0 <= dist c2 p - r2 <= eps * Rmax 1 ((r1 + r2) / dist c1 c2))
  | CCTwo p q => p <> q /\ forall x, onBoth c1 r1 c2 r2 x <-> x = p \/ x = q
  | CCCoincident => dist c1 c2 < eps /\ Rabs (r1 - r2) < eps
  end.
Proof.
  intros H1 H2. pose proof eps_pos as He.
  pose proof (cc_common_bounds c1 c2 r1 r2 H1 H2) as CB.
  assert (Dd : sqrt (dot (vsub c2 c1) (vsub c2 c1)) = dist c1 c2).
  { rewrite dist_as. unfold dot, vsub. rcbn. reflexivity. }
  destruct (Rlt_le_dec (dist c1 c2) eps) as [L|L].
  { unfold intrCircle2Circle2. rcbn. fold eps. rewrite Dd.
    rewrite (proj2 (Rltb_spec _ _) L).
    destruct (fuzzyEqualR r1 r2 eps) eqn:F.
    - apply fuzzyEqualR_R in F. auto.
    - intros q Hq. apply CB in Hq. apply not_true_iff_false in F. apply F, fuzzyEqualR_R. lra. }
  destruct (Rlt_le_dec (r1 + r2 + eps) (dist c1 c2)) as [L1|L1].
  { unfold intrCircle2Circle2. rcbn. fold eps. rewrite Dd.
    rewrite (proj2 (Rltb_false _ _) L). rewrite (proj2 (Rltb_spec _ _) L1). cbn [orb].
    intros q Hq. apply CB in Hq. lra. }
  destruct (Rlt_le_dec (dist c1 c2 + eps) (Rabs (r1 - r2))) as [L2|L2].
  { unfold intrCircle2Circle2. rcbn. fold eps. rewrite Dd.
    rewrite (proj2 (Rltb_false _ _) L). rewrite (proj2 (Rltb_false _ _) L1). rewrite (proj2 (Rltb_spec _ _) L2). cbn [orb].
    intros q Hq. apply CB in Hq. lra. }
  assert (Hd : 0 < dist c1 c2) by lra.
  rewrite cc_unfold by auto.
  pose proof (cc_common c1 c2 r1 r2 H1 H2 Hd) as CC.
  set (a := (r1 * r1 - r2 * r2 + dist c1 c2 * dist c1 c2) / (2 * dist c1 c2)) in *.
  set (P := ccPt c1 c2 r1 r2) in *.
  destruct (Rltb (r1 * r1 - a * a) 0) eqn:E; rbool.
  - right. assert (N : forall q, ~ onBoth c1 r1 c2 r2 q).
    { intros q Hq. apply CC in Hq. destruct Hq as (s & Hs & _). pose proof (sq_nonneg s). lra. }
    split; auto. unfold P. rewrite dist_ccPt0_1, dist_ccPt0_2 by auto. fold a.
    split; [apply cc_near; auto; fold a; lra|].
    assert (Ea : dist c1 c2 - a = (r2 * r2 - r1 * r1 + dist c1 c2 * dist c1 c2) / (2 * dist c1 c2)).
    { unfold a. field. lra. }
    assert (E2 : (dist c1 c2 - a) * (dist c1 c2 - a) - r2 * r2 = a * a - r1 * r1).
    { unfold a. field. lra. }
    rewrite (Rplus_comm r1 r2). rewrite Ea. apply cc_near; auto; try lra.
    + rewrite Rabs_minus_sym. lra.
    + rewrite <- Ea. lra.
  - pose proof (sqrt_sqrt _ E) as Hs. set (s := sqrt (r1 * r1 - a * a)) in *.
    assert (All : forall x, onBoth c1 r1 c2 r2 x <-> x = P (- s) \/ x = P s).
    { intros x. rewrite CC. rewrite <- Hs. split.
      - intros (s' & E' & ->). assert (K : (s' + s) * (s' - s) = 0) by lra.
        apply Rmult_integral in K. destruct K; [left|right]; f_equal; lra.
      - intros [-> | ->]; eexists; (split; [|reflexivity]); ring. }
    destruct (fuzzyEqual (P (- s)) (P s) eps) eqn:F.
    + left. split; [apply All; auto|]. intros q Hq. apply All in Hq. apply fuzzyEqual_R in F.
      destruct Hq as [-> | ->]; auto. unfold Rminus. rewrite !Rplus_opp_r, Rabs_R0. auto.
    + split; auto. intros K. rewrite K in F. apply (not_fuzzy_ne _ _ eps He F). reflexivity.
Qed.

Theorem C19_coincident_iff (c1 c2 : vec) (r1 r2 : R) :
  intrCircle2Circle2 r1 c1 r2 c2 = CCCoincident <-> dist c1 c2 < eps /\ Rabs (r1 - r2) < eps.
Proof.
  assert (Dd : sqrt (dot (vsub c2 c1) (vsub c2 c1)) = dist c1 c2).
  { rewrite dist_as. unfold dot, vsub. rcbn. reflexivity. }
  unfold intrCircle2Circle2. rcbn. fold eps. rewrite Dd.
  destruct (Rltb (dist c1 c2) eps) eqn:E; rbool.
  - destruct (fuzzyEqualR r1 r2 eps) eqn:F.
    + apply fuzzyEqualR_R in F. tauto.
    + split; [discriminate|]. intros [_ H]. apply not_true_iff_false in F. exfalso. apply F, fuzzyEqualR_R. auto.
  - split; [|lra]. intros H.
    repeat match type of H with context [if ?b then _ else _] => destruct b end; discriminate.
Qed.

(** Near-concentric circles of nearly equal radius: the single reported point can be far (here 0.33 radii)
    from both circles. *)
Theorem C19_near_concentric_refuted :
  let c1 := mkV 0 0 in let c2 := mkV (15 / 1000000000) 0 in
  let r1 := 1 + 2 / 100000000 in let r2 := 1 in
  exists p, intrCircle2Circle2 r1 c1 r2 c2 = CCOne p /\ dist c1 p - r1 > 33 / 100.
Proof.
  intros c1 c2 r1 r2.
  assert (D : dist c1 c2 = 15 / 1000000000).
  { rewrite dist_as. unfold c1, c2. cbn [vx vy].
    replace (_ + _) with ((15 / 1000000000) * (15 / 1000000000)) by lra. apply sqrt_square. lra. }
  exists (ccPt c1 c2 r1 r2 0).
  assert (Ea : (r1 * r1 - r2 * r2 + dist c1 c2 * dist c1 c2) / (2 * dist c1 c2) > 1333 / 1000).
  { rewrite D. unfold r1, r2. lra. }
  split.
  - rewrite cc_unfold; rewrite ?D; unfold eps; try lra.
    + rewrite D in Ea. rewrite (proj2 (Rltb_spec _ _)); [reflexivity|].
      set (a := _ / (2 * _)) in *. unfold r1. nra.
    + unfold r1, r2; lra.
    + rewrite Rabs_pos_eq; unfold r1, r2; lra.
  - rewrite dist_ccPt0_1 by (rewrite D; lra). rewrite Rabs_pos_eq by lra. assert (r1 = 1 + 2 / 100000000) by reflexivity. lra.
Qed.
Example C19_hypotheses_met :
  intrCircle2Circle2 5 (mkV 0 0) 5 (mkV 6 0) <> CCNone /\ onBoth (mkV 0 0) 5 (mkV 6 0) 5 (mkV 3 4).
Proof.
  assert (B : onBoth (mkV 0 0) 5 (mkV 6 0) 5 (mkV 3 4)).
  { split; rewrite dist_as; rcbn; replace (_ + _) with (5 * 5) by lra; apply sqrt_square; lra. }
  split; auto. intros H. pose proof (C19_circle_circle (mkV 0 0) (mkV 6 0) 5 5 ltac:(lra) ltac:(lra)) as K.
  rewrite H in K. apply (K _ B).
Qed.
