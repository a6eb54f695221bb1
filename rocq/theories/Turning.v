(** * Turning of a segment around a point (for C24) *)
From Coq Require Import ZArith Reals Lra Lia List Bool Arith Permutation.
From Coquelicot Require Import Coquelicot.
From Verif Require Import Base Num MathUtils PlineSegment SpatialIndex Polyline RGeom Spec PropsMath ArcGeom Polar PropsSegment PropsClosest PropsIntr PropsPlineIntr PropsPolyline PropsArea.
Import ListNotations.
Open Scope R_scope.

(** ** Specification *)
(** angular speed, seen from [p], of a moving point: the derivative of its direction angle *)
Definition angSpeed (p : vec) (P : R -> vec) (t : R) : R :=
  ((vx (P t) - vx p) * Derive (fun u => vy (P u)) t - (vy (P t) - vy p) * Derive (fun u => vx (P u)) t) /
  ((vx (P t) - vx p) ^ 2 + (vy (P t) - vy p) ^ 2).

Ltac asR := match goal with |- ?x = ?y => change (@eq R x y) end.

(** ** Angles *)
(** direction of q from p in (0, 2 PI] *)
Definition angU (p q : vec) : R := if Rlt_dec 0 (angle p q) then angle p q else angle p q + 2 * PI.

Lemma angU_bounds p q : 0 < angU p q <= 2 * PI.
Proof. unfold angU. pose proof (angle_bounds p q). pose proof PI_RGT_0. destruct (Rlt_dec 0 (angle p q)); lra. Qed.

Lemma angU_polar p q : q <> p -> vx q - vx p = dist p q * cos (angU p q) /\ vy q - vy p = dist p q * sin (angU p q) /\ 0 < dist p q.
Proof.
  intros H. destruct (angle_polar p q H) as (A & B & D). unfold angU.
  destruct (Rlt_dec 0 (angle p q)); [auto|].
  rewrite cos_plus, sin_plus, cos_2PI, sin_2PI. repeat split; [rewrite A|rewrite B|]; lra.
Qed.

Lemma angU_low p q : q <> p -> (vy q <= vy p <-> PI <= angU p q).
Proof.
  intros H. destruct (angU_polar p q H) as (A & B & D). pose proof (angU_bounds p q). pose proof PI_RGT_0. split.
  - intros L. apply Rnot_lt_le. intros L'. pose proof (sin_gt_0 (angU p q) ltac:(lra) ltac:(lra)). nra.
  - intros L. pose proof (sin_le_0 (angU p q) ltac:(lra) ltac:(lra)). nra.
Qed.

(** cross product of the two directions *)
Lemma cross_angU p a b : a <> p -> b <> p ->
  leftExpr a b p = dist p a * dist p b * sin (angU p b - angU p a).
Proof.
  intros Ha Hb. destruct (angU_polar p a Ha) as (A1 & A2 & _). destruct (angU_polar p b Hb) as (B1 & B2 & _).
  transitivity ((vx a - vx p) * (vy b - vy p) - (vy a - vy p) * (vx b - vx p)).
  - unfold leftExpr. rcbn. ring.
  - rewrite A1, A2, B1, B2, sin_minus. rcbn. ring.
Qed.

(** ** Lifting: a path that keeps to one side of a (linearly turning) direction *)
Section Lift.
Variables (X Y dX dY : R -> R) (a s : R).
Hypothesis HX : forall t, is_derive X t (dX t).
Hypothesis HY : forall t, is_derive Y t (dY t).
Hypothesis CX : forall t, continuous dX t.
Hypothesis CY : forall t, continuous dY t.
Let U t := X t * cos (a + s * t) + Y t * sin (a + s * t).
Let V t := - X t * sin (a + s * t) + Y t * cos (a + s * t).
Hypothesis HU : forall t, 0 <= t <= 1 -> 0 < U t.
Let F t := a + s * t + atan (V t / U t).

Lemma UV_sq t : U t * U t + V t * V t = X t * X t + Y t * Y t.
Proof.
  unfold U, V. pose proof (sin2_cos2 (a + s * t)) as E. unfold Rsqr in E.
  transitivity ((X t * X t + Y t * Y t) * (sin (a + s * t) * sin (a + s * t) + cos (a + s * t) * cos (a + s * t))); [ring|].
  rewrite E. ring.
Qed.

Lemma XY_pos t : 0 <= t <= 1 -> 0 < X t * X t + Y t * Y t.
Proof. intros Ht. rewrite <- UV_sq. specialize (HU t Ht). pose proof (sq_nonneg (V t)). nra. Qed.

Lemma F_derive t : 0 <= t <= 1 -> is_derive F t ((X t * dY t - Y t * dX t) / (X t * X t + Y t * Y t)).
Proof.
  intros Ht. pose proof (HU t Ht) as Hu. pose proof (XY_pos t Ht) as Hp.
  assert (XX : ex_derive (fun x => X x) t) by (exists (dX t); apply HX).
  assert (XY : ex_derive (fun x => Y x) t) by (exists (dY t); apply HY).
  assert (EDX : Derive (fun x => X x) t = dX t) by (apply is_derive_unique, HX).
  assert (EDY : Derive (fun x => Y x) t = dY t) by (apply is_derive_unique, HY).
  assert (DU : is_derive U t (dX t * cos (a + s * t) + dY t * sin (a + s * t) + s * V t)).
  { unfold U, V. auto_derive.
    - repeat split; assumption.
    - rewrite EDX, EDY. ring. }
  assert (DV : is_derive V t (- dX t * sin (a + s * t) + dY t * cos (a + s * t) - s * U t)).
  { unfold U, V. auto_derive.
    - repeat split; assumption.
    - rewrite EDX, EDY. ring. }
  unfold F.
  assert (D1 : is_derive (fun u => a + s * u) t s) by (auto_derive; auto; ring).
  assert (D2 : is_derive (fun u => V u / U u) t (((- dX t * sin (a + s * t) + dY t * cos (a + s * t) - s * U t) * U t - V t * (dX t * cos (a + s * t) + dY t * sin (a + s * t) + s * V t)) / U t ^ 2)).
  { apply is_derive_div; [exact DV|exact DU|lra]. }
  assert (D3 : is_derive atan (V t / U t) (/ (1 + (V t / U t) ^ 2))).
  { apply is_derive_Reals. apply derivable_pt_lim_atan. }
  pose proof (is_derive_comp atan (fun u => V u / U u) t _ _ D3 D2) as D4.
  pose proof (is_derive_plus _ _ t _ _ D1 D4) as D5. unfold plus, scal in D5. cbn in D5. unfold mult in D5. cbn in D5.
  eapply eq_ind; [exact D5|].
  rewrite <- UV_sq in *. unfold Rsqr.
  set (u := U t) in *. set (v := V t) in *.
  assert (E : X t * dY t - Y t * dX t = u * (- dX t * sin (a + s * t) + dY t * cos (a + s * t)) - v * (dX t * cos (a + s * t) + dY t * sin (a + s * t))).
  { unfold u, v, U, V. pose proof (sin2_cos2 (a + s * t)) as E. unfold Rsqr in E.
    transitivity ((X t * dY t - Y t * dX t) * (sin (a + s * t) * sin (a + s * t) + cos (a + s * t) * cos (a + s * t))); [rewrite E; ring|ring]. }
  rewrite E. match goal with |- ?x = ?y => change (@eq R x y) end. field. split; [lra|]. nra.
Qed.

Lemma F_polar t : 0 <= t <= 1 -> X t = sqrt (X t * X t + Y t * Y t) * cos (F t) /\ Y t = sqrt (X t * X t + Y t * Y t) * sin (F t).
Proof.
  intros Ht. pose proof (HU t Ht) as Hu. rewrite <- UV_sq. unfold F.
  destruct (polar_aux (U t) (V t / U t) Hu) as [A B].
  replace (V t / U t * U t) with (V t) in A, B by (field; lra).
  rewrite (cos_plus (a + s * t)), (sin_plus (a + s * t)). set (r := sqrt _) in *.
  assert (EX : X t = U t * cos (a + s * t) - V t * sin (a + s * t)).
  { unfold U, V. pose proof (sin2_cos2 (a + s * t)) as E. unfold Rsqr in E.
    transitivity (X t * (sin (a + s * t) * sin (a + s * t) + cos (a + s * t) * cos (a + s * t))); [rewrite E; ring|ring]. }
  assert (EY : Y t = U t * sin (a + s * t) + V t * cos (a + s * t)).
  { unfold U, V. pose proof (sin2_cos2 (a + s * t)) as E. unfold Rsqr in E.
    transitivity (Y t * (sin (a + s * t) * sin (a + s * t) + cos (a + s * t) * cos (a + s * t))); [rewrite E; ring|ring]. }
  clearbody r. set (z := atan (V t / U t)) in *. clearbody z.
  set (u := U t) in *. set (v := V t) in *. clearbody u v. 
  split.
  - transitivity (u * cos (a + s * t) - v * sin (a + s * t)); [exact EX|]. rewrite A, B. ring.
  - transitivity (u * sin (a + s * t) + v * cos (a + s * t)); [exact EY|]. rewrite A, B. ring.
Qed.

Lemma F_int : is_RInt (fun t => (X t * dY t - Y t * dX t) / (X t * X t + Y t * Y t)) 0 1 (F 1 - F 0).
Proof.
  apply (is_RInt_derive F (fun t => (X t * dY t - Y t * dX t) / (X t * X t + Y t * Y t))).
  - intros t Ht. rewrite Rmin_left, Rmax_right in Ht by lra. now apply F_derive.
  - intros t Ht. rewrite Rmin_left, Rmax_right in Ht by lra.
    assert (CX' : forall t, continuous X t) by (intros u; apply (ex_derive_continuous X); eexists; apply HX).
    assert (CY' : forall t, continuous Y t) by (intros u; apply (ex_derive_continuous Y); eexists; apply HY).
    pose proof (XY_pos t Ht).
    apply (continuous_mult (fun t => X t * dY t - Y t * dX t) (fun t => / (X t * X t + Y t * Y t))).
    + apply (continuous_minus (fun t => X t * dY t) (fun t => Y t * dX t)); [apply (continuous_mult X dY)|apply (continuous_mult Y dX)]; auto.
    + apply continuous_Rinv_comp; [|lra].
      apply (continuous_plus (fun t => X t * X t) (fun t => Y t * Y t)); [apply (continuous_mult X X)|apply (continuous_mult Y Y)]; auto.
Qed.

Lemma F_close : s - PI < F 1 - F 0 < s + PI.
Proof. unfold F. pose proof (atan_bound (V 1 / U 1)). pose proof (atan_bound (V 0 / U 0)). lra. Qed.
End Lift.

(** ** Turning of one segment *)
Lemma angU_congruent p q r a : 0 < r -> vx q - vx p = r * cos a -> vy q - vy p = r * sin a -> congruent (angU p q) a.
Proof.
  intros Hr Hx Hy. assert (Hne : q <> p).
  { intros ->. pose proof (sin2_cos2 a) as E. unfold Rsqr in E.
    assert (cos a = 0) by (apply Rmult_eq_reg_l with r; lra). assert (sin a = 0) by (apply Rmult_eq_reg_l with r; lra). nra. }
  destruct (angU_polar p q Hne) as (A & B & D).
  apply (polar_congruent (dist p q) r); auto; lra.
Qed.

Lemma turn (p : vec) (P : R -> vec) (dX dY : R -> R) (a s : R) :
  (forall t, is_derive (fun u => vx (P u)) t (dX t)) -> (forall t, is_derive (fun u => vy (P u)) t (dY t)) ->
  (forall t, continuous dX t) -> (forall t, continuous dY t) ->
  (forall t, 0 <= t <= 1 -> 0 < (vx (P t) - vx p) * cos (a + s * t) + (vy (P t) - vy p) * sin (a + s * t)) ->
  exists D, is_RInt (angSpeed p P) 0 1 D /\ s - PI < D < s + PI /\
    (exists tau, 0 <= tau <= 1 /\ D = ((vx (P tau) - vx p) * dY tau - (vy (P tau) - vy p) * dX tau) /
       ((vx (P tau) - vx p) * (vx (P tau) - vx p) + (vy (P tau) - vy p) * (vy (P tau) - vy p))) /\
    congruent (angU p (P 1) - angU p (P 0)) D.
Proof.
  intros HX HY CX CY HU.
  set (X := fun t => vx (P t) - vx p). set (Y := fun t => vy (P t) - vy p).
  assert (HX' : forall t, is_derive X t (dX t)).
  { intros t. pose proof (is_derive_minus _ _ t _ _ (HX t) (is_derive_const (vx p) t)) as Q.
    eapply eq_ind; [exact Q|]. unfold minus, plus, opp, zero. cbn. unfold Hierarchy.opp. cbn. rring. }
  assert (HY' : forall t, is_derive Y t (dY t)).
  { intros t. pose proof (is_derive_minus _ _ t _ _ (HY t) (is_derive_const (vy p) t)) as Q.
    eapply eq_ind; [exact Q|]. unfold minus, plus, opp, zero. cbn. unfold Hierarchy.opp. cbn. rring. }
  pose proof (F_int X Y dX dY a s HX' HY' CX CY HU) as FI.
  pose proof (F_close X Y a s) as FC.
  pose proof (F_polar X Y a s HU) as FP.
  pose proof (F_derive X Y dX dY a s HX' HY' HU) as FD.
  pose proof (XY_pos X Y a s HU) as FQ.
  cbv zeta in *.
  set (F := fun t => a + s * t + atan ((- X t * sin (a + s * t) + Y t * cos (a + s * t)) / (X t * cos (a + s * t) + Y t * sin (a + s * t)))) in *.
  exists (F 1 - F 0). split; [|split; [exact FC|split]].
  - apply is_RInt_ext with (2 := FI). intros t _. unfold angSpeed.
    assert (E1 : Derive (fun u => vx (P u)) t = dX t) by (apply is_derive_unique; apply HX).
    assert (E2 : Derive (fun u => vy (P u)) t = dY t) by (apply is_derive_unique; apply HY).
    rewrite E1, E2. unfold X, Y. f_equal. rring.
  - destruct (MVT_gen F 0 1 (fun t => (X t * dY t - Y t * dX t) / (X t * X t + Y t * Y t))) as (tau & Ht & E).
    + intros t Ht. rewrite Rmin_left, Rmax_right in Ht by lra. apply FD. lra.
    + intros t Ht. rewrite Rmin_left, Rmax_right in Ht by lra.
      apply continuity_pt_filterlim. apply (ex_derive_continuous F). eexists. apply FD. lra.
    + rewrite Rmin_left, Rmax_right in Ht by lra. exists tau. split; [lra|]. rewrite E. unfold X, Y. rring.
  - destruct (FP 0 ltac:(lra)) as [A0 B0]. destruct (FP 1 ltac:(lra)) as [A1 B1].
    assert (C0 : congruent (angU p (P 0)) (F 0)).
    { apply (angU_congruent p (P 0) (sqrt (X 0 * X 0 + Y 0 * Y 0))); auto. apply sqrt_lt_R0. apply FQ. lra. }
    assert (C1 : congruent (angU p (P 1)) (F 1)).
    { apply (angU_congruent p (P 1) (sqrt (X 1 * X 1 + Y 1 * Y 1))); auto. apply sqrt_lt_R0. apply FQ. lra. }
    destruct C0 as [k0 C0]. destruct C1 as [k1 C1]. exists (k1 - k0)%Z. rewrite C0, C1, minus_IZR. ring.
Qed.

(** a path that stays on one side of a line through p turns by less than half a turn *)
Lemma turn_dir (p : vec) (P : R -> vec) (dX dY : R -> R) (nx ny : R) :
  (forall t, is_derive (fun u => vx (P u)) t (dX t)) -> (forall t, is_derive (fun u => vy (P u)) t (dY t)) ->
  (forall t, continuous dX t) -> (forall t, continuous dY t) ->
  (forall t, 0 <= t <= 1 -> 0 < nx * (vx (P t) - vx p) + ny * (vy (P t) - vy p)) ->
  exists D, is_RInt (angSpeed p P) 0 1 D /\ - PI < D < PI /\ congruent (angU p (P 1) - angU p (P 0)) D.
Proof.
  intros HX HY CX CY HU.
  assert (Hn : nx <> 0 \/ ny <> 0).
  { destruct (Req_dec nx 0); [|auto]. destruct (Req_dec ny 0); [|auto]. subst. specialize (HU 0). lra. }
  destruct (polar nx ny Hn) as [En1 En2]. set (r := sqrt (nx * nx + ny * ny)) in *.
  assert (Hr : 0 < r) by (apply sqrt_lt_R0, sumsq_pos; auto).
  destruct (turn p P dX dY (Ratan2 ny nx) 0 HX HY CX CY) as (D & H1 & H2 & _ & H3).
  - intros t Ht. specialize (HU t Ht). rewrite Rmult_0_l, Rplus_0_r.
    set (w := Ratan2 ny nx) in *. clearbody w r. rewrite En1, En2 in HU. apply Rmult_lt_reg_l with r; auto. lra.
  - exists D. split; auto. split; auto. lra.
Qed.

(** *** lines *)
Lemma line_turn (p1 p2 p : vec) : (forall t, 0 <= t <= 1 -> lerp p1 p2 t <> p) ->
  exists D, is_RInt (angSpeed p (lerp p1 p2)) 0 1 D /\ - PI < D < PI /\ congruent (angU p p2 - angU p p1) D.
Proof.
  intros Hoff.
  assert (E0 : lerp p1 p2 0 = p1) by (unfold lerp; apply vec_eq; rcbn; ring).
  assert (E1 : lerp p1 p2 1 = p2) by (unfold lerp; apply vec_eq; rcbn; ring).
  assert (HX : forall t, is_derive (fun u => vx (lerp p1 p2 u)) t ((fun _ => vx p2 - vx p1) t)).
  { intros t. unfold lerp. cbn [vx]. auto_derive; auto. rring. }
  assert (HY : forall t, is_derive (fun u => vy (lerp p1 p2 u)) t ((fun _ => vy p2 - vy p1) t)).
  { intros t. unfold lerp. cbn [vy]. auto_derive; auto. rring. }
  assert (Dir : exists nx ny, forall t, 0 <= t <= 1 -> 0 < nx * (vx (lerp p1 p2 t) - vx p) + ny * (vy (lerp p1 p2 t) - vy p)).
  { set (dx := vx p2 - vx p1). set (dy := vy p2 - vy p1).
    set (ux := vx p1 - vx p). set (uy := vy p1 - vy p).
    assert (EX : forall t, vx (lerp p1 p2 t) - vx p = ux + t * dx) by (intros t; unfold lerp, ux, dx; rcbn; ring).
    assert (EY : forall t, vy (lerp p1 p2 t) - vy p = uy + t * dy) by (intros t; unfold lerp, uy, dy; rcbn; ring).
    destruct (Rtotal_order (dx * uy - dy * ux) 0) as [L|[L|L]].
    - exists dy, (- dx). intros t Ht. rewrite EX, EY. apply Rlt_le_trans with (- (dx * uy - dy * ux)); [lra|]. right. ring.
    - exists ux, uy. intros t Ht. rewrite EX, EY.
      assert (Nu : ux <> 0 \/ uy <> 0). { apply vec_ne. intros E. apply (Hoff 0); [lra|]. rewrite E0; auto. }
      pose proof (sumsq_pos ux uy Nu) as Hp.
      apply Rnot_le_lt. intros Hneg.
      set (q := ux * dx + uy * dy) in *.
      assert (Hq : ux * ux + uy * uy + t * q <= 0) by (unfold q; lra).
      assert (Hq0 : q < 0) by nra.
      (* the point where the path meets p *)
      apply (Hoff ((ux * ux + uy * uy) / - q)).
      + split; [apply Rmult_le_pos; [lra|left; apply Rinv_0_lt_compat; lra]|].
        apply Rmult_le_reg_r with (- q); [lra|]. unfold Rdiv. rewrite Rmult_assoc, Rinv_l by lra. nra.
      + set (tt := (ux * ux + uy * uy) / - q).
        assert (Et : tt * q = - (ux * ux + uy * uy)) by (unfold tt; field; lra).
        (* u + tt d is parallel and orthogonal to u *)
        assert (O : ux * (ux + tt * dx) + uy * (uy + tt * dy) = 0).
        { transitivity (ux * ux + uy * uy + tt * q); [unfold q; ring|lra]. }
        assert (C : ux * (uy + tt * dy) - uy * (ux + tt * dx) = 0).
        { transitivity (- tt * (dx * uy - dy * ux)); [ring|]. rewrite L. ring. }
        assert (Zx : ux + tt * dx = 0).
        { apply Rmult_eq_reg_l with (ux * ux + uy * uy); [|lra]. rewrite Rmult_0_r.
          transitivity (ux * (ux * (ux + tt * dx) + uy * (uy + tt * dy)) - uy * (ux * (uy + tt * dy) - uy * (ux + tt * dx))); [ring|]. rewrite O, C. ring. }
        assert (Zy : uy + tt * dy = 0).
        { apply Rmult_eq_reg_l with (ux * ux + uy * uy); [|lra]. rewrite Rmult_0_r.
          transitivity (uy * (ux * (ux + tt * dx) + uy * (uy + tt * dy)) + ux * (ux * (uy + tt * dy) - uy * (ux + tt * dx))); [ring|]. rewrite O, C. ring. }
        rewrite <- EX in Zx. rewrite <- EY in Zy. apply vec_eq; rcbn; lra.
    - exists (- dy), dx. intros t Ht. rewrite EX, EY. apply Rlt_le_trans with (dx * uy - dy * ux); [lra|]. right. ring. }
  destruct Dir as (nx & ny & Dir).
  destruct (turn_dir p (lerp p1 p2) _ _ nx ny HX HY) as (D & H1 & H2 & H3); auto.
  - intros t. apply continuous_const. - intros t. apply continuous_const.
  - rewrite E0, E1 in H3. eauto.
Qed.

(** *** arcs *)
Definition sq2 (p c : vec) : R := (vx p - vx c) * (vx p - vx c) + (vy p - vy c) * (vy p - vy c).

Lemma sq2_rot c th p : sq2 (rot c th p) c = sq2 p c.
Proof.
  unfold sq2, rot. rcbn. pose proof (sin2_cos2 th) as E. unfold Rsqr in E.
  transitivity ((sin th * sin th + cos th * cos th) * ((vx p - vx c) * (vx p - vx c) + (vy p - vy c) * (vy p - vy c))); [ring|].
  rewrite E. ring.
Qed.

Section ArcTurn.
Variables (c p1 p : vec) (th : R).
Let P t := rot c (t * th) p1.
Let dX t := - (th * (vy (P t) - vy c)).
Let dY t := th * (vx (P t) - vx c).

Lemma arc_dX t : is_derive (fun u => vx (P u)) t (dX t).
Proof. unfold P, dX, P, rot. cbn [vx vy]. auto_derive; auto. rcbn. ring. Qed.
Lemma arc_dY t : is_derive (fun u => vy (P u)) t (dY t).
Proof. unfold P, dY, P, rot. cbn [vx vy]. auto_derive; auto. rcbn. ring. Qed.
Lemma arc_cX t : continuous dX t.
Proof. apply (ex_derive_continuous dX). unfold dX, P, rot. cbn [vx vy]. auto_derive; auto. Qed.
Lemma arc_cY t : continuous dY t.
Proof. apply (ex_derive_continuous dY). unfold dY, P, rot. cbn [vx vy]. auto_derive; auto. Qed.

(** p strictly outside the circle *)
Lemma arc_turn_out : sq2 p1 c < sq2 p c ->
  exists D, is_RInt (angSpeed p P) 0 1 D /\ - PI < D < PI /\ congruent (angU p (P 1) - angU p (P 0)) D.
Proof.
  intros H. apply (turn_dir p P dX dY (vx c - vx p) (vy c - vy p) arc_dX arc_dY arc_cX arc_cY).
  intros t Ht. pose proof (sq2_rot c (t * th) p1) as E. fold (P t) in E. unfold sq2 in *.
  set (q := P t) in *. clearbody q.
  apply Rnot_le_lt. intros L.
  pose proof (sumsq_nonneg (vx q - vx p) (vy q - vy p)) as N.
  assert (I : (vx q - vx p) * (vx q - vx p) + (vy q - vy p) * (vy q - vy p) =
    ((vx q - vx c) * (vx q - vx c) + (vy q - vy c) * (vy q - vy c)) - ((vx p - vx c) * (vx p - vx c) + (vy p - vy c) * (vy p - vy c)) +
    2 * ((vx c - vx p) * (vx q - vx p) + (vy c - vy p) * (vy q - vy p))) by ring.
  lra.
Qed.

(** p strictly inside the circle: the direction turns the same way as the arc *)
Lemma arc_turn_in : sq2 p c < sq2 p1 c ->
  exists D, is_RInt (angSpeed p P) 0 1 D /\ th - PI < D < th + PI /\ (0 < th -> 0 < D) /\ (th < 0 -> D < 0) /\
    congruent (angU p (P 1) - angU p (P 0)) D.
Proof.
  intros H.
  assert (Hne : p1 <> c).
  { intros ->. pose proof (sumsq_nonneg (vx p - vx c) (vy p - vy c)). unfold sq2 in H. replace (vx c - vx c) with 0 in H by rring. replace (vy c - vy c) with 0 in H by rring. lra. }
  destruct (angle_polar c p1 Hne) as (A & B & D1).
  assert (Key : forall t, 0 < (vx (P t) - vx p) * (vx (P t) - vx c) + (vy (P t) - vy p) * (vy (P t) - vy c)).
  { intros t. pose proof (sq2_rot c (t * th) p1) as E. fold (P t) in E. unfold sq2 in *.
    set (q := P t) in *. clearbody q. apply Rnot_le_lt. intros L.
    pose proof (sumsq_nonneg (vx q - vx p) (vy q - vy p)) as N.
    assert (I : (vx q - vx p) * (vx q - vx p) + (vy q - vy p) * (vy q - vy p) =
      ((vx p - vx c) * (vx p - vx c) + (vy p - vy c) * (vy p - vy c)) - ((vx q - vx c) * (vx q - vx c) + (vy q - vy c) * (vy q - vy c)) +
      2 * ((vx q - vx p) * (vx q - vx c) + (vy q - vy p) * (vy q - vy c))) by ring.
    lra. }
  assert (EP : forall t, vx (P t) - vx c = dist c p1 * cos (angle c p1 + th * t) /\ vy (P t) - vy c = dist c p1 * sin (angle c p1 + th * t)).
  { intros t. unfold P, rot. cbn [vx vy]. rewrite cos_plus, sin_plus, (Rmult_comm th t). rcbn. split.
    - replace (dist c p1 * (cos (angle c p1) * cos (t * th) - sin (angle c p1) * sin (t * th))) with
        (cos (t * th) * (dist c p1 * cos (angle c p1)) - sin (t * th) * (dist c p1 * sin (angle c p1))) by ring.
      rewrite <- A, <- B. ring.
    - replace (dist c p1 * (sin (angle c p1) * cos (t * th) + cos (angle c p1) * sin (t * th))) with
        (cos (t * th) * (dist c p1 * sin (angle c p1)) + sin (t * th) * (dist c p1 * cos (angle c p1))) by ring.
      rewrite <- A, <- B. ring. }
  destruct (turn p P dX dY (angle c p1) th arc_dX arc_dY arc_cX arc_cY) as (D & I1 & I2 & (tau & Ht & I3) & I4).
  - intros t _. destruct (EP t) as [E1 E2]. specialize (Key t). rewrite E1, E2 in Key.
    apply Rmult_lt_reg_l with (dist c p1); auto. lra.
  - exists D. split; auto. split; auto.
    assert (Sg : exists k, 0 < k /\ D = th * k).
    { specialize (Key tau). set (q := P tau) in *.
      assert (Q : 0 < (vx q - vx p) * (vx q - vx p) + (vy q - vy p) * (vy q - vy p)).
      { apply sumsq_pos. destruct (Req_dec (vx q - vx p) 0) as [E|]; [|auto]. right. intros E'. rewrite E, E' in Key. lra. }
      exists (((vx q - vx p) * (vx q - vx c) + (vy q - vy p) * (vy q - vy c)) / ((vx q - vx p) * (vx q - vx p) + (vy q - vy p) * (vy q - vy p))).
      split; [now apply Rdiv_lt_0_compat|]. rewrite I3. unfold dX, dY. fold q. asR. field. lra. }
    destruct Sg as (k & Hk & ->). split; [intros; apply Rmult_lt_0_compat; auto|]. split; auto.
    intros. nra.
Qed.
End ArcTurn.

(** p on the circle but not on the arc *)
Lemma chord_side c p1 s T a : s * s = 1 ->
  leftExpr p1 (rot c (s * T) p1) (rot c (s * a) p1) = s * (sq2 p1 c * (4 * sin ((a - T) / 2) * sin (a / 2) * sin (T / 2))).
Proof.
  intros Hs.
  assert (Esin : forall x, sin (s * x) = s * sin x).
  { intros x. assert (S : s = 1 \/ s = -1) by (assert (Q : (s - 1) * (s + 1) = 0) by lra; apply Rmult_integral in Q; destruct Q; [left|right]; lra).
    destruct S as [->| ->]; [rewrite !Rmult_1_l; auto|]. replace (-1 * x) with (- x) by ring. rewrite sin_neg. ring. }
  assert (Ecos : forall x, cos (s * x) = cos x).
  { intros x. assert (S : s = 1 \/ s = -1) by (assert (Q : (s - 1) * (s + 1) = 0) by lra; apply Rmult_integral in Q; destruct Q; [left|right]; lra).
    destruct S as [->| ->]; [rewrite !Rmult_1_l; auto|]. replace (-1 * x) with (- x) by ring. apply cos_neg. }
  assert (G : leftExpr p1 (rot c (s * T) p1) (rot c (s * a) p1) =
     sq2 p1 c * ((cos (s * T) - 1) * sin (s * a) - sin (s * T) * (cos (s * a) - 1))).
  { unfold leftExpr, rot, sq2. rcbn. ring. }
  rewrite G, !Esin, !Ecos.
  assert (I : (cos T - 1) * sin a - sin T * (cos a - 1) = 4 * sin ((a - T) / 2) * sin (a / 2) * sin (T / 2)).
  { set (x := a / 2). set (y := T / 2). replace a with (2 * x) by (unfold x; field). replace T with (2 * y) by (unfold y; field).
    replace ((2 * x - 2 * y) / 2) with (x - y) by field. rewrite sin_minus, !sin_2a, !cos_2a_sin. 
    pose proof (sin2_cos2 x) as X. pose proof (sin2_cos2 y) as Y. unfold Rsqr in *.
    ring_simplify. ring. }
  rewrite <- I. rcbn. ring.
Qed.

Lemma arc_turn_on (v1 v2 : vertex) (p : vec) : okArc v1 v2 -> ~ onSeg v1 v2 p ->
  let c := ctr (pos v1) (pos v2) (bulge v1) in let P := fun t => rot c (t * sweep (bulge v1)) (pos v1) in
  sq2 p c = sq2 (pos v1) c ->
  exists D, is_RInt (angSpeed p P) 0 1 D /\ - PI < D < PI /\ congruent (angU p (P 1) - angU p (P 0)) D.
Proof.
  intros Hok Hoff c P Hsq. pose proof (okArc_sweep _ _ Hok) as HT.
  pose proof (okArc_onSeg v1 v2 p Hok) as On. fold c in On.
  pose proof (okArc_r2 _ _ Hok) as Hr. fold c in Hr.
  assert (Hd : dist c p = dist c (pos v1)).
  { rewrite !dist_as. f_equal. exact Hsq. }
  destruct (arc_param v1 v2 p Hok Hd) as (g & Hg & Ep). fold c in Ep.
  destruct Hok as (Hl & _ & Hne). pose proof (notLine_ne _ Hl) as Hb. pose proof (sgn_sweep _ Hb) as Es. pose proof (sgn_sq (bulge v1)) as Ss.
  set (s := sgn (bulge v1)) in *. set (Th := Rabs (sweep (bulge v1))) in *.
  assert (HgT : Th < g). { apply Rnot_le_lt. intros L. apply Hoff. apply On. exists g. split; [lra|auto]. }
  assert (Er : rot c (s * Th) (pos v1) = pos v2).
  { pose proof (ctr_spec (pos v1) (pos v2) (bulge v1) Hb) as Q. unfold arcCentre in Q. fold c in Q. now rewrite <- Es. }
  assert (Hsq0 : 0 < sq2 (pos v1) c).
  { unfold sq2. apply sumsq_pos. apply vec_ne. intros E. apply (dist_pos_ne _ _ Hr). auto. }
  pose proof (chord_side c (pos v1) s Th g Ss) as Sp. rewrite Er, <- Ep in Sp.
  set (dx := vx (pos v2) - vx (pos v1)). set (dy := vy (pos v2) - vy (pos v1)).
  assert (Sgn : s = 1 \/ s = -1) by (assert (Q : (s - 1) * (s + 1) = 0) by lra; apply Rmult_integral in Q; destruct Q; [left|right]; lra).
  apply (turn_dir p P _ _ (s * dy) (- s * dx) (arc_dX c (pos v1) _) (arc_dY c (pos v1) _) (arc_cX c (pos v1) _) (arc_cY c (pos v1) _)).
  intros t Ht. unfold P.
  pose proof (chord_side c (pos v1) s Th (t * Th) Ss) as St. rewrite Er in St.
  replace (t * sweep (bulge v1)) with (s * (t * Th)) by (rewrite Es; ring).
  set (q := rot c (s * (t * Th)) (pos v1)) in *.
  assert (G : s * dy * (vx q - vx p) + - s * dx * (vy q - vy p) = s * (leftExpr (pos v1) (pos v2) p) - s * (leftExpr (pos v1) (pos v2) q)).
  { unfold leftExpr, dx, dy. rcbn. ring. }
  rewrite G, Sp, St. clearbody q.
  assert (Ap : 0 < 4 * sin ((g - Th) / 2) * sin (g / 2) * sin (Th / 2)).
  { pose proof PI_RGT_0. repeat apply Rmult_lt_0_compat; try lra; apply sin_gt_0; lra. }
  assert (At : 0 <= - (4 * sin ((t * Th - Th) / 2) * sin (t * Th / 2) * sin (Th / 2))).
  { assert (0 <= t * Th <= Th) by (split; [apply Rmult_le_pos; lra|]; assert (t * Th <= 1 * Th) by (apply Rmult_le_compat_r; lra); lra).
    replace (- (4 * sin ((t * Th - Th) / 2) * sin (t * Th / 2) * sin (Th / 2))) with (4 * sin ((Th - t * Th) / 2) * sin (t * Th / 2) * sin (Th / 2)).
    - repeat apply Rmult_le_pos; try lra; apply sin_ge_0; lra.
    - replace ((t * Th - Th) / 2) with (- ((Th - t * Th) / 2)) by field. rewrite sin_neg. ring. }
  set (A := 4 * sin ((g - Th) / 2) * sin (g / 2) * sin (Th / 2)) in *. set (B := 4 * sin ((t * Th - Th) / 2) * sin (t * Th / 2) * sin (Th / 2)) in *.
  replace (s * (s * (sq2 (pos v1) c * A)) - s * (s * (sq2 (pos v1) c * B))) with (s * s * sq2 (pos v1) c * (A - B)) by ring.
  rewrite Ss. apply Rmult_lt_0_compat; lra.
Qed.

(** ** The computed contribution of one segment *)
Lemma turn_unique x D w : congruent x D -> - (2 * PI) < D - x - IZR w * (2 * PI) < 2 * PI -> D = x + 2 * PI * IZR w.
Proof.
  intros [k ->] H. replace (x + IZR k * (2 * PI) - x - IZR w * (2 * PI)) with (IZR (k - w) * (2 * PI)) in H by (rewrite minus_IZR; ring).
  pose proof PI_RGT_0. assert (-1 < IZR (k - w) < 1) by (split; nra).
  destruct H1 as [A B]. apply lt_IZR in A. apply lt_IZR in B. assert (k = w) by lia. subst. ring.
Qed.

Lemma sin_cases x : - (2 * PI) < x < 2 * PI ->
  (0 < sin x <-> (- (2 * PI) < x < - PI \/ 0 < x < PI)) /\ (sin x < 0 <-> (- PI < x < 0 \/ PI < x < 2 * PI)).
Proof.
  intros H. pose proof PI_RGT_0.
  assert (S : forall y, - (2 * PI) < y < - PI \/ 0 < y < PI -> 0 < sin y).
  { intros y [Hy|Hy]; [|apply sin_gt_0; lra]. replace (sin y) with (sin (y + 2 * PI)) by (rewrite sin_plus, cos_2PI, sin_2PI; ring). apply sin_gt_0; lra. }
  assert (N : forall y, - PI < y < 0 \/ PI < y < 2 * PI -> sin y < 0).
  { intros y [Hy|Hy]; [|apply sin_lt_0; lra]. assert (0 < sin (- y)) by (apply sin_gt_0; lra). rewrite sin_neg in *. lra. }
  assert (Z : x = - PI \/ x = 0 \/ x = PI -> sin x = 0).
  { intros [->|[->| ->]]; [rewrite sin_neg, sin_PI; lra|apply sin_0|apply sin_PI]. }
  split; split; auto; intros Hs.
  - destruct (Rlt_dec x (- PI)); [left; lra|]. destruct (Rlt_dec 0 x).
    + destruct (Rlt_dec x PI); [right; lra|]. destruct (Req_dec x PI); [pose proof (Z ltac:(auto)); lra|]. pose proof (N x ltac:(right; lra)). lra.
    + destruct (Req_dec x 0); [pose proof (Z ltac:(auto)); lra|]. destruct (Req_dec x (- PI)); [pose proof (Z ltac:(auto)); lra|]. pose proof (N x ltac:(left; lra)). lra.
  - destruct (Rlt_dec x (- PI)); [pose proof (S x ltac:(left; lra)); lra|]. destruct (Rlt_dec x 0).
    + destruct (Req_dec x (- PI)); [pose proof (Z ltac:(auto)); lra|]. left; lra.
    + destruct (Req_dec x 0); [pose proof (Z ltac:(auto)); lra|]. destruct (Req_dec x PI); [pose proof (Z ltac:(auto)); lra|].
      destruct (Rlt_dec x PI); [pose proof (S x ltac:(right; lra)); lra|]. right; lra.
Qed.

Lemma left_angle p a b : a <> p -> b <> p ->
  let x := angU p b - angU p a in
  (0 < leftExpr a b p <-> (- (2 * PI) < x < - PI \/ 0 < x < PI)) /\
  (leftExpr a b p < 0 <-> (- PI < x < 0 \/ PI < x < 2 * PI)).
Proof.
  intros Ha Hb x. pose proof (cross_angU p a b Ha Hb) as E. fold x in E.
  destruct (angU_polar p a Ha) as (_ & _ & Da). destruct (angU_polar p b Hb) as (_ & _ & Db).
  pose proof (angU_bounds p a). pose proof (angU_bounds p b).
  assert (Hx : - (2 * PI) < x < 2 * PI) by (unfold x; lra).
  destruct (sin_cases x Hx) as [S1 S2]. rewrite <- S1, <- S2. rewrite E.
  assert (Hd : 0 < dist p a * dist p b) by (apply Rmult_lt_0_compat; auto).
  set (d := dist p a * dist p b) in *. set (y := sin x). clearbody d y. rcbn.
  split; split; intros Q.
  - apply Rmult_lt_reg_l with d; lra. - apply Rmult_lt_0_compat; auto.
  - apply Rmult_lt_reg_l with d; lra. - nra.
Qed.

