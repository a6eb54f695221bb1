(** * C26: getExtents *)
From Coq Require Import ZArith Reals Lra Lia List Bool Arith Permutation.
From Verif Require Import Base Num MathUtils PlineSegment SpatialIndex Polyline RGeom Spec PropsMath ArcGeom Polar PropsSegment PropsClosest PropsIntr PropsPlineIntr PropsPolyline.
Import ListNotations.
Open Scope R_scope.

(** ** Extreme of an arc in a direction *)
Lemma cos_near e : 0 <= e <= 1 -> 1 - e <= cos e.
Proof.
  intros He. replace e with (2 * (e / 2)) at 2 by field. rewrite cos_2a_sin.
  assert (0 <= sin (e / 2) <= e / 2).
  { pose proof PI2_1. split; [apply sin_ge_0; lra|]. destruct (Req_dec e 0) as [->|]; [replace (0 / 2) with 0 by field; rewrite sin_0; lra|].
    left. apply sin_lt_x. lra. }
  assert (sin (e / 2) * sin (e / 2) <= (e / 2) * (e / 2)) by (apply Rmult_le_compat; lra). nra.
Qed.

Section Dir.
Context (s A T0 X r : R) (Hs : s = 1 \/ s = -1) (HT : 0 < T0 <= PI) (Hr : 0 <= r).
Local Notation comp a := (r * cos (A + s * a - X)).

Lemma comp_y a y k : s * (X - A) = y + IZR k * (2 * PI) -> comp a = r * cos (y - a).
Proof.
  intros E. f_equal.
  assert (E1 : cos (A + s * a - X) = cos (s * (X - A) - a)).
  { destruct Hs as [-> | ->].
    - rewrite <- cos_neg. f_equal. ring.
    - f_equal. ring. }
  rewrite E1, E. symmetry. apply congruent_cos. exists k. ring.
Qed.

Lemma dir_false : angleIsWithinSweep A (s * T0) X eps = false ->
  forall a, 0 <= a <= T0 -> comp a <= comp 0 \/ comp a <= comp T0.
Proof.
  intros H a Ha. destruct (aws_false s A T0 X Hs HT H) as (y & k & E & Hy & _).
  rewrite !(comp_y _ y k E). rewrite Rminus_0_r.
  destruct (cos_between y a T0 Ha ltac:(lra)); [left|right]; apply Rmult_le_compat_l; auto.
Qed.

Lemma dir_true : angleIsWithinSweep A (s * T0) X eps = true ->
  exists a, 0 <= a <= T0 /\ r - r * eps <= comp a.
Proof.
  intros H. pose proof eps_pos. assert (eps < 1) by (unfold eps; lra).
  destruct (aws_true s A T0 X Hs HT H) as (y & k & E & Hy).
  assert (exists a, 0 <= a <= T0 /\ - eps <= y - a <= eps) as (a & Ha & Hd).
  { destruct (Rle_dec y 0); [exists 0; lra|]. destruct (Rle_dec y T0); [exists y; lra|]. exists T0; lra. }
  exists a. split; auto. rewrite (comp_y _ y k E).
  assert (1 - eps <= cos (y - a)).
  { destruct (Rle_dec 0 (y - a)).
    - apply Rle_trans with (1 - (y - a)); [lra|]. apply cos_near. lra.
    - rewrite <- cos_neg. apply Rle_trans with (1 - (- (y - a))); [lra|]. apply cos_near. lra. }
  assert (r * (1 - eps) <= r * cos (y - a)) by (apply Rmult_le_compat_l; lra). lra.
Qed.

Lemma dir_max a : comp a <= r.
Proof. pose proof (COS_bound (A + s * a - X)). nra. Qed.
End Dir.

(** ** The box of one segment *)
Definition segBox (v1 v2 : vertex) : aabb :=
  if bulgeIsZero v1 then mkAABB (px v1) (py v1) (px v1) (py v1)
  else
    let arc := arcRadiusAndCenter v1 v2 in
    let startAngle := angle (center arc) (pos v1) in
    let within a := angleIsWithinSweep startAngle (sweep (bulge v1)) a eps in
    mkAABB (if within PI then vx (center arc) - radius arc else tmin (px v1) (px v2))
           (if within (3 / 2 * PI) then vy (center arc) - radius arc else tmin (py v1) (py v2))
           (if within (2 * PI) then vx (center arc) + radius arc else tmax (px v1) (px v2))
           (if within (1 / 2 * PI) then vy (center arc) + radius arc else tmax (py v1) (py v2)).

Definition mergeBox (r b : aabb) : aabb :=
  mkAABB (if Rltb (xMin b) (xMin r) then xMin b else xMin r) (if Rltb (yMin b) (yMin r) then yMin b else yMin r)
         (if Rltb (xMax r) (xMax b) then xMax b else xMax r) (if Rltb (yMax r) (yMax b) then yMax b else yMax r).

Lemma sweep_corrected v1 v2 : okArc v1 v2 ->
  let arc := arcRadiusAndCenter v1 v2 in
  let d := deltaAngle (angle (center arc) (pos v1)) (angle (center arc) (pos v2)) in
  (if Rltb 0 d && Rltb (bulge v1) 0 then d - 2 * PI else d) = sweep (bulge v1).
Proof.
  intros (Hl & Hb1 & Hne) arc d. pose proof (notLine_ne _ Hl) as Hb. pose proof PI_RGT_0.
  assert (Ec : center arc = ctr (pos v1) (pos v2) (bulge v1)) by (now apply center_R).
  pose proof (ctr_spec (pos v1) (pos v2) _ Hb) as Hc. unfold arcCentre in Hc. rewrite <- Ec in Hc.
  pose proof (ctr_ne (pos v1) (pos v2) _ Hb Hne) as Nc. rewrite <- Ec in Nc.
  pose proof (sweep_le_pi _ Hb1) as Hs. unfold d.
  destruct (Req_dec (sweep (bulge v1)) (- PI)) as [E|E].
  - assert (Ed : deltaAngle (angle (center arc) (pos v1)) (angle (center arc) (pos v2)) = PI).
    { rewrite <- Hc. apply (congruent_unique' _ _ (- PI)).
      - apply congruent_sym. eapply congruent_trans; [|apply delta_rot; auto]. rewrite E. exists (-1)%Z. simpl. lra.
      - destruct (C09_deltaAngle (angle (center arc) (pos v1)) (angle (center arc) (rot (center arc) (sweep (bulge v1)) (pos v1)))) as [B _]. lra.
      - lra. }
    rewrite Ed, E. rewrite (proj2 (Rltb_spec 0 PI)) by lra.
    assert (bulge v1 < 0). { apply Rnot_le_lt. intros L. pose proof (sweep_pos (bulge v1) ltac:(lra)). lra. }
    rewrite (proj2 (Rltb_spec _ _)) by auto. cbn [andb]. lra.
  - assert (Ed : deltaAngle (angle (center arc) (pos v1)) (angle (center arc) (pos v2)) = sweep (bulge v1)).
    { rewrite <- Hc. apply delta_rot_eq; auto. lra. }
    rewrite Ed. destruct (Rltb 0 (sweep (bulge v1))) eqn:E1; [|reflexivity]. rbool.
    destruct (Rltb (bulge v1) 0) eqn:E2; [|reflexivity]. rbool. pose proof (sweep_neg _ E2). lra.
Qed.

Lemma extents_step_R pl r i j : (isLine (at_ pl i) \/ okArc (at_ pl i) (at_ pl j)) ->
  extents_step pl r i j = (true, mergeBox r (segBox (at_ pl i) (at_ pl j))).
Proof.
  intros H. unfold extents_step, segBox. set (v1 := at_ pl i) in *. set (v2 := at_ pl j) in *. clearbody v1 v2.
  destruct (bulgeIsZero v1) eqn:Z.
  - unfold mergeBox. cbn [xMin yMin xMax yMax]. rcbn. reflexivity.
  - destruct H as [H|H]; [apply bulgeIsZero_R in H; congruence|].
    pose proof (sweep_corrected v1 v2 H) as Es. cbv zeta in Es. unfold mergeBox. cbn [xMin yMin xMax yMax]. rcbn. rewrite Es.
    reflexivity.
Qed.

Lemma segBox_arc v1 v2 : okArc v1 v2 -> let r := radius (arcRadiusAndCenter v1 v2) in
  (forall q, onSeg v1 v2 q -> inBox (segBox v1 v2) q) /\
  (exists q, onSeg v1 v2 q /\ vx q <= xMin (segBox v1 v2) + r * eps) /\
  (exists q, onSeg v1 v2 q /\ vy q <= yMin (segBox v1 v2) + r * eps) /\
  (exists q, onSeg v1 v2 q /\ xMax (segBox v1 v2) - r * eps <= vx q) /\
  (exists q, onSeg v1 v2 q /\ yMax (segBox v1 v2) - r * eps <= vy q).
Proof.
  intros Hok r. pose proof (okArc_sweep _ _ Hok) as HT. pose proof (okArc_onSeg v1 v2) as On.
  assert (On' : forall q, onSeg v1 v2 q <-> exists a, 0 <= a <= Rabs (sweep (bulge v1)) /\ q = rot (ctr (pos v1) (pos v2) (bulge v1)) (sgn (bulge v1) * a) (pos v1)) by (intros; now apply On). clear On.
  pose proof Hok as (Hl & Hb1 & Hne). pose proof (notLine_ne _ Hl) as Hb.
  pose proof (sgn_sweep _ Hb) as Es. pose proof (sgn_sq (bulge v1)) as Ss.
  pose proof (ctr_ne (pos v1) (pos v2) _ Hb Hne) as Nc.
  pose proof (center_R v1 v2 Hb Hne) as Ec. pose proof (radius_pos v1 v2 Hb Hne) as Hr. fold r in Hr.
  destruct (C12_arc_centre_radius v1 v2 Hb Hne) as (_ & Hd & _). cbv zeta in Hd. fold r in Hd. rewrite Ec in Hd.
  pose proof (ctr_spec (pos v1) (pos v2) _ Hb) as Hcs. unfold arcCentre in Hcs.
  unfold segBox. rewrite (proj2 (bulgeIsZero_false v1) Hl). rewrite Ec. fold r.
  set (c := ctr (pos v1) (pos v2) (bulge v1)) in *. set (s := sgn (bulge v1)) in *. set (T0 := Rabs (sweep (bulge v1))) in *.
  set (A := angle c (pos v1)) in *. rewrite Es.
  assert (Sgn : s = 1 \/ s = -1) by (assert (Q : (s - 1) * (s + 1) = 0) by lra; apply Rmult_integral in Q; destruct Q; [left|right]; lra).
  assert (Pt : forall a, vx (rot c (s * a) (pos v1)) = vx c + r * cos (A + s * a) /\ vy (rot c (s * a) (pos v1)) = vy c + r * sin (A + s * a)).
  { intros a. rewrite <- (pointOnCircle_rot c (s * a) (pos v1) Nc). unfold pointOnCircle. rcbn. rewrite Hd. fold A. lra. }
  assert (P0 : rot c (s * 0) (pos v1) = pos v1) by (rewrite Rmult_0_r; apply rot_0).
  assert (PT : rot c (s * T0) (pos v1) = pos v2) by (rewrite <- Es; exact Hcs).
  (* components *)
  assert (C1 : forall a, r * cos (A + s * a - PI) = - (vx (rot c (s * a) (pos v1)) - vx c)).
  { intros a. destruct (Pt a) as [-> _]. rewrite cos_minus, cos_PI, sin_PI. ring. }
  assert (C2 : forall a, r * cos (A + s * a - 3 / 2 * PI) = - (vy (rot c (s * a) (pos v1)) - vy c)).
  { intros a. destruct (Pt a) as [_ ->]. rewrite cos_minus. replace (3 / 2 * PI) with (3 * (PI / 2)) by field. rewrite cos_3PI2, sin_3PI2. ring. }
  assert (C3 : forall a, r * cos (A + s * a - 2 * PI) = vx (rot c (s * a) (pos v1)) - vx c).
  { intros a. destruct (Pt a) as [-> _]. rewrite cos_minus, cos_2PI, sin_2PI. ring. }
  assert (C4 : forall a, r * cos (A + s * a - 1 / 2 * PI) = vy (rot c (s * a) (pos v1)) - vy c).
  { intros a. destruct (Pt a) as [_ ->]. rewrite cos_minus. replace (1 / 2 * PI) with (PI / 2) by field. rewrite cos_PI2, sin_PI2. ring. }
  assert (re : 0 < r * eps) by (apply Rmult_lt_0_compat; [auto|apply eps_pos]).
  cbn [xMin yMin xMax yMax]. unfold px, py.
  assert (O0 : onSeg v1 v2 (pos v1)). { apply On'. exists 0. split; [lra|auto]. }
  assert (O1 : onSeg v1 v2 (pos v2)). { apply On'. exists T0. split; [lra|auto]. }
  assert (OA : forall a, 0 <= a <= T0 -> onSeg v1 v2 (rot c (s * a) (pos v1))). { intros a Ha. apply On'. eauto. }
  assert (Tmin : forall x y : R, tmin x y = x \/ tmin x y = y) by (intros x y; unfold tmin; rcbn; destruct (Rltb y x); auto).
  assert (Tmax : forall x y : R, tmax x y = x \/ tmax x y = y) by (intros x y; unfold tmax; rcbn; destruct (Rltb x y); auto).
  split; [|split; [|split; [|split]]].
  - intros q Hq. apply On' in Hq. destruct Hq as (a & Ha & ->). unfold inBox. cbn [xMin yMin xMax yMax].
    split; split.
    + destruct (angleIsWithinSweep A (s * T0) PI eps) eqn:W.
      * pose proof (dir_max s A PI r ltac:(lra) a) as Q. rewrite C1 in Q. rcbn. lra.
      * pose proof (tmin_le (vx (pos v1)) (vx (pos v2))).
        destruct (dir_false s A T0 PI r Sgn HT ltac:(lra) W a Ha) as [Q|Q]; rewrite !C1 in Q; rewrite ?P0, ?PT in Q; rcbn; lra.
    + destruct (angleIsWithinSweep A (s * T0) (2 * PI) eps) eqn:W.
      * pose proof (dir_max s A (2 * PI) r ltac:(lra) a) as Q. rewrite C3 in Q. rcbn. lra.
      * pose proof (tmax_ge (vx (pos v1)) (vx (pos v2))).
        destruct (dir_false s A T0 (2 * PI) r Sgn HT ltac:(lra) W a Ha) as [Q|Q]; rewrite !C3 in Q; rewrite ?P0, ?PT in Q; rcbn; lra.
    + destruct (angleIsWithinSweep A (s * T0) (3 / 2 * PI) eps) eqn:W.
      * pose proof (dir_max s A (3 / 2 * PI) r ltac:(lra) a) as Q. rewrite C2 in Q. rcbn. lra.
      * pose proof (tmin_le (vy (pos v1)) (vy (pos v2))).
        destruct (dir_false s A T0 (3 / 2 * PI) r Sgn HT ltac:(lra) W a Ha) as [Q|Q]; rewrite !C2 in Q; rewrite ?P0, ?PT in Q; rcbn; lra.
    + destruct (angleIsWithinSweep A (s * T0) (1 / 2 * PI) eps) eqn:W.
      * pose proof (dir_max s A (1 / 2 * PI) r ltac:(lra) a) as Q. rewrite C4 in Q. rcbn. lra.
      * pose proof (tmax_ge (vy (pos v1)) (vy (pos v2))).
        destruct (dir_false s A T0 (1 / 2 * PI) r Sgn HT ltac:(lra) W a Ha) as [Q|Q]; rewrite !C4 in Q; rewrite ?P0, ?PT in Q; rcbn; lra.
  - destruct (angleIsWithinSweep A (s * T0) PI eps) eqn:W.
    + destruct (dir_true s A T0 PI r Sgn HT ltac:(lra) W) as (a & Ha & Q). rewrite C1 in Q. exists (rot c (s * a) (pos v1)). split; [auto|]. rcbn. lra.
    + destruct (Tmin (vx (pos v1)) (vx (pos v2))) as [-> | ->]; [exists (pos v1)|exists (pos v2)]; (split; [assumption|lra]).
  - destruct (angleIsWithinSweep A (s * T0) (3 / 2 * PI) eps) eqn:W.
    + destruct (dir_true s A T0 (3 / 2 * PI) r Sgn HT ltac:(lra) W) as (a & Ha & Q). rewrite C2 in Q. exists (rot c (s * a) (pos v1)). split; [auto|]. rcbn. lra.
    + destruct (Tmin (vy (pos v1)) (vy (pos v2))) as [-> | ->]; [exists (pos v1)|exists (pos v2)]; (split; [assumption|lra]).
  - destruct (angleIsWithinSweep A (s * T0) (2 * PI) eps) eqn:W.
    + destruct (dir_true s A T0 (2 * PI) r Sgn HT ltac:(lra) W) as (a & Ha & Q). rewrite C3 in Q. exists (rot c (s * a) (pos v1)). split; [auto|]. rcbn. lra.
    + destruct (Tmax (vx (pos v1)) (vx (pos v2))) as [-> | ->]; [exists (pos v1)|exists (pos v2)]; (split; [assumption|lra]).
  - destruct (angleIsWithinSweep A (s * T0) (1 / 2 * PI) eps) eqn:W.
    + destruct (dir_true s A T0 (1 / 2 * PI) r Sgn HT ltac:(lra) W) as (a & Ha & Q). rewrite C4 in Q. exists (rot c (s * a) (pos v1)). split; [auto|]. rcbn. lra.
    + destruct (Tmax (vy (pos v1)) (vy (pos v2))) as [-> | ->]; [exists (pos v1)|exists (pos v2)]; (split; [assumption|lra]).
Qed.

Lemma segBox_line v1 v2 : isLine v1 -> segBox v1 v2 = mkAABB (px v1) (py v1) (px v1) (py v1).
Proof. intros H. unfold segBox. now rewrite (proj2 (bulgeIsZero_R v1) H). Qed.

(** ** Merging the boxes *)
Definition leBox (a b : aabb) : Prop := xMin b <= xMin a /\ yMin b <= yMin a /\ xMax a <= xMax b /\ yMax a <= yMax b.

Lemma leBox_refl a : leBox a a. Proof. unfold leBox. lra. Qed.
Lemma leBox_trans a b c : leBox a b -> leBox b c -> leBox a c. Proof. unfold leBox. lra. Qed.
Lemma merge_le r b : leBox r (mergeBox r b) /\ leBox b (mergeBox r b).
Proof.
  unfold leBox, mergeBox. cbn [xMin yMin xMax yMax].
  destruct (Rltb (xMin b) (xMin r)) eqn:E1, (Rltb (yMin b) (yMin r)) eqn:E2, (Rltb (xMax r) (xMax b)) eqn:E3, (Rltb (yMax r) (yMax b)) eqn:E4; rbool; lra.
Qed.

Lemma merge_fold l : forall r, let f := fold_left (fun r (e : vertex * vertex) => mergeBox r (segBox (fst e) (snd e))) l r in
  leBox r f /\ (forall e, In e l -> leBox (segBox (fst e) (snd e)) f) /\
  (xMin f = xMin r \/ exists e, In e l /\ xMin f = xMin (segBox (fst e) (snd e))) /\
  (yMin f = yMin r \/ exists e, In e l /\ yMin f = yMin (segBox (fst e) (snd e))) /\
  (xMax f = xMax r \/ exists e, In e l /\ xMax f = xMax (segBox (fst e) (snd e))) /\
  (yMax f = yMax r \/ exists e, In e l /\ yMax f = yMax (segBox (fst e) (snd e))).
Proof.
  induction l as [|e l IH]; intros r f.
  - unfold f. cbn [fold_left]. split; [apply leBox_refl|]. split; [intros ? []|]. auto.
  - unfold f. cbn [fold_left]. destruct (IH (mergeBox r (segBox (fst e) (snd e)))) as (L & A & B1 & B2 & B3 & B4). cbv zeta in *.
    destruct (merge_le r (segBox (fst e) (snd e))) as [M1 M2].
    set (g := fold_left _ l _) in *. clearbody g. clear f.
    split; [eapply leBox_trans; eauto|].
    split. { intros e' [<-|H]; [eapply leBox_trans; eauto|auto]. }
    split; [|split; [|split]].
    + destruct B1 as [B|(e' & H & B)]; [|right; exists e'; split; [now right|auto]].
      unfold mergeBox in B. cbn [xMin] in B. destruct (Rltb _ _); [right; exists e; split; [now left|auto]|now left].
    + destruct B2 as [B|(e' & H & B)]; [|right; exists e'; split; [now right|auto]].
      unfold mergeBox in B. cbn [yMin] in B. destruct (Rltb _ _); [right; exists e; split; [now left|auto]|now left].
    + destruct B3 as [B|(e' & H & B)]; [|right; exists e'; split; [now right|auto]].
      unfold mergeBox in B. cbn [xMax] in B. destruct (Rltb _ _); [right; exists e; split; [now left|auto]|now left].
    + destruct B4 as [B|(e' & H & B)]; [|right; exists e'; split; [now right|auto]].
      unfold mergeBox in B. cbn [yMax] in B. destruct (Rltb _ _); [right; exists e; split; [now left|auto]|now left].
Qed.

(** the path segments are lines or well-formed arcs *)
Definition okPath (pl : polyline) : Prop :=
  forall v1 v2, In (v1, v2) (pathSegs pl) -> isLine v1 \/ okArc v1 v2.

Lemma extents_fold pl v0 vs : vertexes pl = v0 :: vs -> okPath pl ->
  let r := fold_left (fun r (e : vertex * vertex) => mergeBox r (segBox (fst e) (snd e))) (vsegs pl) (mkAABB (px v0) (py v0) (px v0) (py v0)) in
  getExtents pl = mkBox (Fin (xMin r)) (Fin (yMin r)) (Fin (xMax r)) (Fin (yMax r)).
Proof.
  intros Ev Hok r. unfold getExtents. rewrite Ev.
  assert (E : visitSegIndices pl (extents_step pl) (mkAABB (px v0) (py v0) (px v0) (py v0)) = r); [|cbv zeta; rewrite E; reflexivity].
  rewrite C21_visit_order. unfold r, vsegs.
  assert (Hall : forall i j, In (i, j) (segs pl) -> isLine (at_ pl i) \/ okArc (at_ pl i) (at_ pl j)).
  { intros i j H. apply Hok. apply (Permutation_in _ (vsegs_perm pl)). unfold vsegs. apply in_map_iff. exists (i, j). auto. }
  revert Hall. generalize (segs pl) as l. generalize (mkAABB (px v0) (py v0) (px v0) (py v0)) as b. clear.
  intros b l. revert b. induction l as [|[i j] l IH]; intros b H; [reflexivity|].
  cbn [foldStop map fold_left fst snd]. rewrite extents_step_R by (apply H; now left). apply IH. intros; apply H; now right.
Qed.

Lemma openSegs_fst v0 vs w : map fst (openSegs v0 vs ++ [(last vs v0, w)]) = v0 :: vs.
Proof.
  revert v0. induction vs as [|v1 vs IH]; intros v0; [reflexivity|].
  cbn [openSegs app map fst]. f_equal.
  assert (E : last (v1 :: vs) v0 = last vs v1).
  { destruct vs as [|v vs]; [reflexivity|]. change (last (v1 :: v :: vs) v0) with (last (v :: vs) v0). now apply last_default. }
  rewrite E. apply IH.
Qed.

Lemma openSegs_snd v0 vs : map snd (openSegs v0 vs) = vs.
Proof. revert v0. induction vs as [|v1 vs IH]; intros v0; [reflexivity|]. cbn [openSegs map snd]. now rewrite IH. Qed.

(** in a closed polyline every segment end is the start of another segment *)
Lemma closed_next pl v1 v2 : isClosed pl = true -> In (v1, v2) (pathSegs pl) -> exists v3, In (v2, v3) (pathSegs pl).
Proof.
  unfold pathSegs. intros Hc. destruct (vertexes pl) as [|v0 [|w vs]]; [intros []|intros []|]. rewrite Hc. intros H.
  assert (I : In v2 (v0 :: w :: vs)).
  { apply in_app_or in H. destruct H as [H|[H|[]]].
    - right. rewrite <- (openSegs_snd v0 (w :: vs)). apply in_map_iff. exists (v1, v2). auto.
    - injection H as <- <-. now left. }
  rewrite <- (openSegs_fst v0 (w :: vs) v0) in I. apply in_map_iff in I. destruct I as ([a b] & E & I). cbn [fst] in E. subst a. eauto.
Qed.

(** ** C26 *)

(** the returned box as four real numbers *)
Definition extentsAre (pl : polyline) (x0 y0 x1 y1 : R) : Prop := getExtents pl = mkBox (Fin x0) (Fin y0) (Fin x1) (Fin y1).

Lemma onLine_between v1 v2 q lo hi : isLine v1 -> onSeg v1 v2 q -> (lo <= vx (pos v1) <= hi -> lo <= vx (pos v2) <= hi -> lo <= vx q <= hi) /\
  (lo <= vy (pos v1) <= hi -> lo <= vy (pos v2) <= hi -> lo <= vy q <= hi).
Proof.
  intros Hl (t & Ht & Q). apply (segPoint_line _ _ _ _ Hl) in Q. subst q. unfold lerp. cbn [vx vy].
  split; intros; now apply between_lerp.
Qed.

(** every point of the path lies inside the returned box: for closed polylines all of it; for open polylines all of it except, when
    the last segment is a line, the points of that last segment *)
Theorem C26_contains pl v1 v2 q : okPath pl -> In (v1, v2) (pathSegs pl) -> onSeg v1 v2 q ->
  (isClosed pl = true \/ ~ isLine v1 \/ exists v3, In (v2, v3) (pathSegs pl)) ->
  exists x0 y0 x1 y1, extentsAre pl x0 y0 x1 y1 /\ x0 <= vx q <= x1 /\ y0 <= vy q <= y1.
Proof.
  intros Hok Hin Hq Hcase.
  destruct (vertexes pl) as [|v0 vs] eqn:Ev; [unfold pathSegs in Hin; rewrite Ev in Hin; destruct Hin|].
  pose proof (extents_fold pl v0 vs Ev Hok) as EF. cbv zeta in EF.
  destruct (merge_fold (vsegs pl) (mkAABB (px v0) (py v0) (px v0) (py v0))) as (_ & HA & _). cbv zeta in HA.
  set (f := fold_left _ _ _) in *. clearbody f.
  do 4 eexists. split; [exact EF|].
  assert (HA' : forall a b, In (a, b) (pathSegs pl) -> leBox (segBox a b) f).
  { intros a b H. apply (HA (a, b)). apply (Permutation_in _ (Permutation_sym (vsegs_perm pl)) H). }
  assert (Start : forall a b, In (a, b) (pathSegs pl) -> xMin f <= vx (pos a) <= xMax f /\ yMin f <= vy (pos a) <= yMax f).
  { intros a b H. specialize (HA' a b H). destruct (Hok a b H) as [L|O].
    - rewrite segBox_line in HA' by auto. unfold leBox in HA'. cbn [xMin yMin xMax yMax] in HA'. unfold px, py in HA'. lra.
    - destruct (segBox_arc a b O) as (B & _). assert (O1 : onSeg a b (pos a)).
      { destruct O as (O & _). exists 0. split; [lra|]. apply (segPoint_arc a b _ _ O). now rewrite Rmult_0_l, rot_0. }
      specialize (B _ O1). unfold inBox in B. unfold leBox in HA'. lra. }
  destruct (Hok v1 v2 Hin) as [L|O].
  - assert (exists v3, In (v2, v3) (pathSegs pl)) as (v3 & H3).
    { destruct Hcase as [C|[C|C]]; [now apply (closed_next pl v1 v2)|contradiction|auto]. }
    pose proof (Start _ _ Hin). pose proof (Start _ _ H3).
    split; eapply onLine_between; eauto; tauto.
  - destruct (segBox_arc v1 v2 O) as (B & _). specialize (B q Hq). specialize (HA' _ _ Hin). unfold inBox in B. unfold leBox in HA'. lra.
Qed.

(** every side of the box is touched by the path, up to 1e-8 of the largest radius of the path's arcs *)
Theorem C26_attained pl M : okPath pl -> pathSegs pl <> [] -> 0 <= M ->
  (forall v1 v2, In (v1, v2) (pathSegs pl) -> ~ isLine v1 -> radius (arcRadiusAndCenter v1 v2) <= M) ->
  exists x0 y0 x1 y1, extentsAre pl x0 y0 x1 y1 /\
    (exists v1 v2 q, In (v1, v2) (pathSegs pl) /\ onSeg v1 v2 q /\ vx q <= x0 + M * (1 / 100000000)) /\
    (exists v1 v2 q, In (v1, v2) (pathSegs pl) /\ onSeg v1 v2 q /\ vy q <= y0 + M * (1 / 100000000)) /\
    (exists v1 v2 q, In (v1, v2) (pathSegs pl) /\ onSeg v1 v2 q /\ x1 - M * (1 / 100000000) <= vx q) /\
    (exists v1 v2 q, In (v1, v2) (pathSegs pl) /\ onSeg v1 v2 q /\ y1 - M * (1 / 100000000) <= vy q).
Proof.
  intros Hok Hne HM HR.
  destruct (vertexes pl) as [|v0 vs] eqn:Ev; [unfold pathSegs in Hne; rewrite Ev in Hne; congruence|].
  pose proof (extents_fold pl v0 vs Ev Hok) as EF. cbv zeta in EF.
  destruct (merge_fold (vsegs pl) (mkAABB (px v0) (py v0) (px v0) (py v0))) as (_ & _ & B1 & B2 & B3 & B4). cbv zeta in *.
  set (f := fold_left _ _ _) in *. clearbody f.
  do 4 eexists. split; [exact EF|].
  assert (Me : 0 <= M * (1 / 100000000)) by (apply Rmult_le_pos; lra).
  assert (OS : forall a b, In (a, b) (pathSegs pl) -> onSeg a b (pos a)).
  { intros a b H. exists 0. split; [lra|]. destruct (Hok a b H) as [L|[O _]].
    - apply (segPoint_line _ _ _ _ L). unfold lerp; apply vec_eq; rcbn; lra.
    - apply (segPoint_arc a b _ _ O). now rewrite Rmult_0_l, rot_0. }
  assert (P0 : exists v2, In (v0, v2) (pathSegs pl)).
  { unfold pathSegs in *. rewrite Ev in *. destruct vs as [|w vs]; [congruence|]. exists w. now left. }
  assert (RM : forall a b, In (a, b) (pathSegs pl) -> okArc a b -> radius (arcRadiusAndCenter a b) * eps <= M * (1 / 100000000)).
  { intros a b H O. unfold eps. apply Rmult_le_compat_r; [lra|]. apply HR; auto. apply O. }
  assert (V : forall e, In e (vsegs pl) -> In e (pathSegs pl)) by (intros e; apply (Permutation_in _ (vsegs_perm pl))).
  destruct P0 as (w & P0). pose proof (OS _ _ P0) as O0.
  split; [|split; [|split]].
  - destruct B1 as [B|([a b] & H & B)]; cbn [xMin fst snd] in B; [exists v0, w, (pos v0); unfold px in B; repeat split; auto; lra|].
    apply V in H. destruct (Hok a b H) as [L|O].
    + rewrite segBox_line in B by auto. cbn [xMin] in B. exists a, b, (pos a). unfold px in B. repeat split; auto; lra.
    + destruct (segBox_arc a b O) as (_ & (q & Hq & Q) & _). specialize (RM a b H O). exists a, b, q. repeat split; auto. lra.
  - destruct B2 as [B|([a b] & H & B)]; cbn [yMin fst snd] in B; [exists v0, w, (pos v0); unfold py in B; repeat split; auto; lra|].
    apply V in H. destruct (Hok a b H) as [L|O].
    + rewrite segBox_line in B by auto. cbn [yMin] in B. exists a, b, (pos a). unfold py in B. repeat split; auto; lra.
    + destruct (segBox_arc a b O) as (_ & _ & (q & Hq & Q) & _). specialize (RM a b H O). exists a, b, q. repeat split; auto. lra.
  - destruct B3 as [B|([a b] & H & B)]; cbn [xMax fst snd] in B; [exists v0, w, (pos v0); unfold px in B; repeat split; auto; lra|].
    apply V in H. destruct (Hok a b H) as [L|O].
    + rewrite segBox_line in B by auto. cbn [xMax] in B. exists a, b, (pos a). unfold px in B. repeat split; auto; lra.
    + destruct (segBox_arc a b O) as (_ & _ & _ & (q & Hq & Q) & _). specialize (RM a b H O). exists a, b, q. repeat split; auto. lra.
  - destruct B4 as [B|([a b] & H & B)]; cbn [yMax fst snd] in B; [exists v0, w, (pos v0); unfold py in B; repeat split; auto; lra|].
    apply V in H. destruct (Hok a b H) as [L|O].
    + rewrite segBox_line in B by auto. cbn [yMax] in B. exists a, b, (pos a). unfold py in B. repeat split; auto; lra.
    + destruct (segBox_arc a b O) as (_ & _ & _ & _ & (q & Hq & Q)). specialize (RM a b H O). exists a, b, q. repeat split; auto. lra.
Qed.

Theorem C26_empty (b : bool) : getExtents (mkPline b []) = mkBox PInf PInf NInf NInf.
Proof. reflexivity. Qed.

Theorem C26_single (b : bool) v : extentsAre (mkPline b [v]) (px v) (py v) (px v) (py v).
Proof. reflexivity. Qed.

(** the known gap: an open polyline whose last segment is a line does not account for its last vertex *)
Theorem C26_open_line_refuted : exists pl v1 v2 x0 y0 x1 y1, okPath pl /\ isClosed pl = false /\
  pathSegs pl = [(v1, v2)] /\ onSeg v1 v2 (pos v2) /\ extentsAre pl x0 y0 x1 y1 /\ x1 < vx (pos v2).
Proof.
  set (v1 := mkVertex 0 0 0 : vertex). set (v2 := mkVertex 1 0 0 : vertex).
  assert (L : isLine v1) by (unfold isLine, v1, mkVertex; cbn [bulge]; rewrite Rabs_R0; lra).
  assert (Hok : okPath (mkPline false [v1; v2])). { intros a b [H|[]]. injection H as <- <-. now left. }
  exists (mkPline false [v1; v2]), v1, v2, 0, 0, 0, 0.
  split; [exact Hok|]. split; [reflexivity|]. split; [reflexivity|].
  split. { exists 1. split; [lra|]. apply (segPoint_line _ _ _ _ L). unfold lerp; apply vec_eq; rcbn; lra. }
  split; [|cbn; lra].
  unfold extentsAre. rewrite (extents_fold (mkPline false [v1; v2]) v1 [v2] eq_refl Hok).
  change (vsegs (mkPline false [v1; v2])) with [(v1, v2)]. cbn [fold_left fst snd]. rewrite segBox_line by auto.
  unfold mergeBox, v1, mkVertex, px, py. cbn [xMin yMin xMax yMax pos vx vy]. rcbn.
  destruct (Rltb 0 0); reflexivity.
Qed.

(** non-vacuity: the unit circle as two half-circle arcs *)
Example C26_circle : exists pl M, okPath pl /\ pathSegs pl <> [] /\ isClosed pl = true /\ 0 <= M /\
  (forall v1 v2, In (v1, v2) (pathSegs pl) -> ~ isLine v1 -> radius (arcRadiusAndCenter v1 v2) <= M).
Proof.
  set (v1 := mkVertex 0 0 1 : vertex). set (v2 := mkVertex 2 0 1 : vertex).
  set (M := Rmax (radius (arcRadiusAndCenter v1 v2)) (Rmax (radius (arcRadiusAndCenter v2 v1)) 0)).
  exists (mkPline true [v1; v2]), M.
  assert (NL : ~ isLine v1 /\ ~ isLine v2) by (unfold isLine, v1, v2, mkVertex; cbn [bulge]; rewrite Rabs_R1; lra).
  assert (NE : pos v1 <> pos v2). { intros E. apply (f_equal vx) in E. cbn in E. lra. }
  split. { intros a b [H|[H|[]]]; injection H as <- <-; right; repeat split; try tauto; try congruence; unfold v1, v2, mkVertex; cbn [bulge]; rewrite Rabs_R1; lra. }
  split; [discriminate|]. split; [reflexivity|].
  pose proof (Rmax_l (radius (arcRadiusAndCenter v1 v2)) (Rmax (radius (arcRadiusAndCenter v2 v1)) 0)).
  pose proof (Rmax_r (radius (arcRadiusAndCenter v1 v2)) (Rmax (radius (arcRadiusAndCenter v2 v1)) 0)).
  pose proof (Rmax_l (radius (arcRadiusAndCenter v2 v1)) 0). pose proof (Rmax_r (radius (arcRadiusAndCenter v2 v1)) 0).
  split; [fold M in H0; lra|]. intros a b [E|[E|[]]] _; injection E as <- <-; fold M in H, H0; lra.
Qed.
