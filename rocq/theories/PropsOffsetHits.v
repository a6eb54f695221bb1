(** * When the crossing test of the offset algorithm gives no false alarm *)
From Coq Require Import ZArith Reals Lra Lia List Bool Arith Permutation.
From Verif Require Import Base Num MathUtils PlineSegment SpatialIndex Polyline Intersects Combine Offset StdLaws RGeom Spec PropsMath ArcGeom Polar PropsSegment PropsClosest PropsIntr PropsPlineIntr PropsPolyline Turning PropsWinding PropsRegion PropsSlices PropsPieces PropsTrace PropsBoolOps PropsOffset PropsJoins PropsRawStructure PropsRawGeom PropsRawPoints PropsOffsetExact.
Import ListNotations.
Open Scope R_scope.


(** ** Two line segments *)
Lemma lerp_near p q t : inRange t -> exists s, 0 <= s <= 1 /\ dist (lerp p q t) (lerp p q s) <= eps * dist p q.
Proof.
  intros [H1 H2]. set (s := Rmax 0 (Rmin t 1)). assert (Hs : 0 <= s <= 1 /\ Rabs (t - s) <= eps).
  { pose proof eps_pos. unfold s, Rmax, Rmin. repeat destruct (Rle_dec _ _); (split; [lra|]); unfold Rabs; destruct (Rcase_abs _); lra. }
  exists s. split; [apply Hs|]. assert (E : dist (lerp p q t) (lerp p q s) = Rabs (t - s) * dist p q).
  { unfold dist, lerp. cbn [vx vy]. rewrite <- (sqrt_Rsqr_abs (t - s)), <- sqrt_mult_alt by apply Rle_0_sqr. f_equal. unfold Rsqr. rring. }
  rewrite E. apply Rmult_le_compat_r; [apply dist_nonneg|apply Hs].
Qed.

Lemma onSeg_lerp v w s : isLine v -> 0 <= s <= 1 -> onSeg v w (lerp (pos v) (pos w) s).
Proof. intros L Hs. apply onSeg_path. exists s. split; [auto|]. now rewrite segPath_line. Qed.

Lemma lines_none v w u1 u2 D : isLine v -> isLine u1 -> (forall p q, onSeg v w p -> onSeg u1 u2 q -> D <= dist p q) ->
  eps * (dist (pos v) (pos w) + dist (pos u1) (pos u2)) < D ->
  (eps < Rabs (cross (pos v) (pos w) (pos u1) (pos u2)) \/ (cross (pos v) (pos w) (pos u1) (pos u2) = 0 /\ eps < Rabs (cross (pos u1) (pos u2) (pos u1) (pos v)))) ->
  intrPlineSegs v w u1 u2 = NoIntersect.
Proof.
  intros Lv Lu Hap Hs [C|[C0 C1]].
  - destruct (C20_line_line v w u1 u2 Lv Lu C) as [S _]. cbv zeta in S. destruct (intrPlineSegs v w u1 u2) as [|p|p q|p q|p q]; try contradiction; [reflexivity|]. exfalso.
    destruct S as [(s & Is & Es) (t & It & Et)]. destruct (lerp_near (pos v) (pos w) s Is) as (s' & Hs' & Ds). destruct (lerp_near (pos u1) (pos u2) t It) as (t' & Ht' & Dt).
    specialize (Hap _ _ (onSeg_lerp v w s' Lv Hs') (onSeg_lerp u1 u2 t' Lu Ht')). rewrite <- Es in Ds. rewrite <- Et in Dt.
    pose proof (dist_tri (lerp (pos v) (pos w) s') p (lerp (pos u1) (pos u2) t')) as T. rewrite (dist_sym' _ p) in T. lra.
  - rewrite intr_ll by auto. unfold intrLineSeg2LineSeg2, perpDot, vsub, vadd, vscale. rcbn.
    fold (cross (pos v) (pos w) (pos u1) (pos u2)). fold (cross (pos v) (pos w) (pos u1) (pos v)). fold (cross (pos u1) (pos u2) (pos u1) (pos v)). fold eps.
    rewrite C0, Rabs_R0. rewrite (proj2 (Rltb_false _ _)) by (unfold eps; lra). rewrite (proj2 (Rltb_spec _ _) C1). rewrite orb_true_r. reflexivity.
Qed.

(** ** A line segment and an arc *)
Lemma sq_le y Q : 0 <= Q -> 0 <= y -> y * y <= Q * Q -> y <= Q.
Proof. intros H1 H2 H. apply Rnot_lt_le. intros L. assert (Q * Q < y * y) by (apply Rmult_le_0_lt_compat; lra). lra. Qed.

(** the part of a circle within the sector tolerance is next to the arc *)
Lemma sector_core (ax ay bx by_ ex ey r rho s : R) : 1 / 50 <= r -> r / 2 <= rho -> s * s = 1 ->
  ax * ax + ay * ay = r * r -> bx * bx + by_ * by_ = r * r -> ex * ex + ey * ey = rho * rho ->
  - eps < s * (ax * ey - ay * ex) -> s * (bx * ey - by_ * ex) < eps -> 0 <= s * (ax * by_ - ay * bx) -> 1 / 10000000000 <= (ax - bx) * (ax - bx) + (ay - by_) * (ay - by_) ->
  (0 <= s * (ax * ey - ay * ex) /\ s * (bx * ey - by_ * ex) <= 0) \/ r * rho - (ax * ex + ay * ey) <= 2 * eps * eps / (r * r) \/ r * rho - (bx * ex + by_ * ey) <= 2 * eps * eps / (r * r).
Proof.
  intros Hr Hrho Hs Ha Hb He HA HB HS Hc. set (A := s * (ax * ey - ay * ex)) in *. set (B := s * (bx * ey - by_ * ex)) in *. set (S := s * (ax * by_ - ay * bx)) in *.
  set (C := ax * ex + ay * ey). set (F := bx * ex + by_ * ey). set (G := ax * bx + ay * by_).
  assert (IAC : A * A + C * C = (r * r) * (rho * rho)). { unfold A, C. rewrite <- Ha, <- He. transitivity ((s * s) * ((ax * ey - ay * ex) * (ax * ey - ay * ex)) + (ax * ex + ay * ey) * (ax * ex + ay * ey)); [ring|rewrite Hs; ring]. }
  assert (IBF : B * B + F * F = (r * r) * (rho * rho)). { unfold B, F. rewrite <- Hb, <- He. transitivity ((s * s) * ((bx * ey - by_ * ex) * (bx * ey - by_ * ex)) + (bx * ex + by_ * ey) * (bx * ex + by_ * ey)); [ring|rewrite Hs; ring]. }
  assert (ISG : S * S + G * G = (r * r) * (r * r)). { unfold S, G. rewrite <- Ha at 1. rewrite <- Hb. transitivity ((s * s) * ((ax * by_ - ay * bx) * (ax * by_ - ay * bx)) + (ax * bx + ay * by_) * (ax * bx + ay * by_)); [ring|rewrite Hs; ring]. }
  assert (EB : r * r * B = - C * S + A * G). { unfold A, B, C, S, G. rewrite <- Ha. ring. }
  assert (EF : r * r * F = C * G + A * S). { unfold A, F, C, S, G. rewrite <- Ha. transitivity (C * G + (s * s) * ((ax * ey - ay * ex) * (ax * by_ - ay * bx))); [rewrite Hs; unfold C, G; ring|unfold C, G; ring]. }
  assert (EA : r * r * A = F * S + B * G). { unfold A, B, F, S, G. rewrite <- Hb. ring. }
  assert (EC : r * r * C = F * G - B * S). { unfold B, F, C, S, G. rewrite <- Hb. transitivity (F * G - (s * s) * ((bx * ey - by_ * ex) * (ax * by_ - ay * bx))); [rewrite Hs; unfold F, G; ring|unfold F, G; ring]. }
  assert (Hch : 1 / 10000000000 <= 2 * (r * r) - 2 * G). { unfold G. replace (2 * (r * r) - 2 * (ax * bx + ay * by_)) with ((ax - bx) * (ax - bx) + (ay - by_) * (ay - by_)); [exact Hc|]. transitivity ((ax * ax + ay * ay) + (bx * bx + by_ * by_) - 2 * (ax * bx + ay * by_)); [ring|rewrite Ha, Hb; ring]. }
  clearbody A B C F G S. clear Ha Hb He Hc Hs.
  set (R2 := r * r) in *. set (Q := r * rho). assert (HQ : R2 * (rho * rho) = Q * Q) by (unfold R2, Q; ring). rewrite HQ in IAC, IBF.
  assert (HR2 : 1 / 2500 <= R2) by (unfold R2; nra). assert (HQ2 : R2 / 2 <= Q) by (unfold Q, R2; nra). clear HQ. clearbody R2 Q.
  assert (He : eps = 1 / 100000000) by reflexivity.
  (* close to an end *)
  assert (Close : forall x y, x * x + y * y = Q * Q -> - eps < x < eps -> 0 <= y -> Q - y <= 2 * eps * eps / R2).
  { intros x y Hxy Hx Hy. assert (Hx2 : x * x <= eps * eps) by (clear - Hx; nra). assert (Hy2 : y <= Q) by (apply sq_le; [lra|auto|pose proof (sq_nonneg x); lra]). assert (E1 : (Q - y) * (Q + y) = x * x) by lra. assert (E2 : 0 <= (Q - y) * y) by (apply Rmult_le_pos; lra). assert ((Q - y) * Q <= eps * eps) by lra. apply (Rmult_le_reg_r R2); [lra|]. replace (2 * eps * eps / R2 * R2) with (2 * eps * eps) by (field; lra). nra. }
  (* a short arc has no room *)
  assert (Short : forall y, 0 <= y -> Q * Q - eps * eps <= y * y -> 0 < G -> y * S <= 2 * eps * R2 -> False).
  { intros y Hy Hyy HG HyS. assert (Q / 2 <= y) by nra. assert (S * (R2 / 4) <= 2 * eps * R2) by nra. assert (S <= 8 * eps) by nra.
    assert (GG : (R2 - G) * (R2 + G) = S * S) by lra. assert (R2 - G <= 64 * eps * eps * 2500) by nra. rewrite He in *. lra. }
  assert (HS2 : S <= R2) by (apply sq_le; [lra|auto|pose proof (sq_nonneg G); lra]).
  assert (HG2 : 0 <= G -> G <= R2) by (intros G0; apply sq_le; [lra|auto|pose proof (sq_nonneg S); lra]).
  assert (Rest : forall x y, x * x + y * y = Q * Q -> - eps < x < eps -> Q * Q - eps * eps <= y * y) by (intros x y Hxy Hx; assert (x * x <= eps * eps) by (clear - Hx; nra); lra).
  assert (Pos : forall x y, x * x + y * y = Q * Q -> - eps < x < eps -> - eps <= y -> 0 <= y).
  { intros x y Hxy Hx Hy. destruct (Rle_lt_dec 0 y) as [|L]; [auto|]. exfalso. pose proof (Rest x y Hxy Hx). assert (y * y <= eps * eps) by (clear - Hy L; nra). assert (1 / 5000 * (1 / 5000) <= Q * Q) by (apply Rmult_le_compat; lra). rewrite He in *. lra. }
  destruct (Rle_lt_dec 0 A) as [A0|A0]; [destruct (Rle_lt_dec B 0) as [B0|B0]; [left; auto|]|].
  - destruct (Rle_lt_dec 0 F) as [F0|F0]; [right; right; apply (Close B); lra|]. destruct (Rle_lt_dec G 0) as [G0|G0].
    + right. left. assert (P1 : 0 <= - F * S) by (apply Rmult_le_pos; lra). assert (P2 : 0 <= B * - G) by (apply Rmult_le_pos; lra). assert (A <= 0) by (apply (Rmult_le_reg_l R2); lra).
      apply (Close A); [lra|lra|]. apply (Pos A); [lra|lra|]. assert (P3 : 0 <= - F * - G) by (apply Rmult_le_pos; lra). assert (P4 : B * S <= eps * R2) by (apply Rmult_le_compat; lra). apply (Rmult_le_reg_l R2); lra.
    + exfalso. apply (Short (- F)); [lra|rewrite Rmult_opp_opp; apply (Rest B); lra|auto|]. specialize (HG2 ltac:(lra)). assert (P4 : B * G <= eps * R2) by (apply Rmult_le_compat; lra). assert (0 <= R2 * A) by (apply Rmult_le_pos; lra). assert (0 <= eps * R2) by (apply Rmult_le_pos; lra). lra.
  - destruct (Rle_lt_dec 0 C) as [C0|C0]; [right; left; apply (Close A); lra|]. destruct (Rle_lt_dec G 0) as [G0|G0].
    + right. right. assert (P1 : 0 <= - C * S) by (apply Rmult_le_pos; lra). assert (P2 : 0 <= - A * - G) by (apply Rmult_le_pos; lra). assert (0 <= B) by (apply (Rmult_le_reg_l R2); lra).
      apply (Close B); [lra|lra|]. apply (Pos B); [lra|lra|]. assert (P3 : 0 <= - C * - G) by (apply Rmult_le_pos; lra). assert (P4 : - A * S <= eps * R2) by (apply Rmult_le_compat; lra). apply (Rmult_le_reg_l R2); lra.
    + exfalso. apply (Short (- C)); [lra|rewrite Rmult_opp_opp; apply (Rest A); lra|auto|]. specialize (HG2 ltac:(lra)). assert (P4 : - A * G <= eps * R2) by (apply Rmult_le_compat; lra). assert (R2 * B <= R2 * eps) by (apply Rmult_le_compat_l; lra). lra.
Qed.

(** ** Pieces of the segments of a raw offset *)
Lemma piece_line v1 v2 a b v w : piece v1 v2 a b v w -> isLine v1 -> pos v <> pos w -> Rabs (bulge v) <= 1 -> isLine v.
Proof.
  intros Hp L Ne Hb. destruct (Rlt_dec (Rabs (bulge v)) (1 / 100000)) as [Lv|Nv]; [exact Lv|]. exfalso.
  pose proof (Hp (1 / 2)) as Hm. rewrite (segPath_line v1 v2) in Hm by auto. pose proof (piece_start _ _ _ _ _ _ Hp) as H0. pose proof (piece_end _ _ _ _ _ _ Hp) as H1. rewrite segPath_line in H0, H1 by auto.
  assert (Em : segPath v w (1 / 2) = lerp (pos v) (pos w) (1 / 2)) by (rewrite Hm, H0, H1; unfold lerp; apply vec_eq; cbn [vx vy]; rfield).
  assert (D2 : dist (pos v) (pos w) = 2 * dist (pos v) (segPath v w (1 / 2))).
  { rewrite Em. unfold dist, lerp. cbn [vx vy]. rewrite <- (sqrt_Rsqr 2) at 1 by lra. rewrite <- sqrt_mult_alt by apply Rle_0_sqr. f_equal. unfold Rsqr. rfield. }
  rewrite <- (segPath_1 v w) in D2 at 1. rewrite !segPath_arc in D2 by exact Nv. rewrite !chord_rot in D2.
  assert (Hr : dist (ctrOf v w) (pos v) <> 0).
  { intros Z. apply Ne. assert (Ez : dist (pos v) (pos w) = 0) by (rewrite <- (segPath_1 v w) at 1; rewrite segPath_arc by exact Nv; rewrite chord_rot, Z; ring). now apply dist_0. }
  set (al := atan (bulge v)) in *. unfold sweep in D2. fold al in D2. replace (1 * (4 * al) / 2) with (2 * al) in D2 by field. replace (1 / 2 * (4 * al) / 2) with al in D2 by field.
  rewrite sin_2a in D2. rewrite !Rabs_mult, (Rabs_right 2) in D2 by lra.
  assert (Hal : Rabs (sin al) * (1 - Rabs (cos al)) = 0). { apply (Rmult_eq_reg_l (dist (ctrOf v w) (pos v))); [|auto]. lra. }
  assert (Nb : bulge v <> 0) by (intros Z; apply Nv; rewrite Z, Rabs_R0; lra).
  assert (Hc : 0 < cos al) by (pose proof (atan_bound (bulge v)); apply cos_gt_0; unfold al; lra).
  assert (Hs : sin al <> 0).
  { intros Z. apply Nb. assert (E : tan al = bulge v) by (unfold al; apply tan_atan). unfold tan in E. rewrite Z in E. unfold Rdiv in E. rewrite Rmult_0_l in E. now symmetry. }
  apply Rmult_integral in Hal. destruct Hal as [Z|Z]; [now apply Rabs_no_R0 in Z|]. rewrite Rabs_right in Z by lra. pose proof (sin2_cos2 al) as S. unfold Rsqr in S. apply Hs. assert (cos al = 1) as K by lra. rewrite K in S. assert (Z2 : sin al * sin al = 0) by lra. apply Rmult_integral in Z2. tauto.
Qed.

Lemma far_dist x y : far x y -> 1 / 100000 <= dist x y.
Proof.
  intros H. unfold dist. rewrite <- (sqrt_Rsqr (1 / 100000)) by lra. apply sqrt_le_1_alt. unfold Rsqr. pose proof (sq_nonneg (vx x - vx y)) as S1. pose proof (sq_nonneg (vy x - vy y)) as S2.
  assert (K : forall z, 1 / 100000 <= Rabs z -> 1 / 100000 * (1 / 100000) <= z * z).
  { intros z Hz. assert (L : 1 / 100000 * (1 / 100000) <= Rabs z * Rabs z) by (apply Rmult_le_compat; lra). rewrite <- Rabs_mult, Rabs_right in L by apply Rle_ge, sq_nonneg. exact L. }
  destruct H as [H|H]; apply K in H; lra.
Qed.

(** the straight segment A B clears the decisions of the line intersection test against the straight segment u1 u2 *)
Definition clearPair (D : R) (A B u1 u2 : vec) : Prop := eps * (dist A B + dist u1 u2) < D /\
  (1 / 1000 * dist A B < Rabs (cross A B u1 u2) \/ (cross A B u1 u2 = 0 /\ eps < Rabs (cross u1 u2 u1 A))).

Lemma piece_none v1 v2 u1 u2 a b v w D : isLine v1 -> isLine u1 -> pos v1 <> pos v2 -> 0 <= a -> a < b -> b <= 1 -> piece v1 v2 a b v w -> Rabs (bulge v) <= 1 -> far (pos v) (pos w) ->
  (forall t q, a <= t <= b -> onSeg u1 u2 q -> D <= dist (segPath v1 v2 t) q) -> clearPair D (pos v1) (pos v2) (pos u1) (pos u2) -> intrPlineSegs v w u1 u2 = NoIntersect.
Proof.
  intros L1 Lu Ne Ha Hab Hb Hp Hbu Hf Hap [Hs Hc]. pose proof (piece_line _ _ _ _ _ _ Hp L1 (far_ne _ _ Hf) Hbu) as Lv.
  pose proof (piece_start _ _ _ _ _ _ Hp) as H0. pose proof (piece_end _ _ _ _ _ _ Hp) as H1. rewrite segPath_line in H0, H1 by auto.
  assert (Dvw : dist (pos v) (pos w) = (b - a) * dist (pos v1) (pos v2)).
  { rewrite H0, H1. unfold dist, lerp. cbn [vx vy]. rewrite <- (sqrt_Rsqr (b - a)) by lra. rewrite <- sqrt_mult_alt by apply Rle_0_sqr. f_equal. unfold Rsqr. rring. }
  assert (Cvw : cross (pos v) (pos w) (pos u1) (pos u2) = (b - a) * cross (pos v1) (pos v2) (pos u1) (pos u2)) by (rewrite H0, H1; unfold cross, lerp; cbn [vx vy]; rring).
  pose proof (dist_nonneg (pos v1) (pos v2)) as Dn. apply (lines_none v w u1 u2 D); auto.
  - intros p q Op Oq. apply onSeg_path in Op. destruct Op as (s & Hs1 & ->). rewrite (Hp s). apply Hap; [|auto]. split; [assert (0 <= s * (b - a)) by (apply Rmult_le_pos; lra); lra|]. assert (s * (b - a) <= 1 * (b - a)) by (apply Rmult_le_compat_r; lra). lra.
  - rewrite Dvw. assert ((b - a) * dist (pos v1) (pos v2) <= 1 * dist (pos v1) (pos v2)) by (apply Rmult_le_compat_r; lra). apply Rle_lt_trans with (2 := Hs). apply Rmult_le_compat_l; [unfold eps; lra|lra].
  - rewrite Cvw. destruct Hc as [Hc|[Hc Hc']].
    + left. rewrite Rabs_mult, (Rabs_right (b - a)) by lra. apply far_dist in Hf. rewrite Dvw in Hf. apply Rle_lt_trans with ((b - a) * (1 / 1000 * dist (pos v1) (pos v2))); [unfold eps; lra|]. apply Rmult_lt_compat_l; lra.
    + right. rewrite Hc. split; [ring|]. replace (cross (pos u1) (pos u2) (pos u1) (pos v)) with (cross (pos u1) (pos u2) (pos u1) (pos v1)); [exact Hc'|].
      rewrite H0. apply Rminus_diag_uniq. transitivity (a * cross (pos v1) (pos v2) (pos u1) (pos u2)); [unfold cross, lerp; cbn [vx vy]; rring|rewrite Hc; ring].
Qed.

Lemma rot2 c th ph p : vx (rot c (th + ph) p) + vx (rot c (th - ph) p) - 2 * vx (rot c th p) = 2 * (cos ph - 1) * (vx (rot c th p) - vx c) /\
  vy (rot c (th + ph) p) + vy (rot c (th - ph) p) - 2 * vy (rot c th p) = 2 * (cos ph - 1) * (vy (rot c th p) - vy c).
Proof. unfold rot. cbn [vx vy]. rewrite cos_plus, cos_minus, sin_plus, sin_minus. split; ring. Qed.

Lemma cos_lt_1 x : 0 < Rabs x <= PI -> cos x < 1.
Proof.
  intros [H1 H2]. rewrite <- cos_0. replace (cos x) with (cos (Rabs x)) by (unfold Rabs; destruct (Rcase_abs x); [apply cos_neg|reflexivity]). apply cos_decreasing_1; pose proof PI_RGT_0; lra.
Qed.

(** a piece of an arc is an arc of the same circle *)
Lemma piece_arc v1 v2 a b v w : okArc v1 v2 -> 0 <= a -> a < b -> b <= 1 -> piece v1 v2 a b v w -> Rabs (bulge v) <= 1 -> pos v <> pos w -> okArc v w /\ radOf v w = radOf v1 v2.
Proof.
  intros Ok Ha Hab Hb Hp Hbu Ne. pose proof (okArc_sweep _ _ Ok) as HT. pose proof (okArc_r2 _ _ Ok) as Hr. cbv zeta in Hr. fold (ctrOf v1 v2) in Hr.
  set (th := sweep (bulge v1)) in *. set (c := ctrOf v1 v2) in *. set (ph := (b - a) * th).
  assert (Hph : 0 < Rabs ph <= PI). { unfold ph. rewrite Rabs_mult, (Rabs_right (b - a)) by lra. split; [apply Rmult_lt_0_compat; lra|]. apply Rle_trans with (1 * Rabs th); [apply Rmult_le_compat_r; lra|lra]. }
  assert (F : forall s, segPath v w s = rot c (a * th + s * ph) (pos v1)) by (intros s; rewrite (Hp s), segPath_arc by apply Ok; fold c; fold th; f_equal; unfold ph; ring).
  assert (Rd : forall s, dist c (segPath v w s) = dist c (pos v1)) by (intros s; rewrite F; apply dist_rot).
  assert (Dif : forall s h, vx (segPath v w (s + h)) + vx (segPath v w (s - h)) - 2 * vx (segPath v w s) = 2 * (cos (h * ph) - 1) * (vx (segPath v w s) - vx c) /\ vy (segPath v w (s + h)) + vy (segPath v w (s - h)) - 2 * vy (segPath v w s) = 2 * (cos (h * ph) - 1) * (vy (segPath v w s) - vy c)).
  { intros s h. rewrite !F. replace (a * th + (s + h) * ph) with ((a * th + s * ph) + h * ph) by ring. replace (a * th + (s - h) * ph) with ((a * th + s * ph) - h * ph) by ring. apply rot2. }
  assert (Off : forall s, segPath v w s <> c). { intros s E. specialize (Rd s). rewrite E in Rd. assert (dist c c = 0) by (unfold dist; replace ((vx c - vx c) ^ 2 + (vy c - vy c) ^ 2) with 0 by ring; apply sqrt_0). lra. }
  assert (Cp : cos (1 / 2 * ph) < 1) by (apply cos_lt_1; rewrite Rabs_mult, (Rabs_right (1 / 2)) by lra; lra).
  destruct (Rlt_dec (Rabs (bulge v)) (1 / 100000)) as [Lv|Nv].
  { exfalso. apply (Off (1 / 2)). destruct (Dif (1 / 2) (1 / 2)) as [D1 D2]. rewrite !(segPath_line v w) in D1, D2 by exact Lv. rewrite (segPath_line v w) by exact Lv. unfold lerp in D1, D2 |- *. cbn [vx vy] in D1, D2.
    set (k := cos (1 / 2 * ph)) in *. clearbody k. apply vec_eq; cbn [vx vy]; [clear D2|clear D1]; apply Rminus_diag_uniq, (Rmult_eq_reg_l (2 * (k - 1))); try lra. }
  assert (Okv : okArc v w) by (split; [exact Nv|split; auto]). split; [exact Okv|]. pose proof (okArc_sweep _ _ Okv) as HT'. set (ph' := sweep (bulge v)) in *. set (c' := ctrOf v w).
  assert (Dif' : forall s h, vx (segPath v w (s + h)) + vx (segPath v w (s - h)) - 2 * vx (segPath v w s) = 2 * (cos (h * ph') - 1) * (vx (segPath v w s) - vx c') /\ vy (segPath v w (s + h)) + vy (segPath v w (s - h)) - 2 * vy (segPath v w s) = 2 * (cos (h * ph') - 1) * (vy (segPath v w s) - vy c')).
  { intros s h. rewrite !(segPath_arc v w) by exact Nv. fold c'. fold ph'. replace ((s + h) * ph') with (s * ph' + h * ph') by ring. replace ((s - h) * ph') with (s * ph' - h * ph') by ring. apply rot2. }
  set (k := cos (1 * ph)). set (k' := cos (1 * ph')).
  assert (Ek : k = k').
  { destruct (Dif 0 1) as [A1 A2]. destruct (Dif 1 1) as [B1 B2]. destruct (Dif' 0 1) as [A1' A2']. destruct (Dif' 1 1) as [B1' B2']. fold k in A1, A2, B1, B2. fold k' in A1', A2', B1', B2'.
    rewrite A1 in A1'. rewrite A2 in A2'. rewrite B1 in B1'. rewrite B2 in B2'. clear A1 A2 B1 B2. rewrite (segPath_0 v w) in A1', A2'. rewrite (segPath_1 v w) in B1', B2'.
    clearbody k k'. destruct (Req_dec k k') as [|N]; [auto|]. exfalso. apply Ne. apply vec_eq; apply Rminus_diag_uniq, (Rmult_eq_reg_l (2 * (k - k'))); try lra. }
  assert (Kk : k < 1) by (unfold k; apply cos_lt_1; rewrite Rmult_1_l; exact Hph).
  assert (Ec : c' = c). { destruct (Dif 0 1) as [A1 A2]. destruct (Dif' 0 1) as [A1' A2']. fold k in A1, A2. fold k' in A1', A2'. rewrite <- Ek in A1', A2'. rewrite A1 in A1'. rewrite A2 in A2'. clear A1 A2. clearbody k k' c'.
    apply vec_eq; apply Rminus_diag_uniq, (Rmult_eq_reg_l (2 * (k - 1))); try lra. }
  unfold radOf. fold c' c. rewrite Ec. specialize (Rd 0). rewrite segPath_0 in Rd. exact Rd.
Qed.

(** a point within the library's sector tolerance is next to the arc *)
Lemma sector_near v w p : okArc v w -> far (pos v) (pos w) -> let c := ctrOf v w in let r := radOf v w in 1 / 50 <= r -> r / 2 <= dist c p -> inSector eps v w c p ->
  exists z, onSeg v w z /\ dist z p <= Rabs (dist c p - r) + 2 * eps / r.
Proof.
  intros Ok Hf c r Hr Hp [S1 S2]. set (s := sgn (bulge v)) in *. set (rho := dist c p) in *.
  assert (Ends : onSeg v w (pos v) /\ onSeg v w (pos w)). { split; apply onSeg_path; [exists 0|exists 1]; (split; [lra|]); [now rewrite segPath_0|now rewrite segPath_1]. }
  assert (Sq : forall q, dist c q * dist c q = (vx q - vx c) * (vx q - vx c) + (vy q - vy c) * (vy q - vy c)).
  { intros q. unfold dist. rewrite sqrt_sqrt; [ring|]. pose proof (sq_nonneg (vx c - vx q)). pose proof (sq_nonneg (vy c - vy q)). lra. }
  assert (Rw : dist c (pos w) = r /\ 0 <= s * cross c (pos v) c (pos w)). { destruct (proj1 (sector_exact v w (pos w) Ok) (proj2 Ends)) as (E1 & E2 & _). split; [exact E1|exact E2]. }
  destruct Rw as [Rw Sw]. pose proof (Sq (pos v)) as Qv. pose proof (Sq (pos w)) as Qw. pose proof (Sq p) as Qp. fold rho in Qp. change (dist c (pos v)) with r in Qv. rewrite Rw in Qw.
  unfold cross in S1, S2, Sw.
  assert (Pos2 : 0 <= 2 * eps / r) by (unfold eps; apply Rmult_le_pos; [lra|]; apply Rlt_le, Rinv_0_lt_compat; lra).
  assert (End : forall e, dist c e = r -> r * rho - ((vx e - vx c) * (vx p - vx c) + (vy e - vy c) * (vy p - vy c)) <= 2 * eps * eps / (r * r) -> dist e p <= Rabs (rho - r) + 2 * eps / r).
  { intros e Re He. pose proof (Sq e) as Qe. rewrite Re in Qe. unfold dist at 1. rewrite <- (sqrt_Rsqr (Rabs (rho - r) + 2 * eps / r)) by (pose proof (Rabs_pos (rho - r)); lra). apply sqrt_le_1_alt. unfold Rsqr.
    assert (X1 : (2 * eps / r) * (2 * eps / r) = 2 * (2 * eps * eps / (r * r))) by (field; lra). assert (X2 : Rabs (rho - r) * Rabs (rho - r) = (rho - r) * (rho - r)) by (rewrite <- Rabs_mult; apply Rabs_right, Rle_ge, sq_nonneg).
    assert (X3 : 0 <= Rabs (rho - r) * (2 * eps / r)) by (apply Rmult_le_pos; [apply Rabs_pos|auto]).
    replace ((vx e - vx p) ^ 2 + (vy e - vy p) ^ 2) with (((vx e - vx c) * (vx e - vx c) + (vy e - vy c) * (vy e - vy c)) + ((vx p - vx c) * (vx p - vx c) + (vy p - vy c) * (vy p - vy c)) - 2 * ((vx e - vx c) * (vx p - vx c) + (vy e - vy c) * (vy p - vy c))) by ring.
    rewrite <- Qe, <- Qp. replace ((Rabs (rho - r) + 2 * eps / r) * (Rabs (rho - r) + 2 * eps / r)) with (Rabs (rho - r) * Rabs (rho - r) + 2 * (Rabs (rho - r) * (2 * eps / r)) + (2 * eps / r) * (2 * eps / r)) by ring. rewrite X1, X2. lra. }
  assert (Hch : 1 / 10000000000 <= (vx (pos v) - vx c - (vx (pos w) - vx c)) * (vx (pos v) - vx c - (vx (pos w) - vx c)) + (vy (pos v) - vy c - (vy (pos w) - vy c)) * (vy (pos v) - vy c - (vy (pos w) - vy c))).
  { replace (vx (pos v) - vx c - (vx (pos w) - vx c)) with (vx (pos v) - vx (pos w)) by ring. replace (vy (pos v) - vy c - (vy (pos w) - vy c)) with (vy (pos v) - vy (pos w)) by ring.
    pose proof (sq_nonneg (vx (pos v) - vx (pos w))) as Z1. pose proof (sq_nonneg (vy (pos v) - vy (pos w))) as Z2.
    assert (K : forall z, 1 / 100000 <= Rabs z -> 1 / 100000 * (1 / 100000) <= z * z).
    { intros z Hz. assert (L : 1 / 100000 * (1 / 100000) <= Rabs z * Rabs z) by (apply Rmult_le_compat; lra). rewrite <- Rabs_mult, Rabs_right in L by apply Rle_ge, sq_nonneg. exact L. }
    destruct Hf as [H|H]; apply K in H; lra. }
  destruct (sector_core (vx (pos v) - vx c) (vy (pos v) - vy c) (vx (pos w) - vx c) (vy (pos w) - vy c) (vx p - vx c) (vy p - vy c) r rho s Hr Hp (sgn_sq _) (eq_sym Qv) (eq_sym Qw) (eq_sym Qp)) as [[I1 I2]|[I|I]]; auto.
  - assert (Hrho : 0 < rho) by lra. exists (mkV (vx c + r / rho * (vx p - vx c)) (vy c + r / rho * (vy p - vy c))). assert (Hq : 0 <= r / rho) by (apply Rmult_le_pos; [lra|]; apply Rlt_le, Rinv_0_lt_compat; lra).
    split.
    + apply (sector_exact v w _ Ok). fold (ctrOf v w). fold c. fold s. unfold cross. cbn [vx vy]. split; [|split].
      * change (dist c (pos v)) with r. unfold dist. cbn [vx vy]. replace ((vx c - (vx c + r / rho * (vx p - vx c))) ^ 2 + (vy c - (vy c + r / rho * (vy p - vy c))) ^ 2) with ((r / rho) * (r / rho) * ((vx p - vx c) * (vx p - vx c) + (vy p - vy c) * (vy p - vy c))) by ring. rewrite <- Qp.
        replace (r / rho * (r / rho) * (rho * rho)) with (r * r) by (field; lra). apply sqrt_square. lra.
      * match goal with |- 0 <= ?g => replace g with (r / rho * (s * ((vx (pos v) - vx c) * (vy p - vy c) - (vy (pos v) - vy c) * (vx p - vx c)))) by ring end. now apply Rmult_le_pos.
      * match goal with |- ?g <= 0 => replace g with (- (r / rho * - (s * ((vx (pos w) - vx c) * (vy p - vy c) - (vy (pos w) - vy c) * (vx p - vx c))))) by ring end. apply Ropp_le_cancel. rewrite Ropp_0, Ropp_involutive. apply Rmult_le_pos; [auto|lra].
    + unfold dist. cbn [vx vy]. replace ((vx c + r / rho * (vx p - vx c) - vx p) ^ 2 + (vy c + r / rho * (vy p - vy c) - vy p) ^ 2) with ((r / rho - 1) * (r / rho - 1) * ((vx p - vx c) * (vx p - vx c) + (vy p - vy c) * (vy p - vy c))) by ring. rewrite <- Qp.
      replace ((r / rho - 1) * (r / rho - 1) * (rho * rho)) with (Rsqr (rho - r)) by (unfold Rsqr; field; lra). rewrite sqrt_Rsqr_abs. lra.
  - exists (pos v). split; [apply Ends|]. apply End; [reflexivity|exact I].
  - exists (pos w). split; [apply Ends|]. apply End; [exact Rw|exact I].
Qed.

Lemma arc_none v w u1 u2 D : okArc v w -> far (pos v) (pos w) -> isLine u1 -> 1 / 50 <= radOf v w -> 1 / 50 <= D -> 1 / 100 <= dist (pos u1) (pos u2) -> eps * dist (pos u1) (pos u2) <= D / 2 ->
  (forall p q, onSeg v w p -> onSeg u1 u2 q -> D <= dist p q) -> intrPlineSegs v w u1 u2 = NoIntersect.
Proof.
  intros Ok Hf Lu Hr HD Hlen Hlen2 Hap. set (r := radOf v w) in *.
  assert (Bad : forall p, onLineTol (pos u1) (pos u2) p -> r / 2 <= dist (ctrOf v w) p -> Rabs (dist (ctrOf v w) p - r) <= 1 / 500 -> inSector eps v w (ctrOf v w) p -> False).
  { intros p (t & It & Et) H1 H2 H3. destruct (sector_near v w p Ok Hf Hr H1 H3) as (z & Oz & Dz). fold r in Dz. destruct (lerp_near (pos u1) (pos u2) t It) as (t' & Ht' & Dt). rewrite <- Et in Dt.
    specialize (Hap _ _ Oz (onSeg_lerp u1 u2 t' Lu Ht')). pose proof (dist_tri z p (lerp (pos u1) (pos u2) t')) as T.
    assert (2 * eps / r <= 1 / 1000000) by (apply (Rmult_le_reg_r r); [lra|]; replace (2 * eps / r * r) with (2 * eps) by (field; lra); unfold eps; lra). lra. }
  assert (Bad1 : forall p, onLineTol (pos u1) (pos u2) p -> onArcTol v w p -> False).
  { intros p H1 (c & Hc & Hd & Hs). apply ctr_unique in Hc; [|apply notLine_ne, Ok]. subst c. fold (ctrOf v w) in Hd, Hs. change (dist (ctrOf v w) (pos v)) with r in Hd. apply (Bad p H1); [rewrite Hd; lra|rewrite Hd, Rminus_diag_eq, Rabs_R0 by reflexivity; lra|exact Hs]. }
  assert (L2 : 1 / 10000 <= len2 (pos u1) (pos u2)).
  { assert (E : len2 (pos u1) (pos u2) = dist (pos u1) (pos u2) * dist (pos u1) (pos u2)). { unfold len2, dist. rewrite sqrt_sqrt; [ring|]. pose proof (sq_nonneg (vx (pos u1) - vx (pos u2))). pose proof (sq_nonneg (vy (pos u1) - vy (pos u2))). lra. }
    rewrite E. replace (1 / 10000) with (1 / 100 * (1 / 100)) by field. apply Rmult_le_compat; lra. }
  destruct (C20_arc_line v w u1 u2 Ok Lu) as [S _]. destruct (intrPlineSegs v w u1 u2) as [|p|p q|p q|p q]; try contradiction; [reflexivity|exfalso|exfalso].
  - destruct S as [S [S1|(c & Hc & Hs & [[Hp _]|[Hl _]])]]; [exact (Bad1 p S S1)| |unfold eps in Hl; lra].
    apply ctr_unique in Hc; [|apply notLine_ne, Ok]. subst c. fold (ctrOf v w) in Hs, Hp. change (dist (ctrOf v w) (pos v)) with r in Hp.
    set (rho := dist (ctrOf v w) p). assert (Ep : power (ctrOf v w) r p = (rho - r) * (rho + r)).
    { unfold power. assert (Eq : rho * rho = (vx p - vx (ctrOf v w)) * (vx p - vx (ctrOf v w)) + (vy p - vy (ctrOf v w)) * (vy p - vy (ctrOf v w))).
      { unfold rho, dist. rewrite sqrt_sqrt; [ring|]. pose proof (sq_nonneg (vx (ctrOf v w) - vx p)). pose proof (sq_nonneg (vy (ctrOf v w) - vy p)). lra. }
      rewrite <- Eq. ring. }
    rewrite Ep in Hp. assert (Rp : 0 <= rho) by apply dist_nonneg.
    assert (Hp' : Rabs (rho - r) * (rho + r) < 25 / 1000000).
    { rewrite Rabs_mult, (Rabs_right (rho + r)) in Hp by lra. set (W := Rabs (rho - r) * (rho + r)) in *. assert (0 <= W) by (unfold W; apply Rmult_le_pos; [apply Rabs_pos|lra]).
      assert (4 * (1 / 10000) * W <= 4 * len2 (pos u1) (pos u2) * W) by (apply Rmult_le_compat_r; lra). unfold eps in Hp. lra. }
    assert (K : Rabs (rho - r) <= 1 / 500).
    { apply Rnot_lt_le. intros L. assert (Rabs (rho - r) * (1 / 50) <= Rabs (rho - r) * (rho + r)) by (apply Rmult_le_compat_l; [apply Rabs_pos|lra]). lra. }
    apply (Bad p S); auto. fold rho. unfold Rabs in K. destruct (Rcase_abs _); lra.
  - destruct S as (_ & S1 & S2 & _). exact (Bad1 p S1 S2).
Qed.

(** ** No false alarm of the crossing test *)
(** the offset distance and the edges are not tiny, edges are not huge, and no straight part of the raw offset is nearly but not exactly parallel to an edge (or has its line through it) *)
Definition clearHits (pl raw : polyline) (d : R) : Prop := 1 / 50 <= Rabs d /\
  (forall u1 u2, In (u1, u2) (pathSegs pl) -> isLine u1 /\ 1 / 100 <= dist (pos u1) (pos u2) /\ eps * dist (pos u1) (pos u2) <= Rabs d / 2) /\
  (forall v1 v2 u1 u2, In (v1, v2) (pathSegs raw) -> In (u1, u2) (pathSegs pl) -> isLine v1 -> clearPair (Rabs d) (pos v1) (pos v2) (pos u1) (pos u2)).

Section NoHits.
Variables (pl : polyline) (d : R) (raw : polyline).
Hypothesis HC : clearRaw pl d.
Hypothesis Er : createRawOffsetPline pl d = Ok raw.

Lemma raw_far k : (k < length (vertexes raw))%nat -> pos (vert raw k 0) <> pos (vert raw k 1).
Proof.
  intros Hk. destruct (tag_ends pl d raw HC Er k Hk) as [Hs ->]. destruct Hs as [-> _]. apply far_ne. destruct (tag_next pl d raw HC Er k Hk) as (T & Fo & _). destruct (tagAt pl d k) as [j|j|j]; [apply (cr_off pl d HC)|apply (cr_join pl d HC), Fo|apply (cr_join pl d HC), Fo].
Qed.

Lemma raw_radius k : (k < length (vertexes raw))%nat -> ~ isLine (vert raw k 0) -> Rabs (bulge (vert raw k 0)) <= 1 -> okArc (vert raw k 0) (vert raw k 1) /\ radOf (vert raw k 0) (vert raw k 1) = Rabs d.
Proof.
  intros Hk Nl Hb. assert (Ok : okArc (vert raw k 0) (vert raw k 1)) by (split; [exact Nl|split; [exact Hb|now apply raw_far]]). split; [exact Ok|].
  destruct (tag_ends pl d raw HC Er k Hk) as [Hs He]. destruct (tagAt pl d k) as [j|j|j]; [destruct Hs; contradiction| |destruct Hs; contradiction].
  destruct Hs as [Hp (_ & th & Hr & _ & _ & Hsw)]. cbn [startPt endPt] in *. assert (Hc : arcCentre (pos (vert raw k 0)) (pos (vert raw k 1)) (bulge (vert raw k 0)) (pt pl (S j))) by (unfold arcCentre; rewrite Hp, He, Hsw; exact Hr).
  apply ctr_unique in Hc; [|now apply notLine_ne]. unfold radOf, ctrOf. rewrite <- Hc, Hp. unfold edgePt, len.
  pose proof (P_ne pl d HC j) as Ne. rewrite <- (proj2 (offPt_ends d _ _ Ne)). unfold dist, shift. cbn [vx vy]. pose proof (nrm_unit _ _ Ne) as U.
  replace ((vx (pt pl (S j)) - (vx (pt pl (S j)) + d * nrmX (pt pl j) (pt pl (S j)))) ^ 2 + (vy (pt pl (S j)) - (vy (pt pl (S j)) + d * nrmY (pt pl j) (pt pl (S j)))) ^ 2) with (Rsqr d * (nrmX (pt pl j) (pt pl (S j)) * nrmX (pt pl j) (pt pl (S j)) + nrmY (pt pl j) (pt pl (S j)) * nrmY (pt pl j) (pt pl (S j)))) by (unfold Rsqr; ring).
  rewrite U, Rmult_1_r. apply sqrt_Rsqr_abs.
Qed.

Theorem C58_no_false_hits : smallBulges raw -> clearHits pl raw d -> noFalseHits pl raw d.
Proof.
  intros Hsm (Hd & He & Hc) k a b v w u1 u2 Hk Ha Hab Hb Hp Hbu Hf Hcl Hin. destruct (He u1 u2 Hin) as (Lu & E1 & E2). pose proof (raw_cl pl d raw HC Er) as Craw.
  destruct (seg_at raw k (proj1 Craw) (proj2 Craw) Hk) as (_ & _ & Hseg).
  assert (Hap : forall t q, a <= t <= b -> onSeg u1 u2 q -> Rabs d <= dist (segPath (vert raw k 0) (vert raw k 1) t) q).
  { intros t q Ht Oq. apply (Hcl t Ht). exists u1, u2. auto. }
  destruct (Rlt_dec (Rabs (bulge (vert raw k 0))) (1 / 100000)) as [Lk|Nk].
  - apply (piece_none (vert raw k 0) (vert raw k 1) u1 u2 a b v w (Rabs d)); auto. now apply raw_far.
  - assert (Hbk : Rabs (bulge (vert raw k 0)) <= 1) by (apply vert_small; [apply Craw|auto]).
    destruct (raw_radius k Hk Nk Hbk) as [Ok Hr]. destruct (piece_arc _ _ _ _ _ _ Ok Ha Hab Hb Hp Hbu (far_ne _ _ Hf)) as [Okv Hrv].
    apply (arc_none v w u1 u2 (Rabs d)); auto; [rewrite Hrv, Hr; auto|]. intros p q Op Oq. apply onSeg_path in Op. destruct Op as (s & Hs1 & ->). rewrite (Hp s). apply Hap; [|auto]. split; [assert (0 <= s * (b - a)) by (apply Rmult_le_pos; lra); lra|]. assert (s * (b - a) <= 1 * (b - a)) by (apply Rmult_le_compat_r; lra). lra.
Qed.
End NoHits.
