(** * Distances between the raw offset segments and the edges of a straight closed polyline *)
From Coq Require Import ZArith Reals Lra Lia List Bool Arith.
From Verif Require Import Base Num MathUtils PlineSegment SpatialIndex Polyline Intersects Combine Offset RGeom Spec PropsMath ArcGeom Polar PropsSegment PropsClosest PropsIntr PropsPlineIntr PropsPolyline Turning PropsWinding PropsRegion PropsCoincident PropsSlices PropsPieces PropsOffset PropsOffsetSlices PropsOffsetSegs PropsRawOffset PropsJoins PropsRawStructure.
Import ListNotations.
Open Scope R_scope.

Definition sqd (p q : vec) : R := (vx p - vx q) * (vx p - vx q) + (vy p - vy q) * (vy p - vy q).

Lemma sqd_nonneg p q : 0 <= sqd p q.
Proof. unfold sqd. pose proof (sq_nonneg (vx p - vx q)). pose proof (sq_nonneg (vy p - vy q)). lra. Qed.

Lemma dist_sqd p q : dist p q = sqrt (sqd p q).
Proof. apply dist_norm. Qed.

Lemma away_sqd d p q : Rabs d <= dist p q <-> d * d <= sqd p q.
Proof.
  rewrite dist_sqd. pose proof (sqd_nonneg p q) as H. assert (E : Rabs d = sqrt (d * d)) by (rewrite <- (sqrt_Rsqr_abs d); reflexivity). rewrite E. split; intros H1.
  - apply sqrt_le_0 in H1; auto. apply sq_nonneg.
  - now apply sqrt_le_1_alt.
Qed.

(** coordinates along and to the left of the edge a -> b *)
Definition along (a b z : vec) : R := (vx z - vx a) * nrmY a b - (vy z - vy a) * nrmX a b.
Definition leftw (a b z : vec) : R := (vx z - vx a) * nrmX a b + (vy z - vy a) * nrmY a b.

Lemma coords a b z : a <> b -> z = offPt (leftw a b z) a b (along a b z).
Proof.
  intros H. pose proof (nrm_unit a b H) as U. unfold offPt, leftw, along. apply vec_eq; cbn [vx vy]; generalize (nrmX a b) (nrmY a b) U; clear; intros x y U.
  - apply Rminus_diag_uniq. match goal with |- ?g = 0 => replace g with ((vx z - vx a) * (1 - (x * x + y * y))) by ring end. rewrite U. ring.
  - apply Rminus_diag_uniq. match goal with |- ?g = 0 => replace g with ((vy z - vy a) * (1 - (x * x + y * y))) by ring end. rewrite U. ring.
Qed.

Lemma sqd_base a b z m : a <> b -> sqd z (offPt 0 a b m) = (along a b z - m) * (along a b z - m) + leftw a b z * leftw a b z.
Proof.
  intros H. pose proof (nrm_unit a b H) as U. unfold sqd, offPt, leftw, along. cbn [vx vy]. generalize (nrmX a b) (nrmY a b) U; clear. intros x y U.
  apply Rminus_diag_uniq. match goal with |- ?g = 0 => replace g with (((vx z - vx a) * (vx z - vx a) + (vy z - vy a) * (vy z - vy a) - m * m) * (1 - (x * x + y * y))) by ring end. rewrite U. ring.
Qed.

Lemma along_off d a b l : a <> b -> along a b (offPt d a b l) = l /\ leftw a b (offPt d a b l) = d.
Proof.
  intros H. pose proof (nrm_unit a b H) as U. unfold offPt, leftw, along. cbn [vx vy]. generalize (nrmX a b) (nrmY a b) U; clear. intros x y U. split.
  - match goal with |- ?g = _ => replace g with (l * (x * x + y * y)) by ring end. rewrite U. ring.
  - match goal with |- ?g = _ => replace g with (d * (x * x + y * y)) by ring end. rewrite U. ring.
Qed.

Lemma sqd_off d a b l m : a <> b -> sqd (offPt d a b l) (offPt 0 a b m) = (l - m) * (l - m) + d * d.
Proof. intros H. rewrite sqd_base by auto. destruct (along_off d a b l H) as [-> ->]. reflexivity. Qed.

(** ** A corner *)
Definition sinC (a b c : vec) : R := turn a b c / (dist a b * dist b c).
Definition cosC (a b c : vec) : R := dotp a b c / (dist a b * dist b c).

Section Corner.
Variables (d : R) (a b c : vec).
Hypothesis Ht : turn a b c <> 0.
Let x := setback d a b c.

Lemma ne1 : a <> b. Proof. intros E. apply Ht. rewrite E. unfold turn. ring. Qed.
Lemma ne2 : b <> c. Proof. intros E. apply Ht. rewrite E. unfold turn. ring. Qed.

Lemma sinC_nrm : sinC a b c = nrmY a b * - nrmX b c - - nrmX a b * nrmY b c /\ cosC a b c = nrmY a b * nrmY b c + nrmX a b * nrmX b c.
Proof.
  pose proof (dist_pos' a b ne1) as P1. pose proof (dist_pos' b c ne2) as P2. destruct (turn_units a b c ne1 ne2) as [E1 E2]. unfold sinC, cosC. rewrite E1, E2. split; rfield; split; lra.
Qed.

Lemma corner_unit : sinC a b c * sinC a b c + cosC a b c * cosC a b c = 1.
Proof.
  destruct sinC_nrm as [-> ->]. pose proof (nrm_unit a b ne1) as U1. pose proof (nrm_unit b c ne2) as U2. generalize (nrmX a b) (nrmY a b) (nrmX b c) (nrmY b c) U1 U2; clear. intros p q r s U1 U2.
  match goal with |- ?g = _ => replace g with ((p * p + q * q) * (r * r + s * s)) by ring end. rewrite U1, U2. ring.
Qed.

Lemma cos_pos : 0 < 1 + cosC a b c.
Proof.
  pose proof (dotp_pos a b c Ht) as Q. pose proof (dist_pos' a b ne1) as P1. pose proof (dist_pos' b c ne2) as P2. pose proof (Rmult_lt_0_compat _ _ P1 P2) as P. unfold cosC.
  apply (Rmult_lt_reg_r (dist a b * dist b c)); [auto|]. rewrite Rmult_0_l. replace ((1 + dotp a b c / (dist a b * dist b c)) * (dist a b * dist b c)) with (dist a b * dist b c + dotp a b c) by (field; split; lra). exact Q.
Qed.

Lemma setback_eq : x * (1 + cosC a b c) = d * sinC a b c.
Proof.
  pose proof (dotp_pos a b c Ht) as Q. pose proof (dist_pos' a b ne1) as P1. pose proof (dist_pos' b c ne2) as P2. unfold x, setback, sinC, cosC. field. split; [lra|split; lra].
Qed.

Lemma corner_pt : offPt 0 a b (dist a b) = b.
Proof.
  pose proof (dist_pos' a b ne1) as P1. unfold offPt, nrmX, nrmY. apply vec_eq; cbn [vx vy]; rfield; lra.
Qed.

(** from the offset of the first edge to the second edge, and from the offset of the second edge to the first *)
Lemma sq_next y m : sqd (offPt d a b (dist a b - y)) (offPt 0 b c m) = d * d + (y - m) * (y - m) + 2 * m * (1 + cosC a b c) * (y - x).
Proof.
  pose proof setback_eq as E. replace (2 * m * (1 + cosC a b c) * (y - x)) with (2 * m * ((1 + cosC a b c) * y - x * (1 + cosC a b c))) by ring. rewrite E. destruct sinC_nrm as [-> ->].
  pose proof (nrm_unit a b ne1) as U1. pose proof (nrm_unit b c ne2) as U2. unfold sqd.
  assert (A1 : vx (offPt d a b (dist a b - y)) = vx b - y * nrmY a b + d * nrmX a b). { pose proof (f_equal vx corner_pt) as Ep. unfold offPt in *. cbn [vx] in *. lra. }
  assert (A2 : vy (offPt d a b (dist a b - y)) = vy b + y * nrmX a b + d * nrmY a b). { pose proof (f_equal vy corner_pt) as Ep. unfold offPt in *. cbn [vy] in *. lra. }
  rewrite A1, A2. unfold offPt. cbn [vx vy]. generalize (nrmX a b) (nrmY a b) (nrmX b c) (nrmY b c) U1 U2; clear. intros p q r s U1 U2.
  apply Rminus_diag_uniq. match goal with |- ?g = 0 => replace g with ((d * d + y * y) * ((p * p + q * q) - 1) + m * m * ((r * r + s * s) - 1)) by ring end. rewrite U1, U2. ring.
Qed.

Lemma sq_prev y m : sqd (offPt d b c y) (offPt 0 a b (dist a b - m)) = d * d + (y - m) * (y - m) + 2 * m * (1 + cosC a b c) * (y - x).
Proof.
  pose proof setback_eq as E. replace (2 * m * (1 + cosC a b c) * (y - x)) with (2 * m * ((1 + cosC a b c) * y - x * (1 + cosC a b c))) by ring. rewrite E. destruct sinC_nrm as [-> ->].
  pose proof (nrm_unit a b ne1) as U1. pose proof (nrm_unit b c ne2) as U2. unfold sqd.
  assert (A1 : vx (offPt 0 a b (dist a b - m)) = vx b - m * nrmY a b). { pose proof (f_equal vx corner_pt) as Ep. unfold offPt in *. cbn [vx] in *. lra. }
  assert (A2 : vy (offPt 0 a b (dist a b - m)) = vy b + m * nrmX a b). { pose proof (f_equal vy corner_pt) as Ep. unfold offPt in *. cbn [vy] in *. lra. }
  rewrite A1, A2. unfold offPt. cbn [vx vy]. generalize (nrmX a b) (nrmY a b) (nrmX b c) (nrmY b c) U1 U2; clear. intros p q r s U1 U2.
  apply Rminus_diag_uniq. match goal with |- ?g = 0 => replace g with ((d * d + y * y) * ((r * r + s * s) - 1) + m * m * ((p * p + q * q) - 1)) by ring end. rewrite U1, U2. ring.
Qed.

(** with the quantity above: away when y >= max x 0, close when 0 <= y < x *)
Lemma poly_away y m : 0 <= y -> x <= y -> 0 <= m -> d * d <= d * d + (y - m) * (y - m) + 2 * m * (1 + cosC a b c) * (y - x).
Proof.
  intros Hy Hx Hm. pose proof cos_pos as Hc. pose proof (sq_nonneg (y - m)). assert (0 <= 2 * m * (1 + cosC a b c) * (y - x)) by (apply Rmult_le_pos; [apply Rmult_le_pos|]; lra). lra.
Qed.

Lemma poly_close y l : 0 <= y < x -> 0 < l -> y <= l -> exists m, 0 <= m <= l /\ d * d + (y - m) * (y - m) + 2 * m * (1 + cosC a b c) * (y - x) < d * d.
Proof.
  intros Hy Hl Hyl. pose proof cos_pos as Hc. destruct (Req_dec y 0) as [->|Ny].
  - set (k := 2 * (1 + cosC a b c) * x). assert (Hk : 0 < k) by (unfold k; apply Rmult_lt_0_compat; lra). exists (Rmin l (k / 2)). 
    assert (Hm : 0 < Rmin l (k / 2)) by (apply Rmin_glb_lt; lra). pose proof (Rmin_l l (k / 2)). pose proof (Rmin_r l (k / 2)). split; [lra|]. set (m := Rmin l (k / 2)) in *. clearbody m.
    replace (d * d + (0 - m) * (0 - m) + 2 * m * (1 + cosC a b c) * (0 - x)) with (d * d - m * (k - m)) by (unfold k; ring). assert (0 < m * (k - m)) by (apply Rmult_lt_0_compat; lra). lra.
  - exists y. split; [lra|]. replace (d * d + (y - y) * (y - y) + 2 * y * (1 + cosC a b c) * (y - x)) with (d * d - 2 * y * (1 + cosC a b c) * (x - y)) by ring.
    assert (0 < 2 * y * (1 + cosC a b c) * (x - y)) by (apply Rmult_lt_0_compat; [apply Rmult_lt_0_compat|]; lra). lra.
Qed.
End Corner.

(** ** The arc around an outside corner *)
Section ArcCorner.
Variables (d : R) (a b c : vec) (th : R).
Hypothesis (Ht : turn a b c <> 0) (Hd : d <> 0) (Hrot : rot b th (offPt d a b (dist a b)) = offPt d b c 0).

Lemma arc_angle : cos th = cosC a b c /\ sin th = sinC a b c.
Proof.
  destruct (sinC_nrm a b c Ht) as [-> ->]. pose proof (nrm_unit a b (ne1 a b c Ht)) as U1. pose proof Hrot as Er. pose proof (corner_pt a b c Ht) as Ep.
  pose proof (f_equal vx Ep) as Epx. pose proof (f_equal vy Ep) as Epy. pose proof (f_equal vx Er) as Ex. pose proof (f_equal vy Er) as Ey. clear Er Ep. unfold rot, offPt in *. cbn [vx vy] in *.
  set (x := nrmX a b) in *. set (y := nrmY a b) in *. set (z := nrmX b c) in *. set (w := nrmY b c) in *. set (L := dist a b) in *. clearbody x y z w L.
  assert (Fx : d * z = d * (cos th * x - sin th * y)).
  { replace (vx a + L * y + d * x - vx b) with (d * x) in Ex by lra. replace (vy a - L * x + d * y - vy b) with (d * y) in Ex by lra. lra. }
  assert (Fy : d * w = d * (sin th * x + cos th * y)).
  { replace (vx a + L * y + d * x - vx b) with (d * x) in Ey by lra. replace (vy a - L * x + d * y - vy b) with (d * y) in Ey by lra. lra. }
  apply Rmult_eq_reg_l in Fx; [|auto]. apply Rmult_eq_reg_l in Fy; [|auto]. rewrite Fx, Fy. split.
  - replace (y * (sin th * x + cos th * y) + x * (cos th * x - sin th * y)) with (cos th * (x * x + y * y)) by ring. rewrite U1. ring.
  - replace (y * - (cos th * x - sin th * y) - - x * (sin th * x + cos th * y)) with (sin th * (x * x + y * y)) by ring. rewrite U1. ring.
Qed.

(** the points of the circle around the corner *)
Lemma arc_coords ph : let z := rot b ph (offPt d a b (dist a b)) in
  sqd z b = d * d /\ along a b z = dist a b - d * sin ph /\ along b c z = d * sin (th - ph).
Proof.
  intros z. rewrite sin_minus. destruct arc_angle as [-> ->]. destruct (sinC_nrm a b c Ht) as [-> ->]. pose proof (nrm_unit a b (ne1 a b c Ht)) as U1. pose proof (corner_pt a b c Ht) as Ep.
  pose proof (f_equal vx Ep) as Epx. pose proof (f_equal vy Ep) as Epy. clear Ep. unfold offPt in *. cbn [vx vy] in *.
  assert (Zx : vx z = vx b + d * (cos ph * nrmX a b - sin ph * nrmY a b)).
  { unfold z, rot, offPt. cbn [vx vy]. set (x := nrmX a b) in *. set (y := nrmY a b) in *. set (L := dist a b) in *. clearbody x y L.
    replace (vx a + L * y + d * x - vx b) with (d * x) by lra. replace (vy a - L * x + d * y - vy b) with (d * y) by lra. rring. }
  assert (Zy : vy z = vy b + d * (sin ph * nrmX a b + cos ph * nrmY a b)).
  { unfold z, rot, offPt. cbn [vx vy]. set (x := nrmX a b) in *. set (y := nrmY a b) in *. set (L := dist a b) in *. clearbody x y L.
    replace (vx a + L * y + d * x - vx b) with (d * x) by lra. replace (vy a - L * x + d * y - vy b) with (d * y) by lra. rring. }
  clearbody z. unfold sqd, along. rewrite Zx, Zy. pose proof (sin2_cos2 ph) as S. unfold Rsqr in S.
  set (x := nrmX a b) in *. set (y := nrmY a b) in *. set (u := nrmX b c) in *. set (w := nrmY b c) in *. set (L := dist a b) in *. clearbody x y u w L. split; [|split].
  - match goal with |- ?g = _ => replace g with (d * d * ((x * x + y * y) * (sin ph * sin ph + cos ph * cos ph))) by ring end. rewrite U1, S. ring.
  - replace (vx b) with (vx a + L * y) by lra. replace (vy b) with (vy a - L * x) by lra.
    match goal with |- ?g = _ => replace g with ((L - d * sin ph) * (x * x + y * y)) by ring end. rewrite U1. ring.
  - ring.
Qed.

Hypothesis (Hth : Rabs th < PI) (Hout : setback d a b c < 0).

Lemma out_sign : d * sin th < 0.
Proof.
  destruct arc_angle as [_ ->]. pose proof (setback_eq d a b c Ht) as E. pose proof (cos_pos a b c Ht) as Hc. rewrite <- E. assert (0 < - setback d a b c * (1 + cosC a b c)) by (apply Rmult_lt_0_compat; lra). lra.
Qed.

(** a point of the circle that is beyond the end of the first edge and before the start of the second is on the arc *)
Lemma arc_complete z : sqd z b = d * d -> dist a b <= along a b z -> along b c z <= 0 -> exists t, 0 <= t <= 1 /\ z = rot b (t * th) (offPt d a b (dist a b)).
Proof.
  intros Hz H1 H2. set (X := leftw a b z). set (Y := - (along a b z - dist a b)).
  assert (HXY : X * X + Y * Y = d * d). { rewrite <- Hz, <- (corner_pt a b c Ht) at 1. rewrite (sqd_base a b z _ (ne1 a b c Ht)). unfold X, Y. ring. }
  assert (Hn : X / d <> 0 \/ Y / d <> 0).
  { destruct (Req_dec X 0) as [E|N]; [right|left]; intros Z; [|apply N; apply (Rmult_eq_reg_r (/ d)); [unfold Rdiv in Z; lra|now apply Rinv_neq_0_compat]].
    assert (Y = 0) by (apply (Rmult_eq_reg_r (/ d)); [unfold Rdiv in Z; lra|now apply Rinv_neq_0_compat]). rewrite E, H in HXY. apply Hd. apply Rmult_integral with (r1 := d) (r2 := d) in HXY || idtac. symmetry in HXY. rewrite !Rmult_0_l, Rplus_0_l in HXY. destruct (Rmult_integral _ _ HXY); auto. }
  destruct (polar (X / d) (Y / d) Hn) as [Pc Ps]. set (ph := Ratan2 (Y / d) (X / d)) in *. pose proof (Ratan2_bounds (Y / d) (X / d)) as Hb. fold ph in Hb.
  assert (Er : sqrt (X / d * (X / d) + Y / d * (Y / d)) = 1). { replace (X / d * (X / d) + Y / d * (Y / d)) with ((X * X + Y * Y) / (d * d)) by (field; auto). rewrite HXY. replace (d * d / (d * d)) with 1 by (field; auto). apply sqrt_1. }
  rewrite Er, Rmult_1_l in Pc, Ps.
  assert (EX : X = d * cos ph) by (rewrite <- Pc; field; auto). assert (EY : Y = d * sin ph) by (rewrite <- Ps; field; auto).
  assert (Ez : z = rot b ph (offPt d a b (dist a b))).
  { destruct (arc_coords ph) as (_ & A1 & _). set (z' := rot b ph (offPt d a b (dist a b))) in *. 
    assert (A2 : leftw a b z' = d * cos ph).
    { unfold z', leftw, rot. pose proof (nrm_unit a b (ne1 a b c Ht)) as U1. pose proof (corner_pt a b c Ht) as Ep. pose proof (f_equal vx Ep) as Epx. pose proof (f_equal vy Ep) as Epy. clear Ep. unfold offPt in *. cbn [vx vy] in *.
      set (x := nrmX a b) in *. set (y := nrmY a b) in *. set (L := dist a b) in *. clearbody x y L.
      replace (vx a + L * y + d * x - vx b) with (d * x) by lra. replace (vy a - L * x + d * y - vy b) with (d * y) by lra. replace (vx b) with (vx a + L * y) by lra. replace (vy b) with (vy a - L * x) by lra.
      match goal with |- ?g = _ => replace g with (d * cos ph * (x * x + y * y)) by ring end. rewrite U1. ring. }
    rewrite (coords a b z (ne1 a b c Ht)), (coords a b z' (ne1 a b c Ht)). f_equal; [unfold X in EX; lra|unfold Y in EY; lra]. }
  destruct (arc_coords ph) as (_ & A1 & A2). rewrite <- Ez in A1, A2.
  assert (B1 : d * sin ph <= 0) by lra. assert (B2 : d * sin (th - ph) <= 0) by lra. pose proof out_sign as B3. pose proof PI_RGT_0 as Hpi.
  apply Rabs_def2 in Hth. 
  assert (G : forall s e, 0 < s * s -> (e = 1 \/ e = -1) -> 0 < e * sin th -> 0 <= e * sin ph -> 0 <= e * sin (th - ph) -> 0 <= e * ph <= e * th /\ 0 < e * th).
  { intros s e _ He S1 S2 S3. destruct He as [-> | ->]; rewrite ?Rmult_1_l in *.
    - assert (0 < th). { destruct (Rlt_le_dec 0 th); auto. exfalso. assert (sin th <= 0); [|lra]. destruct (Req_dec th 0) as [->|]; [rewrite sin_0; lra|]. left. apply sin_lt_0_var; lra. }
      assert (0 <= ph). { destruct (Rle_lt_dec 0 ph); auto. exfalso. pose proof (sin_lt_0_var ph ltac:(lra) ltac:(lra)). lra. }
      assert (ph <= th); [|lra]. destruct (Rle_lt_dec ph th); auto. exfalso. pose proof (sin_lt_0_var (th - ph) ltac:(lra) ltac:(lra)). lra.
    - assert (th < 0). { destruct (Rlt_le_dec th 0); auto. exfalso. pose proof (sin_ge_0 th ltac:(lra) ltac:(lra)). lra. }
      assert (ph <= 0 \/ ph = PI). { destruct (Rle_lt_dec ph 0); auto. destruct (Req_dec ph PI); auto. exfalso. pose proof (sin_gt_0 ph ltac:(lra) ltac:(lra)). lra. }
      assert (ph <> PI). { intros E. rewrite E, sin_minus, cos_PI, sin_PI in S3. lra. }
      assert (th <= ph); [|lra]. destruct (Rle_lt_dec th ph); auto. exfalso. pose proof (sin_gt_0 (th - ph) ltac:(lra) ltac:(lra)). lra. }
  assert (G' : exists e, (e = 1 \/ e = -1) /\ 0 <= e * ph <= e * th /\ 0 < e * th).
  { destruct (Rlt_le_dec 0 d) as [Pd|Pd].
    - exists (-1). split; [auto|]. apply (G 1); [lra|auto| | |].
      + assert (sin th < 0); [|lra]. apply (Rmult_lt_reg_l d); lra.
      + assert (sin ph <= 0); [|lra]. apply (Rmult_le_reg_l d); lra.
      + assert (sin (th - ph) <= 0); [|lra]. apply (Rmult_le_reg_l d); lra.
    - assert (d < 0) by lra. exists 1. split; [auto|]. apply (G 1); [lra|auto| | |].
      + assert (0 < sin th); [|lra]. apply (Rmult_lt_reg_l (- d)); lra.
      + assert (0 <= sin ph); [|lra]. apply (Rmult_le_reg_l (- d)); lra.
      + assert (0 <= sin (th - ph)); [|lra]. apply (Rmult_le_reg_l (- d)); lra. }
  destruct G' as (e & He & [G1 G2] & G3). assert (Nth : th <> 0) by (intros ->; rewrite Rmult_0_r in G3; lra). assert (Et : ph = ph / th * th) by (field; auto).
  exists (ph / th). split; [|now rewrite <- Et].
  assert (Eq : ph / th = (e * ph) * / (e * th)) by (destruct He as [-> | ->]; field; auto). rewrite Eq. split; [apply Rmult_le_pos; [auto|apply Rlt_le, Rinv_0_lt_compat; auto]|].
  apply (Rmult_le_reg_r (e * th)); [auto|]. rewrite Rmult_assoc, Rinv_l, Rmult_1_r by lra. lra.
Qed.

(** the arc is beyond the end of the first edge and before the start of the second *)
Lemma arc_cone t : 0 <= t <= 1 -> let z := rot b (t * th) (offPt d a b (dist a b)) in dist a b <= along a b z /\ along b c z <= 0.
Proof.
  intros Ht01 z. destruct (arc_coords (t * th)) as (_ & A1 & A2). fold z in A1, A2. rewrite A1, A2. pose proof out_sign as B3. pose proof PI_RGT_0 as Hpi. apply Rabs_def2 in Hth.
  replace (th - t * th) with ((1 - t) * th) by ring.
  assert (G : forall s, 0 <= s <= 1 -> d * sin (s * th) <= 0).
  { intros s Hs. destruct (Rlt_le_dec 0 th) as [P|P].
    - assert (0 < sin th) by (apply sin_gt_0; lra). assert (0 <= sin (s * th)) by (apply sin_ge_0; nra). assert (d < 0) by nra. nra.
    - assert (th <> 0) by (intros E; rewrite E, sin_0 in B3; lra). assert (sin th < 0) by (apply sin_lt_0_var; lra).
      assert (sin (s * th) <= 0). { destruct (Req_dec (s * th) 0) as [->|N]; [rewrite sin_0; lra|]. left. apply sin_lt_0_var; nra. }
      assert (0 < d) by nra. nra. }
  pose proof (G t Ht01). pose proof (G (1 - t) ltac:(lra)). lra.
Qed.
End ArcCorner.

(** ** The whole polyline *)
Definition base (pl : polyline) (j : nat) (l : R) : vec := offPt 0 (pt pl j) (pt pl (S j)) l.
(** z is not within |d| of edge j *)
Definition clearE (pl : polyline) (d : R) (j : nat) (z : vec) : Prop := forall l, 0 <= l <= len pl j -> d * d <= sqd z (base pl j l).

Section Poly.
Variables (pl : polyline) (d : R).
Hypothesis HC : clearRaw pl d.
Notation n := (length (vertexes pl)).
Notation P := (pt pl).
Notation E := (edgePt pl d).

Lemma onPath_base p : onPath pl p <-> exists j l, (j < n)%nat /\ 0 <= l <= len pl j /\ p = base pl j l.
Proof.
  unfold onPath. rewrite (pathSegs_seq pl d HC). pose proof (n3 pl d HC) as H3.
  assert (Eb : forall j t, lerp (P j) (P (S j)) t = base pl j (t * len pl j)).
  { intros j t. unfold base, len. rewrite <- (offPt_lerp 0) by apply (P_ne pl d HC). unfold lerp, shift. apply vec_eq; cbn [vx vy]; rring. }
  assert (Hl : forall j, 0 < len pl j) by (intros j; apply dist_pos', (P_ne pl d HC)). split.
  - intros (v1 & v2 & Hin & Ho). apply in_map_iff in Hin. destruct Hin as (j & Ej & Hj). apply in_seq in Hj. injection Ej as <- <-. apply onSeg_path in Ho. destruct Ho as (t & Ht & ->).
    rewrite segPath_line by apply (V_line pl d HC). change (pos (vert pl j 0)) with (P j). change (pos (vert pl (S j) 0)) with (P (S j)). rewrite Eb. exists j, (t * len pl j). split; [lia|]. split; [|reflexivity].
    specialize (Hl j). split; [apply Rmult_le_pos; lra|]. rewrite <- (Rmult_1_l (len pl j)) at 2. apply Rmult_le_compat_r; lra.
  - intros (j & l & Hj & Hlj & ->). exists (vert pl j 0), (vert pl (S j) 0). split; [apply in_map_iff; exists j; split; [reflexivity|apply in_seq; lia]|]. apply onSeg_path. specialize (Hl j). exists (l / len pl j). split.
    + split; [apply Rmult_le_pos; [lra|apply Rlt_le, Rinv_0_lt_compat; lra]|]. apply (Rmult_le_reg_r (len pl j)); [auto|]. unfold Rdiv. rewrite Rmult_assoc, Rinv_l, Rmult_1_r by lra. lra.
    + rewrite segPath_line by apply (V_line pl d HC). change (pos (vert pl j 0)) with (P j). change (pos (vert pl (S j) 0)) with (P (S j)). rewrite Eb. f_equal. field. lra.
Qed.

Lemma len_p j : 0 < len pl j. Proof. apply dist_pos', (P_ne pl d HC). Qed.
Lemma tn j : turn (P j) (P (S j)) (P (S (S j))) <> 0. Proof. apply (turn_ne pl d HC). Qed.

Lemma len_shift j : len pl (j + n) = len pl j.
Proof. unfold len. change (S (j + n)) with (S j + n)%nat. now rewrite !(P_shift pl d HC). Qed.
Lemma base_shift j l : base pl (j + n) l = base pl j l.
Proof. unfold base. change (S (j + n)) with (S j + n)%nat. now rewrite !(P_shift pl d HC). Qed.
Lemma edge_shift j l : E (j + n)%nat l = E j l.
Proof. unfold edgePt. change (S (j + n)) with (S j + n)%nat. now rewrite !(P_shift pl d HC). Qed.
Lemma clearE_shift j z : clearE pl d (j + n) z <-> clearE pl d j z.
Proof. unfold clearE. rewrite len_shift. split; intros H l Hl; specialize (H l Hl); rewrite base_shift in *; auto. Qed.
Lemma back_shift j : back pl d (j + n) = back pl d j.
Proof. unfold back. change (S (j + n)) with (S j + n)%nat. change (S (S j + n)) with (S (S j) + n)%nat. now rewrite !(P_shift pl d HC). Qed.
Lemma met_shift j : met pl d (j + n) = met pl d j.
Proof. unfold met. change (S (j + n)) with (S j + n)%nat. change (S (S j + n)) with (S (S j) + n)%nat. now rewrite !(P_shift pl d HC). Qed.

(** z keeps its distance from the polyline *)
Definition keepsD (z : vec) : Prop := forall j, clearE pl d j z.

Lemma keepsD_spec z : keepsD z <-> forall p, onPath pl p -> Rabs d <= dist z p.
Proof.
  split.
  - intros H p Hp. apply onPath_base in Hp. destruct Hp as (j & l & Hj & Hl & ->). apply away_sqd. now apply H.
  - intros H. assert (G : forall j, (j < n)%nat -> clearE pl d j z).
    { intros j Hj l Hl. apply away_sqd, H, onPath_base. eauto. }
    intros j. pose proof (n3 pl d HC) as H3. rewrite (Nat.div_mod j n) by lia. induction (j / n)%nat as [|q IH]; [rewrite Nat.mul_0_r; apply G, Nat.mod_upper_bound; lia|].
    replace (n * S q + j mod n)%nat with (n * q + j mod n + n)%nat by lia. now apply clearE_shift.
Qed.

Lemma next_away j y : 0 <= y -> back pl d j <= y -> clearE pl d (S j) (E j (len pl j - y)).
Proof. intros Hy Hb l Hl. unfold edgePt, base, len. rewrite (sq_next d _ _ _ (tn j)). apply (poly_away d _ _ _ (tn j)); auto. apply Hl. Qed.
Lemma prev_away j y : 0 <= y -> back pl d j <= y -> clearE pl d j (E (S j) y).
Proof.
  intros Hy Hb l Hl. unfold edgePt, base. replace l with (dist (P j) (P (S j)) - (len pl j - l)) by (unfold len; ring). rewrite (sq_prev d _ _ _ (tn j)). apply (poly_away d _ _ _ (tn j)); auto. lra.
Qed.
Lemma next_close j y : 0 <= y < back pl d j -> y <= len pl (S j) -> ~ clearE pl d (S j) (E j (len pl j - y)).
Proof.
  intros Hy Hb H. destruct (poly_close d _ _ _ (tn j) y (len pl (S j)) Hy (len_p (S j)) Hb) as (m & Hm & Hq). specialize (H m Hm). unfold edgePt, base, len in H. rewrite (sq_next d _ _ _ (tn j)) in H. lra.
Qed.
Lemma prev_close j y : 0 <= y < back pl d j -> y <= len pl j -> ~ clearE pl d j (E (S j) y).
Proof.
  intros Hy Hb H. destruct (poly_close d _ _ _ (tn j) y (len pl j) Hy (len_p j) Hb) as (m & Hm & Hq). specialize (H (len pl j - m) ltac:(lra)). unfold edgePt, base, len in H. rewrite (sq_prev d _ _ _ (tn j)) in H. lra.
Qed.
Lemma self_away j l : clearE pl d j (E j l).
Proof. intros m Hm. unfold edgePt, base. rewrite sqd_off by apply (P_ne pl d HC). pose proof (sq_nonneg (l - m)). lra. Qed.

Lemma met_true j : met pl d j = true <-> 0 < back pl d j /\ back pl d j <= len pl j /\ back pl d j <= len pl (S j).
Proof.
  unfold met, metb, back, len. rewrite !andb_true_iff, Rltb_spec, !Rleb_spec. tauto.
Qed.
Lemma trim_met j : met pl d j = true -> trimC pl d j = back pl d j.
Proof. intros H. unfold trimC, trim. fold (met pl d j). now rewrite H. Qed.
Lemma trim_unmet j : met pl d j = false -> trimC pl d j = 0.
Proof. intros H. unfold trimC, trim. fold (met pl d j). now rewrite H. Qed.
Lemma trim_bound j : 0 <= trimC pl d j <= len pl j /\ trimC pl d j <= len pl (S j).
Proof.
  destruct (met pl d j) eqn:Em; [rewrite trim_met by auto; apply met_true in Em; lra|]. rewrite trim_unmet by auto. pose proof (len_p j). pose proof (len_p (S j)). lra.
Qed.

(** the corner before edge j *)
Lemma before_prop (Q : nat -> Prop) j : (forall i, Q (i + n)%nat <-> Q i) -> Q (S (before pl j)) <-> Q j.
Proof. intros H. unfold before. pose proof (n3 pl d HC). replace (S (j + (n - 1))) with (j + n)%nat by lia. apply H. Qed.

Lemma before_edge j l : E (S (before pl j)) l = E j l.
Proof. unfold before. pose proof (n3 pl d HC). replace (S (j + (n - 1))) with (j + n)%nat by lia. apply edge_shift. Qed.
Lemma before_len j : len pl (S (before pl j)) = len pl j.
Proof. unfold before. pose proof (n3 pl d HC). replace (S (j + (n - 1))) with (j + n)%nat by lia. apply len_shift. Qed.

(** offset points that are trimmed off do not keep their distance *)
Lemma trimmed_close j l : 0 <= l <= len pl j -> l < trimC pl d (before pl j) \/ len pl j - trimC pl d j < l -> ~ keepsD (E j l).
Proof.
  intros Hl [H|H] K.
  - destruct (met pl d (before pl j)) eqn:Em; [|rewrite trim_unmet in H by auto; lra]. rewrite trim_met in H by auto. apply met_true in Em. apply (prev_close (before pl j) l); [lra|lra|]. rewrite before_edge. apply K.
  - destruct (met pl d j) eqn:Em; [|rewrite trim_unmet in H by auto; lra]. rewrite trim_met in H by auto. apply met_true in Em.
    apply (next_close j (len pl j - l)); [lra|lra|]. replace (len pl j - (len pl j - l)) with l by ring. apply K.
Qed.

(** a straight link never keeps its distance *)
Lemma link_close j t : d <> 0 -> 0 < back pl d j -> 0 <= t <= 1 -> ~ keepsD (lerp (E j (len pl j)) (E (S j) 0) t).
Proof.
  intros Hd Hb Ht K. destruct (Req_dec t 0) as [->|N0]; [|destruct (Req_dec t 1) as [->|N1]].
  - rewrite lerp_0 in K. apply (next_close j 0); [lra|pose proof (len_p (S j)); lra|]. rewrite Rminus_0_r. apply K.
  - rewrite lerp_1 in K. apply (prev_close j 0); [lra|pose proof (len_p j); lra|]. apply K.
  - pose proof (K j (len pl j) ltac:(pose proof (len_p j); lra)) as H. unfold base, len in H. rewrite (corner_pt _ _ _ (tn j)) in H.
    pose proof (corner_unit _ _ _ (tn j)) as U. pose proof (cos_pos _ _ _ (tn j)) as Cp. pose proof (setback_eq d _ _ _ (tn j)) as Es. fold (back pl d j) in Es.
    destruct (sinC_nrm _ _ _ (tn j)) as [_ Ec]. pose proof (nrm_unit _ _ (P_ne pl d HC j)) as U1. pose proof (nrm_unit _ _ (P_ne pl d HC (S j))) as U2.
    assert (Sn : sinC (P j) (P (S j)) (P (S (S j))) <> 0). { intros Z. rewrite Z, Rmult_0_r in Es. pose proof (Rmult_lt_0_compat _ _ Hb Cp). lra. }
    assert (Cn : cosC (P j) (P (S j)) (P (S (S j))) < 1). { set (c := cosC _ _ _) in *. set (s := sinC _ _ _) in *. clearbody c s. pose proof (sumsq_pos s 0 (or_introl Sn)). nra. }
    assert (Eq : sqd (lerp (E j (len pl j)) (E (S j) 0) t) (P (S j)) = d * d * (1 - 2 * t * (1 - t) * (1 - cosC (P j) (P (S j)) (P (S (S j)))))).
    { rewrite Ec. pose proof (f_equal vx (corner_pt _ _ _ (tn j))) as Ex. pose proof (f_equal vy (corner_pt _ _ _ (tn j))) as Ey. unfold sqd, lerp, edgePt, offPt, len in *. cbn [vx vy] in *.
      set (x := nrmX (P j) (P (S j))) in *. set (y := nrmY (P j) (P (S j))) in *. set (u := nrmX (P (S j)) (P (S (S j)))) in *. set (w := nrmY (P (S j)) (P (S (S j)))) in *. set (L := dist (P j) (P (S j))) in *. clearbody x y u w L.
      replace (vx (P j) + L * y + d * x) with (vx (P (S j)) + d * x) by lra. replace (vy (P j) - L * x + d * y) with (vy (P (S j)) + d * y) by lra.
      apply Rminus_diag_uniq. match goal with |- ?g = 0 => replace g with (d * d * (((1 - t) * (1 - t)) * ((x * x + y * y) - 1) + t * t * ((u * u + w * w) - 1))) by ring end. rewrite U1, U2. ring. }
    assert (H' : d * d <= sqd (lerp (E j (len pl j)) (E (S j) 0) t) (P (S j))) by exact H. rewrite Eq in H'.
    assert (0 < d * d) by (pose proof (sumsq_pos d 0 (or_introl Hd)); lra).
    assert (0 < 2 * t * (1 - t) * (1 - cosC (P j) (P (S j)) (P (S (S j))))) by (apply Rmult_lt_0_compat; [apply Rmult_lt_0_compat|]; lra).
    pose proof (Rmult_lt_0_compat _ _ H0 H1). lra.
Qed.
End Poly.
