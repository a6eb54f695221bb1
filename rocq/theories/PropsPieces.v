(** * Pieces of a segment: what cutting it at points on it yields *)
From Coq Require Import ZArith Reals Lra Lia Psatz List Bool Arith Permutation Sorted.
From Coquelicot Require Import Coquelicot.
From Verif Require Import Base Num MathUtils PlineSegment Polyline RGeom Spec PropsMath ArcGeom Polar PropsSegment PropsClosest PropsIntr PropsPlineIntr PropsPolyline PropsWinding PropsRegion.
Import ListNotations.
Open Scope R_scope.

(** ** Specification *)
(** the positions differ by at least 1e-5 in some coordinate: the library tells them apart *)
Definition far (x y : vec) : Prop := 1 / 100000 <= Rabs (vx x - vx y) \/ 1 / 100000 <= Rabs (vy x - vy y).

(** the segment u -> w is the part of the segment v1 -> v2 between the fractions a and b of its path *)
Definition piece (v1 v2 : vertex) (a b : R) (u w : vertex) : Prop := forall s, segPath u w s = segPath v1 v2 (a + s * (b - a)).

(** the arc between two points x, y of an arc segment is long enough not to be treated as a line (bulge at least 1e-5) *)
Definition longArc (v1 v2 : vertex) (x y : vec) : Prop := ~ isLine v1 -> 4 / 100000 * radOf v1 v2 <= dist x y.

(** ** Proofs *)
Lemma far_fuzzy x y : far x y <-> fuzzyEqual x y (1 / 100000) = false.
Proof.
  rewrite <- not_true_iff_false, fuzzyEqual_R. unfold far. split; [intros [H|H] [H1 H2]; lra|].
  intros H. destruct (Rle_lt_dec (1 / 100000) (Rabs (vx x - vx y))) as [L|L]; [auto|]. right. apply Rnot_lt_le. tauto.
Qed.

Lemma far_sym x y : far x y -> far y x.
Proof. unfold far. rewrite (Rabs_minus_sym (vx y)), (Rabs_minus_sym (vy y)). auto. Qed.

Lemma far_ne x y : far x y -> x <> y.
Proof. intros [H|H] ->; rewrite Rminus_eq_0, Rabs_R0 in H; lra. Qed.

Lemma segPath_0 v1 v2 : segPath v1 v2 0 = pos v1.
Proof. unfold segPath. destruct (Rlt_dec _ _); [apply lerp_0|]. now rewrite Rmult_0_l, rot_0. Qed.

Lemma segPath_1 v1 v2 : segPath v1 v2 1 = pos v2.
Proof.
  unfold segPath. destruct (Rlt_dec _ _) as [L|L]; [apply lerp_1|]. rewrite Rmult_1_l. apply (ctr_spec (pos v1) (pos v2)). now apply notLine_ne.
Qed.

Lemma segPath_end v1 v2 v3 s : pos v2 = pos v3 -> segPath v1 v2 s = segPath v1 v3 s.
Proof. intros E. unfold segPath. now rewrite E. Qed.

Lemma piece_comp v1 v2 a b u w s t x y : piece v1 v2 a b u w -> piece u w s t x y -> piece v1 v2 (a + s * (b - a)) (a + t * (b - a)) x y.
Proof. intros H1 H2 r. rewrite (H2 r), (H1 (s + r * (t - s))). f_equal. ring. Qed.

Lemma piece_start v1 v2 a b u w : piece v1 v2 a b u w -> pos u = segPath v1 v2 a.
Proof. intros H. rewrite <- (segPath_0 u w), (H 0). f_equal. ring. Qed.

Lemma piece_end v1 v2 a b u w : piece v1 v2 a b u w -> pos w = segPath v1 v2 b.
Proof. intros H. rewrite <- (segPath_1 u w), (H 1). f_equal. ring. Qed.

Lemma piece_whole v1 v2 w : pos w = pos v2 -> piece v1 v2 0 1 v1 w.
Proof. intros E s. rewrite (segPath_end v1 w v2) by auto. f_equal. ring. Qed.

Lemma piece_on v1 v2 a b u w q : piece v1 v2 a b u w -> 0 <= a <= 1 -> 0 <= b <= 1 -> onSeg u w q -> onSeg v1 v2 q.
Proof.
  intros H Ha Hb O. apply onSeg_path in O. destruct O as (t & Ht & ->). rewrite (H t). apply onSeg_path. exists (a + t * (b - a)). split; [|reflexivity].
  split; nra.
Qed.

Lemma segPath_line v1 v2 t : isLine v1 -> segPath v1 v2 t = lerp (pos v1) (pos v2) t.
Proof. intros H. unfold segPath. destruct (Rlt_dec _ _); [reflexivity|contradiction]. Qed.
Lemma segPath_arc v1 v2 t : ~ isLine v1 -> segPath v1 v2 t = rot (ctrOf v1 v2) (t * sweep (bulge v1)) (pos v1).
Proof. intros H. unfold segPath. destruct (Rlt_dec _ _); [contradiction|reflexivity]. Qed.

(** the chord of a circular arc *)
Lemma chord_rot c a p : dist p (rot c a p) = 2 * dist c p * Rabs (sin (a / 2)).
Proof.
  assert (E : (vx p - vx (rot c a p)) ^ 2 + (vy p - vy (rot c a p)) ^ 2 = Rsqr (2 * sin (a / 2)) * ((vx c - vx p) ^ 2 + (vy c - vy p) ^ 2)).
  { pose proof (sin2_cos2 a) as H. unfold Rsqr in *. replace (2 * sin (a / 2) * (2 * sin (a / 2))) with (2 - 2 * cos a).
    - unfold rot. cbn [vx vy]. transitivity (((1 - cos a) * (1 - cos a) + sin a * sin a) * ((vx c - vx p) ^ 2 + (vy c - vy p) ^ 2)); [ring|].
      replace (sin a * sin a) with (1 - cos a * cos a) by lra. ring.
    - replace (cos a) with (cos (2 * (a / 2))) by (f_equal; field). rewrite cos_2a_sin. ring. }
  unfold dist at 1. rewrite E, sqrt_mult_alt by apply Rle_0_sqr. rewrite sqrt_Rsqr_abs, Rabs_mult, (Rabs_right 2) by lra. fold (dist c p). ring.
Qed.

Lemma sin_le_abs x : Rabs (sin x) <= Rabs x.
Proof.
  destruct (Rle_lt_dec 0 x) as [H|H].
  - rewrite (Rabs_right x) by lra. destruct (Req_dec x 0) as [->|N]; [rewrite sin_0, Rabs_R0; lra|]. apply Rabs_le.
    pose proof (sin_lt_x x ltac:(lra)) as L. split; [|lra]. destruct (Rle_lt_dec x PI) as [L2|L2]; [pose proof (sin_ge_0 x H L2); lra|]. pose proof (SIN_bound x). pose proof PI2_3_2 as P. unfold PI2 in P. lra.
  - rewrite (Rabs_left x) by lra. rewrite <- (Rabs_Ropp (sin x)), <- sin_neg. assert (0 < - x) as H' by lra. apply Rabs_le. pose proof (sin_lt_x (- x) H') as L.
    split; [|lra]. destruct (Rle_lt_dec (- x) PI) as [L2|L2]; [pose proof (sin_ge_0 (- x) ltac:(lra) L2); lra|]. pose proof (SIN_bound (- x)). pose proof PI2_3_2 as P. unfold PI2 in P. lra.
Qed.

Lemma atan_le_abs x : Rabs (atan x) <= Rabs x.
Proof.
  assert (P : forall y, 0 <= y -> atan y <= y).
  { intros y Hy. apply Rnot_lt_le. intros L. destruct (MVT_cor2 atan (fun u => / (1 + u ^ 2)) 0 y) as (c & E & Hc).
    - destruct (Req_dec y 0) as [->|]; [rewrite atan_0 in L; lra|lra].
    - intros c _. apply derivable_pt_lim_atan.
    - rewrite atan_0, !Rminus_0_r in E. assert (/ (1 + c ^ 2) <= 1). { rewrite <- Rinv_1. apply Rinv_le_contravar; nra. } nra. }
  destruct (Rle_lt_dec 0 x) as [H|H].
  - rewrite (Rabs_right x) by lra. rewrite Rabs_right; [auto|]. destruct (Req_dec x 0) as [->|]; [rewrite atan_0; lra|]. apply Rle_ge, Rlt_le, atan_pos. lra.
  - rewrite (Rabs_left x) by lra. pose proof (atan_neg x H). rewrite Rabs_left by auto. rewrite <- atan_opp. apply P. lra.
Qed.

(** distance from the start grows along a segment of at most a half circle *)
Lemma start_dist_mono v1 v2 s t : Rabs (bulge v1) <= 1 -> pos v1 <> pos v2 -> 0 <= s -> s < t -> t <= 1 ->
  dist (pos v1) (segPath v1 v2 s) < dist (pos v1) (segPath v1 v2 t).
Proof.
  intros Hb Hne Hs Hst Ht. destruct (Rlt_dec (Rabs (bulge v1)) (1 / 100000)) as [Hl|Hl].
  - rewrite !segPath_line by exact Hl. assert (E : forall u, 0 <= u -> dist (pos v1) (lerp (pos v1) (pos v2) u) = u * dist (pos v1) (pos v2)).
    { intros u Hu. unfold dist, lerp. cbn [vx vy]. rewrite <- (sqrt_square u) at 3 by auto. rewrite <- sqrt_mult_alt by nra. f_equal. ring. }
    rewrite !E by lra. apply Rmult_lt_compat_r; [now apply dist_pos|auto].
  - assert (Ha : ~ isLine v1) by exact Hl. rewrite !segPath_arc by auto. rewrite !chord_rot. pose proof (notLine_ne _ Ha) as Nb.
    pose proof (ctr_ne (pos v1) (pos v2) _ Nb Hne) as Nc. assert (0 < dist (ctrOf v1 v2) (pos v1)) as Hr by (apply dist_pos; intros E; apply Nc; symmetry; exact E).
    pose proof (okArc_sweep v1 v2 ltac:(split; auto)) as Hth. set (th := sweep (bulge v1)) in *.
    assert (As : forall u, 0 <= u <= 1 -> Rabs (sin (u * th / 2)) = sin (u * Rabs th / 2)).
    { intros u Hu. assert (0 <= sin (u * Rabs th / 2)). { apply sin_ge_0; [nra|]. pose proof PI_RGT_0. nra. }
      destruct (Rle_lt_dec 0 th) as [H1|H1].
      - rewrite (Rabs_right th) in * by lra. now rewrite Rabs_right by lra.
      - rewrite (Rabs_left th) in * by lra. replace (u * - th / 2) with (- (u * th / 2)) in * by field. rewrite sin_neg in *. now rewrite Rabs_left1 by lra. }
    rewrite !As by lra. apply Rmult_lt_compat_l; [lra|]. pose proof PI_RGT_0. apply sin_increasing_1; nra.
Qed.

Lemma start_dist_le v1 v2 s t : Rabs (bulge v1) <= 1 -> pos v1 <> pos v2 -> 0 <= s <= 1 -> 0 <= t <= 1 ->
  dist (pos v1) (segPath v1 v2 s) <= dist (pos v1) (segPath v1 v2 t) -> s <= t.
Proof. intros Hb Hne Hs Ht H. apply Rnot_lt_le. intros L. pose proof (start_dist_mono v1 v2 t s Hb Hne ltac:(lra) L ltac:(lra)). lra. Qed.

Lemma segPath_inj v1 v2 s t : Rabs (bulge v1) <= 1 -> pos v1 <> pos v2 -> 0 <= s <= 1 -> 0 <= t <= 1 -> segPath v1 v2 s = segPath v1 v2 t -> s = t.
Proof. intros Hb Hne Hs Ht E. apply Rle_antisym; apply (start_dist_le v1 v2); auto; rewrite E; lra. Qed.

(** a long enough sub-arc has a bulge above the arc threshold *)
Lemma longArc_bulge r th b t : 0 < r -> 4 / 100000 * r <= 2 * r * Rabs (sin (t * th / 2)) -> sweep b = t * th -> 1 / 100000 <= Rabs b.
Proof.
  intros Hr H E. pose proof (sin_le_abs (t * th / 2)) as S. assert (4 / 100000 <= Rabs (t * th)) as H1.
  { replace (t * th / 2) with (t * th * / 2) in S by field. rewrite (Rabs_mult (t * th)), (Rabs_right (/ 2)) in S by lra. nra. }
  rewrite <- E in H1. unfold sweep in H1. rewrite Rabs_mult, (Rabs_right 4) in H1 by lra. pose proof (atan_le_abs b). lra.
Qed.

Lemma sweep_small b : Rabs (sweep b) <= PI -> Rabs b <= 1.
Proof.
  intros H. unfold sweep in H. rewrite Rabs_mult, (Rabs_right 4) in H by lra.
  assert (A : Rabs (atan b) = atan (Rabs b)). { destruct (Rle_lt_dec 0 b) as [L|L]; [rewrite (Rabs_right b) by lra; destruct (Req_dec b 0) as [->|]; [rewrite atan_0, Rabs_R0; auto|]; apply Rabs_right, Rle_ge, Rlt_le, atan_pos; lra|rewrite (Rabs_left b), atan_opp by lra; apply Rabs_left, atan_neg; auto]. }
  rewrite A in H. apply Rnot_lt_le. intros L. apply atan_increasing in L. rewrite atan_1' in L. lra.
Qed.

(** cutting a segment at one of its points *)
Lemma split_piece v1 v2 t : Rabs (bulge v1) <= 1 -> far (pos v1) (pos v2) -> 0 <= t <= 1 ->
  let p := segPath v1 v2 t in
  (pos v1 = p \/ (far (pos v1) p /\ longArc v1 v2 (pos v1) p)) -> far p (pos v2) -> longArc v1 v2 p (pos v2) ->
  let r := splitAtPoint v1 v2 p in let u := updatedStart r in let w := splitVertex r in
  pos u = pos v1 /\ pos w = p /\ piece v1 v2 0 t u w /\ piece v1 v2 t 1 w v2 /\ Rabs (bulge u) <= 1 /\ Rabs (bulge w) <= 1 /\
  (isLine w <-> isLine v1) /\ (~ isLine v1 -> radOf w v2 = radOf v1 v2) /\ (far (pos v1) p -> isLine u <-> isLine v1).
Proof.
  intros Hb Hf Ht p Hp1 Hp2 Hl2 r u w. pose proof (far_ne _ _ Hf) as Hne.
  assert (Hseg : segPoint v1 v2 t p) by apply segPath_ok.
  assert (Z : isLine (mkVtx p t0)) by (unfold isLine; cbn [bulge]; rewrite t0_R, Rabs_R0; lra).
  assert (Pc : forall a b u w, (forall s q, segPoint v1 v2 (a + s * (b - a)) q <-> segPoint u w s q) -> piece v1 v2 a b u w).
  { intros a b u0 w0 H s. symmetry. apply segPath_unique, H, segPath_ok. }
  destruct (Rlt_dec (Rabs (bulge v1)) (1 / 100000)) as [Hl|Hl].
  - destruct (C13_split_line v1 v2 t p Hl Hseg) as (E1 & E2 & T1 & T2). fold r u w in E1, E2, T1, T2.
    assert (Eu : u = v1) by (unfold u, r, splitAtPoint; rewrite (proj2 (bulgeIsZero_R v1) Hl); reflexivity).
    assert (Ew : w = mkVtx p t0) by (unfold w, r, splitAtPoint; rewrite (proj2 (bulgeIsZero_R v1) Hl); reflexivity).
    split; [auto|]. split; [auto|]. split; [|split; [|split; [|split; [|split; [|split]]]]].
    + apply Pc. intros s q. rewrite <- T1. replace (0 + s * (t - 0)) with (s * t) by ring. tauto.
    + apply Pc. intros s q. rewrite <- T2. tauto.
    + rewrite Eu. auto.
    + rewrite Ew. cbn [bulge]. rewrite t0_R, Rabs_R0. lra.
    + rewrite Ew. split; auto.
    + intros N. contradiction.
    + intros _. rewrite Eu. tauto.
  - assert (Ha : ~ isLine v1) by exact Hl. pose proof (notLine_ne _ Ha) as Nb. specialize (Hl2 Ha).
    apply far_fuzzy in Hf as Ff. apply far_sym, far_fuzzy in Hp2 as Ff2.
    destruct Hp1 as [E|[F1 L1]].
    + assert (t = 0). { apply (segPath_inj v1 v2); auto; [lra|]. fold p. rewrite segPath_0. auto. } subst t.
      assert (F1 : fuzzyEqual (pos v1) p (1 / 100000) = true). { apply fuzzyEqual_R. rewrite <- E, !Rminus_eq_0, Rabs_R0. lra. }
      destruct (C13_split_arc_at_start v1 v2 p Ha F1) as (E1 & E2 & E3 & T1 & T2). fold r u w in E1, E2, E3, T1, T2.
      assert (Ew : w = v1). { clear - E E2 E3. clearbody w. destruct w as [pw bw], v1 as [pv bv]. cbn [pos bulge] in *. congruence. }
      assert (Eu : u = mkVtx p t0). { unfold u, r, splitAtPoint. rewrite (proj2 (bulgeIsZero_false v1) Ha), !prec_R. rewrite F1, orb_true_r. reflexivity. }
      split; [congruence|]. split; [auto|]. split; [|split; [|split; [|split; [|split; [|split]]]]].
      * intros s. replace (0 + s * (0 - 0)) with 0 by ring. fold p. apply (T1 s), segPath_ok.
      * rewrite Ew. intros s. f_equal. ring.
      * rewrite Eu. cbn [bulge]. rewrite t0_R, Rabs_R0. lra.
      * rewrite Ew. auto.
      * rewrite Ew. tauto.
      * rewrite Ew. auto.
      * intros F. apply far_ne in F. congruence.
    + apply far_fuzzy in F1 as Ff1. specialize (L1 Ha).
      destruct (C13_split_arc v1 v2 t p Ha Hb Ht Hseg Ff Ff1 Ff2) as (E1 & E2 & Ht' & S1 & S2 & C1 & C2 & R1 & R2 & T). fold r u w in E1, E2, S1, S2, C1, C2, R1, R2, T.
      pose proof (ctr_ne (pos v1) (pos v2) _ Nb Hne) as Nc. assert (0 < radOf v1 v2) as Hr by (apply dist_pos; intros E; apply Nc; symmetry; exact E).
      pose proof (okArc_sweep v1 v2 ltac:(split; auto)) as Hth. set (th := sweep (bulge v1)) in *.
      assert (Ep : p = rot (ctrOf v1 v2) (t * th) (pos v1)) by (apply segPath_arc; auto).
      assert (Ev2 : pos v2 = rot (ctrOf v1 v2) ((1 - t) * th) p).
      { rewrite Ep, rot_rot. rewrite <- (segPath_1 v1 v2), segPath_arc by auto. f_equal. fold th. ring. }
      assert (Bu : 1 / 100000 <= Rabs (bulge u)). { apply (longArc_bulge (radOf v1 v2) th _ t Hr); [|auto]. rewrite Ep, chord_rot in L1. exact L1. }
      assert (Bw : 1 / 100000 <= Rabs (bulge w)). { apply (longArc_bulge (radOf v1 v2) th _ (1 - t) Hr); [|auto]. rewrite Ev2, chord_rot in Hl2. assert (Dp : dist (ctrOf v1 v2) p = radOf v1 v2) by (rewrite Ep; apply dist_rot). rewrite Dp in Hl2. exact Hl2. }
      assert (NLu : ~ isLine u) by (unfold isLine; lra). assert (NLw : ~ isLine w) by (unfold isLine; lra). destruct (T NLu NLw) as [T1 T2].
      split; [auto|]. split; [auto|]. split; [|split; [|split; [|split; [|split; [|split]]]]].
      * apply Pc. intros s q. rewrite <- T1. replace (0 + s * (t - 0)) with (s * t) by ring. tauto.
      * apply Pc. intros s q. rewrite <- T2. tauto.
      * apply sweep_small. rewrite S1, Rabs_mult, (Rabs_right t) by lra. nra.
      * apply sweep_small. rewrite S2, Rabs_mult, (Rabs_right (1 - t)) by lra. nra.
      * tauto.
      * intros _. assert (Nwp : pos w <> pos v2) by (rewrite E2; intros EE; apply (far_ne _ _ Hp2); auto). pose proof (notLine_ne _ NLw) as Nbw.
        unfold radOf, ctrOf. rewrite (dist_ctr w v2 Nbw Nwp), (dist_ctr v1 v2 Nb Hne). auto.
      * tauto.
Qed.
