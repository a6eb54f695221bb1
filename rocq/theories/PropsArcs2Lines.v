(** * C28: convertArcsToLines *)
From Coq Require Import ZArith Reals Lra Lia List Bool Arith Permutation.
From Verif Require Import Base Num MathUtils PlineSegment SpatialIndex Polyline RGeom Spec PropsMath ArcGeom Polar PropsSegment PropsClosest PropsIntr PropsPlineIntr PropsPolyline PropsExtents PropsPlineClosest.
Import ListNotations.
Open Scope R_scope.

(** ** Sagitta: an arc and its chord are within r (1 - cos (half angle)) of each other *)
Lemma rot_mid c al h s p0 : rot c (al - s * h) p0 = rot c (- (s * h)) (rot c al p0) /\ rot c (al + s * h) p0 = rot c (s * h) (rot c al p0).
Proof. rewrite !rot_rot. split; f_equal; ring. Qed.

Lemma sagitta_dist c m r h psi s k : dist c m = r -> (s = 1 \/ s = -1) -> 0 < h <= PI / 2 -> - h <= psi <= h -> sin psi = k * sin h ->
  dist (lerp (rot c (- (s * h)) m) (rot c (s * h) m) ((1 + k) / 2)) (rot c (s * psi) m) <= r * (1 - cos h).
Proof.
  intros Hr Hs Hh Hp Hk. pose proof (dist_nonneg c m) as N. rewrite Hr in N. pose proof PI_RGT_0.
  assert (Hc : cos h <= cos psi).
  { destruct (Rle_dec 0 psi); [apply cos_decr_1; lra|]. rewrite <- (cos_neg psi). apply cos_decr_1; lra. }
  pose proof (COS_bound psi) as B.
  assert (E2 : r * r = (vx c - vx m) * (vx c - vx m) + (vy c - vy m) * (vy c - vy m)) by (rewrite <- Hr; apply dist_sq).
  assert (Sp : sin (s * psi) = s * sin psi) by (destruct Hs as [-> | ->]; [rewrite !Rmult_1_l; auto|replace (-1 * psi) with (- psi) by ring; rewrite sin_neg; ring]).
  assert (Cp : cos (s * psi) = cos psi) by (destruct Hs as [-> | ->]; [rewrite !Rmult_1_l; auto|replace (-1 * psi) with (- psi) by ring; rewrite cos_neg; ring]).
  assert (Sh : sin (s * h) = s * sin h) by (destruct Hs as [-> | ->]; [rewrite !Rmult_1_l; auto|replace (-1 * h) with (- h) by ring; rewrite sin_neg; ring]).
  assert (Ch : cos (s * h) = cos h) by (destruct Hs as [-> | ->]; [rewrite !Rmult_1_l; auto|replace (-1 * h) with (- h) by ring; rewrite cos_neg; ring]).
  apply dist_le_num; [apply Rmult_le_pos; lra|]. rewrite dist_sq. unfold lerp, rot. cbn [vx vy].
  rewrite !cos_neg, !sin_neg, Sp, Cp, Sh, Ch, Hk.
  match goal with |- ?L <= _ => replace L with ((r * (cos psi - cos h)) * (r * (cos psi - cos h))) end.
  - assert (0 <= r * (cos psi - cos h) <= r * (1 - cos h)). { split; [apply Rmult_le_pos; lra|apply Rmult_le_compat_l; lra]. }
    apply Rmult_le_compat; lra.
  - transitivity ((r * r) * ((cos psi - cos h) * (cos psi - cos h))); [ring|]. rewrite E2. field.
Qed.

Lemma chord_near_arc c m r h s t : dist c m = r -> (s = 1 \/ s = -1) -> 0 < h <= PI / 2 -> 0 <= t <= 1 ->
  exists psi, - h <= psi <= h /\ dist (lerp (rot c (- (s * h)) m) (rot c (s * h) m) t) (rot c (s * psi) m) <= r * (1 - cos h).
Proof.
  intros Hr Hs Hh Ht. pose proof PI_RGT_0. pose proof (sin_gt_0 h ltac:(lra) ltac:(lra)) as Sp. pose proof (SIN_bound h) as SB.
  set (k := 2 * t - 1). assert (Hk : -1 <= k <= 1) by (unfold k; lra).
  assert (B : - sin h <= k * sin h <= sin h) by nra.
  exists (asin (k * sin h)). pose proof (asin_bound (k * sin h)) as AB.
  assert (Es : sin (asin (k * sin h)) = k * sin h) by (apply sin_asin; lra).
  assert (- h <= asin (k * sin h) <= h).
  { split.
    - apply Rnot_lt_le. intros L. assert (sin (asin (k * sin h)) < sin (- h)) by (apply sin_increasing_1; lra). rewrite sin_neg in *. lra.
    - apply Rnot_lt_le. intros L. assert (sin h < sin (asin (k * sin h))) by (apply sin_increasing_1; lra). lra. }
  split; [auto|]. replace t with ((1 + k) / 2) by (unfold k; field). apply sagitta_dist; auto.
Qed.

Lemma arc_near_chord c m r h s psi : dist c m = r -> (s = 1 \/ s = -1) -> 0 < h <= PI / 2 -> - h <= psi <= h ->
  exists t, 0 <= t <= 1 /\ dist (lerp (rot c (- (s * h)) m) (rot c (s * h) m) t) (rot c (s * psi) m) <= r * (1 - cos h).
Proof.
  intros Hr Hs Hh Hp. pose proof PI_RGT_0. pose proof (sin_gt_0 h ltac:(lra) ltac:(lra)) as Sp.
  assert (B : - sin h <= sin psi <= sin h).
  { split; [rewrite <- sin_neg|]; apply sin_incr_1; lra. }
  set (k := sin psi / sin h). assert (Ek : sin psi = k * sin h) by (unfold k; field; lra).
  assert (Hk : -1 <= k <= 1) by nra.
  exists ((1 + k) / 2). split; [lra|]. apply sagitta_dist; auto.
Qed.

(** ** The subdivision of one arc *)
Lemma acos_pos x : 0 < x < 1 -> 0 < acos (1 - x) < PI / 2 /\ cos (acos (1 - x)) = 1 - x /\ x <= acos (1 - x).
Proof.
  intros Hx. pose proof PI_RGT_0. pose proof PI2_1. pose proof (acos_bound (1 - x)) as B.
  assert (E : cos (acos (1 - x)) = 1 - x) by (apply cos_acos; lra).
  split; [|split; [auto|]].
  - split.
    + apply Rnot_le_lt. intros L. replace (acos (1 - x)) with 0 in E by lra. rewrite cos_0 in E. lra.
    + apply Rnot_le_lt. intros L. assert (cos (acos (1 - x)) <= cos (PI / 2)) by (apply cos_decr_1; lra). rewrite cos_PI2 in *. lra.
  - apply Rnot_lt_le. intros L. assert (cos x < cos (acos (1 - x))) by (apply cos_decreasing_1; lra).
    pose proof (cos_near x ltac:(lra)). lra.
Qed.

Lemma Zceil_bounds x : x <= IZR (Zceil x) < x + 1.
Proof. unfold Zceil. rewrite opp_IZR. pose proof (base_Int_part (- x)). lra. Qed.

(** [chunk] subdivides the arc v1->v2: its vertices are points of the arc at equal steps (the first is the start) with no bulge, every
    chord is within [error] of the arc, and the part of the arc it replaces is within [error] of the chord *)
Definition arcPieces (error : R) (v1 v2 : vertex) (chunk : list vertex) : Prop :=
  let n := length chunk in
  (1 <= n)%nat /\
  (forall k w, nth_error chunk k = Some w -> bulge w = 0 /\ segPoint v1 v2 (INR k / INR n) (pos w)) /\
  (forall k a b, (k < n)%nat -> segPoint v1 v2 (INR k / INR n) a -> segPoint v1 v2 (INR (k + 1) / INR n) b ->
     (forall t, 0 <= t <= 1 -> exists q, onSeg v1 v2 q /\ dist (lerp a b t) q <= error) /\
     (forall u q, INR k / INR n <= u <= INR (k + 1) / INR n -> segPoint v1 v2 u q ->
        exists t, 0 <= t <= 1 /\ dist (lerp a b t) q <= error)).

Lemma nth_error_seq a n k x : nth_error (seq a n) k = Some x -> x = (a + k)%nat /\ (k < n)%nat.
Proof.
  revert a k. induction n as [|n IH]; intros a [|k] H; cbn [seq nth_error] in H; try discriminate.
  - injection H as <-. lia.
  - apply IH in H. lia.
Qed.

Lemma chunk_spec v1 v2 error n : okArc v1 v2 -> (1 <= n)%nat ->
  radius (arcRadiusAndCenter v1 v2) * (1 - cos (Rabs (sweep (bulge v1)) / (2 * INR n))) <= error ->
  arcPieces error v1 v2 (mkVertex (px v1) (py v1) 0 :: arcPoints (arcRadiusAndCenter v1 v2) (angle (center (arcRadiusAndCenter v1 v2)) (pos v1))
     (sgn (bulge v1) * (Rabs (sweep (bulge v1)) / INR n)) n).
Proof.
  intros Hok Hn Herr. pose proof (okArc_sweep _ _ Hok) as HT. pose proof Hok as (Hl & Hb1 & Hne). pose proof (notLine_ne _ Hl) as Hb.
  pose proof (center_R v1 v2 Hb Hne) as Ec. pose proof (ctr_ne (pos v1) (pos v2) _ Hb Hne) as Nc.
  pose proof (sgn_sweep _ Hb) as Es. pose proof (sgn_sq (bulge v1)) as Ss.
  destruct (C12_arc_centre_radius v1 v2 Hb Hne) as (_ & Hd & _). cbv zeta in Hd. rewrite Ec in Hd.
  pose proof (radius_pos v1 v2 Hb Hne) as Hr.
  set (r := radius (arcRadiusAndCenter v1 v2)) in *. rewrite Ec.
  set (c := ctr (pos v1) (pos v2) (bulge v1)) in *. set (s := sgn (bulge v1)) in *. set (D := Rabs (sweep (bulge v1))) in *.
  assert (Sgn : s = 1 \/ s = -1) by (assert (Q : (s - 1) * (s + 1) = 0) by lra; apply Rmult_integral in Q; destruct Q; [left|right]; lra).
  assert (Pn : 0 < INR n) by (apply lt_0_INR; lia).
  assert (SP : forall t q, segPoint v1 v2 t q <-> q = rot c (t * (s * D)) (pos v1)).
  { intros t q. rewrite <- Es. apply (segPoint_arc v1 v2 t q Hl). }
  assert (Len : length (mkVertex (px v1) (py v1) 0 :: arcPoints (arcRadiusAndCenter v1 v2) (angle c (pos v1)) (s * (D / INR n)) n) = n).
  { cbn [length]. unfold arcPoints. rewrite map_length, seq_length. lia. }
  clearbody c. unfold arcPieces. rewrite Len. split; [auto|]. split.
  - intros [|k] w Hw; cbn [nth_error] in Hw.
    + injection Hw as <-. split; [reflexivity|]. apply SP. cbn [INR]. replace (0 / INR n * (s * D)) with 0 by (field; lra). rewrite rot_0.
      unfold mkVertex, px, py. cbn [pos]. now destruct (pos v1).
    + unfold arcPoints in Hw. rewrite nth_error_map in Hw. destruct (nth_error (seq 1 (n - 1)) k) as [i|] eqn:Ei; [|discriminate].
      cbn [option_map] in Hw. injection Hw as <-. apply nth_error_seq in Ei. destruct Ei as [-> Hk].
      split; [cbn; field|]. apply SP. unfold mkVertex. cbn [pos].
      replace (INR (S k) / INR n * (s * D)) with (INR (1 + k) * (s * (D / INR n))).
      2:{ replace (1 + k)%nat with (S k) by lia. field. lra. }
      rewrite <- (pointOnCircle_rot c _ (pos v1) Nc). unfold pointOnCircle. 
      cbn [tadd tmul tcos tsin ROps tofnat]. rewrite Hd, Ec, (Rplus_comm (angle c (pos v1))). fold r.
      unfold angle. apply vec_eq; rcbn; lra.
  - intros k a b Hk Ha Hb'. apply SP in Ha, Hb'.
    set (h := D / (2 * INR n)) in *.
    assert (Hn1 : 1 <= INR n) by (apply (le_INR 1); lia).
    assert (Hh : 0 < h <= PI / 2).
    { unfold h. split; [apply Rdiv_lt_0_compat; lra|]. apply Rmult_le_reg_r with (2 * INR n); [lra|]. replace (D / (2 * INR n) * (2 * INR n)) with D by (field; lra).
      apply Rle_trans with PI; [lra|]. replace PI with (PI / 2 * (2 * 1)) at 1 by field. apply Rmult_le_compat_l; lra. }
    set (al := (INR k / INR n) * (s * D) + s * h).
    set (m := rot c al (pos v1)).
    assert (Ea : a = rot c (- (s * h)) m). { unfold m. rewrite rot_rot, Ha. f_equal. unfold al. ring. }
    assert (Eb : b = rot c (s * h) m). { unfold m. rewrite rot_rot, Hb'. f_equal. unfold al, h. rewrite plus_INR. cbn [INR]. field. lra. }
    assert (Dm : dist c m = r). { unfold m. now rewrite dist_rot. }
    assert (Ek : INR (k + 1) = INR k + 1) by (rewrite plus_INR; reflexivity).
    assert (Hkn : 0 <= INR k /\ INR k + 1 <= INR n). { split; [apply pos_INR|]. rewrite <- Ek. apply le_INR. lia. }
    split.
    + intros t Ht. destruct (chord_near_arc c m r h s t Dm Sgn Hh Ht) as (psi & Hp & Hdist). rewrite <- Ea, <- Eb in Hdist.
      exists (rot c (s * psi) m). split; [|lra].
      set (w := (psi + h) / (2 * h)). assert (Hw : 0 <= w <= 1).
      { unfold w. split; [apply Rmult_le_pos; [lra|left; apply Rinv_0_lt_compat; lra]|].
        apply Rmult_le_reg_r with (2 * h); [lra|]. replace ((psi + h) / (2 * h) * (2 * h)) with (psi + h) by (field; lra). lra. }
      exists ((INR k + w) / INR n). split.
      * split; [apply Rmult_le_pos; [lra|left; now apply Rinv_0_lt_compat]|].
        apply Rmult_le_reg_r with (INR n); [lra|]. replace ((INR k + w) / INR n * INR n) with (INR k + w) by (field; lra). lra.
      * apply SP. unfold m. rewrite rot_rot. f_equal. unfold al.
        assert (E1 : psi = (2 * w - 1) * h) by (unfold w; field; lra). rewrite E1. unfold h. field. lra.
    + intros u q Hu Hq. apply SP in Hq.
      set (psi := (2 * (u * INR n - INR k) - 1) * h).
      assert (Hu' : 0 <= u * INR n - INR k <= 1).
      { rewrite Ek in Hu. destruct Hu as [U1 U2]. apply (Rmult_le_compat_r (INR n)) in U1; [|lra]. apply (Rmult_le_compat_r (INR n)) in U2; [|lra].
        replace (INR k / INR n * INR n) with (INR k) in U1 by (field; lra).
        replace ((INR k + 1) / INR n * INR n) with (INR k + 1) in U2 by (field; lra). lra. }
      assert (Hp : - h <= psi <= h) by (unfold psi; nra).
      assert (Eq : q = rot c (s * psi) m).
      { rewrite Hq. unfold m. rewrite rot_rot. f_equal. unfold psi, al, h. field. lra. }
      destruct (arc_near_chord c m r h s psi Dm Sgn Hh Hp) as (t & Ht & Hdist). rewrite <- Ea, <- Eb, <- Eq in Hdist.
      exists t. split; [auto|lra].
Qed.

Definition goodChunk (error : R) (v1 v2 : vertex) (chunk : list vertex) : Prop :=
  (isLine v1 /\ chunk = [v1]) \/
  (okArc v1 v2 /\ radius (arcRadiusAndCenter v1 v2) < error + 1 / 100000000 /\ chunk = [v1]) \/
  (okArc v1 v2 /\ error + 1 / 100000000 <= radius (arcRadiusAndCenter v1 v2) /\ arcPieces error v1 v2 chunk).

Lemma dAngle_R v1 v2 : okArc v1 v2 ->
  let arc := arcRadiusAndCenter v1 v2 in
  Rabs (deltaAngle (angle (center arc) (pos v1)) (angle (center arc) (pos v2))) = Rabs (sweep (bulge v1)).
Proof.
  intros (Hl & Hb1 & Hne) arc. pose proof (notLine_ne _ Hl) as Hb. pose proof PI_RGT_0.
  assert (Ec : center arc = ctr (pos v1) (pos v2) (bulge v1)) by (now apply center_R).
  pose proof (ctr_spec (pos v1) (pos v2) _ Hb) as Hc. unfold arcCentre in Hc. rewrite <- Ec in Hc.
  pose proof (ctr_ne (pos v1) (pos v2) _ Hb Hne) as Nc. rewrite <- Ec in Nc.
  pose proof (sweep_le_pi _ Hb1) as Hs. clear Ec. clearbody arc.
  destruct (Req_dec (sweep (bulge v1)) (- PI)) as [E|E].
  - assert (Ed : deltaAngle (angle (center arc) (pos v1)) (angle (center arc) (pos v2)) = PI).
    { rewrite <- Hc. apply (congruent_unique' _ _ (- PI)).
      - apply congruent_sym. eapply congruent_trans; [|apply delta_rot; auto]. rewrite E. exists (-1)%Z. simpl. lra.
      - destruct (C09_deltaAngle (angle (center arc) (pos v1)) (angle (center arc) (rot (center arc) (sweep (bulge v1)) (pos v1)))) as [B _]. lra.
      - lra. }
    rewrite Ed, E. now rewrite Rabs_Ropp.
  - rewrite <- Hc. f_equal. apply delta_rot_eq; auto. lra.
Qed.

Lemma convert_step pl i j error : 0 < error ->
  let v1 := at_ pl i in let v2 := at_ pl j in
  isLine v1 \/ okArc v1 v2 -> (okArc v1 v2 -> radius (arcRadiusAndCenter v1 v2) <= 1000000000000000000 * error) ->
  exists chunk, goodChunk error v1 v2 chunk /\
    forall vs, convertArcs_step pl (Ok (error, vs)) i j = (true, Ok (error, vs ++ chunk)).
Proof.
  intros He v1 v2 Hok Hsz. unfold convertArcs_step. fold v1 v2. cbn [bind].
  destruct Hok as [L|O].
  - exists [v1]. split; [now left|]. intros vs. now rewrite (proj2 (bulgeIsZero_R v1) L).
  - pose proof O as (Hl & Hb1 & Hne). pose proof (notLine_ne _ Hl) as Hb.
    rewrite (proj2 (bulgeIsZero_false v1) Hl).
    destruct (Rltb (radius (arcRadiusAndCenter v1 v2)) (error + 1 / 100000000)) eqn:Er.
    + exists [v1]. split; [right; left; rbool; auto|]. intros vs. rcbn. now rewrite Er.
    + rbool. specialize (Hsz O).
      set (r := radius (arcRadiusAndCenter v1 v2)) in *.
      set (D := Rabs (sweep (bulge v1))).
      set (S := 2 * acos (1 - error / r)).
      assert (Hx : 0 < error / r < 1).
      { split; [apply Rdiv_lt_0_compat; lra|]. apply Rmult_lt_reg_r with r; [lra|]. replace (error / r * r) with error by (field; lra). lra. }
      destruct (acos_pos _ Hx) as (A1 & A2 & A3).
      pose proof (okArc_sweep _ _ O) as HT. fold D in HT.
      pose proof PI_4. pose proof PI_RGT_0.
      assert (HS : 0 < S < PI) by (unfold S; lra).
      assert (HDS : 0 < D / S) by (apply Rdiv_lt_0_compat; lra).
      pose proof (Zceil_bounds (D / S)) as HZ.
      assert (Z1 : (1 <= Zceil (D / S))%Z) by (assert (0 < IZR (Zceil (D / S))) by lra; apply lt_IZR in H1; lia).
      assert (Hxr : 1 / 1000000000000000000 <= error / r).
      { apply Rmult_le_reg_r with r; [lra|]. replace (error / r * r) with error by (field; lra). lra. }
      assert (Hbound : D / S <= 2 * 1000000000000000000).
      { apply Rmult_le_reg_r with S; [lra|]. replace (D / S * S) with D by (field; lra). unfold S. nra. }
      assert (Z2 : (Zceil (D / S) < 18446744073709551616)%Z) by (apply lt_IZR; lra).
      set (n := Z.to_nat (Zceil (D / S))).
      assert (Hn : (1 <= n)%nat) by (unfold n; lia).
      assert (En : INR n = IZR (Zceil (D / S))) by (unfold n; rewrite INR_IZR_INZ, Z2Nat.id by lia; reflexivity).
      assert (Hhalf : D / (2 * INR n) <= acos (1 - error / r)).
      { assert (0 < INR n) by (apply lt_0_INR; lia). apply Rmult_le_reg_r with (2 * INR n); [lra|].
        replace (D / (2 * INR n) * (2 * INR n)) with D by (field; lra).
        assert (Q : D / S * S <= INR n * S) by (apply Rmult_le_compat_r; lra). replace (D / S * S) with D in Q by (field; lra). unfold S in Q. lra. }
      assert (Herr : r * (1 - cos (D / (2 * INR n))) <= error).
      { assert (0 < INR n) by (apply lt_0_INR; lia).
        assert (0 <= D / (2 * INR n)) by (left; apply Rdiv_lt_0_compat; lra).
        assert (C : cos (acos (1 - error / r)) <= cos (D / (2 * INR n))) by (apply cos_decr_1; lra). rewrite A2 in C.
        assert (Q : r * (1 - cos (D / (2 * INR n))) <= r * (error / r)) by (apply Rmult_le_compat_l; lra).
        replace (r * (error / r)) with error in Q by (field; lra). exact Q. }
      eexists. split; [right; right; split; [exact O|split; [fold r; lra|]]; exact (chunk_spec v1 v2 error n O Hn Herr)|].
      intros vs. cbn [tltb ROps]. rewrite thr_R. cbn [tadd ROps]. fold r. rewrite (proj2 (Rltb_false _ _)) by lra.
      pose proof (dAngle_R v1 v2 O) as Ed. cbv zeta in Ed. fold D in Ed.
      cbn [tabs ROps]. rewrite Ed, (Rabs_pos_eq error) by lra.
      cbn [tmul tacos tsub tdiv ROps]. rewrite ?t1_R, ?t2_R. fold S. rewrite (Rabs_pos_eq S) by lra.
      cbn [tceilnat ROps]. rewrite (proj2 (Z.leb_le 0 _)) by lia. rewrite (proj2 (Z.ltb_lt _ _)) by lia. cbn [andb ofOption bind]. fold n.
      do 4 f_equal. cbn [app]. f_equal; [now rewrite t0_R|]. f_equal.
      unfold bulgeIsNeg, sgn. rcbn. destruct (Rltb (bulge v1) 0) eqn:B; rbool; destruct (Rlt_dec 0 (bulge v1)); try lra; fold D; ring.
Qed.

(** ** The whole polyline *)
Lemma convert_fold pl error : 0 < error ->
  (forall v1 v2, In (v1, v2) (pathSegs pl) -> isLine v1 \/ (okArc v1 v2 /\ radius (arcRadiusAndCenter v1 v2) <= 1000000000000000000 * error)) ->
  exists chunks, Forall2 (fun e chunk => goodChunk error (fst e) (snd e) chunk) (vsegs pl) chunks /\
    visitSegIndices pl (convertArcs_step pl) (Ok (error, [])) = Ok (error, concat chunks).
Proof.
  intros He Hok. rewrite C21_visit_order. unfold vsegs.
  assert (Hall : forall i j, In (i, j) (segs pl) -> isLine (at_ pl i) \/ (okArc (at_ pl i) (at_ pl j) /\ radius (arcRadiusAndCenter (at_ pl i) (at_ pl j)) <= 1000000000000000000 * error)).
  { intros i j H. apply Hok. apply (Permutation_in _ (vsegs_perm pl)). unfold vsegs. apply in_map_iff. exists (i, j). auto. }
  revert Hall. generalize (segs pl) as l. intros l Hall. change (concat ?c) with ([] ++ concat c).
  assert (G : forall vs : list vertex, exists chunks, Forall2 (fun e chunk => goodChunk error (fst e) (snd e) chunk) (map (fun e => (at_ pl (fst e), at_ pl (snd e))) l) chunks /\
    foldStop (convertArcs_step pl) l (Ok (error, vs)) = Ok (error, vs ++ concat chunks)); [|exact (G [])].
  induction l as [|[i j] l IH]; intros vs.
  - exists []. split; [constructor|]. cbn [foldStop concat]. now rewrite app_nil_r.
  - destruct (convert_step pl i j error He) as (chunk & Hc & Es).
    + destruct (Hall i j ltac:(now left)) as [L|[O _]]; auto.
    + intros O. destruct (Hall i j ltac:(now left)) as [L|[_ H]]; auto. destruct O as [N _]. contradiction.
    + destruct (IH ltac:(intros; apply Hall; now right) (vs ++ chunk)) as (chunks & F & E).
      exists (chunk :: chunks). split; [constructor; auto|]. cbn [foldStop]. rewrite Es. rewrite E. cbn [concat]. now rewrite app_assoc.
Qed.

(** consecutive pairs of a vertex list *)
Definition pairs (l : list vertex) : list (vertex * vertex) := match l with [] => [] | v :: vs => openSegs v vs end.

Lemma pairs_app l x l' : pairs (l ++ x :: l') = pairs (l ++ [x]) ++ pairs (x :: l').
Proof.
  destruct l as [|v l]; [reflexivity|]. cbn [pairs app]. revert v. induction l as [|w l IH]; intros v; cbn [app openSegs]; [reflexivity|].
  f_equal. apply IH.
Qed.

Lemma pairs_nth l a b : In (a, b) (pairs l) <-> exists k, nth_error l k = Some a /\ nth_error l (k + 1) = Some b.
Proof.
  destruct l as [|v l]; cbn [pairs].
  - split; [intros []|intros ([|k] & H & _); discriminate].
  - revert v. induction l as [|w l IH]; intros v; cbn [openSegs In].
    + split; [intros []|intros ([|k] & H & H'); [discriminate|destruct k; discriminate]].
    + rewrite IH. split.
      * intros [H|(k & H1 & H2)]; [injection H as <- <-; exists 0%nat; auto|exists (S k); auto].
      * intros ([|k] & H1 & H2); [left; cbn in H1, H2; congruence|right; exists k; auto].
Qed.

Lemma onSeg_end v1 v2 w q : pos v2 = pos w -> onSeg v1 v2 q -> onSeg v1 w q.
Proof. unfold onSeg, segPoint. intros E. now rewrite E. Qed.

Lemma locate n : (1 <= n)%nat -> forall x, 0 <= x <= INR n -> exists k, (k < n)%nat /\ INR k <= x <= INR (k + 1).
Proof.
  intros Hn. induction n as [|n IH]; [lia|]. intros x Hx. destruct (Rle_dec x (INR n)) as [L|L].
  - destruct n as [|n].
    + exists 0%nat. split; [lia|]. cbn [INR Nat.add] in *. lra.
    + destruct (IH ltac:(lia) x ltac:(lra)) as (k & Hk & B). exists k. split; [lia|auto].
  - exists n. split; [lia|]. rewrite Nat.add_1_r. lra.
Qed.

Lemma chunk_path error v1 v2 chunk w : 0 < error -> goodChunk error v1 v2 chunk -> pos w = pos v2 ->
  (exists h tl, chunk = h :: tl /\ pos h = pos v1) /\
  (forall a b q, In (a, b) (pairs (chunk ++ [w])) -> onSeg a b q -> exists q', onSeg v1 v2 q' /\ dist q q' <= error) /\
  (forall q, onSeg v1 v2 q -> exists a b q', In (a, b) (pairs (chunk ++ [w])) /\ onSeg a b q' /\ dist q q' <= error) /\
  (forall a b, In (a, b) (pairs (chunk ++ [w])) -> isLine a \/ (okArc v1 v2 /\ radius (arcRadiusAndCenter v1 v2) < error + 1 / 100000000)).
Proof.
  intros He Hg Hw.
  assert (D0 : forall q, dist q q <= error). { intros q. rewrite (dist_eq 0 q q); lra. }
  assert (Trivial : chunk = [v1] -> (exists h tl, chunk = h :: tl /\ pos h = pos v1) /\
    (forall a b q, In (a, b) (pairs (chunk ++ [w])) -> onSeg a b q -> exists q', onSeg v1 v2 q' /\ dist q q' <= error) /\
    (forall q, onSeg v1 v2 q -> exists a b q', In (a, b) (pairs (chunk ++ [w])) /\ onSeg a b q' /\ dist q q' <= error)).
  { intros ->. cbn [app pairs openSegs]. split; [eauto|]. split.
    - intros a b q [H|[]] Hq. injection H as <- <-. exists q. split; [now apply (onSeg_end v1 w)|auto].
    - intros q Hq. exists v1, w, q. split; [now left|]. split; [now apply (onSeg_end v1 v2)|auto]. }
  destruct Hg as [[L E]|[(O & R & E)|(O & R & P1 & P2 & P3)]].
  - destruct (Trivial E) as (T1 & T2 & T3). split; [auto|]. split; [auto|]. split; [auto|].
    rewrite E. cbn [app pairs openSegs]. intros a b [H|[]]. injection H as <- <-. now left.
  - destruct (Trivial E) as (T1 & T2 & T3). split; [auto|]. split; [auto|]. split; [auto|]. intros a b _. now right.
  - clear Trivial. set (n := length chunk) in *. pose proof O as (Hl & Hb1 & Hne). pose proof (notLine_ne _ Hl) as Hb.
    assert (Pn : 0 < INR n) by (apply lt_0_INR; lia).
    assert (SPu : forall t a b, segPoint v1 v2 t a -> segPoint v1 v2 t b -> a = b).
    { intros t a b H1 H2. apply (segPoint_arc v1 v2 _ _ Hl) in H1, H2. congruence. }
    assert (S0 : segPoint v1 v2 0 (pos v1)). { apply (segPoint_arc v1 v2 _ _ Hl). now rewrite Rmult_0_l, rot_0. }
    assert (S1 : segPoint v1 v2 1 (pos v2)). { apply (segPoint_arc v1 v2 _ _ Hl). rewrite Rmult_1_l. symmetry. apply (ctr_spec (pos v1) (pos v2) _ Hb). }
    assert (Pt : forall k a, nth_error (chunk ++ [w]) k = Some a -> (k <= n)%nat /\ segPoint v1 v2 (INR k / INR n) (pos a) /\ ((k < n)%nat -> bulge a = 0)).
    { intros k a H. destruct (Nat.lt_trichotomy k n) as [L|[L|L]].
      - rewrite nth_error_app1 in H by auto. destruct (P2 k a H). repeat split; auto; lia.
      - rewrite nth_error_app2 in H by (unfold n in L; lia). replace (k - length chunk)%nat with 0%nat in H by (unfold n in L; lia).
        injection H as <-. split; [lia|]. split; [|lia]. rewrite L. replace (INR n / INR n) with 1 by (field; lra). now rewrite Hw.
      - rewrite nth_error_app2 in H by (unfold n in L; lia). destruct (k - length chunk)%nat as [|m] eqn:Ek; [unfold n in L; lia|destruct m; discriminate]. }
    assert (LineOf : forall k a b, nth_error (chunk ++ [w]) k = Some a -> nth_error (chunk ++ [w]) (k + 1) = Some b -> isLine a /\ (k < n)%nat).
    { intros k a b Ha Hb'. destruct (Pt _ _ Hb') as (K & _). destruct (Pt _ _ Ha) as (_ & _ & B). split; [|lia].
      unfold isLine. rewrite B by lia. rewrite Rabs_R0. lra. }
    split.
    { destruct chunk as [|h tl]; [cbn in P1; lia|]. exists h, tl. split; [auto|]. destruct (P2 0%nat h eq_refl) as [_ H].
      apply (SPu 0); auto. replace (INR 0 / INR n) with 0 in H by (cbn [INR]; field; lra). exact H. }
    split; [|split].
    + intros a b q Hin (t & Ht & Hq). apply pairs_nth in Hin. destruct Hin as (k & Ha & Hb').
      destruct (LineOf _ _ _ Ha Hb') as [La Kn]. apply (segPoint_line _ _ _ _ La) in Hq. subst q.
      destruct (Pt _ _ Ha) as (_ & Sa & _). destruct (Pt _ _ Hb') as (_ & Sb & _).
      destruct (P3 k _ _ Kn Sa Sb) as [Q _]. apply Q, Ht.
    + intros q (u & Hu & Hq). destruct (locate n P1 (u * INR n)) as (k & Hk & B); [nra|].
      assert (exists a, nth_error (chunk ++ [w]) k = Some a) as (a & Ha).
      { destruct (nth_error (chunk ++ [w]) k) eqn:E; [eauto|]. apply nth_error_None in E. rewrite app_length in E. cbn [length] in E. fold n in E. lia. }
      assert (exists b, nth_error (chunk ++ [w]) (k + 1) = Some b) as (b & Hb').
      { destruct (nth_error (chunk ++ [w]) (k + 1)) eqn:E; [eauto|]. apply nth_error_None in E. rewrite app_length in E. cbn [length] in E. fold n in E. lia. }
      destruct (LineOf _ _ _ Ha Hb') as [La Kn].
      destruct (Pt _ _ Ha) as (_ & Sa & _). destruct (Pt _ _ Hb') as (_ & Sb & _).
      destruct (P3 k _ _ Kn Sa Sb) as [_ Q].
      destruct (Q u q) as (t & Ht & Hd); [|auto|].
      { split; apply Rmult_le_reg_r with (INR n); try lra.
        - replace (INR k / INR n * INR n) with (INR k) by (field; lra). lra.
        - replace (INR (k + 1) / INR n * INR n) with (INR (k + 1)) by (field; lra). lra. }
      exists a, b, (lerp (pos a) (pos b) t). split; [apply pairs_nth; eauto|]. split; [exists t; split; [auto|]; now apply (segPoint_line _ _ _ _ La)|].
      now rewrite dist_sym.
    + intros a b Hin. apply pairs_nth in Hin. destruct Hin as (k & Ha & Hb'). left. now destruct (LineOf _ _ _ Ha Hb').
Qed.

(** consecutive segments share their common vertex *)
Fixpoint chained (l : list (vertex * vertex)) : Prop :=
  match l with
  | e :: ((e' :: _) as l') => snd e = fst e' /\ chained l'
  | _ => True
  end.

Lemma chunks_path error l : 0 < error -> forall chunks w, l <> [] -> chained l ->
  Forall2 (fun e chunk => goodChunk error (fst e) (snd e) chunk) l chunks -> (forall d, pos w = pos (snd (last l d))) ->
  (exists h tl, concat chunks = h :: tl /\ (forall d, pos h = pos (fst (hd d l)))) /\
  (forall a b q, In (a, b) (pairs (concat chunks ++ [w])) -> onSeg a b q -> exists v1 v2 q', In (v1, v2) l /\ onSeg v1 v2 q' /\ dist q q' <= error) /\
  (forall v1 v2 q, In (v1, v2) l -> onSeg v1 v2 q -> exists a b q', In (a, b) (pairs (concat chunks ++ [w])) /\ onSeg a b q' /\ dist q q' <= error) /\
  (forall a b, In (a, b) (pairs (concat chunks ++ [w])) -> isLine a \/ exists v1 v2, In (v1, v2) l /\ okArc v1 v2 /\ radius (arcRadiusAndCenter v1 v2) < error + 1 / 100000000).
Proof.
  intros He. induction l as [|[v1 v2] l IH]; intros chunks w Hne Hch HF Hw; [congruence|].
  inversion HF as [|e0 chunk l0 chunks' Hg HF' E1 E2]. subst. cbn [fst snd] in Hg. clear Hne.
  destruct l as [|[v3 v4] l].
  - inversion HF'. subst. cbn [concat]. rewrite app_nil_r. specialize (Hw (v1, v2)). cbn [last snd] in Hw.
    destruct (chunk_path error v1 v2 chunk w He Hg Hw) as ((h & tl & E & P) & C1 & C2 & C3).
    split; [exists h, tl; split; [auto|]; intros d; exact P|]. split; [|split].
    + intros a b q Hin Hq. destruct (C1 a b q Hin Hq) as (q' & ? & ?). exists v1, v2, q'. split; [now left|auto].
    + intros x y q [Hin|[]] Hq. injection Hin as <- <-. destruct (C2 q Hq) as (a & b & q' & ?). exists a, b, q'. auto.
    + intros a b Hin. destruct (C3 a b Hin) as [?|[? ?]]; [now left|right]. exists v1, v2. split; [now left|auto].
  - destruct Hch as [Hc1 Hc2]. cbn [fst snd] in Hc1. subst v3.
    destruct (IH chunks' w ltac:(discriminate) Hc2 HF' Hw) as ((h & tl & E & P) & C1 & C2 & C3).
    assert (Ph : pos h = pos v2). { specialize (P (v2, v4)). exact P. }
    destruct (chunk_path error v1 v2 chunk h He Hg Ph) as ((h' & tl' & E' & P') & D1 & D2 & D3).
    cbn [concat]. rewrite E in *.
    assert (Epairs : pairs ((chunk ++ h :: tl) ++ [w]) = pairs (chunk ++ [h]) ++ pairs ((h :: tl) ++ [w])).
    { rewrite <- app_assoc. cbn [app]. apply pairs_app. }
    rewrite Epairs. split; [|split; [|split]].
    + rewrite E'. cbn [app]. exists h', (tl' ++ h :: tl). split; [auto|]. intros d. exact P'.
    + intros a b q Hin Hq. apply in_app_or in Hin. destruct Hin as [Hin|Hin].
      * destruct (D1 a b q Hin Hq) as (q' & ? & ?). exists v1, v2, q'. split; [now left|auto].
      * destruct (C1 a b q Hin Hq) as (x & y & q' & ? & ? & ?). exists x, y, q'. split; [now right|auto].
    + intros x y q [Hin|Hin] Hq.
      * injection Hin as <- <-. destruct (D2 q Hq) as (a & b & q' & ? & ?). exists a, b, q'. split; [apply in_or_app; now left|auto].
      * destruct (C2 x y q Hin Hq) as (a & b & q' & ? & ?). exists a, b, q'. split; [apply in_or_app; now right|auto].
    + intros a b Hin. apply in_app_or in Hin. destruct Hin as [Hin|Hin].
      * destruct (D3 a b Hin) as [?|[? ?]]; [now left|right]. exists v1, v2. split; [now left|auto].
      * destruct (C3 a b Hin) as [?|(x & y & ? & ?)]; [now left|right]. exists x, y. split; [now right|auto].
Qed.

Lemma openSegs_chained v0 vs : chained (openSegs v0 vs).
Proof.
  revert v0. induction vs as [|v1 vs IH]; intros v0; [exact I|]. destruct vs as [|v2 vs]; [exact I|]. split; [reflexivity|]. apply (IH v1).
Qed.

Lemma openSegs_last v0 vs d : vs <> [] -> snd (last (openSegs v0 vs) d) = last vs v0.
Proof.
  revert v0. induction vs as [|v1 vs IH]; intros v0 H; [congruence|]. destruct vs as [|v2 vs]; [reflexivity|].
  change (snd (last (openSegs v1 (v2 :: vs)) d) = last (v2 :: vs) v0). rewrite IH by discriminate. apply last_default. discriminate.
Qed.

Lemma vsegs_chained pl : chained (vsegs pl).
Proof.
  rewrite vsegs_cases. destruct (vertexes pl) as [|v0 [|v1 vs]]; [exact I|exact I|]. destruct (isClosed pl).
  - split; [reflexivity|]. apply (openSegs_chained v0 (v1 :: vs)).
  - apply (openSegs_chained v0 (v1 :: vs)).
Qed.

Lemma lastVertex_last pl d : vertexes pl <> [] -> lastVertex pl = Ok (last (vertexes pl) d).
Proof.
  intros H. unfold lastVertex. destruct (exists_last H) as (l & x & ->). rewrite rev_app_distr, last_last. reflexivity.
Qed.

(** ** C28 *)

(** [convertArcsToLines] keeps the closed flag and yields a path that is within [error] of the original path in both directions (every
    point of the new path has a point of the old path at distance at most [error] and conversely); a segment of the result is a line
    unless it comes from an arc of radius below error + 1e-8.  The hypothesis on radii is what keeps the subdivision count inside size_t. *)
Theorem C28_within_error pl error : 0 < error -> (2 <= length (vertexes pl))%nat ->
  (forall v1 v2, In (v1, v2) (pathSegs pl) ->
     isLine v1 \/ (okArc v1 v2 /\ radius (arcRadiusAndCenter v1 v2) <= 1000000000000000000 * error)) ->
  exists r, convertArcsToLines pl error = Ok r /\ isClosed r = isClosed pl /\ (2 <= length (vertexes r))%nat /\
    (forall a b q, In (a, b) (pathSegs r) -> onSeg a b q ->
       exists v1 v2 q', In (v1, v2) (pathSegs pl) /\ onSeg v1 v2 q' /\ dist q q' <= error) /\
    (forall v1 v2 q, In (v1, v2) (pathSegs pl) -> onSeg v1 v2 q ->
       exists a b q', In (a, b) (pathSegs r) /\ onSeg a b q' /\ dist q q' <= error) /\
    (forall a b, In (a, b) (pathSegs r) -> isLine a \/
       exists v1 v2, In (v1, v2) (pathSegs pl) /\ okArc v1 v2 /\ radius (arcRadiusAndCenter v1 v2) < error + 1 / 100000000).
Proof.
  intros He Hn Hok. destruct (convert_fold pl error He Hok) as (chunks & HF & E).
  unfold convertArcsToLines.
  match goal with |- context [bind ?m _] => assert (E' : m = Ok (error, concat chunks)) by exact E; rewrite E'; clear E' end. cbn [bind].
  pose proof (vsegs_chained pl) as Hch. pose proof (vsegs_cases pl) as Ev.
  assert (Hin : forall e, In e (vsegs pl) <-> In e (pathSegs pl)).
  { intros e. split; apply Permutation_in; [|apply Permutation_sym]; apply vsegs_perm. }
  destruct (vertexes pl) as [|v0 [|v1 vs]] eqn:Evs; [cbn in Hn; lia|cbn in Hn; lia|].
  assert (Hne : vsegs pl <> []) by (rewrite Ev; destruct (isClosed pl); discriminate).
  assert (Hlen : (length (vsegs pl) <= length (concat chunks))%nat).
  { clear -HF. induction HF as [|e chunk l chunks Hg HF IH]; [auto|]. cbn [concat length]. rewrite app_length.
    assert (1 <= length chunk)%nat. { destruct Hg as [[_ ->]|[(_ & _ & ->)|(_ & _ & P & _)]]; auto. } lia. }
  destruct (isClosed pl) eqn:Ec; cbn [negb].
  - (* closed *)
    assert (HL : (2 <= length (concat chunks))%nat). { rewrite Ev in Hlen. cbn [app length openSegs] in Hlen. lia. }
    destruct (concat chunks) as [|h [|h' tl]] eqn:Econ; [cbn in HL; lia|cbn in HL; lia|].
    assert (Hw : forall d, pos h = pos (snd (last (vsegs pl) d))).
    { assert (exists chunk chunks', chunks = chunk :: chunks' /\ goodChunk error (last (v1 :: vs) v0) v0 chunk) as (chunk & chunks' & -> & Hg).
      { rewrite Ev in HF. inversion HF. subst. eauto. }
      destruct (chunk_path error _ _ chunk v0 He Hg eq_refl) as ((x & y & -> & P) & _). cbn [concat app] in Econ. injection Econ as -> _.
      intros d. rewrite P. f_equal. rewrite Ev. change (last (([(last (v1 :: vs) v0, v0)] ++ openSegs v0 (v1 :: vs))) d) with (last (openSegs v0 (v1 :: vs)) d).
      rewrite openSegs_last by discriminate. reflexivity. }
    destruct (chunks_path error (vsegs pl) He chunks h Hne Hch HF Hw) as (_ & C1 & C2 & C3). rewrite Econ in *.
    eexists. split; [reflexivity|]. cbn [isClosed vertexes].
    assert (Epath : pathSegs (mkPline true (h :: h' :: tl)) = pairs ((h :: h' :: tl) ++ [h])).
    { unfold pathSegs. cbn [vertexes isClosed]. cbn [pairs app]. change (h' :: tl ++ [h]) with ((h' :: tl) ++ [h]). generalize (h' :: tl). clear. intros l.
      assert (G : forall a b, openSegs a l ++ [(last l a, b)] = openSegs a (l ++ [b])); [|apply G].
      induction l as [|x l IH]; intros a b; [reflexivity|]. cbn [openSegs app]. f_equal. rewrite <- IH. f_equal. f_equal. f_equal.
      destruct l; [reflexivity|]. change (last (x :: v :: l) a) with (last (v :: l) a). apply last_default. discriminate. }
    rewrite Epath. split; [auto|]. split; [exact HL|]. split; [|split].
    + intros a b q Ha Hq. destruct (C1 a b q Ha Hq) as (x & y & q' & I & ?). exists x, y, q'. split; [now apply Hin|auto].
    + intros x y q Hx Hq. apply Hin in Hx. destruct (C2 x y q Hx Hq) as (a & b & q' & ?). exists a, b, q'. auto.
    + intros a b Ha. destruct (C3 a b Ha) as [?|(x & y & I & ?)]; [now left|right]. exists x, y. split; [now apply Hin|auto].
  - (* open *)
    set (lv := last (v1 :: vs) v0).
    assert (El : lastVertex pl = Ok lv).
    { rewrite (lastVertex_last pl v0) by (rewrite Evs; discriminate). rewrite Evs. reflexivity. }
    rewrite El. cbn [bind]. eexists. split; [reflexivity|]. cbn [isClosed vertexes]. 
    assert (Hw : forall d, pos lv = pos (snd (last (vsegs pl) d))).
    { intros d. rewrite Ev. cbn [app]. rewrite openSegs_last by discriminate. reflexivity. }
    destruct (chunks_path error (vsegs pl) He chunks lv Hne Hch HF Hw) as ((h & tl & Econ & _) & C1 & C2 & C3). rewrite Econ in *.
    assert (Epath : pathSegs (mkPline false ((h :: tl) ++ [lv])) = pairs ((h :: tl) ++ [lv])).
    { unfold pathSegs. cbn [vertexes isClosed app pairs]. rewrite app_nil_r. destruct (tl ++ [lv]) eqn:Q; [destruct tl; discriminate|reflexivity]. }
    rewrite Epath. split; [auto|]. split; [rewrite app_length; cbn; lia|]. split; [|split].
    + intros a b q Ha Hq. destruct (C1 a b q Ha Hq) as (x & y & q' & I & ?). exists x, y, q'. split; [now apply Hin|auto].
    + intros x y q Hx Hq. apply Hin in Hx. destruct (C2 x y q Hx Hq) as (a & b & q' & ?). exists a, b, q'. auto.
    + intros a b Ha. destruct (C3 a b Ha) as [?|(x & y & I & ?)]; [now left|right]. exists x, y. split; [now apply Hin|auto].
Qed.

(** every vertex of the result is a point of the original path *)
Theorem C28_vertices_on_path pl error r w : 0 < error -> (2 <= length (vertexes pl))%nat ->
  (forall v1 v2, In (v1, v2) (pathSegs pl) ->
     isLine v1 \/ (okArc v1 v2 /\ radius (arcRadiusAndCenter v1 v2) <= 1000000000000000000 * error)) ->
  convertArcsToLines pl error = Ok r -> In w (vertexes r) ->
  exists v1 v2, In (v1, v2) (pathSegs pl) /\ onSeg v1 v2 (pos w).
Proof.
  intros He Hn Hok Hr Hw. destruct (convert_fold pl error He Hok) as (chunks & HF & E).
  unfold convertArcsToLines in Hr.
  match type of Hr with context [bind ?m _] => assert (E' : m = Ok (error, concat chunks)) by exact E; rewrite E' in Hr; clear E' end. cbn [bind] in Hr.
  pose proof (vsegs_cases pl) as Ev.
  assert (Hin : forall e, In e (vsegs pl) <-> In e (pathSegs pl)).
  { intros e. split; apply Permutation_in; [|apply Permutation_sym]; apply vsegs_perm. }
  assert (Hs : forall a b, In (a, b) (pathSegs pl) -> onSeg a b (pos a) /\ onSeg a b (pos b)).
  { intros a b H. destruct (Hok a b H) as [L|[[N _] _]].
    - split; [exists 0|exists 1]; (split; [lra|]); apply (segPoint_line _ _ _ _ L); unfold lerp; apply vec_eq; rcbn; lra.
    - pose proof (ctr_spec (pos a) (pos b) _ (notLine_ne _ N)) as Hc. unfold arcCentre in Hc.
      split; [exists 0|exists 1]; (split; [lra|]); apply (segPoint_arc _ _ _ _ N); [now rewrite Rmult_0_l, rot_0|now rewrite Rmult_1_l]. }
  assert (HC : In w (concat chunks) -> exists v1 v2, In (v1, v2) (pathSegs pl) /\ onSeg v1 v2 (pos w)).
  { intros H. apply in_concat in H. destruct H as (chunk & H1 & H2).
    assert (exists e, In e (vsegs pl) /\ goodChunk error (fst e) (snd e) chunk) as ([v1 v2] & I & G).
    { clear -HF H1. induction HF as [|e c l cs Hg HF IH]; [destruct H1|]. destruct H1 as [<-|H1]; [exists e; split; [now left|auto]|].
      destruct (IH H1) as (e' & ? & ?). exists e'. split; [now right|auto]. }
    cbn [fst snd] in G. apply Hin in I. exists v1, v2. split; [auto|].
    destruct G as [[_ ->]|[(_ & _ & ->)|(_ & _ & P1 & P2 & _)]].
    - destruct H2 as [<-|[]]. now apply (Hs v1 v2).
    - destruct H2 as [<-|[]]. now apply (Hs v1 v2).
    - apply In_nth_error in H2. destruct H2 as (k & Hk). destruct (P2 k w Hk) as [_ S].
      assert (k < length chunk)%nat by (apply nth_error_Some; congruence).
      assert (0 < INR (length chunk)) by (apply lt_0_INR; lia).
      exists (INR k / INR (length chunk)). split; [|auto]. split; [apply Rmult_le_pos; [apply pos_INR|left; now apply Rinv_0_lt_compat]|].
      apply Rmult_le_reg_r with (INR (length chunk)); [lra|]. replace (INR k / INR (length chunk) * INR (length chunk)) with (INR k) by (field; lra).
      rewrite Rmult_1_l. apply le_INR. lia. }
  destruct (vertexes pl) as [|v0 [|v1 vs]] eqn:Evs; [cbn in Hn; lia|cbn in Hn; lia|].
  destruct (isClosed pl) eqn:Ec; cbn [negb] in Hr.
  - injection Hr as <-. auto.
  - rewrite (lastVertex_last pl v0) in Hr by (rewrite Evs; discriminate). cbn [bind] in Hr. injection Hr as <-. cbn [vertexes] in Hw.
    apply in_app_or in Hw. destruct Hw as [Hw|[<-|[]]]; [auto|]. rewrite Evs.
    change (last (v0 :: v1 :: vs) v0) with (last (v1 :: vs) v0).
    rewrite <- (openSegs_last v0 (v1 :: vs) (v0, v1)) by discriminate.
    assert (I : In (last (openSegs v0 (v1 :: vs)) (v0, v1)) (pathSegs pl)).
    { apply Hin. rewrite Ev. cbn [app]. destruct (exists_last (l := openSegs v0 (v1 :: vs)) ltac:(discriminate)) as (l & x & ->).
      rewrite last_last. apply in_or_app. right. now left. }
    destruct (last (openSegs v0 (v1 :: vs)) (v0, v1)) as [a b] eqn:El. exists a, b. split; [auto|]. cbn [snd]. now apply (Hs a b).
Qed.

(** fewer than two vertices: the vertex of an open polyline is kept, that of a closed one is dropped, an empty open polyline is undefined
    behaviour (lastVertex of an empty vector) *)
Theorem C28_short v error : convertArcsToLines (mkPline false [v]) error = Ok (mkPline false [v]) /\
  convertArcsToLines (mkPline true [v]) error = Ok (mkPline true []) /\
  convertArcsToLines (mkPline true []) error = Ok (mkPline true []) /\
  convertArcsToLines (mkPline false []) error = UB.
Proof. repeat split. Qed.

(** non-vacuity: a half circle of radius 1 and its chord with error 1/100 *)
Example C28_half_disc : let pl := mkPline true [mkVertex 0 0 1; mkVertex 2 0 0] in
  (2 <= length (vertexes pl))%nat /\
  (forall v1 v2, In (v1, v2) (pathSegs pl) ->
     isLine v1 \/ (okArc v1 v2 /\ radius (arcRadiusAndCenter v1 v2) <= 1000000000000000000 * (1 / 100))).
Proof.
  cbv zeta. split; [cbn; lia|]. intros v1 v2 [H|[H|[]]]; injection H as <- <-.
  - right. set (v1 := mkVertex 0 0 1 : vertex). set (v2 := mkVertex 2 0 0 : vertex).
    assert (O : okArc v1 v2).
    { unfold okArc, isLine, v1, v2, mkVertex. cbn [bulge pos]. rewrite Rabs_R1. repeat split; try lra. intros E. injection E. lra. }
    split; [auto|]. destruct O as (Hl & _ & Hne). pose proof (notLine_ne _ Hl) as Hb.
    destruct (C12_arc_centre_radius v1 v2 Hb Hne) as (_ & Hd & _). cbv zeta in Hd. rewrite <- Hd.
    rewrite (center_R v1 v2 Hb Hne). apply dist_le_num; [lra|]. rewrite dist_sq. unfold ctr, cK, v1, v2, mkVertex. cbn [pos bulge vx vy]. lra.
  - left. unfold isLine, mkVertex. cbn [bulge]. rewrite Rabs_R0. lra.
Qed.
